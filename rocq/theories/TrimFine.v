(** * Trimming keeps spans clamped, continuous and positively weighted (used by C92) *)
From Coq Require Import Reals Lra Lia List Sorted Permutation.
From Verif Require Import Base BaseFacts Scalar RSum BSplineSpec BSpline KnotModel KnotSpec
  KnotFacts KnotProofs VecFacts MiscModel CurveModel CurveKnotModel CurveSpec CurveProofs CurveGeom CurveGeom2
  KnotMisc Boehm Refine SplitModel SplitProofs Decompose CompoundModel CompoundProofs CompoundCycle.
Import ListNotations.
Open Scope R_scope.

Section Real.
  Variables eps maxv : R.
  Local Hint Extern 0 (Scalar R) => exact (ROps eps maxv) : typeclass_instances.
  Local Notation span_good := (span_good eps).
  Local Notation off_knots := (off_knots eps).

  (** a span that compound curves can be built of: valid, positively weighted, clamped, without jumps *)
  Definition fine (c : Curve R) : Prop := span_good c /\ clamped c /\ curve_cont c.

  Lemma positive_convex D : convex_set eps maxv D (fun q => 0 < rc (D - 1) q).
  Proof.
    intros p q t Lp Lq Ht Hp Hq. rewrite (rc_vlerp eps maxv) by lia.
    destruct (Req_dec t 0) as [->|N]; [lra|]. pose proof (Rmult_lt_0_compat t (rc (D - 1) q) ltac:(lra) Hq).
    pose proof (Rmult_le_pos (1 - t) (rc (D - 1) p) ltac:(lra) ltac:(lra)). lra.
  Qed.

  Lemma split_fine c u : fine c -> dom0 c < u < dom1 c -> off_knots c u ->
    exists l r, try_split c u = Ok (l, r) /\ fine l /\ fine r /\
      dom0 l = dom0 c /\ dom1 l = u /\ dom0 r = u /\ dom1 r = dom1 c /\
      (forall v, dom0 c <= v <= u -> point_at l v = point_at c v) /\
      (forall v, u <= v <= dom1 c -> point_at r v = point_at c v) /\
      (forall v, off_knots c v -> eps <= Rabs (u - v) -> off_knots l v /\ off_knots r v).
  Proof.
    intros ((Hc & He & Hw) & (Cl0 & Cl1) & Hct) Hu Ho. pose proof (off_sep eps c u Ho) as Hs. pose proof He as (He0 & _).
    destruct (split_parts eps maxv c u Hc He ltac:(lra) Hs) as (l & r & s & E & S1 & S2 & Pl & Pr & Kl & Kr).
    assert (Hlt : kf (cknots c) s < u) by (apply (off_lt eps); auto; [lia|apply S2]).
    destruct (split_left_ok eps c l u s Hc He Hs S1 S2 Pl Kl Hlt) as (Ol & El).
    destruct (split_right_ok eps c r u s Hc He Hs S1 S2 Pr Kr ltac:(lra)) as (Or & Er).
    destruct (split_preserves eps maxv c u Hc He Hu Ho) as (l' & r' & E' & _ & _ & _ & _ & _ & _ & D1 & D2 & D3 & D4 & V1 & V2).
    rewrite E in E'. injection E' as <- <-.
    pose proof (clast_S c Hc) as Hn. pose proof (curve_len c Hc) as Hl.
    pose proof (clast_S l Ol) as Hnl. pose proof (curve_len l Ol) as Hll. pose proof (clast_S r Or) as Hnr. pose proof (curve_len r Or) as Hlr.
    pose proof (po_deg _ _ _ _ Pl) as Dl. pose proof (po_deg _ _ _ _ Pr) as Dr.
    pose proof (po_dim _ _ _ _ Pl) as Ml. pose proof (po_dim _ _ _ _ Pr) as Mr.
    assert (Ll : length (cknots l) = (S s + (cdeg c + 1))%nat) by (rewrite Kl, app_length, firstn_length, repeat_length; lia).
    assert (Lr : length (cknots r) = (cdeg c + 1 + (length (cknots c) - S s))%nat) by (rewrite Kr, app_length, skipn_length, repeat_length; lia).
    pose proof (curve_mono c Hc) as Hm.
    (* the knots of both halves *)
    assert (Al : forall j, (j <= s)%nat -> kf (cknots l) j = kf (cknots c) j).
    { intros j Hj. rewrite (kf_nth _ _ 0), Kl, app_nth1 by (rewrite ?Ll, ?firstn_length; lia). rewrite nth_firstn by lia. rewrite (kf_nth _ _ 0) by lia. reflexivity. }
    assert (Bl : forall j, (s < j < length (cknots l))%nat -> kf (cknots l) j = u).
    { intros j Hj. rewrite (kf_nth _ _ 0), Kl, app_nth2 by (rewrite ?firstn_length; lia). rewrite firstn_length. apply nth_repeat_lt. lia. }
    assert (Ar : forall j, (cdeg c < j < length (cknots r))%nat -> kf (cknots r) j = kf (cknots c) (s - cdeg c + j)).
    { intros j Hj. rewrite (kf_nth _ _ 0), Kr, app_nth2 by (rewrite ?repeat_length; lia). rewrite repeat_length, nth_skipn. rewrite (kf_nth _ _ 0) by lia. f_equal. lia. }
    assert (Br : kf (cknots r) 0 = u).
    { rewrite (kf_nth _ _ 0), Kr, app_nth1 by (rewrite ?repeat_length; lia). apply nth_repeat_lt. lia. }
    assert (Wq : forall d, curve_ok d -> cdim d = cdim c -> Forall (fun q => 0 < rc (cdim c - 1) q) (cpts d) -> pos_weights d).
    { intros d Hd Ed Hq j Hj. unfold cpc. rewrite Forall_forall in Hq. rewrite Ed. apply Hq. now apply nth_In. }
    destruct (split_convex eps maxv c u l r (fun q => 0 < rc (cdim c - 1) q) Hc He ltac:(lra) Hs E (positive_convex (cdim c))) as (Ql & Qr).
    { apply Forall_forall. intros q Hq. destruct (In_nth _ _ [] Hq) as (j & Hj & <-). now apply Hw. }
    exists l, r. split; [exact E|]. split; [|split].
    - split; [split; [auto|split; [auto|now apply Wq]]|]. split.
      + unfold clamped. rewrite Al by lia. rewrite Bl by lia. rewrite D1, D2. auto.
      + intros j J1 J2. rewrite Dl in *. assert (Cs : clast l = s) by lia. rewrite Cs in J2. rewrite (Al j) by lia.
        destruct (Nat.le_gt_cases (j + cdeg c) s) as [H|H].
        * rewrite Al by lia. apply Hct; lia.
        * rewrite Bl by lia. pose proof (mono_le _ j s Hm ltac:(lia)). lra.
    - split; [split; [auto|split; [auto|now apply Wq]]|]. split.
      + unfold clamped. rewrite Br, D3, D4. split; [reflexivity|]. rewrite Ar by lia. rewrite <- Cl1. f_equal. lia.
      + intros j J1 J2. rewrite Dr in *. rewrite (Ar j) by lia. rewrite Ar by lia.
        replace (s - cdeg c + (j + cdeg c))%nat with (s - cdeg c + j + cdeg c)%nat by lia. apply Hct; lia.
    - split; [auto|]. split; [auto|]. split; [auto|]. split; [auto|]. split; [auto|]. split; [auto|].
      intros v Hv Hd. split; intros y Hy.
      + rewrite Kl in Hy. apply in_app_or in Hy as [Hy|Hy]; [|apply repeat_spec in Hy; subst y; auto].
        apply Hv. rewrite <- (firstn_skipn (S s) (cknots c)). apply in_or_app. now left.
      + rewrite Kr in Hy. apply in_app_or in Hy as [Hy|Hy]; [apply repeat_spec in Hy; subst y; auto|].
        apply Hv. rewrite <- (firstn_skipn (S s) (cknots c)). apply in_or_app. now right.
  Qed.

  (** [q] is the part of [c] over [a, b] *)
  Definition cut (c q : Curve R) (a b : R) : Prop :=
    fine q /\ dom0 q = a /\ dom1 q = b /\ forall v, a <= v <= b -> point_at q v = point_at c v.

  Lemma fine_dom c : fine c -> dom0 c < dom1 c.
  Proof. intros ((Hc & _) & _). now apply dom_le. Qed.

  Lemma trim_inside_fine c a b : 0 < eps -> fine c -> dom0 c < a -> a + eps <= b -> b < dom1 c -> off_knots c a -> off_knots c b ->
    exists t, try_trim_range c a b = Ok [t] /\ cut c t a b.
  Proof.
    intros He Hf Ha Hab Hb Oa Ob. unfold try_trim_range, smin, smax. rs. destruct (Rltb_spec b a); [lra|]. destruct (Rltb_spec a b); [|lra].
    destruct (split_fine c a Hf ltac:(lra) Oa) as (l & r & E & Fl & Fr & D1 & D2 & D3 & D4 & V1 & V2 & V3). rewrite E. cbn [bind].
    destruct (V3 b Ob) as (_ & Obr). { rewrite Rabs_minus_sym, Rabs_pos_eq; lra. }
    destruct (split_fine r b Fr ltac:(lra) Obr) as (t & r2 & E2 & Ft & _ & A1 & A2 & A3 & A4 & W1 & W2 & _). rewrite E2. cbn [bind].
    exists t. split; [reflexivity|]. split; [auto|]. split; [lra|]. split; [lra|]. intros v Hv. rewrite W1 by lra. apply V2. lra.
  Qed.
  Lemma trim_outside_fine c a b : 0 < eps -> fine c -> dom0 c < b -> b + eps <= a -> a < dom1 c -> off_knots c a -> off_knots c b ->
    exists t h, try_trim_range c a b = Ok [t; h] /\ cut c t a (dom1 c) /\ cut c h (dom0 c) b.
  Proof.
    intros He Hf Hb Hab Ha Oa Ob. unfold try_trim_range, smin, smax. rs. destruct (Rltb_spec b a); [|lra]. destruct (Rltb_spec a b); [lra|].
    destruct (split_fine c b Hf ltac:(lra) Ob) as (l & r & E & Fl & Fr & D1 & D2 & D3 & D4 & V1 & V2 & V3). rewrite E. cbn [bind].
    destruct (V3 a Oa) as (_ & Oar). { rewrite Rabs_minus_sym, Rabs_pos_eq; lra. }
    destruct (split_fine r a Fr ltac:(lra) Oar) as (h & t & E2 & _ & Ft & A1 & A2 & A3 & A4 & W1 & W2 & _). rewrite E2. cbn [bind].
    exists t, l. split; [reflexivity|]. split; (split; [auto|split; [lra|split; [lra|]]]); intros v Hv; [|apply V1; lra]. rewrite W2 by lra. apply V2. lra.
  Qed.

  Lemma cut_ends c q a b : a <= b -> cut c q a b -> st eps maxv q = point_or eps maxv c a /\ en eps maxv q = point_or eps maxv c b.
  Proof.
    intros Hab (_ & D0 & D1 & V). unfold st, en, point_or. rewrite D0, D1, !V by lra. auto.
  Qed.
  Lemma cut_on c q a b p : cut c q a b -> (on eps maxv q p <-> exists u, a <= u <= b /\ point_at c u = Ok p).
  Proof.
    intros (_ & D0 & D1 & V). unfold on. rewrite D0, D1. split; intros (u & Hu & E); exists u; (split; [auto|]); rewrite <- E; [symmetry|]; auto.
  Qed.
End Real.
