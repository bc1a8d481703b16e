(** * Variation diminution: a plane meets a curve no more often than it meets the control polygon *)
From Coq Require Import Reals Lra Lia Psatz Sorted.
From Verif Require Import Base BaseFacts Scalar RSum BSplineSpec BSpline BSplineInsert KnotModel KnotSpec KnotFacts KnotProofs
  VecFacts CurveModel CurveSpec CurveProofs CurveGeom CurveGeom2 Boehm Continuity.
Open Scope R_scope.

(** the signs of [sg 0], ..., [sg (m - 1)] occur, in this order, among [a 0], ..., [a (N - 1)] *)
Definition tracks (a : nat -> R) (N m : nat) (sg : nat -> R) : Prop :=
  exists e : nat -> nat, (forall j, (j < m)%nat -> (e j < N)%nat /\ 0 < a (e j) * sg j) /\
    (forall j, (S j < m)%nat -> (e j < e (S j))%nat).

(** consecutive signs are opposite *)
Definition alternating (m : nat) (sg : nat -> R) : Prop := forall j, (S j < m)%nat -> sg j * sg (S j) < 0.

(** cutting corners does not add sign changes *)
Lemma cut_tracks (a b w : nat -> R) N m sg : alternating m sg ->
  (forall t, (t <= N)%nat -> 0 <= w t <= 1) -> w 0%nat = 1 -> w N = 0 ->
  (forall t, (t <= N)%nat -> b t = w t * a t + (1 - w t) * a (t - 1)%nat) ->
  tracks b (S N) m sg -> tracks a N m sg.
Proof.
  intros Halt Hw W0 WN Hb (e & E1 & E2).
  set (f := fun j => if Rlt_dec 0 (a (e j) * sg j) then if Nat.eq_dec (e j) N then (e j - 1)%nat else e j else (e j - 1)%nat).
  assert (F : forall j, (j < m)%nat -> (f j < N)%nat /\ 0 < a (f j) * sg j /\ (f j <= e j <= S (f j))%nat).
  { intros j Hj. destruct (E1 j Hj) as (L & P). rewrite (Hb (e j)) in P by lia. pose proof (Hw (e j) ltac:(lia)) as Hwj.
    assert (HN : (0 < N)%nat).
    { destruct N; [|lia]. lra. }
    assert (Q : w (e j) * (a (e j) * sg j) + (1 - w (e j)) * (a (e j - 1)%nat * sg j) > 0) by nra.
    unfold f. destruct (Rlt_dec 0 (a (e j) * sg j)) as [C|C].
    - destruct (Nat.eq_dec (e j) N) as [En|En].
      + rewrite En, WN in Q. rewrite En in *. split; [lia|]. split; [nra|lia].
      + split; [lia|]. split; [exact C|lia].
    - assert (He : (0 < e j)%nat).
      { destruct (e j) eqn:Ee; [|lia]. rewrite W0 in Q. lra. }
      split; [lia|]. split; [|lia]. destruct (Rlt_dec 0 (a (e j - 1)%nat * sg j)) as [C'|C']; [exact C'|]. nra. }
  exists f. split.
  - intros j Hj. destruct (F j Hj) as (A & B & _). auto.
  - intros j Hj. destruct (F j ltac:(lia)) as (_ & B & C). destruct (F (S j) Hj) as (_ & B' & C').
    pose proof (E2 j Hj). pose proof (Halt j Hj) as Hs.
    destruct (Nat.eq_dec (f j) (f (S j))) as [E|E]; [exfalso|lia].
    rewrite <- E in B'. set (x := a (f j)) in *.
    assert (0 < x * sg j * (x * sg (S j))) by (apply Rmult_lt_0_compat; auto).
    assert (0 <= x * x) by apply Rle_0_sqr. nra.
Qed.

(** ** A basis function at a knot of full multiplicity *)
Lemma bs_pinned k s u q i : mono k -> k s <= u < k (S s) -> (q <= s)%nat ->
  (forall l, (s < l + q)%nat -> (l <= s)%nat -> k l = u) ->
  bs k s q i u = if Nat.eqb i (s - q) then 1 else 0.
Proof.
  intros Hm Hu. revert i. induction q as [|q IH]; intros i Hq Hl.
  - rewrite bs_0, Nat.sub_0_r. reflexivity.
  - rewrite bs_S. rewrite !IH by (try lia; intros l L1 L2; apply Hl; lia).
    destruct (Nat.eqb_spec i (s - q)) as [E|E].
    + destruct (Nat.eqb_spec (i + 1) (s - q)) as [E'|E']; [lia|].
      destruct (Nat.eqb_spec i (s - S q)) as [E''|E'']; [lia|].
      unfold wl, quot0. rewrite (Hl i) by lia. destruct (Req_EM_T _ _); unfold Rdiv; ring.
    + destruct (Nat.eqb_spec (i + 1) (s - q)) as [E'|E'].
      * destruct (Nat.eqb_spec i (s - S q)) as [E''|E'']; [|lia].
        unfold wr. replace (i + S q + 1)%nat with (S s) by lia. rewrite E'.
        rewrite (Hl (s - q)%nat) by lia. rewrite quot0_nz by lra. field. lra.
      * destruct (Nat.eqb_spec i (s - S q)) as [E''|E'']; [lia|]. ring.
Qed.

(** ** Inserting one knot *)
Section Insert.
  Variable c : Curve R.
  Hypothesis Hc : curve_ok c.
  Variables (j : nat) (x : R).
  Hypothesis Hj : (cdeg c <= j <= clast c)%nat.
  Hypothesis Hx : kf (cknots c) j <= x < kf (cknots c) (S j).
  Hypothesis Hd : dom0 c < x < dom1 c.

  Let w (t : nat) : R := al (kf (cknots c)) j x (cdeg c) t.

  Definition with_knot : Curve R :=
    MkCurve (cdim c) (cdeg c)
      (map (fun t => map (fun i => w t * cpc c i t + (1 - w t) * cpc c i (t - 1)) (seq 0 (cdim c))) (seq 0 (S (length (cpts c)))))
      (ins_knots (cknots c) j x).

  Lemma with_knot_cpc i t : (i < cdim c)%nat -> (t <= length (cpts c))%nat ->
    cpc with_knot i t = w t * cpc c i t + (1 - w t) * cpc c i (t - 1).
  Proof.
    intros Hi Ht. unfold cpc at 1, with_knot. cbn [cpts].
    rewrite (nth_map_lt _ (seq 0 (S (length (cpts c)))) t 0%nat []) by (rewrite seq_length; lia).
    rewrite seq_nth by lia. cbn [Nat.add]. apply (rc_map_seq (fun i => w t * cpc c i t + (1 - w t) * cpc c i (t - 1))). exact Hi.
  Qed.

  Lemma w_range t : 0 <= w t <= 1.
  Proof.
    unfold w, al. destruct (Nat.leb_spec (t + cdeg c) j); [lra|]. destruct (Nat.ltb_spec j t); [lra|].
    pose proof (curve_mono c Hc) as Hm. pose proof (mono_le _ t j Hm ltac:(lia)). pose proof (mono_le _ (S j) (t + cdeg c) Hm ltac:(lia)).
    set (a := kf (cknots c) t) in *. set (b := kf (cknots c) (t + cdeg c)) in *. split.
    - apply Rmult_le_pos; [lra|]. left. apply Rinv_0_lt_compat. lra.
    - apply Rmult_le_reg_r with (b - a); [lra|]. unfold Rdiv. rewrite Rmult_assoc, Rinv_l by lra. lra.
  Qed.

  Lemma with_knot_pts : length (cpts with_knot) = S (length (cpts c)).
  Proof. unfold with_knot. cbn [cpts]. now rewrite map_length, seq_length. Qed.

  Lemma with_knot_kf m : kf (cknots with_knot) m = kins (kf (cknots c)) j x m.
  Proof. cbn [cknots with_knot]. apply ins_knots_kf. pose proof (curve_len c Hc). pose proof (clast_S c Hc). lia. Qed.

  Lemma cpc_out i t : (cdim c <= i)%nat -> cpc c i t = 0.
  Proof.
    intros Hi. unfold cpc, rc. destruct (Nat.lt_ge_cases t (length (cpts c))) as [Ht|Ht].
    - apply nth_overflow. rewrite (cpts_len c t Hc Ht). exact Hi.
    - rewrite (nth_overflow (cpts c)) by lia. now destruct i.
  Qed.

  Lemma with_knot_out i t : (cdim c <= i)%nat -> cpc with_knot i t = 0.
  Proof.
    intros Hi. unfold cpc, rc. destruct (Nat.lt_ge_cases t (length (cpts with_knot))) as [Ht|Ht].
    - rewrite with_knot_pts in Ht. unfold with_knot. cbn [cpts].
      rewrite (nth_map_lt _ (seq 0 (S (length (cpts c)))) t 0%nat []) by (rewrite seq_length; lia).
      apply nth_overflow. rewrite map_length, seq_length. exact Hi.
    - rewrite (nth_overflow (cpts with_knot)) by lia. now destruct i.
  Qed.

  Lemma with_knot_cpc_all i t : (t <= length (cpts c))%nat ->
    cpc with_knot i t = w t * cpc c i t + (1 - w t) * cpc c i (t - 1).
  Proof.
    intros Ht. destruct (Nat.lt_ge_cases i (cdim c)) as [Hi|Hi]; [now apply with_knot_cpc|].
    rewrite with_knot_out, !cpc_out by auto. ring.
  Qed.

  Lemma with_knot_insert : is_insert c j x with_knot.
  Proof.
    pose proof (clast_S c Hc) as Hn. constructor; try reflexivity.
    - exact with_knot_pts.
    - apply Forall_forall. intros p Hp. unfold with_knot in Hp. cbn [cpts] in Hp. apply in_map_iff in Hp.
      destruct Hp as (t & <- & _). now rewrite map_length, seq_length.
    - intros i t Ht. rewrite with_knot_cpc_all by lia. unfold w. rewrite al_lo by lia. ring.
    - intros i t H1 H2 _. rewrite with_knot_cpc_all by lia. unfold w. rewrite al_mid by lia. reflexivity.
    - intros i t Ht. rewrite with_knot_cpc_all by lia. unfold w. rewrite al_hi by lia. ring.
  Qed.

  Lemma with_knot_same : same_curve c with_knot /\ curve_ok with_knot.
  Proof.
    destruct (insert_same c j x with_knot (ok_wf c Hc) Hj) as (A & B); [lra|exact with_knot_insert|]. split; [exact A|]. now apply B.
  Qed.

  Lemma with_knot_clast : clast with_knot = S (clast c).
  Proof. unfold clast. rewrite with_knot_pts. pose proof (co_len c Hc). lia. Qed.

  (** the signs of a linear form of the control points *)
  Lemma with_knot_tracks (nu : nat -> R) m sg : alternating m sg ->
    tracks (fun t => rsum (cdim c) (fun i => nu i * cpc with_knot i t)) (length (cpts with_knot)) m sg ->
    tracks (fun t => rsum (cdim c) (fun i => nu i * cpc c i t)) (length (cpts c)) m sg.
  Proof.
    intros Ha. pose proof (clast_S c Hc) as Hn. rewrite with_knot_pts.
    apply (cut_tracks _ _ w); auto.
    - intros t _. apply w_range.
    - unfold w. apply al_lo. lia.
    - unfold w. apply al_hi. lia.
    - intros t Ht. rewrite (rsum_ext _ _ (fun i => w t * (nu i * cpc c i t) + (1 - w t) * (nu i * cpc c i (t - 1)))).
      + now rewrite rsum_plus, !rsum_scal.
      + intros i _. rewrite with_knot_cpc_all by auto. ring.
  Qed.
End Insert.

(** [u] is a knot of full multiplicity: the curve passes through a control point there *)
Definition pinned (c : Curve R) (u : R) (q : nat) : Prop :=
  exists s, (cdeg c <= s <= clast c)%nat /\ kf (cknots c) s <= u < kf (cknots c) (S s) /\
    forall l, (s < l + q)%nat -> (l <= s)%nat -> kf (cknots c) l = u.

Lemma inner_span c u : curve_ok c -> dom0 c < u < dom1 c ->
  exists s, (cdeg c <= s <= clast c)%nat /\ kf (cknots c) s <= u < kf (cknots c) (S s).
Proof.
  intros Hc Hu. destruct (domain_span c u Hc ltac:(lra)) as (s & Hs & Hin). exists s. split; [exact Hs|].
  destruct Hin as (A & B & [C|(C & D)]); [lra|]. exfalso.
  pose proof (clast_S c Hc) as Hn. unfold dom1 in Hu. rewrite <- Hn in Hu. rewrite C in D. lra.
Qed.

(** inserting one knot keeps what is pinned, and pins the inserted knot once more *)
Lemma with_knot_pinned c j x u q : curve_ok c -> (cdeg c <= j <= clast c)%nat -> kf (cknots c) j <= x < kf (cknots c) (S j) ->
  dom0 c < x < dom1 c -> u <> x -> (q <= cdeg c)%nat -> pinned c u q -> pinned (with_knot c j x) u q.
Proof.
  intros Hc Hj Hx Hd Hux Hq (s & Hs & Hu & Hl).
  pose proof (curve_mono c Hc) as Hm. pose proof (with_knot_kf c Hc j x Hj) as K.
  pose proof (with_knot_clast c Hc j x) as Hcl.
  assert (M : forall a b, (a <= b)%nat -> kf (cknots c) a <= kf (cknots c) b) by (intros; now apply mono_le).
  destruct (Rlt_le_dec u x) as [C|C].
  - assert (Hsj : (s <= j)%nat).
    { destruct (Nat.le_gt_cases s j) as [Q|Q]; [exact Q|]. pose proof (M (S j) s ltac:(lia)). lra. }
    exists s. change (cdeg (with_knot c j x)) with (cdeg c). split; [lia|]. rewrite !K. split.
    + rewrite kins_lo by lia. split; [lra|]. destruct (Nat.eq_dec s j) as [->|Q]; [rewrite kins_at by lia; lra|rewrite kins_lo by lia; lra].
    + intros l L1 L2. rewrite K. rewrite kins_lo by lia. now apply Hl.
  - assert (Hxu : x < u) by lra.
    assert (Hsj : (j <= s)%nat).
    { destruct (Nat.le_gt_cases j s) as [Q|Q]; [exact Q|]. pose proof (M (S s) j ltac:(lia)). lra. }
    exists (S s). change (cdeg (with_knot c j x)) with (cdeg c). split; [lia|]. rewrite !K. split.
    + rewrite (kins_hi _ _ _ (S (S s)) (S s)) by lia. split; [|lra].
      destruct (Nat.eq_dec s j) as [->|Q]; [rewrite kins_at by lia; lra|rewrite (kins_hi _ _ _ (S s) s) by lia; lra].
    + intros l L1 L2. rewrite K.
      assert (Hlj : (j < l - 1)%nat).
      { destruct (Nat.le_gt_cases (l - 1) j) as [Q|Q]; [exfalso|exact Q].
        pose proof (Hl (l - 1)%nat ltac:(lia) ltac:(lia)) as E. pose proof (M (l - 1)%nat j Q). lra. }
      rewrite (kins_hi _ _ _ l (l - 1)) by lia. apply Hl; lia.
Qed.

Lemma with_knot_pin c j x q : curve_ok c -> (cdeg c <= j <= clast c)%nat -> kf (cknots c) j <= x < kf (cknots c) (S j) ->
  dom0 c < x < dom1 c -> pinned c x q -> pinned (with_knot c j x) x (S q).
Proof.
  intros Hc Hj Hx Hd (s & Hs & Hu & Hl).
  pose proof (curve_mono c Hc) as Hm. pose proof (with_knot_kf c Hc j x Hj) as K.
  pose proof (with_knot_clast c Hc j x) as Hcl.
  assert (M : forall a b, (a <= b)%nat -> kf (cknots c) a <= kf (cknots c) b) by (intros; now apply mono_le).
  assert (s = j).
  { destruct (lt_eq_lt_dec s j) as [[Q|Q]|Q]; [|exact Q|]; exfalso.
    - pose proof (M (S s) j ltac:(lia)). lra.
    - pose proof (M (S j) s ltac:(lia)). lra. }
  subst s. exists (S j). change (cdeg (with_knot c j x)) with (cdeg c). split; [lia|]. rewrite !K. split.
  - rewrite kins_at by lia. rewrite (kins_hi _ _ _ (S (S j)) (S j)) by lia. lra.
  - intros l L1 L2. rewrite K. destruct (Nat.eq_dec l (S j)) as [->|Q]; [now apply kins_at|].
    rewrite kins_lo by lia. apply Hl; lia.
Qed.

(** ** Refining until all given parameters are knots of full multiplicity *)
Section Refine.
  Variable nu : nat -> R.
  Definition form (c : Curve R) (t : nat) : R := rsum (cdim c) (fun i => nu i * cpc c i t).

  (** what the refinements keep *)
  Definition finer (c c' : Curve R) : Prop :=
    same_curve c c' /\ curve_ok c' /\
    forall m sg, alternating m sg -> tracks (form c') (length (cpts c')) m sg -> tracks (form c) (length (cpts c)) m sg.

  Lemma finer_refl c : curve_ok c -> finer c c.
  Proof. intros H. split; [apply same_curve_refl; now apply ok_wf|]. split; auto. Qed.

  Lemma finer_trans a b c : finer a b -> finer b c -> finer a c.
  Proof.
    intros (A1 & A2 & A3) (B1 & B2 & B3). split; [now apply (same_curve_trans a b)|]. split; [exact B2|].
    intros m sg Ha Ht. apply A3; auto.
  Qed.

  Lemma refine_once c x : curve_ok c -> dom0 c < x < dom1 c ->
    exists c', finer c c' /\ (forall u, u <> x -> pinned c u (cdeg c) -> pinned c' u (cdeg c)) /\
      (forall q, pinned c x q -> pinned c' x (S q)).
  Proof.
    intros Hc Hx. destruct (inner_span c x Hc Hx) as (j & Hj & Hin). exists (with_knot c j x). split; [|split].
    - destruct (with_knot_same c Hc j x Hj Hin Hx) as (A & B). split; [exact A|]. split; [exact B|].
      intros m sg Ha. unfold form. cbn [cdim with_knot]. now apply with_knot_tracks.
    - intros u Hu. apply with_knot_pinned; auto.
    - intros q. now apply with_knot_pin.
  Qed.

  Lemma refine_pin c x n : curve_ok c -> dom0 c < x < dom1 c ->
    exists c', finer c c' /\ (forall u, u <> x -> pinned c u (cdeg c) -> pinned c' u (cdeg c)) /\ pinned c' x n.
  Proof.
    intros Hc Hx. induction n as [|n IH].
    - exists c. split; [now apply finer_refl|]. split; [auto|]. destruct (inner_span c x Hc Hx) as (s & Hs & Hin).
      exists s. split; [exact Hs|]. split; [exact Hin|]. intros l L1 L2. lia.
    - destruct IH as (c1 & (F1 & F2 & F3) & P1 & P2).
      pose proof (sc_deg _ _ F1) as Ed. pose proof (sc_dom0 _ _ F1) as E0. pose proof (sc_dom1 _ _ F1) as E1.
      destruct (refine_once c1 x F2) as (c2 & G & Q1 & Q2); [lra|]. exists c2. split; [apply (finer_trans c c1); auto; split; auto|].
      split; [|now apply Q2]. intros u Hu Hp. rewrite <- Ed. apply Q1; [exact Hu|]. rewrite Ed. now apply P1.
  Qed.

  Lemma pinned_less c u q q' : (q' <= q)%nat -> pinned c u q -> pinned c u q'.
  Proof. intros H (s & A & B & C). exists s. split; [exact A|]. split; [exact B|]. intros l L1 L2. apply C; lia. Qed.

  Lemma refine_pins c (us : list R) : curve_ok c -> Forall (fun u => dom0 c < u < dom1 c) us ->
    exists c', finer c c' /\ Forall (fun u => pinned c' u (cdeg c)) us.
  Proof.
    intros Hc. induction 1 as [|x us Hx Hus IH].
    - exists c. split; [now apply finer_refl|constructor].
    - destruct IH as (c1 & (F1 & F2 & F3) & P1).
      pose proof (sc_deg _ _ F1) as Ed. pose proof (sc_dom0 _ _ F1) as E0. pose proof (sc_dom1 _ _ F1) as E1.
      destruct (refine_pin c1 x (cdeg c) F2) as (c2 & G & Q1 & Q2); [lra|]. exists c2.
      split; [apply (finer_trans c c1); auto; split; auto|]. constructor; [exact Q2|].
      rewrite Forall_forall in *. intros u Hu. destruct (Req_dec u x) as [->|Hne]; [exact Q2|].
      rewrite <- Ed. apply Q1; [exact Hne|]. rewrite Ed. now apply P1.
  Qed.

  (** the value of the form on the curve *)
  Definition along (c : Curve R) (u : R) : R := rsum (cdim c) (fun i => nu i * hcoord c i u).

  Lemma pinned_value c u : curve_ok c -> pinned c u (cdeg c) ->
    exists s, (cdeg c <= s <= clast c)%nat /\ kf (cknots c) s <= u < kf (cknots c) (S s) /\ along c u = form c (s - cdeg c).
  Proof.
    intros Hc (s & Hs & Hu & Hl). exists s. split; [exact Hs|]. split; [exact Hu|]. unfold along, form.
    apply rsum_ext. intros i _. f_equal.
    assert (Hin : in_span (cknots c) (clast c) s u) by (unfold in_span; split; [lra|]; split; [lra|left; lra]).
    rewrite <- (piece_hcoord c s i u Hc Hin) by lia. unfold piece. pose proof (clast_S c Hc) as Hn.
    rewrite (rsum_single _ (s - cdeg c)).
    - rewrite (bs_pinned _ _ _ _ _ (curve_mono c Hc) Hu) by (auto; lia). rewrite Nat.eqb_refl. ring.
    - lia.
    - intros t Ht Hne. rewrite (bs_pinned _ _ _ _ _ (curve_mono c Hc) Hu) by (auto; lia).
      destruct (Nat.eqb_spec t (s - cdeg c)); [congruence|ring].
  Qed.

  (** variation diminution inside the domain, in homogeneous coordinates *)
  Lemma variation_inner c (us : nat -> R) m : curve_ok c ->
    (forall j, (j < m)%nat -> dom0 c < us j < dom1 c) -> (forall j, (S j < m)%nat -> us j < us (S j)) ->
    (forall j, (j < m)%nat -> along c (us j) <> 0) -> alternating m (fun j => along c (us j)) ->
    tracks (form c) (length (cpts c)) m (fun j => along c (us j)).
  Proof.
    intros Hc Hd Hi Hz Ha.
    destruct (refine_pins c (map us (seq 0 m)) Hc) as (c' & (F1 & F2 & F3) & P).
    { apply Forall_forall. intros u Hu. apply in_map_iff in Hu. destruct Hu as (j & <- & Hj). apply in_seq in Hj. apply Hd. lia. }
    apply F3; [exact Ha|]. rewrite Forall_forall in P. pose proof (sc_deg _ _ F1) as Ed.
    assert (V : forall j, (j < m)%nat -> exists s, (cdeg c' <= s <= clast c')%nat /\
              kf (cknots c') s <= us j < kf (cknots c') (S s) /\ along c (us j) = form c' (s - cdeg c')).
    { intros j Hj. destruct (pinned_value c' (us j) F2) as (s & A & B & C).
      - rewrite Ed. apply P. apply in_map_iff. exists j. split; [reflexivity|]. apply in_seq. lia.
      - exists s. split; [exact A|]. split; [exact B|]. rewrite <- C. unfold along. rewrite (sc_dim _ _ F1).
        apply rsum_ext. intros i _. f_equal. symmetry. apply same_hcoord; auto. specialize (Hd j Hj). lra. }
    assert (Ch : exists e, forall j, (j < m)%nat -> (cdeg c' <= e j <= clast c')%nat /\
              kf (cknots c') (e j) <= us j < kf (cknots c') (S (e j)) /\ along c (us j) = form c' (e j - cdeg c')).
    { clear - V. induction m as [|m IH]; [exists (fun _ => 0%nat); intros; lia|].
      destruct IH as (e & E); [intros; apply V; lia|]. destruct (V m ltac:(lia)) as (s & S1).
      exists (fun j => if Nat.eqb j m then s else e j). intros j Hj. destruct (Nat.eqb_spec j m) as [->|Hne]; [exact S1|apply E; lia]. }
    destruct Ch as (e & E). exists (fun j => (e j - cdeg c')%nat). pose proof (clast_S c' F2) as Hn.
    pose proof (curve_mono c' F2) as Hm. split.
    - intros j Hj. destruct (E j Hj) as (A & B & C). split; [lia|]. rewrite <- C.
      apply Rsqr_pos_lt. now apply Hz.
    - intros j Hj. destruct (E j ltac:(lia)) as (A & B & C). destruct (E (S j) Hj) as (A' & B' & C').
      pose proof (Hi j Hj). assert (Hne : along c (us j) <> along c (us (S j))).
      { intros Q. pose proof (Ha j Hj) as G. cbv beta in G. rewrite Q in G. nra. }
      assert (Q : (e j <= e (S j))%nat).
      { destruct (Nat.le_gt_cases (e j) (e (S j))) as [Q|Q]; [exact Q|].
        pose proof (mono_le _ (S (e (S j))) (e j) Hm ltac:(lia)). lra. }
      assert (e j <> e (S j)) by (intros Q'; apply Hne; rewrite C, C', Q'; reflexivity). lia.
  Qed.

  (** near every parameter of the domain there are inner parameters with the same sign *)
  Lemma along_near c u d : curve_ok c -> dom0 c <= u <= dom1 c -> along c u <> 0 -> 0 < d ->
    exists u', dom0 c < u' < dom1 c /\ Rabs (u' - u) < d /\ 0 < along c u' * along c u.
  Proof.
    intros Hc Hu Hz Hd. pose proof (dom_le c Hc) as Hdl. pose proof (clast_S c Hc) as Hn.
    destruct (domain_span c u Hc Hu) as (s & Hs & Hin).
    set (pv := fun x => rsum (cdim c) (fun i => nu i * piece (kf (cknots c)) (cdeg c) (length (cpts c)) (cpc c i) s x)).
    assert (Ep : forall x, in_span (cknots c) (clast c) s x -> along c x = pv x).
    { intros x Hx. unfold along, pv. apply rsum_ext. intros i _. now rewrite (piece_hcoord c s i x Hc Hx) by lia. }
    assert (Cp : continuity pv).
    { unfold pv. apply (rsum_cont (cdim c) (fun i x => nu i * piece (kf (cknots c)) (cdeg c) (length (cpts c)) (cpc c i) s x)).
      intros i _ x. apply (continuity_pt_mult (fun _ => nu i) (piece (kf (cknots c)) (cdeg c) (length (cpts c)) (cpc c i) s)).
      - apply continuity_pt_const. now intros a b.
      - apply piece_cont. }
    rewrite (Ep u Hin) in *.
    destruct (Cp u (Rabs (pv u)) (Rabs_pos_lt _ Hz)) as (a & Ha & Near). cbn in Near. unfold R_dist in Near.
    set (lo := kf (cknots c) s) in *. set (hi := kf (cknots c) (S s)) in *.
    assert (Hlh : lo < hi) by apply Hin.
    assert (Hlu : lo <= u <= hi) by (destruct Hin as (_ & A & [B|(_ & B)]); unfold lo, hi; lra).
    assert (Hdom : dom0 c <= lo /\ hi <= dom1 c).
    { pose proof (curve_mono c Hc) as Hm. unfold dom0, dom1, lo, hi. split; apply mono_le; auto; lia. }
    set (h := Rmin (Rmin d a / 2) ((hi - lo) / 4)).
    assert (Hh : 0 < h /\ h < d /\ h < a /\ h <= (hi - lo) / 4).
    { assert (0 < Rmin d a) by (apply Rmin_glb_lt; lra). pose proof (Rmin_l d a). pose proof (Rmin_r d a).
      pose proof (Rmin_l (Rmin d a / 2) ((hi - lo) / 4)). pose proof (Rmin_r (Rmin d a / 2) ((hi - lo) / 4)).
      assert (0 < h) by (apply Rmin_glb_lt; lra). unfold h in *. lra. }
    assert (X : exists u', lo < u' < hi /\ u' <> u /\ Rabs (u' - u) < d /\ Rabs (u' - u) < a).
    { destruct (Rle_lt_dec u ((lo + hi) / 2)) as [C|C].
      - exists (u + h). replace (u + h - u) with h by ring. rewrite Rabs_right by lra. repeat split; lra.
      - exists (u - h). replace (u - h - u) with (- h) by ring. rewrite Rabs_left by lra. repeat split; lra. }
    destruct X as (u' & I1 & I2 & I3 & I4). exists u'. split; [lra|]. split; [exact I3|].
    rewrite (Ep u'); [|unfold in_span; fold lo hi; split; [lra|]; split; [lra|left; lra]].
    assert (B : Rabs (pv u' - pv u) < Rabs (pv u)).
    { apply Near. split; [split; [exact I|now apply not_eq_sym]|exact I4]. }
    revert B. unfold Rabs. repeat destruct (Rcase_abs _); nra.
  Qed.

  Lemma gap_below (us : nat -> R) m : (forall j, (S j < m)%nat -> us j < us (S j)) ->
    exists d, 0 < d /\ forall j, (S j < m)%nat -> 2 * d <= us (S j) - us j.
  Proof.
    induction m as [|m IH]; intros H; [exists 1; split; [lra|intros; lia]|].
    destruct IH as (d & Hd & G); [intros; apply H; lia|]. destruct m as [|m]; [exists d; split; [exact Hd|intros; lia]|].
    exists (Rmin d ((us (S m) - us m) / 2)). pose proof (H m ltac:(lia)).
    pose proof (Rmin_l d ((us (S m) - us m) / 2)). pose proof (Rmin_r d ((us (S m) - us m) / 2)).
    split; [apply Rmin_glb_lt; lra|]. intros j Hj. destruct (Nat.eq_dec j m) as [->|Q]; [lra|].
    pose proof (G j ltac:(lia)). lra.
  Qed.

  Lemma tracks_same_sign a N m sg sg' : (forall j, (j < m)%nat -> 0 < sg' j * sg j) -> tracks a N m sg' -> tracks a N m sg.
  Proof.
    intros H (e & E1 & E2). exists e. split; [|exact E2]. intros j Hj. destruct (E1 j Hj) as (A & B). split; [exact A|].
    specialize (H j Hj). set (x := a (e j)) in *.
    assert (Q : 0 < x * sg' j * (sg' j * sg j)) by (apply Rmult_lt_0_compat; auto).
    assert (S0 : 0 <= sg' j * sg' j) by apply Rle_0_sqr. nra.
  Qed.

  Lemma variation_form c (us : nat -> R) m : curve_ok c ->
    (forall j, (j < m)%nat -> dom0 c <= us j <= dom1 c) -> (forall j, (S j < m)%nat -> us j < us (S j)) ->
    (forall j, (j < m)%nat -> along c (us j) <> 0) -> alternating m (fun j => along c (us j)) ->
    tracks (form c) (length (cpts c)) m (fun j => along c (us j)).
  Proof.
    intros Hc Hd Hi Hz Ha. destruct (gap_below us m Hi) as (d & Hdp & Hg).
    assert (Ch : exists vs : nat -> R, forall j, (j < m)%nat -> dom0 c < vs j < dom1 c /\ Rabs (vs j - us j) < d /\ 0 < along c (vs j) * along c (us j)).
    { assert (V : forall j, (j < m)%nat -> exists v, dom0 c < v < dom1 c /\ Rabs (v - us j) < d /\ 0 < along c v * along c (us j)).
      { intros j Hj. apply along_near; auto. }
      clear - V. induction m as [|m IH]; [exists (fun _ => 0); intros; lia|].
      destruct IH as (e & E); [intros; apply V; lia|]. destruct (V m ltac:(lia)) as (s & S1).
      exists (fun j => if Nat.eqb j m then s else e j). intros j Hj. destruct (Nat.eqb_spec j m) as [->|Hne]; [exact S1|apply E; lia]. }
    destruct Ch as (vs & V). apply (tracks_same_sign _ _ _ _ (fun j => along c (vs j))).
    { intros j Hj. now apply V. }
    apply variation_inner; auto.
    - intros j Hj. now apply V.
    - intros j Hj. destruct (V j ltac:(lia)) as (_ & A & _). destruct (V (S j) Hj) as (_ & B & _).
      pose proof (Hg j Hj). apply Rabs_def2 in A. apply Rabs_def2 in B. lra.
    - intros j Hj E. destruct (V j Hj) as (_ & _ & B). rewrite E in B. lra.
    - intros j Hj. destruct (V j ltac:(lia)) as (_ & _ & A). destruct (V (S j) Hj) as (_ & _ & B). pose proof (Ha j Hj) as G. cbv beta in G |- *.
      set (a := along c (vs j)) in *. set (a' := along c (us j)) in *. set (b := along c (vs (S j))) in *. set (b' := along c (us (S j))) in *.
      assert (Q : 0 < a * a' * (b * b')) by (apply Rmult_lt_0_compat; auto).
      destruct (Rlt_le_dec (a * b) 0) as [C|C]; [exact C|exfalso]. nra.
  Qed.
End Refine.

(** ** The theorem about points *)
(** signed value of an affine form at a point: the side of a plane it lies on *)
Definition side (n : list R) (d : R) (p : list R) : R := rsum (length n) (fun i => rc i n * rc i p) - d.

(** the control point [t], as a point of space *)
Definition control_point (c : Curve R) (t : nat) : list R := map (fun i => cpc c i t / cpc c (cdim c - 1) t) (seq 0 (cdim c - 1)).

Section Real.
  Variables eps maxv : R.
  Local Hint Extern 0 (Scalar R) => exact (ROps eps maxv) : typeclass_instances.

  Let coeff (n : list R) (d : R) (i : nat) : R := if Nat.eqb i (length n) then - d else rc i n.

  Lemma coeff_sum n d (f : nat -> R) :
    rsum (S (length n)) (fun i => coeff n d i * f i) = rsum (length n) (fun i => rc i n * f i) - d * f (length n).
  Proof.
    cbn [rsum]. unfold coeff at 2. rewrite Nat.eqb_refl.
    rewrite (rsum_ext _ (fun i => coeff n d i * f i) (fun i => rc i n * f i)); [ring|].
    intros i Hi. unfold coeff. destruct (Nat.eqb_spec i (length n)); [lia|reflexivity].
  Qed.

  (** *** If the curve is on alternating sides of a plane at increasing parameters, so are control points in the same order *)
  Theorem variation_diminishing c n d m (us : nat -> R) (ps : nat -> list R) :
    curve_ok c -> curve_eps eps c -> pos_weights c -> length n = (cdim c - 1)%nat ->
    (forall j, (j < m)%nat -> dom0 c <= us j <= dom1 c /\ point_at c (us j) = Ok (ps j)) ->
    (forall j, (S j < m)%nat -> us j < us (S j)) ->
    (forall j, (j < m)%nat -> side n d (ps j) <> 0) ->
    (forall j, (S j < m)%nat -> side n d (ps j) * side n d (ps (S j)) < 0) ->
    exists e : nat -> nat, (forall j, (j < m)%nat -> (e j < length (cpts c))%nat /\ 0 < side n d (control_point c (e j)) * side n d (ps j)) /\
      (forall j, (S j < m)%nat -> (e j < e (S j))%nat).
  Proof.
    intros Hc He Hw Hn Hu Hi Hz Ha. pose proof (co_dim c Hc) as Hdim.
    assert (A : forall j, (j < m)%nat -> 0 < wfun c (us j) /\ along (coeff n d) c (us j) = wfun c (us j) * side n d (ps j)).
    { intros j Hj. destruct (Hu j Hj) as (Hd & Ep). assert (Hp : 0 < wfun c (us j)) by now apply (wfun_pos eps maxv). split; [exact Hp|].
      destruct (point_at_spec eps maxv c (us j) Hc He Hd) as (p & E & _ & V); [lra|]. rewrite Ep in E. injection E as <-.
      unfold along. replace (cdim c) with (S (length n)) by lia. rewrite (coeff_sum n d (fun i => hcoord c i (us j))). unfold side.
      rewrite (rsum_ext _ (fun i => rc i n * rc i (ps j)) (fun i => (rc i n * hcoord c i (us j)) * / wfun c (us j))).
      - rewrite rsum_scal_r. unfold wfun in *. rewrite <- Hn in *. field. lra.
      - intros i Hi'. rewrite V by lia. unfold nurbs. field. lra. }
    assert (B : forall t, (t < length (cpts c))%nat -> 0 < cpc c (cdim c - 1) t /\ form (coeff n d) c t = cpc c (cdim c - 1) t * side n d (control_point c t)).
    { intros t Ht. pose proof (Hw t Ht) as Hp. split; [exact Hp|]. unfold form. replace (cdim c) with (S (length n)) at 1 by lia.
      rewrite (coeff_sum n d (fun i => cpc c i t)). unfold side.
      rewrite (rsum_ext _ (fun i => rc i n * rc i (control_point c t)) (fun i => (rc i n * cpc c i t) * / cpc c (cdim c - 1) t)).
      - rewrite rsum_scal_r. rewrite <- Hn in *. field. lra.
      - intros i Hi'. unfold control_point. rewrite (rc_map_seq (fun i => cpc c i t / cpc c (cdim c - 1) t)) by lia. field. lra. }
    assert (T : tracks (form (coeff n d) c) (length (cpts c)) m (fun j => along (coeff n d) c (us j))).
    { apply variation_form; auto.
      - intros j Hj. now apply Hu.
      - intros j Hj. destruct (A j Hj) as (P & ->). apply Rmult_integral_contrapositive. split; [lra|now apply Hz].
      - intros j Hj. destruct (A j ltac:(lia)) as (P & ->). destruct (A (S j) Hj) as (P' & ->). pose proof (Ha j Hj).
        pose proof (Rmult_lt_0_compat _ _ P P'). nra. }
    destruct T as (e & E1 & E2). exists e. split; [|exact E2]. intros j Hj. destruct (E1 j Hj) as (L & P). split; [exact L|].
    destruct (A j Hj) as (P1 & Q1). destruct (B (e j) L) as (P2 & Q2). rewrite Q1, Q2 in P.
    set (x := side n d (control_point c (e j))) in *. set (y := side n d (ps j)) in *.
    pose proof (Rmult_lt_0_compat _ _ P1 P2) as P3. set (w := wfun c (us j)) in *. set (w' := cpc c (cdim c - 1) (e j)) in *.
    replace (w' * x * (w * y)) with (w * w' * (x * y)) in P by ring.
    destruct (Rlt_le_dec 0 (x * y)) as [C|C]; [exact C|exfalso]. nra.
  Qed.

  (** *** Control points that advance in a direction give a curve that advances in that direction *)
  Theorem monotone_control c n u v p q :
    curve_ok c -> curve_eps eps c -> pos_weights c -> length n = (cdim c - 1)%nat ->
    (forall t, (S t < length (cpts c))%nat -> side n 0 (control_point c t) <= side n 0 (control_point c (S t))) ->
    dom0 c <= u -> u <= v -> v <= dom1 c -> point_at c u = Ok p -> point_at c v = Ok q ->
    side n 0 p <= side n 0 q.
  Proof.
    intros Hc He Hw Hn Hmono Hu Huv Hv Ep Eq. apply Rnot_lt_le. intros C.
    destruct (Req_dec u v) as [->|Hne]; [rewrite Ep in Eq; injection Eq as <-; lra|].
    set (d := (side n 0 p + side n 0 q) / 2).
    assert (S0 : forall x, side n d x = side n 0 x - d) by (intros x; unfold side; ring).
    destruct (variation_diminishing c n d 2 (fun j => if Nat.eqb j 0 then u else v) (fun j => if Nat.eqb j 0 then p else q)) as (e & E1 & E2); auto.
    - intros j Hj. destruct j as [|[|j]]; [| |lia]; cbn [Nat.eqb]; split; auto; lra.
    - intros j Hj. assert (j = 0)%nat as -> by lia. cbn [Nat.eqb]. lra.
    - intros j Hj. rewrite S0. destruct j as [|[|j]]; [| |lia]; cbn [Nat.eqb]; unfold d; lra.
    - intros j Hj. assert (j = 0)%nat as -> by lia. cbn [Nat.eqb]. rewrite !S0. unfold d. nra.
    - destruct (E1 0%nat ltac:(lia)) as (L0 & P0). destruct (E1 1%nat ltac:(lia)) as (L1 & P1). cbn [Nat.eqb] in P0, P1. rewrite !S0 in P0, P1.
      specialize (E2 0%nat ltac:(lia)).
      assert (M : forall a b, (a <= b)%nat -> (b < length (cpts c))%nat -> side n 0 (control_point c a) <= side n 0 (control_point c b)).
      { intros a b Hab. induction Hab as [|b Hab IH]; intros Hb; [lra|]. specialize (IH ltac:(lia)). specialize (Hmono b Hb). lra. }
      specialize (M (e 0%nat) (e 1%nat) ltac:(lia) L1). unfold d in *. nra.
  Qed.
End Real.
