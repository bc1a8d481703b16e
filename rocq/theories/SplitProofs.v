(** * Splitting and trimming a curve *)
From Coq Require Import Reals Lra Sorted Permutation.
From Verif Require Import Base BaseFacts Scalar RSum BSplineSpec BSpline BSplineInsert KnotModel
  KnotSpec KnotFacts KnotProofs VecFacts CurveModel CurveKnotModel CurveSpec CurveProofs CurveGeom
  CurveGeom2 KnotMisc Boehm Refine SplitModel.
Open Scope R_scope.

(** ** Sorted lists with the same elements are equal *)
Lemma sorted_perm_eq (l l' : list R) :
  Sorted Rle l -> Sorted Rle l' -> Permutation l l' -> l = l'.
Proof.
  intros S1 S2. apply Sorted_StronglySorted in S1; [|intros x y z; apply Rle_trans].
  apply Sorted_StronglySorted in S2; [|intros x y z; apply Rle_trans].
  revert l' S2; induction S1 as [|a l S1 IH F1]; intros l' S2 P.
  - apply Permutation_nil in P. now subst.
  - destruct l' as [|b l']; [symmetry in P; now apply Permutation_nil in P|].
    inversion S2 as [|? ? S2' F2]; subst. rewrite Forall_forall in F1, F2.
    assert (a = b).
    { assert (Ha : In a (b :: l')) by (eapply Permutation_in; [exact P|now left]).
      assert (Hb : In b (a :: l)) by (eapply Permutation_in; [symmetry; exact P|now left]).
      destruct Ha as [Ha|Ha]; [auto|]. destruct Hb as [Hb|Hb]; [auto|].
      apply Rle_antisym; auto. }
    subst b. f_equal. apply IH; auto. now apply Permutation_cons_inv in P.
Qed.

Lemma kf_skipn k d j : (d < length k)%nat -> kf (skipn d k) j = kf k (j + d).
Proof.
  intros H. assert (Hl : skipn d k <> []).
  { intros E. apply (f_equal (@length R)) in E. rewrite skipn_length in E. cbn in E. lia. }
  assert (Hk : k <> []) by (destruct k; [cbn in H; lia|discriminate]).
  destruct (Nat.lt_ge_cases (j + d) (length k)) as [C|C].
  - rewrite !(kf_nth _ _ 0) by (rewrite ?skipn_length; lia). rewrite nth_skipn. f_equal. lia.
  - rewrite !kf_ge by (rewrite ?skipn_length; lia). rewrite !last_nth by auto.
    rewrite nth_skipn, skipn_length. f_equal. lia.
Qed.

Lemma kf_firstn k m j : (j < m)%nat -> (m <= length k)%nat -> kf (firstn m k) j = kf k j.
Proof.
  intros H1 H2. rewrite !(kf_nth _ _ 0) by (rewrite ?firstn_length; lia). now apply nth_firstn.
Qed.

Lemma sorted_firstn k m : Sorted Rle k -> Sorted Rle (firstn m k).
Proof.
  intros H. apply mono_sorted. intros i Hi. rewrite firstn_length in Hi.
  rewrite !nth_firstn by lia. apply sorted_nth_le; auto. lia.
Qed.
Lemma sorted_skipn k m : Sorted Rle k -> Sorted Rle (skipn m k).
Proof.
  intros H. apply mono_sorted. intros i Hi. rewrite skipn_length in Hi.
  rewrite !nth_skipn. rewrite Nat.add_succ_r. apply sorted_nth_le; auto. lia.
Qed.
Lemma repeat_sorted x m : Sorted Rle (repeat x m).
Proof.
  apply mono_sorted. intros i Hi. rewrite repeat_length in Hi.
  rewrite !nth_repeat_lt by lia. lra.
Qed.

(** ** [l] is the part of [c] over [a, b] *)
Record part_of (c l : Curve R) (a b : R) : Prop := {
  po_wf : curve_wf l;
  po_dim : cdim l = cdim c;
  po_deg : cdeg l = cdeg c;
  po_dom0 : dom0 l = a;
  po_dom1 : dom1 l = b;
  po_piece : forall s', (cdeg c <= s' <= clast l)%nat ->
    kf (cknots l) s' < kf (cknots l) (S s') ->
    exists s, (cdeg c <= s <= clast c)%nat /\
      kf (cknots c) s <= kf (cknots l) s' /\ kf (cknots l) (S s') <= kf (cknots c) (S s) /\
      forall i u, piece (kf (cknots l)) (cdeg c) (length (cpts l)) (cpc l i) s' u
                  = piece (kf (cknots c)) (cdeg c) (length (cpts c)) (cpc c i) s u
}.

Lemma part_same c c' : same_curve c c' -> part_of c c' (dom0 c) (dom1 c).
Proof. intros [H1 H2 H3 H4 H5 H6]. now constructor. Qed.

Lemma part_trans c l m a b a' b' : part_of c l a b -> part_of l m a' b' -> part_of c m a' b'.
Proof.
  intros [A1 A2 A3 A4 A5 A6] [B1 B2 B3 B4 B5 B6].
  constructor; try congruence; auto.
  intros s' Hs Hn. destruct (B6 s') as (s1 & S1 & S2 & S3 & S4); [rewrite A3; exact Hs|exact Hn|].
  destruct (A6 s1) as (s & T1 & T2 & T3 & T4); [rewrite <- A3; exact S1|lra|].
  exists s. split; [exact T1|]. split; [lra|]. split; [lra|].
  intros i u. rewrite <- T4, <- A3. apply S4.
Qed.

(** the end [b] of a part is not a discontinuity of [c] *)
Definition good_end (c : Curve R) (b : R) : Prop :=
  curve_cont c \/ b = dom1 c \/ forall t, kf (cknots c) t <> b.

Lemma part_hcoord c l a b i u :
  curve_ok c -> curve_ok l -> part_of c l a b -> good_end c b ->
  a <= u <= b -> hcoord l i u = hcoord c i u.
Proof.
  intros Hc B1 [_ B2 B3 B4 B5 B6] Hg Hu.
  destruct (domain_span l u B1) as (s' & Hs' & Hin'); [lra|].
  rewrite B3 in Hs'. pose proof Hin' as (N & Lo & Hi).
  destruct (B6 s' Hs' N) as (s & S1 & S2 & S3 & S4).
  pose proof (curve_mono c Hc) as Hm. pose proof (clast_S c Hc) as Hn.
  pose proof (clast_S l B1) as Hn'.
  rewrite <- (piece_hcoord l s' i u B1 Hin') by lia. rewrite B3, S4.
  destruct (Rlt_le_dec u (kf (cknots c) (S s))) as [C|C].
  { apply (piece_hcoord c s i u Hc); [|lia]. split; [lra|]. split; [lra|auto]. }
  destruct Hi as [Hi|[-> Hi]]; [lra|].
  assert (E1 : u = b) by (rewrite Hi, Hn'; exact B5).
  assert (E2 : u = kf (cknots c) (S s)) by lra.
  destruct Hg as [Hg|[Hg|Hg]].
  - symmetry. apply hcoord_any_span; auto; lra.
  - apply (piece_hcoord c s i u Hc); [|lia]. split; [lra|]. split; [lra|]. right.
    split; [|exact E2].
    pose proof (ko_last _ _ _ (co_knots c Hc)) as K. rewrite Nat.add_1_r in K.
    assert (E3 : dom1 c = kf (cknots c) (S (clast c))) by (unfold dom1; now rewrite Hn).
    destruct (Nat.eq_dec s (clast c)) as [->|Hne]; [auto|].
    pose proof (mono_le _ (S s) (clast c) Hm ltac:(lia)). lra.
  - exfalso. apply (Hg (S s)). lra.
Qed.

(** first [s+1] control points *)
Lemma part_head c s : curve_wf c -> (cdeg c <= s <= clast c)%nat ->
  part_of c (MkCurve (cdim c) (cdeg c) (firstn (S s) (cpts c)) (firstn (s + cdeg c + 2) (cknots c)))
          (dom0 c) (kf (cknots c) (S s)).
Proof.
  intros Hc Hs. pose proof (wf_clast c Hc) as Hn. pose proof (wf_klen c Hc) as Hl.
  set (l := MkCurve _ _ _ _).
  assert (Lp : length (cpts l) = S s) by (unfold l; cbn [cpts]; rewrite firstn_length; lia).
  assert (K : forall t, (t < s + cdeg c + 2)%nat -> kf (cknots l) t = kf (cknots c) t).
  { intros t Ht. unfold l; cbn [cknots]. apply kf_firstn; lia. }
  constructor; try reflexivity.
  - constructor.
    + apply Hc.
    + unfold l; cbn [cpts cdim]. pose proof (wf_pts c Hc) as F.
      rewrite <- (firstn_skipn (S s) (cpts c)) in F. apply Forall_app in F. apply F.
    + rewrite Lp. cbn [cdeg l]. lia.
    + rewrite Lp. unfold l; cbn [cknots cdeg]. rewrite firstn_length. lia.
    + unfold l; cbn [cknots]. apply sorted_firstn, Hc.
  - unfold dom0. rewrite K by (cbn [cdeg l]; lia). reflexivity.
  - unfold dom1. rewrite Lp. rewrite K by lia. reflexivity.
  - intros t Ht Hne. assert (El : clast l = s) by (unfold clast; lia). rewrite El in Ht.
    rewrite !K in * by lia. exists t. split; [lia|]. split; [lra|]. split; [lra|].
    intros i u. rewrite Lp. rewrite !piece_window by lia. apply rsum_ext. intros r Hr. f_equal.
    + apply bs_ext. intros j Hj. apply K. lia.
    + unfold cpc, l; cbn [cpts]. rewrite nth_firstn by lia. reflexivity.
Qed.

(** all but the first [d] control points *)
Lemma part_tail c d : curve_wf c -> (d + cdeg c <= clast c)%nat ->
  part_of c (MkCurve (cdim c) (cdeg c) (skipn d (cpts c)) (skipn d (cknots c)))
          (kf (cknots c) (cdeg c + d)) (dom1 c).
Proof.
  intros Hc Hs. pose proof (wf_clast c Hc) as Hn. pose proof (wf_klen c Hc) as Hl.
  set (l := MkCurve _ _ _ _).
  assert (Lp : length (cpts l) = (length (cpts c) - d)%nat)
    by (unfold l; cbn [cpts]; apply skipn_length).
  assert (K : forall t, kf (cknots l) t = kf (cknots c) (t + d)).
  { intros t. unfold l; cbn [cknots]. apply kf_skipn; lia. }
  constructor; try reflexivity.
  - constructor.
    + apply Hc.
    + unfold l; cbn [cpts cdim]. pose proof (wf_pts c Hc) as F.
      rewrite <- (firstn_skipn d (cpts c)) in F. apply Forall_app in F. apply F.
    + rewrite Lp. cbn [cdeg l]. lia.
    + rewrite Lp. unfold l; cbn [cknots cdeg]. rewrite skipn_length. lia.
    + unfold l; cbn [cknots]. apply sorted_skipn, Hc.
  - unfold dom0. rewrite K. reflexivity.
  - unfold dom1. rewrite Lp, K. f_equal. lia.
  - intros t Ht Hne. assert (El : clast l = (clast c - d)%nat) by (unfold clast in *; lia).
    rewrite El in Ht. rewrite !K in *. exists (t + d)%nat. split; [lia|].
    cbn [Nat.add] in *. split; [lra|]. split; [lra|].
    intros i u. rewrite Lp. rewrite !piece_window by lia. apply rsum_ext. intros r Hr.
    replace (t + d - cdeg c + r)%nat with (t - cdeg c + r + d)%nat by lia. f_equal.
    + symmetry. apply bs_shift. intros j Hj. symmetry. apply K.
    + unfold cpc, l; cbn [cpts]. rewrite nth_skipn. f_equal. f_equal. lia.
Qed.

Section Real.
  Variables eps maxv : R.
  Local Hint Extern 0 (Scalar R) => exact (ROps eps maxv) : typeclass_instances.

  (** [u] is a knot of [c] or at least [eps] away from every knot *)
  Definition sep_from (c : Curve R) (u : R) : Prop :=
    forall y, In y (cknots c) -> y = u \/ eps <= Rabs (y - u).

  Lemma sep_refine c u m : 0 < eps -> dom0 c <= u <= dom1 c -> sep_from c u ->
    refine_ok eps c (repeat u m).
  Proof.
    intros He Hu Hs. constructor.
    - apply repeat_sorted.
    - apply Forall_forall. intros x Hx. apply repeat_spec in Hx. now subst.
    - intros x y Hx Hy. apply repeat_spec in Hx. subst x.
      apply in_app_or in Hy. destruct Hy as [Hy|Hy]; auto.
      apply repeat_spec in Hy. now left.
  Qed.

  Lemma kclamp_id c u : curve_ok c -> dom0 c <= u <= dom1 c -> kclamp (cknots c) (cdeg c) u = Ok u.
  Proof.
    intros Hc Hu. pose proof (knots_domain_ok c Hc) as E. unfold knots_domain in E.
    unfold kclamp. rewrite E. cbn [bind]. unfold sclamp. rs.
    destruct (Rltb_spec u (dom0 c)); [lra|]. destruct (Rltb_spec (dom1 c) u); [lra|]. reflexivity.
  Qed.

  Theorem split_parts c u :
    curve_ok c -> curve_eps eps c -> dom0 c <= u <= dom1 c -> sep_from c u ->
    exists l r s, try_split c u = Ok (l, r) /\
      (cdeg c <= s <= clast c)%nat /\ in_span (cknots c) (clast c) s u /\
      part_of c l (dom0 c) u /\ part_of c r u (dom1 c) /\
      cknots l = firstn (S s) (cknots c) ++ repeat u (cdeg c + 1) /\
      cknots r = repeat u (cdeg c + 1) ++ skipn (S s) (cknots c).
  Proof.
    intros Hc He Hu Hs. pose proof He as (He0 & _ & _).
    pose proof (clast_S c Hc) as Hn. pose proof (curve_len c Hc) as Hl.
    destruct (span_of eps maxv c u Hc He Hu) as (s & S1 & S2 & S3).
    pose proof (sep_refine c u (cdeg c + 1) He0 Hu Hs) as Hr.
    destruct (refine_spec eps maxv c _ Hc He Hr) as (c' & E & Sc & _ & Pm & Lc).
    set (p := cdeg c) in *. rewrite repeat_length in Lc.
    pose proof (sc_wf _ _ Sc) as Hw. pose proof (sc_deg _ _ Sc) as Ed. fold p in Ed.
    pose proof (wf_klen _ Hw) as Hl'. pose proof (wf_clast _ Hw) as Hn'. rewrite Ed in Hl'.
    pose proof (curve_mono c Hc) as Hm.
    (* the refined knots *)
    assert (EK : cknots c' = firstn (S s) (cknots c) ++ repeat u (p + 1) ++ skipn (S s) (cknots c)).
    { apply sorted_perm_eq; [apply Hw| |].
      - destruct S2 as (N & Lo & Hi).
        apply mono_sorted. intros i Hi'.
        assert (L1 : length (firstn (S s) (cknots c)) = S s) by (rewrite firstn_length; lia).
        rewrite !app_length, L1, repeat_length, skipn_length in Hi'.
        assert (G : forall i, (i < S s + (p + 1 + (length (cknots c) - S s)))%nat ->
          nth i (firstn (S s) (cknots c) ++ repeat u (p + 1) ++ skipn (S s) (cknots c)) 0
          = if (i <? S s)%nat then kf (cknots c) i
            else if (i <? S s + (p + 1))%nat then u else kf (cknots c) (i - (p + 1))).
        { intros t Ht. destruct (Nat.ltb_spec t (S s)).
          - rewrite app_nth1 by lia. rewrite nth_firstn by lia. symmetry. apply kf_nth. lia.
          - rewrite app_nth2 by lia. rewrite L1. destruct (Nat.ltb_spec t (S s + (p + 1))).
            + rewrite app_nth1 by (rewrite repeat_length; lia). apply nth_repeat_lt. lia.
            + rewrite app_nth2 by (rewrite repeat_length; lia). rewrite repeat_length, nth_skipn.
              rewrite (kf_nth _ _ 0) by lia. f_equal. lia. }
        rewrite !G by lia. clear G.
        assert (Hi2 : u <= kf (cknots c) (S s)) by (destruct Hi as [Hi|[_ Hi]]; lra).
        destruct (Nat.ltb_spec i (S s)), (Nat.ltb_spec (S i) (S s)); try lia.
        + apply Hm.
        + destruct (Nat.ltb_spec (S i) (S s + (p + 1))); [|lia].
          pose proof (mono_le _ i s Hm ltac:(lia)). lra.
        + destruct (Nat.ltb_spec i (S s + (p + 1))), (Nat.ltb_spec (S i) (S s + (p + 1))); try lia.
          * lra.
          * pose proof (mono_le _ (S s) (S i - (p + 1)) Hm ltac:(lia)). lra.
          * replace (S i - (p + 1))%nat with (S (i - (p + 1))) by lia. apply Hm.
      - eapply Permutation_trans; [exact Pm|].
        rewrite <- (firstn_skipn (S s) (cknots c)) at 1. rewrite <- app_assoc.
        apply Permutation_app_head. apply Permutation_app_comm. }
    assert (L1 : length (firstn (S s) (cknots c)) = S s) by (rewrite firstn_length; lia).
    assert (EKu : kf (cknots c') (S s) = u).
    { rewrite EK. rewrite (kf_nth _ _ 0) by (rewrite !app_length, repeat_length, L1; lia).
      rewrite app_nth2 by lia. rewrite app_nth1 by (rewrite repeat_length; lia).
      apply nth_repeat_lt. lia. }
    assert (EKu2 : kf (cknots c') (p + S s) = u).
    { rewrite EK. rewrite (kf_nth _ _ 0) by (rewrite !app_length, repeat_length, L1; lia).
      rewrite app_nth2 by lia. rewrite app_nth1 by (rewrite repeat_length; lia).
      apply nth_repeat_lt. lia. }
    assert (Hsc : (cdeg c' <= s <= clast c')%nat) by (unfold p in *; lia).
    assert (Hsc2 : (S s + cdeg c' <= clast c')%nat) by (unfold p in *; lia).
    pose proof (part_head c' s Hw Hsc) as Ph. pose proof (part_tail c' (S s) Hw Hsc2) as Pt.
    rewrite EKu in Ph. rewrite Ed, EKu2 in Pt. rewrite Ed in Ph.
    rewrite (sc_dom0 _ _ Sc) in Ph. rewrite (sc_dom1 _ _ Sc) in Pt.
    rewrite (sc_dim _ _ Sc) in Ph, Pt.
    exists (MkCurve (cdim c) p (firstn (S s) (cpts c')) (firstn (s + p + 2) (cknots c'))),
           (MkCurve (cdim c) p (skipn (S s) (cpts c')) (skipn (S s) (cknots c'))), s.
    split; [|split; [exact S1|split; [exact S2|]]].
    - unfold try_split. fold p. unfold p at 1. rewrite kclamp_id by auto. cbn [bind].
      fold p. rewrite E. cbn [bind]. rewrite (last_index_ok c Hc). cbn [bind]. fold p in S3.
      rewrite S3. cbn [bind].
      rewrite !slice_ok by lia. cbn [bind]. rewrite !Nat.sub_0_r. cbn [skipn].
      replace (s + p + 1 + 1)%nat with (s + p + 2)%nat by lia. rewrite !Nat.add_1_r.
      rewrite !(firstn_all2 (skipn (S s) _)) by (rewrite skipn_length; lia).
      rewrite try_new_sorted.
      2: rewrite firstn_length; lia.
      2: rewrite !firstn_length; lia.
      2: apply sorted_firstn, Hw.
      cbn [bind]. rewrite try_new_sorted.
      2: rewrite skipn_length; lia.
      2: rewrite !skipn_length; lia.
      2: apply sorted_skipn, Hw.
      reflexivity.
    - split; [exact (part_trans _ _ _ _ _ _ _ (part_same _ _ Sc) Ph)|].
      split; [exact (part_trans _ _ _ _ _ _ _ (part_same _ _ Sc) Pt)|].
      cbn [cknots]. rewrite EK. split.
      + rewrite app_assoc. rewrite firstn_app, app_length, L1, repeat_length.
        replace (s + p + 2 - (S s + (p + 1)))%nat with 0%nat by lia.
        rewrite firstn_O, app_nil_r. apply firstn_all2. rewrite app_length, L1, repeat_length. lia.
      + rewrite skipn_app, L1, Nat.sub_diag, skipn_O. rewrite skipn_all2 by lia. reflexivity.
  Qed.

  (** when the halves are curves that can be evaluated everywhere *)
  Lemma split_left_ok c l u s : curve_ok c -> curve_eps eps c -> sep_from c u ->
    (cdeg c <= s <= clast c)%nat -> in_span (cknots c) (clast c) s u ->
    part_of c l (dom0 c) u -> cknots l = firstn (S s) (cknots c) ++ repeat u (cdeg c + 1) ->
    kf (cknots c) s < u -> curve_ok l /\ curve_eps eps l.
  Proof.
    intros Hc (He0 & He1 & He2) Hs S1 (N & Lo & Hi) [P1 P2 P3 P4 P5 _] EK Hlt.
    pose proof (clast_S c Hc) as Hn. pose proof (curve_len c Hc) as Hl.
    pose proof (curve_mono c Hc) as Hm.
    pose proof (wf_klen l P1) as Hll. pose proof (wf_clast l P1) as Hnl.
    assert (L1 : length (firstn (S s) (cknots c)) = S s) by (rewrite firstn_length; lia).
    assert (Ls : clast l = s).
    { rewrite EK, app_length, L1, repeat_length, P3 in Hll. lia. }
    assert (K1 : forall t, (t <= s)%nat -> kf (cknots l) t = kf (cknots c) t).
    { intros t Ht. rewrite !(kf_nth _ _ 0) by (rewrite ?EK, ?app_length, ?L1; lia).
      rewrite EK. rewrite app_nth1 by lia. apply nth_firstn. lia. }
    assert (K2 : kf (cknots l) (S s) = u).
    { rewrite (kf_nth _ _ 0) by (rewrite ?EK, ?app_length, ?L1, ?repeat_length; lia).
      rewrite EK. rewrite app_nth2 by lia. apply nth_repeat_lt. lia. }
    assert (Hsu : eps <= u - kf (cknots c) s).
    { destruct (Hs (kf (cknots c) s)) as [E|E].
      - rewrite (kf_nth _ _ 0) by lia. apply nth_In. lia.
      - lra.
      - rewrite Rabs_left in E by lra. lra. }
    assert (F : eps <= kf (cknots l) (S (cdeg l)) - kf (cknots l) (cdeg l)).
    { rewrite P3. rewrite (K1 (cdeg c)) by lia.
      destruct (Nat.eq_dec (cdeg c) s) as [->|Hne]; [rewrite K2; lra|].
      rewrite K1 by lia. rewrite Nat.add_1_r in He1. lra. }
    assert (L : eps <= kf (cknots l) (S (clast l)) - kf (cknots l) (clast l)).
    { rewrite Ls, K2, K1 by lia. lra. }
    split.
    - apply wf_ok; auto; lra.
    - unfold curve_eps, eps_ok. rewrite !Nat.add_1_r. auto.
  Qed.

  Lemma split_right_ok c r u s : curve_ok c -> curve_eps eps c -> sep_from c u ->
    (cdeg c <= s <= clast c)%nat -> in_span (cknots c) (clast c) s u ->
    part_of c r u (dom1 c) -> cknots r = repeat u (cdeg c + 1) ++ skipn (S s) (cknots c) ->
    u < dom1 c -> curve_ok r /\ curve_eps eps r.
  Proof.
    intros Hc (He0 & He1 & He2) Hs S1 (N & Lo & Hi) [P1 P2 P3 P4 P5 _] EK Hlt.
    pose proof (clast_S c Hc) as Hn. pose proof (curve_len c Hc) as Hl.
    pose proof (curve_mono c Hc) as Hm.
    pose proof (wf_klen r P1) as Hll. pose proof (wf_clast r P1) as Hnl.
    assert (Ls : (clast r + S s = clast c + (cdeg c + 1))%nat).
    { rewrite EK, app_length, skipn_length, repeat_length, P3 in Hll. lia. }
    assert (Hlt' : u < kf (cknots c) (S s)).
    { destruct Hi as [Hi|[-> Hi]]; [exact Hi|]. rewrite Hn in Hi. unfold dom1 in Hlt. lra. }
    assert (K1 : forall t, (t <= cdeg c)%nat -> kf (cknots r) t = u).
    { intros t Ht. rewrite (kf_nth _ _ 0) by (rewrite ?EK, ?app_length, ?repeat_length; lia).
      rewrite EK. rewrite app_nth1 by (rewrite repeat_length; lia). apply nth_repeat_lt. lia. }
    assert (K2 : forall t, (cdeg c < t)%nat -> (t + s - cdeg c < length (cknots c))%nat ->
              kf (cknots r) t = kf (cknots c) (t + s - cdeg c)).
    { intros t Ht Ht2. rewrite !(kf_nth _ _ 0)
        by (rewrite ?EK, ?app_length, ?repeat_length, ?skipn_length; lia).
      rewrite EK. rewrite app_nth2 by (rewrite repeat_length; lia).
      rewrite repeat_length, nth_skipn. f_equal. lia. }
    assert (Hsu : eps <= kf (cknots c) (S s) - u).
    { destruct (Hs (kf (cknots c) (S s))) as [E|E].
      - rewrite (kf_nth _ _ 0) by lia. apply nth_In. lia.
      - lra.
      - rewrite Rabs_right in E by lra. lra. }
    assert (F : eps <= kf (cknots r) (S (cdeg r)) - kf (cknots r) (cdeg r)).
    { rewrite P3. rewrite (K1 (cdeg c)) by lia. rewrite K2 by lia.
      replace (S (cdeg c) + s - cdeg c)%nat with (S s) by lia. exact Hsu. }
    assert (L : eps <= kf (cknots r) (S (clast r)) - kf (cknots r) (clast r)).
    { destruct (Nat.eq_dec (clast r) (cdeg c)) as [E|Hne]; [rewrite E, <- P3; exact F|].
      pose proof (wf_len r P1).
      rewrite !K2 by lia.
      replace (S (clast r) + s - cdeg c)%nat with (clast c + 1)%nat by lia.
      replace (clast r + s - cdeg c)%nat with (clast c) by lia. exact He2. }
    split.
    - apply wf_ok; auto; lra.
    - unfold curve_eps, eps_ok. rewrite !Nat.add_1_r. auto.
  Qed.

  Lemma part_point_at c l a b u : curve_ok c -> curve_eps eps c -> curve_ok l -> curve_eps eps l ->
    part_of c l a b -> good_end c b -> dom0 c <= a -> b <= dom1 c -> a <= u <= b ->
    point_at l u = point_at c u.
  Proof.
    intros Hc He Hl Hle Hp Hg Ha Hb Hu.
    destruct (point_spec eps maxv c u Hc He ltac:(lra)) as (q & E1 & L1 & Q1).
    destruct (point_spec eps maxv l u Hl Hle) as (q' & E2 & L2 & Q2).
    { rewrite (po_dom0 _ _ _ _ Hp), (po_dom1 _ _ _ _ Hp). exact Hu. }
    assert (q' = q).
    { apply (vec_ext q' q (cdim c)); auto. { rewrite L2. apply Hp. }
      intros i Hi. rewrite Q1, Q2. now apply (part_hcoord c l a b). }
    subst q'. unfold point_at. rewrite E1, E2. cbn [bind]. now rewrite (po_dim _ _ _ _ Hp).
  Qed.

  (** Both halves stay in every convex set that contains the control points. *)
  Lemma split_convex c u l r Q : curve_ok c -> curve_eps eps c -> dom0 c <= u <= dom1 c ->
    sep_from c u -> try_split c u = Ok (l, r) ->
    convex_set eps maxv (cdim c) Q -> Forall Q (cpts c) -> Forall Q (cpts l) /\ Forall Q (cpts r).
  Proof.
    intros Hc He Hu Hs E Qc Qp. unfold try_split in E. rewrite kclamp_id in E by auto. cbn [bind] in E.
    apply bind_ok in E. destruct E as (c' & E1 & E).
    assert (Q' : Forall Q (cpts c')).
    { eapply (refine_convex eps maxv c); eauto. apply sep_refine; auto. apply He. }
    apply bind_ok in E. destruct E as (n & _ & E). apply bind_ok in E. destruct E as (s & _ & E).
    apply bind_ok in E. destruct E as (k0 & _ & E). apply bind_ok in E. destruct E as (k1 & _ & E).
    apply bind_ok in E. destruct E as (p0 & P0 & E). apply bind_ok in E. destruct E as (p1 & P1 & E).
    apply bind_ok in E. destruct E as (l' & L' & E). apply bind_ok in E. destruct E as (r' & R' & E).
    injection E as -> ->.
    assert (G : forall (p : list (list R)) (k : list R) m, try_new (cdim c) (cdeg c) p k = Ok m -> cpts m = p).
    { intros p k m H. unfold try_new in H. repeat (apply bind_ok in H; destruct H as (? & _ & H)).
      injection H as <-. reflexivity. }
    assert (F : forall (x : list (list R)) i j y, Forall Q x -> slice x i j = Ok y -> Forall Q y).
    { intros x i j y Fx H. unfold slice in H.
      destruct ((i <=? j)%nat && (j <=? length x)%nat); [|discriminate]. injection H as <-.
      apply Forall_forall. intros q Hq. rewrite Forall_forall in Fx. apply Fx.
      assert (In q (skipn i x)).
      { rewrite <- (firstn_skipn (j - i) (skipn i x)). apply in_or_app. now left. }
      rewrite <- (firstn_skipn i x). apply in_or_app. now right. }
    rewrite (G _ _ _ L'), (G _ _ _ R'). eauto.
  Qed.

  (** [u] is at least [eps] away from every knot *)
  Definition off_knots (c : Curve R) (u : R) : Prop :=
    forall y, In y (cknots c) -> eps <= Rabs (y - u).

  Lemma off_sep c u : off_knots c u -> sep_from c u.
  Proof. intros H y Hy. right. auto. Qed.

  Lemma off_lt c u s : curve_ok c -> 0 < eps -> off_knots c u -> (s <= clast c)%nat ->
    kf (cknots c) s <= u -> kf (cknots c) s < u.
  Proof.
    intros Hc He H Hs Hle. pose proof (curve_len c Hc) as Hl. pose proof (clast_S c Hc).
    destruct (Req_dec (kf (cknots c) s) u) as [E|]; [|lra]. exfalso.
    assert (Hin : In u (cknots c)).
    { rewrite <- E. rewrite (kf_nth _ _ 0) by lia. apply nth_In. lia. }
    pose proof (H u Hin) as H2. rewrite Rminus_diag_eq in H2 by auto. rewrite Rabs_R0 in H2. lra.
  Qed.

  Lemma off_good c u : curve_ok c -> 0 < eps -> off_knots c u -> good_end c u.
  Proof.
    intros Hc He H. right; right. intros t E.
    assert (Hin : In u (cknots c)).
    { rewrite <- E. pose proof (curve_len c Hc) as Hl.
      destruct (Nat.lt_ge_cases t (length (cknots c))).
      - rewrite (kf_nth _ _ 0) by lia. now apply nth_In.
      - rewrite kf_ge by lia. rewrite last_nth by (intros E'; rewrite E' in Hl; cbn in Hl; lia).
        apply nth_In. lia. }
    pose proof (H u Hin) as H2. rewrite Rminus_diag_eq in H2 by auto. rewrite Rabs_R0 in H2. lra.
  Qed.

  (** Splitting at a parameter that is not a knot. *)
  Theorem split_preserves c u :
    curve_ok c -> curve_eps eps c -> dom0 c < u < dom1 c -> off_knots c u ->
    exists l r, try_split c u = Ok (l, r) /\
      curve_ok l /\ curve_eps eps l /\ curve_ok r /\ curve_eps eps r /\
      cdeg l = cdeg c /\ cdeg r = cdeg c /\
      dom0 l = dom0 c /\ dom1 l = u /\ dom0 r = u /\ dom1 r = dom1 c /\
      (forall v, dom0 c <= v <= u -> point_at l v = point_at c v) /\
      (forall v, u <= v <= dom1 c -> point_at r v = point_at c v).
  Proof.
    intros Hc He Hu Ho. pose proof (off_sep c u Ho) as Hs.
    destruct (split_parts c u Hc He ltac:(lra) Hs) as (l & r & s & E & S1 & S2 & Pl & Pr & Kl & Kr).
    destruct (split_left_ok c l u s Hc He Hs S1 S2 Pl Kl) as (Ol & El).
    { apply off_lt; auto; [apply He|lia|apply S2]. }
    destruct (split_right_ok c r u s Hc He Hs S1 S2 Pr Kr ltac:(lra)) as (Or & Er).
    exists l, r. split; [exact E|]. split; [exact Ol|]. split; [exact El|]. split; [exact Or|].
    split; [exact Er|]. split; [apply Pl|]. split; [apply Pr|]. split; [apply Pl|].
    split; [apply Pl|]. split; [apply Pr|]. split; [apply Pr|]. split.
    - intros v Hv. apply (part_point_at c l (dom0 c) u); auto; try lra.
      apply off_good; auto. apply He.
    - intros v Hv. apply (part_point_at c r u (dom1 c)); auto; try lra.
      right; left; reflexivity.
  Qed.

  (** Splitting anywhere (existing knots included): the right half is the curve over [u, end]. *)
  Theorem split_right c u :
    curve_ok c -> curve_eps eps c -> dom0 c <= u < dom1 c -> sep_from c u ->
    exists l r, try_split c u = Ok (l, r) /\
      curve_ok r /\ curve_eps eps r /\ dom0 r = u /\ dom1 r = dom1 c /\
      (forall v, u <= v <= dom1 c -> point_at r v = point_at c v).
  Proof.
    intros Hc He Hu Hs.
    destruct (split_parts c u Hc He ltac:(lra) Hs) as (l & r & s & E & S1 & S2 & Pl & Pr & Kl & Kr).
    destruct (split_right_ok c r u s Hc He Hs S1 S2 Pr Kr ltac:(lra)) as (Or & Er).
    exists l, r. split; [exact E|]. split; [exact Or|]. split; [exact Er|].
    split; [apply Pr|]. split; [apply Pr|].
    intros v Hv. apply (part_point_at c r u (dom1 c)); auto; try lra. right; left; reflexivity.
  Qed.

  (** Splitting at the end of the domain returns the whole curve on the left. *)
  Theorem split_at_end c :
    curve_ok c -> curve_eps eps c -> sep_from c (dom1 c) ->
    exists l r, try_split c (dom1 c) = Ok (l, r) /\
      curve_ok l /\ curve_eps eps l /\ dom0 l = dom0 c /\ dom1 l = dom1 c /\
      (forall v, dom0 c <= v <= dom1 c -> point_at l v = point_at c v).
  Proof.
    intros Hc He Hs. pose proof (dom_le c Hc) as Hd.
    destruct (split_parts c (dom1 c) Hc He ltac:(lra) Hs)
      as (l & r & s & E & S1 & S2 & Pl & Pr & Kl & Kr).
    destruct (split_left_ok c l (dom1 c) s Hc He Hs S1 S2 Pl Kl) as (Ol & El).
    { destruct S2 as (N & Lo & [Hi|[Es Hi]]); [|lra]. exfalso.
      pose proof (curve_mono c Hc) as Hm. pose proof (clast_S c Hc) as Hn.
      pose proof (mono_le _ (S s) (length (cpts c)) Hm ltac:(lia)). unfold dom1 in Hi. lra. }
    exists l, r. split; [exact E|]. split; [exact Ol|]. split; [exact El|].
    split; [apply Pl|]. split; [apply Pl|].
    intros v Hv. apply (part_point_at c l (dom0 c) (dom1 c)); auto; try lra.
    right; left; reflexivity.
  Qed.

  (** A parameter outside the domain is clamped. *)
  Theorem split_clamps (c : Curve R) u v : kclamp (cknots c) (cdeg c) u = Ok v ->
    kclamp (cknots c) (cdeg c) v = Ok v -> try_split c u = try_split c v.
  Proof. intros E1 E2. unfold try_split. now rewrite E1, E2. Qed.

  (** ** Trimming *)
  Lemma tail_knots (c r : Curve R) u s y : cknots r = repeat u (cdeg c + 1) ++ skipn (S s) (cknots c) ->
    In y (cknots r) -> y = u \/ In y (cknots c).
  Proof.
    intros E Hy. rewrite E in Hy. apply in_app_or in Hy. destruct Hy as [Hy|Hy].
    - left. now apply repeat_spec in Hy.
    - right. rewrite <- (firstn_skipn (S s) (cknots c)). apply in_or_app. auto.
  Qed.

  (** [a] and [b] may be domain ends, knots ([a]) or anything at least [eps] away from the knots
      and from each other. *)
  Theorem trim_inside c a b :
    curve_ok c -> curve_eps eps c -> dom0 c <= a -> a + eps <= b -> b <= dom1 c ->
    sep_from c a -> (off_knots c b \/ (b = dom1 c /\ sep_from c b)) ->
    exists t, try_trim_range c a b = Ok [t] /\ curve_ok t /\ curve_eps eps t /\
      cdeg t = cdeg c /\ dom0 t = a /\ dom1 t = b /\
      forall v, a <= v <= b -> point_at t v = point_at c v.
  Proof.
    intros Hc He Ha Hab Hb Hsa Hsb. pose proof He as (He0 & _).
    unfold try_trim_range, smin, smax. rs.
    destruct (Rltb_spec b a); [lra|]. destruct (Rltb_spec a b); [|lra].
    destruct (split_parts c a Hc He ltac:(lra) Hsa) as (l & r & s & E & S1 & S2 & Pl & Pr & Kl & Kr).
    destruct (split_right_ok c r a s Hc He Hsa S1 S2 Pr Kr ltac:(lra)) as (Or & Er).
    rewrite E. cbn [bind].
    assert (Hsb' : sep_from c b) by (destruct Hsb as [Hsb|[_ Hsb]]; [now apply off_sep|auto]).
    assert (Hsr : sep_from r b).
    { intros y Hy. destruct (tail_knots c r a s y Kr Hy) as [->|Hy']; [|auto].
      right. rewrite Rabs_left by lra. lra. }
    assert (D0 : dom0 r = a) by apply Pr. assert (D1 : dom1 r = dom1 c) by apply Pr.
    destruct (split_parts r b Or Er ltac:(lra) Hsr)
      as (l2 & r2 & s2 & E2 & T1 & T2 & Pl2 & Pr2 & Kl2 & Kr2).
    assert (Hlt : kf (cknots r) s2 < b).
    { destruct Hsb as [Hsb|[-> _]].
      - apply (off_lt r b s2); auto; [|lia|apply T2].
        intros y Hy. destruct (tail_knots c r a s y Kr Hy) as [->|Hy']; [|auto].
        rewrite Rabs_left by lra. lra.
      - destruct T2 as (N & Lo & [Hi|[Es Hi]]); [|lra]. exfalso.
        pose proof (curve_mono r Or) as Hm. pose proof (clast_S r Or) as Hn.
        pose proof (mono_le _ (S s2) (length (cpts r)) Hm ltac:(lia)). unfold dom1 in D1, Hi. lra. }
    destruct (split_left_ok r l2 b s2 Or Er Hsr T1 T2 Pl2 Kl2 Hlt) as (Ol & El).
    rewrite E2. cbn [bind]. exists l2. rewrite D0 in Pl2.
    pose proof (part_trans _ _ _ _ _ _ _ Pr Pl2) as Pf.
    split; [reflexivity|]. split; [exact Ol|]. split; [exact El|]. split; [apply Pf|].
    split; [apply Pf|]. split; [apply Pf|].
    intros v Hv. apply (part_point_at c l2 a b); auto.
    destruct Hsb as [Hsb|[Hsb _]]; [now apply off_good|right; left; exact Hsb].
  Qed.

  (** Reversed range: the parts outside (b, a), last part first. *)
  Theorem trim_outside c a b :
    curve_ok c -> curve_eps eps c -> dom0 c < b -> b + eps <= a -> a < dom1 c ->
    sep_from c a -> off_knots c b ->
    exists t h, try_trim_range c a b = Ok [t; h] /\
      curve_ok t /\ curve_eps eps t /\ curve_ok h /\ curve_eps eps h /\
      dom0 t = a /\ dom1 t = dom1 c /\ dom0 h = dom0 c /\ dom1 h = b /\
      (forall v, a <= v <= dom1 c -> point_at t v = point_at c v) /\
      (forall v, dom0 c <= v <= b -> point_at h v = point_at c v).
  Proof.
    intros Hc He Hb Hab Ha Hsa Hsb. pose proof He as (He0 & _).
    unfold try_trim_range, smin, smax. rs.
    destruct (Rltb_spec b a); [|lra]. destruct (Rltb_spec a b); [lra|].
    pose proof (off_sep c b Hsb) as Hsb'.
    destruct (split_parts c b Hc He ltac:(lra) Hsb') as (l & r & s & E & S1 & S2 & Pl & Pr & Kl & Kr).
    destruct (split_left_ok c l b s Hc He Hsb' S1 S2 Pl Kl) as (Ol & El).
    { apply off_lt; auto; [lia|apply S2]. }
    destruct (split_right_ok c r b s Hc He Hsb' S1 S2 Pr Kr ltac:(lra)) as (Or & Er).
    rewrite E. cbn [bind].
    assert (Hsr : sep_from r a).
    { intros y Hy. destruct (tail_knots c r b s y Kr Hy) as [->|Hy']; [|auto].
      right. rewrite Rabs_left by lra. lra. }
    assert (D0 : dom0 r = b) by apply Pr. assert (D1 : dom1 r = dom1 c) by apply Pr.
    destruct (split_parts r a Or Er ltac:(lra) Hsr)
      as (l2 & r2 & s2 & E2 & T1 & T2 & Pl2 & Pr2 & Kl2 & Kr2).
    destruct (split_right_ok r r2 a s2 Or Er Hsr T1 T2 Pr2 Kr2 ltac:(lra)) as (Or2 & Er2).
    rewrite E2. cbn [bind]. exists r2, l. rewrite D1 in Pr2.
    pose proof (part_trans _ _ _ _ _ _ _ Pr Pr2) as Pf.
    split; [reflexivity|]. split; [exact Or2|]. split; [exact Er2|]. split; [exact Ol|].
    split; [exact El|]. split; [apply Pf|]. split; [apply Pf|]. split; [apply Pl|].
    split; [apply Pl|]. split.
    - intros v Hv. apply (part_point_at c r2 a (dom1 c)); auto; try lra. right; left; reflexivity.
    - intros v Hv. apply (part_point_at c l (dom0 c) b); auto; try lra. now apply off_good.
  Qed.
End Real.

(** ** Counterexample in binary64: splitting at an existing interior knot leaves a left half
    whose end point is NaN (the knot now has multiplicity degree + 2, so the last span is empty) *)
From Coq Require Import Floats.

Section Float.
  Local Existing Instance FOps.
  Definition knot_line : Curve float :=
    MkCurve 2 1 [[0; 1]; [1; 1]; [3; 1]]%float [0; 0; 1; 2; 2]%float.

  Theorem split_at_knot_refuted :
    exists (c : Curve float) (u : float) (l r : Curve float) (q q' : float),
      try_split c u = Ok (l, r) /\ knots_domain l = Ok (0%float, u) /\
      point_at c u = Ok [q] /\ PrimFloat.eqb q q = true /\
      point_at l u = Ok [q'] /\ PrimFloat.eqb q' q' = false.
  Proof.
    exists knot_line, 1%float. do 4 eexists. vm_compute. repeat split.
  Qed.
End Float.
