(** * C14: [try_add_knot] is Boehm's knot insertion when the weights involved agree *)
From Coq Require Import Reals Lra Lia Sorted Permutation Floats.
From Verif Require Import Base BaseFacts Scalar KnotModel RSum BSplineSpec BSpline BSplineInsert
  KnotSpec KnotFacts KnotProofs VecFacts CurveModel CurveKnotModel CurveSpec CurveProofs KnotMisc
  Boehm Refine.
Open Scope R_scope.

(** all weights are the same number (a polynomial, non-rational curve) *)
Definition uniform_weights (c : Curve R) : Prop :=
  exists w, forall t, (t < length (cpts c))%nat -> cpc c (cdim c - 1) t = w.

Lemma firstn_In {A} (l : list A) m q : In q (firstn m l) -> In q l.
Proof. intros H. rewrite <- (firstn_skipn m l). apply in_or_app. now left. Qed.
Lemma skipn_In {A} (l : list A) m q : In q (skipn m l) -> In q l.
Proof. intros H. rewrite <- (firstn_skipn m l). apply in_or_app. now right. Qed.

Section Real.
  Variables eps maxv : R.
  Local Hint Extern 0 (Scalar R) => exact (ROps eps maxv) : typeclass_instances.
  Local Notation refine_ok := (refine_ok eps).

  (** the new control points: [P'_t] for [t <= j+1-p..j] blended except in the weight *)
  Definition addk (c : Curve R) (j : nat) (x : R) (i t : nat) : R :=
    let k := kf (cknots c) in
    let a := if Req_EM_T (k (t + cdeg c)%nat - k t) 0 then 0
             else (x - k t) * (1 / (k (t + cdeg c)%nat - k t)) in
    if (i =? cdim c - 1)%nat then cpc c i t
    else cpc c i t - (cpc c i t - cpc c i (t - 1)) * (1 - a).

  Lemma addk_blend c j x i t : (i <> cdim c - 1)%nat ->
    kf (cknots c) t < kf (cknots c) (t + cdeg c) ->
    addk c j x i t =
      (x - kf (cknots c) t) / (kf (cknots c) (t + cdeg c) - kf (cknots c) t) * cpc c i t
      + (1 - (x - kf (cknots c) t) / (kf (cknots c) (t + cdeg c) - kf (cknots c) t))
        * cpc c i (t - 1).
  Proof.
    intros Hi Hk. unfold addk. destruct (Nat.eqb_spec i (cdim c - 1)); [contradiction|].
    destruct (Req_EM_T _ 0) as [E|E]; [lra|]. field. lra.
  Qed.

  (** the exact effect of [try_add_knot] on a well-formed curve, any weights *)
  Theorem add_knot_effect c x : curve_ok c -> dom0 c <= x < dom1 c ->
    exists c' j, try_add_knot c x = Ok c' /\ (cdeg c <= j <= clast c)%nat /\
      kf (cknots c) j <= x < kf (cknots c) (S j) /\
      cdim c' = cdim c /\ cdeg c' = cdeg c /\ cknots c' = ins_knots (cknots c) j x /\
      length (cpts c') = S (length (cpts c)) /\
      Forall (fun p => length p = cdim c) (cpts c') /\
      (forall i t, (t + cdeg c <= j)%nat -> cpc c' i t = cpc c i t) /\
      (forall i t, (j < t + cdeg c)%nat -> (t <= j)%nat -> cpc c' i t = addk c j x i t) /\
      (forall i t, (j < t <= length (cpts c))%nat -> cpc c' i t = cpc c i (t - 1)).
  Proof.
    intros Hc Hx. pose proof (curve_len c Hc) as Hl. pose proof (clast_S c Hc) as Hn.
    pose proof (curve_mono c Hc) as Hm. pose proof (co_len c Hc) as Hcl.
    pose proof (co_pts c Hc) as Hpt. pose proof (co_dim c Hc) as Hd.
    pose proof (ko_sorted _ _ _ (co_knots c Hc)) as Hs.
    destruct (kadd_real eps maxv (cknots c) x Hs) as (k' & idx & E & Hidx & Ek & _ & _ & Hlo & Hhi).
    set (k := kf (cknots c)) in *. set (p := cdeg c) in *. set (n := clast c) in *.
    unfold dom0, dom1 in Hx. fold k p in Hx.
    assert (Hgt : (p < idx)%nat).
    { destruct (Nat.lt_ge_cases p idx) as [G|G]; auto. exfalso.
      assert (Hin : In (k p) (skipn idx (cknots c))).
      { unfold k. rewrite (kf_nth _ _ 0) by lia. replace p with (idx + (p - idx))%nat by lia.
        rewrite <- nth_skipn. apply nth_In. rewrite skipn_length. lia. }
      specialize (Hhi _ Hin). lra. }
    assert (Hle : (idx <= S n)%nat).
    { destruct (Nat.le_gt_cases idx (S n)) as [G|G]; auto. exfalso.
      assert (Hin : In (k (S n)) (firstn idx (cknots c))).
      { unfold k. rewrite (kf_nth _ _ 0) by lia. rewrite <- (nth_firstn _ idx) by lia.
        apply nth_In. rewrite firstn_length. lia. }
      specialize (Hlo _ Hin). rewrite Hn in Hlo. lra. }
    destruct idx as [|j]; [lia|].
    assert (Kj : k j <= x).
    { apply Hlo. unfold k. rewrite (kf_nth _ _ 0) by lia. rewrite <- (nth_firstn _ (S j)) by lia.
      apply nth_In. rewrite firstn_length. lia. }
    assert (KSj : x < k (S j)).
    { apply Hhi. unfold k. rewrite (kf_nth _ _ 0) by lia. replace (S j) with (S j + 0)%nat at 1 by lia.
      rewrite <- nth_skipn. apply nth_In. rewrite skipn_length. lia. }
    assert (K' : forall m, (m <= length (cknots c))%nat -> nth m k' 0 = kins k j x m).
    { intros m Hmm. rewrite Ek. apply (ins_knots_nth (cknots c) j x m); lia. }
    assert (Lk' : length k' = S (length (cknots c))).
    { rewrite Ek. apply (ins_knots_length (cknots c) j x). }
    set (ps := firstn j (cpts c) ++ nth j (cpts c) [] :: skipn j (cpts c)).
    assert (Lps : length ps = S (length (cpts c))).
    { unfold ps. rewrite app_length. cbn [length]. rewrite firstn_length, skipn_length. lia. }
    assert (Nps : forall t, nth t ps [] = if (t <=? j)%nat then nth t (cpts c) [] else nth (t - 1) (cpts c) []).
    { intros t. unfold ps. assert (Lf : length (firstn j (cpts c)) = j) by (rewrite firstn_length; lia).
      destruct (Nat.leb_spec t j) as [G|G].
      - destruct (Nat.eq_dec t j) as [->|G'].
        + rewrite app_nth2 by lia. rewrite Lf, Nat.sub_diag. reflexivity.
        + rewrite app_nth1 by lia. apply nth_firstn. lia.
      - rewrite app_nth2 by lia. rewrite Lf. destruct (t - j)%nat as [|m] eqn:Em; [lia|].
        cbn [nth]. rewrite nth_skipn. f_equal. lia. }
    assert (Fps : Forall (fun q => length q = cdim c) ps).
    { unfold ps. apply Forall_app. split; [|constructor].
      - rewrite Forall_forall in *. intros q Hq. apply Hpt. eapply firstn_In; eauto.
      - apply nth_len; auto. lia.
      - rewrite Forall_forall in *. intros q Hq. apply Hpt. eapply skipn_In; eauto. }
    unfold try_add_knot.
    rewrite (get_kf (cknots c) 0) by lia. cbn [bind]. rs.
    rewrite (proj2 (Rleb_true _ _)). 2:{ pose proof (mono_le _ 0 p Hm ltac:(lia)). fold k. lra. }
    cbn [ensure bind]. rewrite usub_ok by lia. cbn [bind].
    rewrite (get_kf (cknots c)) by lia. cbn [bind]. rs.
    rewrite (proj2 (Rleb_true _ _)).
    2:{ pose proof (mono_le _ (S n) (length (cknots c) - 1) Hm ltac:(lia)). fold k. rewrite Hn in H. lra. }
    cbn [ensure bind]. rewrite E. cbn [bind].
    destruct (Nat.ltb_spec (length (cpts c)) (S j)) as [G|_]; [lia|].
    rewrite usub_ok by lia. cbn [bind]. replace (S j - 1)%nat with j by lia.
    rewrite (get_ok (cpts c) j []) by lia. cbn [bind]. unfold insert_at.
    rewrite (proj2 (Nat.leb_le _ _)) by lia. fold ps. cbn [bind]. fold p.
    destruct (for_range_rule (fun i (q : list (list R)) =>
        length q = S (length (cpts c)) /\ Forall (fun v => length v = cdim c) q /\
        (forall t, (t < S j - p \/ j + (S j - p) - i < t)%nat -> True) /\
        (forall t, (t + i <= j + (S j - p) \/ j < t)%nat -> nth t q [] = nth t ps []) /\
        (forall a t, (j + (S j - p) < t + i)%nat -> (t <= j)%nat -> rc a (nth t q []) = addk c j x a t))
      (S j - p) (S j) (add_knot_step (cdim c) k' p (S j) (S j - p) (S j)) ps) as (q & Eq & Lq & Fq & _ & Hq1 & Hq2).
    - lia.
    - split; [exact Lps|]. split; [exact Fps|]. split; [auto|]. split; [auto|]. intros; lia.
    - intros i q Hi (Lq & Fq & _ & Q1 & Q2).
      set (i0 := (j + (S j - p) - i)%nat).
      assert (Hi0 : (1 <= i0 <= j)%nat) by (unfold i0; lia).
      assert (Hi0p : (S j <= i0 + p)%nat) by (unfold i0; lia).
      assert (B : nth i0 q [] = nth i0 (cpts c) []).
      { rewrite Q1 by (left; unfold i0; lia). rewrite Nps. destruct (Nat.leb_spec i0 j); [reflexivity|lia]. }
      assert (B1 : nth (i0 - 1) q [] = nth (i0 - 1) (cpts c) []).
      { rewrite Q1 by (left; unfold i0; lia). rewrite Nps. destruct (Nat.leb_spec (i0 - 1) j); [reflexivity|lia]. }
      assert (L0 : length (nth i0 (cpts c) []) = cdim c) by (apply nth_len; auto; lia).
      assert (L1 : length (nth (i0 - 1) (cpts c) []) = cdim c) by (apply nth_len; auto; lia).
      unfold add_knot_step. rewrite usub_ok by lia. cbn [bind]. rewrite usub_ok by lia. cbn [bind].
      replace (S j + (S j - p) - i - 1)%nat with i0 by (unfold i0; lia).
      rewrite (get_ok k' (i0 + p + 1) 0) by lia. cbn [bind].
      rewrite (get_ok k' i0 0) by lia. cbn [bind].
      rewrite (get_ok k' (S j) 0) by lia. cbn [bind].
      rewrite !K' by lia. unfold kins.
      destruct (Nat.leb_spec (i0 + p + 1) j) as [?|_]; [lia|].
      destruct (Nat.eqb_spec (i0 + p + 1) (S j)) as [?|_]; [lia|].
      destruct (Nat.leb_spec i0 j) as [_|?]; [|lia].
      destruct (Nat.leb_spec (S j) j) as [?|_]; [lia|].
      rewrite Nat.eqb_refl.
      destruct (Nat.eqb_spec i0 0) as [?|_]; [lia|].
      destruct (Nat.eqb_spec i0 (length q)) as [?|_]; [lia|].
      rewrite (get_ok q i0 []) by lia. cbn [bind].
      rewrite (get_ok q (i0 - 1) []) by lia. cbn [bind].
      rewrite B, B1.
      rewrite set_ok by (rewrite (vscale_length _ _ (cdim c)) by (now apply vsub_length); lia).
      cbn [bind]. rewrite set_ok by lia. eexists. split; [reflexivity|].
      set (dp := vscale _ _). 
      assert (Ldp : length (upd dp (cdim c - 1) szero) = cdim c).
      { rewrite upd_length. apply vscale_length. now apply vsub_length. }
      split; [now rewrite upd_length|]. split.
      { apply Forall_upd; auto. now apply vsub_length. }
      split; [auto|]. split.
      + intros t Ht. rewrite nth_upd_other; [apply Q1; lia|unfold i0; lia].
      + intros a t Ht1 Ht2. destruct (Nat.eq_dec t i0) as [->|Hne].
        2:{ rewrite nth_upd_other by auto. apply Q2; auto. unfold i0 in Hne; lia. }
        rewrite nth_upd_same by lia. rewrite rc_vsub by lia.
        unfold addk. fold k p. unfold cpc.
        destruct (Nat.eqb_spec a (cdim c - 1)) as [->|Ha].
        * unfold rc at 2. rewrite nth_upd_same by (rewrite upd_length in Ldp; lia). rs. lra.
        * unfold rc at 2. rewrite nth_upd_other by auto. change (nth a dp 0) with (rc a dp).
          unfold dp. rewrite rc_vscale, rc_vsub by lia. rs. f_equal. f_equal. f_equal.
          replace (i0 + p + 1 - 1)%nat with (i0 + p)%nat by lia.
          destruct (Req_EM_T (k (i0 + p)%nat - k i0) 0) as [Z|Z].
          -- rewrite (proj2 (Reqb_true _ _) Z). ring.
          -- rewrite (proj2 (Reqb_false _ _) Z). reflexivity.
    - rewrite Eq. cbn [bind]. eexists. exists j. split; [reflexivity|]. cbn [cdim cdeg cpts cknots].
      split; [lia|]. split; [split; auto|]. split; [auto|]. split; [auto|]. split; [exact Ek|].
      split; [auto|]. split; [exact Fq|]. split; [|split].
      + intros i t Ht. unfold cpc. cbn [cpts]. rewrite Hq1 by lia. rewrite Nps.
        destruct (Nat.leb_spec t j); [reflexivity|lia].
      + intros i t H1 H2. unfold cpc at 1. cbn [cpts]. apply Hq2; lia.
      + intros i t Ht. unfold cpc. cbn [cpts]. rewrite Hq1 by lia. rewrite Nps.
        destruct (Nat.leb_spec t j); [lia|reflexivity].
  Qed.

  (** uniform weights: Boehm insertion, every evaluated point is unchanged *)
  Theorem add_knot_preserves c x :
    curve_ok c -> curve_eps eps c -> uniform_weights c ->
    dom0 c < x < dom1 c -> refine_ok c [x] ->
    exists c', try_add_knot c x = Ok c' /\
      Permutation (cknots c') (x :: cknots c) /\ Sorted Rle (cknots c') /\
      length (cpts c') = S (length (cpts c)) /\ cdeg c' = cdeg c /\
      dom0 c' = dom0 c /\ dom1 c' = dom1 c /\ uniform_weights c' /\ curve_ok c' /\
      forall u, dom0 c <= u <= dom1 c -> point_at c' u = point_at c u.
  Proof.
    intros Hc He (w & Hw) Hx Hr.
    destruct (add_knot_effect c x Hc ltac:(lra)) as (c' & j & E & Hj & Hk & I1 & I2 & I3 & I4 & I5 & I6 & I7 & I8).
    pose proof (clast_S c Hc) as Hn. pose proof (co_len c Hc) as Hcl.
    assert (Hi : is_insert c j x c').
    { constructor; auto. intros i t H1 H2 H3. rewrite I7 by auto.
      destruct (Nat.eq_dec i (cdim c - 1)) as [->|Hne]; [|now apply addk_blend].
      unfold addk. rewrite Nat.eqb_refl. rewrite !Hw by lia. lra. }
    destruct (insert_same c j x c' (ok_wf c Hc) Hj ltac:(lra) Hi) as (Hs & Hok).
    specialize (Hok Hc Hx).
    assert (Hp : Permutation (cknots c') (x :: cknots c)) by (rewrite I3; apply ins_knots_perm).
    assert (He' : curve_eps eps c').
    { eapply (refine_eps eps c c' [x]); eauto. rewrite Hp. apply Permutation_cons_append. }
    exists c'. split; [exact E|]. split; [exact Hp|]. split; [apply (sc_wf _ _ Hs)|]. split; [exact I4|].
    split; [exact I2|]. split; [apply Hs|]. split; [apply Hs|]. split; [|split; [exact Hok|]].
    - exists w. intros t Ht. rewrite I1. rewrite I4 in Ht.
      destruct (Nat.le_gt_cases (t + cdeg c) j); [rewrite I6 by auto; apply Hw; lia|].
      destruct (Nat.le_gt_cases t j).
      + rewrite I7 by auto. unfold addk. rewrite Nat.eqb_refl. apply Hw. lia.
      + rewrite I8 by lia. apply Hw. lia.
    - intros u Hu. now apply (same_point_at eps maxv c c' u).
  Qed.
End Real.

(** ** Rational curves: the weights are not blended, so the shape changes *)
Section Refute.
  Local Existing Instance FOps.
  Open Scope float_scope.
  (** the segment from x=0 (weight 1) to x=2 (weight 3): its middle parameter is at x=1.5 *)
  Definition rational_line : Curve float := MkCurve 2 1 [[0; 1]; [6; 3]] [0; 0; 1; 1].

  Theorem add_knot_rational_refuted :
    exists (c c' : Curve float) (x : float), try_add_knot c x = Ok c' /\
      point_at c x = Ok [1.5] /\ point_at c' x = Ok [1].
  Proof.
    exists rational_line. eexists. exists 0.5. split; [vm_compute; reflexivity|].
    split; vm_compute; reflexivity.
  Qed.
End Refute.
