(** * How far the polyline through regular samples is from its curve, in both directions *)
From Coq Require Import Reals Lra Lia List.
From Verif Require Import Base BaseFacts Scalar RSum BSplineSpec BSpline KnotModel KnotSpec KnotFacts VecFacts CurveModel CurveSpec CurveProofs CurveMore CurveGeom CurveGeom2
  SurfaceSample CurveLipschitz MeshNear.
Import ListNotations.
Open Scope R_scope.

Section Real.
  Variables eps maxv : R.
  Local Hint Extern 0 (Scalar R) => exact (ROps eps maxv) : typeclass_instances.

  (** a chord of a curve against the curve *)
  Lemma chord_near c i K x y s w : curve_ok c -> curve_eps eps c -> curve_cont c -> (1 <= cdeg c)%nat -> (i < cdim c - 1)%nat -> 0 <= K -> rational_rate c i K ->
    dom0 c <= x <= dom1 c -> dom0 c <= y <= dom1 c -> Rabs (x - y) <= w -> 0 <= s <= 1 ->
    Rabs ((1 - s) * nurbs c i x + s * nurbs c i y - nurbs c i ((1 - s) * x + s * y)) <= K * (w / 2).
  Proof.
    intros Hok He Hcont Hp Hi HK HR Hx Hy Hw Hs. set (u := (1 - s) * x + s * y).
    assert (B : bary (1 - s) s 0) by (unfold bary; lra).
    assert (W0 : 0 <= w) by (pose proof (Rabs_pos (x - y)); lra).
    pose proof (mean_dev_width w (1 - s) s 0 x y y B Hw ltac:(replace (y - y) with 0 by ring; rewrite Rabs_R0; exact W0) Hw) as M. cbv zeta in M.
    replace ((1 - s) * x + s * y + 0 * y) with u in M by (unfold u; ring).
    assert (Hu : dom0 c <= u <= dom1 c) by (pose proof (bary_in _ _ _ _ _ x y y B Hx Hy Hy) as Q; unfold u; lra).
    pose proof (rational_lipschitz eps maxv c i K x u Hok He Hcont Hp Hi HR Hx Hu) as P.
    pose proof (rational_lipschitz eps maxv c i K y u Hok He Hcont Hp Hi HR Hy Hu) as Q.
    replace ((1 - s) * nurbs c i x + s * nurbs c i y - nurbs c i u) with ((1 - s) * (nurbs c i x - nurbs c i u) + s * (nurbs c i y - nurbs c i u)) by ring.
    eapply Rle_trans; [apply Rabs_triang|]. rewrite !Rabs_mult, (Rabs_pos_eq (1 - s)), (Rabs_pos_eq s) by lra.
    apply (Rmult_le_compat_l (1 - s)) in P; [|lra]. apply (Rmult_le_compat_l s) in Q; [|lra]. apply (Rmult_le_compat_l K) in M; [|exact HK]. lra.
  Qed.

  Theorem regular_polyline_near c a b n : curve_ok c -> curve_eps eps c -> pos_weights c -> curve_cont c -> (1 <= cdeg c)%nat ->
    dom0 c <= a -> a <= b -> b <= dom1 c -> (2 <= n)%nat ->
    exists ps, sample_regular_range c a b n = Ok ps /\ length ps = n /\
    (forall j s, (S j < n)%nat -> 0 <= s <= 1 -> exists u, a <= u <= b /\
       forall i K, (i < cdim c - 1)%nat -> 0 <= K -> rational_rate c i K ->
         Rabs ((1 - s) * rc i (nth j ps []) + s * rc i (nth (S j) ps []) - nurbs c i u) <= K * ((b - a) / (INR n - 1) / 2)) /\
    (forall u, a <= u <= b -> exists j s, (S j < n)%nat /\ 0 <= s <= 1 /\
       forall i K, (i < cdim c - 1)%nat -> 0 <= K -> rational_rate c i K ->
         Rabs ((1 - s) * rc i (nth j ps []) + s * rc i (nth (S j) ps []) - nurbs c i u) <= K * ((b - a) / (INR n - 1) / 2)).
  Proof.
    intros Hok He Hpos Hcont Hp Ha Hab Hb Hn.
    destruct (sample_regular_range_spec eps maxv c a b n Hok He Hpos Ha Hab Hb Hn) as (ps & E & Lp & Hps).
    exists ps. split; [exact E|]. split; [exact Lp|].
    assert (N1 : INR (n - 1) = INR n - 1) by (rewrite minus_INR by lia; cbn [INR]; lra).
    assert (Er : forall j, regular a b n j = reg a b (n - 1) j) by (intros j; unfold regular, reg; rewrite N1; reflexivity).
    assert (In' : forall j, (j < n)%nat -> a <= reg a b (n - 1) j <= b) by (intros j Hj; apply reg_le; [exact Hab|lia]).
    assert (Hw : forall j, Rabs (reg a b (n - 1) j - reg a b (n - 1) (j + 1)) <= (b - a) / (INR n - 1)).
    { intros j. rewrite Rabs_minus_sym, (reg_step a b (n - 1) j ltac:(lia)), N1. apply Req_le, Rabs_pos_eq. rewrite <- N1.
      apply Rmult_le_pos; [lra|apply Rlt_le, Rinv_0_lt_compat, lt_0_INR; lia]. }
    assert (G : forall j s, (S j < n)%nat -> 0 <= s <= 1 -> forall i K, (i < cdim c - 1)%nat -> 0 <= K -> rational_rate c i K ->
         Rabs ((1 - s) * rc i (nth j ps []) + s * rc i (nth (S j) ps []) - nurbs c i ((1 - s) * reg a b (n - 1) j + s * reg a b (n - 1) (j + 1))) <= K * ((b - a) / (INR n - 1) / 2)).
    { intros j s Hj Hs i K Hi HK HR. destruct (Hps j ltac:(lia)) as (_ & V0). destruct (Hps (S j) Hj) as (_ & V1). rewrite V0, V1, !Er by exact Hi. rewrite <- (Nat.add_1_r j).
      pose proof (In' j ltac:(lia)). pose proof (In' (j + 1)%nat ltac:(lia)). apply chord_near; try assumption; try lra. apply Hw. }
    split.
    - intros j s Hj Hs. exists ((1 - s) * reg a b (n - 1) j + s * reg a b (n - 1) (j + 1)). split; [|apply G; assumption].
      pose proof (bary_in a b (1 - s) s 0 _ _ _ ltac:(unfold bary; lra) (In' j ltac:(lia)) (In' (j + 1)%nat ltac:(lia)) (In' j ltac:(lia))). lra.
    - intros u Hu. destruct (reg_cell a b (n - 1) u Hab ltac:(lia) Hu) as (j & t & Hj & Ht & ->). exists j, t. split; [lia|]. split; [exact Ht|]. apply G; [lia|exact Ht].
  Qed.
End Real.
