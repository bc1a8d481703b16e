(** * The error bounds in double precision (C81) *)
From Coq Require Import Reals Lra Lia ZArith Bool List.
From Flocq Require Import Core.
From Verif Require Import Base BaseFacts Scalar RSum BSplineSpec BSpline KnotModel KnotSpec KnotFacts
  VecFacts CurveModel CurveSpec CurveProofs SurfaceModel SurfaceSpec Rounding RoundingInstance RoundedEval RoundedSurface.
Import ListNotations.
Open Scope R_scope.

Definition u53 : R := bpow radix2 (-53).
Lemma u53_eq : / 2 * bpow radix2 (-52) = u53.
Proof. unfold u53. replace (-52)%Z with (-53 + 1)%Z by lia. rewrite bpow_plus. cbn [bpow radix_val radix2 Z.pow_pos Pos.iter Z.mul]. simpl (IZR _). lra. Qed.

(** up to 2^26 operations the accumulated error is below one more unit *)
Lemma gam53 n : (Z.of_nat n < 2 ^ 25)%Z -> gam (/ 2 * bpow radix2 (-52)) n <= (INR n + 1) * u53.
Proof.
  intros Hn. rewrite u53_eq.
  assert (N : 0 <= INR n <= 2 ^ 25).
  { split; [apply pos_INR|]. rewrite INR_IZR_INZ. replace (2 ^ 25) with (IZR (2 ^ 25)) by (cbn; lra). apply IZR_le. lia. }
  assert (U : 0 < u53 /\ 2 ^ 53 * u53 = 1).
  { split; [apply bpow_gt_0|]. unfold u53. change (-53)%Z with (- (53))%Z. rewrite bpow_opp.
    replace (bpow radix2 53) with (2 ^ 53); [field; apply pow_nonzero; lra|]. cbn. lra. }
  destruct U as (U1 & U2).
  assert (S1 : (2 ^ 25 + 1) * (2 ^ 25 + 1) <= 2 ^ 53) by lra.
  assert (S2 : (INR n + 1) * (INR n + 1) <= 2 ^ 53).
  { apply Rle_trans with ((2 ^ 25 + 1) * (2 ^ 25 + 1)); [|exact S1]. apply Rmult_le_compat; lra. }
  assert (S3 : (INR n + 1) * (INR n + 1) * u53 <= 1).
  { apply Rle_trans with (2 ^ 53 * u53); [|right; exact U2]. apply Rmult_le_compat_r; [apply Rlt_le, U1|exact S2]. }
  assert (S4 : INR n * u53 < 1).
  { apply Rlt_le_trans with ((INR n + 1) * (INR n + 1) * u53); [|exact S3]. apply Rmult_lt_compat_r; [exact U1|]. nra. }
  assert (U3 : u53 < 1) by lra.
  apply Rle_trans with (INR n * u53 / (1 - INR n * u53)); [apply gam_bound; lra|].
  apply Rmult_le_reg_r with (1 - INR n * u53); [lra|]. unfold Rdiv. rewrite Rmult_assoc, Rinv_l, Rmult_1_r by lra. nra.
Qed.

Section Double.
  Variables eps maxv : R.
  Local Hint Extern 0 (Scalar R) => exact (FlOps (nearest 53) eps maxv) : typeclass_instances.

  Theorem point_at_double c u :
    curve_ok c -> curve_eps eps c -> machine (nearest 53) (cknots c) -> pos_weights c -> dom0 c <= u <= dom1 c ->
    (Z.of_nat (cdeg c) <= 1000000)%Z ->
    exists p, point_at c u = Ok p /\ length p = (cdim c - 1)%nat /\
      forall i M, (i < cdim c - 1)%nat ->
        (forall j, (j < length (cpts c))%nat -> Rabs (cpc c i j / cpc c (cdim c - 1) j) <= M) ->
        Rabs (rc i p - nurbs c i u) <= (14 * INR (cdeg c) + 6) * bpow radix2 (-53) * M.
  Proof.
    intros Hc He Hk Hw Hu Hd.
    destruct (point_at_rounded _ _ eps maxv double_rounding c u Hc He Hk Hw Hu) as (p & Ep & Lp & Hp).
    exists p. split; [exact Ep|]. split; [exact Lp|]. intros i M Hi HM.
    apply Rle_trans with (1 := Hp i M Hi HM).
    assert (M0 : 0 <= M).
    { pose proof (co_len c Hc). apply Rle_trans with (2 := HM 0%nat ltac:(lia)). apply Rabs_pos. }
    apply Rmult_le_compat_r; [exact M0|].
    apply Rle_trans with ((INR (14 * cdeg c + 5) + 1) * u53); [apply gam53; lia|].
    rewrite plus_INR, mult_INR. change (bpow radix2 (-53)) with u53.
    replace (INR 14) with 14 by (cbn; lra). replace (INR 5) with 5 by (cbn; lra). lra.
  Qed.

  Theorem surf_point_at_double s u v :
    surf_ok s -> surf_eps eps s -> machine (nearest 53) (suk s) -> machine (nearest 53) (svk s) -> spos s -> in_dom s u v ->
    (Z.of_nat (sdu s + sdv s) <= 1000000)%Z ->
    exists p, surf_point_at s u v = Ok p /\ length p = (sdim s - 1)%nat /\
      forall i M, (i < sdim s - 1)%nat ->
        (forall a b, (a < nrow s)%nat -> (b < ncol s)%nat -> Rabs (spc s i a b / spc s (sdim s - 1) a b) <= M) ->
        Rabs (rc i p - snurbs s i u v) <= (14 * (INR (sdu s) + INR (sdv s)) + 10) * bpow radix2 (-53) * M.
  Proof.
    intros H He Mu Mv Hw Hd Hdeg.
    destruct (surf_point_at_rounded _ _ eps maxv double_rounding s u v H He Mu Mv Hw Hd) as (p & Ep & Lp & Hp).
    exists p. split; [exact Ep|]. split; [exact Lp|]. intros i M Hi HM.
    apply Rle_trans with (1 := Hp i M Hi HM).
    assert (M0 : 0 <= M).
    { pose proof (so_u s H). pose proof (so_v s H). apply Rle_trans with (2 := HM 0%nat 0%nat ltac:(lia) ltac:(lia)). apply Rabs_pos. }
    apply Rmult_le_compat_r; [exact M0|].
    apply Rle_trans with ((INR (14 * (sdu s + sdv s) + 9) + 1) * u53); [apply gam53; lia|].
    rewrite plus_INR, mult_INR, plus_INR. change (bpow radix2 (-53)) with u53.
    replace (INR 14) with 14 by (cbn; lra). replace (INR 9) with 9 by (cbn; lra). lra.
  Qed.
End Double.

(** integers up to 2^53 are machine numbers *)
Lemma machine_ints k : (forall x, In x k -> exists z : Z, x = IZR z /\ (Z.abs z <= 2 ^ 53)%Z) -> machine (nearest 53) k.
Proof.
  intros H i.
  assert (D : exists z : Z, kf k i = IZR z /\ (Z.abs z <= 2 ^ 53)%Z).
  { unfold kf. destruct (nth_in_or_default i k (last k 0)) as [I| ->]; [now apply H|].
    destruct k as [|a k]; [exists 0%Z; split; [reflexivity|cbn; lia]|]. apply H.
    clear H i. revert a. induction k as [|b k IH]; intros a; [now left|]. right. apply IH. }
  destruct D as (z & -> & B). unfold nearest. apply round_generic; [apply valid_rnd_N|].
  apply generic_format_FLX. destruct (Z.eq_dec (Z.abs z) (2 ^ 53)) as [Ez|Ez].
  - exists (Float radix2 (Z.sgn z) 53).
    + unfold F2R. cbn [Fnum Fexp]. replace z with (Z.abs z * Z.sgn z)%Z at 1 by apply Z.abs_sgn.
      rewrite Ez, mult_IZR, Rmult_comm. reflexivity.
    + cbn [Fnum]. assert (Z.abs (Z.sgn z) <= 1)%Z by (destruct z; cbn; lia). apply Z.le_lt_trans with 1%Z; [assumption|]. reflexivity.
  - exists (Float radix2 z 0).
    + unfold F2R. cbn [Fnum Fexp bpow]. lra.
    + cbn [Fnum]. change (radix2 ^ 53)%Z with (2 ^ 53)%Z. lia.
Qed.
