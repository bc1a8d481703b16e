(** * Rounding errors of refined and split curves in double precision (C90) *)
From Coq Require Import Reals Lra Lia ZArith Bool List Sorted Permutation.
From Flocq Require Import Core.
From Verif Require Import Base BaseFacts Scalar RSum BSplineSpec BSpline KnotModel KnotSpec KnotFacts
  VecFacts CurveModel CurveKnotModel CurveSpec CurveProofs CurveGeom2 Refine SplitModel SplitProofs Rounding RoundingInstance RoundedEval RoundedDouble RoundedRefine RoundedCut.
Import ListNotations.
Open Scope R_scope.

Lemma err_mono g g' hi lo M : 0 <= M -> 0 <= hi -> g <= g' -> g' * hi < lo -> 2 * (g * hi) * M / (lo - g * hi) <= 2 * (g' * hi) * M / (lo - g' * hi) \/ g < 0.
Proof.
  intros HM Hh Hg Hl. destruct (Rlt_le_dec g 0) as [|Hg0]; [now right|left].
  assert (A : g * hi <= g' * hi) by now apply Rmult_le_compat_r. assert (B : 0 <= g * hi) by now apply Rmult_le_pos.
  unfold Rdiv. apply Rmult_le_compat.
  - apply Rmult_le_pos; lra.
  - apply Rlt_le, Rinv_0_lt_compat. lra.
  - apply Rmult_le_compat_r; lra.
  - apply Rinv_le_contravar; lra.
Qed.

Section Double.
  Variables eps maxv : R.
  Local Hint Extern 0 (Scalar R) => exact (FlOps (nearest 53) eps maxv) : typeclass_instances.
  Local Notation u53 := (bpow radix2 (-53)).

  (** both errors with one unit [2^-53] per operation *)
  Lemma double_err n p hi lo M x : 0 <= M -> 0 <= hi -> (Z.of_nat n < 2 ^ 25)%Z -> (Z.of_nat p <= 1000000)%Z -> (INR n + 1) * u53 * hi < lo ->
    let e := 2 * ((INR n + 1) * u53 * hi) * M / (lo - (INR n + 1) * u53 * hi) in
    let e0 := 2 * (gam (/ 2 * bpow radix2 (-52)) n * hi) * M / (lo - gam (/ 2 * bpow radix2 (-52)) n * hi) in
    gam (/ 2 * bpow radix2 (-52)) n * hi < lo /\ e0 <= e /\
    (x <= e0 + gam (/ 2 * bpow radix2 (-52)) (14 * p + 5) * (M + e0) -> x <= e + (14 * INR p + 6) * u53 * (M + e)).
  Proof.
    intros HM Hh Hn Hp Hl e e0. pose proof (gam53 n Hn) as G. change RoundedDouble.u53 with u53 in G.
    pose proof (gam_nonneg _ _ double_rounding n) as G0.
    assert (A : gam (/ 2 * bpow radix2 (-52)) n * hi <= (INR n + 1) * u53 * hi) by now apply Rmult_le_compat_r.
    assert (B : 0 <= gam (/ 2 * bpow radix2 (-52)) n * hi) by now apply Rmult_le_pos.
    split; [lra|]. destruct (err_mono _ _ hi lo M HM Hh G Hl) as [E|]; [|lra]. fold e e0 in E. split; [exact E|]. intros Hx. eapply Rle_trans; [exact Hx|].
    assert (E0 : 0 <= e0). { unfold e0, Rdiv. apply Rmult_le_pos; [apply Rmult_le_pos; lra|apply Rlt_le, Rinv_0_lt_compat; lra]. }
    pose proof (gam53 (14 * p + 5) ltac:(lia)) as G1. change RoundedDouble.u53 with u53 in G1. rewrite plus_INR, mult_INR in G1.
    replace (INR 14) with 14 in G1 by (cbn; lra). replace (INR 5) with 5 in G1 by (cbn; lra).
    replace (14 * INR p + 5 + 1) with (14 * INR p + 6) in G1 by lra. apply Rplus_le_compat; [exact E|].
    apply Rmult_le_compat; [apply (gam_nonneg _ _ double_rounding)|lra|exact G1|lra].
  Qed.

  Theorem refine_point_double c xs i lo hi M :
    curve_ok c -> curve_eps eps c -> machine (nearest 53) (cknots c) -> (forall x, In x xs -> nearest 53 x = x) ->
    refine_ok (eps / (1 - u53)) c xs -> inside c xs -> 0 < lo -> curve_box c i lo hi M -> (i < cdim c - 1)%nat ->
    (Z.of_nat (length xs) <= 1000000)%Z -> (Z.of_nat (cdeg c) <= 1000000)%Z -> (11 * INR (length xs) + 1) * u53 * hi < lo ->
    exists cF, try_refine_knot c xs = Ok cF /\ curve_ok cF /\ pos_weights cF /\ Permutation (cknots cF) (cknots c ++ xs) /\
      let e := 2 * ((11 * INR (length xs) + 1) * u53 * hi) * M / (lo - (11 * INR (length xs) + 1) * u53 * hi) in
      forall u, dom0 c <= u <= dom1 c ->
        Rabs (nurbs cF i u - nurbs c i u) <= e /\
        exists p, point_at cF u = Ok p /\ Rabs (rc i p - nurbs c i u) <= e + (14 * INR (cdeg c) + 6) * u53 * (M + e).
  Proof.
    intros Hc He Hk Hxk Hx Hin Hlo Hb Hi Hn Hp Hl.
    destruct (curve_box_bounds c i lo hi M Hc Hlo Hb) as (HM & Hlh & _ & _).
    assert (EN : INR (11 * length xs) = 11 * INR (length xs)) by (rewrite mult_INR; replace (INR 11) with 11 by (cbn; lra); reflexivity).
    rewrite <- EN in Hl |- *.
    destruct (double_err (11 * length xs) (cdeg c) hi lo M 0 HM ltac:(lra) ltac:(lia) Hp Hl) as (A & B & _).
    change u53 with RoundedDouble.u53 in Hx. rewrite <- u53_eq in Hx.
    destruct (refine_point_rounded _ _ eps maxv double_rounding c xs i lo hi M Hc He Hk Hxk Hx Hin Hlo Hb Hi A) as (cF & E & P1 & P2 & P3 & P4 & P5).
    exists cF. split; [exact E|]. split; [exact P1|]. split; [exact P3|]. split; [exact P4|]. intros e u Hu. destruct (P5 u Hu) as (Q1 & p & Ep & Q2).
    split; [eapply Rle_trans; [exact Q1|exact B]|]. exists p. split; [exact Ep|].
    exact (proj2 (proj2 (double_err (11 * length xs) (cdeg c) hi lo M _ HM ltac:(lra) ltac:(lia) Hp Hl)) Q2).
  Qed.

  Theorem split_point_double c u i lo hi M :
    curve_ok c -> curve_eps eps c -> machine (nearest 53) (cknots c) -> nearest 53 u = u -> dom0 c < u < dom1 c -> off_knots (eps / (1 - u53)) c u ->
    0 < lo -> curve_box c i lo hi M -> (i < cdim c - 1)%nat ->
    (Z.of_nat (cdeg c) <= 1000000)%Z -> (11 * INR (cdeg c + 1) + 1) * u53 * hi < lo ->
    exists l r, try_split c u = Ok (l, r) /\
      curve_ok l /\ pos_weights l /\ dom0 l = dom0 c /\ dom1 l = u /\ curve_ok r /\ pos_weights r /\ dom0 r = u /\ dom1 r = dom1 c /\
      let g := (11 * INR (cdeg c + 1) + 1) * u53 * hi in
      let e := 2 * g * M / (lo - g) in
      (forall v, dom0 c <= v <= u -> Rabs (nurbs l i v - nurbs c i v) <= e /\
         exists p, point_at l v = Ok p /\ Rabs (rc i p - nurbs c i v) <= e + (14 * INR (cdeg c) + 6) * u53 * (M + e)) /\
      (forall v, u <= v <= dom1 c -> Rabs (nurbs r i v - nurbs c i v) <= e /\
         exists p, point_at r v = Ok p /\ Rabs (rc i p - nurbs c i v) <= e + (14 * INR (cdeg c) + 6) * u53 * (M + e)).
  Proof.
    intros Hc He Hk Hku Hu Ho Hlo Hb Hi Hp Hl.
    destruct (curve_box_bounds c i lo hi M Hc Hlo Hb) as (HM & Hlh & _ & _).
    assert (EN : INR (11 * (cdeg c + 1)) = 11 * INR (cdeg c + 1)) by (rewrite mult_INR; replace (INR 11) with 11 by (cbn; lra); reflexivity).
    rewrite <- EN in Hl |- *.
    destruct (double_err (11 * (cdeg c + 1)) (cdeg c) hi lo M 0 HM ltac:(lra) ltac:(lia) Hp Hl) as (A & B & _).
    change u53 with RoundedDouble.u53 in Ho. rewrite <- u53_eq in Ho.
    destruct (split_point_rounded _ _ eps maxv double_rounding c u i lo hi M Hc He Hk Hku Hu Ho Hlo Hb Hi A) as (l & r & E & P1 & P2 & P3 & P4 & P5 & R1 & R2 & R3 & R4 & R5 & G1 & G2).
    exists l, r. split; [exact E|]. do 4 (split; [assumption|]). do 4 (split; [assumption|]). intros g e. split.
    - intros v Hv. destruct (G1 v Hv) as (Q1 & p & Ep & Q2). split; [eapply Rle_trans; [exact Q1|exact B]|]. exists p. split; [exact Ep|].
      exact (proj2 (proj2 (double_err (11 * (cdeg c + 1)) (cdeg c) hi lo M _ HM ltac:(lra) ltac:(lia) Hp Hl)) Q2).
    - intros v Hv. destruct (G2 v Hv) as (Q1 & p & Ep & Q2). split; [eapply Rle_trans; [exact Q1|exact B]|]. exists p. split; [exact Ep|].
      exact (proj2 (proj2 (double_err (11 * (cdeg c + 1)) (cdeg c) hi lo M _ HM ltac:(lra) ltac:(lia) Hp Hl)) Q2).
  Qed.
End Double.
