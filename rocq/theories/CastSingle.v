(** * C98: rounding to single precision *)
From Coq Require Import Reals Lra Lia Sorted ZArith List Eqdep_dec.
From Flocq Require Import Core.
From Verif Require Import Base Scalar BSplineSpec KnotModel KnotSpec CurveModel CurveSpec SurfaceModel BBoxModel Rounding RoundingInstance CastModel.
Import ListNotations.
Open Scope R_scope.

Lemma nearest_idem prec x : (1 < prec)%Z -> nearest prec (nearest prec x) = nearest prec x.
Proof.
  intros H. assert (P : Prec_gt_0 prec) by (red; lia). unfold nearest at 1. apply round_generic; [apply valid_rnd_N|]. exact (generic_format_round radix2 (FLX_exp prec) ZnearestE x).
Qed.

(** single precision numbers, widening and narrowing *)
Definition single : Type := { x : R | nearest 24 x = x }.
Definition widen (x : single) : R := proj1_sig x.
Definition narrow (x : R) : single := exist _ (nearest 24 x) (nearest_idem 24 x eq_refl).
Theorem narrow_widen x : narrow (widen x) = x.
Proof.
  assert (G : forall y (e : nearest 24 y = y) x (Hx : nearest 24 x = x), y = x -> exist (fun x => nearest 24 x = x) y e = exist _ x Hx).
  { intros y e x' Hx ->. f_equal. apply UIP_dec. exact Req_EM_T. }
  destruct x as [x Hx]. apply G. exact Hx.
Qed.

Definition near1 : R := 1 + / 2 ^ 30.
Lemma near1_24 : nearest 24 near1 = 1.
Proof.
  assert (B : 1 <= near1 < 2). { unfold near1. assert (0 < / 2 ^ 30) by (apply Rinv_0_lt_compat; lra). assert (/ 2 ^ 30 < 1) by (rewrite <- Rinv_1; apply Rinv_lt_contravar; lra). lra. }
  unfold nearest, round, F2R, scaled_mantissa, cexp, FLX_exp. rewrite (mag_unique radix2 near1 1) by (rewrite Rabs_pos_eq by lra; cbn; lra). cbn [Fnum Fexp].
  rewrite (Znearest_imp _ _ (2 ^ 23)).
  - cbn. lra.
  - unfold near1. cbn. rewrite Rabs_pos_eq; lra.
Qed.
Lemma near1_53 : nearest 53 near1 = near1.
Proof.
  unfold nearest. apply round_generic; [apply valid_rnd_N|]. apply generic_format_FLX. exists (Float radix2 (2 ^ 30 + 1) (-30)); [|reflexivity].
  unfold F2R, near1. cbn. lra.
Qed.
Lemma one_exact prec : (1 < prec)%Z -> nearest prec 1 = 1.
Proof.
  intros H. unfold nearest. apply round_generic; [apply valid_rnd_N|]. apply generic_format_FLX. exists (Float radix2 1 0); [unfold F2R; cbn; lra|]. cbn [Fnum]. change (Z.abs 1) with (radix2 ^ 0)%Z. apply Z.pow_lt_mono_r; cbn; lia.
Qed.

Definition narrow_curve : Curve R := MkCurve 2 1 [[0; 1]; [1; 1]] [1; 1; near1; near1].
(** a valid curve of double precision numbers whose cast to single precision has an empty domain *)
Theorem cast_collapse_refuted : exists c, curve_ok c /\ pos_weights c /\ Forall (fun x => nearest 53 x = x) (cknots c) /\
  ~ curve_ok (cast_curve (nearest 24) c) /\ dom0 c < dom1 c /\ dom0 (cast_curve (nearest 24) c) = dom1 (cast_curve (nearest 24) c).
Proof.
  assert (P : 1 < near1) by (unfold near1; assert (0 < / 2 ^ 30) by (apply Rinv_0_lt_compat; lra); lra).
  exists narrow_curve. split; [|split; [|split; [|split; [|split]]]].
  - constructor; cbn; try lia; [repeat constructor|]. constructor; cbn; try lia; [repeat constructor; lra| |]; unfold kf; cbn; lra.
  - intros j Hj. cbn in Hj. destruct j as [|[|j]]; [cbn; lra|cbn; lra|lia].
  - cbn [cknots narrow_curve]. pose proof near1_53. pose proof (one_exact 53 eq_refl). repeat constructor; auto.
  - intros [_ _ _ [_ _ _ F _]]. unfold kf in F. cbn [cast_curve narrow_curve cknots cdeg map nth Nat.add cast_knots] in F. rewrite near1_24, (one_exact 24 eq_refl) in F. lra.
  - unfold dom0, dom1, kf. cbn. exact P.
  - unfold dom0, dom1, kf. cbn [cast_curve narrow_curve cknots cdeg cpts map nth cast_knots length]. now rewrite near1_24, (one_exact 24 eq_refl).
Qed.
