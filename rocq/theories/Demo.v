(** * Concrete curves used to show that the hypotheses of the theorems can be met *)
From Coq Require Import Reals Lra Lia Sorted.
From Verif Require Import Base BaseFacts Scalar RSum BSplineSpec BSpline KnotModel KnotSpec KnotFacts
  VecFacts CurveModel CurveKnotModel CurveSpec CurveProofs CurveGeom CurveGeom2 KnotMisc CurveShapes
  Boehm Refine AddKnot SplitModel SplitProofs Decompose.
Open Scope R_scope.

(** a planar rational quadratic with one interior knot *)
Definition demo : Curve R :=
  MkCurve 3 2 [[0; 0; 1]; [2; 4; 2]; [3; 1; 1]; [5; 0; 1]] [0; 0; 0; 1; 2; 2; 2].
(** the same with unit weights *)
Definition demo1 : Curve R :=
  MkCurve 3 2 [[0; 0; 1]; [2; 4; 1]; [3; 1; 1]; [5; 0; 1]] [0; 0; 0; 1; 2; 2; 2].

Definition eps0 : R := 1 / 1000.
Definition maxv0 : R := 1000000.

Ltac in_cases := repeat match goal with H : In _ _ |- _ => cbn in H end;
  repeat match goal with H : _ \/ _ |- _ => destruct H as [H|H] end;
  try contradiction; subst.
Ltac abs_lra := unfold Rabs; destruct (Rcase_abs _); lra.

Lemma demo_ok : curve_ok demo.
Proof.
  constructor; cbn; try lia; [repeat constructor|].
  constructor; cbn; try lia; unfold kf; cbn; try lra. repeat constructor; lra.
Qed.
Lemma demo1_ok : curve_ok demo1.
Proof.
  constructor; cbn; try lia; [repeat constructor|].
  constructor; cbn; try lia; unfold kf; cbn; try lra. repeat constructor; lra.
Qed.
Lemma demo_eps : curve_eps eps0 demo.
Proof. unfold curve_eps, eps_ok, eps0, kf. cbn. lra. Qed.
Lemma demo1_eps : curve_eps eps0 demo1.
Proof. unfold curve_eps, eps_ok, eps0, kf. cbn. lra. Qed.
Lemma demo_cont : curve_cont demo.
Proof.
  intros j H1 H2. cbn in *. assert (j = 3)%nat as -> by lia. unfold kf. cbn. lra.
Qed.
Lemma demo_pos : pos_weights demo.
Proof.
  intros j Hj. cbn in Hj. unfold cpc, rc. cbn.
  destruct j as [|[|[|[|j]]]]; cbn; try lra. lia.
Qed.
Lemma demo_clamped : clamped demo.
Proof. unfold clamped, dom0, dom1, kf. cbn. lra. Qed.
Lemma demo_sep : separated eps0 (cknots demo).
Proof.
  intros a b Ha Hb. in_cases; first [left; reflexivity | right; unfold eps0; abs_lra].
Qed.
Lemma demo_dom : dom0 demo = 0 /\ dom1 demo = 2.
Proof. unfold dom0, dom1, kf. cbn. lra. Qed.
Lemma demo_off u : u = 1 / 2 \/ u = 3 / 2 -> off_knots eps0 demo u.
Proof.
  intros Hu y Hy. unfold eps0. destruct Hu; subst u; in_cases; abs_lra.
Qed.
Lemma demo_sep_from u : u = 0 \/ u = 1 / 2 \/ u = 1 \/ u = 3 / 2 \/ u = 2 -> sep_from eps0 demo u.
Proof.
  intros Hu y Hy. unfold eps0.
  repeat (destruct Hu as [Hu|Hu]; [subst u; in_cases; first [left; lra | right; abs_lra]|]).
  subst u; in_cases; first [left; lra | right; abs_lra].
Qed.
Lemma demo_refine : refine_ok eps0 demo [1 / 2; 1 / 2; 3 / 2] /\ inside demo [1 / 2; 1 / 2; 3 / 2].
Proof.
  split; [constructor|].
  - repeat constructor; lra.
  - unfold dom0, dom1, kf. cbn. repeat constructor; lra.
  - intros x y Hx Hy. unfold eps0. in_cases; first [left; lra | right; abs_lra].
  - unfold inside, dom0, dom1, kf. cbn. repeat constructor; lra.
Qed.
Lemma demo1_refine : refine_ok eps0 demo1 [1 / 2].
Proof.
  constructor.
  - repeat constructor; lra.
  - unfold dom0, dom1, kf. cbn. repeat constructor; lra.
  - intros x y Hx Hy. unfold eps0. in_cases; first [left; lra | right; abs_lra].
Qed.
Lemma demo1_uniform : uniform_weights demo1.
Proof.
  exists 1. intros t Ht. cbn in Ht. unfold cpc, rc. cbn.
  destruct t as [|[|[|[|t]]]]; cbn; try lra. lia.
Qed.
(** a zig-zag of three points, used for polylines and periodic curves *)
Definition zigzag : list (list R) := [[0; 0]; [3; 4]; [3; 5]].
Lemma zigzag_dist : rdist [0; 0] [3; 4] = 5 /\ rdist [3; 4] [3; 5] = 1.
Proof.
  unfold rdist, rc. cbn. split.
  - transitivity (sqrt (5 * 5)); [f_equal; ring|apply sqrt_square; lra].
  - transitivity (sqrt (1 * 1)); [f_equal; ring|apply sqrt_square; lra].
Qed.
Lemma zigzag_distinct : distinct_steps zigzag.
Proof.
  destruct zigzag_dist. intros i Hi. cbn in Hi.
  destruct i as [|[|i]]; cbn [nth zigzag]; [lra|lra|lia].
Qed.
