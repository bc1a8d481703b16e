(** * Properties of the bounding box traversal

    Only statements: each theorem is proved elsewhere; its statement is repeated here, followed by
    a concrete case that meets its hypotheses. *)
From Coq Require Import Reals Lra Lia ZArith Sorted.
From Verif Require Import Base BaseFacts Scalar RSum BSplineSpec BSpline KnotModel KnotSpec KnotFacts VecFacts
  CurveModel CurveKnotModel CurveSpec CurveProofs CurveGeom CurveGeom2 KnotMisc Boehm Refine SplitModel SplitProofs Decompose BBoxModel BBoxProofs
  SurfaceModel SurfaceBoxModel SurfaceSpec SurfaceProofs TraversalModel TraversalProofs TraversalCurve TraversalSurface Demo.
Open Scope R_scope.

(** two crossing rational single-span curves, and a bilinear patch pierced by a line *)
Definition bz1 : Curve R := MkCurve 3 2 [[0; 0; 1]; [2; 4; 2]; [2; 0; 1]] [0; 0; 0; 1; 1; 1].
Definition bz2 : Curve R := MkCurve 3 1 [[0; 1; 1]; [3; 1; 1]] [0; 0; 1; 1].
Definition patch : Surf R := MkSurf 4 1 1 [0; 0; 1; 1] [0; 0; 1; 1]
  [ [[0; 0; 0; 1]; [0; 1; 0; 1]]; [[1; 0; 0; 1]; [1; 1; 1; 1]] ].
Definition pierce : Curve R := MkCurve 4 1 [[1 / 2; 1 / 2; -1; 1]; [1 / 2; 1 / 2; 1; 1]] [0; 0; 1; 1].

Ltac curve_tac := constructor; cbn; try lia; [repeat constructor|];
  constructor; cbn; try lia; unfold kf; cbn; try lra; repeat constructor; lra.
Lemma bz1_box : box_curve eps0 maxv0 bz1.
Proof.
  constructor.
  - curve_tac.
  - unfold curve_eps, eps_ok, eps0, kf. cbn. lra.
  - intros j Hj. cbn in Hj. unfold cpc, rc. cbn. destruct j as [|[|[|j]]]; cbn; try lra. lia.
  - intros i j Hi Hj. cbn in Hi, Hj. unfold cpc, rc, maxv0.
    destruct i as [|[|i]]; [| |lia]; (destruct j as [|[|[|j]]]; [| | |lia]); cbn; abs_lra.
Qed.
Lemma bz2_box : box_curve eps0 maxv0 bz2.
Proof.
  constructor.
  - curve_tac.
  - unfold curve_eps, eps_ok, eps0, kf. cbn. lra.
  - intros j Hj. cbn in Hj. unfold cpc, rc. cbn. destruct j as [|[|j]]; cbn; try lra. lia.
  - intros i j Hi Hj. cbn in Hi, Hj. unfold cpc, rc, maxv0.
    destruct i as [|[|i]]; [| |lia]; (destruct j as [|[|j]]; [| |lia]); cbn; abs_lra.
Qed.
Lemma pierce_box : box_curve eps0 maxv0 pierce.
Proof.
  constructor.
  - curve_tac.
  - unfold curve_eps, eps_ok, eps0, kf. cbn. lra.
  - intros j Hj. cbn in Hj. unfold cpc, rc. cbn. destruct j as [|[|j]]; cbn; try lra. lia.
  - intros i j Hi Hj. cbn in Hi, Hj. unfold cpc, rc, maxv0.
    destruct i as [|[|[|i]]]; [| | |lia]; (destruct j as [|[|j]]; [| |lia]); cbn; abs_lra.
Qed.
Lemma patch_box : box_surf eps0 patch.
Proof.
  constructor.
  - constructor; cbn; try lia; try (repeat constructor; fail);
      (constructor; cbn; try lia; unfold kf; cbn; try lra; repeat constructor; lra).
  - split; unfold eps_ok, eps0, kf; cbn; lra.
  - intros a b Ha Hb. cbn in Ha, Hb. unfold spc, rc.
    destruct a as [|[|a]]; [| |lia]; (destruct b as [|[|b]]; [| |lia]); cbn; lra.
Qed.
Lemma patch_span : single_span patch.
Proof. split; intros y Hy; unfold u0, u1, v0, v1, kf; in_cases; cbn; lra. Qed.


Section C38_traverse_sound_statement.
  Context {T : Type} {SO : Scalar T}.
  Context {A B : Type} (oa : TreeOps T A) (ob : TreeOps T B) (D : nat) (rng : nat -> T).
  Local Notation leaf_pair := (leaf_pair oa ob D rng).

  Theorem C38_traverse_sound : forall fuel ta tb pairs,
    traverse oa ob D rng fuel ta tb = Ok pairs -> Forall (leaf_pair ta tb) pairs.
  Proof. exact (traverse_sound oa ob D rng). Qed.
End C38_traverse_sound_statement.
Print Assumptions C38_traverse_sound.

Section C38_traverse_curves_statement.
  Variables eps maxv : R.
  Local Hint Extern 0 (Scalar R) => exact (ROps eps maxv) : typeclass_instances.
  Local Notation box_curve := (box_curve eps maxv).
  Local Notation divisions_off_knots := (divisions_off_knots eps maxv).
  Local Notation leaf_of := (leaf_of eps maxv).
  Local Notation boxes_meet := (boxes_meet eps maxv).
  Theorem C38_traverse_curves : forall rng ca cb tola tolb,
    (forall k, 0 <= rng k <= 1) -> box_curve ca -> box_curve cb -> cdim ca = cdim cb ->
    0 < tola -> 0 < tolb ->
    divisions_off_knots rng ca tola -> divisions_off_knots rng cb tolb ->
    exists fuel0 pairs,
    (forall fuel, (fuel0 <= fuel)%nat ->
    traverse ct_ops ct_ops (cdim ca - 1) rng fuel (MkCTree ca tola) (MkCTree cb tolb) = Ok pairs) /\
    (forall a b, In (a, b) pairs ->
    leaf_of ca tola a /\ leaf_of cb tolb b /\ boxes_meet (cdim ca - 1) a b) /\
    (forall u v, dom0 ca <= u <= dom1 ca -> dom0 cb <= v <= dom1 cb ->
    point_at ca u = point_at cb v ->
    exists a b, In (a, b) pairs /\ dom0 (ct_curve a) <= u <= dom1 (ct_curve a) /\
    dom0 (ct_curve b) <= v <= dom1 (ct_curve b)).
  Proof. first [exact (traverse_curves eps maxv) | exact (traverse_curves eps) | exact traverse_curves | exact (traverse_curves maxv)]. Qed.
End C38_traverse_curves_statement.
Example C38_case_off : divisions_off_knots eps0 maxv0 (fun _ => 1 / 2) bz1 (1 / 10).
Proof. apply bezier_divisions; try exact bz1_box; try (split; reflexivity); unfold eps0; try lra; intros; lra. Qed.
Print Assumptions C38_traverse_curves.

Section C38_traverse_bezier_statement.
  Variables eps maxv : R.
  Local Hint Extern 0 (Scalar R) => exact (ROps eps maxv) : typeclass_instances.
  Local Notation box_curve := (box_curve eps maxv).
  Local Notation divisions_off_knots := (divisions_off_knots eps maxv).
  Local Notation leaf_of := (leaf_of eps maxv).
  Local Notation boxes_meet := (boxes_meet eps maxv).
  Theorem C38_traverse_bezier : forall rng ca cb tola tolb,
    (forall k, 0 <= rng k <= 1) -> box_curve ca -> box_curve cb -> cdim ca = cdim cb ->
    bezier_knots ca -> bezier_knots cb -> 20 / 9 * eps <= tola -> 20 / 9 * eps <= tolb ->
    exists fuel0 pairs,
    (forall fuel, (fuel0 <= fuel)%nat ->
    traverse ct_ops ct_ops (cdim ca - 1) rng fuel (MkCTree ca tola) (MkCTree cb tolb) = Ok pairs) /\
    (forall a b, In (a, b) pairs ->
    leaf_of ca tola a /\ leaf_of cb tolb b /\ boxes_meet (cdim ca - 1) a b) /\
    (forall u v, dom0 ca <= u <= dom1 ca -> dom0 cb <= v <= dom1 cb ->
    point_at ca u = point_at cb v ->
    exists a b, In (a, b) pairs /\ dom0 (ct_curve a) <= u <= dom1 (ct_curve a) /\
    dom0 (ct_curve b) <= v <= dom1 (ct_curve b)).
  Proof. first [exact (traverse_bezier eps maxv) | exact (traverse_bezier eps) | exact traverse_bezier | exact (traverse_bezier maxv)]. Qed.
End C38_traverse_bezier_statement.
Example C38_case : box_curve eps0 maxv0 bz1 /\ box_curve eps0 maxv0 bz2 /\ bezier_knots bz1 /\ bezier_knots bz2 /\ 20 / 9 * eps0 <= 1 / 10.
Proof. split; [exact bz1_box|]; split; [exact bz2_box|]; split; [split; reflexivity|]; split; [split; reflexivity|]; unfold eps0; lra. Qed.
Print Assumptions C38_traverse_bezier.

Section C38_traverse_surface_curve_statement.
  Variables eps maxv : R.
  Local Hint Extern 0 (Scalar R) => exact (ROps eps maxv) : typeclass_instances.
  Local Notation box_surf := (box_surf eps).
  Local Notation surf_divisions_off_knots := (surf_divisions_off_knots eps maxv).
  Local Notation sleaf_of := (sleaf_of eps maxv).
  Local Notation sboxes_meet := (sboxes_meet eps maxv).
  Theorem C38_traverse_surface_curve : forall rng s c utol vtol tol d,
    (forall k, 0 <= rng k <= 1) -> box_surf s -> box_curve eps maxv c -> sdim s = cdim c ->
    0 < utol -> 0 < vtol -> 0 < tol ->
    surf_divisions_off_knots s utol vtol d -> divisions_off_knots eps maxv rng c tol ->
    exists fuel0 pairs,
    (forall fuel, (fuel0 <= fuel)%nat ->
    traverse st_ops ct_ops (sdim s - 1) rng fuel (MkSTree s utol vtol d) (MkCTree c tol) = Ok pairs) /\
    (forall a b, In (a, b) pairs ->
    sleaf_of s utol vtol a /\ leaf_of eps maxv c tol b /\ sboxes_meet (sdim s - 1) a b) /\
    (forall u v w, in_dom s u v -> dom0 c <= w <= dom1 c ->
    surf_point_at s u v = point_at c w ->
    exists a b, In (a, b) pairs /\ in_dom (st_surf a) u v /\
    dom0 (ct_curve b) <= w <= dom1 (ct_curve b)).
  Proof. first [exact (traverse_surface_curve eps maxv) | exact (traverse_surface_curve eps) | exact traverse_surface_curve | exact (traverse_surface_curve maxv)]. Qed.
End C38_traverse_surface_curve_statement.
Print Assumptions C38_traverse_surface_curve.

Section C38_traverse_patch_bezier_statement.
  Variables eps maxv : R.
  Local Hint Extern 0 (Scalar R) => exact (ROps eps maxv) : typeclass_instances.
  Local Notation box_surf := (box_surf eps).
  Local Notation surf_divisions_off_knots := (surf_divisions_off_knots eps maxv).
  Local Notation sleaf_of := (sleaf_of eps maxv).
  Local Notation sboxes_meet := (sboxes_meet eps maxv).
  Theorem C38_traverse_patch_bezier : forall rng s c d tol,
    (forall k, 0 <= rng k <= 1) -> box_surf s -> box_curve eps maxv c -> sdim s = cdim c ->
    single_span s -> bezier_knots c ->
    64 * eps <= u1 s - u0 s -> 64 * eps <= v1 s - v0 s -> 20 / 9 * eps <= tol ->
    exists t fuel0 pairs, st_new s d None = Ok t /\
    (forall fuel, (fuel0 <= fuel)%nat ->
    traverse st_ops ct_ops (sdim s - 1) rng fuel t (MkCTree c tol) = Ok pairs) /\
    (forall a b, In (a, b) pairs ->
    sleaf_of s ((u1 s - u0 s) / 64) ((v1 s - v0 s) / 64) a /\ leaf_of eps maxv c tol b /\
    sboxes_meet (sdim s - 1) a b) /\
    (forall u v w, in_dom s u v -> dom0 c <= w <= dom1 c ->
    surf_point_at s u v = point_at c w ->
    exists a b, In (a, b) pairs /\ in_dom (st_surf a) u v /\
    dom0 (ct_curve b) <= w <= dom1 (ct_curve b)).
  Proof. first [exact (traverse_patch_bezier eps maxv) | exact (traverse_patch_bezier eps) | exact traverse_patch_bezier | exact (traverse_patch_bezier maxv)]. Qed.
End C38_traverse_patch_bezier_statement.
Example C38_case_surface : box_surf eps0 patch /\ box_curve eps0 maxv0 pierce /\ sdim patch = cdim pierce /\ single_span patch /\ bezier_knots pierce /\ 64 * eps0 <= u1 patch - u0 patch /\ 64 * eps0 <= v1 patch - v0 patch.
Proof. split; [exact patch_box|]; split; [exact pierce_box|]; split; [reflexivity|]; split; [exact patch_span|]; split; [split; reflexivity|]; unfold u0, u1, v0, v1, kf, eps0; cbn; lra. Qed.
Print Assumptions C38_traverse_patch_bezier.
