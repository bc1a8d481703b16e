(** * One control polygon for each curve and knot vector

    Only statements: each theorem is proved elsewhere; its statement is repeated here, followed by
    a concrete case that meets its hypotheses. *)
From Coq Require Import Reals Lra Lia List Sorted Permutation.
From Verif Require Import Base BaseFacts Scalar RSum BSplineSpec BSpline KnotModel KnotSpec KnotFacts VecFacts CurveModel CurveKnotModel
  CurveSpec CurveProofs CurveGeom CurveGeom2 Boehm Refine AddKnot Unique Unique2 UniqueRefuted Demo.
Import ListNotations.
Local Open Scope R_scope.

(** the curve [demo] takes the knots 1/2, 1/2 and 3/2 *)
Lemma demo_few : few demo [1 / 2; 1 / 2; 3 / 2].
Proof.
  intros x Hx. cbn. repeat (destruct (Req_EM_T _ x); [try (exfalso; lra)|]); lia.
Qed.
Lemma demo_insertable : insertable eps0 demo [1 / 2; 1 / 2; 3 / 2].
Proof. destruct demo_refine as (A & B). split; [exact A|]. split; [exact B|]. exact demo_few. Qed.
Lemma demo1_insertable : insertable eps0 demo1 [1 / 2].
Proof.
  split; [exact demo1_refine|]. split.
  - unfold inside, dom0, dom1, kf. cbn. repeat constructor; lra.
  - intros x Hx. cbn. repeat (destruct (Req_EM_T _ x); [try (exfalso; lra)|]); lia.
Qed.
Lemma demo_low : low_mult demo.
Proof. intros x Hx. cbn. repeat (destruct (Req_EM_T _ x); [try (exfalso; lra)|]); lia. Qed.
Lemma demo1_low : low_mult demo1.
Proof. exact demo_low. Qed.

Section C87_control_points_unique_statement.

  Theorem C87_control_points_unique : forall c c',
    curve_ok c -> curve_ok c' -> cdim c' = cdim c -> cdeg c' = cdeg c -> cknots c' = cknots c -> low_mult c ->
    (forall i u, (i < cdim c)%nat -> dom0 c <= u <= dom1 c -> ~ In u (cknots c) -> hcoord c' i u = hcoord c i u) -> c' = c.
  Proof. exact control_points_unique. Qed.
End C87_control_points_unique_statement.
Section C87_case_unique_section.
  Local Hint Extern 0 (Scalar R) => exact (ROps eps0 maxv0) : typeclass_instances.
  Example C87_case_unique : curve_ok demo /\ low_mult demo.
  Proof. split; [exact demo_ok|exact demo_low]. Qed.
End C87_case_unique_section.
Print Assumptions C87_control_points_unique.

Section C87_points_determine_curve_statement.
  Variables eps maxv : R.
  Local Hint Extern 0 (Scalar R) => exact (ROps eps maxv) : typeclass_instances.

  Theorem C87_points_determine_curve : forall c c',
    curve_ok c -> curve_eps eps c -> curve_ok c' -> weight_one c -> weight_one c' -> low_mult c ->
    cdim c' = cdim c -> cdeg c' = cdeg c -> cknots c' = cknots c ->
    (forall u, dom0 c <= u <= dom1 c -> point_at c' u = point_at c u) -> c' = c.
  Proof. first [exact (points_determine_curve eps maxv) | exact (points_determine_curve eps) | exact points_determine_curve]. Qed.
End C87_points_determine_curve_statement.
Section C87_case_points_section.
  Local Hint Extern 0 (Scalar R) => exact (ROps eps0 maxv0) : typeclass_instances.
  Example C87_case_points : curve_ok demo1 /\ curve_eps eps0 demo1 /\ weight_one demo1 /\ low_mult demo1.
  Proof. split; [exact demo1_ok|]. split; [exact demo1_eps|]. split; [repeat constructor|exact demo1_low]. Qed.
End C87_case_points_section.
Print Assumptions C87_points_determine_curve.

Section C87_refine_in_steps_statement.
  Variables eps maxv : R.
  Local Hint Extern 0 (Scalar R) => exact (ROps eps maxv) : typeclass_instances.
  Local Notation insertable := (insertable eps).

  Theorem C87_refine_in_steps : forall c zs xs ys,
    curve_ok c -> curve_eps eps c -> insertable c zs ->
    Permutation zs (xs ++ ys) -> Sorted Rle xs -> Sorted Rle ys ->
    exists c1 c', try_refine_knot c xs = Ok c1 /\ try_refine_knot c1 ys = Ok c' /\ try_refine_knot c zs = Ok c'.
  Proof. first [exact (refine_in_steps eps maxv) | exact (refine_in_steps eps) | exact refine_in_steps]. Qed.
End C87_refine_in_steps_statement.
Section C87_case_steps_section.
  Local Hint Extern 0 (Scalar R) => exact (ROps eps0 maxv0) : typeclass_instances.
  Example C87_case_steps : exists c1 c', try_refine_knot demo [3 / 2] = Ok c1 /\ try_refine_knot c1 [1 / 2; 1 / 2] = Ok c' /\ try_refine_knot demo [1 / 2; 1 / 2; 3 / 2] = Ok c'.
  Proof. apply (refine_in_steps eps0 maxv0); [exact demo_ok|exact demo_eps|exact demo_insertable| | |].
    - apply (Permutation_app_comm [1 / 2; 1 / 2] [3 / 2]).
    - repeat constructor.
    - repeat constructor; lra. Qed.
End C87_case_steps_section.
Print Assumptions C87_refine_in_steps.

Section C87_refine_any_order_statement.
  Variables eps maxv : R.
  Local Hint Extern 0 (Scalar R) => exact (ROps eps maxv) : typeclass_instances.
  Local Notation insertable := (insertable eps).

  Theorem C87_refine_any_order : forall l,
    forall c zs, curve_ok c -> curve_eps eps c -> insertable c zs -> Permutation zs l ->
    exists c', try_refine_knot c zs = Ok c' /\ foldM (fun d x => try_refine_knot d [x]) l c = Ok c'.
  Proof. first [exact (refine_any_order eps maxv) | exact (refine_any_order eps) | exact refine_any_order]. Qed.
End C87_refine_any_order_statement.
Section C87_case_order_section.
  Local Hint Extern 0 (Scalar R) => exact (ROps eps0 maxv0) : typeclass_instances.
  Example C87_case_order : exists c', try_refine_knot demo [1 / 2; 1 / 2; 3 / 2] = Ok c' /\ foldM (fun d x => try_refine_knot d [x]) [1 / 2; 3 / 2; 1 / 2] demo = Ok c'.
  Proof. apply (refine_any_order eps0 maxv0); [exact demo_ok|exact demo_eps|exact demo_insertable|]. apply perm_skip, perm_swap. Qed.
End C87_case_order_section.
Print Assumptions C87_refine_any_order.

Section C87_add_knot_is_refine_statement.
  Variables eps maxv : R.
  Local Hint Extern 0 (Scalar R) => exact (ROps eps maxv) : typeclass_instances.
  Local Notation insertable := (insertable eps).

  Theorem C87_add_knot_is_refine : forall c x,
    curve_ok c -> curve_eps eps c -> uniform_weights c -> insertable c [x] ->
    exists c', try_add_knot c x = Ok c' /\ try_refine_knot c [x] = Ok c'.
  Proof. first [exact (add_knot_is_refine eps maxv) | exact (add_knot_is_refine eps) | exact add_knot_is_refine]. Qed.
End C87_add_knot_is_refine_statement.
Section C87_case_add_section.
  Local Hint Extern 0 (Scalar R) => exact (ROps eps0 maxv0) : typeclass_instances.
  Example C87_case_add : exists c', try_add_knot demo1 (1 / 2) = Ok c' /\ try_refine_knot demo1 [1 / 2] = Ok c'.
  Proof. apply (add_knot_is_refine eps0 maxv0); [exact demo1_ok|exact demo1_eps|exact demo1_uniform|exact demo1_insertable]. Qed.
End C87_case_add_section.
Print Assumptions C87_add_knot_is_refine.

Section C87_add_knots_any_order_statement.
  Variables eps maxv : R.
  Local Hint Extern 0 (Scalar R) => exact (ROps eps maxv) : typeclass_instances.
  Local Notation insertable := (insertable eps).

  Theorem C87_add_knots_any_order : forall l,
    forall c zs, curve_ok c -> curve_eps eps c -> uniform_weights c -> insertable c zs -> Permutation zs l ->
    exists c', try_refine_knot c zs = Ok c' /\ foldM try_add_knot l c = Ok c'.
  Proof. first [exact (add_knots_any_order eps maxv) | exact (add_knots_any_order eps) | exact add_knots_any_order]. Qed.
End C87_add_knots_any_order_statement.
Section C87_case_adds_section.
  Local Hint Extern 0 (Scalar R) => exact (ROps eps0 maxv0) : typeclass_instances.
  Example C87_case_adds : exists c', try_refine_knot demo1 [1 / 2] = Ok c' /\ foldM try_add_knot [1 / 2] demo1 = Ok c'.
  Proof. apply (add_knots_any_order eps0 maxv0); [exact demo1_ok|exact demo1_eps|exact demo1_uniform|exact demo1_insertable|apply Permutation_refl]. Qed.
End C87_case_adds_section.
Print Assumptions C87_add_knots_any_order.

Section C87_refine_invert_statement.
  Variables eps maxv : R.
  Local Hint Extern 0 (Scalar R) => exact (ROps eps maxv) : typeclass_instances.
  Local Notation insertable := (insertable eps).

  Theorem C87_refine_invert : forall c zs,
    curve_ok c -> curve_eps eps c -> insertable c zs ->
    exists c1 d c', try_refine_knot c zs = Ok c1 /\ invert c1 = Ok c' /\
    invert c = Ok d /\ try_refine_knot d (rev (map (fun z => mirror_c c - z) zs)) = Ok c'.
  Proof. first [exact (refine_invert eps maxv) | exact (refine_invert eps) | exact refine_invert]. Qed.
End C87_refine_invert_statement.
Section C87_case_invert_section.
  Local Hint Extern 0 (Scalar R) => exact (ROps eps0 maxv0) : typeclass_instances.
  Example C87_case_invert : exists c1 d c', try_refine_knot demo [1 / 2; 1 / 2; 3 / 2] = Ok c1 /\ invert c1 = Ok c' /\ invert demo = Ok d /\ try_refine_knot d (rev (map (fun z => mirror_c demo - z) [1 / 2; 1 / 2; 3 / 2])) = Ok c'.
  Proof. apply (refine_invert eps0 maxv0); [exact demo_ok|exact demo_eps|exact demo_insertable]. Qed.
End C87_case_invert_section.
Print Assumptions C87_refine_invert.

Section C87_refine_transform_statement.
  Variables eps maxv : R.
  Local Hint Extern 0 (Scalar R) => exact (ROps eps maxv) : typeclass_instances.
  Local Notation insertable := (insertable eps).

  Theorem C87_refine_transform : forall c zs m,
    curve_ok c -> curve_eps eps c -> pos_weights c -> insertable c zs -> affine_matrix (cdim c) m ->
    exists c1, try_refine_knot c zs = Ok c1 /\ try_refine_knot (transform m c) zs = Ok (transform m c1).
  Proof. first [exact (refine_transform eps maxv) | exact (refine_transform eps) | exact refine_transform]. Qed.
End C87_refine_transform_statement.
Section C87_case_transform_section.
  Local Hint Extern 0 (Scalar R) => exact (ROps eps0 maxv0) : typeclass_instances.
  Example C87_case_transform : affine_matrix (cdim demo) [[2; 0; 1]; [1; 3; 0]; [0; 0; 1]] /\ exists c1, try_refine_knot demo [1 / 2; 1 / 2; 3 / 2] = Ok c1 /\ try_refine_knot (transform [[2; 0; 1]; [1; 3; 0]; [0; 0; 1]] demo) [1 / 2; 1 / 2; 3 / 2] = Ok (transform [[2; 0; 1]; [1; 3; 0]; [0; 0; 1]] c1).
  Proof. assert (A : affine_matrix (cdim demo) [[2; 0; 1]; [1; 3; 0]; [0; 0; 1]]).
    { unfold affine_matrix, rc. cbn. split; [reflexivity|]. split; [repeat constructor|]. split; [|reflexivity]. intros [|[|j]] Hj; [reflexivity|reflexivity|lia]. }
    split; [exact A|]. apply (refine_transform eps0 maxv0); [exact demo_ok|exact demo_eps|exact demo_pos|exact demo_insertable|exact A]. Qed.
End C87_case_transform_section.
Print Assumptions C87_refine_transform.

Section C87_points_determine_curve_refuted_statement.
  Variables eps maxv : R.
  Local Hint Extern 0 (Scalar R) => exact (ROps eps maxv) : typeclass_instances.

  Theorem C87_points_determine_curve_refuted : 0 < eps <= 1 ->
    exists c c', curve_ok c /\ curve_eps eps c /\ curve_ok c' /\ weight_one c /\ weight_one c' /\
    cdim c' = cdim c /\ cdeg c' = cdeg c /\ cknots c' = cknots c /\
    (forall u, dom0 c <= u <= dom1 c -> point_at c' u = point_at c u) /\ c' <> c.
  Proof. first [exact (points_determine_curve_refuted eps maxv) | exact (points_determine_curve_refuted eps) | exact points_determine_curve_refuted]. Qed.
End C87_points_determine_curve_refuted_statement.
Section C87_case_loose_section.
  Local Hint Extern 0 (Scalar R) => exact (ROps eps0 maxv0) : typeclass_instances.
  Example C87_case_loose : point_at (loose 2) 1 = point_at (loose 7) 1.
  Proof. apply loose_points; unfold eps0; lra. Qed.
End C87_case_loose_section.
Print Assumptions C87_points_determine_curve_refuted.

Section C87_rational_points_refuted_statement.
  Variables eps maxv : R.
  Local Hint Extern 0 (Scalar R) => exact (ROps eps maxv) : typeclass_instances.

  Theorem C87_rational_points_refuted : 0 < eps <= 1 ->
    exists c c', curve_ok c /\ curve_eps eps c /\ curve_ok c' /\ pos_weights c /\ pos_weights c' /\ low_mult c /\
    cdim c' = cdim c /\ cdeg c' = cdeg c /\ cknots c' = cknots c /\
    (forall u, dom0 c <= u <= dom1 c -> point_at c' u = point_at c u) /\ c' <> c.
  Proof. first [exact (rational_points_refuted eps maxv) | exact (rational_points_refuted eps) | exact rational_points_refuted]. Qed.
End C87_rational_points_refuted_statement.
Section C87_case_seg_section.
  Local Hint Extern 0 (Scalar R) => exact (ROps eps0 maxv0) : typeclass_instances.
  Example C87_case_seg : point_at seg_plain (1 / 3) = Ok [1 / 3] /\ point_at seg_rational (1 / 3) = Ok [1 / 3].
  Proof. split; apply seg_at; auto; unfold eps0; lra. Qed.
End C87_case_seg_section.
Print Assumptions C87_rational_points_refuted.
