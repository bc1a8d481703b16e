(** * Properties of samples, closedness, clamping and compound curves

    Only statements: each theorem is proved elsewhere; its statement is repeated here, followed by
    a concrete case that meets its hypotheses. *)
From Coq Require Import Floats.
From Coq Require Import Reals Lra Lia List ZArith Sorted.
From Verif Require Import Base BaseFacts Scalar RSum BSpline KnotModel KnotSpec KnotFacts KnotMisc VecFacts CurveModel CurveKnotModel
  CurveSpec CurveProofs CurveGeom CurveGeom2 BBoxModel BBoxProofs MiscProofs CompoundModel CompoundProofs TessCurveModel ClosestModel
  NewtonProofs NewtonMain CurveMore CompoundMore Demo.
Import ListNotations.
Local Open Scope R_scope.


Section C13_knots_constrain_spec_statement.
  Variables eps maxv : R.
  Local Hint Extern 0 (Scalar R) => exact (ROps eps maxv) : typeclass_instances.

  Theorem C13_knots_constrain_spec : forall c u,
    curve_ok c ->
    exists t, knots_constrain c u = Ok t /\ dom0 c <= t <= dom1 c /\ (dom0 c <= u <= dom1 c -> t = u) /\
    knots_constrain c t = Ok t /\ forall w, dom0 c <= w <= dom1 c -> Rabs (t - u) <= Rabs (w - u).
  Proof. first [exact (knots_constrain_spec eps maxv) | exact (knots_constrain_spec eps)]. Qed.
End C13_knots_constrain_spec_statement.
Example C13_case_curve : curve_ok demo.
Proof. exact demo_ok. Qed.
Print Assumptions C13_knots_constrain_spec.

Section C64_sample_regular_range_spec_statement.
  Variables eps maxv : R.
  Local Hint Extern 0 (Scalar R) => exact (ROps eps maxv) : typeclass_instances.

  Theorem C64_sample_regular_range_spec : forall c a b n,
    curve_ok c -> curve_eps eps c -> pos_weights c ->
    dom0 c <= a -> a <= b -> b <= dom1 c -> (2 <= n)%nat ->
    exists ps, sample_regular_range c a b n = Ok ps /\ length ps = n /\
    forall j, (j < n)%nat -> length (nth j ps []) = (cdim c - 1)%nat /\
    forall i, (i < cdim c - 1)%nat -> rc i (nth j ps []) = nurbs c i (regular a b n j).
  Proof. first [exact (sample_regular_range_spec eps maxv) | exact (sample_regular_range_spec eps)]. Qed.
End C64_sample_regular_range_spec_statement.
Example C64_case : curve_ok demo /\ curve_eps eps0 demo /\ pos_weights demo /\ dom0 demo <= 1 / 2 /\ 3 / 2 <= dom1 demo.
Proof. split; [exact demo_ok|]. split; [exact demo_eps|]. split; [exact demo_pos|]. destruct demo_dom as (-> & ->). lra. Qed.
Print Assumptions C64_sample_regular_range_spec.

Section C64_sample_regular_range_with_parameter_spec_statement.
  Variables eps maxv : R.
  Local Hint Extern 0 (Scalar R) => exact (ROps eps maxv) : typeclass_instances.

  Theorem C64_sample_regular_range_with_parameter_spec : forall c a b n,
    curve_ok c -> curve_eps eps c -> pos_weights c ->
    dom0 c <= a -> a <= b -> b <= dom1 c -> (2 <= n)%nat ->
    exists ps, sample_regular_range_with_parameter c a b n = Ok ps /\ length ps = n /\
    (forall j, (j < n)%nat -> fst (nth j ps (0, [])) = regular a b n j) /\
    exists qs, sample_regular_range c a b n = Ok qs /\ map snd ps = qs.
  Proof. first [exact (sample_regular_range_with_parameter_spec eps maxv) | exact (sample_regular_range_with_parameter_spec eps)]. Qed.
End C64_sample_regular_range_with_parameter_spec_statement.
Print Assumptions C64_sample_regular_range_with_parameter_spec.

Section C64_regular_first_statement.

  Theorem C64_regular_first : forall a b n,
    regular a b n 0 = a.
  Proof. exact regular_first. Qed.
End C64_regular_first_statement.
Print Assumptions C64_regular_first.

Section C64_regular_last_statement.

  Theorem C64_regular_last : forall a b n,
    (2 <= n)%nat -> regular a b n (n - 1) = b.
  Proof. exact regular_last. Qed.
End C64_regular_last_statement.
Print Assumptions C64_regular_last.

Section C64_sample_once_refuted_statement.
  Local Existing Instance FOps.
  Local Open Scope float_scope.
  Theorem C64_sample_once_refuted : exists (c : Curve float) p, curve_is_clamped c = Ok true /\ first_point c = Ok [0; 0] /\
    sample_regular_range c 0 2 1 = Ok [p] /\ (nth 0 p 0 =? nth 0 p 0) = false.
  Proof. exact sample_once_refuted. Qed.
End C64_sample_once_refuted_statement.
Print Assumptions C64_sample_once_refuted.

Section C65_is_closed_spec_statement.
  Variables eps maxv : R.
  Local Hint Extern 0 (Scalar R) => exact (ROps eps maxv) : typeclass_instances.

  Theorem C65_is_closed_spec : forall c,
    0 <= eps -> curve_ok c -> curve_eps eps c -> pos_weights c -> separated eps (cknots c) ->
    exists b p q, is_closed c = Ok b /\ point_at c (dom0 c) = Ok p /\ point_at c (dom1 c) = Ok q /\
    (b = true <-> sqrt (dist2 p q) < 10 * eps).
  Proof. first [exact (is_closed_spec eps maxv) | exact (is_closed_spec eps)]. Qed.
End C65_is_closed_spec_statement.
Example C65_case : 0 <= eps0 /\ curve_ok demo /\ curve_eps eps0 demo /\ pos_weights demo /\ separated eps0 (cknots demo).
Proof. split; [unfold eps0; lra|]. split; [exact demo_ok|]. split; [exact demo_eps|]. split; [exact demo_pos|exact demo_sep]. Qed.
Print Assumptions C65_is_closed_spec.

Section C65_compound_is_closed_spec_statement.
  Variables eps maxv : R.
  Local Hint Extern 0 (Scalar R) => exact (ROps eps maxv) : typeclass_instances.
  Local Notation span_good := (span_good eps).

  Theorem C65_compound_is_closed_spec : forall c l,
    Forall span_good (c :: l) -> Forall (fun x => cdim x = cdim c) l ->
    exists b p q, compound_is_closed (c :: l) = Ok b /\ point_at c (dom0 c) = Ok p /\
    point_at (last (c :: l) c) (dom1 (last (c :: l) c)) = Ok q /\
    (b = true <-> sqrt (dist2 p q) < 10 * eps).
  Proof. first [exact (compound_is_closed_spec eps maxv) | exact (compound_is_closed_spec eps)]. Qed.
End C65_compound_is_closed_spec_statement.
Example C65_case_compound : Forall (span_good eps0) [demo; demo] /\ Forall (fun x => cdim x = cdim demo) [demo].
Proof. split; [|repeat constructor]. assert (G : span_good eps0 demo) by (split; [exact demo_ok|split; [exact demo_eps|exact demo_pos]]). apply Forall_cons; [exact G|]. apply Forall_cons; [exact G|]. apply Forall_nil. Qed.
Print Assumptions C65_compound_is_closed_spec.

Section C66_try_clamp_id_statement.
  Variables eps maxv : R.
  Local Hint Extern 0 (Scalar R) => exact (ROps eps maxv) : typeclass_instances.

  Theorem C66_try_clamp_id : forall c,
    0 <= eps -> curve_ok c -> separated eps (cknots c) ->
    (forall j, (j <= cdeg c)%nat -> kf (cknots c) j = kf (cknots c) 0) ->
    (forall j, (length (cpts c) <= j <= length (cpts c) + cdeg c)%nat -> kf (cknots c) j = kf (cknots c) (length (cpts c))) ->
    try_clamp c = Ok c.
  Proof. first [exact (try_clamp_id eps maxv) | exact (try_clamp_id eps)]. Qed.
End C66_try_clamp_id_statement.
Example C66_case : (forall j, (j <= cdeg demo)%nat -> kf (cknots demo) j = kf (cknots demo) 0) /\ (forall j, (length (cpts demo) <= j <= length (cpts demo) + cdeg demo)%nat -> kf (cknots demo) j = kf (cknots demo) (length (cpts demo))).
Proof. split; intros j Hj; cbn in Hj; (assert (C : (j = 0 \/ j = 1 \/ j = 2 \/ j = 3 \/ j = 4 \/ j = 5 \/ j = 6)%nat) by lia); decompose [or] C; subst j; try lia; reflexivity. Qed.
Print Assumptions C66_try_clamp_id.

Section C66_try_clamp_unclamped_refuted_statement.
  Local Existing Instance FOps.
  Local Open Scope float_scope.
  Theorem C66_try_clamp_unclamped_refuted : exists (c c' : Curve float),
    knots_domain c = Ok (2, 5) /\ first_point c = Ok [0.5; 1] /\
    try_clamp c = Ok c' /\ knots_domain c' = Ok (0, 7) /\ first_point c' = Ok [0; 0].
  Proof. exact try_clamp_unclamped_refuted. Qed.
End C66_try_clamp_unclamped_refuted_statement.
Print Assumptions C66_try_clamp_unclamped_refuted.

Section C67_compound_length_spec_statement.
  Variables eps maxv : R.
  Local Hint Extern 0 (Scalar R) => exact (ROps eps maxv) : typeclass_instances.

  Theorem C67_compound_length_spec : forall (len : Curve R -> Res R) spans t,
    compound_length len spans = Ok t <->
    exists ls, Forall2 (fun c x => len c = Ok x) spans ls /\ t = sum ls.
  Proof. first [exact (compound_length_spec eps maxv) | exact (compound_length_spec eps)]. Qed.
End C67_compound_length_spec_statement.
Example C67_case_length : Forall2 (fun c x => (fun c : Curve R => Ok (INR (cdeg c))) c = Ok x) [demo; demo] [2; 2].
Proof. repeat constructor; cbn; f_equal; lra. Qed.
Print Assumptions C67_compound_length_spec.

Section C67_compound_box_statement.
  Variables eps maxv : R.
  Local Hint Extern 0 (Scalar R) => exact (ROps eps maxv) : typeclass_instances.
  Local Notation span_good := (span_good eps).

  Theorem C67_compound_box : forall D spans,
    Forall span_good spans -> Forall (fun c => cdim c = S D) spans ->
    Forall (fun c => Forall (fun q => bounded maxv D (map (fun x => x / rc D q) q)) (cpts c)) spans ->
    exists b, bb_of_compound D spans = Ok b /\
    forall c u, In c spans -> dom0 c <= u <= dom1 c -> exists p, point_at c u = Ok p /\ in_box D b p.
  Proof. first [exact (compound_box eps maxv) | exact (compound_box eps)]. Qed.
End C67_compound_box_statement.
Example C67_case_box : Forall (fun c => Forall (fun q => bounded maxv0 2 (map (fun x => x / rc 2 q) q)) (cpts c)) [demo].
Proof. repeat (apply Forall_cons || apply Forall_nil); intros [|[|i]] Hi; try lia; unfold rc, maxv0; cbn; lra. Qed.
Print Assumptions C67_compound_box.

Section C67_tessellate_compound_join_statement.
  Context {T : Type} {SO : Scalar T}.
  Variable rng : nat -> T.
  Local Notation in_turn := (in_turn rng).
  Local Open Scope nat_scope.
  Theorem C67_tessellate_compound_join : forall fuel cs tol k pts k' d,
    tessellate_compound rng fuel cs tol k = Ok (pts, k') ->
    exists b tess, compound_is_closed cs = Ok b /\ in_turn fuel tol cs k tess k' /\
    (b = true -> pts = inits tess ++ match inits tess with [] => [] | p :: _ => [p] end /\ hd d pts = last pts d) /\
    (b = false -> tess <> [] -> Forall (fun t => t <> []) tess -> pts = inits tess ++ [last (last tess []) d]).
  Proof. exact (tessellate_compound_join rng). Qed.
End C67_tessellate_compound_join_statement.
Section C67_case_join_section.
  Local Existing Instance FOps.
  Definition c67_a : Curve float := MkCurve 3 1 [[0; 0; 1]; [1; 0; 1]; [1; 1; 1]]%float [0; 0; 1; 2; 2]%float.
  Definition c67_b : Curve float := MkCurve 3 1 [[1; 1; 1]; [0; 0; 1]]%float [2; 2; 3; 3]%float.
  Example C67_case_join : tessellate_compound (fun _ => 0.5%float) 5 [c67_a; c67_b] None 0 = Ok ([[0; 0]; [1; 0]; [1; 1]; [0; 0]]%float, 0%nat).
  Proof. vm_compute. reflexivity. Qed.
End C67_case_join_section.
Print Assumptions C67_tessellate_compound_join.

Section C59_find_closest_point_on_statement.
  Variables eps maxv : R.
  Local Hint Extern 0 (Scalar R) => exact (ROps eps maxv) : typeclass_instances.

  Theorem C59_find_closest_point_on : forall c p,
    0 < eps -> curve_ok c -> curve_eps eps c -> pos_weights c -> (1 <= cdeg c)%nat ->
    length p = (cdim c - 1)%nat -> is_closed c = Ok false ->
    exists t q, find_closest_parameter c p = Ok t /\ dom0 c <= t <= dom1 c /\ find_closest_point c p = Ok q /\
    length q = (cdim c - 1)%nat /\ forall i, (i < cdim c - 1)%nat -> rc i q = nurbs c i t.
  Proof. first [exact (find_closest_point_on eps maxv) | exact (find_closest_point_on eps)]. Qed.
End C59_find_closest_point_on_statement.
Print Assumptions C59_find_closest_point_on.
