(** * Degenerate input: exactly what is accepted

    Only statements: each theorem is proved elsewhere; its statement is repeated here, followed by
    a concrete case that meets its hypotheses. *)
From Coq Require Import Floats Reals Lra Lia List Arith String.
From Verif Require Import Base BaseFacts Scalar RSum BSplineSpec BSpline KnotModel KnotSpec KnotFacts VecFacts CurveModel CurveSpec CurveProofs CurveGeom2 CurveShapes
  ClosestModel NewtonMain DegenerateRefuted Degenerate Demo PropsNewton.
Import ListNotations.
Local Open Scope nat_scope.


Section C94_polyline_never_errs_statement.
  Context {T : Type} {SO : Scalar T}.
  Theorem C94_polyline_never_errs : forall D (pts : list (list T)) b,
    (pts = [] -> panics (polyline D pts b)) /\
    (pts <> [] -> exists c, polyline D pts b = Ok c /\ cdeg c = 1 /\ cpts c = map to_homogeneous pts /\ length (cknots c) = length pts + 2).
  Proof. exact polyline_never_errs. Qed.
End C94_polyline_never_errs_statement.
Print Assumptions C94_polyline_never_errs.

Section C94_normalize_never_errs_statement.
  Context {T : Type} {SO : Scalar T}.
  Theorem C94_normalize_never_errs : forall c : Curve T,
    (cdeg c + 1 <= length (cknots c) -> exists c', normalize_knots c = Ok c' /\ cpts c' = cpts c /\ length (cknots c') = length (cknots c)) /\
    (length (cknots c) < cdeg c + 1 -> panics (normalize_knots c)).
  Proof. exact normalize_never_errs. Qed.
End C94_normalize_never_errs_statement.
(** both cases occur: two knots are too few for degree two, and three equal knots span an empty domain *)
Example C94_case_normalize : length (cknots (MkCurve 3 2 [[0; 0; 1]] [0; 1])) < 2 + 1 /\ 2 + 1 <= length (cknots (MkCurve 3 2 [[0; 0; 1]] [1; 1; 1])).
Proof. cbn. lia. Qed.
Print Assumptions C94_normalize_never_errs.

Section C94_closest_panics_iff_statement.
  Variables eps maxv : R.
  Local Hint Extern 0 (Scalar R) => exact (ROps eps maxv) : typeclass_instances.
  Local Open Scope R_scope.

  Theorem C94_closest_panics_iff : forall c p,
    0 < eps -> curve_ok c -> curve_eps eps c -> pos_weights c -> length p = (cdim c - 1)%nat -> is_closed c = Ok false ->
    (panics (find_closest_parameter c p) <-> cdeg c = 0%nat) /\
    (is_ok (find_closest_parameter c p) <-> cdeg c <> 0%nat).
  Proof. first [exact (closest_panics_iff eps maxv) | exact (closest_panics_iff eps) | exact closest_panics_iff]. Qed.
End C94_closest_panics_iff_statement.
Section C94_case_closest_section.
  Local Open Scope R_scope.
  Local Hint Extern 0 (Scalar R) => exact (ROps eps0 maxv0) : typeclass_instances.
  Example C94_case_closest : is_ok (find_closest_parameter seg3 [0; 5]) /\ ~ panics (find_closest_parameter seg3 [0; 5]).
  Proof.
    destruct (closest_panics_iff eps0 maxv0 seg3 [0; 5]) as [[P _] [_ O]]; try (first [apply seg3_bezier | reflexivity | exact seg3_open | unfold eps0; lra]).
    split; [apply O; cbn; discriminate|]. intros Q. apply P in Q. cbn in Q. discriminate.
  Qed.
End C94_case_closest_section.
Print Assumptions C94_closest_panics_iff.

Section C94_polyline_valid_iff_statement.
  Variables eps maxv : R.
  Local Hint Extern 0 (Scalar R) => exact (ROps eps maxv) : typeclass_instances.
  Local Open Scope R_scope.

  Theorem C94_polyline_valid_iff : forall D pts c,
    (1 <= D)%nat -> (2 <= length pts)%nat -> Forall (fun p => length p = (D - 1)%nat) pts -> polyline D pts false = Ok c ->
    (curve_ok c <-> nth 0 pts [] <> nth 1 pts [] /\ nth (length pts - 2) pts [] <> nth (length pts - 1) pts []).
  Proof. first [exact (polyline_valid_iff eps maxv) | exact (polyline_valid_iff eps) | exact polyline_valid_iff]. Qed.
End C94_polyline_valid_iff_statement.
(** a repeated point in the middle is harmless, a repeated first point is not *)
Section C94_case_valid_section.
  Local Open Scope R_scope.
  Local Hint Extern 0 (Scalar R) => exact (ROps eps0 maxv0) : typeclass_instances.
  Example C94_case_valid : exists c c', polyline 2 [[0]; [1]; [1]; [2]] false = Ok c /\ curve_ok c /\ polyline 2 [[0]; [0]; [1]; [2]] false = Ok c' /\ ~ curve_ok c'.
  Proof.
    destruct (proj2 (polyline_never_errs 2 [[0]; [1]; [1]; [2]] false)) as (c & E & _); [discriminate|].
    destruct (proj2 (polyline_never_errs 2 [[0]; [0]; [1]; [2]] false)) as (c' & E' & _); [discriminate|].
    exists c, c'. split; [exact E|]. split; [|split; [exact E'|]].
    - apply (polyline_valid_iff eps0 maxv0 2 [[0]; [1]; [1]; [2]] c ltac:(lia) ltac:(cbn; lia) ltac:(repeat (constructor; [reflexivity|]); constructor) E).
      cbn. split; intros Q; injection Q; lra.
    - intros Hc. apply (polyline_valid_iff eps0 maxv0 2 [[0]; [0]; [1]; [2]] c' ltac:(lia) ltac:(cbn; lia) ltac:(repeat (constructor; [reflexivity|]); constructor) E') in Hc.
      cbn in Hc. tauto.
  Qed.
End C94_case_valid_section.
Print Assumptions C94_polyline_valid_iff.
