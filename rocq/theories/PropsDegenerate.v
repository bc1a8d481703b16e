(** * Degenerate input

    Only statements: each theorem is proved elsewhere; its statement is repeated here, followed by
    a concrete case that meets its hypotheses. *)
From Coq Require Import Floats List Arith String.
From Verif Require Import Base Scalar KnotModel CurveModel ClosestModel DegenerateRefuted.
Import ListNotations.


Section C94_closest_degree_zero_refuted_statement.
  Context {T : Type} {SO : Scalar T}.
  Theorem C94_closest_degree_zero_refuted : forall (c : Curve T) (p : list T) d b, cdeg c = 0%nat ->
    knots_domain c = Ok d -> is_closed c = Ok b -> panics (find_closest_parameter c p).
  Proof. exact closest_degree_zero_refuted. Qed.
End C94_closest_degree_zero_refuted_statement.
(** a curve of degree zero made by the checked constructor meets the hypotheses *)
Example C94_case_degree_zero : exists c : Curve float, cdeg c = 0%nat /\ is_ok (knots_domain c) /\ is_ok (is_closed (SO := FOps) c).
Proof. exists (MkCurve 3 0 [[0; 0; 1]; [1; 1; 1]]%float [0; 1; 2]%float). split; [reflexivity|]. split; vm_compute; eexists; reflexivity. Qed.
Print Assumptions C94_closest_degree_zero_refuted.

Section C94_polyline_coincident_refuted_statement.
  Local Existing Instance FOps.
  Local Open Scope float_scope.
  Theorem C94_polyline_coincident_refuted : exists (pts : list (list float)) c, polyline 3 pts true = Ok c /\
    (length (cknots c) = 4)%nat /\ forallb is_nan (cknots c) = true.
  Proof. exact polyline_coincident_refuted. Qed.
End C94_polyline_coincident_refuted_statement.
Print Assumptions C94_polyline_coincident_refuted.

Section C94_polyline_coincident_point_refuted_statement.
  Local Existing Instance FOps.
  Local Open Scope float_scope.
  Theorem C94_polyline_coincident_point_refuted : exists (pts : list (list float)) c p, polyline 3 pts false = Ok c /\
    knots_domain c = Ok (0, 0) /\ point_at c 0 = Ok p /\ (length p = 2)%nat /\ forallb is_nan p = true.
  Proof. exact polyline_coincident_point_refuted. Qed.
End C94_polyline_coincident_point_refuted_statement.
Print Assumptions C94_polyline_coincident_point_refuted.

Section C94_normalize_empty_domain_refuted_statement.
  Local Existing Instance FOps.
  Local Open Scope float_scope.
  Theorem C94_normalize_empty_domain_refuted : exists (c c' : Curve float),
    try_new 3 1 [[0; 0; 1]; [1; 1; 1]] [2; 2; 2; 2] = Ok c /\ normalize_knots c = Ok c' /\
    forallb is_nan (cknots c') = true.
  Proof. exact normalize_empty_domain_refuted. Qed.
End C94_normalize_empty_domain_refuted_statement.
Print Assumptions C94_normalize_empty_domain_refuted.

Section C94_degree_zero_closest_refuted_statement.
  Local Existing Instance FOps.
  Local Open Scope float_scope.
  Theorem C94_degree_zero_closest_refuted : exists (c : Curve float), try_new 3 0 [[0; 0; 1]; [1; 1; 1]] [0; 1; 2] = Ok c /\
    point_at c 0.5 = Ok [0; 0] /\ panics (find_closest_parameter c [0.5; 0.5]).
  Proof. exact degree_zero_closest_refuted. Qed.
End C94_degree_zero_closest_refuted_statement.
Print Assumptions C94_degree_zero_closest_refuted.

Section C94_interpolate_coincident_refuted_statement.
  Local Existing Instance FOps.
  Local Open Scope float_scope.
  Theorem C94_interpolate_coincident_refuted : exists (pts : list (list float)), chord_params pts = Ok [nan; nan; nan] /\
    forall solve : list (list float) -> list float -> option (list float), (forall m b, exists x, solve m b = Some x /\ (length x = 3)%nat) ->
    exists c, try_interpolate solve 3 pts 1 = Ok c /\ cpts c <> [] /\ existsb is_nan (cknots c) = true.
  Proof. exact interpolate_coincident_refuted. Qed.
End C94_interpolate_coincident_refuted_statement.
Print Assumptions C94_interpolate_coincident_refuted.
