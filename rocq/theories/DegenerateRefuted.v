(** * Degenerate input that is accepted and answered with NaN, or that panics *)
From Coq Require Import Floats List Arith String.
From Verif Require Import Base Scalar KnotModel CurveModel ClosestModel.
Import ListNotations.

(** ** Any scalar type *)
Section AnyScalar.
  Context {T : Type} {SO : Scalar T}.

  (** the closest point search samples [length * degree] points: none for a curve of degree zero *)
  Theorem closest_degree_zero_refuted : forall (c : Curve T) (p : list T) d b, cdeg c = 0%nat ->
    knots_domain c = Ok d -> is_closed c = Ok b -> panics (find_closest_parameter c p).
  Proof.
    intros c p [d0 d1] b Hd Hk Hc. unfold find_closest_parameter. rewrite Hk. cbn [bind]. rewrite Hc. cbn [bind].
    unfold closest_guess. rewrite Hk. cbn [bind]. rewrite Hd, Nat.mul_0_r. cbn. eexists. reflexivity.
  Qed.
End AnyScalar.

(** ** Double precision *)
Open Scope float_scope.
Local Existing Instance FOps.

Definition is_nan (x : float) : bool := negb (x =? x).

(** a polyline through coincident points is built without an error; normalised, all its knots are NaN *)
Theorem polyline_coincident_refuted : exists (pts : list (list float)) c, polyline 3 pts true = Ok c /\
  (length (cknots c) = 4)%nat /\ forallb is_nan (cknots c) = true.
Proof. exists [[1; 1]; [1; 1]]. eexists. split; [reflexivity|]. split; vm_compute; reflexivity. Qed.

(** also without normalisation its points are NaN, although both control points are (1, 1) *)
Theorem polyline_coincident_point_refuted : exists (pts : list (list float)) c p, polyline 3 pts false = Ok c /\
  knots_domain c = Ok (0, 0) /\ point_at c 0 = Ok p /\ (length p = 2)%nat /\ forallb is_nan p = true.
Proof.
  exists [[1; 1]; [1; 1]]. eexists _, _. split; [reflexivity|]. split; [vm_compute; reflexivity|].
  split; [vm_compute; reflexivity|]. split; vm_compute; reflexivity.
Qed.

(** the checked constructor accepts knots that span no domain; normalising them gives NaN *)
Theorem normalize_empty_domain_refuted : exists (c c' : Curve float),
  try_new 3 1 [[0; 0; 1]; [1; 1; 1]] [2; 2; 2; 2] = Ok c /\ normalize_knots c = Ok c' /\
  forallb is_nan (cknots c') = true.
Proof. eexists _, _. split; [vm_compute; reflexivity|]. split; vm_compute; reflexivity. Qed.

(** the checked constructor accepts degree zero, and such a curve can be evaluated *)
Theorem degree_zero_closest_refuted : exists (c : Curve float), try_new 3 0 [[0; 0; 1]; [1; 1; 1]] [0; 1; 2] = Ok c /\
  point_at c 0.5 = Ok [0; 0] /\ panics (find_closest_parameter c [0.5; 0.5]).
Proof.
  eexists. split; [vm_compute; reflexivity|]. split; [vm_compute; reflexivity|].
  vm_compute. first [exact I | eexists; reflexivity].
Qed.

(** interpolating coincident points asks for the solution of a system that is not a number; if the solver answers at all, the
    curve is returned without an error and one of its knots is NaN *)
Theorem interpolate_coincident_refuted : exists (pts : list (list float)), chord_params pts = Ok [nan; nan; nan] /\
  forall solve : list (list float) -> list float -> option (list float), (forall m b, exists x, solve m b = Some x /\ (length x = 3)%nat) ->
  exists c, try_interpolate solve 3 pts 1 = Ok c /\ cpts c <> [] /\ existsb is_nan (cknots c) = true.
Proof.
  exists [[1; 1]; [1; 1]; [1; 1]]. split; [vm_compute; reflexivity|]. intros solve H.
  unfold try_interpolate, try_interpolate_control_points.
  assert (E1 : chord_params [[1; 1]; [1; 1]; [1; 1]] = Ok [nan; nan; nan]) by (vm_compute; reflexivity).
  assert (E2 : averaged_knots [nan; nan; nan] 1 = Ok [0; 0; nan; 1; 1]) by (vm_compute; reflexivity).
  assert (E3 : mapM (interp_row [0; 0; nan; 1; 1] 2 1 1) [nan; nan; nan] = Ok [[0; nan; nan]; [0; nan; nan]; [0; nan; nan]]) by (vm_compute; reflexivity).
  rewrite E1. cbn [length Nat.ltb Nat.leb Nat.add bind]. rewrite E2. cbn [bind usub Nat.ltb Nat.leb Nat.sub]. rewrite E3. cbn [bind].
  unfold try_solve_interpolation. cbn [get nth_error bind length seq mapM].
  match goal with |- context [solve ?m ?b] => destruct (H m b) as (x & Ex & Lx); rewrite Ex end.
  cbn [ok_or bind].
  match goal with |- context [solve ?m ?b] => destruct (H m b) as (y & Ey & Ly); rewrite Ey end.
  cbn [ok_or bind]. destruct x as [|x0 [|x1 [|x2 [|x3 x]]]]; try discriminate Lx. destruct y as [|y0 [|y1 [|y2 [|y3 y]]]]; try discriminate Ly.
  cbn [get nth_error bind mapM map]. eexists. split; [reflexivity|]. cbn [cpts cknots]. split; [discriminate|]. vm_compute. reflexivity.
Qed.
