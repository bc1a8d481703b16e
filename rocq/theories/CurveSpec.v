(** * Specification vocabulary for NURBS curves over R (textbook formulas, no code)

    [cox_closed] is the Cox-de Boor recursion whose degree-0 functions are half open, except
    that the end [e] of the domain belongs to the last non-empty span of the domain (the usual
    convention of the NURBS book). *)
From Coq Require Import Reals.
From Verif Require Import Base Scalar RSum BSplineSpec KnotSpec VecFacts CurveModel.
Open Scope R_scope.

Fixpoint cox_closed (k : nat -> R) (e : R) (p i : nat) (u : R) : R :=
  match p with
  | O =>
      if Req_EM_T u e then
        if Req_EM_T (k (S i)) e then if Rlt_dec (k i) (k (S i)) then 1 else 0 else 0
      else if Rle_dec (k i) u then if Rlt_dec u (k (S i)) then 1 else 0 else 0
  | S q =>
      quot0 (u - k i) (k (i + p)%nat - k i) * cox_closed k e q i u
      + quot0 (k (i + p + 1)%nat - u) (k (i + p + 1)%nat - k (i + 1)%nat)
        * cox_closed k e q (i + 1) u
  end.

(** last control point index *)
Definition clast (c : Curve R) : nat := (length (cpts c) - 1)%nat.
(** domain *)
Definition dom0 (c : Curve R) : R := kf (cknots c) (cdeg c).
Definition dom1 (c : Curve R) : R := kf (cknots c) (length (cpts c)).

(** [i]-th homogeneous coordinate of control point [j] *)
Definition cpc (c : Curve R) (i j : nat) : R := rc i (nth j (cpts c) []).

(** [i]-th homogeneous coordinate of the curve at [u]: sum of N_j(u) * P_j *)
Definition hcoord (c : Curve R) (i : nat) (u : R) : R :=
  rsum (length (cpts c))
       (fun j => cox_closed (kf (cknots c)) (dom1 c) (cdeg c) j u * cpc c i j).

(** weight function and affine coordinate: the rational formula *)
Definition wfun (c : Curve R) (u : R) : R := hcoord c (cdim c - 1) u.
Definition nurbs (c : Curve R) (i : nat) (u : R) : R := hcoord c i u / wfun c u.

(** well-formed curve: what [try_new] accepts, with non-empty end spans *)
Record curve_ok (c : Curve R) : Prop := {
  co_dim : (1 <= cdim c)%nat;
  co_pts : Forall (fun p => length p = cdim c) (cpts c);
  co_len : (cdeg c < length (cpts c))%nat;
  co_knots : knots_ok (cdeg c) (clast c) (cknots c)
}.

Definition curve_eps (eps : R) (c : Curve R) : Prop :=
  eps_ok eps (cdeg c) (clast c) (cknots c).

(** all weights positive *)
Definition pos_weights (c : Curve R) : Prop :=
  forall j, (j < length (cpts c))%nat -> 0 < cpc c (cdim c - 1) j.
