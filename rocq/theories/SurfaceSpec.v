(** * Specification vocabulary for NURBS surfaces over R (tensor-product formulas, no code) *)
From Coq Require Import Reals Lra Lia.
From Verif Require Import Base BaseFacts Scalar RSum BSplineSpec KnotSpec KnotFacts VecFacts CurveModel CurveSpec SurfaceModel.
Open Scope R_scope.

(** number of rows (along u) and of columns (along v) of the net *)
Definition nrow (s : Surf R) : nat := length (snet s).
Definition ncol (s : Surf R) : nat := length (nth 0 (snet s) []).

(** the [i]-th homogeneous coordinate of the control point in row [a], column [b] *)
Definition spc (s : Surf R) (i a b : nat) : R := rc i (nth b (nth a (snet s) []) []).

(** domains *)
Definition u0 (s : Surf R) : R := kf (suk s) (sdu s).
Definition u1 (s : Surf R) : R := kf (suk s) (nrow s).
Definition v0 (s : Surf R) : R := kf (svk s) (sdv s).
Definition v1 (s : Surf R) : R := kf (svk s) (ncol s).

(** blending functions *)
Definition Nu (s : Surf R) (a : nat) (u : R) : R := cox_closed (kf (suk s)) (u1 s) (sdu s) a u.
Definition Nv (s : Surf R) (b : nat) (v : R) : R := cox_closed (kf (svk s)) (v1 s) (sdv s) b v.

(** the tensor-product formula: sum over the net of N_a(u) N_b(v) P_ab *)
Definition shcoord (s : Surf R) (i : nat) (u v : R) : R :=
  rsum (nrow s) (fun a => rsum (ncol s) (fun b => Nu s a u * Nv s b v * spc s i a b)).
Definition swfun (s : Surf R) (u v : R) : R := shcoord s (sdim s - 1) u v.
Definition snurbs (s : Surf R) (i : nat) (u v : R) : R := shcoord s i u v / swfun s u v.

(** a well-formed surface: rectangular net, knot vectors of matching length with non-empty end
    spans *)
Record surf_ok (s : Surf R) : Prop := {
  so_dim : (1 <= sdim s)%nat;
  so_rect : Forall (fun row => length row = ncol s) (snet s);
  so_pts : Forall (Forall (fun p => length p = sdim s)) (snet s);
  so_u : (sdu s < nrow s)%nat;
  so_v : (sdv s < ncol s)%nat;
  so_uk : knots_ok (sdu s) (nrow s - 1) (suk s);
  so_vk : knots_ok (sdv s) (ncol s - 1) (svk s)
}.

Definition surf_eps (eps : R) (s : Surf R) : Prop :=
  eps_ok eps (sdu s) (nrow s - 1) (suk s) /\ eps_ok eps (sdv s) (ncol s - 1) (svk s).

Definition in_dom (s : Surf R) (u v : R) : Prop := u0 s <= u <= u1 s /\ v0 s <= v <= v1 s.

(** all weights positive *)
Definition spos (s : Surf R) : Prop :=
  forall a b, (a < nrow s)%nat -> (b < ncol s)%nat -> 0 < spc s (sdim s - 1) a b.

(** a row of the net is a curve in v, a column a curve in u *)
Definition vrow (s : Surf R) (a : nat) : Curve R :=
  MkCurve (sdim s) (sdv s) (nth a (snet s) []) (svk s).
Definition ucol (s : Surf R) (b : nat) : Curve R :=
  MkCurve (sdim s) (sdu s) (map (fun row => nth b row []) (snet s)) (suk s).
