(** * Specification: textbook B-splines (no reference to the code)

    Piegl & Tiller, The NURBS Book, eq. (2.5): the Cox-de Boor recursion on a non-decreasing
    knot sequence [k], with the convention that a quotient with zero denominator is zero. *)
From Coq Require Import Reals.
From Verif Require Import RSum.
Open Scope R_scope.

Definition quot0 (a b : R) : R := if Req_EM_T b 0 then 0 else a / b.

Fixpoint cox_de_boor (k : nat -> R) (p i : nat) (u : R) : R :=
  match p with
  | O => if Rle_dec (k i) u then (if Rlt_dec u (k (S i)) then 1 else 0) else 0
  | S q =>
      quot0 (u - k i) (k (i + p)%nat - k i) * cox_de_boor k q i u
      + quot0 (k (i + p + 1)%nat - u) (k (i + p + 1)%nat - k (i + 1)%nat)
        * cox_de_boor k q (i + 1) u
  end.

(** value of the (scalar) spline with coefficients [P 0 .. P (n-1)] *)
Definition spline (k : nat -> R) (p n : nat) (P : nat -> R) (u : R) : R :=
  rsum n (fun i => cox_de_boor k p i u * P i).
