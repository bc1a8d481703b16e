(** * Specification vocabulary for knot vectors over R *)
From Coq Require Import Reals Sorted.
From Verif Require Import Base.
Open Scope R_scope.

(** the knots of a list as an infinite sequence (constant after the last knot) *)
Definition kf (k : list R) (i : nat) : R := nth i k (last k 0).

(** Valid knot vector for degree [p] and last control point index [n] (so n+1 control points):
    sorted, of length n+p+2, with non-empty first and last span of the domain. *)
Record knots_ok (p n : nat) (k : list R) : Prop := {
  ko_len : length k = (n + p + 2)%nat;
  ko_pn : (p <= n)%nat;
  ko_sorted : Sorted Rle k;
  ko_first : kf k p < kf k (p + 1)%nat;
  ko_last : kf k n < kf k (n + 1)%nat
}.

(** The machine epsilon used by the span search does not exceed the first and the last span. *)
Definition eps_ok (eps : R) (p n : nat) (k : list R) : Prop :=
  0 < eps /\ eps <= kf k (p + 1)%nat - kf k p /\ eps <= kf k (n + 1)%nat - kf k n.

(** [s] is the span of the parameter [u] of the domain (closed at the end of the domain) *)
Definition in_span (k : list R) (n s : nat) (u : R) : Prop :=
  kf k s < kf k (S s) /\ kf k s <= u /\ (u < kf k (S s) \/ (s = n /\ u = kf k (S s))).
