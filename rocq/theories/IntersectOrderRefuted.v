(** * The number of reported intersections depends on the order of the curves *)
From Coq Require Import Floats List Lia ZArith.
From Verif Require Import Base Scalar CurveModel BfgsModel IntersectModel IntersectRefuted.
Import ListNotations.
Local Existing Instance FOps.
Local Open Scope float_scope.

(** a path that crosses a line at 0, at 2 and at 0 again *)
Definition zig : Curve float :=
  MkCurve 3 1 [[0; -1; 1]; [0; 1; 1]; [2; 1; 1]; [2; -1; 1]; [-1; -1; 1]; [1; 1; 1]] [0; 0; 1; 2; 3; 4; 5; 5].
Definition flat : Curve float := seg [-2; 0; 1] [6; 0; 1].

(** three crossings are reported one way round, two the other way round: neighbours in the order along the first curve are merged when
    their parameters on either curve are close *)
Theorem intersections_symmetric_refuted : exists (a b : Curve float) t0 t1 t2 s0 s1 r r',
  (t1 - t0 =? 2) = true /\ (t2 - t1 =? 2) = true /\
  point_at a t0 = Ok [0; 0] /\ point_at b s0 = Ok [0; 0] /\ point_at a t1 = Ok [2; 0] /\ point_at b s1 = Ok [2; 0] /\
  point_at a t2 = Ok [0; 0] /\
  intersect a b = Ok r /\ length r = 3%nat /\ intersect b a = Ok r' /\ length r' = 2%nat.
Proof.
  remember (match intersect zig flat with Ok r => r | _ => [] end) as r eqn:E. vm_compute in E.
  remember (match intersect flat zig with Ok r => r | _ => [] end) as r' eqn:E'. vm_compute in E'.
  exists zig, flat, 0.5, 2.5, 4.5, 0.25, 0.5, r, r'. subst r r'. vm_compute. repeat split.
Qed.
