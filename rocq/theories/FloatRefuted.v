(** * Claims that hold in exact arithmetic and fail in double precision *)
From Coq Require Import Floats.
From Coq Require Import List ZArith String.
From Verif Require Import Base Scalar KnotModel CurveModel BBoxModel.
Import ListNotations.
Local Existing Instance FOps.
Local Open Scope float_scope.

(** two equal knots, then two larger ones: the basis of degree 1 at the first knot does not sum to one *)
Theorem basis_sum_float_refuted : exists a h x y : float, (a <? h) = true /\ find_span [a; a; h; h] 1 1 a = Ok 1%nat /\
  basis_functions [a; a; h; h] 1 a 1 = Ok [x; y] /\ (x + y =? 1) = false.
Proof. exists 0, 49. do 2 eexists. repeat split; vm_compute; reflexivity. Qed.

(** a clamped line whose value at the start of its domain is not its first control point *)
Theorem endpoint_float_refuted : exists (c : Curve float) a b p q rest, knots_domain c = Ok (a, b) /\ cknots c = [a; a; b; b] /\ cdeg c = 1%nat /\ (a <? b) = true /\
  dehomogenized_control_points c = Ok ([p] :: rest) /\ point_at c a = Ok [q] /\ (q =? p) = false.
Proof.
  exists (MkCurve 2 1 [[0x1.a2b3c470ffffdp+0; 0x1.246p+0]; [0x1.5159e2387fffep+1; 1]] [0; 0; 49; 49]). do 5 eexists. repeat split; vm_compute; reflexivity.
Qed.

(** a curve with a single point, all of whose weights are one, leaves its bounding box *)
Theorem box_float_refuted : exists (c : Curve float) bb u q, c = MkCurve 2 2 [[3; 1]; [3; 1]; [3; 1]] [0; 0; 0; 1; 1; 1] /\ (0 <? u) = true /\ (u <? 1) = true /\
  bb_of_curve c = Ok bb /\ point_at c u = Ok q /\ bb_contains 1 bb q = false.
Proof. eexists. eexists. exists 0x1.b99999999999ap-4. eexists. repeat split; vm_compute; reflexivity. Qed.

(** inverting twice changes a knot *)
Theorem invert_twice_float_refuted : exists (c d e : Curve float) x y, nth 3 (cknots c) 0 = x /\ nth 3 (cknots e) 0 = y /\
  forallb (fun ab => (fst ab <=? snd ab)) (combine (cknots c) (skipn 1 (cknots c))) = true /\ invert c = Ok d /\ invert d = Ok e /\ (x =? y) = false.
Proof.
  exists (MkCurve 2 2 [[1; 1]; [2; 1]; [4; 1]; [3; 1]; [3; 1]] [0; 0; 0; 0x1.999999999999ap-4; 0x1.6666666666666p-1; 0x1.199999999999ap+0; 0x1.199999999999ap+0; 0x1.199999999999ap+0]).
  do 4 eexists. repeat split; vm_compute; reflexivity.
Qed.
