(** * Tessellation of curves: claims that fail *)
From Coq Require Import Floats List Lia.
From Verif Require Import Base Scalar CurveModel CurveKnotModel CompoundModel TessCurveModel.
Import ListNotations.
Local Existing Instance FOps.
Local Open Scope float_scope.

(** an S-shaped cubic crossing its chord in the middle *)
Definition s_curve : Curve float :=
  MkCurve 3 3 [[0; 0; 1]; [1; 2; 1]; [2; -2; 1]; [3; 0; 1]] [0; 0; 0; 0; 1; 1; 1; 1].

(** with the default tolerance the tessellation is the chord alone, although the curve passes far from it *)
Theorem tessellate_deviates_refuted : exists (c : Curve float) rng fuel pts k u p,
  (forall i, rng i = 0) /\ tessellate rng fuel c None 0 = Ok (pts, k) /\ pts = [[0; 0]; [3; 0]] /\
  (0 <? u) = true /\ (u <? 1) = true /\ knots_domain c = Ok (0, 1) /\ point_at c u = Ok p /\ (0.5 <? coord 1 p) = true.
Proof.
  exists s_curve, (fun _ => 0), 40%nat, [[0; 0]; [3; 0]], 1%nat, 0.25, [0.75; 0.5625].
  split; [reflexivity|]. vm_compute. repeat split.
Qed.
