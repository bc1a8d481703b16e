(** * Sections a lofted surface misses, and sections that share a point *)
From Coq Require Import Floats String.
From Verif Require Import Base BaseFacts Scalar CurveModel SurfaceModel LoftModel.
Local Existing Instance FOps.
Local Open Scope float_scope.

(** a 2x2 system by Cramer's rule *)
Definition cramer (m : list (list float)) (b : list float) : option (list float) :=
  match m, b with
  | [[a0; a1]; [c0; c1]], [x; y] =>
      let det := a0 * c1 - a1 * c0 in Some [(x * c1 - a1 * y) / det; (a0 * y - x * c0) / det]
  | _, _ => None
  end.
Definition seg (x0 y0 x1 y1 : float) : Curve float := MkCurve 3 1 [[x0; y0; 1]; [x1; y1; 1]] [0; 0; 1; 1].

(** two segments that start at the same point: the corner of the patch is not a number *)
Theorem loft_shared_corner_refuted :
  exists s, try_loft cramer [seg 0 0 1 0; seg 0 0 0 1] None = Ok s /\
    existsb (fun p => existsb (fun x => negb (x =? x)) p) (concat (snet s)) = true.
Proof. eexists. split; vm_compute; reflexivity. Qed.

(** three segments that start at the same point *)
Theorem loft_fan_refuted :
  panics (try_loft (fun _ b => Some b) [seg 0 0 1 0; seg 0 0 1 1; seg 0 0 0 1] (Some 1%nat)).
Proof. eexists. vm_compute. reflexivity. Qed.

Theorem loft_empty_panics solve dv : panics (try_loft (T := float) solve [] dv).
Proof. eexists. reflexivity. Qed.
