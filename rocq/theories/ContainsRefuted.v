(** * Containment by ray casting: wrong answers *)
From Coq Require Import Floats ZArith List.
From Verif Require Import Base Scalar KnotModel CurveModel MiscModel CompoundModel IntersectModel ContainsModel.
Import ListNotations.
Local Existing Instance FOps.
Local Open Scope float_scope.

Definition mid (_ : nat) : float := 0.5.

(** an open compound curve is not refused, and is said to contain points: the ray crosses the segment once *)
Definition slope : Curve float := MkCurve 3 1 [[1; 0; 1]; [0; 1; 1]] [0; 0; 1; 1].
Theorem contains_open_compound_refuted :
  try_new 3 1 (cpts slope) (cknots slope) = Ok slope /\ compound_is_closed [slope] = Ok false /\
  compound_contains (fun _ => mid) 1000 [slope] [0.25; 0.375] None = Ok true.
Proof. repeat split; vm_compute; reflexivity. Qed.

(** a closed polygon with a spike 2^-18 wide at its foot: the two crossings of the spike are merged into one, and a point outside
    is reported inside; with a smaller minimum distance the answer is right *)
Definition spiked : list (list float) :=
  [[0; -1]; [2; -1]; [2 + 0x1p-19; 1]; [2 + 0x1p-18; -1]; [2 + 0x1p-18; -2]; [0; -2]; [0; -1]].
Definition fine : @Options float := MkOptions 0x1p-30 64 0x1p-30 0x1p-30 200.
Theorem contains_merged_refuted : exists c, polyline 3 spiked false = Ok c /\ is_closed c = Ok true /\
  curve_contains mid 1000 c [1; 0.375] None = Ok true /\ curve_contains mid 1000 c [1; 0.375] (Some fine) = Ok false.
Proof. eexists. split; [vm_compute; reflexivity|]. repeat split; vm_compute; reflexivity. Qed.
