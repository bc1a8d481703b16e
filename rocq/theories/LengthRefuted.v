(** * Lengths: a division that starts outside the curve *)
From Coq Require Import Floats List Lia.
From Verif Require Import Base Scalar CurveModel CurveKnotModel SplitModel LengthModel.
Import ListNotations.
Local Existing Instance FOps.
Local Open Scope float_scope.

(** a periodic-style quadratic: uniform knots, not clamped *)
Definition unclamped : Curve float :=
  MkCurve 3 2 [[0; 0; 1]; [1; 2; 1]; [3; 2; 1]; [4; 0; 1]] [0; 1; 2; 3; 4; 5; 6].
Definition midpoint (_ : nat) : list (float * float) := [(0, 2)].


(** a length below the total is located before the start of the curve *)
Theorem parameter_unclamped_refuted : exists (c : Curve float) gauss fuel len total a b p,
  knots_domain c = Ok (a, b) /\ try_length gauss c = Ok total /\ (0 <? len) = true /\ (len <? total) = true /\
  try_parameter_at_length gauss fuel c len None = Ok p /\ (p <? a) = true.
Proof.
  exists unclamped, midpoint, 100%nat, 1, 0x1.cd82b446159f3p+1, 2, 4, 1.9457550048828125. vm_compute. repeat split.
Qed.

(** a division starts before the curve, ends after it and records more than the total length *)
Theorem divide_unclamped_refuted : exists (c : Curve float) gauss fuel len total a b samples p q l,
  knots_domain c = Ok (a, b) /\ try_length gauss c = Ok total /\ (0 <? len) = true /\ (len <? total) = true /\
  try_divide_by_length gauss fuel c len = Ok samples /\ In (p, 0) samples /\ (p <? a) = true /\
  In (q, l) samples /\ (b <? q) = true /\ (total <? l) = true.
Proof.
  exists unclamped, midpoint, 100%nat, 1, 0x1.cd82b446159f3p+1, 2, 4,
    [(0, 0); (1.94580078125, 1); (2.44580078125, 2); (3.03955078125, 3); (3.59814453125, 4); (4.13232421875, 5)],
    0, 4.13232421875, 5.
  repeat split; try (vm_compute; reflexivity); cbn; auto 10.
Qed.
