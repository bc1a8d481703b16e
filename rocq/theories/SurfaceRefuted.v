(** * Behaviours of the surface code that contradict its documentation (float witnesses) *)
From Coq Require Import Floats ZArith List.
From Verif Require Import Base Scalar KnotModel CurveModel SurfaceModel.
Import ListNotations.

Section Float.
  Local Existing Instance FOps.
  Local Open Scope float_scope.

  (** quadratic in u with a double interior knot at 1, linear in v *)
  Definition double_knot : Surf float :=
    MkSurf 2 2 1 [0; 0; 0; 1; 1; 2; 2; 2] [0; 0; 1; 1]
      [ [[0; 1]; [0; 1]]; [[1; 1]; [1; 1]]; [[5; 1]; [5; 1]]; [[7; 1]; [7; 1]]; [[8; 1]; [8; 1]] ].

  (** nurbs_surface.rs:749-811: at an interior knot of multiplicity two the iso-curve is taken from
      the wrong row of the refined net *)
  Theorem isocurve_double_knot_refuted :
    exists (s : Surf float) (t v : float) (c : Curve float) (x y : list float),
      try_isocurve s t DirU = Ok c /\ point_at c v = Ok x /\ surf_point_at s t v = Ok y /\ x = [7] /\ y = [5].
  Proof.
    exists double_knot, 1, 0.5. eexists. exists [7], [5]. split; [vm_compute; reflexivity|].
    repeat split; vm_compute; reflexivity.
  Qed.

  (** nurbs_surface.rs:281-361: regularly sampled derivatives panic when the number of derivatives
      exceeds one of two different degrees, although the pointwise version returns zeros there *)
  Definition mixed_degrees : Surf float :=
    MkSurf 2 2 1 [0; 0; 0; 1; 1; 1] [0; 0; 1; 1]
      [ [[0; 1]; [0; 1]]; [[1; 1]; [1; 1]]; [[5; 1]; [5; 1]] ].

  Theorem regular_derivatives_mixed_refuted :
    exists (s : Surf float) tab msg, surf_derivatives s 0.5 0.5 2 = Ok tab /\
      regular_sample_derivatives s 2 2 2 = Panic msg.
  Proof. exists mixed_degrees. do 2 eexists. split; vm_compute; reflexivity. Qed.
End Float.
