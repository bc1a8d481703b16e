(** * Model of the control net accessor of a surface *)
From Coq Require Import List.
From Verif Require Import Base Scalar CurveModel SurfaceModel.

Section Accessor.
  Context {T : Type} {SO : Scalar T}.
  (** nurbs_surface.rs:123-132 [dehomogenized_control_points] *)
  Definition surf_dehomogenized (s : Surf T) : Res (list (list (list T))) :=
    mapM (fun row => mapM (fun p => unwrap (dehomogenize (sdim s) p)) row) (snet s).
End Accessor.
