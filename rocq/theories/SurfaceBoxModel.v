(** * Model of the bounding box of a surface (src/bounding_box/mod.rs:223-235) *)
From Verif Require Import Base Scalar KnotModel CurveModel BBoxModel SurfaceModel.

Section Box.
  Context {T : Type} {SO : Scalar T}.

  (** nurbs_surface.rs:123-132 [dehomogenized_control_points] followed by [flatten] and
      bounding_box/mod.rs:52-64 [new_with_points] *)
  Definition bb_of_surf (s : Surf T) : Res (BBox T) :=
    pts <- mapM (mapM (fun p => unwrap (dehomogenize (sdim s) p))) (snet s) ;;
    Ok (bb_points (sdim s - 1) (concat pts)).
End Box.
