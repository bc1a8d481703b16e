(** * Model of the conversions between floating point types ([cast])

    A cast applies one conversion [f] (nalgebra's and simba's [convert]: the exact embedding of f32
    into f64, or rounding of f64 to the nearest f32) to every stored number and keeps the integers. *)
From Coq Require Import List.
From Verif Require Import Base Scalar CurveModel SurfaceModel BBoxModel.
Import ListNotations.

Section Cast.
  Context {A B : Type} (f : A -> B).

  (** knot_vector.rs:377-379 [KnotVector::cast] *)
  Definition cast_knots (k : list A) : list B := map f k.
  (** nurbs_curve.rs:1788-1801 [NurbsCurve::cast] *)
  Definition cast_curve (c : Curve A) : Curve B := MkCurve (cdim c) (cdeg c) (map (map f) (cpts c)) (cast_knots (cknots c)).
  (** nurbs_surface.rs:995-1010 [NurbsSurface::cast] *)
  Definition cast_surf (s : Surf A) : Surf B :=
    MkSurf (sdim s) (sdu s) (sdv s) (cast_knots (suk s)) (cast_knots (svk s)) (map (map (map f)) (snet s)).
  (** bounding_box/mod.rs:141-149 [BoundingBox::cast] *)
  Definition cast_box (b : BBox A) : BBox B := MkBox (map f (bmin b)) (map f (bmax b)).
  (** surface_tessellation.rs:174-185 [SurfaceTessellation::cast] *)
  Definition cast_tess (t : @Tess A) : @Tess B :=
    MkTess (map (map f) (tpts t)) (map (map f) (tnormals t)) (tfaces t) (map (fun uv => (f (fst uv), f (snd uv))) (tuvs t)).
End Cast.
