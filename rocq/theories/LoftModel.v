(** * Lofting: a surface through a family of section curves *)
From Coq Require Import String.
From Verif Require Import Base Scalar KnotModel CurveModel MergeModel SurfaceModel.

Section Loft.
  Context {T : Type} {SO : Scalar T}.
  Variable solve : list (list T) -> list T -> option (list T).

  (** nurbs_surface.rs:688-710: the curve through the [i]-th control points of all the sections; the
      weight is interpolated like the other coordinates *)
  Definition loft_column (D degree_v : nat) (sections : list (Curve T)) (i : nat) : Res (Curve T) :=
    points <- mapM (fun c => get (cpts c) i) sections ;;
    '(pts, knots) <- try_interpolate_control_points solve points degree_v false ;;
    try_new D degree_v pts knots.

  (** nurbs_surface.rs:673-724 [try_loft]; the knots of the last column become those of the surface *)
  Definition try_loft (curves : list (Curve T)) (degree_v : option nat) : Res (Surf T) :=
    unified <- unify_knots curves ;;
    c0 <- get unified 0 ;;
    lm <- usub (length unified) 1 ;;
    let dv := Nat.min (match degree_v with Some d => d | None => cdeg c0 end) lm in
    columns <- mapM (loft_column (cdim c0) dv unified) (seq 0 (length (cpts c0))) ;;
    li <- usub (length columns) 1 ;;
    cl <- get columns li ;;
    Ok (MkSurf (cdim c0) (cdeg c0) dv (cknots c0) (cknots cl) (map cpts columns)).
End Loft.
