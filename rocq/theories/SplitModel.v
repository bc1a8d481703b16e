(** * Model of src/split/mod.rs and src/trim/mod.rs for NURBS curves *)
From Coq Require Import ZArith.
From Verif Require Import Base Scalar KnotModel MiscModel CurveModel CurveKnotModel.

Section Split.
  Context {T : Type} {SO : Scalar T}.
  Open Scope scalar_scope.

  (** split/mod.rs:43-59 [Split::try_split] for [NurbsCurve] *)
  Definition try_split (c : Curve T) (u : T) : Res (Curve T * Curve T) :=
    u <- kclamp (cknots c) (cdeg c) u ;;
    cloned <- try_refine_knot c (repeat u (cdeg c + 1)) ;;
    n <- last_index c ;;
    s <- find_span (cknots c) n (cdeg c) u ;;
    knots0 <- slice (cknots cloned) 0 (s + cdeg c + 1 + 1) ;;
    knots1 <- slice (cknots cloned) (s + 1) (length (cknots cloned)) ;;
    cpts0 <- slice (cpts cloned) 0 (s + 1) ;;
    cpts1 <- slice (cpts cloned) (s + 1) (length (cpts cloned)) ;;
    l <- try_new (cdim c) (cdeg c) cpts0 knots0 ;;
    r <- try_new (cdim c) (cdeg c) cpts1 knots1 ;;
    Ok (l, r).

  (** trim/mod.rs:18-35 [TrimRange::try_trim_range] for [NurbsCurve] *)
  Definition try_trim_range (c : Curve T) (p0 p1 : T) : Res (list (Curve T)) :=
    let mn := smin p0 p1 in
    let mx := smax p0 p1 in
    if p0 <? p1 then
      '(_, tail) <- try_split c mn ;;
      '(hd, _) <- try_split tail mx ;;
      Ok [hd]
    else
      '(hd, tail) <- try_split c mn ;;
      '(_, tail2) <- try_split tail mx ;;
      Ok [tail2; hd].
End Split.
