(** * Periodic interpolation: knot styles, the cyclic coefficient matrix, the closed curve *)
From Coq Require Import String.
From Verif Require Import Base Scalar KnotModel CurveModel.
Local Open Scope scalar_scope.

(** knot_style.rs:8-13 [KnotStyle] *)
Inductive KnotStyle := Uniform | Chordal | Centripetal.

Section Interp.
  Context {T : Type} {SO : Scalar T}.
  Variable solve : list (list T) -> list T -> option (list T).

  (** knot_style.rs:29-43: distance to the next point, to the power alpha; [powf] is modelled
      for the two exponents that occur: 1 (identity) and 0.5 (square root) *)
  Definition style_step (st : KnotStyle) (a b : list T) : T :=
    match st with
    | Centripetal => ssqrt (vnorm (vsub b a))
    | _ => vnorm (vsub b a)
    end.

  (** knot_style.rs:16-52 [parameterize] *)
  Definition parameterize (st : KnotStyle) (points : list (list T)) (closed : bool) : Res (list T) :=
    match st with
    | Uniform =>
        n <- (if closed then Ok (length points) else usub (length points) 1) ;;
        m <- usub n 1 ;;
        Ok (repeat (sone / sofnat m) n)
    | _ =>
        if closed then
          Ok (map (fun ab => style_step st (fst ab) (snd ab))
                  (combine points (skipn 1 points ++ firstn 1 points)))
        else
          Ok (map (fun ab => style_step st (fst ab) (snd ab)) (combine points (skipn 1 points)))
    end.

  (** nurbs_curve.rs:2102 [iter().scan(0, |p, x| { *p += x; Some(p) })] *)
  Fixpoint scan_sum (acc : T) (l : list T) : list T :=
    match l with
    | [] => []
    | x :: r => (acc + x) :: scan_sum (acc + x) r
    end.

  (** nurbs_curve.rs:2087-2121: the periodic knot vector *)
  Definition periodic_knots (params : list T) (plen degree : nat) : Res (list T) :=
    dm <- usub degree 1 ;;
    head <- slice params 0 dm ;;
    a <- usub (length params) degree ;;
    tail <- slice params (a + 1) (length params) ;;
    let knots := szero :: scan_sum szero (tail ++ params ++ head) in
    let m := (plen + degree)%nat in
    k0 <- (if (2 <? degree)%nat then
             x <- get knots 0 ;; y <- get knots (m + 1) ;; z <- get knots m ;; Ok (x - (y - z))
           else get knots 0) ;;
    li <- usub (length knots) 1 ;;
    k1 <- (if (2 <? degree)%nat then
             x <- get knots li ;; y <- get knots (degree + 1) ;; z <- get knots degree ;; Ok (x + (y - z))
           else get knots li) ;;
    Ok (k0 :: knots ++ [k1]).

  (** nurbs_curve.rs:2131-2151: one row of the looped coefficient matrix *)
  Definition periodic_row (knots : list T) (n degree pad : nat) (i : nat) : Res (list T) :=
    u <- get knots (i + degree) ;;
    s <- find_span knots n degree u ;;
    b <- basis_functions knots s u degree ;;
    let padded := b ++ repeat szero pad in
    ls <- usub s degree ;;
    k <- usub (length padded) ls ;;
    x <- slice padded k (length padded) ;;
    y <- slice padded 0 k ;;
    Ok (x ++ y).

  (** nurbs_curve.rs:2076-2160 [try_periodic_interpolate_control_points] *)
  Definition try_periodic_interpolate_control_points (points : list (list T)) (degree : nat)
             (st : KnotStyle) (homogeneous : bool) : Res (list (list T) * list T) :=
    if (length points <? degree + 1)%nat then Err "Too few control points for curve" else
    params <- parameterize st points true ;;
    knots <- periodic_knots params (length points) degree ;;
    pad <- usub (length points) (degree + 1) ;;
    n1 <- usub (length knots) degree ;;
    n <- usub n1 2 ;;
    rows <- mapM (periodic_row knots n degree pad) (seq 0 (length points)) ;;
    pts <- try_solve_interpolation solve rows points homogeneous ;;
    extra <- mapM (get pts) (seq 0 degree) ;;
    Ok (pts ++ extra, knots).

  (** nurbs_curve.rs:772-798 [try_periodic_interpolate] *)
  Definition try_periodic_interpolate (D : nat) (points : list (list T)) (degree : nat)
             (st : KnotStyle) : Res (Curve T) :=
    '(pts, knots) <- try_periodic_interpolate_control_points points degree st true ;;
    try_new D degree pts knots.
End Interp.
