(** * Model of the arc-length functions of src/curve/nurbs_curve.rs

    The quadrature rule is an argument: [gauss n] stands for the nodes and weights of
    [GaussLegendre::new(n)] of the crate gauss-quad (an Err for n < 2 is unreachable, n >= 16).
    The searches are loops without a bound in the code; here they take fuel. *)
From Coq Require Import ZArith.
From Verif Require Import Base Scalar KnotModel MiscModel CurveModel CurveKnotModel.

Section Length.
  Context {T : Type} {SO : Scalar T}.
  Open Scope scalar_scope.
  Variable gauss : nat -> list (T * T).

  (** nurbs_curve.rs:1977, gauss-quad [GaussLegendre::integrate]: nodes mapped from [-1, 1] to [a, b] *)
  Definition integrate (rule : list (T * T)) (a b : T) (f : T -> Res T) : Res T :=
    let half := sone / sofnat 2 in
    s <- foldM (fun acc (xw : T * T) =>
           y <- f (half * ((b - a) * fst xw + (b + a))) ;;
           Ok (acc + y * snd xw)) rule szero ;;
    Ok (half * (b - a) * s).

  (** nurbs_curve.rs:1962-1987 [compute_bezier_segment_length] *)
  Definition seg_length (rule : list (T * T)) (s : Curve T) (u : T) : Res T :=
    '(start, end_) <- knots_domain s ;;
    if start + seps <? u then
      let t := smin end_ u in
      integrate rule start t (fun x =>
        d <- rational_derivatives s x 1 ;;
        v <- get d 1 ;;
        Ok (vnorm v))
    else Ok szero.

  (** nurbs_curve.rs:448-485 [try_length] *)
  Definition try_length (c : Curve T) : Res T :=
    mult <- multiplicity (cknots c) ;;
    start <- unwrap (head mult) ;;
    end_ <- unwrap (last (map Some mult) None) ;;
    segments <- try_decompose_bezier_segments c ;;
    let req := (cdeg c + 1)%nat in
    let i := (req - snd start)%nat in
    j <- (if (snd end_ <? req)%nat then usub (length segments) (req - snd end_) else Ok (length segments)) ;;
    segments <- slice segments i j ;;
    '(_, u) <- knots_domain c ;;
    let rule := gauss (16 + cdeg c)%nat in
    if (length segments <=? 1)%nat then seg_length rule c u
    else
      ls <- mapM (fun s => seg_length rule s u) segments ;;
      match ls with
      | [] => Err "Failed to compute the length of the curve"
      | l :: ls => Ok (fold_left sadd ls l)
      end.

  (** nurbs_curve.rs:1919-1958 [compute_bezier_segment_parameter_at_length]; state: (start, end) *)
  Definition seg_parameter (fuel : nat) (rule : list (T * T)) (s : Curve T) (len tol total : T) : Res T :=
    '(k0, k1) <- knots_domain s ;;
    if len <=? szero then Ok k0
    else if total <=? len then Ok k1
    else
      let inv := sone / sofnat 2 in
      '((a, _), (b, _)) <- while_ fuel
        (fun '((_, la), (_, lb)) => Ok (tol <? lb - la))
        (fun '((a, la), (b, lb)) =>
           let m := (a + b) * inv in
           lm <- seg_length rule s m ;;
           if len <? lm then Ok ((a, la), (m, lm)) else Ok ((m, lm), (b, lb)))
        ((k0, szero), (k1, total)) ;;
      Ok ((a + b) * inv).

  (** nurbs_curve.rs:507-544 [try_parameter_at_length] *)
  Fixpoint parameter_loop (fuel : nat) (rule : list (T * T)) (len tol : T) (segs : list (Curve T)) (acc : T) : Res T :=
    match segs with
    | [] => Err "Failed to compute the parameter at the given length"
    | s :: segs =>
        '(_, end_) <- knots_domain s ;;
        sl <- seg_length rule s end_ ;;
        let l := len - acc in
        let acc := acc + sl in
        if len <=? acc + seps then seg_parameter fuel rule s l tol sl
        else parameter_loop fuel rule len tol segs acc
    end.
  Definition try_parameter_at_length (fuel : nat) (c : Curve T) (len : T) (tolerance : option T) : Res T :=
    if len <? seps then '(a, _) <- knots_domain c ;; Ok a
    else
      segs <- try_decompose_bezier_segments c ;;
      let tol := match tolerance with Some t => t | None => sone / sofz 10000 end in
      parameter_loop fuel (gauss (16 + cdeg c)%nat) len tol segs szero.

  (** nurbs_curve.rs:567-621 [try_divide_by_length]; samples are (parameter, length) *)
  Definition divide_eps : T := sone / sofz 1000000.
  Definition divide_tol : T := sofz 25 / sofz 10000.

  (** nurbs_curve.rs:603-613: the inner loop, on segment [s] *)
  Definition divide_segment (fuel : nat) (rule : list (T * T)) (s : Curve T) (cur acc acc_prev len : T)
      (st : list (T * T) * T) : Res (list (T * T) * T) :=
    while_ fuel
      (fun '(_, lc) => Ok (lc <? acc + divide_eps))
      (fun '(samples, lc) =>
         u <- seg_parameter fuel rule s (lc - acc_prev) divide_tol cur ;;
         Ok (samples ++ [(u, lc)], lc + len)) st.

  (** nurbs_curve.rs:599-618: the outer loop; both accumulators hold the length of the segments passed *)
  Fixpoint divide_loop (fuel : nat) (rule : list (T * T)) (len : T) (segs : list (Curve T * T)) (acc acc_prev : T)
      (st : list (T * T) * T) : Res (list (T * T)) :=
    match segs with
    | [] => Ok (fst st)
    | (s, cur) :: segs =>
        let acc := acc + cur in
        st <- divide_segment fuel rule s cur acc acc_prev len st ;;
        divide_loop fuel rule len segs acc (acc_prev + cur) st
    end.

  Definition try_divide_by_length (fuel : nat) (c : Curve T) (len : T) : Res (list (T * T)) :=
    _ <- ensure (szero <? len) "The length must be greater than zero" ;;
    segs <- try_decompose_bezier_segments c ;;
    ls <- mapM try_length segs ;;
    let total := fold_left sadd ls szero in
    _ <- ensure (len <? total) "The curve is too short to divide by the given length" ;;
    k0 <- get (cknots c) 0 ;;
    divide_loop fuel (gauss (16 + cdeg c)%nat) len (combine segs ls) szero szero ([(k0, szero)], len).

  (** nurbs_curve.rs:624-634 [try_divide_by_count] *)
  Definition try_divide_by_count (fuel : nat) (c : Curve T) (n : nat) : Res (list (T * T)) :=
    l <- try_length c ;;
    try_divide_by_length fuel c (l / sofnat n).
End Length.
