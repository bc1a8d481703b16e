(** * Model of src/curve/nurbs_curve.rs: construction, evaluation, transformation

    The type parameter [D: DimName] is the field [cdim]; control points are homogeneous, the
    last coordinate is the weight.  A point of the curve's space has [cdim - 1] coordinates. *)
From Coq Require Import ZArith.
From Verif Require Import Base Scalar KnotModel MiscModel.

(** nurbs_curve.rs:31-42 [NurbsCurve] *)
Record Curve (T : Type) := MkCurve {
  cdim : nat;
  cdeg : nat;
  cpts : list (list T);
  cknots : list T
}.
Arguments MkCurve {T}.
Arguments cdim {T}. Arguments cdeg {T}. Arguments cpts {T}. Arguments cknots {T}.

Section Curve.
  Context {T : Type} {SO : Scalar T}.
  Open Scope scalar_scope.

  (** nurbs_curve.rs:94 [sort_by(|a, b| a.partial_cmp(b).unwrap())]: a stable sort; an element that is not
      comparable (NaN) makes a comparison return [None] and [unwrap] panic. *)
  Fixpoint insert_sorted (x : T) (l : list T) : list T :=
    match l with
    | [] => [x]
    | h :: t => if x <? h then x :: h :: t else h :: insert_sorted x t
    end.
  Definition ksort (l : list T) : list T := fold_left (fun acc x => insert_sorted x acc) l [].
  Definition sort_knots (l : list T) : Res (list T) :=
    if (2 <=? length l)%nat && existsb (fun x => negb (x =? x)) l
    then Panic "unwrap on None" else Ok (ksort l).

  (** nurbs_curve.rs:77-101 [try_new] *)
  Definition try_new (D degree : nat) (pts : list (list T)) (knots : list T) : Res (Curve T) :=
    _ <- ensure (degree <? length pts)%nat "Too few control points for curve" ;;
    _ <- ensure (length knots =? length pts + degree + 1)%nat "Invalid number of knots" ;;
    k <- sort_knots knots ;;
    Ok (MkCurve D degree pts k).

  (** nalgebra [to_homogeneous], nurbs_curve.rs:156 *)
  Definition to_homogeneous (p : list T) : list T := p ++ [sone].

  (** nurbs_curve.rs:128-161 [polyline] ([D] is the homogeneous dimension) *)
  Definition polyline (D : nat) (points : list (list T)) (normalize : bool) : Res (Curve T) :=
    last <- usub (length points) 1 ;;
    '(knots, acc) <- for_range 0 last (fun i '(knots, acc) =>
      a <- get points i ;;
      b <- get points (i + 1) ;;
      let acc := acc + vnorm (vsub a b) in
      Ok (knots ++ [acc], acc)) ([szero; szero], szero) ;;
    let knots := knots ++ [acc] in
    let knots := if normalize then map (fun k => k / acc) knots else knots in
    Ok (MkCurve D 1 (map to_homogeneous points) knots).

  (** nurbs_curve.rs:1990-2008 [dehomogenize] *)
  Definition dehomogenize (D : nat) (p : list T) : option (list T) :=
    let w := coord (D - 1) p in
    if w =? szero then None else Some (vdivs (firstn (D - 1) p) w).

  (** nurbs_curve.rs:177-186 [dehomogenized_control_points] *)
  Definition dehomogenized_control_points (c : Curve T) : Res (list (list T)) :=
    mapM (fun p => unwrap (dehomogenize (cdim c) p)) (cpts c).

  (** nurbs_curve.rs:188-193 [weights] *)
  Definition weights (c : Curve T) : list T := map (coord (cdim c - 1)) (cpts c).

  (** last control point index as the code computes it: [knots.len() - degree - 2] *)
  Definition last_index (c : Curve T) : Res nat :=
    x <- usub (length (cknots c)) (cdeg c) ;; usub x 2.

  (** nurbs_curve.rs:250-260 [point]: homogeneous point *)
  Definition point (c : Curve T) (t : T) : Res (list T) :=
    n <- last_index c ;;
    s <- find_span (cknots c) n (cdeg c) t ;;
    b <- basis_functions (cknots c) s t (cdeg c) ;;
    for_incl 0 (cdeg c) (fun i pos =>
      j <- usub s (cdeg c) ;;
      p <- get (cpts c) (j + i) ;;
      bi <- get b i ;;
      Ok (vadd pos (vscale p bi))) (vzero (cdim c)).

  (** nurbs_curve.rs:196-203 [point_at] *)
  Definition point_at (c : Curve T) (t : T) : Res (list T) :=
    p <- point c t ;; unwrap (dehomogenize (cdim c) p).

  (** nurbs_curve.rs:206-225 [sample_regular_range] *)
  Definition sample_regular_range (c : Curve T) (start end_ : T) (samples : nat)
    : Res (list (list T)) :=
    let step := (end_ - start) / (sofnat samples - sone) in
    mapM (fun i => point_at c (start + sofnat i * step)) (seq 0 samples).

  (** nurbs_curve.rs:228-247 [sample_regular_range_with_parameter] *)
  Definition sample_regular_range_with_parameter (c : Curve T) (start end_ : T) (samples : nat)
    : Res (list (T * list T)) :=
    let step := (end_ - start) / (sofnat samples - sone) in
    mapM (fun i => let t := start + sofnat i * step in
                   p <- point_at c t ;; Ok (t, p)) (seq 0 samples).

  (** nurbs_curve.rs:339-364 [derivatives] (homogeneous) *)
  Definition derivatives (c : Curve T) (u : T) (derivs : nat) : Res (list (list T)) :=
    n <- last_index c ;;
    let du := if (derivs <? cdeg c)%nat then derivs else cdeg c in
    s <- find_span (cknots c) n (cdeg c) u ;;
    nders <- derivative_basis_functions (cknots c) s u (cdeg c) du ;;
    for_incl 0 du (fun k ds =>
      for_incl 0 (cdeg c) (fun j ds =>
        i <- usub s (cdeg c) ;;
        p <- get (cpts c) (i + j) ;;
        b <- get2 nders k j ;;
        col <- get ds k ;;
        set_ ds k (vadd col (vscale p b))) ds)
      (repeat (vzero (cdim c)) (derivs + 1)).

  (** nurbs_curve.rs:322-326: the correction loop of [rational_derivatives], with the memo of
      the binomial table threaded through *)
  Definition rat_inner (wders : list T) (ck : list (list T)) (k i : nat)
             (st : list T * @memo T) : Res (list T * @memo T) :=
    let '(v, m) := st in
    let '(b, m) := bin_get k i m in
    w <- get wders i ;;
    j <- usub k i ;;
    p <- get ck j ;;
    Ok (vsub v (vscale p (b * w)), m).

  (** nurbs_curve.rs:300-336 [rational_derivatives] *)
  Definition rational_of (D : nat) (ders : list (list T)) (derivs : nat) : Res (list (list T)) :=
    let aders := map (firstn (D - 1)) ders in
    let wders := map (coord (D - 1)) ders in
    '(ck, _) <- for_incl 0 derivs (fun k '(ck, m) =>
      a <- get aders k ;;
      '(v, m) <- for_incl 1 k (rat_inner wders ck k) (a, m) ;;
      w0 <- get wders 0 ;;
      Ok (ck ++ [vdivs v w0], m)) ([], []) ;;
    Ok ck.

  Definition rational_derivatives (c : Curve T) (u : T) (derivs : nat) : Res (list (list T)) :=
    ders <- derivatives c u derivs ;;
    rational_of (cdim c) ders derivs.

  (** nurbs_curve.rs:263-270 [tangent_at], 273-280 [second_derivative_at] *)
  Definition tangent_at (c : Curve T) (u : T) : Res (list T) :=
    d <- rational_derivatives c u 1 ;; get d 1.
  Definition second_derivative_at (c : Curve T) (u : T) : Res (list T) :=
    d <- rational_derivatives c u 2 ;; get d 2.

  (** nurbs_curve.rs:390-401 [knots_domain], [knots_domain_interval], [knots_constrain] *)
  Definition knots_domain (c : Curve T) : Res (T * T) := domain (cknots c) (cdeg c).
  Definition knots_domain_interval (c : Curve T) : Res T :=
    '(a, b) <- knots_domain c ;; Ok (b - a).
  Definition knots_constrain (c : Curve T) (u : T) : Res T := kclamp (cknots c) (cdeg c) u.

  (** nurbs_curve.rs:424-430 [normalize_knots] *)
  Definition normalize_knots (c : Curve T) : Res (Curve T) :=
    '(mn, mx) <- knots_domain c ;;
    let size := mx - mn in
    Ok (MkCurve (cdim c) (cdeg c) (cpts c) (map (fun k => (k - mn) / size) (cknots c))).

  (** nurbs_curve.rs:660-689 [try_periodic] *)
  Definition try_periodic (D : nat) (points : list (list T)) (degree : nat) : Res (Curve T) :=
    let n := length points in
    if (n <? degree + 1)%nat then Err "Too few control points for curve" else
    pts <- mapM (fun i => get points (i mod n)) (seq 0 (n + degree)) ;;
    Ok (MkCurve D degree (map to_homogeneous pts) (map sofnat (seq 0 (n + 1 + degree * 2)))).

  (** nurbs_curve.rs:1076-1097 [elevate_dimension] *)
  Definition elevate_dimension (c : Curve T) : Curve T :=
    let D := cdim c in
    MkCurve (D + 1) (cdeg c)
      (map (fun p => map (fun i => coord i p) (seq 0 (D - 1)) ++ [szero; coord (D - 1) p]) (cpts c))
      (cknots c).

  (** nalgebra matrix * vector; a matrix is a list of rows *)
  Definition mulmv (m : list (list T)) (v : list T) : list T := map (fun row => vdot row v) m.

  (** nurbs_curve.rs:1805-1825 [transform] of one control point *)
  Definition transform_point (D : nat) (m : list (list T)) (p : list T) : list T :=
    let ow := coord (D - 1) p in
    let pt := map (fun i => coord i p / ow) (seq 0 (D - 1)) ++ [sone] in
    let tr := mulmv m pt in
    let w := coord (D - 1) tr in
    map (fun i => coord i tr / w * ow) (seq 0 (D - 1)) ++ [ow].
  Definition transform (m : list (list T)) (c : Curve T) : Curve T :=
    MkCurve (cdim c) (cdeg c) (map (transform_point (cdim c) m) (cpts c)) (cknots c).

  (** nurbs_curve.rs:1849-1852 [invert] *)
  Definition invert (c : Curve T) : Res (Curve T) :=
    k <- kinvert (cknots c) ;;
    Ok (MkCurve (cdim c) (cdeg c) (rev (cpts c)) k).

  (** nurbs_curve.rs:1518-1520 [is_clamped] *)
  Definition curve_is_clamped (c : Curve T) : Res bool := is_clamped (cknots c) (cdeg c).

  (** nurbs_curve.rs:1556-1576 [is_closed] *)
  Definition is_closed (c : Curve T) : Res bool :=
    let eps := seps * sofnat 10 in
    cl <- curve_is_clamped c ;;
    if (cl : bool) then
      pts <- dehomogenized_control_points c ;;
      a <- get pts 0 ;;
      i <- usub (length (cpts c)) 1 ;;
      b <- get pts i ;;
      Ok (vnorm (vsub a b) <? eps)
    else
      '(s, e) <- knots_domain c ;;
      a <- point_at c s ;;
      b <- point_at c e ;;
      Ok (vnorm (vsub a b) <? eps).

  (** end_points.rs:20-35 *)
  Definition first_point (c : Curve T) : Res (list T) :=
    '(a, _) <- knots_domain c ;; point_at c a.
  Definition end_point (c : Curve T) : Res (list T) :=
    '(_, b) <- knots_domain c ;; point_at c b.

  (** ** Interpolation.  The LU solver of nalgebra is the oracle [solve]: it maps a square
      matrix (list of rows) and a right-hand side to a solution or [None] when singular. *)
  Variable solve : list (list T) -> list T -> option (list T).

  (** nurbs_curve.rs:2162-2197 [try_solve_interpolation] *)
  Definition try_solve_interpolation (m : list (list T)) (points : list (list T))
             (homogeneous : bool) : Res (list (list T)) :=
    let n := length points in
    p0 <- get points 0 ;;
    let dim := length p0 in
    cols <- mapM (fun i => ok_or (solve m (map (coord i) points)) "Solve failed") (seq 0 dim) ;;
    rows <- mapM (fun j => mapM (fun xs => get xs j) cols) (seq 0 n) ;;
    Ok (map (fun cs => if homogeneous then cs ++ [sone] else cs) rows).

  (** nurbs_curve.rs:2020-2032: chord-length parameters, normalised *)
  Definition chord_params (points : list (list T)) : Res (list T) :=
    us <- for_range 1 (length points) (fun i us =>
      a <- get points i ;;
      im <- usub i 1 ;;
      b <- get points im ;;
      last <- get us im ;;
      Ok (us ++ [last + vnorm (vsub a b)])) [szero] ;;
    i <- usub (length us) 1 ;;
    mx <- get us i ;;
    Ok (map (fun x => x / mx) us).

  (** nurbs_curve.rs:2034-2047: averaged knots *)
  Definition averaged_knots (us : list T) (degree : nat) : Res (list T) :=
    e <- usub (length us) degree ;;
    ks <- for_range 1 e (fun i ks =>
      sum <- for_range 0 degree (fun j s => u <- get us (i + j) ;; Ok (s + u)) szero ;;
      Ok (ks ++ [sum / sofnat degree])) (repeat szero (degree + 1)) ;;
    Ok (ks ++ repeat sone (degree + 1)).

  (** nurbs_curve.rs:2057-2070: one row of the coefficient matrix *)
  Definition interp_row (knots : list T) (n degree ld : nat) (u : T) : Res (list T) :=
    s <- find_span knots n degree u ;;
    b <- basis_functions knots s u degree ;;
    ls <- usub s degree ;;
    re <- usub ld ls ;;
    Ok (repeat szero ls ++ b ++ repeat szero re).

  (** nurbs_curve.rs:2010-2074 [try_interpolate_control_points] *)
  Definition try_interpolate_control_points (points : list (list T)) (degree : nat)
             (homogeneous : bool) : Res (list (list T) * list T) :=
    if (length points <? degree + 1)%nat then Err "Too few control points for curve" else
    us <- chord_params points ;;
    knots <- averaged_knots us degree ;;
    n <- usub (length points) 1 ;;
    ld <- usub (length points) (degree + 1) ;;
    rows <- mapM (interp_row knots n degree ld) us ;;
    pts <- try_solve_interpolation rows points homogeneous ;;
    Ok (pts, knots).

  (** nurbs_curve.rs:720-745 [try_interpolate] *)
  Definition try_interpolate (D : nat) (points : list (list T)) (degree : nat) : Res (Curve T) :=
    '(pts, knots) <- try_interpolate_control_points points degree true ;;
    Ok (MkCurve D degree pts knots).
End Curve.
