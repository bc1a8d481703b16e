(** * Model of src/closest_parameter and of [find_closest_parameter] of curves and surfaces

    The iteration driver is argmin's [Executor] (version 0.10, not part of the repository): before each iteration it asks the
    solver for termination and stops when [iter >= max_iters]; after each iteration it records the best parameter.  A solver without
    a cost (the curve solver) has an infinite cost throughout, so its last parameter is the best one. *)
From Coq Require Import ZArith String.
From Verif Require Import Base Scalar KnotModel MiscModel CurveModel SurfaceModel TraversalModel.

Section Closest.
  Context {T : Type} {SO : Scalar T}.
  Open Scope scalar_scope.

  (** [is_finite] of nurbs_curve.rs:1708 and nurbs_surface.rs:984: infinities and NaN are the values whose difference with themselves is not zero *)
  Definition sfinite (x : T) : bool := (x - x =? szero).

  (** curve_closest_parameter_newton.rs:71-85: back into the domain *)
  Definition newton_constrain (d0 d1 : T) (closed : bool) (x : T) : T :=
    if x <? d0 then (if closed then d1 - (x - d0) else d0)
    else if d1 <? x then (if closed then d0 + (x - d1) else d1)
    else x.

  (** curve_closest_parameter_newton.rs:52-88 [next_iter], with [gamma = 1] *)
  Definition newton_next (d0 d1 : T) (closed : bool) (gradient hessian : T -> Res T) (x : T) : Res T :=
    g <- gradient x ;;
    h <- hessian x ;;
    let inv := sone / h in
    Ok (newton_constrain d0 d1 closed (x - sone * inv * g)).

  (** the executor around curve_closest_parameter_newton.rs:90-106 [terminate]: [n] iterations are left *)
  Fixpoint newton_run (n : nat) (next : T -> Res T) (x : T) : Res T :=
    match n with
    | O => Ok x
    | S n => y <- next x ;; if sabs (y - x) <? seps then Ok y else newton_run n next y
    end.

  (** curve_closest_parameter_problem.rs:42-48 [gradient] *)
  Definition curve_gradient (c : Curve T) (p : list T) (u : T) : Res T :=
    e <- rational_derivatives c u 1 ;;
    q <- get e 0 ;;
    v <- get e 1 ;;
    Ok (vdot v (vsub q p)).

  (** curve_closest_parameter_problem.rs:60-67 [hessian] *)
  Definition curve_hessian (c : Curve T) (p : list T) (u : T) : Res T :=
    e <- rational_derivatives c u 2 ;;
    q <- get e 0 ;;
    v <- get e 1 ;;
    a <- get e 2 ;;
    Ok (vdot a (vsub q p) + vdot v v).

  (** nurbs_curve.rs:1685-1698: the closest point of the polyline through the samples; [min] and [u] are the running values *)
  Fixpoint closest_scan (p : list T) (pts : list (T * list T)) (min u : T) : T * T :=
    match pts with
    | (u0, p0) :: ((u1, p1) :: _) as rest =>
        let '(pu, pp) := segment_closest_point p p0 p1 u0 u1 in
        let d := vnorm (vsub p pp) in
        if d <? min then closest_scan p rest d pu else closest_scan p rest min u
    | _ => (min, u)
    end.

  (** nurbs_curve.rs:1677-1698: the first guess *)
  Definition closest_guess (c : Curve T) (p : list T) : Res T :=
    '(d0, d1) <- knots_domain c ;;
    pts <- sample_regular_range_with_parameter c d0 d1 (length (cpts c) * cdeg c) ;;
    _ <- usub (length pts) 1 ;;
    Ok (snd (closest_scan p pts smax_value d0)).

  (** nurbs_curve.rs:1671-1716 [find_closest_parameter] *)
  Definition find_closest_parameter (c : Curve T) (p : list T) : Res T :=
    '(d0, d1) <- knots_domain c ;;
    closed <- is_closed c ;;
    u <- closest_guess c p ;;
    t <- newton_run 5 (newton_next d0 d1 closed (curve_gradient c p) (curve_hessian c p)) u ;;
    if sfinite t then Ok t else Err "No best parameter found".

  (** nurbs_curve.rs:1658-1668 [find_closest_point] *)
  Definition find_closest_point (c : Curve T) (p : list T) : Res (list T) :=
    u <- find_closest_parameter c p ;; point_at c u.

  (** ** Surfaces *)

  (** surface_closest_parameter_newton.rs:193-209 [constrain] *)
  Definition surf_constrain (d : T * T) (closed : bool) (x : T) : T :=
    let '(d0, d1) := d in
    if x <? d0 then (if closed then d1 - (x - d0) else d0 + seps)
    else if d1 <? x then (if closed then d0 + (x - d1) else d1 - seps)
    else x.

  (** nalgebra's LU solution of a symmetric 2 x 2 system; [None] when it is singular *)
  Variable solve2 : T -> T -> T -> T * T -> option (T * T).

  (** surface_closest_parameter_newton.rs:96-147: the proposed parameters, [None] when the iteration keeps the present ones.
      [dif] is S - P and the rest are the derivatives. *)
  Definition surf_newton_move (dif su sv suu svv suv : list T) (x : T * T) : Res (option (T * T)) :=
    let '(u, v) := x in
    let gu := vdot su dif in
    let gv := vdot sv dif in
    if vnorm dif <? sone / sofz 100000 then Ok None
    else
      let duu := vdot su su + vdot suu dif in
      let dvv := vdot sv sv + vdot svv dif in
      match duu <? seps, dvv <? seps with
      | false, false =>
          let duv := vdot su sv + vdot suv dif in
          match solve2 duu duv dvv (- gu, - gv) with
          | Some (a, b) => Ok (Some (u + a * sone, v + b * sone))
          | None => Err "Failed to solve"
          end
      | true, false => Ok (Some (u + szero * sone, v + (- gv / dvv) * sone))
      | false, true => Ok (Some (u + (- gu / duu) * sone, v + szero * sone))
      | true, true => Ok None
      end.

  (** the state of the iteration: parameters, cost and the best pair so far ([None]: none recorded) *)
  Record SNState : Type := MkSN { sn_x : T * T; sn_cost : T; sn_best : option ((T * T) * T) }.

  (** argmin's [IterState::update]: a strictly smaller cost replaces the best parameters (the first cost replaces the initial infinity) *)
  Definition best_update {X : Type} (best : option (X * T)) (x : X) (cost : T) : option (X * T) :=
    match best with
    | None => if cost =? cost then Some (x, cost) else None
    | Some (_, b) => if cost <? b then Some (x, cost) else best
    end.

  (** surface_closest_parameter_newton.rs:81-165 [next_iter] for a problem given by its cost and its derivatives *)
  Definition surf_newton_next (du dv : T * T) (closed : bool * bool) (cost : T * T -> Res T)
             (move : T * T -> Res (option (T * T))) (s : SNState) : Res SNState :=
    m <- move (sn_x s) ;;
    match m with
    | None => Ok s
    | Some (u, v) =>
        let y := (surf_constrain du (fst closed) u, surf_constrain dv (snd closed) v) in
        c <- cost y ;;
        if sn_cost s <? c then Ok s else Ok (MkSN y c (best_update (sn_best s) y c))
    end.

  (** the executor around surface_closest_parameter_newton.rs:167-190 [terminate] *)
  Fixpoint surf_newton_run (n : nat) (next : SNState -> Res SNState) (s : SNState) : Res SNState :=
    match n with
    | O => Ok s
    | S n =>
        s' <- next s ;;
        if vnorm (vsub [fst (sn_x s'); snd (sn_x s')] [fst (sn_x s); snd (sn_x s)]) <? seps then Ok s'
        else surf_newton_run n next s'
    end.

  (** surface_closest_parameter_problem.rs:43-47 [cost] *)
  Definition surf_cost (s : Surf T) (p : list T) (x : T * T) : Res T :=
    q <- surf_point_at s (fst x) (snd x) ;; Ok (vnorm (vsub q p)).

  (** surface_closest_parameter_problem.rs:59-63 [gradient], 75-77 [hessian] and the reading of the derivatives *)
  Definition surf_move (s : Surf T) (p : list T) (x : T * T) : Res (option (T * T)) :=
    q <- surf_point_at s (fst x) (snd x) ;;
    e <- surf_rational_derivatives s (fst x) (snd x) 2 ;;
    su <- get2 e 1 0 ;;
    sv <- get2 e 0 1 ;;
    suu <- get2 e 2 0 ;;
    svv <- get2 e 0 2 ;;
    suv <- get2 e 1 1 ;;
    surf_newton_move (vsub q p) su sv suu svv suv x.

  (** nurbs_surface.rs:931-958: the best vertex of the tessellation, [verts] being its points with their parameters.  The running minimum
      starts at infinity ([None]). *)
  Fixpoint best_vertex (p : list T) (verts : list ((T * T) * list T)) (best : option T) (uv : T * T) : T * T :=
    match verts with
    | [] => uv
    | (x, q) :: rest =>
        let d := vnorm2 (vsub p q) in
        if match best with None => (d =? d) | Some b => d <? b end then best_vertex p rest (Some d) x
        else best_vertex p rest best uv
    end.

  (** nurbs_surface.rs:961-971: closedness of the net along u and v *)
  Definition close_rows (pts : list (list (list T))) : Res (bool * bool) :=
    let eps := seps * sofnat 10 in
    a <- get pts 0 ;;
    i <- usub (length pts) 1 ;;
    b <- get pts i ;;
    u <- mapM (fun j => x <- get a j ;; y <- get b j ;; Ok (vnorm (vsub x y) <? eps)) (seq 0 (length a)) ;;
    v <- mapM (fun row => x <- get row 0 ;; j <- usub (length row) 1 ;; y <- get row j ;; Ok (vnorm (vsub x y) <? eps)) pts ;;
    Ok (forallb (fun x : bool => x) u, forallb (fun x => x) v).

  (** nurbs_surface.rs:923-992 [find_closest_parameter]; the vertices of the adaptive tessellation are an argument *)
  Definition surf_find_closest_parameter (s : Surf T) (verts : list ((T * T) * list T)) (p : list T) : Res (T * T) :=
    '(du, dv) <- surf_domain s ;;
    let uv := best_vertex p verts None (fst du, fst dv) in
    pts <- mapM (mapM (fun q => unwrap (dehomogenize (sdim s) q))) (snet s) ;;
    closed <- close_rows pts ;;
    c0 <- surf_cost s p uv ;;
    s' <- surf_newton_run 100 (surf_newton_next du dv closed (surf_cost s p) (surf_move s p))
            (MkSN uv c0 (best_update None uv c0)) ;;
    match sn_best s' with
    | Some ((u, v), _) => if sfinite u && sfinite v then Ok (u, v) else Err "No best parameter found"
    | None => Err "No best parameter found"
    end.
End Closest.
