(** * Model of the quasi-Newton solvers: src/intersects/curve_curve/curve_intersection_bfgs.rs,
    curve_intersection_problem.rs and their copies for a surface and a curve

    The two solvers differ only in the dimension (2 or 3), so vectors and matrices are lists.  The driver is argmin's [Executor], as in
    ClosestModel. *)
From Coq Require Import ZArith String.
From Verif Require Import Base Scalar KnotModel CurveModel SurfaceModel ClosestModel.

Section Bfgs.
  Context {T : Type} {SO : Scalar T}.
  Open Scope scalar_scope.

  Definition mat_vec (h : list (list T)) (v : list T) : list T := map (fun row => vdot row v) h.
  Definition mat_scale (h : list (list T)) (k : T) : list (list T) := map (fun row => vscale row k) h.
  Definition mat_divs (h : list (list T)) (k : T) : list (list T) := map (fun row => vdivs row k) h.
  Definition mat_add (a b : list (list T)) : list (list T) := map2 vadd a b.
  Definition mat_sub (a b : list (list T)) : list (list T) := map2 vsub a b.
  (** [a * b.transpose()] *)
  Definition outer (a b : list T) : list (list T) := map (fun x => map (fun y => x * y) b) a.
  Definition mat_id (n : nat) : list (list T) := map (fun i => map (fun j => if (i =? j)%nat then sone else szero) (seq 0 n)) (seq 0 n).

  (** what the line search leaves: step factor, last trial point, its cost ([None]: the cost failed), number of rounds *)
  Record LS : Type := MkLS { ls_t : T; ls_x : list T; ls_f : option T; ls_it : nat }.

  (** curve_intersection_bfgs.rs:105-135: the line search; [n] rounds are left *)
  Fixpoint line_search (n : nat) (cost : list T -> Res T) (x0 : list T) (f0 : T) (step : list T) (norm df0 tol : T) (s : LS) : Res LS :=
    match n with
    | O => Ok s
    | S n =>
        let it := S (ls_it s) in
        if ls_t s * norm <? tol then Ok (MkLS (ls_t s) (ls_x s) (ls_f s) it)
        else
          let x1 := vadd x0 (vscale step (ls_t s)) in
          match cost x1 with
          | Ok f1 =>
              if f1 - f0 >=? (sone / sofz 10) * ls_t s * df0
              then line_search n cost x0 f0 step norm df0 tol (MkLS (ls_t s * (sone / sofz 2)) x1 (Some f1) it)
              else Ok (MkLS (ls_t s) x1 (Some f1) it)
          | Err _ => line_search n cost x0 f0 step norm df0 tol (MkLS (ls_t s * (sone / sofz 2)) x1 None it)
          | Panic e => Panic e
          | OutOfFuel => OutOfFuel
          end
    end.

  (** curve_intersection_bfgs.rs:137-145: the update of the inverse Hessian *)
  Definition bfgs_update (h0 : list (list T)) (y s : list T) : list (list T) :=
    let ys := vdot y s in
    let hy := mat_vec h0 y in
    mat_sub (mat_add h0 (mat_scale (outer s s) ((ys + vdot y hy) / (ys * ys))))
            (mat_divs (mat_add (outer hy s) (outer s hy)) ys).

  (** argmin's [IterState] as used here; [bs_prev = None]: the previous cost is infinite *)
  Record BState : Type := MkBS {
    bs_x : list T; bs_cost : T; bs_prev : option T; bs_g : option (list T); bs_h : option (list (list T));
    bs_max : nat; bs_iter : nat; bs_best : option (list T * T) }.

  (** curve_intersection_bfgs.rs:76-156 [next_iter], followed by the driver's update of the best parameters and of the counter *)
  Definition bfgs_next (cost : list T -> Res T) (gradient : list T -> Res (list T)) (tol : T) (s : BState) : Res BState :=
    g0 <- match bs_g s with Some g => Ok g | None => gradient (bs_x s) end ;;
    let h0 := match bs_h s with Some h => h | None => mat_id (length (bs_x s)) end in
    let step := vopp (mat_vec h0 g0) in
    l <- line_search (bs_max s) cost (bs_x s) (bs_cost s) step (vnorm step) (vdot g0 step) tol (MkLS sone (bs_x s) (Some (bs_cost s)) 0) ;;
    let f1 := match ls_f l with Some f => f | None => bs_cost s end in
    g1 <- gradient (ls_x l) ;;
    let h1 := bfgs_update h0 (vsub g1 g0) (vscale step (ls_t l)) in
    m <- usub (bs_max s) (ls_it l) ;;
    Ok (MkBS (ls_x l) f1 (Some (bs_cost s)) (Some g1) (Some h1) m (S (bs_iter s)) (best_update (bs_best s) (ls_x l) f1)).

  (** curve_intersection_bfgs.rs:158-198 [terminate] and the driver's own limit *)
  Definition bfgs_stop (tol ctol : T) (s : BState) : bool :=
    (bs_max s <=? bs_iter s)%nat
    || match bs_g s with Some g => existsb (fun v => negb (sfinite v)) g | None => false end
    || match bs_h s with Some h => existsb (existsb (fun v => negb (sfinite v))) h | None => false end
    || match bs_g s, bs_h s with Some g, Some h => vnorm (mat_vec h g) <? tol | _, _ => false end
    || match bs_prev s with Some p => negb (bs_cost s =? p) && (sabs (bs_cost s - p) <? ctol) | None => false end.

  (** the driver *)
  Definition bfgs_run (fuel : nat) (cost : list T -> Res T) (gradient : list T -> Res (list T)) (tol ctol : T) (max : nat) (x0 : list T)
    : Res (option (list T * T)) :=
    c0 <- cost x0 ;;
    loop_ fuel (fun s => if bfgs_stop tol ctol s then Ok (inr (bs_best s)) else s' <- bfgs_next cost gradient tol s ;; Ok (inl s'))
      (MkBS x0 c0 None None None max 0 (best_update None x0 c0)).

  (** curve_intersection_problem.rs:58-73: the squared distance of two homogeneous points *)
  Definition gap_cost (D : nat) (p1 p2 : list T) : Res T :=
    let w1 := coord (D - 1) p1 in
    let w2 := coord (D - 1) p2 in
    if negb (w1 =? szero) && negb (w2 =? szero)
    then Ok (vnorm2 (vsub (vdivs (firstn (D - 1) p1) w1) (vdivs (firstn (D - 1) p2) w2)))
    else Err "Parameter out of domain".

  (** curve_intersection_problem.rs:55-74 [cost] and 38-43 [gradient] for two curves *)
  Definition cc_cost (a b : Curve T) (x : list T) : Res T :=
    p1 <- point a (coord 0 x) ;;
    p2 <- point b (coord 1 x) ;;
    gap_cost (cdim a) p1 p2.
  Definition cc_gradient (a b : Curve T) (x : list T) : Res (list T) :=
    du <- rational_derivatives a (coord 0 x) 1 ;;
    dv <- rational_derivatives b (coord 1 x) 1 ;;
    du0 <- get du 0 ;; du1 <- get du 1 ;;
    dv0 <- get dv 0 ;; dv1 <- get dv 1 ;;
    let r := vsub du0 dv0 in
    Ok (vscale [vdot r du1; - vdot r dv1] (sofz 2)).

  (** surface_curve_intersection_problem.rs:40-79 [gradient] and [cost]: the parameters are (t, u, v) *)
  Definition sc_cost (s : Surf T) (b : Curve T) (x : list T) : Res T :=
    p1 <- surf_point s (coord 1 x) (coord 2 x) ;;
    p2 <- point b (coord 0 x) ;;
    gap_cost (sdim s) p1 p2.
  Definition sc_gradient (s : Surf T) (b : Curve T) (x : list T) : Res (list T) :=
    dc <- rational_derivatives b (coord 0 x) 1 ;;
    ds <- surf_rational_derivatives s (coord 1 x) (coord 2 x) 1 ;;
    d0 <- get dc 0 ;; d1 <- get dc 1 ;;
    s0 <- get2 ds 0 0 ;; su <- get2 ds 1 0 ;; sv <- get2 ds 0 1 ;;
    let r := vsub s0 d0 in
    Ok (vscale [vdot (vopp d1) r; vdot su r; vdot sv r] (sofz 2)).
End Bfgs.
