(** * Model of src/intersects: curve x curve, surface x curve, compound x curve, compound x compound

    The candidate pairs come from the bounding box traversal (TraversalModel) and every pair is refined by a solver (BfgsModel).  Here the
    solver is an argument: it answers with its best parameters, or with [None] when it fails. *)
From Coq Require Import ZArith String.
From Verif Require Import Base Scalar KnotModel CurveModel SurfaceModel CompoundModel BBoxModel TraversalModel ClosestModel BfgsModel.

Section Intersect.
  Context {T : Type} {SO : Scalar T}.
  Open Scope scalar_scope.

  (** [(a..=b).contains(&x)] *)
  Definition in_range (d : T * T) (x : T) : bool := (fst d <=? x) && (x <=? snd d).

  (** intersection_curve_curve.rs:167, intersection_surface_curve.rs:152 [sorted_by(partial_cmp(..).unwrap_or(Equal))]: a stable sort.  The keys passed the range test, so none of them is NaN and the
      comparison is a total preorder, for which any stable sort gives the same list. *)
  Fixpoint insert_by {H : Type} (key : H -> T) (x : H) (l : list H) : list H :=
    match l with
    | [] => [x]
    | y :: t => if key y <? key x then y :: insert_by key x t else x :: l
    end.
  Definition sort_by {H : Type} (key : H -> T) (l : list H) : list H := fold_right (insert_by key) [] l.

  (** intersection_curve_curve.rs:177, intersection_surface_curve.rs:160: itertools' [coalesce] on singleton groups: the last element of the open group is compared with the next element *)
  Fixpoint coalesce_from {H : Type} (near : H -> H -> bool) (group : list H) (prev : H) (l : list H) : list (list H) :=
    match l with
    | [] => [group]
    | y :: t => if near prev y then coalesce_from near (group ++ [y]) y t else group :: coalesce_from near [y] y t
    end.
  Definition coalesce {H : Type} (near : H -> H -> bool) (l : list H) : list (list H) :=
    match l with [] => [] | x :: t => coalesce_from near [x] x t end.

  (** intersection_curve_curve.rs:201-219: the representative of a group, the first one with the smallest squared distance *)
  Definition representative {H : Type} (gap : H -> T) (g : list H) : option H :=
    match g with
    | [x] => Some x
    | _ => match min_by (map (fun x => (gap x, x)) g) with Some m => Some (snd m) | None => None end
    end.

  (** intersection_curve_curve.rs:203-220, intersection_surface_curve.rs:178-195: [filter_map] of the groups *)
  Fixpoint representatives {H : Type} (gap : H -> T) (gs : list (list H)) : list H :=
    match gs with
    | [] => []
    | g :: gs => match representative gap g with Some x => x :: representatives gap gs | None => representatives gap gs end
    end.

  (** intersection_curve_curve.rs:152-220: sorting, grouping and choice of the representatives *)
  Definition finish {H : Type} (key : H -> T) (near : H -> H -> bool) (gap : H -> T) (hits : list H) : list H :=
    representatives gap (coalesce near (sort_by key hits)).

  (** curve_intersection_solver_options.rs:5-18: the solver options *)
  Record Options : Type := MkOptions { op_min : T; op_div : nat; op_step : T; op_cost : T; op_iters : nat }.
  (** curve_intersection_solver_options.rs:22-32 [default] *)
  Definition default_options : Options :=
    MkOptions (sone / sofz 100000) 64 (sone / sofz 100000000) (sone / sofz 10000000000) 200.

  (** intersection_curve_curve.rs:173, intersection_surface_curve.rs:156: the threshold 1e-3 on the parameters *)
  Definition merge_tol : T := sone / sofz 1000.

  (** ** Two curves *)
  (** intersection.rs:5-10, a hit: the point and the parameter on each curve *)
  Record Hit : Type := MkHit { ha_p : list T; ha_t : T; hb_p : list T; hb_t : T }.

  (** the refinement of a candidate pair by a solver *)
  Variable solve : Curve T -> Curve T -> Res (option (T * T)).

  (** intersection_curve_curve.rs:101-151: one candidate pair; [None] when it is dropped *)
  Definition cc_candidate (a b : Curve T) (da db : T * T) (min : T) (ca cb : Curve T) : Res (option Hit) :=
    r <- solve ca cb ;;
    match r with
    | Some (ta, tb) =>
        if in_range da ta && in_range db tb then
          p0 <- point_at a ta ;;
          p1 <- point_at b tb ;;
          Ok (if vnorm (vsub p0 p1) <? min then Some (MkHit p0 ta p1 tb) else None)
        else Ok None
    | None => Ok None
    end.

  Fixpoint keep_some {A : Type} (l : list (option A)) : list A :=
    match l with [] => [] | Some x :: t => x :: keep_some t | None :: t => keep_some t end.

  (** intersection_curve_curve.rs:174-178 *)
  Definition cc_near (x y : Hit) : bool :=
    (sabs (ha_t x - ha_t y) <? merge_tol) || (sabs (hb_t x - hb_t y) <? merge_tol).
  Definition cc_gap (x : Hit) : T := vnorm2 (vsub (ha_p x) (hb_p x)).

  (** intersection_curve_curve.rs:97-222, from the candidate pairs on *)
  Definition cc_refine (a b : Curve T) (min : T) (pairs : list (Curve T * Curve T)) : Res (list Hit) :=
    da <- knots_domain a ;;
    db <- knots_domain b ;;
    hits <- mapM (fun '(ca, cb) => cc_candidate a b da db min ca cb) pairs ;;
    Ok (finish ha_t cc_near cc_gap (keep_some hits)).

  (** intersection_curve_curve.rs:74-223 [find_intersections] *)
  Definition cc_intersections (rng : nat -> T) (fuel : nat) (a b : Curve T) (o : Options) : Res (list Hit) :=
    ia <- knots_domain_interval a ;;
    ib <- knots_domain_interval b ;;
    ta <- ct_new a (Some (ia / sofnat (op_div o))) ;;
    tb <- ct_new b (Some (ib / sofnat (op_div o))) ;;
    pairs <- traverse ct_ops ct_ops (cdim a - 1) rng fuel ta tb ;;
    cc_refine a b (op_min o) (map (fun p => (ct_curve (fst p), ct_curve (snd p))) pairs).

  (** ** A surface and a curve *)
  Record SHit : Type := MkSHit { sh_p : list T; sh_uv : T * T; sh_q : list T; sh_t : T }.
  Variable ssolve : Surf T -> Curve T -> Res (option (T * (T * T))).

  (** intersection_surface_curve.rs:83-147 *)
  Definition sc_candidate (s : Surf T) (b : Curve T) (du dv db : T * T) (min : T) (cs : Surf T) (cb : Curve T) : Res (option SHit) :=
    r <- ssolve cs cb ;;
    match r with
    | Some (t, (u, v)) =>
        if in_range du u && in_range dv v && in_range db t then
          p0 <- surf_point_at s u v ;;
          p1 <- point_at b t ;;
          Ok (if vnorm (vsub p0 p1) <? min then Some (MkSHit p0 (u, v) p1 t) else None)
        else Ok None
    | None => Ok None
    end.
  Definition sc_near (x y : SHit) : bool := sabs (sh_t x - sh_t y) <? merge_tol.
  Definition sc_gap (x : SHit) : T := vnorm2 (vsub (sh_p x) (sh_q x)).

  Definition sc_refine (s : Surf T) (b : Curve T) (min : T) (pairs : list (Surf T * Curve T)) : Res (list SHit) :=
    '(du, dv) <- surf_domain s ;;
    db <- knots_domain b ;;
    hits <- mapM (fun '(cs, cb) => sc_candidate s b du dv db min cs cb) pairs ;;
    Ok (finish sh_t sc_near sc_gap (keep_some hits)).

  (** intersection_surface_curve.rs:61-196 [find_intersections] *)
  Definition sc_intersections (rng : nat -> T) (fuel : nat) (s : Surf T) (b : Curve T) (o : Options) : Res (list SHit) :=
    let div := sone / sofnat (op_div o) in
    '(iu, iv) <- surf_interval s ;;
    ib <- knots_domain_interval b ;;
    ta <- st_new s DirU (Some (iu * div, iv * div)) ;;
    tb <- ct_new b (Some (ib * div)) ;;
    pairs <- traverse st_ops ct_ops (cdim b - 1) rng fuel ta tb ;;
    sc_refine s b (op_min o) (map (fun p => (st_surf (fst p), ct_curve (snd p))) pairs).

  (** ** Compound curves *)
  (** compound_curve_intersection.rs:15-27: a hit on a compound curve names the spans *)
  Definition CHit : Type := (Curve T * Curve T * Hit)%type.
  Definition seam_tol : T := sone / sofz 100.

  (** intersection_compound_curve.rs:54-62: the last hit of a span close to its end, the first hit of the next close to its start *)
  Definition seam_cull (la lb : list CHit) : Res bool :=
    match last (map Some la) None, lb with
    | Some (sa, _, ha), (sb, _, hb) :: _ =>
        '(_, ea) <- knots_domain sa ;;
        '(eb, _) <- knots_domain sb ;;
        Ok ((sabs (ea - ha_t ha) <? seam_tol) && (sabs (eb - ha_t hb) <? seam_tol))
    | _, _ => Ok false
    end.

  (** intersection_compound_curve.rs:49-71: the windows (0,1), (1,2), ..., (n-1,0) in order *)
  Definition cull_step (n a : nat) (res : list (list CHit)) : Res (list (list CHit)) :=
    let b := if (S a =? n)%nat then 0%nat else S a in
    if (a =? b)%nat then Ok res
    else
      la <- get res a ;;
      lb <- get res b ;;
      c <- seam_cull la lb ;;
      if (c : bool) then set_ res a (removelast la) else Ok res.
  Definition cull_seams (res : list (list CHit)) : Res (list (list CHit)) :=
    for_range 0 (length res) (cull_step (length res)) res.

  (** intersection_compound_curve.rs:27-74 for a compound curve and a curve; [inter] intersects two curves *)
  Definition compound_x_curve (inter : Curve T -> Curve T -> Res (list Hit)) (spans : list (Curve T)) (other : Curve T) : Res (list CHit) :=
    res <- mapM (fun span => its <- inter span other ;; Ok (map (fun it => (span, other, it)) its)) spans ;;
    res <- cull_seams res ;;
    Ok (concat res).

  (** intersection_compound_curve.rs:90-103 for two compound curves *)
  Definition compound_x_compound (inter : Curve T -> Curve T -> Res (list Hit)) (spans others : list (Curve T)) : Res (list CHit) :=
    res <- mapM (fun span => compound_x_curve inter spans span) others ;;
    Ok (concat res).
End Intersect.

Section Solvers.
  Context {T : Type} {SO : Scalar T}.
  (** intersection_curve_curve.rs:104-133: the solver runs from the starts of both candidate curves; a failed run is dropped *)
  Definition bfgs_cc (fuel : nat) (o : @Options T) (ca cb : Curve T) : Res (option (T * T)) :=
    '(a0, _) <- knots_domain ca ;;
    '(b0, _) <- knots_domain cb ;;
    match bfgs_run fuel (cc_cost ca cb) (cc_gradient ca cb) (op_step o) (op_cost o) (op_iters o) [a0; b0] with
    | Ok (Some (x, _)) => Ok (Some (coord 0 x, coord 1 x))
    | Ok None | Err _ => Ok None
    | Panic e => Panic e
    | OutOfFuel => OutOfFuel
    end.
  (** intersection_surface_curve.rs:87-118: from the middles *)
  Definition bfgs_sc (fuel : nat) (o : @Options T) (cs : Surf T) (cb : Curve T) : Res (option (T * (T * T))) :=
    let half := sdiv sone (sofz 2) in
    '(t0, t1) <- knots_domain cb ;;
    '((u0, u1), (v0, v1)) <- surf_domain cs ;;
    match bfgs_run fuel (sc_cost cs cb) (sc_gradient cs cb) (op_step o) (op_cost o) (op_iters o)
            [smul (sadd t0 t1) half; smul (sadd u0 u1) half; smul (sadd v0 v1) half] with
    | Ok (Some (x, _)) => Ok (Some (coord 0 x, (coord 1 x, coord 2 x)))
    | Ok None | Err _ => Ok None
    | Panic e => Panic e
    | OutOfFuel => OutOfFuel
    end.
End Solvers.
