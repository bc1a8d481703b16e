(** * Model of src/surface/trimmed_surface.rs, src/tessellation/trimmed_surface.rs and
    src/tessellation/tessellation_region.rs *)
From Coq Require Import ZArith String.
From Verif Require Import Base Scalar KnotModel MiscModel CurveModel CurveKnotModel CompoundModel SurfaceModel BBoxModel SurfaceBoxModel
  MergeModel ClipModel SerdeModel TessCurveModel ClosestModel AdaptModel TraversalModel IntersectModel.

(** ** The constrained Delaunay triangulation of the crate [spade], a parameter of the model.

    A handle is the position of a vertex in [dt_vertices].  [dt_insert] answers no handle when the position
    is refused (not a number, too large or too small).  The hints given to the insertion only speed it up. *)
Record Delaunay (V : Type) := MkDelaunay {
  dt : Type;
  dt_empty : dt;
  dt_insert : dt -> V -> dt * option nat;
  dt_can_add : dt -> nat -> nat -> bool;
  dt_add : dt -> nat -> nat -> dt;
  dt_vertices : dt -> list V;
  dt_faces : dt -> list (nat * nat * nat)
}.
Arguments dt {V}. Arguments dt_empty {V}. Arguments dt_insert {V}. Arguments dt_can_add {V}. Arguments dt_add {V}.
Arguments dt_vertices {V}. Arguments dt_faces {V}.

Section Constrained.
  Context {V : Type} (D : Delaunay V).

  Fixpoint insert_all (t : dt D) (vs : list V) : dt D * list (option nat) :=
    match vs with
    | [] => (t, [])
    | v :: vs =>
        let '(t, h) := dt_insert D t v in
        let '(t, hs) := insert_all t vs in
        (t, h :: hs)
    end.
  (** tessellation/trimmed_surface.rs:171-181, tessellation_region.rs:51-59 *)
  Definition add_edge (t : dt D) (ab : option nat * option nat) : dt D :=
    match ab with
    | (Some a, Some b) => if dt_can_add D t a b then dt_add D t a b else t
    | _ => t
    end.
  Definition insert_loop (t : dt D) (vs : list V) : dt D :=
    let '(t, hs) := insert_all t vs in
    fold_left add_edge (circular_pairs hs) t.
End Constrained.

Section Trim.
  Context {T : Type} {SO : Scalar T}.
  Open Scope scalar_scope.

  (** ** Choice of the triangles *)
  (** tessellation/trimmed_surface.rs:206-233, tessellation_region.rs:84-118 *)
  Definition keep_triangle (exterior : option (list (list T))) (interiors : list (list (list T))) (p0 p1 p2 : list T) : bool :=
    let a := vsub p1 p0 in
    let b := vsub p2 p1 in
    let area := coord 0 a * coord 1 b - coord 1 a * coord 0 b in
    if sabs area <? seps then false
    else
      let center := vscale (vadd (vadd p0 p1) p2) (sone / sofz 3) in
      (match exterior with Some e => polygon_contains e center | None => true end
       && negb (existsb (fun i => polygon_contains i center) interiors))%bool.
  (** indices of the vertices of the faces that are kept; [pos] is the position of a vertex *)
  Fixpoint keep_faces {V : Type} (pos : V -> list T) (exterior : option (list (list T))) (interiors : list (list (list T)))
    (verts : list V) (faces : list (nat * nat * nat)) : Res (list (nat * nat * nat)) :=
    match faces with
    | [] => Ok []
    | (a, b, c) :: faces =>
        pa <- get verts a ;;
        pb <- get verts b ;;
        pc <- get verts c ;;
        rest <- keep_faces pos exterior interiors verts faces ;;
        Ok (if keep_triangle exterior interiors (pos pa) (pos pb) (pos pc) then (a, b, c) :: rest else rest)
    end.

  (** ** tessellation_region.rs:24-126 *)
  Fixpoint tessellate_loops (rng : nat -> T) (fuel : nat) (loops : list (list (Curve T))) (tol : option T) (k : nat)
    : Res (list (list (list T)) * nat) :=
    match loops with
    | [] => Ok ([], k)
    | l :: loops =>
        '(pts, k) <- tessellate_compound rng fuel l tol k ;;
        '(rest, k) <- tessellate_loops rng fuel loops tol k ;;
        Ok (pts :: rest, k)
    end.
  Definition region_mesh (D : Delaunay (list T)) (exterior : list (list T)) (interiors : list (list (list T))) : Res (Mesh (list T)) :=
    let t := fold_left (insert_loop D) (exterior :: interiors) (dt_empty D) in
    let vertices := dt_vertices D t in
    faces <- keep_faces (fun p => p) (Some exterior) interiors vertices (dt_faces D t) ;;
    Ok (MkMesh vertices faces).
  Definition region_tessellate (D : Delaunay (list T)) (rng : nat -> T) (fuel : nat) (r : Region (list (Curve T))) (tol : option T) : Res (Mesh (list T)) :=
    '(exterior, k) <- tessellate_compound rng fuel (rexterior r) tol 0 ;;
    '(interiors, _) <- tessellate_loops rng fuel (rinteriors r) tol k ;;
    region_mesh D exterior interiors.

  (** ** Sampling of a trimming curve *)
  (** nurbs_curve.rs:284-297 [point_tangent_at] *)
  Definition point_tangent_at (c : Curve T) (u : T) : Res (list T * list T) :=
    d <- rational_derivatives c u 1 ;;
    p <- get d 0 ;;
    t <- get d 1 ;;
    Ok (p, t).

  (** tessellation/trimmed_surface.rs:313-360 [iterate_uv_curve_tessellation]; the second condition is evaluated only if the first fails *)
  Fixpoint iterate_uv (fuel : nat) (c : Curve T) (s : Surf T) (start end_ tol : T) : Res (list (list T)) :=
    match fuel with
    | O => OutOfFuel
    | S fuel =>
        '(p1, n1) <- point_tangent_at c start ;;
        let delta := end_ - start in
        if delta <? tess_min then Ok [p1]
        else
          let mid := start + (end_ - start) * (sone / sofz 2) in
          '(p2, n2) <- point_tangent_at c mid ;;
          '(p3, n3) <- point_tangent_at c end_ ;;
          let bent := if (cdeg c =? 1)%nat then false else tol <? vnorm (vsub (vsub n2 n1) (vsub n3 n2)) in
          b <- (if bent then Ok true
                else
                  s1 <- normal_at s (coord 0 p1) (coord 1 p1) ;;
                  s2 <- normal_at s (coord 0 p2) (coord 1 p2) ;;
                  s3 <- normal_at s (coord 0 p3) (coord 1 p3) ;;
                  Ok (tol <? vnorm (vsub (vsub s2 s1) (vsub s3 s2)))) ;;
          if (b : bool) then
            lpts <- iterate_uv fuel c s start mid tol ;;
            rpts <- iterate_uv fuel c s mid end_ tol ;;
            Ok (removelast lpts ++ rpts)
          else Ok [p1; p3]
    end.

  (** tessellation/trimmed_surface.rs:17-32; [vx_uv] has two coordinates *)
  Record Vertex := MkVx { vx_point : list T; vx_normal : list T; vx_uv : list T }.
  Definition surface_vertex (s : Surf T) (uv : list T) : Res Vertex :=
    p <- surf_point_at s (coord 0 uv) (coord 1 uv) ;;
    n <- normal_at s (coord 0 uv) (coord 1 uv) ;;
    Ok (MkVx p n uv).

  (** tessellation/trimmed_surface.rs:261-311 [tessellate_uv_curve_adaptive] *)
  Definition uv_span (fuel : nat) (c : Curve T) (s : Surf T) (tol : T) (i : nat) : Res (list (list T)) :=
    a <- get (cknots c) i ;;
    b <- get (cknots c) (i + 1) ;;
    pts <- iterate_uv fuel c s a b tol ;;
    Ok (if (i =? 1)%nat then pts else skipn 1 pts).
  Definition uv_points (fuel : nat) (c : Curve T) (s : Surf T) (tol : T) : Res (list (list T)) :=
    if (cdeg c =? 1)%nat then
      n <- usub (length (cknots c)) 2 ;;
      pts <- mapM (uv_span fuel c s tol) (seq 1 (n - 1)) ;;
      Ok (concat pts)
    else
      '(start, end_) <- knots_domain c ;;
      iterate_uv fuel c s start end_ tol.
  Definition tessellate_uv (fuel : nat) (c : Curve T) (s : Surf T) (tol : T) : Res (list Vertex) :=
    pts <- uv_points fuel c s tol ;;
    mapM (surface_vertex s) pts.

  (** tessellation/trimmed_surface.rs:87-96 and 106-115: the parameters are given *)
  Definition constrained_uv (c : Curve T) (s : Surf T) (ts : list T) : Res (list Vertex) :=
    mapM (fun t => uv <- point_at c t ;; surface_vertex s uv) ts.
  Definition trim_loop (fuel : nat) (s : Surf T) (tol : T) (c : Curve T) (k : option (list T)) : Res (list Vertex) :=
    match k with Some ts => constrained_uv c s ts | None => tessellate_uv fuel c s tol end.

  (** tessellation/trimmed_surface.rs:154-169: a closed list of vertices, by the points in space, is inserted without its first one *)
  Definition veqb (a b : list T) : bool := forallb (fun '(x, y) => x =? y) (combine a b).
  Definition loop_vertices (vs : list Vertex) : list Vertex :=
    match vs with
    | [] => []
    | v :: t => if veqb (vx_point v) (vx_point (last vs v)) then t else vs
    end.

  (** trimmed_surface_constraints.rs:5-9 *)
  Record TrimCons := MkTrimCons { tc_exterior : option (list T); tc_interiors : list (option (list T)) }.

  (** tessellation/trimmed_surface.rs:70-256 [trimmed_surface_adaptive_tessellate] *)
  Definition trim_loops (fuel : nat) (s : Trimmed T) (cons : option TrimCons) (tol : T) : Res (option (list Vertex) * list (list Vertex)) :=
    let kext := match cons with Some k => tc_exterior k | None => None end in
    kints <- match cons with
             | Some k => if (length (tc_interiors k) =? length (tr_interiors s))%nat then Ok (tc_interiors k)
                         else Err "The number of interiors must match the number of trimming curves"
             | None => Ok (repeat None (length (tr_interiors s)))
             end ;;
    exterior <- match tr_exterior s with
                | Some c => l <- trim_loop fuel (tr_surface s) tol c kext ;; Ok (Some l)
                | None => Ok None
                end ;;
    interiors <- mapM (fun '(c, k) => trim_loop fuel (tr_surface s) tol c k) (combine (tr_interiors s) kints) ;;
    Ok (exterior, interiors).
  Definition grid_vertices (m : Tess T) : list Vertex :=
    map (fun '((p, n), uv) => MkVx p n [fst uv; snd uv]) (combine (combine (tpts m) (tnormals m)) (tuvs m)).
  Definition trim_mesh (D : Delaunay Vertex) (grid : list Vertex) (exterior : option (list Vertex)) (interiors : list (list Vertex)) : Res (Mesh Vertex) :=
    let t := fst (insert_all D (dt_empty D) grid) in
    let t := match exterior with Some e => insert_loop D t (loop_vertices e) | None => t end in
    let t := fold_left (fun t l => insert_loop D t (loop_vertices l)) interiors t in
    let vertices := dt_vertices D t in
    faces <- keep_faces vx_uv (option_map (map vx_uv) exterior) (map (map vx_uv) interiors) vertices (dt_faces D t) ;;
    Ok (MkMesh vertices faces).
  Definition trimmed_tessellate (D : Delaunay Vertex) (fuel : nat) (s : Trimmed T) (cons : option TrimCons) (opts : option (AOpts T)) : Res (Mesh Vertex) :=
    let tol := match opts with Some o => ao_tol o | None => slit 1 100 end in
    '(exterior, interiors) <- trim_loops fuel s cons tol ;;
    m <- adaptive_tessellate (tr_surface s) None opts ;;
    trim_mesh D (grid_vertices m) exterior interiors.

  (** ** src/surface/trimmed_surface.rs *)
  (** nurbs_surface.rs:923-992 [find_closest_parameter], with the tessellation it starts from *)
  Variable solve2 : T -> T -> T -> T * T -> option (T * T).
  Definition surf_closest (s : Surf T) (p : list T) : Res (T * T) :=
    nu <- usub (length (snet s)) 1 ;;
    row <- get (snet s) 0 ;;
    nv <- usub (length row) 1 ;;
    let o := ao_default in
    m <- adaptive_tessellate s None (Some (MkAOpts (ao_tol o) (nu * 2) (nv * 2) (ao_min_depth o) (ao_max_depth o))) ;;
    surf_find_closest_parameter solve2 s (combine (tuvs m) (tpts m)) p.
  (** nurbs_surface.rs:909-921 [find_closest_point] *)
  Definition surf_closest_point (s : Surf T) (p : list T) : Res (list T) :=
    '(u, v) <- surf_closest s p ;;
    surf_point_at s u v.

  (** trimmed_surface.rs:150-156 and 168-172: a weighted point of the parameter plane *)
  Definition uv_point (uv : T * T) (w : T) : list T := [fst uv * w; snd uv * w; w].

  (** trimmed_surface.rs:160-175 [try_map_curve_closest_point]; [closest] finds the parameters of a point *)
  Definition map_curve (closest : list T -> Res (T * T)) (c : Curve T) : Res (Curve T) :=
    pts <- dehomogenized_control_points c ;;
    uvs <- mapM (fun '(p, w) => uv <- closest p ;; Ok (uv_point uv w)) (combine pts (weights c)) ;;
    try_new 3 (cdeg c) uvs (cknots c).

  (** trimmed_surface.rs:121-157 [try_project_curve]; [hits] intersects the surface with a curve *)
  Definition nearest_hit (p : list T) (l : list SHit) : option SHit :=
    match map (fun h => (vnorm2 (vsub p (sh_p h)), h)) l with
    | [] => None
    | x :: t => Some (snd (fold_left (fun a b => if (fst b <? fst a) then b else a) t x))
    end.
  Definition project_point (hits : Curve T -> Res (list SHit)) (direction : list T) (len : T) (p : list T) : Res (T * T) :=
    let offset := vscale direction sone in
    ray <- polyline 4 [vsub p offset; vadd (vadd p offset) (vscale direction len)] true ;;
    l <- hits ray ;;
    h <- ok_or (nearest_hit p l) "No intersection found in try project curve" ;;
    Ok (sh_uv h).
  Definition ray_length (s : Surf T) (c : Curve T) (direction : list T) : Res T :=
    b0 <- bb_of_surf s ;;
    b1 <- bb_of_curve c ;;
    Ok (vnorm (vsub (bb_center b0) (bb_center b1)) + sabs (vdot (bb_size b0) direction) + sabs (vdot (bb_size b1) direction)).
  Definition project_curve (hits : Curve T -> Res (list SHit)) (s : Surf T) (direction : list T) (c : Curve T) : Res (Curve T) :=
    len <- ray_length s c direction ;;
    map_curve (project_point hits direction len) c.

  (** trimmed_surface.rs:68-93 [try_map_closest_point], 38-64 [try_projection] *)
  Definition trim_with (f : Curve T -> Res (Curve T)) (s : Surf T) (exterior : option (Curve T)) (interiors : list (Curve T)) : Res (Trimmed T) :=
    match exterior, interiors with
    | None, [] => Err "No trimming curves provided"
    | _, _ =>
        e <- match exterior with Some c => c <- f c ;; Ok (Some c) | None => Ok None end ;;
        i <- mapM f interiors ;;
        Ok (MkTrimmed s e i)
    end.
  Definition try_map_closest_point (s : Surf T) (exterior : option (Curve T)) (interiors : list (Curve T)) : Res (Trimmed T) :=
    trim_with (map_curve (surf_closest s)) s exterior interiors.
  Definition try_projection (hits : Surf T -> Curve T -> Res (list SHit)) (s : Surf T) (direction : list T) (exterior : option (Curve T)) (interiors : list (Curve T)) : Res (Trimmed T) :=
    trim_with (project_curve (hits s) s direction) s exterior interiors.

  (** trimmed_surface.rs:185-187 [transform] *)
  Definition trimmed_transform (m : list (list T)) (s : Trimmed T) : Trimmed T :=
    MkTrimmed (surf_transform m (tr_surface s)) (tr_exterior s) (tr_interiors s).
  (** trimmed_surface.rs:192-198 [invert] *)
  Definition trimmed_invert (s : Trimmed T) : Res (Trimmed T) :=
    f <- surf_invert (tr_surface s) ;;
    e <- match tr_exterior s with Some c => c <- invert c ;; Ok (Some c) | None => Ok None end ;;
    i <- mapM invert (tr_interiors s) ;;
    Ok (MkTrimmed f e i).
End Trim.
