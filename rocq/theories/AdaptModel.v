(** * Model of the adaptive surface tessellation

    src/tessellation/adaptive_tessellation_node.rs, adaptive_tessellation_option.rs,
    adaptive_tessellation_processor.rs, surface_tessellation.rs, surface.rs, boundary_constraints.rs,
    surface_point.rs.

    Simplifications: the [id] of a node is its position in the store; the cache [mid_points] is left out
    (a node is divided at most once, so it is never read back); nodes are addressed by their position, and
    the four entries of the arrays by the enumeration [Edge]; surfaces are three-dimensional (nalgebra's
    [cross] panics otherwise). *)
From Coq Require Import String ZArith.
From Verif Require Import Base Scalar KnotModel MiscModel CurveModel SurfaceModel.

(** adaptive_tessellation_node.rs:290-297 [NeighborDirection], and the edge indices 0..3 *)
Inductive Edge := South | East | North | West.
Definition edges : list Edge := [South; East; North; West].
(** adaptive_tessellation_node.rs:131 [(edge_index + 2) % 4] *)
Definition opp_edge (e : Edge) : Edge :=
  match e with South => North | East => West | North => South | West => East end.

(** an array of four entries ([corners: [SurfacePoint; 4]], [neighbors: [Option<usize>; 4]] of adaptive_tessellation_node.rs:16-30) *)
Record Four (A : Type) := MkFour { f0 : A; f1 : A; f2 : A; f3 : A }.
Arguments MkFour {A}. Arguments f0 {A}. Arguments f1 {A}. Arguments f2 {A}. Arguments f3 {A}.
Definition four {A} (q : Four A) (e : Edge) : A :=
  match e with South => f0 q | East => f1 q | North => f2 q | West => f3 q end.

(** surface_point.rs:6-24 [SurfacePoint] *)
Record SPoint (T : Type) := MkSP {
  sp_uv : T * T;
  sp_point : list T;
  sp_normal : list T;
  sp_degen : bool;
  sp_ucon : bool; sp_vcon : bool;
  sp_umin : bool; sp_umax : bool; sp_vmin : bool; sp_vmax : bool
}.
Arguments MkSP {T}. Arguments sp_uv {T}. Arguments sp_point {T}. Arguments sp_normal {T}. Arguments sp_degen {T}.
Arguments sp_ucon {T}. Arguments sp_vcon {T}. Arguments sp_umin {T}. Arguments sp_umax {T}.
Arguments sp_vmin {T}. Arguments sp_vmax {T}.

(** adaptive_tessellation_node.rs:16-30 [AdaptiveTessellationNode] *)
Record ANode (T : Type) := MkANode {
  an_children : option (nat * nat);
  an_corners : Four (SPoint T);
  an_nb : Four (option nat);
  an_dir : UV;
  an_center : T * T
}.
Arguments MkANode {T}. Arguments an_children {T}. Arguments an_corners {T}. Arguments an_nb {T}.
Arguments an_dir {T}. Arguments an_center {T}.

(** adaptive_tessellation_node.rs:282-288 [DividableDirection] *)
Inductive Dividable := DivBoth | DivU | DivV.
(** surface/mod.rs:15-20 [UVDirection::opposite] *)
Definition uv_opposite (d : UV) : UV := match d with DirU => DirV | DirV => DirU end.

(** adaptive_tessellation_option.rs:5-17 [AdaptiveTessellationOptions] *)
Record AOpts (T : Type) := MkAOpts {
  ao_tol : T; ao_divs_u : nat; ao_divs_v : nat; ao_min_depth : nat; ao_max_depth : nat
}.
Arguments MkAOpts {T}. Arguments ao_tol {T}. Arguments ao_divs_u {T}. Arguments ao_divs_v {T}.
Arguments ao_min_depth {T}. Arguments ao_max_depth {T}.

(** boundary_constraints.rs:11-17 [BoundaryConstraints] *)
Record BCons (T : Type) := MkBCons {
  bc_v_umin : option (list T); bc_u_vmin : option (list T);
  bc_v_umax : option (list T); bc_u_vmax : option (list T)
}.
Arguments MkBCons {T}. Arguments bc_v_umin {T}. Arguments bc_u_vmin {T}. Arguments bc_v_umax {T}. Arguments bc_u_vmax {T}.
(** boundary_constraints.rs:103-112 [BoundaryEvaluation] *)
Record BEval (T : Type) := MkBEval {
  be_u_vmin : option (list (SPoint T)); be_u_vmax : option (list (SPoint T));
  be_v_umin : option (list (SPoint T)); be_v_umax : option (list (SPoint T))
}.
Arguments MkBEval {T}. Arguments be_u_vmin {T}. Arguments be_u_vmax {T}. Arguments be_v_umin {T}. Arguments be_v_umax {T}.

Section Adapt.
  Context {T : Type} {SO : Scalar T}.
  Open Scope scalar_scope.

  (** [T::from_f64(0.5)] in adaptive_tessellation_node.rs:43 *)
  Definition shalf : T := slit 1 2.

  (** surface_point.rs:30-48 [new] *)
  Definition sp_new (uv : T * T) (point normal : list T) (degen : bool) : SPoint T :=
    MkSP uv point normal degen false false false false false false.

  (** adaptive_tessellation_node.rs:38-53 [new] *)
  Definition an_new (corners : Four (SPoint T)) (nb : Four (option nat)) : ANode T :=
    let a := sp_uv (f0 corners) in
    let b := sp_uv (f2 corners) in
    MkANode None corners nb DirV ((fst a + fst b) * shalf, (snd a + snd b) * shalf).

  (** adaptive_tessellation_node.rs:256-280 [evaluate_surface] *)
  Definition evaluate_surface (s : Surf T) (uv : T * T) : Res (SPoint T) :=
    ds <- surf_rational_derivatives s (fst uv) (snd uv) 1 ;;
    pt <- get2 ds 0 0 ;;
    a <- get2 ds 1 0 ;;
    b <- get2 ds 0 1 ;;
    let norm := cross3 a b in
    let degen := vnorm2 norm <? seps in
    Ok (sp_new uv pt (if degen then norm else vnormalize norm) degen).

  (** adaptive_tessellation_node.rs:72-115 [get_edge_corners]; the recursion follows the children *)
  Fixpoint get_edge_corners (fuel : nat) (nodes : list (ANode T)) (id : nat) (e : Edge) : Res (list (SPoint T)) :=
    match fuel with
    | O => OutOfFuel
    | S fuel =>
        n <- get nodes id ;;
        match an_children n with
        | Some (c0, c1) =>
            match an_dir n, e with
            | DirU, South => get_edge_corners fuel nodes c0 South
            | DirU, East => a <- get_edge_corners fuel nodes c0 East ;; b <- get_edge_corners fuel nodes c1 East ;; Ok (a ++ b)
            | DirU, North => get_edge_corners fuel nodes c1 North
            | DirU, West => a <- get_edge_corners fuel nodes c1 West ;; b <- get_edge_corners fuel nodes c0 West ;; Ok (a ++ b)
            | DirV, South => a <- get_edge_corners fuel nodes c0 South ;; b <- get_edge_corners fuel nodes c1 South ;; Ok (a ++ b)
            | DirV, East => get_edge_corners fuel nodes c1 East
            | DirV, North => a <- get_edge_corners fuel nodes c1 North ;; b <- get_edge_corners fuel nodes c0 North ;; Ok (a ++ b)
            | DirV, West => get_edge_corners fuel nodes c0 West
            end
        | None => Ok [four (an_corners n) e]
        end
    end.

  (** [c.uv[edge_index % 2]] *)
  Definition along (e : Edge) (p : SPoint T) : T :=
    match e with South | North => fst (sp_uv p) | East | West => snd (sp_uv p) end.

  (** adaptive_tessellation_node.rs:117-142 [get_all_corners] *)
  Definition get_all_corners (nodes : list (ANode T)) (n : ANode T) (e : Edge) : Res (list (SPoint T)) :=
    let base := four (an_corners n) e in
    match four (an_nb n) e with
    | None => Ok [base]
    | Some nb =>
        corners <- get_edge_corners (S (length nodes)) nodes nb (opp_edge e) ;;
        let lo := along e (f0 (an_corners n)) in
        let hi := along e (f2 (an_corners n)) in
        Ok (base :: rev (filter (fun c => (lo + seps <? along e c) && (along e c <? hi - seps)) corners))
    end.

  (** adaptive_tessellation_node.rs:145-169 [evaluate_mid_point] *)
  Definition mid_uv (n : ANode T) (e : Edge) : T * T :=
    match e with
    | South => (fst (an_center n), snd (sp_uv (f0 (an_corners n))))
    | East => (fst (sp_uv (f1 (an_corners n))), snd (an_center n))
    | North => (fst (an_center n), snd (sp_uv (f2 (an_corners n))))
    | West => (fst (sp_uv (f0 (an_corners n))), snd (an_center n))
    end.
  Definition evaluate_mid_point (s : Surf T) (n : ANode T) (e : Edge) : Res (SPoint T) :=
    evaluate_surface s (mid_uv n e).

  (** adaptive_tessellation_node.rs:172-174 [has_bad_normals] *)
  Definition has_bad_normals (c : Four (SPoint T)) : bool :=
    sp_degen (f0 c) || sp_degen (f1 c) || sp_degen (f2 c) || sp_degen (f3 c).
  (** adaptive_tessellation_node.rs:176-192 [fix_normals]: corner [i] takes the normal of the next corner, or of the previous one *)
  Definition with_normal (p : SPoint T) (n : list T) : SPoint T :=
    MkSP (sp_uv p) (sp_point p) n (sp_degen p) (sp_ucon p) (sp_vcon p) (sp_umin p) (sp_umax p) (sp_vmin p) (sp_vmax p).
  Definition fix_normal (p v1 v2 : SPoint T) : SPoint T :=
    if sp_degen p then with_normal p (if sp_degen v1 then sp_normal v2 else sp_normal v1) else p.
  Definition fix_normals (c : Four (SPoint T)) : Four (SPoint T) :=
    let c0 := fix_normal (f0 c) (f1 c) (f3 c) in
    let c1 := fix_normal (f1 c) (f2 c) c0 in
    let c2 := fix_normal (f2 c) (f3 c) c1 in
    let c3 := fix_normal (f3 c) c0 c2 in
    MkFour c0 c1 c2 c3.

  (** adaptive_tessellation_node.rs:195-254 [should_divide] *)
  Definition normals_differ (tol : T) (a b : SPoint T) : bool := tol <? vnorm2 (vsub (sp_normal a) (sp_normal b)).
  Definition should_divide (o : AOpts T) (depth : nat) (n : ANode T) : ANode T * option Dividable :=
    if (depth <? ao_min_depth o)%nat then (n, Some DivBoth)
    else if (ao_max_depth o <=? depth)%nat then (n, None)
    else
      let c := an_corners n in
      if has_bad_normals c
      then (MkANode (an_children n) (fix_normals c) (an_nb n) (an_dir n) (an_center n), None)
      else
        let v_direction := (normals_differ (ao_tol o) (f0 c) (f1 c) || normals_differ (ao_tol o) (f2 c) (f3 c)) &&
          (negb (sp_ucon (f0 c)) && negb (sp_ucon (f1 c)) && negb (sp_ucon (f2 c)) && negb (sp_ucon (f3 c))) in
        let u_direction := (normals_differ (ao_tol o) (f1 c) (f2 c) || normals_differ (ao_tol o) (f3 c) (f0 c)) &&
          (negb (sp_vcon (f0 c)) && negb (sp_vcon (f1 c)) && negb (sp_vcon (f2 c)) && negb (sp_vcon (f3 c))) in
        match u_direction, v_direction with
        | true, true => (n, Some DivBoth)
        | true, false => (n, Some DivU)
        | false, true => (n, Some DivV)
        | false, false => (n, None)
        end.

  (** adaptive_tessellation_processor.rs:80-146: the two children; [id0], [id1] are their positions *)
  Definition split_node (s : Surf T) (n : ANode T) (d : UV) (id0 id1 : nat) : Res (ANode T * ANode T) :=
    let c := an_corners n in
    let nb := an_nb n in
    match d with
    | DirU =>
        east <- evaluate_mid_point s n East ;;
        west <- evaluate_mid_point s n West ;;
        Ok (an_new (MkFour (f0 c) (f1 c) east west) (MkFour (f0 nb) (f1 nb) (Some id1) (f3 nb)),
            an_new (MkFour west east (f2 c) (f3 c)) (MkFour (Some id0) (f1 nb) (f2 nb) (f3 nb)))
    | DirV =>
        south <- evaluate_mid_point s n South ;;
        north <- evaluate_mid_point s n North ;;
        Ok (an_new (MkFour (f0 c) south north (f3 c)) (MkFour (f0 nb) (Some id1) (f2 nb) (f3 nb)),
            an_new (MkFour south (f1 c) (f2 c) north) (MkFour (f0 nb) (f1 nb) (f2 nb) (Some id0)))
    end.

  (** adaptive_tessellation_processor.rs:53-159 [iterate] *)
  Fixpoint iterate (fuel : nat) (s : Surf T) (o : AOpts T) (nodes : list (ANode T)) (id depth : nat) (dir : UV)
    : Res (list (ANode T)) :=
    match fuel with
    | O => OutOfFuel
    | S fuel =>
        let id0 := length nodes in
        let id1 := S id0 in
        node <- get nodes id ;;
        match should_divide o depth node with
        | (n, None) => set_ nodes id n
        | (n, Some dv) =>
            let d := match dv with DivBoth => dir | DivU => DirU | DivV => DirV end in
            '(c0, c1) <- split_node s n d id0 id1 ;;
            nodes1 <- set_ nodes id (MkANode (Some (id0, id1)) (an_corners n) (an_nb n) d (an_center n)) ;;
            nodes2 <- iterate fuel s o (nodes1 ++ [c0; c1]) id0 (S depth) (uv_opposite dir) ;;
            iterate fuel s o nodes2 id1 (S depth) (uv_opposite dir)
        end
    end.
  (** adaptive_tessellation_processor.rs:43-50 [divide] *)
  Definition adapt_fuel (o : AOpts T) : nat := S (Nat.max (ao_min_depth o) (ao_max_depth o)).
  Definition divide (s : Surf T) (o : AOpts T) (nodes : list (ANode T)) (id : nat) : Res (list (ANode T)) :=
    iterate (adapt_fuel o) s o nodes id 0 (if (1 <? sdu s)%nat then DirU else DirV).

  (** ** Boundary constraints *)
  (** itertools [dedup], boundary_constraints.rs:94 *)
  Fixpoint dedup (l : list T) : list T :=
    match l with
    | [] => []
    | x :: t => match dedup t with
                | [] => [x]
                | y :: t' => if x =? y then x :: t' else x :: y :: t'
                end
    end.
  (** boundary_constraints.rs:85-99 [sorted_parameters] *)
  Definition sorted_parameters (mn mx : option (list T)) : option (list T) :=
    match mn, mx with
    | None, None => None
    | None, Some ma => Some ma
    | Some mi, None => Some mi
    | Some mi, Some ma => Some (dedup (ksort (mi ++ ma)))
    end.
  (** boundary_constraints.rs:71-83 *)
  Definition u_parameters (c : BCons T) : option (list T) := sorted_parameters (bc_u_vmin c) (bc_u_vmax c).
  Definition v_parameters (c : BCons T) : option (list T) := sorted_parameters (bc_v_umin c) (bc_v_umax c).

  (** boundary_constraints.rs:123-160 [BoundaryEvaluation::new]; the normal is not normalised here *)
  Definition boundary_point (s : Surf T) (uv : T * T) : Res (SPoint T) :=
    ds <- surf_rational_derivatives s (fst uv) (snd uv) 1 ;;
    pt <- get2 ds 0 0 ;;
    a <- get2 ds 1 0 ;;
    b <- get2 ds 0 1 ;;
    let norm := cross3 a b in
    Ok (sp_new uv pt norm (vnorm2 norm <? seps)).
  Definition boundary_points (s : Surf T) (f : T -> T * T) (ps : option (list T)) : Res (option (list (SPoint T))) :=
    match ps with
    | None => Ok None
    | Some l => r <- mapM (fun t => boundary_point s (f t)) l ;; Ok (Some r)
    end.
  Definition boundary_evaluation (s : Surf T) (c : BCons T) : Res (BEval T) :=
    '(ua, ub) <- domain (suk s) (sdu s) ;;
    '(va, vb) <- domain (svk s) (sdv s) ;;
    a <- boundary_points s (fun u => (u, va)) (bc_u_vmin c) ;;
    b <- boundary_points s (fun u => (u, vb)) (bc_u_vmax c) ;;
    x <- boundary_points s (fun v => (ua, v)) (bc_v_umin c) ;;
    y <- boundary_points s (fun v => (ub, v)) (bc_v_umax c) ;;
    Ok (MkBEval a b x y).
  (** boundary_constraints.rs:199-214 [closest_point]: [min_by] keeps the first of equal minima *)
  Definition closest_of (p : SPoint T) (l : list (SPoint T)) : Res (SPoint T) :=
    match l with
    | [] => Panic "unwrap on None"
    | q :: t =>
        let dist x := vnorm2 (vsub (sp_point x) (sp_point p)) in
        Ok (fold_left (fun m x => if dist x <? dist m then x else m) t q)
    end.
  (** surface_tessellation.rs:80-105 *)
  Definition snap (b : BEval T) (p : SPoint T) : Res (SPoint T) :=
    let try_ (flag : bool) (l : option (list (SPoint T))) (k : Res (SPoint T)) :=
      if flag then match l with Some l => closest_of p l | None => k end else k in
    try_ (sp_umin p) (be_u_vmin b) (
    try_ (sp_umax p) (be_u_vmax b) (
    try_ (sp_vmin p) (be_v_umin b) (
    try_ (sp_vmax p) (be_v_umax b) (Ok p)))).

  (** ** surface_tessellation.rs *)
  (** surface_tessellation.rs:140-151: the fan around the centre *)
  Fixpoint fan (center : nat) (j : nat) (ids : list nat) : list (list nat) :=
    match ids with [] => [] | i :: t => [center; j; i] :: fan center i t end.
  (** surface_tessellation.rs:66-155 [triangulate] *)
  Definition leaf_polygon (nodes : list (ANode T)) (b : option (BEval T)) (n : ANode T) : Res (nat * list (SPoint T)) :=
    corners <- mapM (get_all_corners nodes n) edges ;;
    let split_id := match position (fun c => (length c =? 2)%nat) corners with Some i => S i | None => O end in
    pts <- match b with Some b => mapM (snap b) (concat corners) | None => Ok (concat corners) end ;;
    Ok (split_id, pts).
  Definition triangulate (s : Surf T) (nodes : list (ANode T)) (b : option (BEval T)) (m : Tess T) (n : ANode T) : Res (Tess T) :=
    match an_children n with
    | Some _ => Ok m
    | None =>
        '(split_id, pts) <- leaf_polygon nodes b n ;;
        let base := length (tpts m) in
        let k := length pts in
        let id i := (base + i)%nat in
        let points := tpts m ++ map sp_point pts in
        let normals := tnormals m ++ map sp_normal pts in
        let uvs := tuvs m ++ map sp_uv pts in
        if (k =? 4)%nat then
          Ok (MkTess points normals (tfaces m ++ [[id 0; id 1; id 3]; [id 3; id 1; id 2]])%nat uvs)
        else if (k =? 5)%nat then
          let at_ i := id ((split_id + i) mod 5)%nat in
          a <- get (map id (seq 0 k)) split_id ;;
          Ok (MkTess points normals (tfaces m ++ [[a; at_ 1; at_ 2]; [a; at_ 3; at_ 4]; [a; at_ 2; at_ 3]])%nat uvs)
        else
          c <- evaluate_surface s (an_center n) ;;
          last <- usub k 1 ;;
          Ok (MkTess (points ++ [sp_point c]) (normals ++ [sp_normal c])
                (tfaces m ++ fan (id k) (id last) (map id (seq 0 k))) (uvs ++ [sp_uv c]))
    end.
  (** surface_tessellation.rs:43-64 [SurfaceTessellation::new] *)
  Definition tess_new (s : Surf T) (nodes : list (ANode T)) (c : option (BCons T)) : Res (Tess T) :=
    b <- match c with Some c => b <- boundary_evaluation s c ;; Ok (Some b) | None => Ok None end ;;
    foldM (triangulate s nodes b) nodes (MkTess [] [] [] []).

  (** ** surface.rs *)
  (** surface.rs:233-259 [merge_sorted_parameters] *)
  Fixpoint merge_sorted (p0 : list T) : list T -> list T :=
    fix inner (p1 : list T) : list T :=
      match p0, p1 with
      | [], _ => p1
      | _, [] => p0
      | a :: t0, b :: t1 =>
          if a <? b then a :: merge_sorted t0 p1
          else if b <? a then b :: inner t1
          else a :: merge_sorted t0 t1
      end.
  (** surface.rs:74-104: the parameters of the grid lines in one direction; [count] is the number of control points *)
  Definition grid_params (k : list T) (degree count min_divs mult : nat) : Res (list T) :=
    if (degree <=? 1)%nat then
      n <- usub (length k) 2 ;;
      Ok (firstn n (skipn 1 k))
    else
      m <- usub count 1 ;;
      let divs := Nat.max min_divs (m * mult) in
      '(lo, hi) <- domain k degree ;;
      let d := (hi - lo) / sofnat divs in
      Ok (map (fun i => lo + d * sofnat i) (seq 0 (S divs))).
  Definition with_boundary (ps : option (list T)) (l : list T) : list T :=
    match ps with Some x => merge_sorted l x | None => l end.

  (** surface.rs:137-158: the points of the grid, with the flags of the constraints *)
  Definition grid_point (s : Surf T) (c : option (BCons T)) (divs_u divs_v : nat) (iv iu : nat) (v u : T) : Res (SPoint T) :=
    let has f := match c with Some c => match f c with Some _ => true | None => false end | None => false end in
    lv <- usub divs_v 1 ;;
    let u_min := (iv =? 0)%nat in
    let u_max := (iv =? lv)%nat in
    ds <- surf_rational_derivatives s u v 1 ;;
    pt <- get2 ds 0 0 ;;
    a <- get2 ds 1 0 ;;
    b <- get2 ds 0 1 ;;
    lu <- usub divs_u 1 ;;
    let v_min := (iu =? 0)%nat in
    let v_max := (iu =? lu)%nat in
    Ok (MkSP (u, v) pt (vnormalize (cross3 a b)) false
          ((u_min && has bc_u_vmin) || (u_max && has bc_u_vmax)) ((v_min && has bc_v_umin) || (v_max && has bc_v_umax))
          u_min u_max v_min v_max).
  Definition grid_points (s : Surf T) (c : option (BCons T)) (us vs : list T) (divs_u divs_v : nat) : Res (list (list (SPoint T))) :=
    mapM (fun '(iv, v) => mapM (fun '(iu, u) => grid_point s c divs_u divs_v iv iu v u) (combine (seq 0 (length us)) us))
      (combine (seq 0 (length vs)) vs).

  (** surface.rs:200-230 [north], [south], [east], [west] *)
  Definition cell_north (index iv divs_u : nat) : Res (option nat) :=
    if (iv =? 0)%nat then Ok None else i <- usub index divs_u ;; Ok (Some i).
  Definition cell_south (index iv divs_u divs_v : nat) : Res (option nat) :=
    l <- usub divs_v 1 ;; Ok (if (iv =? l)%nat then None else Some (index + divs_u)%nat).
  Definition cell_east (index iu divs_u : nat) : Res (option nat) :=
    l <- usub divs_u 1 ;; Ok (if (iu =? l)%nat then None else Some (index + 1)%nat).
  Definition cell_west (index iv : nat) : Res (option nat) :=
    if (iv =? 0)%nat then Ok None else i <- usub index 1 ;; Ok (Some i).
  (** surface.rs:160-180: the cells of the grid; the first row of cells is the topmost one *)
  Definition grid_cell (pts : list (list (SPoint T))) (divs_u divs_v : nat) (index : nat) : Res (ANode T) :=
    let iv := (index / divs_u)%nat in
    let iu := (index mod divs_u)%nat in
    r <- usub divs_v iv ;;
    r1 <- usub r 1 ;;
    a <- get2 pts r1 iu ;;
    b <- get2 pts r1 (iu + 1) ;;
    c <- get2 pts r (iu + 1) ;;
    d <- get2 pts r iu ;;
    s <- cell_south index iv divs_u divs_v ;;
    e <- cell_east index iu divs_u ;;
    n <- cell_north index iv divs_u ;;
    w <- cell_west index iv ;;
    Ok (an_new (MkFour a b c d) (MkFour s e n w)).

  (** adaptive_tessellation_option.rs:19-28 [default] *)
  Definition ao_default : AOpts T := MkAOpts (slit 25 1000) 1 1 0 8.

  (** surface.rs:54-198 [surface_adaptive_tessellate], up to the nodes *)
  Definition adaptive_grid (s : Surf T) (c : option (BCons T)) (o : AOpts T) : Res (list T * list T) :=
    let mult := match c with Some _ => 1 | None => 2 end%nat in
    us <- grid_params (suk s) (sdu s) (length (snet s)) (ao_divs_u o) mult ;;
    row <- (if (sdv s <=? 1)%nat then Ok [] else get (snet s) 0) ;;
    vs <- grid_params (svk s) (sdv s) (length row) (ao_divs_v o) mult ;;
    match c with
    | Some c => Ok (with_boundary (u_parameters c) us, with_boundary (v_parameters c) vs)
    | None => Ok (us, vs)
    end.
  Definition adaptive_nodes (s : Surf T) (c : option (BCons T)) (opts : option (AOpts T)) : Res (list (ANode T)) :=
    let o := match opts with Some o => o | None => ao_default end in
    '(us, vs) <- adaptive_grid s c o ;;
    divs_u <- usub (length us) 1 ;;
    divs_v <- usub (length vs) 1 ;;
    pts <- grid_points s c us vs divs_u divs_v ;;
    cells <- mapM (grid_cell pts divs_u divs_v) (seq 0 (divs_v * divs_u)) ;;
    match opts with
    | None => Ok cells
    | Some _ => foldM (divide s o) (seq 0 (divs_v * divs_u)) cells
    end.
  Definition adaptive_tessellate (s : Surf T) (c : option (BCons T)) (opts : option (AOpts T)) : Res (Tess T) :=
    nodes <- adaptive_nodes s c opts ;;
    tess_new s nodes c.
End Adapt.
