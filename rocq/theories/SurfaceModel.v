(** * Model of src/surface/nurbs_surface.rs and of the surface part of src/split/mod.rs

    The control net is a list of rows; the row index runs along u and the position in a row
    along v, as in the code ([control_points[u][v]]). *)
From Coq Require Import ZArith.
From Verif Require Import Base Scalar KnotModel MiscModel CurveModel CurveKnotModel.

(** nurbs_surface.rs:30-45 [NurbsSurface]; [sdim] is the type parameter [D] *)
Record Surf (T : Type) := MkSurf {
  sdim : nat;
  sdu : nat;
  sdv : nat;
  suk : list T;
  svk : list T;
  snet : list (list (list T))
}.
Arguments MkSurf {T}.
Arguments sdim {T}. Arguments sdu {T}. Arguments sdv {T}. Arguments suk {T}. Arguments svk {T}.
Arguments snet {T}.

(** surface/mod.rs:8-29 [UVDirection] and [FlipDirection] *)
Inductive UV := DirU | DirV.
Inductive Flip := FlipU | FlipV | FlipUV.

Section Surface.
  Context {T : Type} {SO : Scalar T}.
  Open Scope scalar_scope.

  (** [knots.len() - degree - 2] *)
  Definition klast_index (k : list T) (degree : nat) : Res nat :=
    x <- usub (length k) degree ;; usub x 2.

  (** nurbs_surface.rs:155-167 and 215-231: the double loop over the window of control points;
      [vi], [ui] are the first column and row of the window *)
  Definition surf_combine (s : Surf T) (ui vi : nat) (bu bv : list T) : Res (list T) :=
    for_incl 0 (sdv s) (fun l pos =>
      temp <- for_incl 0 (sdu s) (fun k temp =>
        row <- get (snet s) (ui + k) ;;
        p <- get row (vi + l) ;;
        b <- get bu k ;;
        Ok (vadd temp (vscale p b))) (vzero (sdim s)) ;;
      b <- get bv l ;;
      Ok (vadd pos (vscale temp b))) (vzero (sdim s)).

  (** nurbs_surface.rs:141-170 [point] *)
  Definition surf_point (s : Surf T) (u v : T) : Res (list T) :=
    n <- klast_index (suk s) (sdu s) ;;
    m <- klast_index (svk s) (sdv s) ;;
    su <- find_span (suk s) n (sdu s) u ;;
    sv <- find_span (svk s) m (sdv s) v ;;
    bu <- basis_functions (suk s) su u (sdu s) ;;
    bv <- basis_functions (svk s) sv v (sdv s) ;;
    ui <- usub su (sdu s) ;;
    vi <- usub sv (sdv s) ;;
    surf_combine s ui vi bu bv.

  (** nurbs_surface.rs:135-138 [point_at] *)
  Definition surf_point_at (s : Surf T) (u v : T) : Res (list T) :=
    p <- surf_point s u v ;; unwrap (dehomogenize (sdim s) p).

  (** nurbs_surface.rs:207-232 [point_given_bases_knot_spans] *)
  Definition surf_point_given (s : Surf T) (su sv : nat) (bu bv : list T) : Res (list T) :=
    ui <- usub su (sdu s) ;;
    vi <- usub sv (sdv s) ;;
    surf_combine s ui vi bu bv.

  (** nurbs_surface.rs:174-204 [regular_sample_points] *)
  Definition regular_sample_points (s : Surf T) (divs_u divs_v : nat)
    : Res (list (list (list T))) :=
    '(spans_u, bases_u) <- regularly_spaced_basis_functions (suk s) (sdu s) divs_u ;;
    '(spans_v, bases_v) <- regularly_spaced_basis_functions (svk s) (sdv s) divs_v ;;
    mapM (fun i =>
      mapM (fun j =>
        su <- get spans_u i ;;
        sv <- get spans_v j ;;
        bu <- get bases_u i ;;
        bv <- get bases_v j ;;
        pt <- surf_point_given s su sv bu bv ;;
        unwrap (dehomogenize (sdim s) pt)) (seq 0 (divs_v + 1))) (seq 0 (divs_u + 1)).

  (** ** Derivatives *)

  (** the inner sums of nurbs_surface.rs:452-463: column [j] of the window, order [k] in u *)
  Definition surf_uder (s : Surf T) (ui vi : nat) (bu : list (list T)) (k j : nat) : Res (list T) :=
    for_incl 0 (sdu s) (fun r acc =>
      row <- get (snet s) (ui + r) ;;
      p <- get row (vi + j) ;;
      b <- get2 bu k r ;;
      Ok (vadd acc (vscale p b))) (vzero (sdim s)).

  (** nurbs_surface.rs:425-479 [derivatives] *)
  Definition surf_derivatives (s : Surf T) (u v : T) (derivs : nat) : Res (list (list (list T))) :=
    n <- klast_index (suk s) (sdu s) ;;
    m <- klast_index (svk s) (sdv s) ;;
    let du := if (derivs <? sdu s)%nat then derivs else sdu s in
    let dv := if (derivs <? sdv s)%nat then derivs else sdv s in
    su <- find_span (suk s) n (sdu s) u ;;
    sv <- find_span (svk s) m (sdv s) v ;;
    uders <- derivative_basis_functions (suk s) su u (sdu s) n ;;
    vders <- derivative_basis_functions (svk s) sv v (sdv s) m ;;
    ui <- usub su (sdu s) ;;
    vi <- usub sv (sdv s) ;;
    for_incl 0 du (fun k skl =>
      temp <- mapM (surf_uder s ui vi uders k) (seq 0 (sdv s + 1)) ;;
      nk <- usub derivs k ;;
      let dd := if (nk <? dv)%nat then nk else dv in
      for_incl 0 dd (fun l skl =>
        for_incl 0 (sdv s) (fun j skl =>
          item <- get temp j ;;
          b <- get2 vders l j ;;
          row <- get skl k ;;
          col <- get row l ;;
          row <- set_ row l (vadd col (vscale item b)) ;;
          set_ skl k row) skl) skl)
      (repeat (repeat (vzero (sdim s)) (derivs + 1)) (derivs + 1)).

  (** nurbs_surface.rs:315-361 [derivatives_given_bases_knot_spans]: the table has [dv + 1] rows
      of [du + 1] entries and is indexed [skl[k][l]] with [k <= du] *)
  Definition surf_derivatives_given (s : Surf T) (su sv : nat) (bu bv : list (list T))
             (derivs : nat) : Res (list (list (list T))) :=
    let du := if (derivs <? sdu s)%nat then derivs else sdu s in
    let dv := if (derivs <? sdv s)%nat then derivs else sdv s in
    for_incl 0 du (fun k skl =>
      ui <- usub su (sdu s) ;;
      vi <- usub sv (sdv s) ;;
      temp <- mapM (surf_uder s ui vi bu k) (seq 0 (sdv s + 1)) ;;
      nk <- usub derivs k ;;
      let dd := if (nk <? dv)%nat then nk else dv in
      for_incl 0 dd (fun l skl =>
        v <- for_incl 0 (sdv s) (fun j v =>
               item <- get temp j ;;
               b <- get2 bv l j ;;
               Ok (vadd v (vscale item b))) (vzero (sdim s)) ;;
        row <- get skl k ;;
        row <- set_ row l v ;;
        set_ skl k row) skl)
      (repeat (repeat (vzero (sdim s)) (du + 1)) (dv + 1)).

  (** nurbs_surface.rs:281-312 [regular_sample_derivatives] *)
  Definition regular_sample_derivatives (s : Surf T) (divs_u divs_v derivs : nat)
    : Res (list (list (list (list (list T))))) :=
    '(spans_u, bases_u) <- regularly_spaced_derivative_basis_functions (suk s) (sdu s) divs_u ;;
    '(spans_v, bases_v) <- regularly_spaced_derivative_basis_functions (svk s) (sdv s) divs_v ;;
    mapM (fun i =>
      mapM (fun j =>
        su <- get spans_u i ;;
        sv <- get spans_v j ;;
        bu <- get bases_u i ;;
        bv <- get bases_v j ;;
        surf_derivatives_given s su sv bu bv derivs) (seq 0 (divs_v + 1))) (seq 0 (divs_u + 1)).

  (** nurbs_surface.rs:1045-1066: one entry (k, l) of the rational derivatives *)
  Definition rat_entry (aders : list (list (list T))) (wders : list (list T))
             (skl : list (list (list T))) (row : list (list T)) (k l : nat) (m : @memo T)
    : Res (list T * @memo T) :=
    v <- get2 aders k l ;;
    '(v, m) <- for_incl 1 l (fun j '(v, m) =>
      let '(b, m) := bin_get l j m in
      w <- get2 wders 0 j ;;
      i <- usub l j ;;
      p <- get row i ;;
      Ok (vsub v (vscale p (b * w)), m)) (v, m) ;;
    '(v, m) <- for_incl 1 k (fun i '(v, m) =>
      let '(b, m) := bin_get k i m in
      w <- get2 wders i 0 ;;
      ki <- usub k i ;;
      p <- get2 skl ki l ;;
      let v := vsub v (vscale p (b * w)) in
      '(v2, m) <- for_incl 1 l (fun j '(v2, m) =>
        let '(b, m) := bin_get l j m in
        w <- get2 wders i j ;;
        lj <- usub l j ;;
        p <- get2 skl ki lj ;;
        Ok (vadd v2 (vscale (vscale p b) w), m)) (vzero (length v), m) ;;
      let '(b, m) := bin_get k i m in
      Ok (vsub v (vscale v2 b), m)) (v, m) ;;
    w0 <- get2 wders 0 0 ;;
    Ok (vdivs v w0, m).

  (** nurbs_surface.rs:1014-1075 [rational_derivatives] *)
  Definition surf_rational_of (D : nat) (ders : list (list (list T))) (derivs : nat)
    : Res (list (list (list T))) :=
    let aders := map (map (firstn (D - 1))) ders in
    let wders := map (map (coord (D - 1))) ders in
    '(skl, _) <- for_incl 0 derivs (fun k '(skl, m) =>
      dk <- usub derivs k ;;
      '(row, m) <- for_incl 0 dk (fun l '(row, m) =>
        '(v, m) <- rat_entry aders wders skl row k l m ;;
        Ok (row ++ [v], m)) ([], m) ;;
      Ok (skl ++ [row], m)) ([], []) ;;
    Ok skl.

  (** nurbs_surface.rs:414-422 *)
  Definition surf_rational_derivatives (s : Surf T) (u v : T) (derivs : nat)
    : Res (list (list (list T))) :=
    ders <- surf_derivatives s u v derivs ;;
    surf_rational_of (sdim s) ders derivs.

  (** nurbs_surface.rs:406-411 [normal_at] (3D; nalgebra [cross]) *)
  Definition normal_at (s : Surf T) (u v : T) : Res (list T) :=
    d <- surf_rational_derivatives s u v 1 ;;
    v0 <- get2 d 1 0 ;;
    v1 <- get2 d 0 1 ;;
    Ok (cross3 v0 v1).

  (** nurbs_surface.rs:236-254 [regular_sample_normals] *)
  Definition regular_sample_normals (s : Surf T) (divs_u divs_v : nat)
    : Res (list (list (list T))) :=
    ders <- regular_sample_derivatives s divs_u divs_v 1 ;;
    mapM (mapM (fun d =>
      d <- surf_rational_of (sdim s) d 1 ;;
      v0 <- get2 d 1 0 ;;
      v1 <- get2 d 0 1 ;;
      let c := cross3 v0 v1 in
      Ok (vdivs c (vnorm c)))) ders.

  (** ** nurbs_surface.rs:366-403 [regular_tessellate] *)
  Definition grid_faces (divs_u divs_v : nat) : list (list nat) :=
    flat_map (fun iu =>
      let ioff := (iu * (divs_v + 1))%nat in
      flat_map (fun iv =>
        [ [ioff + iv; ioff + iv + divs_v + 2; ioff + iv + 1];
          [ioff + iv; ioff + iv + divs_v + 1; ioff + iv + divs_v + 2] ]%nat)
        (seq 0 divs_v)) (seq 0 divs_u).

  Definition grid_uvs (u0 du v0 dv : T) (divs_u divs_v : nat) : list (T * T) :=
    flat_map (fun iu =>
      map (fun iv => (u0 + du * sofnat iu, v0 + dv * sofnat iv)) (seq 0 (divs_v + 1)))
      (seq 0 (divs_u + 1)).

  Record Tess := MkTess {
    tpts : list (list T);
    tnormals : list (list T);
    tfaces : list (list nat);
    tuvs : list (T * T)
  }.

  Definition regular_tessellate (s : Surf T) (divs_u divs_v : nat) : Res Tess :=
    points <- regular_sample_points s divs_u divs_v ;;
    normals <- regular_sample_normals s divs_u divs_v ;;
    '(u0, _, du, _) <- regularly_spaced_span (suk s) (sdu s) divs_u ;;
    '(v0, _, dv, _) <- regularly_spaced_span (svk s) (sdv s) divs_v ;;
    Ok (MkTess (concat points) (concat normals) (grid_faces divs_u divs_v)
               (grid_uvs u0 du v0 dv divs_u divs_v)).

  (** ** Construction *)
  (** nurbs_surface.rs:551-594 [plane]; [D] is the homogeneous dimension *)
  Definition plane (D : nat) (center x y : list T) : Surf T :=
    let k := [szero; szero; sone; sone] in
    MkSurf D 1 1 k k
      [ [ to_homogeneous (vsub (vsub center x) y); to_homogeneous (vadd (vsub center x) y) ];
        [ to_homogeneous (vsub (vadd center x) y); to_homogeneous (vadd (vadd center x) y) ] ].

  (** nurbs_surface.rs:597-648 [extrude]; [half] is [T::from_f64(0.5)] *)
  Definition extrude (half : T) (c : Curve T) (tr : list T) : Res (Surf T) :=
    pts <- dehomogenized_control_points c ;;
    let ws := weights c in
    let ht := vscale tr half in
    let row := fun off : list T -> list T =>
      map (fun pw => vscale (off (fst pw)) (snd pw) ++ [snd pw]) (combine pts ws) in
    let k := [szero; szero; szero; sone; sone; sone] in
    Ok (MkSurf (cdim c) 2 (cdeg c) k (cknots c)
          [ row (fun p => vadd p tr); row (fun p => vadd p ht); row (fun p => p) ]).

  (** nurbs_surface.rs:505-531 [flip] *)
  Definition flip_u (s : Surf T) : Res (Surf T) :=
    k <- kinvert (suk s) ;;
    Ok (MkSurf (sdim s) (sdu s) (sdv s) k (svk s) (rev (snet s))).
  Definition flip_v (s : Surf T) : Res (Surf T) :=
    k <- kinvert (svk s) ;;
    Ok (MkSurf (sdim s) (sdu s) (sdv s) (suk s) k (map (@rev _) (snet s))).
  Definition flip (s : Surf T) (d : Flip) : Res (Surf T) :=
    s <- (match d with FlipU | FlipUV => flip_u s | FlipV => Ok s end) ;;
    match d with FlipV | FlipUV => flip_v s | FlipU => Ok s end.

  (** nurbs_surface.rs:1493-1500 [invert] *)
  Definition surf_invert (s : Surf T) : Res (Surf T) :=
    ku <- kinvert (suk s) ;;
    kv <- kinvert (svk s) ;;
    Ok (MkSurf (sdim s) (sdu s) (sdv s) ku kv (rev (map (@rev _) (snet s)))).

  (** nurbs_surface.rs:1453-1473 [transform] *)
  Definition surf_transform (m : list (list T)) (s : Surf T) : Surf T :=
    MkSurf (sdim s) (sdu s) (sdv s) (suk s) (svk s)
      (map (map (transform_point (sdim s) m)) (snet s)).

  (** ** Refinement and iso-parametric curves *)
  (** one row of the loops of nurbs_surface.rs:834-845 and 862-873 *)
  Definition refine_row (D degree : nat) (k xs : list T) (row : list (list T)) : Res (Curve T) :=
    c <- try_new D degree row k ;; try_refine_knot c xs.

  (** nurbs_surface.rs:826-884 [try_refine_knot] *)
  Definition surf_refine (s : Surf T) (xs : list T) (d : UV) : Res (Surf T) :=
    match d with
    | DirU =>
        cols <- transpose (snet s) ;;
        refined <- mapM (refine_row (sdim s) (sdu s) (suk s) xs) cols ;;
        k <- ok_or (option_map cknots (hd_error refined)) "No curves" ;;
        net <- transpose (map cpts refined) ;;
        Ok (MkSurf (sdim s) (sdu s) (sdv s) k (svk s) net)
    | DirV =>
        refined <- mapM (refine_row (sdim s) (sdv s) (svk s) xs) (snet s) ;;
        k <- ok_or (option_map cknots (hd_error refined)) "No curves" ;;
        Ok (MkSurf (sdim s) (sdu s) (sdv s) (suk s) k (map cpts refined))
    end.

  (** nurbs_surface.rs:755-776: how many times to insert [t] *)
  Definition iso_insertions (mult : list (T * nat)) (degree : nat) (t : T) : nat :=
    match find (fun e => sabs (t - fst e) <? seps) mult with
    | Some (_, m) => if (m <=? degree + 1)%nat then (degree + 1 - m)%nat else (degree + 1)%nat
    | None => (degree + 1)%nat
    end.

  (** nurbs_surface.rs:749-811 [try_isocurve] *)
  Definition try_isocurve (s : Surf T) (t : T) (d : UV) : Res (Curve T) :=
    let '(knots, degree) := match d with DirU => (suk s, sdu s) | DirV => (svk s, sdv s) end in
    mult <- multiplicity knots ;;
    let n := iso_insertions mult degree t in
    refined <- (if (0 <? n)%nat then surf_refine s (repeat t n) d else Ok s) ;;
    k0 <- kfirst knots ;;
    k1 <- klast knots ;;
    span <- (if sabs (t - k0) <? seps then Ok 0%nat
             else if sabs (t - k1) <? seps then
               match d with
               | DirU => usub (length (snet refined)) 1
               | DirV => row <- get (snet refined) 0 ;; usub (length row) 1
               end
             else n <- klast_index knots degree ;; find_span knots n degree t) ;;
    match d with
    | DirU =>
        row <- get (snet refined) span ;;
        try_new (sdim s) (sdv refined) row (svk refined)
    | DirV =>
        col <- mapM (fun row => get row span) (snet refined) ;;
        try_new (sdim s) (sdu refined) col (suk refined)
    end.

  (** nurbs_surface.rs:814-823 [try_boundary_curves] *)
  Definition try_boundary_curves (s : Surf T) : Res (list (Curve T)) :=
    '(u0, u1) <- domain (suk s) (sdu s) ;;
    '(v0, v1) <- domain (svk s) (sdv s) ;;
    a <- try_isocurve s u0 DirU ;;
    b <- try_isocurve s v0 DirV ;;
    c <- try_isocurve s u1 DirU ;;
    d <- try_isocurve s v1 DirV ;;
    Ok [a; b; c; d].

  (** split/mod.rs:89-162 [Split::try_split] for [NurbsSurface] *)
  Definition surf_split (s : Surf T) (t : T) (d : UV) : Res (Surf T * Surf T) :=
    '(points, knots, degree) <- (match d with
      | DirU => tr <- transpose (snet s) ;; Ok (tr, suk s, sdu s)
      | DirV => Ok (snet s, svk s, sdv s) end) ;;
    n <- klast_index knots degree ;;
    sp <- find_span knots n degree t ;;
    curves <- mapM (refine_row (sdim s) degree knots (repeat t (degree + 1))) points ;;
    parts <- mapM (fun c =>
      p0 <- slice (cpts c) 0 (sp + 1) ;;
      p1 <- slice (cpts c) (sp + 1) (length (cpts c)) ;;
      Ok (p0, p1)) curves ;;
    let pts0 := map fst parts in
    let pts1 := map snd parts in
    lastc <- ok_or (last (map Some curves) None) "No curves" ;;
    knots0 <- slice (cknots lastc) 0 (sp + degree + 1 + 1) ;;
    knots1 <- slice (cknots lastc) (sp + 1) (length (cknots lastc)) ;;
    match d with
    | DirU =>
        n0 <- transpose pts0 ;;
        n1 <- transpose pts1 ;;
        Ok (MkSurf (sdim s) degree (sdv s) knots0 (svk s) n0,
            MkSurf (sdim s) degree (sdv s) knots1 (svk s) n1)
    | DirV =>
        Ok (MkSurf (sdim s) (sdu s) degree (suk s) knots0 pts0,
            MkSurf (sdim s) (sdu s) degree (suk s) knots1 pts1)
    end.
End Surface.
Arguments Tess T : clear implicits.
