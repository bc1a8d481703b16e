(** * Properties of trimmed surfaces and regions

    Only statements: each theorem is proved elsewhere; its statement is repeated here, followed by
    a concrete case that meets its hypotheses. *)
From Coq Require Import Floats.
From Coq Require Import Reals Lra Lia ZArith List Sorted.
From Verif Require Import Base BaseFacts Scalar RSum BSpline KnotModel KnotSpec KnotFacts KnotMisc VecFacts MiscModel CurveModel CurveSpec CurveProofs CurveGeom CurveGeom2 CurveShapes NewtonProofs
  SurfaceModel SurfaceSpec SurfaceProofs SurfaceShapes BBoxModel CompoundModel MergeModel ClipModel AdaptModel AdaptPoly AdaptTotal AdaptMain SerdeModel IntersectModel TessCurveModel TessCurveProofs PolygonProofs PolygonConnected RevolveTheorems
  TrimModel TrimSpec TrimProofs TrimTheorems TrimUV TrimFull TrimOps TrimDemo TrimCases TrimRefuted TrimRay TrimRayCases Demo.
Import ListNotations.
Local Open Scope R_scope.


Section C32_winding_connected_statement.
  Variables eps maxv : R.
  Local Hint Extern 0 (Scalar R) => exact (ROps eps maxv) : typeclass_instances.

  Theorem C32_winding_connected : forall (vs : list (list R)) c d,
    avoids vs c d -> winding vs c = winding vs d.
  Proof. first [exact (winding_connected eps maxv) | exact (winding_connected eps) | exact winding_connected]. Qed.
End C32_winding_connected_statement.
Section C32_case_connected_section.
  Local Hint Extern 0 (Scalar R) => exact (ROps eps0 maxv0) : typeclass_instances.
  Example C32_case_connected : avoids [[0; 0]; [4; 0]; [0; 4]] [1; 1] [1; 2].
  Proof. intros e x He Hx (s & Hs & S0 & S1). destruct Hx as (r & Hr & R0 & R1). cbn in He. decompose [or] He; try contradiction; subst; unfold rc in *; cbn in *; nra. Qed.
End C32_case_connected_section.
Print Assumptions C32_winding_connected.

Section C32_contains_connected_statement.
  Variables eps maxv : R.
  Local Hint Extern 0 (Scalar R) => exact (ROps eps maxv) : typeclass_instances.

  Theorem C32_contains_connected : forall (vs : list (list R)) c d,
    avoids vs c d -> polygon_contains vs c = polygon_contains vs d.
  Proof. first [exact (contains_connected eps maxv) | exact (contains_connected eps) | exact contains_connected]. Qed.
End C32_contains_connected_statement.
Print Assumptions C32_contains_connected.

Section C74_region_tessellate_spec_statement.
  Variables eps maxv : R.
  Local Hint Extern 0 (Scalar R) => exact (ROps eps maxv) : typeclass_instances.
  Local Notation chosen := (chosen eps maxv).
  Local Notation fills := (fills eps maxv).

  Theorem C74_region_tessellate_spec : forall (D : Delaunay (list R)) wall rng fuel r tol ext ints k k',
    lawful D (fun p => p) wall ->
    tessellate_compound rng fuel (rexterior r) tol 0 = Ok (ext, k) -> tessellate_loops rng fuel (rinteriors r) tol k = Ok (ints, k') ->
    (forall l v, In l (ext :: ints) -> In v l -> length v = 2%nat) ->
    exists m t, region_tessellate D rng fuel r tol = Ok m /\ mverts m = dt_vertices D t /\
    (forall v, In v (mverts m) -> exists l, In l (ext :: ints) /\ In v l) /\
    chosen (fun p => p) (Some ext) ints (dt_faces D t) m /\
    (0 < eps -> loops_accepted D (dt_empty D) (ext :: ints) ->
    (forall l v, In l (ext :: ints) -> In v l -> In v (mverts m)) /\ fills (fun p => p) (Some ext) ints (dt_faces D t) m).
  Proof. first [exact (region_tessellate_spec eps maxv) | exact (region_tessellate_spec eps) | exact region_tessellate_spec]. Qed.
End C74_region_tessellate_spec_statement.
Section C74_case_section.
  Local Hint Extern 0 (Scalar R) => exact (ROps eps0 maxv0) : typeclass_instances.
  Example C74_case : exists ext ints, tessellate_compound (fun _ => 1 / 2) 0 (rexterior holed) None 0 = Ok (ext, 0%nat) /\
    tessellate_loops (fun _ => 1 / 2) 0 (rinteriors holed) None 0 = Ok (ints, 0%nat) /\
    (forall l v, In l (ext :: ints) -> In v l -> length v = 2%nat) /\
    lawful (toy (fun p => p) faces6) (fun p => p) (toy_wall (fun p => p) faces6) /\
    loops_accepted (toy (fun p => p) faces6) (dt_empty (toy (fun p => p) faces6)) (ext :: ints) /\
    length (dt_faces (toy (fun p => p) faces6) (fold_left (insert_loop (toy (fun p => p) faces6)) (ext :: ints) (dt_empty (toy (fun p => p) faces6)))) = 7%nat.
  Proof. exact holed_case. Qed.
End C74_case_section.
Print Assumptions C74_region_tessellate_spec.

Section C75_uv_points_structure_statement.
  Variables eps maxv : R.
  Local Hint Extern 0 (Scalar R) => exact (ROps eps maxv) : typeclass_instances.
  Local Notation trims := (trims eps).

  Theorem C75_uv_points_structure : forall c s tol,
    trims c s ->
    exists fuel0, forall fuel, (fuel0 <= fuel)%nat -> exists pts us, uv_points fuel c s tol = Ok pts /\
    samples c us pts /\ us <> [] /\ StronglySorted Rlt us /\ (forall u, In u us -> dom0 c <= u <= dom1 c) /\
    (cdeg c <> 1%nat -> dom1 c - tmin < last us (dom0 c)).
  Proof. first [exact (uv_points_structure eps maxv) | exact (uv_points_structure eps) | exact uv_points_structure]. Qed.
End C75_uv_points_structure_statement.
Section C75_case_uv_section.
  Local Hint Extern 0 (Scalar R) => exact (ROps eps0 maxv0) : typeclass_instances.
  Example C75_case_uv : trims eps0 drop_uv sheet.
  Proof. exact drop_trims. Qed.
End C75_case_uv_section.
Print Assumptions C75_uv_points_structure.

Section C75_trim_loops_total_statement.
  Variables eps maxv : R.
  Local Hint Extern 0 (Scalar R) => exact (ROps eps maxv) : typeclass_instances.

  Theorem C75_trim_loops_total : forall (ts : Trimmed R) (cons : option (@TrimCons R)) tol,
    (forall c, tr_exterior ts = Some c \/ In c (tr_interiors ts) -> trims eps c (tr_surface ts)) ->
    (forall c, tr_exterior ts = Some c -> params_in c (ext_params cons)) -> Forall2 params_in (tr_interiors ts) (int_params ts cons) ->
    exists fuel0, forall fuel, (fuel0 <= fuel)%nat -> exists ext ints, trim_loops fuel ts cons tol = Ok (ext, ints) /\
    match tr_exterior ts, ext with
    | Some c, Some l => follows (tr_surface ts) c (ext_params cons) l
    | None, None => True
    | _, _ => False
    end /\
    length ints = length (tr_interiors ts) /\
    (forall i c k l, nth_error (tr_interiors ts) i = Some c -> nth_error (int_params ts cons) i = Some k -> nth_error ints i = Some l -> follows (tr_surface ts) c k l).
  Proof. first [exact (trim_loops_total eps maxv) | exact (trim_loops_total eps) | exact trim_loops_total]. Qed.
End C75_trim_loops_total_statement.
Section C75_case_loops_section.
  Local Hint Extern 0 (Scalar R) => exact (ROps eps0 maxv0) : typeclass_instances.
  Example C75_case_loops : (forall c, tr_exterior trimmed_sheet = Some c \/ In c (tr_interiors trimmed_sheet) -> trims eps0 c sheet) /\
    (forall c, tr_exterior trimmed_sheet = Some c -> params_in c (ext_params (Some (MkTrimCons (Some [0; 1 / 3; 1]) [])))) /\
    Forall2 params_in (tr_interiors trimmed_sheet) (int_params trimmed_sheet (Some (MkTrimCons (Some [0; 1 / 3; 1]) []))).
  Proof. split; [intros c [H|[]]; injection H as <-; exact drop_trims|]. split; [|constructor]. intros c H. injection H as <-. intros ts H. injection H as <-.
    unfold dom0, dom1, kf. cbn. repeat (apply Forall_cons; [lra|]). apply Forall_nil. Qed.
End C75_case_loops_section.
Print Assumptions C75_trim_loops_total.

Section C75_trimmed_tessellate_spec_statement.
  Variables eps maxv : R.
  Local Hint Extern 0 (Scalar R) => exact (ROps eps maxv) : typeclass_instances.
  Local Notation Vx := (@Vertex R).

  Theorem C75_trimmed_tessellate_spec : forall (D : Delaunay Vx) wall (ts : Trimmed R) (cons : option (@TrimCons R)) opts,
    let s := tr_surface ts in
    lawful D vx_uv wall ->
    surf_ok s -> surf_eps eps s -> sdim s = 4%nat -> (1 <= sdu s)%nat -> (1 <= sdv s)%nat ->
    simple1 (sdu s) (nrow s - 1) (suk s) -> simple1 (sdv s) (ncol s - 1) (svk s) ->
    (forall c, tr_exterior ts = Some c \/ In c (tr_interiors ts) -> trims eps c s) ->
    (forall c, tr_exterior ts = Some c -> params_in c (ext_params cons)) -> Forall2 params_in (tr_interiors ts) (int_params ts cons) ->
    exists fuel0, forall fuel, (fuel0 <= fuel)%nat -> exists exterior interiors grid,
    trim_loops fuel ts cons (match opts with Some o => ao_tol o | None => 1 / 100 end) = Ok (exterior, interiors) /\
    let loops := match exterior with Some e => e :: interiors | None => interiors end in
    let ext := option_map (map vx_uv) exterior in
    let ints := map (map vx_uv) interiors in
    Forall (on_surface s) grid /\
    ((forall l, In l loops -> closes l) ->
    exists m t, trimmed_tessellate D fuel ts cons opts = Ok m /\
    Forall (on_surface s) (mverts m) /\ chosen eps maxv vx_uv ext ints (dt_faces D t) m /\
    (0 < eps -> loops_accepted D (fst (insert_all D (dt_empty D) grid)) (map loop_vertices loops) ->
    (forall l v, In l loops -> In v l -> (2 <= length l)%nat -> exists w, In w (mverts m) /\ vx_uv w = vx_uv v) /\
    fills eps maxv vx_uv ext ints (dt_faces D t) m)).
  Proof. first [exact (trimmed_tessellate_spec eps maxv) | exact (trimmed_tessellate_spec eps) | exact trimmed_tessellate_spec]. Qed.
End C75_trimmed_tessellate_spec_statement.
Section C75_case_section.
  Local Hint Extern 0 (Scalar R) => exact (ROps eps0 maxv0) : typeclass_instances.
  Example C75_case : (exists wall, lawful (toy (@vx_uv R) no_faces) (@vx_uv R) wall) /\ (forall t loops, loops_accepted (toy (@vx_uv R) no_faces) t loops) /\
    surf_ok sheet /\ surf_eps eps0 sheet /\ sdim sheet = 4%nat /\ simple1 (sdu sheet) (nrow sheet - 1) (suk sheet) /\ simple1 (sdv sheet) (ncol sheet - 1) (svk sheet) /\
    (forall c, tr_exterior trimmed_sheet = Some c \/ In c (tr_interiors trimmed_sheet) -> trims eps0 c sheet).
  Proof. split; [exists (toy_wall vx_uv no_faces); apply empty_lawful|]. split; [intros t loops; apply empty_accepts|]. split; [exact sheet_ok|]. split; [exact sheet_eps|]. split; [reflexivity|].
    split; [apply sheet_simple|]. split; [apply sheet_simple|]. intros c [H|[]]. injection H as <-. exact drop_trims. Qed.
End C75_case_section.
Print Assumptions C75_trimmed_tessellate_spec.

Section C75_trim_seam_refuted_statement.
  Local Existing Instance FOps.
  Local Open Scope float_scope.
  Local Notation V := (@Vertex float).
  Theorem C75_trim_seam_refuted : exists (D : Delaunay V) (ts : Trimmed float) l v m,
    (forall t x, In x (dt_vertices D (fst (dt_insert D t x)))) /\ (forall t a b, dt_vertices D (dt_add D t a b) = dt_vertices D t) /\
    trim_loops 30 ts None (slit 1 100) = Ok (Some l, []) /\ In v l /\ trimmed_tessellate D 30 ts None None = Ok m /\
    forall w, In w (mverts m) -> feqb (vx_uv w) (vx_uv v) = false.
  Proof. exact trim_seam_refuted. Qed.
End C75_trim_seam_refuted_statement.
Print Assumptions C75_trim_seam_refuted.

Section C75_trim_normals_refuted_statement.
  Local Existing Instance FOps.
  Local Open Scope float_scope.
  Local Notation V := (@Vertex float).
  Theorem C75_trim_normals_refuted : exists (D : Delaunay V) (ts : Trimmed float) v w m,
    trimmed_tessellate D 30 ts None None = Ok m /\ In v (mverts m) /\ In w (mverts m) /\ vnorm (vx_normal v) = 1 /\ vnorm (vx_normal w) = 2.
  Proof. exact trim_normals_refuted. Qed.
End C75_trim_normals_refuted_statement.
Print Assumptions C75_trim_normals_refuted.

Section C76_flat_trim_statement.
  Variables eps maxv : R.
  Local Hint Extern 0 (Scalar R) => exact (ROps eps maxv) : typeclass_instances.

  Theorem C76_flat_trim : forall (closest : list R -> Res (R * R)) c s o a b d,
    surf_ok s -> surf_eps eps s -> spos s -> sdim s = 4%nat -> flat s o a b ->
    curve_ok c -> curve_eps eps c -> pos_weights c -> cdim c = 4%nat ->
    (forall j, (j < length (cpts c))%nat -> exists u v r, closest (ctrl c j) = Ok (u, v) /\ in_dom s u v /\
    forall i, (i < 3)%nat -> snurbs s i u v = rc i (ctrl c j) + r * rc i d) ->
    exists c2, map_curve closest c = Ok c2 /\ curve_ok c2 /\ knots_domain c2 = knots_domain c /\
    forall t, dom0 c <= t <= dom1 c -> exists p q x r, point_at c t = Ok p /\ point_at c2 t = Ok q /\ length q = 2%nat /\
    in_dom s (rc 0 q) (rc 1 q) /\ surf_point_at s (rc 0 q) (rc 1 q) = Ok x /\ forall i, (i < 3)%nat -> rc i x = rc i p + r * rc i d.
  Proof. first [exact (flat_trim eps maxv) | exact (flat_trim eps) | exact flat_trim]. Qed.
End C76_flat_trim_statement.
Section C76_case_flat_section.
  Local Hint Extern 0 (Scalar R) => exact (ROps eps0 maxv0) : typeclass_instances.
  Example C76_case_flat : flat sheet [0; 0; 0] [1; 0; 0] [0; 1; 0] /\ spos sheet /\ space_curve eps0 arc_on /\
    forall j, (j < length (cpts arc_on))%nat -> exists u v r, (fun p => Ok (rc 0 p, rc 1 p)) (ctrl arc_on j) = Ok (u, v) /\ in_dom sheet u v /\
      forall i, (i < 3)%nat -> snurbs sheet i u v = rc i (ctrl arc_on j) + r * rc i [0; 0; 1].
  Proof. split; [exact sheet_flat|]. split; [exact sheet_pos|]. split; [exact arc_on_ok|]. exact arc_on_maps. Qed.
End C76_case_flat_section.
Print Assumptions C76_flat_trim.

Section C76_map_closest_flat_statement.
  Variables eps maxv : R.
  Local Hint Extern 0 (Scalar R) => exact (ROps eps maxv) : typeclass_instances.
  Local Notation patch := (patch eps).
  Local Notation space_curve := (space_curve eps).
  Local Notation traces_exactly := (traces_exactly eps maxv).

  Theorem C76_map_closest_flat : forall solve2 s exterior interiors o a b,
    patch s -> flat s o a b ->
    (exterior <> None \/ interiors <> []) ->
    (forall c, exterior = Some c \/ In c interiors -> space_curve c /\
    forall j, (j < length (cpts c))%nat -> exists u v, surf_closest solve2 s (ctrl c j) = Ok (u, v) /\ in_dom s u v /\
    forall i, (i < 3)%nat -> snurbs s i u v = rc i (ctrl c j)) ->
    exists t, try_map_closest_point solve2 s exterior interiors = Ok t /\ tr_surface t = s /\
    match exterior, tr_exterior t with Some c, Some c2 => traces_exactly s c c2 | None, None => True | _, _ => False end /\
    Forall2 (traces_exactly s) interiors (tr_interiors t).
  Proof. first [exact (map_closest_flat eps maxv) | exact (map_closest_flat eps) | exact map_closest_flat]. Qed.
End C76_map_closest_flat_statement.
(** the trimming by closest points runs in floating point and is exact on a sheet *)
Example C76_case_run : @try_map_closest_point PrimFloat.float FOps cramer sheetf (Some spacef) [] =
  Ok (MkTrimmed sheetf (Some (MkCurve 3 2 [[0.25; 0.25; 1]; [1; 0.5; 2]; [0.25; 0.75; 1]] [0; 0; 0; 1; 1; 1])) [])%float.
Proof. exact map_closest_run. Qed.
Print Assumptions C76_map_closest_flat.

Section C76_projection_flat_statement.
  Variables eps maxv : R.
  Local Hint Extern 0 (Scalar R) => exact (ROps eps maxv) : typeclass_instances.
  Local Notation patch := (patch eps).
  Local Notation space_curve := (space_curve eps).
  Local Notation traces := (traces eps maxv).

  Theorem C76_projection_flat : forall hits s d exterior interiors o a b,
    patch s -> flat s o a b -> sound_hits (hits s) s ->
    length d = 3%nat -> (exists i, (i < 3)%nat /\ rc i d <> 0) -> (exterior <> None \/ interiors <> []) ->
    (forall c, exterior = Some c \/ In c interiors -> space_curve c /\ exists len, ray_length s c d = Ok len /\ 0 <= len /\
    forall j ray, (j < length (cpts c))%nat -> polyline 4 [vsub (ctrl c j) (vscale d sone); vadd (vadd (ctrl c j) (vscale d sone)) (vscale d len)] true = Ok ray ->
    exists l, hits s ray = Ok l /\ l <> []) ->
    exists t, try_projection hits s d exterior interiors = Ok t /\ tr_surface t = s /\
    match exterior, tr_exterior t with Some c, Some c2 => traces s c c2 d | None, None => True | _, _ => False end /\
    Forall2 (fun c c2 => traces s c c2 d) interiors (tr_interiors t).
  Proof. first [exact (projection_flat eps maxv) | exact (projection_flat eps) | exact projection_flat]. Qed.
End C76_projection_flat_statement.
Section C76_case_projection_section.
  Local Hint Extern 0 (Scalar R) => exact (ROps eps0 maxv0) : typeclass_instances.
  Example C76_case_projection : patch eps0 sheet /\ sound_hits down sheet /\ (exists i, (i < 3)%nat /\ rc i [0; 0; -1] <> 0) /\
    exists len, ray_length sheet arc_up [0; 0; -1] = Ok len /\ 0 <= len /\ space_curve eps0 arc_up /\
    forall j ray, (j < length (cpts arc_up))%nat -> polyline 4 [vsub (ctrl arc_up j) (vscale [0; 0; -1] sone); vadd (vadd (ctrl arc_up j) (vscale [0; 0; -1] sone)) (vscale [0; 0; -1] len)] true = Ok ray ->
      exists l, down ray = Ok l /\ l <> [].
  Proof. exact down_case. Qed.
End C76_case_projection_section.
Print Assumptions C76_projection_flat.

Section C76_projection_reaches_statement.
  Variables eps maxv : R.
  Local Hint Extern 0 (Scalar R) => exact (ROps eps maxv) : typeclass_instances.

  Theorem C76_projection_reaches : forall s c d j u v r len ray,
    patch eps s -> space_curve eps c -> length d = 3%nat -> one_sign d -> 1 <= vnorm2 d ->
    in_dom s u v -> (j < length (cpts c))%nat -> -1 <= r -> (forall i, (i < 3)%nat -> snurbs s i u v = rc i (ctrl c j) + r * rc i d) ->
    ray_length s c d = Ok len ->
    polyline 4 [vsub (ctrl c j) (vscale d sone); vadd (vadd (ctrl c j) (vscale d sone)) (vscale d len)] true = Ok ray ->
    exists t, dom0 ray <= t <= dom1 ray /\ forall i, (i < 3)%nat -> snurbs s i u v = nurbs ray i t.
  Proof. first [exact (projection_reaches eps maxv) | exact (projection_reaches eps) | exact projection_reaches]. Qed.
End C76_projection_reaches_statement.
Section C76_case_reach_section.
  Local Hint Extern 0 (Scalar R) => exact (ROps eps0 maxv0) : typeclass_instances.
  Example C76_case_reach : patch eps0 sheet /\ space_curve eps0 arc_up /\ one_sign [0; 0; -1] /\ 1 <= vnorm2 [0; 0; -1] /\ (exists len, ray_length sheet arc_up [0; 0; -1] = Ok len) /\
    (0 < length (cpts arc_up))%nat /\ in_dom sheet (1 / 4) (1 / 4) /\ forall i, (i < 3)%nat -> snurbs sheet i (1 / 4) (1 / 4) = rc i (ctrl arc_up 0) + 1 * rc i [0; 0; -1].
  Proof. destruct down_case as (A & _ & _ & len & L & _ & C & _). split; [exact A|]. split; [exact C|]. split; [right; intros [|[|[|]]] Hi; unfold rc; [cbn; lra..|lia]|].
    split; [unfold vnorm2, vdot, map2; cbn; lra|]. split; [exists len; exact L|]. split; [cbn; lia|].
    assert (D : in_dom sheet (1 / 4) (1 / 4)) by (unfold in_dom, u0, u1, v0, v1, kf; cbn; lra). split; [exact D|].
    intros i Hi. rewrite (sheet_flat _ _ i D Hi). unfold ctrl, cpc, rc. destruct i as [|[|[|]]]; [cbn; lra..|lia]. Qed.
End C76_case_reach_section.
Print Assumptions C76_projection_reaches.

Section C76_projection_short_refuted_statement.
  Local Hint Extern 0 (Scalar R) => exact (ROps eps0 maxv0) : typeclass_instances.
  Theorem C76_projection_short_refuted : exists s c d, patch eps0 s /\ space_curve eps0 c /\ vnorm2 d = 1 /\
    (forall j, (j < length (cpts c))%nat -> exists u v r, in_dom s u v /\ 0 <= r /\ forall i, (i < 3)%nat -> snurbs s i u v = rc i (ctrl c j) + r * rc i d) /\
    (forall hits, sound_hits (hits s) s -> ~ is_ok (try_projection hits s d (Some c) [])).
  Proof. exact projection_short_refuted. Qed.
End C76_projection_short_refuted_statement.
Print Assumptions C76_projection_short_refuted.

Section C76_nearest_hit_spec_statement.
  Variables eps maxv : R.
  Local Hint Extern 0 (Scalar R) => exact (ROps eps maxv) : typeclass_instances.

  Theorem C76_nearest_hit_spec : forall (p : list R) (l : list SHit),
    l <> [] -> exists h, nearest_hit p l = Some h /\ In h l /\
    forall h', In h' l -> vnorm2 (vsub p (sh_p h)) <= vnorm2 (vsub p (sh_p h')).
  Proof. first [exact (nearest_hit_spec eps maxv) | exact (nearest_hit_spec eps) | exact nearest_hit_spec]. Qed.
End C76_nearest_hit_spec_statement.
Print Assumptions C76_nearest_hit_spec.

Section C76_no_trimming_curves_statement.
  Variables eps maxv : R.
  Local Hint Extern 0 (Scalar R) => exact (ROps eps maxv) : typeclass_instances.

  Theorem C76_no_trimming_curves : forall solve2 hits (s : Surf R) d,
    errs (try_map_closest_point solve2 s None []) /\ errs (try_projection hits s d None []).
  Proof. first [exact (no_trimming_curves eps maxv) | exact (no_trimming_curves eps) | exact no_trimming_curves]. Qed.
End C76_no_trimming_curves_statement.
Print Assumptions C76_no_trimming_curves.

Section C76_transform_boundary_statement.
  Variables eps maxv : R.
  Local Hint Extern 0 (Scalar R) => exact (ROps eps maxv) : typeclass_instances.

  Theorem C76_transform_boundary : forall (ts : Trimmed R) m c t q p,
    let s := tr_surface ts in
    surf_ok s -> surf_eps eps s -> affine_matrix (sdim s) m ->
    (forall a b, (a < nrow s)%nat -> (b < ncol s)%nat -> spc s (sdim s - 1) a b <> 0) ->
    (tr_exterior ts = Some c \/ In c (tr_interiors ts)) ->
    point_at c t = Ok q -> in_dom s (rc 0 q) (rc 1 q) -> surf_point_at s (rc 0 q) (rc 1 q) = Ok p ->
    let ts' := trimmed_transform m ts in
    (tr_exterior ts' = Some c \/ In c (tr_interiors ts')) /\ length (tr_interiors ts') = length (tr_interiors ts) /\
    surf_point_at (tr_surface ts') (rc 0 q) (rc 1 q) = Ok (apply_affine (sdim s) m p).
  Proof. first [exact (transform_boundary eps maxv) | exact (transform_boundary eps) | exact transform_boundary]. Qed.
End C76_transform_boundary_statement.
Section C76_case_transform_section.
  Local Hint Extern 0 (Scalar R) => exact (ROps eps0 maxv0) : typeclass_instances.
  Example C76_case_transform : affine_matrix (sdim sheet) [[1; 0; 0; 5]; [0; 1; 0; 0]; [0; 0; 1; 0]; [0; 0; 0; 1]] /\ tr_exterior trimmed_sheet = Some drop_uv /\ (exists q, point_at drop_uv (1 / 2) = Ok q /\ in_dom sheet (rc 0 q) (rc 1 q)).
  Proof. split; [exact move_affine|]. split; [reflexivity|]. exact drop_mid. Qed.
End C76_case_transform_section.
Print Assumptions C76_transform_boundary.

Section C76_invert_boundary_statement.
  Variables eps maxv : R.
  Local Hint Extern 0 (Scalar R) => exact (ROps eps maxv) : typeclass_instances.

  Theorem C76_invert_boundary : forall (ts : Trimmed R) c t q,
    let s := tr_surface ts in
    surf_ok s -> surf_eps eps s -> ucont s -> vcont s ->
    (forall c, tr_exterior ts = Some c \/ In c (tr_interiors ts) -> curve_ok c /\ curve_eps eps c /\ curve_cont c) ->
    tr_exterior ts = Some c -> dom0 c <= t <= dom1 c -> point_at c t = Ok q ->
    exists ts' c', trimmed_invert ts = Ok ts' /\ tr_exterior ts' = Some c' /\ length (tr_interiors ts') = length (tr_interiors ts) /\
    point_at c' (mirror_c c - t) = Ok q /\
    (in_dom s (umirror s - rc 0 q) (vmirror s - rc 1 q) ->
    surf_point_at (tr_surface ts') (rc 0 q) (rc 1 q) = surf_point_at s (umirror s - rc 0 q) (vmirror s - rc 1 q)).
  Proof. first [exact (invert_boundary eps maxv) | exact (invert_boundary eps) | exact invert_boundary]. Qed.
End C76_invert_boundary_statement.
Section C76_case_invert_section.
  Local Hint Extern 0 (Scalar R) => exact (ROps eps0 maxv0) : typeclass_instances.
  Example C76_case_invert : ucont sheet /\ vcont sheet /\ curve_ok drop_uv /\ curve_eps eps0 drop_uv /\ curve_cont drop_uv.
  Proof. destruct drop_ok as (A & B & _ & C). split; [apply sheet_cont|]. split; [apply sheet_cont|]. auto. Qed.
End C76_case_invert_section.
Print Assumptions C76_invert_boundary.

Section C76_trimmed_invert_moves_refuted_statement.
  Local Hint Extern 0 (Scalar R) => exact (ROps eps0 maxv0) : typeclass_instances.
  Theorem C76_trimmed_invert_moves_refuted : exists (ts ts' : Trimmed R) c c' t q p,
    surf_ok (tr_surface ts) /\ tr_exterior ts = Some c /\ curve_ok c /\
    trimmed_invert ts = Ok ts' /\ tr_exterior ts' = Some c' /\ point_at c' t = Ok q /\ surf_point_at (tr_surface ts') (rc 0 q) (rc 1 q) = Ok p /\ rc 0 p = 7 / 8 /\
    forall t' q' p', dom0 c <= t' <= dom1 c -> point_at c t' = Ok q' -> surf_point_at (tr_surface ts) (rc 0 q') (rc 1 q') = Ok p' -> rc 0 p' <= 1 / 2.
  Proof. exact trimmed_invert_moves_refuted. Qed.
End C76_trimmed_invert_moves_refuted_statement.
Print Assumptions C76_trimmed_invert_moves_refuted.

Section C76_map_uneven_refuted_statement.
  Local Existing Instance FOps.
  Local Open Scope float_scope.
  Theorem C76_map_uneven_refuted : exists solve2 ts c2 q,
    try_map_closest_point solve2 uneven (Some diagonal) [] = Ok ts /\ tr_exterior ts = Some c2 /\
    point_at diagonal 0 = Ok [0; 0; 0] /\ point_at diagonal 0.5 = Ok [0.5; 0.5; 0] /\ point_at diagonal 1 = Ok [1; 1; 0] /\
    point_at c2 0.5 = Ok q /\ surf_point_at uneven (coord 0 q) (coord 1 q) = Ok [0.375; 0.5; 0].
  Proof. exact map_uneven_refuted. Qed.
End C76_map_uneven_refuted_statement.
Print Assumptions C76_map_uneven_refuted.
