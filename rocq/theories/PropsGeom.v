(** * Properties of the geometric helpers and bounding boxes

    Only statements: each theorem is proved elsewhere; its statement is repeated here, followed by
    a concrete case that meets its hypotheses. *)
From Coq Require Import Reals Lra Lia Psatz ZArith.
From Verif Require Import Base BaseFacts Scalar RSum KnotModel KnotSpec KnotFacts VecFacts MiscModel
  CurveModel CurveSpec CurveProofs CurveGeom BBoxModel BBoxProofs MiscProofs PolygonProofs Demo.
Open Scope R_scope.

(** a unit square and a unit ray pair for the examples *)
Definition square : list (list R) := [[0; 0]; [1; 0]; [1; 1]; [0; 1]].

Section C05_bb_curve_contains_statement.
  Variables eps maxv : R.
  Local Hint Extern 0 (Scalar R) => exact (ROps eps maxv) : typeclass_instances.
  Theorem C05_bb_curve_contains : forall c u,
    curve_ok c -> curve_eps eps c -> pos_weights c -> dom0 c <= u <= dom1 c ->
    Forall (fun q => bounded maxv (cdim c - 1) (map (fun x => x / rc (cdim c - 1) q) q)) (cpts c) ->
    exists b p, bb_of_curve c = Ok b /\ point_at c u = Ok p /\ bb_contains (cdim c - 1) b p = true.
  Proof. first [exact (bb_curve_contains eps maxv) | exact (bb_curve_contains eps) | exact bb_curve_contains | exact (bb_curve_contains maxv)]. Qed.
End C05_bb_curve_contains_statement.
Example C05_box_case : curve_ok demo /\ curve_eps eps0 demo /\ pos_weights demo /\ Forall (fun q => bounded maxv0 (cdim demo - 1) (map (fun x => x / rc (cdim demo - 1) q) q)) (cpts demo).
Proof. split; [exact demo_ok|]. split; [exact demo_eps|]. split; [exact demo_pos|]. apply Forall_forall. intros q Hq. cbn in Hq. repeat (destruct Hq as [<-|Hq]; [intros [|[|i]] Hi; try (cbn in Hi; lia); unfold rc, maxv0; cbn; lra|]). destruct Hq. Qed.
Print Assumptions C05_bb_curve_contains.

Section C28_bin_get_history_statement.
  Variables eps maxv : R.
  Local Hint Extern 0 (Scalar R) => exact (ROps eps maxv) : typeclass_instances.
  Local Notation run_queries := (run_queries eps maxv).
  Theorem C28_bin_get_history : forall qs n k,
    fst (bin_get n k (run_queries qs)) = INR (pascal n k).
  Proof. first [exact (bin_get_history eps maxv) | exact (bin_get_history eps) | exact bin_get_history | exact (bin_get_history maxv)]. Qed.
End C28_bin_get_history_statement.
Example C28_case : fst (@bin_get R (ROps eps0 maxv0) 5 2 (run_queries eps0 maxv0 [(4, 2); (7, 3); (2, 5)]%nat)) = 10.
Proof. rewrite C28_bin_get_history. cbn. lra. Qed.
Print Assumptions C28_bin_get_history.

Section C28_bin_get_spec_statement.
  Variables eps maxv : R.
  Local Hint Extern 0 (Scalar R) => exact (ROps eps maxv) : typeclass_instances.
  Local Notation run_queries := (run_queries eps maxv).
  Theorem C28_bin_get_spec : forall n k (m : list (nat * nat * R)),
    memo_ok m ->
    fst (bin_get n k m) = INR (pascal n k) /\ memo_ok (snd (bin_get n k m)).
  Proof. first [exact (bin_get_spec eps maxv) | exact (bin_get_spec eps) | exact bin_get_spec | exact (bin_get_spec maxv)]. Qed.
End C28_bin_get_spec_statement.
Example C28_case_table : memo_ok [(4%nat, 2%nat, 6)].
Proof. repeat constructor. cbn. lra. Qed.
Print Assumptions C28_bin_get_spec.

Section C28_binomial_fn_spec_statement.
  Variables eps maxv : R.
  Local Hint Extern 0 (Scalar R) => exact (ROps eps maxv) : typeclass_instances.
  Local Notation run_queries := (run_queries eps maxv).
  Theorem C28_binomial_fn_spec : forall n k,
    binomial_fn n k = INR (pascal n k).
  Proof. first [exact (binomial_fn_spec eps maxv) | exact (binomial_fn_spec eps) | exact binomial_fn_spec | exact (binomial_fn_spec maxv)]. Qed.
End C28_binomial_fn_spec_statement.
Print Assumptions C28_binomial_fn_spec.

Section C29_segment_closest_optimal_statement.
  Variables eps maxv : R.
  Local Hint Extern 0 (Scalar R) => exact (ROps eps maxv) : typeclass_instances.
  Local Notation run_queries := (run_queries eps maxv).
  Theorem C29_segment_closest_optimal : forall pt a b u0 u1,
    0 < eps -> length a = length pt -> length b = length pt -> eps <= sqrt (dist2 b a) ->
    exists s, 0 <= s <= 1 /\
    segment_closest_point pt a b u0 u1 = (u0 + (u1 - u0) * s, seg_at a b s) /\
    forall s', 0 <= s' <= 1 -> dist2 pt (seg_at a b s) <= dist2 pt (seg_at a b s').
  Proof. first [exact (segment_closest_optimal eps maxv) | exact (segment_closest_optimal eps) | exact segment_closest_optimal | exact (segment_closest_optimal maxv)]. Qed.
End C29_segment_closest_optimal_statement.
Example C29_case : 0 < eps0 /\ eps0 <= sqrt (dist2 [2; 0] [0; 0]).
Proof. unfold eps0, dist2, rc. cbn. split; [lra|]. replace (0 + (2 - 0) * (2 - 0) + (0 - 0) * (0 - 0)) with (2 * 2) by lra. rewrite sqrt_square by lra. lra. Qed.
Print Assumptions C29_segment_closest_optimal.

Section C29_segment_closest_short_statement.
  Variables eps maxv : R.
  Local Hint Extern 0 (Scalar R) => exact (ROps eps maxv) : typeclass_instances.
  Local Notation run_queries := (run_queries eps maxv).
  Theorem C29_segment_closest_short : forall (pt a b : list R) u0 u1,
    length b = length a -> sqrt (dist2 b a) < eps -> segment_closest_point pt a b u0 u1 = (u0, a).
  Proof. first [exact (segment_closest_short eps maxv) | exact (segment_closest_short eps) | exact segment_closest_short | exact (segment_closest_short maxv)]. Qed.
End C29_segment_closest_short_statement.
Example C29_case_short : sqrt (dist2 [1; 1] [1; 1]) < eps0.
Proof. unfold eps0, dist2, rc. cbn. replace (0 + (1 - 1) * (1 - 1) + (1 - 1) * (1 - 1)) with 0 by lra. rewrite sqrt_0. lra. Qed.
Print Assumptions C29_segment_closest_short.

Section C30_ray_intersection_closest_statement.
  Variables eps maxv : R.
  Local Hint Extern 0 (Scalar R) => exact (ROps eps maxv) : typeclass_instances.
  Local Notation run_queries := (run_queries eps maxv).
  Theorem C30_ray_intersection_closest : forall D a b,
    0 < eps -> ray_wf D a -> ray_wf D b ->
    match ray_intersection a b with
    | Some ((p, t), (q, w)) =>
    p = ray_at a t /\ q = ray_at b w /\
    (forall t' w', dist2 p q <= dist2 (ray_at a t') (ray_at b w')) /\
    ((exists t' w', ray_at a t' = ray_at b w') -> p = q)
    | None =>
    let dd x y := rsum D (fun i => rc i x * rc i y) in
    Rabs (dd (ray_d a) (ray_d a) * dd (ray_d b) (ray_d b) - dd (ray_d a) (ray_d b) * dd (ray_d a) (ray_d b)) < eps
    end.
  Proof. first [exact (ray_intersection_closest eps maxv) | exact (ray_intersection_closest eps) | exact ray_intersection_closest | exact (ray_intersection_closest maxv)]. Qed.
End C30_ray_intersection_closest_statement.
Example C30_case : ray_wf 2 (MkRay [0; 0] [1; 0]) /\ ray_wf 2 (MkRay [1; 5] [1; 1]) /\ exists t w, ray_at (MkRay [0; 0] [1; 0]) t = ray_at (MkRay [1; 5] [1; 1]) w.
Proof. split; [split; reflexivity|]. split; [split; reflexivity|]. exists (-4), (-5). unfold ray_at, rc. cbn. f_equal; [lra|f_equal; lra]. Qed.
Print Assumptions C30_ray_intersection_closest.

Theorem C31_transpose_spec : forall {A} (d : A) r c g,
    (1 <= r)%nat -> rect r c g ->
    exists t, transpose g = Ok t /\ rect c r t /\
    forall i j, (i < r)%nat -> (j < c)%nat -> nth i (nth j t []) d = nth j (nth i g []) d.
Proof. exact (@transpose_spec). Qed.
Example C31_case : rect 2 3 [[1; 2; 3]; [4; 5; 6]]%nat.
Proof. split; [reflexivity|repeat constructor]. Qed.
Print Assumptions C31_transpose_spec.

Theorem C31_transpose_involutive : forall {A} (g : list (list A)) r c,
    (1 <= r)%nat -> (1 <= c)%nat -> rect r c g ->
    exists t, transpose g = Ok t /\ transpose t = Ok g.
Proof. exact (@transpose_involutive). Qed.
Print Assumptions C31_transpose_involutive.

Theorem C31_transpose_empty : forall {A},
    panics (transpose (@nil (list A))).
Proof. exact (@transpose_empty). Qed.
Print Assumptions C31_transpose_empty.

Section C32_winding_crossings_statement.
  Variables eps maxv : R.
  Local Hint Extern 0 (Scalar R) => exact (ROps eps maxv) : typeclass_instances.
  Theorem C32_winding_crossings : forall (vs : list (list R)) c,
    exists f, (forall e, (f e = 1%Z <-> crosses_up c (fst e) (snd e)) /\
    (f e = (-1)%Z <-> crosses_down c (fst e) (snd e)) /\
    (f e = 1%Z \/ f e = (-1)%Z \/ f e = 0%Z)) /\
    winding vs c = fold_right (fun e s => (f e + s)%Z) 0%Z (edges vs).
  Proof. first [exact (winding_crossings eps maxv) | exact (winding_crossings eps) | exact winding_crossings | exact (winding_crossings maxv)]. Qed.
End C32_winding_crossings_statement.
Example C32_case_crossing : crosses_up [1 / 2; 1 / 2] [1; 0] [1; 1].
Proof. unfold crosses_up, on_ray, rc. cbn. split; [lra|]. exists (1 / 2). lra. Qed.
Print Assumptions C32_winding_crossings.

Section C32_contains_inside_statement.
  Variables eps maxv : R.
  Local Hint Extern 0 (Scalar R) => exact (ROps eps maxv) : typeclass_instances.
  Theorem C32_contains_inside : forall (vs : list (list R)) c,
    vs <> [] ->
    (forall e, In e (edges vs) -> 0 < turn c (fst e) (snd e)) \/
    (forall e, In e (edges vs) -> turn c (fst e) (snd e) < 0) ->
    polygon_contains vs c = true.
  Proof. first [exact (contains_inside eps maxv) | exact (contains_inside eps) | exact contains_inside | exact (contains_inside maxv)]. Qed.
End C32_contains_inside_statement.
Example C32_case_inside : forall e, In e (edges square) -> 0 < turn [1 / 2; 1 / 2] (fst e) (snd e).
Proof. intros e H. cbn in H. repeat (destruct H as [<-|H]; [unfold turn, rc; cbn; lra|]). destruct H. Qed.
Print Assumptions C32_contains_inside.

Section C32_contains_outside_statement.
  Variables eps maxv : R.
  Local Hint Extern 0 (Scalar R) => exact (ROps eps maxv) : typeclass_instances.
  Theorem C32_contains_outside : forall (vs : list (list R)) c nx ny,
    (forall p, In p vs -> 0 < nx * (rc 0 p - rc 0 c) + ny * (rc 1 p - rc 1 c)) ->
    polygon_contains vs c = false.
  Proof. first [exact (contains_outside eps maxv) | exact (contains_outside eps) | exact contains_outside | exact (contains_outside maxv)]. Qed.
End C32_contains_outside_statement.
Example C32_case_outside : forall p, In p square -> 0 < 1 * (rc 0 p - rc 0 [-1; 1 / 2]) + 0 * (rc 1 p - rc 1 [-1; 1 / 2]).
Proof. intros e H. cbn in H. repeat (destruct H as [<-|H]; [unfold rc; cbn; lra|]). destruct H. Qed.
Print Assumptions C32_contains_outside.

Section C32_contains_convex_statement.
  Variables eps maxv : R.
  Local Hint Extern 0 (Scalar R) => exact (ROps eps maxv) : typeclass_instances.
  Theorem C32_contains_convex : forall (vs : list (list R)) c,
    vs <> [] ->
    (forall e p, In e (edges vs) -> In p vs -> 0 <= turn p (fst e) (snd e)) ->
    ((forall e, In e (edges vs) -> 0 < turn c (fst e) (snd e)) -> polygon_contains vs c = true) /\
    ((exists e, In e (edges vs) /\ turn c (fst e) (snd e) < 0) -> polygon_contains vs c = false).
  Proof. first [exact (contains_convex eps maxv) | exact (contains_convex eps) | exact contains_convex | exact (contains_convex maxv)]. Qed.
End C32_contains_convex_statement.
Example C32_case_convex : forall e p, In e (edges square) -> In p square -> 0 <= turn p (fst e) (snd e).
Proof. intros e p H G. cbn in H, G. repeat (destruct H as [<-|H]; [repeat (destruct G as [<-|G]; [unfold turn, rc; cbn; lra|]); destruct G|]). destruct H. Qed.
Print Assumptions C32_contains_convex.

Section C32_contains_rotate_statement.
  Variables eps maxv : R.
  Local Hint Extern 0 (Scalar R) => exact (ROps eps maxv) : typeclass_instances.
  Theorem C32_contains_rotate : forall (c : list R) l1 l2,
    polygon_contains (l1 ++ l2) c = polygon_contains (l2 ++ l1) c.
  Proof. first [exact (contains_rotate eps maxv) | exact (contains_rotate eps) | exact contains_rotate | exact (contains_rotate maxv)]. Qed.
End C32_contains_rotate_statement.
Print Assumptions C32_contains_rotate.

Section C32_contains_rev_statement.
  Variables eps maxv : R.
  Local Hint Extern 0 (Scalar R) => exact (ROps eps maxv) : typeclass_instances.
  Theorem C32_contains_rev : forall (vs : list (list R)) c,
    polygon_contains (rev vs) c = polygon_contains vs c.
  Proof. first [exact (contains_rev eps maxv) | exact (contains_rev eps) | exact contains_rev | exact (contains_rev maxv)]. Qed.
End C32_contains_rev_statement.
Print Assumptions C32_contains_rev.

Section C32_contains_translate_statement.
  Variables eps maxv : R.
  Local Hint Extern 0 (Scalar R) => exact (ROps eps maxv) : typeclass_instances.
  Theorem C32_contains_translate : forall (vs : list (list R)) c v,
    (forall p, In p (c :: vs) -> length p = length v) -> (2 <= length v)%nat ->
    polygon_contains (map (fun p => vadd p v) vs) (vadd c v) = polygon_contains vs c.
  Proof. first [exact (contains_translate eps maxv) | exact (contains_translate eps) | exact contains_translate | exact (contains_translate maxv)]. Qed.
End C32_contains_translate_statement.
Print Assumptions C32_contains_translate.

Section C32_winding_chord_statement.
  Variables eps maxv : R.
  Local Hint Extern 0 (Scalar R) => exact (ROps eps maxv) : typeclass_instances.
  Theorem C32_winding_chord : forall (c a b : list R) l1 l2,
    winding (a :: l1 ++ b :: l2) c = (winding (a :: l1 ++ [b]) c + winding (b :: l2 ++ [a]) c)%Z.
  Proof. first [exact (winding_chord eps maxv) | exact (winding_chord eps) | exact winding_chord | exact (winding_chord maxv)]. Qed.
End C32_winding_chord_statement.
Print Assumptions C32_winding_chord.

Section C33_line_intersects_sound_statement.
  Variables eps maxv : R.
  Local Hint Extern 0 (Scalar R) => exact (ROps eps maxv) : typeclass_instances.
  Theorem C33_line_intersects_sound : forall (l m : Line R),
    line_intersects l m = true -> share_point l m.
  Proof. first [exact (line_intersects_sound eps maxv) | exact (line_intersects_sound eps) | exact line_intersects_sound | exact (line_intersects_sound maxv)]. Qed.
End C33_line_intersects_sound_statement.
Print Assumptions C33_line_intersects_sound.

Section C33_line_intersects_complete_statement.
  Variables eps maxv : R.
  Local Hint Extern 0 (Scalar R) => exact (ROps eps maxv) : typeclass_instances.
  Theorem C33_line_intersects_complete : forall (l m : Line R),
    0 <= eps -> bounded maxv 2 (lstart l) -> bounded maxv 2 (lend l) ->
    bounded maxv 2 (lstart m) -> bounded maxv 2 (lend m) ->
    share_point l m -> ~ collinear l m -> line_intersects l m = true.
  Proof. first [exact (line_intersects_complete eps maxv) | exact (line_intersects_complete eps) | exact line_intersects_complete | exact (line_intersects_complete maxv)]. Qed.
End C33_line_intersects_complete_statement.
Example C33_case : share_point (MkLine [0; 0] [2; 2]) (MkLine [0; 2] [2; 0]) /\ ~ collinear (MkLine [0; 0] [2; 2]) (MkLine [0; 2] [2; 0]).
Proof. split. - exists (1 / 2), (1 / 2). split; [lra|]. split; [lra|]. intros [|[|i]] Hi; try lia; unfold seg_point, rc; cbn; lra. - unfold collinear, side, rc. cbn. lra. Qed.
Print Assumptions C33_line_intersects_complete.

Section C33_line_intersects_collinear_refuted_statement.
  Variables eps maxv : R.
  Local Hint Extern 0 (Scalar R) => exact (ROps eps maxv) : typeclass_instances.
  Theorem C33_line_intersects_collinear_refuted : exists l m : Line R, share_point l m /\ line_intersects l m = false.
  Proof. first [exact (line_intersects_collinear_refuted eps maxv) | exact (line_intersects_collinear_refuted eps) | exact line_intersects_collinear_refuted | exact (line_intersects_collinear_refuted maxv)]. Qed.
End C33_line_intersects_collinear_refuted_statement.
Print Assumptions C33_line_intersects_collinear_refuted.

Section C37_bb_points_tight_statement.
  Variables eps maxv : R.
  Local Hint Extern 0 (Scalar R) => exact (ROps eps maxv) : typeclass_instances.
  Theorem C37_bb_points_tight : forall D pts,
    pts <> [] -> Forall (bounded maxv D) pts ->
    Forall (in_box D (bb_points D pts)) pts /\
    forall i, (i < D)%nat ->
    (exists p, In p pts /\ rc i p = rc i (bmin (bb_points D pts))) /\
    (exists p, In p pts /\ rc i p = rc i (bmax (bb_points D pts))).
  Proof. first [exact (bb_points_tight eps maxv) | exact (bb_points_tight eps) | exact bb_points_tight | exact (bb_points_tight maxv)]. Qed.
End C37_bb_points_tight_statement.
Example C37_case : square <> [] /\ Forall (bounded maxv0 2) square.
Proof. split; [discriminate|]. apply Forall_forall. intros q Hq. cbn in Hq. repeat (destruct Hq as [<-|Hq]; [intros [|[|i]] Hi; try lia; unfold rc, maxv0; cbn; lra|]). destruct Hq. Qed.
Print Assumptions C37_bb_points_tight.

Section C37_bb_points_smallest_statement.
  Variables eps maxv : R.
  Local Hint Extern 0 (Scalar R) => exact (ROps eps maxv) : typeclass_instances.
  Theorem C37_bb_points_smallest : forall D pts b',
    pts <> [] -> Forall (bounded maxv D) pts -> Forall (in_box D b') pts ->
    forall p, in_box D (bb_points D pts) p -> in_box D b' p.
  Proof. first [exact (bb_points_smallest eps maxv) | exact (bb_points_smallest eps) | exact bb_points_smallest | exact (bb_points_smallest maxv)]. Qed.
End C37_bb_points_smallest_statement.
Print Assumptions C37_bb_points_smallest.

Section C37_bb_points_empty_statement.
  Variables eps maxv : R.
  Local Hint Extern 0 (Scalar R) => exact (ROps eps maxv) : typeclass_instances.
  Theorem C37_bb_points_empty : forall D (p : list R),
    0 < maxv -> (0 < D)%nat -> bb_contains D (bb_points D []) p = false.
  Proof. first [exact (bb_points_empty eps maxv) | exact (bb_points_empty eps) | exact bb_points_empty | exact (bb_points_empty maxv)]. Qed.
End C37_bb_points_empty_statement.
Print Assumptions C37_bb_points_empty.

Section C37_bb_contains_iff_statement.
  Variables eps maxv : R.
  Local Hint Extern 0 (Scalar R) => exact (ROps eps maxv) : typeclass_instances.
  Theorem C37_bb_contains_iff : forall D (b : BBox R) p,
    bb_contains D b p = true <-> in_box D b p.
  Proof. first [exact (bb_contains_iff eps maxv) | exact (bb_contains_iff eps) | exact bb_contains_iff | exact (bb_contains_iff maxv)]. Qed.
End C37_bb_contains_iff_statement.
Print Assumptions C37_bb_contains_iff.

Section C37_bb_new_spec_statement.
  Variables eps maxv : R.
  Local Hint Extern 0 (Scalar R) => exact (ROps eps maxv) : typeclass_instances.
  Theorem C37_bb_new_spec : forall D mn mx,
    bounded maxv D mn -> bounded maxv D mx ->
    valid_box D (bb_new D mn mx) /\
    forall i, (i < D)%nat -> rc i (bmin (bb_new D mn mx)) = Rmin (rc i mn) (rc i mx) /\
    rc i (bmax (bb_new D mn mx)) = Rmax (rc i mn) (rc i mx).
  Proof. first [exact (bb_new_spec eps maxv) | exact (bb_new_spec eps) | exact bb_new_spec | exact (bb_new_spec maxv)]. Qed.
End C37_bb_new_spec_statement.
Print Assumptions C37_bb_new_spec.

Section C37_bb_intersects_iff_statement.
  Variables eps maxv : R.
  Local Hint Extern 0 (Scalar R) => exact (ROps eps maxv) : typeclass_instances.
  Theorem C37_bb_intersects_iff : forall D a b tol,
    0 <= tol -> valid_box D a -> valid_box D b ->
    bb_intersects D a b (Some tol) = true <->
    exists p q, length p = D /\ length q = D /\ in_box D a p /\ in_box D b q /\
    forall i, (i < D)%nat -> Rabs (rc i p - rc i q) <= 2 * tol.
  Proof. first [exact (bb_intersects_iff eps maxv) | exact (bb_intersects_iff eps) | exact bb_intersects_iff | exact (bb_intersects_iff maxv)]. Qed.
End C37_bb_intersects_iff_statement.
Example C37_case_valid : valid_box 2 (MkBox [0; 0] [1; 2]).
Proof. intros [|[|i]] Hi; try lia; unfold rc; cbn; lra. Qed.
Print Assumptions C37_bb_intersects_iff.

Section C37_bb_intersects_zero_statement.
  Variables eps maxv : R.
  Local Hint Extern 0 (Scalar R) => exact (ROps eps maxv) : typeclass_instances.
  Theorem C37_bb_intersects_zero : forall D a b,
    valid_box D a -> valid_box D b ->
    bb_intersects D a b (Some 0) = true <-> exists p, in_box D a p /\ in_box D b p.
  Proof. first [exact (bb_intersects_zero eps maxv) | exact (bb_intersects_zero eps) | exact bb_intersects_zero | exact (bb_intersects_zero maxv)]. Qed.
End C37_bb_intersects_zero_statement.
Print Assumptions C37_bb_intersects_zero.

Section C37_bb_intersects_sym_statement.
  Variables eps maxv : R.
  Local Hint Extern 0 (Scalar R) => exact (ROps eps maxv) : typeclass_instances.
  Theorem C37_bb_intersects_sym : forall D (a b : BBox R) tol,
    bb_intersects D a b tol = bb_intersects D b a tol.
  Proof. first [exact (bb_intersects_sym eps maxv) | exact (bb_intersects_sym eps) | exact bb_intersects_sym | exact (bb_intersects_sym maxv)]. Qed.
End C37_bb_intersects_sym_statement.
Print Assumptions C37_bb_intersects_sym.

Section C37_bb_center_size_statement.
  Variables eps maxv : R.
  Local Hint Extern 0 (Scalar R) => exact (ROps eps maxv) : typeclass_instances.
  Theorem C37_bb_center_size : forall D b,
    valid_box D b -> length (bmin b) = D -> length (bmax b) = D ->
    in_box D b (bb_center b) /\
    forall i, (i < D)%nat -> 0 <= rc i (bb_size b) /\
    rc i (bb_center b) - rc i (bmin b) = rc i (bb_size b) / 2 /\
    rc i (bmax b) - rc i (bb_center b) = rc i (bb_size b) / 2.
  Proof. first [exact (bb_center_size eps maxv) | exact (bb_center_size eps) | exact bb_center_size | exact (bb_center_size maxv)]. Qed.
End C37_bb_center_size_statement.
Print Assumptions C37_bb_center_size.

Section C37_bb_corners_spec_statement.
  Variables eps maxv : R.
  Local Hint Extern 0 (Scalar R) => exact (ROps eps maxv) : typeclass_instances.
  Theorem C37_bb_corners_spec : forall D b,
    valid_box D b ->
    length (bb_corners D b) = (2 ^ D)%nat /\
    Forall (in_box D b) (bb_corners D b) /\
    (forall f : nat -> bool, exists p, In p (bb_corners D b) /\
    forall i, (i < D)%nat -> rc i p = if f i then rc i (bmax b) else rc i (bmin b)).
  Proof. first [exact (bb_corners_spec eps maxv) | exact (bb_corners_spec eps) | exact bb_corners_spec | exact (bb_corners_spec maxv)]. Qed.
End C37_bb_corners_spec_statement.
Print Assumptions C37_bb_corners_spec.

Section C37_bb_lines_spec_statement.
  Context {T : Type} {SO : Scalar T}.
  Theorem C37_bb_lines_spec : forall D (b : BBox T),
    exists ls, bb_lines D b = Ok ls /\ length ls = (D * 2 ^ D)%nat /\
    (forall p q, In (p, q) ls <-> exists i j, (i < D)%nat /\ (j < 2 ^ D)%nat /\
    p = bb_corner D b j /\ q = bb_corner D b (Nat.lxor j (2 ^ i))) /\
    (forall p q, In (p, q) ls -> In (q, p) ls).
  Proof. exact bb_lines_spec. Qed.
End C37_bb_lines_spec_statement.
Print Assumptions C37_bb_lines_spec.
