(** * One control net for each surface; the order of refinements and cuts

    Only statements: each theorem is proved elsewhere; its statement is repeated here, followed by
    a concrete case that meets its hypotheses. *)
From Coq Require Import Reals Lra Lia List Sorted Permutation.
From Verif Require Import Base BaseFacts Scalar RSum BSplineSpec BSpline KnotModel KnotSpec KnotFacts VecFacts CurveModel CurveKnotModel
  CurveSpec CurveProofs CurveGeom CurveGeom2 Boehm Refine SplitModel SplitProofs SurfaceModel SurfaceSpec SurfaceProofs SurfaceRefine SurfaceSplit MiscModel MiscProofs
  Unique Unique2 SurfUnique SurfUnique2 Cuts SurfCuts Demo.
Import ListNotations.
Local Open Scope R_scope.

(** a rational surface of degree (2, 1) with an interior knot in both directions *)
Definition net : Surf R := MkSurf 4 2 1 [0; 0; 0; 1; 2; 2; 2] [0; 0; 1; 3; 3]
  [ [[0; 0; 0; 1]; [0; 1; 0; 1]; [0; 3; 1; 1]]; [[2; 0; 2; 2]; [2; 2; 1; 2]; [2; 6; 1; 2]];
    [[2; 0; 1; 1]; [2; 1; 1; 1]; [2; 3; 0; 1]]; [[3; 0; 0; 1]; [3; 1; 0; 1]; [3; 3; 2; 1]] ].
(** the same control points without weights *)
Definition net1 : Surf R := MkSurf 4 2 1 [0; 0; 0; 1; 2; 2; 2] [0; 0; 1; 3; 3]
  [ [[0; 0; 0; 1]; [0; 1; 0; 1]; [0; 3; 1; 1]]; [[1; 0; 1; 1]; [1; 1; 1; 1]; [1; 3; 1; 1]];
    [[2; 0; 1; 1]; [2; 1; 1; 1]; [2; 3; 0; 1]]; [[3; 0; 0; 1]; [3; 1; 0; 1]; [3; 3; 2; 1]] ].
Lemma net_ok : surf_ok net.
Proof.
  constructor; cbn; try lia; try (repeat constructor; fail).
  - constructor; cbn; try lia; unfold kf; cbn; try lra. repeat constructor; lra.
  - constructor; cbn; try lia; unfold kf; cbn; try lra. repeat constructor; lra.
Qed.
Lemma net1_ok : surf_ok net1.
Proof.
  constructor; cbn; try lia; try (repeat constructor; fail).
  - constructor; cbn; try lia; unfold kf; cbn; try lra. repeat constructor; lra.
  - constructor; cbn; try lia; unfold kf; cbn; try lra. repeat constructor; lra.
Qed.
Lemma net_eps : surf_eps eps0 net.
Proof. split; unfold eps_ok, eps0, kf; cbn; lra. Qed.
Lemma net1_eps : surf_eps eps0 net1.
Proof. exact net_eps. Qed.
Lemma net_low : slow net.
Proof. split; intros x Hx; cbn; repeat (destruct (Req_EM_T _ x); [try (exfalso; lra)|]); lia. Qed.
Lemma net1_low : slow net1.
Proof. split; intros x Hx; cbn; repeat (destruct (Req_EM_T _ x); [try (exfalso; lra)|]); lia. Qed.
Lemma net_pos : spos net.
Proof.
  intros i j Hi Hj. cbn in Hi, Hj. unfold spc, rc.
  destruct i as [|[|[|[|i]]]]; try lia; destruct j as [|[|[|j]]]; try lia; cbn; lra.
Qed.
Lemma net1_weights : sweight_one net1.
Proof.
  intros i j Hi Hj. cbn in Hi, Hj. unfold spc, rc.
  destruct i as [|[|[|[|i]]]]; try lia; destruct j as [|[|[|j]]]; try lia; reflexivity.
Qed.
Lemma net_ins_u : insertable eps0 (ucol net 0) [1 / 2; 3 / 2].
Proof.
  split; [|split].
  - constructor; cbn.
    + repeat constructor; lra.
    + unfold dom0, dom1, kf; cbn. repeat constructor; lra.
    + intros x y Hx Hy. in_cases; first [left; lra | right; unfold eps0; abs_lra].
  - unfold inside, dom0, dom1, kf. cbn. repeat constructor; lra.
  - intros x Hx. cbn. repeat (destruct (Req_EM_T _ x); [try (exfalso; lra)|]); lia.
Qed.
Lemma net_ins_v : insertable eps0 (vrow net 0) [2].
Proof.
  split; [|split].
  - constructor; cbn.
    + repeat constructor; lra.
    + unfold dom0, dom1, kf; cbn. repeat constructor; lra.
    + intros x y Hx Hy. in_cases; first [left; lra | right; unfold eps0; abs_lra].
  - unfold inside, dom0, dom1, kf. cbn. repeat constructor; lra.
  - intros x Hx. cbn. repeat (destruct (Req_EM_T _ x); [try (exfalso; lra)|]); lia.
Qed.

Section C88_net_unique_statement.

  Theorem C88_net_unique : forall s s',
    surf_ok s -> surf_ok s' -> slow s ->
    sdim s' = sdim s -> sdu s' = sdu s -> sdv s' = sdv s -> suk s' = suk s -> svk s' = svk s ->
    (forall i u v, (i < sdim s)%nat -> in_dom s u v -> ~ In u (suk s) -> ~ In v (svk s) -> shcoord s' i u v = shcoord s i u v) -> s' = s.
  Proof. exact net_unique. Qed.
End C88_net_unique_statement.
Section C88_case_unique_section.
  Local Hint Extern 0 (Scalar R) => exact (ROps eps0 maxv0) : typeclass_instances.
  Example C88_case_unique : surf_ok net /\ slow net.
  Proof. split; [exact net_ok|exact net_low]. Qed.
End C88_case_unique_section.
Print Assumptions C88_net_unique.

Section C88_points_determine_surface_statement.
  Variables eps maxv : R.
  Local Hint Extern 0 (Scalar R) => exact (ROps eps maxv) : typeclass_instances.

  Theorem C88_points_determine_surface : forall s s',
    surf_ok s -> surf_eps eps s -> surf_ok s' -> sweight_one s -> sweight_one s' -> slow s ->
    sdim s' = sdim s -> sdu s' = sdu s -> sdv s' = sdv s -> suk s' = suk s -> svk s' = svk s ->
    (forall u v, in_dom s u v -> surf_point_at s' u v = surf_point_at s u v) -> s' = s.
  Proof. first [exact (points_determine_surface eps maxv) | exact (points_determine_surface eps) | exact points_determine_surface]. Qed.
End C88_points_determine_surface_statement.
Section C88_case_points_section.
  Local Hint Extern 0 (Scalar R) => exact (ROps eps0 maxv0) : typeclass_instances.
  Example C88_case_points : surf_ok net1 /\ surf_eps eps0 net1 /\ sweight_one net1 /\ slow net1.
  Proof. split; [exact net1_ok|]. split; [exact net1_eps|]. split; [exact net1_weights|exact net1_low]. Qed.
End C88_case_points_section.
Print Assumptions C88_points_determine_surface.

Section C88_surf_refine_any_order_statement.
  Variables eps maxv : R.
  Local Hint Extern 0 (Scalar R) => exact (ROps eps maxv) : typeclass_instances.
  Local Notation insertable := (insertable eps).

  Theorem C88_surf_refine_any_order : forall s zu zv l,
    surf_ok s -> surf_eps eps s -> insertable (ucol s 0) zu -> insertable (vrow s 0) zv ->
    Permutation zu (knots_u l) -> Permutation zv (knots_v l) -> Forall (fun st => Sorted Rle (fst st)) l ->
    exists s1 s', surf_refine s zu DirU = Ok s1 /\ surf_refine s1 zv DirV = Ok s' /\
    foldM (fun s st => surf_refine s (fst st) (snd st)) l s = Ok s'.
  Proof. first [exact (surf_refine_any_order eps maxv) | exact (surf_refine_any_order eps) | exact surf_refine_any_order]. Qed.
End C88_surf_refine_any_order_statement.
Section C88_case_order_section.
  Local Hint Extern 0 (Scalar R) => exact (ROps eps0 maxv0) : typeclass_instances.
  Example C88_case_order : exists s1 s', surf_refine net [1 / 2; 3 / 2] DirU = Ok s1 /\ surf_refine s1 [2] DirV = Ok s' /\ foldM (fun s st => surf_refine s (fst st) (snd st)) [([3 / 2], DirU); ([2], DirV); ([1 / 2], DirU)] net = Ok s'.
  Proof. apply (surf_refine_any_order eps0 maxv0); [exact net_ok|exact net_eps|exact net_ins_u|exact net_ins_v| | |].
    - apply perm_swap.
    - apply Permutation_refl.
    - repeat constructor. Qed.
End C88_case_order_section.
Print Assumptions C88_surf_refine_any_order.

Section C88_surf_refine_commute_statement.
  Variables eps maxv : R.
  Local Hint Extern 0 (Scalar R) => exact (ROps eps maxv) : typeclass_instances.
  Local Notation insertable := (insertable eps).

  Theorem C88_surf_refine_commute : forall s zu zv,
    surf_ok s -> surf_eps eps s -> insertable (ucol s 0) zu -> insertable (vrow s 0) zv ->
    exists s1 s2 s', surf_refine s zu DirU = Ok s1 /\ surf_refine s1 zv DirV = Ok s' /\
    surf_refine s zv DirV = Ok s2 /\ surf_refine s2 zu DirU = Ok s'.
  Proof. first [exact (surf_refine_commute eps maxv) | exact (surf_refine_commute eps) | exact surf_refine_commute]. Qed.
End C88_surf_refine_commute_statement.
Section C88_case_commute_section.
  Local Hint Extern 0 (Scalar R) => exact (ROps eps0 maxv0) : typeclass_instances.
  Example C88_case_commute : exists s1 s2 s', surf_refine net [1 / 2; 3 / 2] DirU = Ok s1 /\ surf_refine s1 [2] DirV = Ok s' /\ surf_refine net [2] DirV = Ok s2 /\ surf_refine s2 [1 / 2; 3 / 2] DirU = Ok s'.
  Proof. apply (surf_refine_commute eps0 maxv0); [exact net_ok|exact net_eps|exact net_ins_u|exact net_ins_v]. Qed.
End C88_case_commute_section.
Print Assumptions C88_surf_refine_commute.

Section C88_surf_refine_transform_statement.
  Variables eps maxv : R.
  Local Hint Extern 0 (Scalar R) => exact (ROps eps maxv) : typeclass_instances.
  Local Notation insertable := (insertable eps).

  Theorem C88_surf_refine_transform : forall s zs d m,
    surf_ok s -> surf_eps eps s -> spos s -> affine_matrix (sdim s) m ->
    insertable (match d with DirU => ucol s 0 | DirV => vrow s 0 end) zs ->
    exists s1, surf_refine s zs d = Ok s1 /\ surf_refine (surf_transform m s) zs d = Ok (surf_transform m s1).
  Proof. first [exact (surf_refine_transform eps maxv) | exact (surf_refine_transform eps) | exact surf_refine_transform]. Qed.
End C88_surf_refine_transform_statement.
Section C88_case_transform_section.
  Local Hint Extern 0 (Scalar R) => exact (ROps eps0 maxv0) : typeclass_instances.
  Example C88_case_transform : exists s1, surf_refine net [1 / 2; 3 / 2] DirU = Ok s1 /\ surf_refine (surf_transform [[2; 0; 0; 1]; [1; 3; 0; 0]; [0; 1; 1; 5]; [0; 0; 0; 1]] net) [1 / 2; 3 / 2] DirU = Ok (surf_transform [[2; 0; 0; 1]; [1; 3; 0; 0]; [0; 1; 1; 5]; [0; 0; 0; 1]] s1).
  Proof. apply (surf_refine_transform eps0 maxv0); [exact net_ok|exact net_eps|exact net_pos| |exact net_ins_u].
    unfold affine_matrix, rc. cbn. split; [reflexivity|]. split; [repeat constructor|]. split; [|reflexivity]. intros [|[|[|j]]] Hj; [reflexivity|reflexivity|reflexivity|lia]. Qed.
End C88_case_transform_section.
Print Assumptions C88_surf_refine_transform.

Section C89_cut_order_statement.
  Variables eps maxv : R.
  Local Hint Extern 0 (Scalar R) => exact (ROps eps maxv) : typeclass_instances.
  Local Notation off_knots := (off_knots eps).

  Theorem C89_cut_order : forall c a b,
    curve_ok c -> curve_eps eps c -> low_mult c -> dom0 c < a -> a + eps <= b -> b < dom1 c -> off_knots c a -> off_knots c b ->
    exists l m r lb ra,
    try_split c b = Ok (lb, r) /\ try_split lb a = Ok (l, m) /\
    try_split c a = Ok (l, ra) /\ try_split ra b = Ok (m, r) /\
    try_trim_range c a b = Ok [m] /\ try_trim_range c b a = Ok [r; l].
  Proof. first [exact (cut_order eps maxv) | exact (cut_order eps) | exact cut_order]. Qed.
End C89_cut_order_statement.
Section C89_case_curve_section.
  Local Hint Extern 0 (Scalar R) => exact (ROps eps0 maxv0) : typeclass_instances.
  Example C89_case_curve : exists l m r lb ra, try_split demo (3 / 2) = Ok (lb, r) /\ try_split lb (1 / 2) = Ok (l, m) /\ try_split demo (1 / 2) = Ok (l, ra) /\ try_split ra (3 / 2) = Ok (m, r) /\ try_trim_range demo (1 / 2) (3 / 2) = Ok [m] /\ try_trim_range demo (3 / 2) (1 / 2) = Ok [r; l].
  Proof. destruct demo_dom as (D0 & D1). apply (cut_order eps0 maxv0); [exact demo_ok|exact demo_eps| |rewrite D0; lra|unfold eps0; lra|rewrite D1; lra|apply demo_off; auto|apply demo_off; auto].
    intros x Hx. cbn. repeat (destruct (Req_EM_T _ x); [try (exfalso; lra)|]); lia. Qed.
End C89_case_curve_section.
Print Assumptions C89_cut_order.

Section C89_surf_cut_order_statement.
  Variables eps maxv : R.
  Local Hint Extern 0 (Scalar R) => exact (ROps eps maxv) : typeclass_instances.

  Theorem C89_surf_cut_order : forall s a b,
    surf_ok s -> surf_eps eps s -> slow s -> u0 s < a < u1 s -> v0 s < b < v1 s ->
    (forall y, In y (suk s) -> eps <= Rabs (y - a)) -> (forall y, In y (svk s) -> eps <= Rabs (y - b)) ->
    exists sl sr sb st q00 q01 q10 q11,
    surf_split s a DirU = Ok (sl, sr) /\ surf_split sl b DirV = Ok (q00, q01) /\ surf_split sr b DirV = Ok (q10, q11) /\
    surf_split s b DirV = Ok (sb, st) /\ surf_split sb a DirU = Ok (q00, q10) /\ surf_split st a DirU = Ok (q01, q11).
  Proof. first [exact (surf_cut_order eps maxv) | exact (surf_cut_order eps) | exact surf_cut_order]. Qed.
End C89_surf_cut_order_statement.
Section C89_case_surface_section.
  Local Hint Extern 0 (Scalar R) => exact (ROps eps0 maxv0) : typeclass_instances.
  Example C89_case_surface : exists sl sr sb st q00 q01 q10 q11, surf_split net (1 / 2) DirU = Ok (sl, sr) /\ surf_split sl 2 DirV = Ok (q00, q01) /\ surf_split sr 2 DirV = Ok (q10, q11) /\ surf_split net 2 DirV = Ok (sb, st) /\ surf_split sb (1 / 2) DirU = Ok (q00, q10) /\ surf_split st (1 / 2) DirU = Ok (q01, q11).
  Proof. apply (surf_cut_order eps0 maxv0); [exact net_ok|exact net_eps|exact net_low| | | |].
    - unfold u0, u1, kf; cbn; lra.
    - unfold v0, v1, kf; cbn; lra.
    - intros y Hy. in_cases; unfold eps0; abs_lra.
    - intros y Hy. in_cases; unfold eps0; abs_lra. Qed.
End C89_case_surface_section.
Print Assumptions C89_surf_cut_order.
