(** * Properties of the optimisation problems, areas and degenerate crossings

    Only statements: each theorem is proved elsewhere; its statement is repeated here, followed by
    a concrete case that meets its hypotheses. *)
From Coq Require Import Reals Lra Lia Psatz ZArith List String.
From Verif Require Import Base BaseFacts Scalar RSum BSplineSpec BSpline KnotModel KnotSpec KnotFacts KnotMisc VecFacts MiscModel CurveModel CurveKnotModel CurveSpec CurveProofs CurveGeom CurveGeom2
  SurfaceModel SurfaceSpec SurfaceProofs BBoxModel BBoxProofs MergeModel ClipModel TraversalModel ClosestModel NewtonProofs BfgsModel BfgsProofs BfgsReal BfgsStep GradientProofs MeasureProofs Bernstein BezierTheorems Demo.
Import ListNotations.
Local Open Scope R_scope.


(** a rational patch, curves to go with it, a parabolic cost and a small mesh *)
Definition patch : Surf R := MkSurf 4 2 1 [0; 0; 0; 1; 2; 2; 2] [0; 0; 1; 1]
  [ [[0; 0; 0; 1]; [0; 1; 0; 1]]; [[2; 0; 2; 2]; [2; 2; 1; 2]]; [[2; 0; 1; 1]; [2; 1; 1; 1]]; [[3; 0; 0; 1]; [3; 1; 0; 1]] ].
Lemma patch_smooth : smooth_surf eps0 patch.
Proof.
  split; [|split].
  - constructor; cbn; try lia; try (repeat constructor; fail).
    + constructor; cbn; try lia; unfold kf; cbn; try lra. repeat constructor; lra.
    + constructor; cbn; try lia; unfold kf; cbn; try lra. repeat constructor; lra.
  - split; unfold eps_ok, eps0, kf; cbn; lra.
  - intros a b Ha Hb. cbn in Ha, Hb. unfold spc, rc. destruct a as [|[|[|[|a]]]]; [| | | |lia]; (destruct b as [|[|b]]; [| |lia]); cbn; lra.
Qed.
Lemma demo_smooth : smooth_curve eps0 demo.
Proof. split; [exact demo_ok|]. split; [exact demo_eps|exact demo_pos]. Qed.
Lemma demo_inside : inside_span demo 2 (1 / 2) /\ inside_span demo 3 (3 / 2).
Proof. split; (split; [cbn; lia|]); unfold kf; cbn; lra. Qed.
Lemma patch_inside : inside_cell patch 2 1 (1 / 2) (1 / 3).
Proof. split; [cbn; lia|]. split; [cbn; lia|]. unfold kf. cbn. lra. Qed.
(** a curve in space *)
Definition wire : Curve R := MkCurve 4 2 [[0; 0; 1; 1]; [2; 4; 0; 2]; [3; 1; 1; 1]; [5; 0; 2; 1]] [0; 0; 0; 1; 2; 2; 2].
Lemma wire_smooth : smooth_curve eps0 wire.
Proof.
  split; [|split].
  - constructor; cbn; try lia; [repeat constructor|]. constructor; cbn; try lia; unfold kf; cbn; try lra. repeat constructor; lra.
  - unfold curve_eps, eps_ok, eps0, kf. cbn. lra.
  - intros j Hj. cbn in Hj. unfold cpc, rc. cbn. destruct j as [|[|[|[|j]]]]; cbn; try lra. lia.
Qed.
Lemma wire_inside : inside_span wire 2 (1 / 2).
Proof. split; [cbn; lia|]. unfold kf. cbn. lra. Qed.
Definition bowl (x : list R) : Res R := Ok (4 * rc 0 x * rc 0 x).
Definition bowl_grad (x : list R) : Res (list R) := Ok [8 * rc 0 x].
(** two segments that cross at right angles *)
Definition seg (x0 y0 x1 y1 : R) : Curve R := MkCurve 3 1 [[x0; y0; 1]; [x1; y1; 1]] [0; 0; 1; 1].
Lemma segment_at x0 y0 x1 y1 u : 0 <= u <= 1 -> point_at (SO := ROps eps0 maxv0) (seg x0 y0 x1 y1) u = Ok [(1 - u) * x0 + u * x1; (1 - u) * y0 + u * y1].
Proof.
  intros Hu. assert (Hb : is_bezier (seg x0 y0 x1 y1) 0 1) by (split; [lra|split; reflexivity]).
  assert (Hk : curve_ok (seg x0 y0 x1 y1)) by (apply (bezier_curve_ok _ 0 1 Hb); [cbn; lia|repeat constructor]).
  destruct (bezier_point_at eps0 maxv0 (seg x0 y0 x1 y1) 0 1 u) as (Hw & q & E & L & N); auto.
  - unfold eps0. lra.
  - unfold eps0. lra.
  - intros j Hj. cbn in Hj. unfold cpc, rc. destruct j as [|[|j]]; cbn; try lra. lia.
  - rewrite E. f_equal. cbv zeta in N. destruct q as [|q0 [|q1 [|? ?]]]; try discriminate. pose proof (N 0%nat ltac:(cbn; lia)) as N0. pose proof (N 1%nat ltac:(cbn; lia)) as N1.
    unfold rc, bernstein, cpc, rc in N0, N1. cbn in N0, N1. f_equal; [|f_equal].
    + rewrite N0. field. lra.
    + rewrite N1. field. lra.
Qed.
(** a unit square cut into two triangles of opposite orientation *)
Definition square : Mesh (list R) := MkMesh [[0; 0]; [1; 0]; [1; 1]; [0; 1]] [(0, 1, 2); (0, 3, 2)]%nat.
Definition square3 : Mesh (list R) := MkMesh [[0; 0; 2]; [1; 0; 2]; [1; 1; 2]; [0; 1; 2]] [(0, 1, 2); (0, 3, 2)]%nat.


Section C59_closest_problem_statement.
  Variables eps maxv : R.
  Local Hint Extern 0 (Scalar R) => exact (ROps eps maxv) : typeclass_instances.

  Theorem C59_closest_problem : forall c s p,
    smooth_curve eps c -> (cdeg c <= s <= clast c)%nat -> kf (cknots c) s < kf (cknots c) (S s) -> length p = (cdim c - 1)%nat ->
    let F x := sqdist (cdim c - 1) (fun i => nurbs c i x) (fun i => rc i p) / 2 in
    exists G H : R -> R, forall u, inside_span c s u ->
    curve_gradient c p u = Ok (G u) /\ derivable_pt_lim F u (G u) /\ curve_hessian c p u = Ok (H u) /\ derivable_pt_lim G u (H u).
  Proof. first [exact (closest_problem eps maxv) | exact (closest_problem eps) | exact closest_problem]. Qed.
End C59_closest_problem_statement.
Section C59_case_problem_section.
  Local Hint Extern 0 (Scalar R) => exact (ROps eps0 maxv0) : typeclass_instances.
  Example C59_case_problem : smooth_curve eps0 demo /\ (cdeg demo <= 2 <= clast demo)%nat /\ kf (cknots demo) 2 < kf (cknots demo) 3 /\ inside_span demo 2 (1 / 2) /\ length [1; 2] = (cdim demo - 1)%nat.
  Proof. split; [exact demo_smooth|]. split; [cbn; lia|]. split; [unfold kf; cbn; lra|]. split; [apply demo_inside|reflexivity]. Qed.
End C59_case_problem_section.
Print Assumptions C59_closest_problem.

Section C60_surf_newton_step_statement.
  Variables eps maxv : R.
  Local Hint Extern 0 (Scalar R) => exact (ROps eps maxv) : typeclass_instances.
  Local Open Scope string_scope.
  Local Open Scope R_scope.

  Theorem C60_surf_newton_step : forall (solve2 : R -> R -> R -> R * R -> option (R * R)) s a b p,
    smooth_surf eps s -> (sdu s <= a <= nrow s - 1)%nat -> (sdv s <= b <= ncol s - 1)%nat ->
    kf (suk s) a < kf (suk s) (S a) -> kf (svk s) b < kf (svk s) (S b) -> length p = (sdim s - 1)%nat ->
    let F x y := sqdist (sdim s - 1) (fun i => snurbs s i x y) (fun i => rc i p) / 2 in
    exists Gu Gv Huu Huv Hvv : R -> R -> R, forall u v, inside_cell s a b u v ->
    derivable_pt_lim (fun x => F x v) u (Gu u v) /\ derivable_pt_lim (fun y => F u y) v (Gv u v) /\
    derivable_pt_lim (fun x => Gu x v) u (Huu u v) /\ derivable_pt_lim (fun y => Gu u y) v (Huv u v) /\
    derivable_pt_lim (fun x => Gv x v) u (Huv u v) /\ derivable_pt_lim (fun y => Gv u y) v (Hvv u v) /\
    surf_move solve2 s p (u, v) =
    if Rlt_dec (sqrt (2 * F u v)) (1 / 100000) then Ok None
    else if Rlt_dec (Huu u v) eps then (if Rlt_dec (Hvv u v) eps then Ok None else Ok (Some (u, v - Gv u v / Hvv u v)))
    else if Rlt_dec (Hvv u v) eps then Ok (Some (u - Gu u v / Huu u v, v))
    else match solve2 (Huu u v) (Huv u v) (Hvv u v) (- Gu u v, - Gv u v) with Some (x, y) => Ok (Some (u + x, v + y)) | None => Err "Failed to solve" end.
  Proof. first [exact (surf_newton_step eps maxv) | exact (surf_newton_step eps) | exact surf_newton_step]. Qed.
End C60_surf_newton_step_statement.
Section C60_case_step_section.
  Local Hint Extern 0 (Scalar R) => exact (ROps eps0 maxv0) : typeclass_instances.
  Example C60_case_step : smooth_surf eps0 patch /\ inside_cell patch 2 1 (1 / 2) (1 / 3) /\ kf (suk patch) 2 < kf (suk patch) 3 /\ kf (svk patch) 1 < kf (svk patch) 2 /\ length [1; 2; 3] = (sdim patch - 1)%nat.
  Proof. split; [exact patch_smooth|]. split; [exact patch_inside|]. split; [unfold kf; cbn; lra|]. split; [unfold kf; cbn; lra|reflexivity]. Qed.
End C60_case_step_section.
Print Assumptions C60_surf_newton_step.

Section C46_close_rows_spec_statement.
  Variables eps maxv : R.
  Local Hint Extern 0 (Scalar R) => exact (ROps eps maxv) : typeclass_instances.

  Theorem C46_close_rows_spec : forall (pts : list (list (list R))) m n,
    (0 < m)%nat -> (0 < n)%nat -> length pts = m -> Forall (fun r => length r = n) pts ->
    exists cu cv, close_rows pts = Ok (cu, cv) /\
    let at_ i j := nth j (nth i pts []) [] in
    (cu = true <-> forall j, (j < n)%nat -> vnorm (vsub (at_ 0%nat j) (at_ (m - 1)%nat j)) < 10 * eps) /\
    (cv = true <-> forall i, (i < m)%nat -> vnorm (vsub (at_ i 0%nat) (at_ i (n - 1)%nat)) < 10 * eps).
  Proof. first [exact (close_rows_spec eps maxv) | exact (close_rows_spec eps) | exact close_rows_spec]. Qed.
End C46_close_rows_spec_statement.
Section C46_case_rows_section.
  Local Hint Extern 0 (Scalar R) => exact (ROps eps0 maxv0) : typeclass_instances.
  Example C46_case_rows : close_rows [[[0]; [1]]; [[5]; [5]]; [[0]; [1]]] = Ok (true, false).
  Proof. destruct (close_rows_spec eps0 maxv0 [[[0]; [1]]; [[5]; [5]]; [[0]; [1]]] 3 2) as (cu & cv & E & Hu & Hv); [lia|lia|reflexivity|repeat constructor|]. rewrite E. cbv zeta in Hu, Hv. assert (cu = true) as ->. { apply Hu. intros j Hj. destruct j as [|[|j]]; [| |lia]; cbn; rs; unfold vnorm2, vdot, ssum; cbn; (replace (sqrt _) with 0; [unfold eps0; lra|]); rewrite <- sqrt_0 at 1; f_equal; ring. } assert (cv = false) as ->; [|reflexivity]. destruct cv; [|reflexivity]. exfalso. assert (H : true = true) by reflexivity. rewrite Hv in H. specialize (H 0%nat ltac:(lia)). cbn in H. rs. unfold vnorm2, vdot, ssum in H. cbn in H. replace (0 + (0 - 1) * (0 - 1)) with 1 in H by ring. rewrite sqrt_1 in H. unfold eps0 in H. lra. Qed.
End C46_case_rows_section.
Print Assumptions C46_close_rows_spec.

Section C61_cc_cost_spec_statement.
  Variables eps maxv : R.
  Local Hint Extern 0 (Scalar R) => exact (ROps eps maxv) : typeclass_instances.

  Theorem C61_cc_cost_spec : forall a b u v,
    smooth_curve eps a -> smooth_curve eps b -> cdim a = cdim b -> dom0 a <= u <= dom1 a -> dom0 b <= v <= dom1 b ->
    cc_cost a b [u; v] = Ok (sqdist (cdim a - 1) (fun i => nurbs a i u) (fun i => nurbs b i v)).
  Proof. first [exact (cc_cost_spec eps maxv) | exact (cc_cost_spec eps) | exact cc_cost_spec]. Qed.
End C61_cc_cost_spec_statement.
Section C61_case_pair_section.
  Local Hint Extern 0 (Scalar R) => exact (ROps eps0 maxv0) : typeclass_instances.
  Example C61_case_pair : smooth_curve eps0 demo /\ dom0 demo <= 1 / 2 <= dom1 demo.
  Proof. split; [exact demo_smooth|]. destruct demo_dom as (-> & ->). lra. Qed.
End C61_case_pair_section.
Print Assumptions C61_cc_cost_spec.

Section C61_cc_gradient_spec_statement.
  Variables eps maxv : R.
  Local Hint Extern 0 (Scalar R) => exact (ROps eps maxv) : typeclass_instances.

  Theorem C61_cc_gradient_spec : forall a b sa sb u v,
    smooth_curve eps a -> smooth_curve eps b -> cdim a = cdim b -> inside_span a sa u -> inside_span b sb v ->
    exists gu gv, cc_gradient a b [u; v] = Ok [gu; gv] /\
    derivable_pt_lim (fun x => sqdist (cdim a - 1) (fun i => nurbs a i x) (fun i => nurbs b i v)) u gu /\
    derivable_pt_lim (fun y => sqdist (cdim a - 1) (fun i => nurbs a i u) (fun i => nurbs b i y)) v gv.
  Proof. first [exact (cc_gradient_spec eps maxv) | exact (cc_gradient_spec eps) | exact cc_gradient_spec]. Qed.
End C61_cc_gradient_spec_statement.
Section C61_case_inside_section.
  Local Hint Extern 0 (Scalar R) => exact (ROps eps0 maxv0) : typeclass_instances.
  Example C61_case_inside : smooth_curve eps0 demo /\ inside_span demo 2 (1 / 2) /\ inside_span demo 3 (3 / 2).
  Proof. split; [exact demo_smooth|exact demo_inside]. Qed.
End C61_case_inside_section.
Print Assumptions C61_cc_gradient_spec.

Section C61_sc_cost_spec_statement.
  Variables eps maxv : R.
  Local Hint Extern 0 (Scalar R) => exact (ROps eps maxv) : typeclass_instances.

  Theorem C61_sc_cost_spec : forall s b t u v,
    smooth_surf eps s -> smooth_curve eps b -> sdim s = cdim b -> in_dom s u v -> dom0 b <= t <= dom1 b ->
    sc_cost s b [t; u; v] = Ok (sqdist (sdim s - 1) (fun i => snurbs s i u v) (fun i => nurbs b i t)).
  Proof. first [exact (sc_cost_spec eps maxv) | exact (sc_cost_spec eps) | exact sc_cost_spec]. Qed.
End C61_sc_cost_spec_statement.
Section C61_case_surface_section.
  Local Hint Extern 0 (Scalar R) => exact (ROps eps0 maxv0) : typeclass_instances.
  Example C61_case_surface : smooth_surf eps0 patch /\ smooth_curve eps0 wire /\ sdim patch = cdim wire /\ in_dom patch (1 / 2) (1 / 3) /\ dom0 wire <= 1 / 2 <= dom1 wire.
  Proof. split; [exact patch_smooth|]. split; [exact wire_smooth|]. split; [reflexivity|]. unfold in_dom, u0, u1, v0, v1, dom0, dom1, kf. cbn. lra. Qed.
End C61_case_surface_section.
Print Assumptions C61_sc_cost_spec.

Section C61_sc_gradient_spec_statement.
  Variables eps maxv : R.
  Local Hint Extern 0 (Scalar R) => exact (ROps eps maxv) : typeclass_instances.

  Theorem C61_sc_gradient_spec : forall s b a1 a2 sb t u v,
    smooth_surf eps s -> smooth_curve eps b -> sdim s = cdim b -> inside_cell s a1 a2 u v -> inside_span b sb t ->
    exists gt gu gv, sc_gradient s b [t; u; v] = Ok [gt; gu; gv] /\
    derivable_pt_lim (fun x => sqdist (sdim s - 1) (fun i => snurbs s i u v) (fun i => nurbs b i x)) t gt /\
    derivable_pt_lim (fun x => sqdist (sdim s - 1) (fun i => snurbs s i x v) (fun i => nurbs b i t)) u gu /\
    derivable_pt_lim (fun y => sqdist (sdim s - 1) (fun i => snurbs s i u y) (fun i => nurbs b i t)) v gv.
  Proof. first [exact (sc_gradient_spec eps maxv) | exact (sc_gradient_spec eps) | exact sc_gradient_spec]. Qed.
End C61_sc_gradient_spec_statement.
Section C61_case_surface_inside_section.
  Local Hint Extern 0 (Scalar R) => exact (ROps eps0 maxv0) : typeclass_instances.
  Example C61_case_surface_inside : smooth_surf eps0 patch /\ smooth_curve eps0 wire /\ sdim patch = cdim wire /\ inside_cell patch 2 1 (1 / 2) (1 / 3) /\ inside_span wire 2 (1 / 2).
  Proof. split; [exact patch_smooth|]. split; [exact wire_smooth|]. split; [reflexivity|]. split; [exact patch_inside|exact wire_inside]. Qed.
End C61_case_surface_inside_section.
Print Assumptions C61_sc_gradient_spec.

Section C61_bfgs_step_statement.
  Variables eps maxv : R.
  Local Hint Extern 0 (Scalar R) => exact (ROps eps maxv) : typeclass_instances.

  Theorem C61_bfgs_step : forall n cost gradient tol s g h L N,
    state_ok n cost gradient s g h -> answers cost -> answers gradient -> nonzero n g ->
    let slope := - form n h g g in
    (forall t y, 0 < t <= 1 -> descend n h (bs_x s) g t y -> exists f, cost y = Ok f /\ f <= bs_cost s + t * slope + L * (t * t)) ->
    L * (/ 2) ^ N < 9 / 10 * - slope -> (N < bs_max s)%nat ->
    tol <= (/ 2) ^ N * sqrt (rsum n (fun i => (rsum n (fun j => mc h i j * rc j g))²)) ->
    (forall t y, 0 < t <= 1 -> descend n h (bs_x s) g t y -> exists g', gradient y = Ok g' /\ length g' = n) ->
    exists s' k g', bfgs_next cost gradient tol s = Ok s' /\ (k <= N)%nat /\ descend n h (bs_x s) g ((/ 2) ^ k) (bs_x s') /\
    cost (bs_x s') = Ok (bs_cost s') /\ bs_cost s' < bs_cost s /\ gradient (bs_x s') = Ok g' /\ bs_g s' = Some g' /\
    (bs_max s' < bs_max s)%nat /\ bs_iter s' = S (bs_iter s) /\ bs_prev s' = Some (bs_cost s) /\
    exists h', bs_h s' = Some h' /\ mat_ok n h' /\ symmetric n h' /\
    let dg i := rc i g' - rc i g in let dx i := rc i (bs_x s') - rc i (bs_x s) in
    (rsum n (fun i => dg i * dx i) <> 0 -> forall i, (i < n)%nat -> rsum n (fun j => mc h' i j * dg j) = dx i) /\
    (0 < rsum n (fun i => dg i * dx i) -> state_ok n cost gradient s' g' h').
  Proof. first [exact (bfgs_step eps maxv) | exact (bfgs_step eps) | exact bfgs_step]. Qed.
End C61_bfgs_step_statement.
Section C61_case_step_section.
  Local Hint Extern 0 (Scalar R) => exact (ROps eps0 maxv0) : typeclass_instances.
  Example C61_case_step : let s : @BState R := MkBS [1] 4 None None None 10 0 None in state_ok 1 bowl bowl_grad s [8] [[1]] /\ answers bowl /\ answers bowl_grad /\ nonzero 1 [8] /\ (forall t y, 0 < t <= 1 -> descend 1 [[1]] [1] [8] t y -> exists f, bowl y = Ok f /\ f <= 4 + t * - form 1 [[1]] [8] [8] + 256 * (t * t)) /\ 256 * (/ 2) ^ 3 < 9 / 10 * - - form 1 [[1]] [8] [8].
  Proof. cbv zeta. assert (F : form 1 [[1]] [8] [8] = 64) by (unfold form, mc, rc; cbn; ring). split; [|split; [|split; [|split; [|split]]]]. + constructor; try reflexivity; cbn [bs_x bs_cost bs_g bs_h]. * unfold bowl, rc. cbn. f_equal. ring. * unfold bowl_grad, rc. cbn. do 2 f_equal. ring. * left; reflexivity. * right. split; [reflexivity|]. intros i j Hi Hj. assert (i = 0%nat) as -> by lia. assert (j = 0%nat) as -> by lia. reflexivity. * split; [reflexivity|]. intros i Hi. assert (i = 0%nat) as -> by lia. reflexivity. * intros i j Hi Hj. assert (i = 0%nat) as -> by lia. assert (j = 0%nat) as -> by lia. reflexivity. * intros x Hx (i & Hi & Hn). assert (i = 0%nat) as -> by lia. unfold form, mc. cbn. unfold rc in *. cbn. nra. + intros x; left; eexists; reflexivity. + intros x; left; eexists; reflexivity. + exists 0%nat. split; [lia|]. unfold rc. cbn. lra. + intros t y Ht (Hl & Hy). eexists. split; [reflexivity|]. rewrite (Hy 0%nat) by lia. rewrite F. unfold mc, rc. cbn. nra. + rewrite F. lra. Qed.
End C61_case_step_section.
Print Assumptions C61_bfgs_step.

Section C52_mesh_area2_spec_statement.
  Variables eps maxv : R.
  Local Hint Extern 0 (Scalar R) => exact (ROps eps maxv) : typeclass_instances.

  Theorem C52_mesh_area2_spec : forall (m : Mesh (list R)),
    faces_ok m -> Forall (fun v => length v = 2%nat) (mverts m) ->
    mesh_area2 m = Ok (rsum (length (mfaces m)) (fun i => Rabs (det2 (corner [] m i 0) (corner [] m i 1) (corner [] m i 2)) / 2)).
  Proof. first [exact (mesh_area2_spec eps maxv) | exact (mesh_area2_spec eps) | exact mesh_area2_spec]. Qed.
End C52_mesh_area2_spec_statement.
Section C52_case_area_section.
  Local Hint Extern 0 (Scalar R) => exact (ROps eps0 maxv0) : typeclass_instances.
  Example C52_case_area : faces_ok square /\ Forall (fun v => length v = 2%nat) (mverts square) /\ mesh_area2 square = Ok 1.
  Proof. assert (F : faces_ok square) by (repeat constructor; cbn; lia). assert (L : Forall (fun v => length v = 2%nat) (mverts square)) by (repeat constructor). split; [exact F|]. split; [exact L|]. rewrite (mesh_area2_spec eps0 maxv0) by auto. cbn. unfold det2, rc, corner. cbn. f_equal. rewrite (Rabs_right ((1 - 0) * (1 - 0) - (0 - 0) * (1 - 0))) by lra. rewrite Rabs_left by lra. lra. Qed.
End C52_case_area_section.
Print Assumptions C52_mesh_area2_spec.

Section C52_mesh_area3_spec_statement.
  Variables eps maxv : R.
  Local Hint Extern 0 (Scalar R) => exact (ROps eps maxv) : typeclass_instances.

  Theorem C52_mesh_area3_spec : forall (m : Mesh (list R)),
    faces_ok m -> Forall (fun v => length v = 3%nat) (mverts m) ->
    mesh_area3 m = Ok (rsum (length (mfaces m)) (fun i =>
    let a := corner [] m i 0 in let b := corner [] m i 1 in let c := corner [] m i 2 in
    sqrt (edge_dot 3 a b b * edge_dot 3 a c c - edge_dot 3 a b c * edge_dot 3 a b c) / 2)).
  Proof. first [exact (mesh_area3_spec eps maxv) | exact (mesh_area3_spec eps) | exact mesh_area3_spec]. Qed.
End C52_mesh_area3_spec_statement.
Section C52_case_area3_section.
  Local Hint Extern 0 (Scalar R) => exact (ROps eps0 maxv0) : typeclass_instances.
  Example C52_case_area3 : faces_ok square3 /\ Forall (fun v => length v = 3%nat) (mverts square3).
  Proof. split; repeat constructor; cbn; lia. Qed.
End C52_case_area3_section.
Print Assumptions C52_mesh_area3_spec.

Section C52_mesh_area_nonneg_statement.
  Variables eps maxv : R.
  Local Hint Extern 0 (Scalar R) => exact (ROps eps maxv) : typeclass_instances.

  Theorem C52_mesh_area_nonneg : forall (m : Mesh (list R)) x,
    (mesh_area2 m = Ok x -> 0 <= x) /\ (mesh_area3 m = Ok x -> 0 <= x).
  Proof. first [exact (mesh_area_nonneg eps maxv) | exact (mesh_area_nonneg eps) | exact mesh_area_nonneg]. Qed.
End C52_mesh_area_nonneg_statement.
Print Assumptions C52_mesh_area_nonneg.

Section C43_degeneracy_spec_statement.
  Variables eps maxv : R.
  Local Hint Extern 0 (Scalar R) => exact (ROps eps maxv) : typeclass_instances.

  Theorem C43_degeneracy_spec : forall (a b : Curve R) ta tb a0 a1 b0 b1,
    0 <= eps ->
    point_at a (ta - 1 / 10000) = Ok a0 -> point_at a (ta + 1 / 10000) = Ok a1 -> point_at b (tb - 1 / 10000) = Ok b0 -> point_at b (tb + 1 / 10000) = Ok b1 ->
    Forall (fun p => length p = 2%nat /\ bounded maxv 2 p) [a0; a1; b0; b1] -> 0 < edge_dot 2 a0 a1 a1 -> 0 < edge_dot 2 b0 b1 b1 ->
    let l := MkLine a0 a1 in let k := MkLine b0 b1 in
    let cosine := Rabs ((rc 0 a1 - rc 0 a0) * (rc 0 b1 - rc 0 b0) + (rc 1 a1 - rc 1 a0) * (rc 1 b1 - rc 1 b0)) / (sqrt (edge_dot 2 a0 a1 a1) * sqrt (edge_dot 2 b0 b1 b1)) in
    exists d, degeneracy a b ta tb = Ok d /\
    (~ share_point l k -> d = DLine) /\ (d = DLine -> share_point l k -> collinear l k) /\
    (d <> DLine -> share_point l k /\ d = if Rlt_dec cosine (9975 / 10000) then DNone else DAngle cosine).
  Proof. first [exact (degeneracy_spec eps maxv) | exact (degeneracy_spec eps) | exact degeneracy_spec]. Qed.
End C43_degeneracy_spec_statement.
Section C43_case_crossing_section.
  Local Hint Extern 0 (Scalar R) => exact (ROps eps0 maxv0) : typeclass_instances.
  Example C43_case_crossing : exists a0 a1 b0 b1, point_at (seg (-1) 0 1 0) (1 / 2 - 1 / 10000) = Ok a0 /\ point_at (seg (-1) 0 1 0) (1 / 2 + 1 / 10000) = Ok a1 /\ point_at (seg 0 (-1) 0 1) (1 / 2 - 1 / 10000) = Ok b0 /\ point_at (seg 0 (-1) 0 1) (1 / 2 + 1 / 10000) = Ok b1 /\ Forall (fun p => length p = 2%nat /\ bounded maxv0 2 p) [a0; a1; b0; b1] /\ 0 < edge_dot 2 a0 a1 a1 /\ 0 < edge_dot 2 b0 b1 b1 /\ share_point (MkLine a0 a1) (MkLine b0 b1).
  Proof. rewrite !segment_at by lra. do 4 eexists. do 4 (split; [reflexivity|]). split; [|split; [|split]]. + repeat (apply Forall_cons; [split; [reflexivity|]; intros i Hi; unfold maxv0, rc; destruct i as [|[|i]]; [| |lia]; cbn; lra|]). constructor. + unfold edge_dot, rc. cbn. nra. + unfold edge_dot, rc. cbn. nra. + exists (1 / 2), (1 / 2). split; [lra|]. split; [lra|]. intros i Hi. unfold seg_point, rc. destruct i as [|[|i]]; [| |lia]; cbn; field. Qed.
End C43_case_crossing_section.
Print Assumptions C43_degeneracy_spec.

Section C38_ct_default_divides_statement.
  Variables eps maxv : R.
  Local Hint Extern 0 (Scalar R) => exact (ROps eps maxv) : typeclass_instances.

  Theorem C38_ct_default_divides : forall (c q : Curve R),
    curve_ok c -> curve_ok q -> (2 <= cdeg q)%nat ->
    exists t, ct_new c None = Ok t /\ ct_curve t = c /\
    exists b, ct_dividable (MkCTree q (ct_tol t)) = Ok b /\ (b = true <-> dom1 c - dom0 c < 64 * (dom1 q - dom0 q)).
  Proof. first [exact (ct_default_divides eps maxv) | exact (ct_default_divides eps) | exact ct_default_divides]. Qed.
End C38_ct_default_divides_statement.
Section C38_case_default_section.
  Local Hint Extern 0 (Scalar R) => exact (ROps eps0 maxv0) : typeclass_instances.
  Example C38_case_default : curve_ok demo /\ (2 <= cdeg demo)%nat.
  Proof. split; [exact demo_ok|cbn; lia]. Qed.
End C38_case_default_section.
Print Assumptions C38_ct_default_divides.
