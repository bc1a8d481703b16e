(** * Intersections of surfaces and curves

    Only statements: each theorem is proved elsewhere; its statement is repeated here, followed by
    a concrete case that meets its hypotheses. *)
From Coq Require Import Reals Lra Lia ZArith List Permutation Sorted.
From Verif Require Import Base BaseFacts Scalar RSum KnotModel KnotSpec KnotFacts VecFacts CurveModel CurveSpec CurveProofs CurveGeom2 CurveShapes
  SurfaceModel SurfaceSpec SurfaceProofs CompoundModel BBoxModel TraversalModel TraversalProofs TraversalCurve TraversalSurface
  NewtonProofs NewtonSurf ClosestModel BfgsModel BfgsReal GradientProofs IntersectModel IntersectProofs IntersectMain IntersectSurf PropsIntersect PropsTraversal Demo.
Import ListNotations.
Local Open Scope R_scope.

(** options with 64 parts per direction, and options without any iteration *)
Definition opts64 : Options := MkOptions (1 / 100000) 64 (1 / 1000) (1 / 1000) 10.
Definition opts_start : Options := MkOptions (1 / 100000) 64 (1 / 1000) (1 / 1000) 0.
Definition no_ssolver (cs : Surf R) (cb : Curve R) : Res (option (R * (R * R))) := Ok None.


Section C45_sc_intersections_complete_statement.
  Variables eps maxv : R.
  Local Hint Extern 0 (Scalar R) => exact (ROps eps maxv) : typeclass_instances.
  Local Notation box_curve := (box_curve eps maxv).
  Local Notation surf_hit_of := (surf_hit_of eps maxv).
  Local Notation ssolver_finds := (ssolver_finds eps maxv).

  Theorem C45_sc_intersections_complete : forall solve rng s b o,
    let N := INR (op_div o) in
    (forall k, 0 <= rng k <= 1) -> box_surf eps s -> box_curve b -> sdim s = cdim b -> (0 < op_div o)%nat ->
    surf_divisions_off_knots eps maxv s ((u1 s - u0 s) / N) ((v1 s - v0 s) / N) DirU -> divisions_off_knots eps maxv rng b ((dom1 b - dom0 b) / N) ->
    (forall cs cb, exists r, solve cs cb = Ok r) ->
    exists fuel0 hits,
    (forall fuel, (fuel0 <= fuel)%nat -> sc_intersections solve rng fuel s b o = Ok hits) /\
    Forall (surf_hit_of s b (op_min o)) hits /\ StronglySorted (fun x y => sh_t x + 1 / 1000 <= sh_t y) hits /\
    forall g, g < op_min o -> ssolver_finds solve s b ((u1 s - u0 s) / N) ((v1 s - v0 s) / N) ((dom1 b - dom0 b) / N) g ->
    forall u v w, in_dom s u v -> dom0 b <= w <= dom1 b -> surf_point_at s u v = point_at b w ->
    exists h, In h hits /\ rdist (sh_p h) (sh_q h) <= g.
  Proof. first [exact (sc_intersections_complete eps maxv) | exact (sc_intersections_complete eps) | exact sc_intersections_complete]. Qed.
End C45_sc_intersections_complete_statement.
Section C45_case_surface_complete_section.
  Local Hint Extern 0 (Scalar R) => exact (ROps eps0 maxv0) : typeclass_instances.
  Example C45_case_surface_complete : box_surf eps0 PropsIntersect.patch /\ box_curve eps0 maxv0 PropsIntersect.pierce /\ sdim PropsIntersect.patch = cdim PropsIntersect.pierce /\ (0 < op_div opts64)%nat /\
    surf_divisions_off_knots eps0 maxv0 PropsIntersect.patch ((u1 PropsIntersect.patch - u0 PropsIntersect.patch) / INR (op_div opts64)) ((v1 PropsIntersect.patch - v0 PropsIntersect.patch) / INR (op_div opts64)) DirU /\
    divisions_off_knots eps0 maxv0 (fun _ => 1 / 2) PropsIntersect.pierce ((dom1 PropsIntersect.pierce - dom0 PropsIntersect.pierce) / INR (op_div opts64)) /\ forall cs cb, exists r, no_ssolver cs cb = Ok r.
  Proof. split; [exact PropsIntersect.patch_box|]. split; [exact PropsIntersect.pierce_box|]. split; [reflexivity|]. split; [cbn; lia|].
    cbn [opts64 op_div]. replace (INR 64) with 64 by (rewrite INR_IZR_INZ; reflexivity).
    split; [apply single_span_divisions; [exact PropsIntersect.patch_box|exact patch_span| |]; unfold u0, u1, v0, v1, kf, eps0; cbn; lra|].
    split; [|intros; eexists; reflexivity].
    apply bezier_divisions; try exact PropsIntersect.pierce_box; try (split; reflexivity); try (intros; lra); unfold eps0, dom0, dom1, kf; cbn; lra. Qed.
End C45_case_surface_complete_section.
Print Assumptions C45_sc_intersections_complete.

Section C61_bfgs_cc_improves_statement.
  Variables eps maxv : R.
  Local Hint Extern 0 (Scalar R) => exact (ROps eps maxv) : typeclass_instances.

  Theorem C61_bfgs_cc_improves : forall fuel o a b ta tb,
    smooth_curve eps a -> smooth_curve eps b -> cdim a = cdim b ->
    bfgs_cc fuel o a b = Ok (Some (ta, tb)) -> dom0 a <= ta <= dom1 a -> dom0 b <= tb <= dom1 b ->
    sqdist (cdim a - 1) (fun i => nurbs a i ta) (fun i => nurbs b i tb) <=
    sqdist (cdim a - 1) (fun i => nurbs a i (dom0 a)) (fun i => nurbs b i (dom0 b)).
  Proof. first [exact (bfgs_cc_improves eps maxv) | exact (bfgs_cc_improves eps) | exact bfgs_cc_improves]. Qed.
End C61_bfgs_cc_improves_statement.
Print Assumptions C61_bfgs_cc_improves.

Section C61_bfgs_sc_improves_statement.
  Variables eps maxv : R.
  Local Hint Extern 0 (Scalar R) => exact (ROps eps maxv) : typeclass_instances.

  Theorem C61_bfgs_sc_improves : forall fuel o s b t u v,
    smooth_surf eps s -> smooth_curve eps b -> sdim s = cdim b ->
    bfgs_sc fuel o s b = Ok (Some (t, (u, v))) -> in_dom s u v -> dom0 b <= t <= dom1 b ->
    sqdist (sdim s - 1) (fun i => snurbs s i u v) (fun i => nurbs b i t) <=
    sqdist (sdim s - 1) (fun i => snurbs s i ((u0 s + u1 s) / 2) ((v0 s + v1 s) / 2)) (fun i => nurbs b i ((dom0 b + dom1 b) / 2)).
  Proof. first [exact (bfgs_sc_improves eps maxv) | exact (bfgs_sc_improves eps) | exact bfgs_sc_improves]. Qed.
End C61_bfgs_sc_improves_statement.
Section C61_case_start_section.
  Local Hint Extern 0 (Scalar R) => exact (ROps eps0 maxv0) : typeclass_instances.
  Example C61_case_start : smooth_surf eps0 PropsIntersect.patch /\ smooth_curve eps0 PropsIntersect.pierce /\ bfgs_sc 1 opts_start PropsIntersect.patch PropsIntersect.pierce = Ok (Some (1 / 2, (1 / 2, 1 / 2))).
  Proof. assert (A : smooth_surf eps0 PropsIntersect.patch) by (pose proof PropsIntersect.patch_box as B; split; [apply B|split; apply B]).
    assert (B : smooth_curve eps0 PropsIntersect.pierce) by (pose proof PropsIntersect.pierce_box as B; split; [apply B|split; apply B]).
    split; [exact A|]. split; [exact B|]. unfold bfgs_sc. rewrite surf_domain_ok by apply A. rewrite knots_domain_ok by apply B. cbn [bind].
    assert (H : forall x y, smul (sadd x y) (sdiv sone (sofz 2)) = (x + y) / 2) by (intros; rs; change (IZR 2) with 2; lra). rewrite !H.
    replace ((dom0 PropsIntersect.pierce + dom1 PropsIntersect.pierce) / 2) with (1 / 2) by (unfold dom0, dom1, kf; cbn; lra).
    replace ((u0 PropsIntersect.patch + u1 PropsIntersect.patch) / 2) with (1 / 2) by (unfold u0, u1, kf; cbn; lra).
    replace ((v0 PropsIntersect.patch + v1 PropsIntersect.patch) / 2) with (1 / 2) by (unfold v0, v1, kf; cbn; lra).
    unfold bfgs_run. rewrite (sc_cost_spec eps0 maxv0) by (auto; unfold in_dom, u0, u1, v0, v1, dom0, dom1, kf; cbn; lra). cbn [bind].
    cbn [loop_ bfgs_stop bs_max bs_iter opts_start op_iters Nat.leb orb bind bs_best]. unfold ClosestModel.best_update. rs. match goal with |- context [Reqb ?x ?x] => replace (Reqb x x) with true by (destruct (Reqb_spec x x); congruence) end. reflexivity. Qed.
End C61_case_start_section.
Print Assumptions C61_bfgs_sc_improves.
