(** * Properties of NURBS surfaces

    Only statements: each theorem is proved elsewhere; its statement is repeated here, followed by
    a concrete case that meets its hypotheses. *)
From Coq Require Import Floats.
From Coq Require Import Reals Lra Lia Psatz ZArith Sorted Permutation.
From Verif Require Import Base BaseFacts Scalar RSum BSplineSpec BSpline KnotModel KnotSpec KnotFacts VecFacts
  CurveModel CurveKnotModel CurveSpec CurveProofs CurveGeom CurveGeom2 KnotMisc Boehm Refine Decompose BBoxModel BBoxProofs
  SurfaceModel SurfaceBoxModel SurfaceSpec SurfaceProofs SurfaceSample SurfaceDeriv SurfaceRational SurfaceTess SurfaceRefine
  SurfaceIso SurfaceSplit SurfaceShapes SurfaceRefuted Demo.
Open Scope R_scope.

(** a rational surface in space: quadratic with an interior knot in u, linear in v *)
Definition dsf : Surf R := MkSurf 4 2 1 [0; 0; 0; 1; 2; 2; 2] [0; 0; 1; 1]
  [ [[0; 0; 0; 1]; [0; 1; 0; 1]]; [[2; 0; 2; 2]; [2; 2; 1; 2]]; [[2; 0; 1; 1]; [2; 1; 1; 1]]; [[3; 0; 0; 1]; [3; 1; 0; 1]] ].
Lemma dsf_ok : surf_ok dsf.
Proof.
  constructor; cbn; try lia; try (repeat constructor; fail).
  - constructor; cbn; try lia; unfold kf; cbn; try lra. repeat constructor; lra.
  - constructor; cbn; try lia; unfold kf; cbn; try lra. repeat constructor; lra.
Qed.
Lemma dsf_eps : surf_eps eps0 dsf.
Proof. split; unfold eps_ok, eps0, kf; cbn; lra. Qed.
Lemma dsf_pos : spos dsf.
Proof.
  intros a b Ha Hb. cbn in Ha, Hb. unfold spc, rc.
  destruct a as [|[|[|[|a]]]]; [| | | |lia]; (destruct b as [|[|b]]; [| |lia]); cbn; lra.
Qed.
Lemma dsf_dom u v : 0 <= u <= 2 -> 0 <= v <= 1 -> in_dom dsf u v.
Proof. intros Hu Hv. unfold in_dom, u0, u1, v0, v1, kf. cbn. lra. Qed.
Lemma dsf_sep : separated eps0 (suk dsf) /\ separated eps0 (svk dsf).
Proof. split; intros a b Ha Hb; in_cases; first [left; reflexivity | right; unfold eps0; abs_lra]. Qed.
Lemma dsf_clamped : clamped_k (suk dsf) (sdu dsf) (nrow dsf - 1) /\ clamped_k (svk dsf) (sdv dsf) (ncol dsf - 1).
Proof.
  split; split; intros j Hj; cbn in Hj;
    (assert (C : (j = 0 \/ j = 1 \/ j = 2 \/ j = 3 \/ j = 4 \/ j = 5 \/ j = 6)%nat) by lia);
    decompose [or] C; subst j; try lia; reflexivity.
Qed.
Lemma dsf_cont : ucont dsf /\ vcont dsf.
Proof.
  split; intros j H1 H2; cbn in *; [assert (j = 3)%nat as -> by lia; unfold kf; cbn; lra|lia].
Qed.


Section C48_surf_point_at_spec_statement.
  Variables eps maxv : R.
  Local Hint Extern 0 (Scalar R) => exact (ROps eps maxv) : typeclass_instances.
  Theorem C48_surf_point_at_spec : forall s u v,
    surf_ok s -> surf_eps eps s -> in_dom s u v -> swfun s u v <> 0 ->
    exists p, surf_point_at s u v = Ok p /\ length p = (sdim s - 1)%nat /\
    forall i, (i < sdim s - 1)%nat -> rc i p = snurbs s i u v.
  Proof. first [exact (surf_point_at_spec eps maxv) | exact (surf_point_at_spec eps) | exact surf_point_at_spec | exact (surf_point_at_spec maxv)]. Qed.
End C48_surf_point_at_spec_statement.
Example C48_case : surf_ok dsf /\ surf_eps eps0 dsf /\ in_dom dsf (1 / 2) (1 / 3) /\ swfun dsf (1 / 2) (1 / 3) <> 0.
Proof. split; [exact dsf_ok|]; split; [exact dsf_eps|]; split; [apply dsf_dom; lra|]; apply Rgt_not_eq, (swfun_pos eps0 maxv0); [exact dsf_ok|exact dsf_eps|exact dsf_pos|apply dsf_dom; lra]. Qed.
Print Assumptions C48_surf_point_at_spec.

Theorem C48_shcoord_rows : forall s i u v,
    surf_ok s ->
    shcoord s i u v = rsum (nrow s) (fun a => Nu s a u * hcoord (vrow s a) i v).
Proof. exact (@shcoord_rows). Qed.
Print Assumptions C48_shcoord_rows.

Theorem C48_shcoord_cols : forall s i u v,
    surf_ok s ->
    shcoord s i u v = rsum (ncol s) (fun b => Nv s b v * hcoord (ucol s b) i u).
Proof. exact (@shcoord_cols). Qed.
Print Assumptions C48_shcoord_cols.

Section C48_surf_hull_statement.
  Variables eps maxv : R.
  Local Hint Extern 0 (Scalar R) => exact (ROps eps maxv) : typeclass_instances.
  Theorem C48_surf_hull : forall s u v,
    surf_ok s -> surf_eps eps s -> spos s -> in_dom s u v ->
    exists lam : nat -> nat -> R,
    (forall a b, (a < nrow s)%nat -> (b < ncol s)%nat -> 0 <= lam a b) /\
    rsum (nrow s) (fun a => rsum (ncol s) (lam a)) = 1 /\
    exists p, surf_point_at s u v = Ok p /\ length p = (sdim s - 1)%nat /\
    forall i, (i < sdim s - 1)%nat -> rc i p =
    rsum (nrow s) (fun a => rsum (ncol s) (fun b => lam a b * (spc s i a b / spc s (sdim s - 1) a b))).
  Proof. first [exact (surf_hull eps maxv) | exact (surf_hull eps) | exact surf_hull | exact (surf_hull maxv)]. Qed.
End C48_surf_hull_statement.
Example C48_case_hull : spos dsf.
Proof. exact dsf_pos. Qed.
Print Assumptions C48_surf_hull.

Section C48_surf_box_statement.
  Variables eps maxv : R.
  Local Hint Extern 0 (Scalar R) => exact (ROps eps maxv) : typeclass_instances.
  Theorem C48_surf_box : forall s u v,
    surf_ok s -> surf_eps eps s -> spos s -> in_dom s u v ->
    exists b p, bb_of_surf s = Ok b /\ surf_point_at s u v = Ok p /\ bb_contains (sdim s - 1) b p = true.
  Proof. first [exact (surf_box eps maxv) | exact (surf_box eps) | exact surf_box | exact (surf_box maxv)]. Qed.
End C48_surf_box_statement.
Print Assumptions C48_surf_box.

Section C48_surf_derivatives_spec_statement.
  Variables eps maxv : R.
  Local Hint Extern 0 (Scalar R) => exact (ROps eps maxv) : typeclass_instances.
  Theorem C48_surf_derivatives_spec : forall s su sv i,
    surf_ok s -> surf_eps eps s ->
    (sdu s <= su <= nrow s - 1)%nat -> (sdv s <= sv <= ncol s - 1)%nat ->
    exists F, partial_chain (kf (suk s) su) (kf (suk s) (S su)) (kf (svk s) sv) (kf (svk s) (S sv)) (shcoord s i) F /\
    forall u v d, in_span (suk s) (nrow s - 1) su u -> in_span (svk s) (ncol s - 1) sv v ->
    exists ds, surf_derivatives s u v d = Ok ds /\ length ds = S d /\
    forall k l, (k + l <= d)%nat -> rc i (ent ds k l) = F k l u v.
  Proof. first [exact (surf_derivatives_spec eps maxv) | exact (surf_derivatives_spec eps) | exact surf_derivatives_spec | exact (surf_derivatives_spec maxv)]. Qed.
End C48_surf_derivatives_spec_statement.
Print Assumptions C48_surf_derivatives_spec.

Section C48_surf_rational_derivatives_spec_statement.
  Variables eps maxv : R.
  Local Hint Extern 0 (Scalar R) => exact (ROps eps maxv) : typeclass_instances.
  Theorem C48_surf_rational_derivatives_spec : forall s su sv i,
    surf_ok s -> surf_eps eps s -> spos s ->
    (i < sdim s - 1)%nat ->
    (sdu s <= su <= nrow s - 1)%nat -> (sdv s <= sv <= ncol s - 1)%nat ->
    kf (suk s) su < kf (suk s) (S su) -> kf (svk s) sv < kf (svk s) (S sv) ->
    exists F, partial_chain (kf (suk s) su) (kf (suk s) (S su)) (kf (svk s) sv) (kf (svk s) (S sv)) (snurbs s i) F /\
    forall u v d, in_span (suk s) (nrow s - 1) su u -> in_span (svk s) (ncol s - 1) sv v ->
    exists ds, surf_rational_derivatives s u v d = Ok ds /\ length ds = S d /\
    forall k, (k <= d)%nat -> length (nth k ds []) = S (d - k) /\
    forall l, (k + l <= d)%nat -> rc i (ent ds k l) = F k l u v.
  Proof. first [exact (surf_rational_derivatives_spec eps maxv) | exact (surf_rational_derivatives_spec eps) | exact surf_rational_derivatives_spec | exact (surf_rational_derivatives_spec maxv)]. Qed.
End C48_surf_rational_derivatives_spec_statement.
Example C48_case_span : (sdu dsf <= 3 <= nrow dsf - 1)%nat /\ kf (suk dsf) 3 < kf (suk dsf) 4 /\ in_span (suk dsf) (nrow dsf - 1) 3 2.
Proof. unfold in_span, kf; cbn; repeat split; try lia; try lra; right; split; [reflexivity|lra]. Qed.
Print Assumptions C48_surf_rational_derivatives_spec.

Section C48_normal_at_spec_statement.
  Variables eps maxv : R.
  Local Hint Extern 0 (Scalar R) => exact (ROps eps maxv) : typeclass_instances.
  Theorem C48_normal_at_spec : forall s su sv u v,
    surf_ok s -> surf_eps eps s -> spos s -> sdim s = 4%nat ->
    (sdu s <= su <= nrow s - 1)%nat -> (sdv s <= sv <= ncol s - 1)%nat ->
    kf (suk s) su < u < kf (suk s) (S su) -> kf (svk s) sv < v < kf (svk s) (S sv) ->
    exists n a b, normal_at s u v = Ok n /\ length n = 3%nat /\
    (forall i, (i < 3)%nat -> derivable_pt_lim (fun x => snurbs s i x v) u (a i) /\
    derivable_pt_lim (fun y => snurbs s i u y) v (b i)) /\
    rc 0 n = a 1%nat * b 2%nat - a 2%nat * b 1%nat /\
    rc 1 n = a 2%nat * b 0%nat - a 0%nat * b 2%nat /\
    rc 2 n = a 0%nat * b 1%nat - a 1%nat * b 0%nat /\
    rsum 3 (fun i => rc i n * a i) = 0 /\ rsum 3 (fun i => rc i n * b i) = 0.
  Proof. first [exact (normal_at_spec eps maxv) | exact (normal_at_spec eps) | exact normal_at_spec | exact (normal_at_spec maxv)]. Qed.
End C48_normal_at_spec_statement.
Print Assumptions C48_normal_at_spec.

Section C48_surf_refine_u_statement.
  Variables eps maxv : R.
  Local Hint Extern 0 (Scalar R) => exact (ROps eps maxv) : typeclass_instances.
  Theorem C48_surf_refine_u : forall s xs,
    surf_ok s -> surf_eps eps s ->
    refine_ok eps (ucol s 0) xs -> inside (ucol s 0) xs ->
    exists s', surf_refine s xs DirU = Ok s' /\ surf_ok s' /\ surf_eps eps s' /\
    sdim s' = sdim s /\ sdu s' = sdu s /\ sdv s' = sdv s /\ svk s' = svk s /\
    Permutation (suk s') (suk s ++ xs) /\ nrow s' = (nrow s + length xs)%nat /\ ncol s' = ncol s /\
    u0 s' = u0 s /\ u1 s' = u1 s /\
    forall u v, in_dom s u v ->
    (forall i, shcoord s' i u v = shcoord s i u v) /\ surf_point_at s' u v = surf_point_at s u v.
  Proof. first [exact (surf_refine_u eps maxv) | exact (surf_refine_u eps) | exact surf_refine_u | exact (surf_refine_u maxv)]. Qed.
End C48_surf_refine_u_statement.
Example C48_case_refine : refine_ok eps0 (ucol dsf 0) [1 / 2; 1 / 2; 3 / 2] /\ inside (ucol dsf 0) [1 / 2; 1 / 2; 3 / 2].
Proof. split; [constructor; [repeat first [apply Sorted_nil|apply HdRel_nil|apply Sorted_cons|apply HdRel_cons]; lra|repeat (apply Forall_cons; [unfold dom0, dom1, kf; cbn; lra|]); apply Forall_nil|intros x y Hx Hy; unfold eps0; in_cases; first [left; reflexivity|right; abs_lra]]|repeat (apply Forall_cons; [unfold dom0, dom1, kf; cbn; lra|]); apply Forall_nil]. Qed.
Print Assumptions C48_surf_refine_u.

Section C48_surf_refine_v_statement.
  Variables eps maxv : R.
  Local Hint Extern 0 (Scalar R) => exact (ROps eps maxv) : typeclass_instances.
  Theorem C48_surf_refine_v : forall s xs,
    surf_ok s -> surf_eps eps s ->
    refine_ok eps (vrow s 0) xs -> inside (vrow s 0) xs ->
    exists s', surf_refine s xs DirV = Ok s' /\ surf_ok s' /\ surf_eps eps s' /\
    sdim s' = sdim s /\ sdu s' = sdu s /\ sdv s' = sdv s /\ suk s' = suk s /\
    Permutation (svk s') (svk s ++ xs) /\ nrow s' = nrow s /\ ncol s' = (ncol s + length xs)%nat /\
    v0 s' = v0 s /\ v1 s' = v1 s /\
    forall u v, in_dom s u v ->
    (forall i, shcoord s' i u v = shcoord s i u v) /\ surf_point_at s' u v = surf_point_at s u v.
  Proof. first [exact (surf_refine_v eps maxv) | exact (surf_refine_v eps) | exact surf_refine_v | exact (surf_refine_v maxv)]. Qed.
End C48_surf_refine_v_statement.
Print Assumptions C48_surf_refine_v.

Section C48_isocurve_u_inside_statement.
  Variables eps maxv : R.
  Local Hint Extern 0 (Scalar R) => exact (ROps eps maxv) : typeclass_instances.
  Local Notation sep_param := (sep_param eps).
  Local Notation is_iso_u := (is_iso_u eps maxv).
  Local Notation is_iso_v := (is_iso_v eps maxv).
  Theorem C48_isocurve_u_inside : forall s t,
    surf_ok s -> surf_eps eps s -> separated eps (suk s) ->
    u0 s < t < u1 s -> sep_param (suk s) t -> (mult_of (suk s) t <= 1)%nat ->
    exists c, try_isocurve s t DirU = Ok c /\ is_iso_u s t c.
  Proof. first [exact (isocurve_u_inside eps maxv) | exact (isocurve_u_inside eps) | exact isocurve_u_inside | exact (isocurve_u_inside maxv)]. Qed.
End C48_isocurve_u_inside_statement.
Example C48_case_iso : separated eps0 (suk dsf) /\ u0 dsf < 1 < u1 dsf /\ sep_param eps0 (suk dsf) 1 /\ (mult_of (suk dsf) 1 <= 1)%nat.
Proof. split; [apply dsf_sep|]; split; [unfold u0, u1, kf; cbn; lra|]; split; [intros y Hy; unfold eps0; in_cases; first [left; reflexivity | right; abs_lra]|]; unfold mult_of; cbn; repeat destruct (Req_EM_T _ _); try lra; lia. Qed.
Print Assumptions C48_isocurve_u_inside.

Section C48_isocurve_v_inside_statement.
  Variables eps maxv : R.
  Local Hint Extern 0 (Scalar R) => exact (ROps eps maxv) : typeclass_instances.
  Local Notation sep_param := (sep_param eps).
  Local Notation is_iso_u := (is_iso_u eps maxv).
  Local Notation is_iso_v := (is_iso_v eps maxv).
  Theorem C48_isocurve_v_inside : forall s t,
    surf_ok s -> surf_eps eps s -> separated eps (svk s) ->
    v0 s < t < v1 s -> sep_param (svk s) t -> (mult_of (svk s) t <= 1)%nat ->
    exists c, try_isocurve s t DirV = Ok c /\ is_iso_v s t c.
  Proof. first [exact (isocurve_v_inside eps maxv) | exact (isocurve_v_inside eps) | exact isocurve_v_inside | exact (isocurve_v_inside maxv)]. Qed.
End C48_isocurve_v_inside_statement.
Print Assumptions C48_isocurve_v_inside.

Section C48_boundary_curves_spec_statement.
  Variables eps maxv : R.
  Local Hint Extern 0 (Scalar R) => exact (ROps eps maxv) : typeclass_instances.
  Local Notation sep_param := (sep_param eps).
  Local Notation is_iso_u := (is_iso_u eps maxv).
  Local Notation is_iso_v := (is_iso_v eps maxv).
  Theorem C48_boundary_curves_spec : forall s,
    surf_ok s -> surf_eps eps s -> separated eps (suk s) -> separated eps (svk s) ->
    clamped_k (suk s) (sdu s) (nrow s - 1) -> clamped_k (svk s) (sdv s) (ncol s - 1) ->
    exists a b c d, try_boundary_curves s = Ok [a; b; c; d] /\
    is_iso_u s (u0 s) a /\ is_iso_v s (v0 s) b /\ is_iso_u s (u1 s) c /\ is_iso_v s (v1 s) d.
  Proof. first [exact (boundary_curves_spec eps maxv) | exact (boundary_curves_spec eps) | exact boundary_curves_spec | exact (boundary_curves_spec maxv)]. Qed.
End C48_boundary_curves_spec_statement.
Example C48_case_boundary : clamped_k (suk dsf) (sdu dsf) (nrow dsf - 1) /\ clamped_k (svk dsf) (sdv dsf) (ncol dsf - 1) /\ separated eps0 (suk dsf) /\ separated eps0 (svk dsf).
Proof. split; [apply dsf_clamped|]; split; [apply dsf_clamped|]; exact dsf_sep. Qed.
Print Assumptions C48_boundary_curves_spec.

Section C48_surf_split_u_statement.
  Variables eps maxv : R.
  Local Hint Extern 0 (Scalar R) => exact (ROps eps maxv) : typeclass_instances.
  Local Notation same_on := (same_on eps maxv).
  Theorem C48_surf_split_u : forall s t,
    surf_ok s -> surf_eps eps s -> u0 s < t < u1 s ->
    (forall y, In y (suk s) -> eps <= Rabs (y - t)) ->
    exists s0 s1, surf_split s t DirU = Ok (s0, s1) /\
    surf_ok s0 /\ surf_eps eps s0 /\ surf_ok s1 /\ surf_eps eps s1 /\
    sdu s0 = sdu s /\ sdv s0 = sdv s /\ sdu s1 = sdu s /\ sdv s1 = sdv s /\
    same_on s s0 (u0 s) t (v0 s) (v1 s) /\ same_on s s1 t (u1 s) (v0 s) (v1 s).
  Proof. first [exact (surf_split_u eps maxv) | exact (surf_split_u eps) | exact surf_split_u | exact (surf_split_u maxv)]. Qed.
End C48_surf_split_u_statement.
Example C48_case_split : u0 dsf < 1 / 2 < u1 dsf /\ (forall y, In y (suk dsf) -> eps0 <= Rabs (y - 1 / 2)).
Proof. split; [unfold u0, u1, kf; cbn; lra|]; intros y Hy; unfold eps0; in_cases; abs_lra. Qed.
Print Assumptions C48_surf_split_u.

Section C48_surf_split_v_statement.
  Variables eps maxv : R.
  Local Hint Extern 0 (Scalar R) => exact (ROps eps maxv) : typeclass_instances.
  Local Notation same_on := (same_on eps maxv).
  Theorem C48_surf_split_v : forall s t,
    surf_ok s -> surf_eps eps s -> v0 s < t < v1 s ->
    (forall y, In y (svk s) -> eps <= Rabs (y - t)) ->
    exists s0 s1, surf_split s t DirV = Ok (s0, s1) /\
    surf_ok s0 /\ surf_eps eps s0 /\ surf_ok s1 /\ surf_eps eps s1 /\
    sdu s0 = sdu s /\ sdv s0 = sdv s /\ sdu s1 = sdu s /\ sdv s1 = sdv s /\
    same_on s s0 (u0 s) (u1 s) (v0 s) t /\ same_on s s1 (u0 s) (u1 s) t (v1 s).
  Proof. first [exact (surf_split_v eps maxv) | exact (surf_split_v eps) | exact surf_split_v | exact (surf_split_v maxv)]. Qed.
End C48_surf_split_v_statement.
Print Assumptions C48_surf_split_v.

Section C48_isocurve_double_knot_refuted_statement.
  Local Existing Instance FOps.
  Local Open Scope float_scope.
  Theorem C48_isocurve_double_knot_refuted : exists (s : Surf float) (t v : float) (c : Curve float) (x y : list float),
    try_isocurve s t DirU = Ok c /\ point_at c v = Ok x /\ surf_point_at s t v = Ok y /\ x = [7] /\ y = [5].
  Proof. exact isocurve_double_knot_refuted. Qed.
End C48_isocurve_double_knot_refuted_statement.
Print Assumptions C48_isocurve_double_knot_refuted.

Section C48_regular_derivatives_mixed_refuted_statement.
  Local Existing Instance FOps.
  Local Open Scope float_scope.
  Theorem C48_regular_derivatives_mixed_refuted : exists (s : Surf float) tab msg, surf_derivatives s 0.5 0.5 2 = Ok tab /\
    regular_sample_derivatives s 2 2 2 = Panic msg.
  Proof. exact regular_derivatives_mixed_refuted. Qed.
End C48_regular_derivatives_mixed_refuted_statement.
Print Assumptions C48_regular_derivatives_mixed_refuted.

Section C49_plane_spec_statement.
  Variables eps maxv : R.
  Local Hint Extern 0 (Scalar R) => exact (ROps eps maxv) : typeclass_instances.
  Theorem C49_plane_spec : forall D center x y u v,
    0 < eps <= 1 -> (1 <= D)%nat ->
    length center = (D - 1)%nat -> length x = (D - 1)%nat -> length y = (D - 1)%nat ->
    0 <= u <= 1 -> 0 <= v <= 1 ->
    exists p, surf_point_at (plane D center x y) u v = Ok p /\ length p = (D - 1)%nat /\
    forall i, (i < D - 1)%nat -> rc i p = rc i center + (2 * u - 1) * rc i x + (2 * v - 1) * rc i y.
  Proof. first [exact (plane_spec eps maxv) | exact (plane_spec eps) | exact plane_spec | exact (plane_spec maxv)]. Qed.
End C49_plane_spec_statement.
Print Assumptions C49_plane_spec.

Section C49_extrude_spec_statement.
  Variables eps maxv : R.
  Local Hint Extern 0 (Scalar R) => exact (ROps eps maxv) : typeclass_instances.
  Theorem C49_extrude_spec : forall c tr,
    curve_ok c -> curve_eps eps c -> 0 < eps <= 1 -> length tr = (cdim c - 1)%nat ->
    (forall j, (j < length (cpts c))%nat -> cpc c (cdim c - 1) j <> 0) ->
    exists s, extrude (1 / 2) c tr = Ok s /\ surf_ok s /\ surf_eps eps s /\
    u0 s = 0 /\ u1 s = 1 /\ v0 s = dom0 c /\ v1 s = dom1 c /\
    forall u v q, 0 <= u <= 1 -> dom0 c <= v <= dom1 c -> point_at c v = Ok q ->
    exists p, surf_point_at s u v = Ok p /\ length p = (cdim c - 1)%nat /\
    forall i, (i < cdim c - 1)%nat -> rc i p = rc i q + (1 - u) * rc i tr.
  Proof. first [exact (extrude_spec eps maxv) | exact (extrude_spec eps) | exact extrude_spec | exact (extrude_spec maxv)]. Qed.
End C49_extrude_spec_statement.
Example C49_case_extrude : curve_ok demo /\ curve_eps eps0 demo /\ (forall j, (j < length (cpts demo))%nat -> cpc demo (cdim demo - 1) j <> 0) /\ exists q, @point_at R (ROps eps0 maxv0) demo (1 / 2) = Ok q.
Proof. split; [exact demo_ok|]; split; [exact demo_eps|]; split; [intros j Hj; pose proof (demo_pos j Hj); lra|]; destruct (point_at_spec eps0 maxv0 demo (1 / 2) demo_ok demo_eps) as (q & E & _); [unfold dom0, dom1, kf; cbn; lra|apply Rgt_not_eq, (wfun_pos eps0 maxv0); [exact demo_ok|exact demo_eps|exact demo_pos|unfold dom0, dom1, kf; cbn; lra]|eauto]. Qed.
Print Assumptions C49_extrude_spec.

Section C49_flip_u_spec_statement.
  Variables eps maxv : R.
  Local Hint Extern 0 (Scalar R) => exact (ROps eps maxv) : typeclass_instances.
  Theorem C49_flip_u_spec : forall s,
    surf_ok s -> surf_eps eps s -> ucont s ->
    exists s', flip s FlipU = Ok s' /\ surf_ok s' /\ surf_eps eps s' /\ ucont s' /\ (vcont s -> vcont s') /\
    sdu s' = sdu s /\ sdv s' = sdv s /\ svk s' = svk s /\ nrow s' = nrow s /\ ncol s' = ncol s /\
    u0 s' = umirror s - u1 s /\ u1 s' = umirror s - u0 s /\ v0 s' = v0 s /\ v1 s' = v1 s /\
    forall u v, in_dom s u v -> surf_point_at s' (umirror s - u) v = surf_point_at s u v.
  Proof. first [exact (flip_u_spec eps maxv) | exact (flip_u_spec eps) | exact flip_u_spec | exact (flip_u_spec maxv)]. Qed.
End C49_flip_u_spec_statement.
Example C49_case_flip : ucont dsf /\ vcont dsf /\ umirror dsf = 2.
Proof. split; [apply dsf_cont|]; split; [apply dsf_cont|]; unfold umirror, kf; cbn; lra. Qed.
Print Assumptions C49_flip_u_spec.

Section C49_flip_v_spec_statement.
  Variables eps maxv : R.
  Local Hint Extern 0 (Scalar R) => exact (ROps eps maxv) : typeclass_instances.
  Theorem C49_flip_v_spec : forall s,
    surf_ok s -> surf_eps eps s -> vcont s ->
    exists s', flip s FlipV = Ok s' /\ surf_ok s' /\ surf_eps eps s' /\ vcont s' /\ (ucont s -> ucont s') /\
    sdu s' = sdu s /\ sdv s' = sdv s /\ suk s' = suk s /\ nrow s' = nrow s /\ ncol s' = ncol s /\
    v0 s' = vmirror s - v1 s /\ v1 s' = vmirror s - v0 s /\ u0 s' = u0 s /\ u1 s' = u1 s /\
    forall u v, in_dom s u v -> surf_point_at s' u (vmirror s - v) = surf_point_at s u v.
  Proof. first [exact (flip_v_spec eps maxv) | exact (flip_v_spec eps) | exact flip_v_spec | exact (flip_v_spec maxv)]. Qed.
End C49_flip_v_spec_statement.
Print Assumptions C49_flip_v_spec.

Section C49_flip_uv_spec_statement.
  Variables eps maxv : R.
  Local Hint Extern 0 (Scalar R) => exact (ROps eps maxv) : typeclass_instances.
  Theorem C49_flip_uv_spec : forall s,
    surf_ok s -> surf_eps eps s -> ucont s -> vcont s ->
    exists s', flip s FlipUV = Ok s' /\ surf_invert s = Ok s' /\ surf_ok s' /\ surf_eps eps s' /\
    u0 s' = umirror s - u1 s /\ u1 s' = umirror s - u0 s /\
    v0 s' = vmirror s - v1 s /\ v1 s' = vmirror s - v0 s /\
    forall u v, in_dom s u v -> surf_point_at s' (umirror s - u) (vmirror s - v) = surf_point_at s u v.
  Proof. first [exact (flip_uv_spec eps maxv) | exact (flip_uv_spec eps) | exact flip_uv_spec | exact (flip_uv_spec maxv)]. Qed.
End C49_flip_uv_spec_statement.
Print Assumptions C49_flip_uv_spec.

Section C49_surf_transform_affine_statement.
  Variables eps maxv : R.
  Local Hint Extern 0 (Scalar R) => exact (ROps eps maxv) : typeclass_instances.
  Theorem C49_surf_transform_affine : forall s m u v p,
    surf_ok s -> surf_eps eps s -> affine_matrix (sdim s) m ->
    (forall a b, (a < nrow s)%nat -> (b < ncol s)%nat -> spc s (sdim s - 1) a b <> 0) ->
    in_dom s u v -> surf_point_at s u v = Ok p ->
    surf_point_at (surf_transform m s) u v = Ok (apply_affine (sdim s) m p).
  Proof. first [exact (surf_transform_affine eps maxv) | exact (surf_transform_affine eps) | exact surf_transform_affine | exact (surf_transform_affine maxv)]. Qed.
End C49_surf_transform_affine_statement.
Print Assumptions C49_surf_transform_affine.

Section C50_regular_tessellate_spec_statement.
  Variables eps maxv : R.
  Local Hint Extern 0 (Scalar R) => exact (ROps eps maxv) : typeclass_instances.
  Theorem C50_regular_tessellate_spec : forall s du dv,
    surf_ok s -> surf_eps eps s -> spos s -> sdim s = 4%nat ->
    (1 <= sdu s)%nat -> (1 <= sdv s)%nat ->
    exists m, regular_tessellate s du dv = Ok m /\
    length (tpts m) = ((du + 1) * (dv + 1))%nat /\
    length (tnormals m) = ((du + 1) * (dv + 1))%nat /\
    length (tuvs m) = ((du + 1) * (dv + 1))%nat /\
    length (tfaces m) = (2 * du * dv)%nat /\
    (forall f, In f (tfaces m) -> length f = 3%nat /\ NoDup f /\ Forall (fun v => (v < length (tpts m))%nat) f) /\
    (forall i j, (i <= du)%nat -> (j <= dv)%nat ->
    surf_point_at s (gridu s du i) (gridv s dv j) = Ok (nth (vid dv i j) (tpts m) []) /\
    nth (vid dv i j) (tuvs m) (0, 0) = (gridu s du i, gridv s dv j) /\
    exists n, normal_at s (gridu s du i) (gridv s dv j) = Ok n /\
    forall c, rc c (nth (vid dv i j) (tnormals m) []) = rc c n / sqrt (rsum 3 (fun c => rc c n * rc c n))) /\
    (forall i j, (i < du)%nat -> (j < dv)%nat ->
    nth (2 * (i * dv + j)) (tfaces m) [] = [vid dv i j; vid dv (i + 1) (j + 1); vid dv i (j + 1)] /\
    nth (2 * (i * dv + j) + 1) (tfaces m) [] = [vid dv i j; vid dv (i + 1) j; vid dv (i + 1) (j + 1)]).
  Proof. first [exact (regular_tessellate_spec eps maxv) | exact (regular_tessellate_spec eps) | exact regular_tessellate_spec | exact (regular_tessellate_spec maxv)]. Qed.
End C50_regular_tessellate_spec_statement.
Example C50_case : sdim dsf = 4%nat /\ (1 <= sdu dsf)%nat /\ (1 <= sdv dsf)%nat /\ spos dsf.
Proof. repeat split; cbn; try lia; exact dsf_pos. Qed.
Print Assumptions C50_regular_tessellate_spec.

Section C50_regular_sample_points_spec_statement.
  Variables eps maxv : R.
  Local Hint Extern 0 (Scalar R) => exact (ROps eps maxv) : typeclass_instances.
  Theorem C50_regular_sample_points_spec : forall s du dv,
    surf_ok s -> surf_eps eps s ->
    (forall i j, (i <= du)%nat -> (j <= dv)%nat -> swfun s (gridu s du i) (gridv s dv j) <> 0) ->
    exists g, regular_sample_points s du dv = Ok g /\ length g = S du /\
    forall i, (i <= du)%nat -> length (nth i g []) = S dv /\
    forall j, (j <= dv)%nat ->
    surf_point_at s (gridu s du i) (gridv s dv j) = Ok (nth j (nth i g []) []).
  Proof. first [exact (regular_sample_points_spec eps maxv) | exact (regular_sample_points_spec eps) | exact regular_sample_points_spec | exact (regular_sample_points_spec maxv)]. Qed.
End C50_regular_sample_points_spec_statement.
Print Assumptions C50_regular_sample_points_spec.

Section C50_regular_sample_normals_spec_statement.
  Variables eps maxv : R.
  Local Hint Extern 0 (Scalar R) => exact (ROps eps maxv) : typeclass_instances.
  Theorem C50_regular_sample_normals_spec : forall s du dv,
    surf_ok s -> surf_eps eps s -> sdim s = 4%nat ->
    (1 <= sdu s)%nat -> (1 <= sdv s)%nat ->
    exists g, regular_sample_normals s du dv = Ok g /\ length g = S du /\
    forall i, (i <= du)%nat -> length (nth i g []) = S dv /\
    forall j, (j <= dv)%nat -> exists n,
    normal_at s (gridu s du i) (gridv s dv j) = Ok n /\
    length (nth j (nth i g []) []) = 3%nat /\
    forall c, rc c (nth j (nth i g []) []) = rc c n / sqrt (rsum 3 (fun c => rc c n * rc c n)).
  Proof. first [exact (regular_sample_normals_spec eps maxv) | exact (regular_sample_normals_spec eps) | exact regular_sample_normals_spec | exact (regular_sample_normals_spec maxv)]. Qed.
End C50_regular_sample_normals_spec_statement.
Print Assumptions C50_regular_sample_normals_spec.

Section C50_unit_normal_statement.
  Variables eps maxv : R.
  Local Hint Extern 0 (Scalar R) => exact (ROps eps maxv) : typeclass_instances.
  Theorem C50_unit_normal : forall (n m : list R),
    (exists c, (c < 3)%nat /\ rc c n <> 0) ->
    (forall c, rc c m = rc c n / sqrt (rsum 3 (fun c => rc c n * rc c n))) ->
    rsum 3 (fun c => rc c m * rc c m) = 1.
  Proof. first [exact (unit_normal eps maxv) | exact (unit_normal eps) | exact unit_normal | exact (unit_normal maxv)]. Qed.
End C50_unit_normal_statement.
Print Assumptions C50_unit_normal.
