(** * Properties of the closest point searches and of the line search

    Only statements: each theorem is proved elsewhere; its statement is repeated here, followed by
    a concrete case that meets its hypotheses. *)
From Coq Require Import Floats.
From Coq Require Import Reals Lra Lia ZArith Sorted.
From Verif Require Import Base BaseFacts Scalar RSum BSplineSpec BSpline KnotModel KnotSpec KnotFacts VecFacts MiscModel MiscProofs
  CurveModel CurveKnotModel CurveSpec CurveProofs CurveGeom CurveGeom2 CurveShapes SurfaceModel SurfaceSpec SurfaceProofs
  TraversalModel LengthProofs LengthLine ClosestModel NewtonProofs NewtonMain NewtonLine NewtonSurf NewtonRefuted
  BfgsModel BfgsProofs BfgsReal Demo.
Open Scope R_scope.

(** a straight segment of length 3 and a bilinear patch *)
Definition seg3 : Curve R := MkCurve 3 1 [[0; 1; 1]; [3; 1; 1]] [0; 0; 1; 1].
Definition flat_patch : Surf R := MkSurf 4 1 1 [0; 0; 1; 1] [0; 0; 1; 1]
  [ [[0; 0; 0; 1]; [0; 1; 0; 1]]; [[1; 0; 0; 1]; [1; 1; 1; 1]] ].

Lemma seg3_bezier : bezier_seg eps0 seg3.
Proof.
  constructor.
  - constructor; cbn; try lia; [repeat constructor|]. constructor; cbn; try lia; unfold kf; cbn; try lra; repeat constructor; lra.
  - unfold curve_eps, eps_ok, eps0, kf. cbn. lra.
  - intros j Hj. cbn in Hj. unfold cpc, rc. cbn. destruct j as [|[|j]]; cbn; try lra. lia.
  - reflexivity.
Qed.
Lemma seg3_unit : unit_weights seg3.
Proof. repeat (apply Forall_cons; [reflexivity|]). constructor. Qed.
Lemma seg3_dom : dom0 seg3 = 0 /\ dom1 seg3 = 1.
Proof. unfold dom0, dom1, kf. cbn. lra. Qed.
Lemma seg3_edge : edge seg3 0 1 = 3.
Proof.
  unfold edge, cpc, rc. cbn.
  match goal with |- sqrt ?x = _ => replace x with (3 * 3) by ring end. apply sqrt_square. lra.
Qed.
Lemma seg3_at u : 0 <= u <= 1 -> point_at (SO := ROps eps0 maxv0) seg3 u = Ok [3 * u; 1].
Proof.
  intros Hu. destruct seg3_dom as (D0 & D1).
  destruct (line_point eps0 maxv0 seg3 u seg3_bezier eq_refl seg3_unit ltac:(lra)) as (q & E & L & V).
  rewrite E. f_equal. destruct q as [|x [|y [|z q]]]; cbn in L; try lia.
  pose proof (V 0%nat ltac:(cbn; lia)) as V0. pose proof (V 1%nat ltac:(cbn; lia)) as V1. rewrite D0, D1 in V0, V1.
  unfold rc, cpc in V0, V1. cbn in V0, V1. f_equal; [lra|]. f_equal. lra.
Qed.
Lemma dist_30 a : sqrt (vnorm2 (SO := ROps eps0 maxv0) (vsub (SO := ROps eps0 maxv0) [0 * a; 1] [3 * 1; 1])) = 3.
Proof.
  change (vnorm (SO := ROps eps0 maxv0) (vsub (SO := ROps eps0 maxv0) [0 * a; 1] [3 * 1; 1]) = 3).
  rewrite (vnorm_rdist eps0 maxv0) by reflexivity. unfold rdist, rc. cbn.
  match goal with |- sqrt ?x = _ => replace x with (3 * 3) by ring end. apply sqrt_square. lra.
Qed.
Lemma seg3_open : is_closed (SO := ROps eps0 maxv0) seg3 = Ok false.
Proof.
  destruct (is_closed_total eps0 maxv0 seg3) as (b & E); try apply seg3_bezier. rewrite E. f_equal. destruct b; [|reflexivity]. exfalso.
  destruct seg3_dom as (D0 & D1).
  unfold is_closed in E. apply bind_ok in E. destruct E as (cl & _ & E). destruct cl.
  - apply bind_ok in E. destruct E as (pts & Ep & E). apply bind_ok in E. destruct E as (p & E1 & E). apply bind_ok in E. destruct E as (i & Ei & E).
    apply bind_ok in E. destruct E as (q & E2 & E). injection E as E. unfold dehomogenized_control_points in Ep.
    cbn [seg3 cpts mapM cdim] in Ep. apply bind_ok in Ep. destruct Ep as (p' & Ep1 & Ep). apply bind_ok in Ep. destruct Ep as (l & El & Ep).
    apply bind_ok in El. destruct El as (q' & Eq1 & El). apply bind_ok in El. destruct El as (l' & El' & El). injection El' as <-. injection El as <-. injection Ep as <-.
    cbn [length seg3 cpts usub Nat.ltb Nat.leb Nat.sub] in Ei. injection Ei as <-. cbn in E1, E2. injection E1 as <-. injection E2 as <-.
    unfold dehomogenize, coord in Ep1, Eq1. rs. cbn [Nat.sub nth] in Ep1, Eq1. destruct (Reqb_spec 1 0); [lra|].
    cbn [unwrap firstn] in Ep1, Eq1. injection Ep1 as <-. injection Eq1 as <-.
    unfold vdivs in E. cbn [map] in E. rs. change (sofnat 10) with 10 in E.
    replace (0 / 1) with (0 * 1) in E by field. replace (3 / 1) with (3 * 1) in E by field. replace (1 / 1) with 1 in E by field.
    rewrite dist_30 in E. unfold eps0 in E. destruct (Rltb_spec 3 (1 / 1000 * 10)); [lra|discriminate].
  - rewrite knots_domain_ok in E by apply seg3_bezier. cbn [bind] in E. rewrite D0, D1, !seg3_at in E by lra. cbn [bind] in E. injection E as E.
    rs. change (sofnat 10) with 10 in E. replace (3 * 0) with (0 * 1) in E by ring. rewrite dist_30 in E. unfold eps0 in E.
    destruct (Rltb_spec 3 (1 / 1000 * 10)); [lra|discriminate].
Qed.
Lemma seg3_near : exists q, point_at (SO := ROps eps0 maxv0) seg3 (dom0 seg3) = Ok q /\ sqrt (dist2 [1; 2] q) < maxv0.
Proof.
  destruct seg3_dom as (-> & _). rewrite seg3_at by lra. eexists. split; [reflexivity|]. unfold dist2, rc, maxv0. cbn.
  match goal with |- sqrt ?x < _ => replace x with 2 by ring end.
  apply Rlt_le_trans with 2; [|lra]. rewrite <- (sqrt_square 2) at 2 by lra. apply sqrt_lt_1_alt. lra.
Qed.
Lemma flat_patch_ok : surf_ok flat_patch.
Proof.
  constructor; cbn; try lia; try (repeat constructor; fail);
      (constructor; cbn; try lia; unfold kf; cbn; try lra; repeat constructor; lra).
Qed.

(** the cost 4 x^2 on the line, its gradient, and matrices that meet the hypotheses *)
Definition quad (x : list R) : Res R := Ok (4 * rc 0 x * rc 0 x).
Definition quad_grad (x : list R) : Res (list R) := Ok [8 * rc 0 x].
Definition id2 : list (list R) := [[1; 0]; [0; 1]].
Lemma id2_ok : mat_ok 2 id2 /\ symmetric 2 id2 /\ posdef 2 id2.
Proof.
  split; [|split].
  - split; [reflexivity|]. intros i Hi. destruct i as [|[|i]]; [reflexivity|reflexivity|lia].
  - intros i j Hi Hj. destruct i as [|[|i]]; [| |lia]; (destruct j as [|[|j]]; [reflexivity|reflexivity|lia]).
  - intros x Lx (i & Hi & Nx). destruct x as [|a [|b [|c x]]]; cbn in Lx; try lia. unfold form, mc, rc in *. cbn in *.
    destruct i as [|[|i]]; [| |lia]; cbn in Nx; pose proof (Rle_0_sqr a); pose proof (Rle_0_sqr b); unfold Rsqr in *.
    + assert (0 < a * a) by (apply Rlt_0_sqr; assumption). lra.
    + assert (0 < b * b) by (apply Rlt_0_sqr; assumption). lra.
Qed.


Section C46_closest_parameter_in_domain_statement.
  Context {T : Type} {SO : Scalar T}.
  Local Open Scope scalar_scope.

  Theorem C46_closest_parameter_in_domain : forall c p d0 d1 t,
    knots_domain c = Ok (d0, d1) -> is_closed c = Ok false ->
    inside d0 d1 d0 -> inside d0 d1 d1 -> find_closest_parameter c p = Ok t -> inside d0 d1 t /\ (t - t =? szero) = true.
  Proof. exact closest_parameter_in_domain. Qed.
End C46_closest_parameter_in_domain_statement.
Example C46_case_any : knots_domain seg3 = Ok (0, 1) /\ is_closed (SO := ROps eps0 maxv0) seg3 = Ok false.
Proof. split; [destruct seg3_dom as (D0 & D1); rewrite knots_domain_ok by apply seg3_bezier; now rewrite D0, D1|exact seg3_open]. Qed.
Print Assumptions C46_closest_parameter_in_domain.

Section C46_newton_run_steps_statement.
  Context {T : Type} {SO : Scalar T}.
  Local Open Scope scalar_scope.

  Theorem C46_newton_run_steps : forall next n x z,
    (0 < n)%nat -> newton_run n next x = Ok z ->
    exists k y, (k < n)%nat /\ iterates next k x y /\ next y = Ok z /\ (S k = n \/ (sabs (z - y) <? seps) = true).
  Proof. exact newton_run_steps. Qed.
End C46_newton_run_steps_statement.
Print Assumptions C46_newton_run_steps.

Section C46_closest_parameter_total_statement.
  Variables eps maxv : R.
  Local Hint Extern 0 (Scalar R) => exact (ROps eps maxv) : typeclass_instances.
  Local Notation long_segments := (long_segments eps).
  Local Notation qu l i := (fst (nth i l (0, []))).
  Local Notation qp l i := (snd (nth i l (0, []))).
  Theorem C46_closest_parameter_total : forall c p,
    0 < eps -> curve_ok c -> curve_eps eps c -> pos_weights c -> (1 <= cdeg c)%nat ->
    length p = (cdim c - 1)%nat -> is_closed c = Ok false ->
    exists t, find_closest_parameter c p = Ok t /\ dom0 c <= t <= dom1 c.
  Proof. first [exact (closest_parameter_total eps maxv) | exact (closest_parameter_total eps) | exact closest_parameter_total | exact (closest_parameter_total maxv)]. Qed.
End C46_closest_parameter_total_statement.
Example C46_case : curve_ok seg3 /\ curve_eps eps0 seg3 /\ pos_weights seg3 /\ (1 <= cdeg seg3)%nat /\ is_closed (SO := ROps eps0 maxv0) seg3 = Ok false.
Proof. split; [apply seg3_bezier|]; split; [apply seg3_bezier|]; split; [apply seg3_bezier|]; split; [cbn; lia|exact seg3_open]. Qed.
Print Assumptions C46_closest_parameter_total.

Section C46_closed_wrap_escapes_statement.
  Variables eps maxv : R.
  Local Hint Extern 0 (Scalar R) => exact (ROps eps maxv) : typeclass_instances.
  Theorem C46_closed_wrap_escapes : forall d0 d1 x,
    d0 <= d1 -> x < d0 -> d1 < newton_constrain d0 d1 true x.
  Proof. first [exact (closed_wrap_escapes eps maxv) | exact (closed_wrap_escapes eps) | exact closed_wrap_escapes | exact (closed_wrap_escapes maxv)]. Qed.
End C46_closed_wrap_escapes_statement.
Example C46_case_wrap : 0 <= 1 /\ -1 / 8 < 0.
Proof. lra. Qed.
Print Assumptions C46_closed_wrap_escapes.

Section C46_closed_wrap_above_statement.
  Variables eps maxv : R.
  Local Hint Extern 0 (Scalar R) => exact (ROps eps maxv) : typeclass_instances.
  Theorem C46_closed_wrap_above : forall d0 d1 x,
    d1 < x <= d1 + (d1 - d0) -> d0 <= newton_constrain d0 d1 true x <= d1.
  Proof. first [exact (closed_wrap_above eps maxv) | exact (closed_wrap_above eps) | exact closed_wrap_above | exact (closed_wrap_above maxv)]. Qed.
End C46_closed_wrap_above_statement.
Example C46_case_above : 1 < 5 / 4 <= 1 + (1 - 0).
Proof. lra. Qed.
Print Assumptions C46_closed_wrap_above.

Section C46_surf_closest_in_domain_statement.
  Variables eps maxv : R.
  Local Hint Extern 0 (Scalar R) => exact (ROps eps maxv) : typeclass_instances.
  Local Notation dist_at := (dist_at eps maxv).
  Theorem C46_surf_closest_in_domain : forall solve2 s verts p t pts,
    0 <= eps -> surf_ok s ->
    eps <= u1 s - u0 s -> eps <= v1 s - v0 s -> (forall x q, In (x, q) verts -> in_dom s (fst x) (snd x)) ->
    mapM (mapM (fun q => unwrap (dehomogenize (sdim s) q))) (snet s) = Ok pts -> close_rows pts = Ok (false, false) ->
    surf_find_closest_parameter solve2 s verts p = Ok t -> in_dom s (fst t) (snd t).
  Proof. first [exact (surf_closest_in_domain eps maxv) | exact (surf_closest_in_domain eps) | exact surf_closest_in_domain | exact (surf_closest_in_domain maxv)]. Qed.
End C46_surf_closest_in_domain_statement.
Example C46_case_surf : surf_ok flat_patch /\ eps0 <= u1 flat_patch - u0 flat_patch /\ eps0 <= v1 flat_patch - v0 flat_patch.
Proof. split; [exact flat_patch_ok|]; unfold u0, u1, v0, v1, kf, eps0; cbn; lra. Qed.
Print Assumptions C46_surf_closest_in_domain.

Section C46_closed_closest_in_domain_refuted_statement.
  Local Existing Instance FOps.
  Local Open Scope float_scope.
  Theorem C46_closed_closest_in_domain_refuted : exists (c : Curve float) p t,
    is_closed c = Ok true /\ knots_domain c = Ok (0, 1) /\ find_closest_parameter c p = Ok t /\ (1 <? t) = true.
  Proof. exact closed_closest_in_domain_refuted. Qed.
End C46_closed_closest_in_domain_refuted_statement.
Print Assumptions C46_closed_closest_in_domain_refuted.

Section C59_closest_guess_spec_statement.
  Variables eps maxv : R.
  Local Hint Extern 0 (Scalar R) => exact (ROps eps maxv) : typeclass_instances.
  Local Notation long_segments := (long_segments eps).
  Local Notation qu l i := (fst (nth i l (0, []))).
  Local Notation qp l i := (snd (nth i l (0, []))).
  Theorem C59_closest_guess_spec : forall c p,
    0 < eps -> curve_ok c -> curve_eps eps c -> pos_weights c -> (1 <= cdeg c)%nat -> length p = (cdim c - 1)%nat ->
    exists pts u, length pts = (length (cpts c) * cdeg c)%nat /\
    (forall i, (i < length pts)%nat -> qu pts i = sample_u c (length pts) i /\ point_at c (sample_u c (length pts) i) = Ok (qp pts i)) /\
    closest_guess c p = Ok u /\ dom0 c <= u <= dom1 c /\
    (long_segments pts -> (exists q, point_at c (dom0 c) = Ok q /\ sqrt (dist2 p q) < maxv) ->
    exists m, on_polyline p pts m u /\ lower_bound p pts m).
  Proof. first [exact (closest_guess_spec eps maxv) | exact (closest_guess_spec eps) | exact closest_guess_spec | exact (closest_guess_spec maxv)]. Qed.
End C59_closest_guess_spec_statement.
Example C59_case_guess : curve_ok seg3 /\ curve_eps eps0 seg3 /\ pos_weights seg3 /\ (1 <= cdeg seg3)%nat /\ is_closed (SO := ROps eps0 maxv0) seg3 = Ok false.
Proof. split; [apply seg3_bezier|]; split; [apply seg3_bezier|]; split; [apply seg3_bezier|]; split; [cbn; lia|exact seg3_open]. Qed.
Print Assumptions C59_closest_guess_spec.

Section C59_closest_exact_hit_statement.
  Variables eps maxv : R.
  Local Hint Extern 0 (Scalar R) => exact (ROps eps maxv) : typeclass_instances.
  Local Notation long_segments := (long_segments eps).
  Local Notation qu l i := (fst (nth i l (0, []))).
  Local Notation qp l i := (snd (nth i l (0, []))).
  Theorem C59_closest_exact_hit : forall c p u,
    0 < eps -> curve_ok c -> curve_eps eps c -> pos_weights c -> (1 <= cdeg c)%nat ->
    length p = (cdim c - 1)%nat -> closest_guess c p = Ok u -> point_at c u = Ok p -> find_closest_parameter c p = Ok u.
  Proof. first [exact (closest_exact_hit eps maxv) | exact (closest_exact_hit eps) | exact closest_exact_hit | exact (closest_exact_hit maxv)]. Qed.
End C59_closest_exact_hit_statement.
Print Assumptions C59_closest_exact_hit.

Section C59_closest_parameter_stationary_statement.
  Variables eps maxv : R.
  Local Hint Extern 0 (Scalar R) => exact (ROps eps maxv) : typeclass_instances.
  Local Notation long_segments := (long_segments eps).
  Local Notation qu l i := (fst (nth i l (0, []))).
  Local Notation qp l i := (snd (nth i l (0, []))).
  Theorem C59_closest_parameter_stationary : forall c p t,
    find_closest_parameter c p = Ok t -> is_closed c = Ok false -> curve_ok c ->
    exists u k y, closest_guess c p = Ok u /\ (k < 5)%nat /\
    iterates (newton_next (dom0 c) (dom1 c) false (curve_gradient c p) (curve_hessian c p)) k u y /\
    exists g h, curve_gradient c p y = Ok g /\ curve_hessian c p y = Ok h /\
    t = Rmax (dom0 c) (Rmin (dom1 c) (y - g / h)) /\
    (k = 4%nat \/ Rabs (t - y) < eps /\ (dom0 c < t < dom1 c -> h <> 0 -> Rabs g < eps * Rabs h)).
  Proof. first [exact (closest_parameter_stationary eps maxv) | exact (closest_parameter_stationary eps) | exact closest_parameter_stationary | exact (closest_parameter_stationary maxv)]. Qed.
End C59_closest_parameter_stationary_statement.
Example C59_case_stationary : is_closed (SO := ROps eps0 maxv0) seg3 = Ok false /\ exists t, find_closest_parameter (SO := ROps eps0 maxv0) seg3 [1; 2] = Ok t.
Proof. split; [exact seg3_open|]; destruct (closest_parameter_total eps0 maxv0 seg3 [1; 2] ltac:(unfold eps0; lra) (bg_ok _ _ seg3_bezier) (bg_eps _ _ seg3_bezier) (bg_pos _ _ seg3_bezier) (le_n 1) eq_refl seg3_open) as (t & E & _); eauto. Qed.
Print Assumptions C59_closest_parameter_stationary.

Section C59_closest_on_line_statement.
  Variables eps maxv : R.
  Local Hint Extern 0 (Scalar R) => exact (ROps eps maxv) : typeclass_instances.
  Theorem C59_closest_on_line : forall s p,
    0 < eps -> bezier_seg eps s -> cdeg s = 1%nat -> unit_weights s -> length p = (cdim s - 1)%nat ->
    is_closed s = Ok false -> eps <= edge s 0 1 -> (exists q, point_at s (dom0 s) = Ok q /\ sqrt (dist2 p q) < maxv) ->
    exists t q, find_closest_parameter s p = Ok t /\ dom0 s <= t <= dom1 s /\ point_at s t = Ok q /\
    forall u q', dom0 s <= u <= dom1 s -> point_at s u = Ok q' -> dist2 p q <= dist2 p q'.
  Proof. first [exact (closest_on_line eps maxv) | exact (closest_on_line eps) | exact closest_on_line | exact (closest_on_line maxv)]. Qed.
End C59_closest_on_line_statement.
Example C59_case_line : bezier_seg eps0 seg3 /\ cdeg seg3 = 1%nat /\ unit_weights seg3 /\ is_closed (SO := ROps eps0 maxv0) seg3 = Ok false /\ eps0 <= edge seg3 0 1 /\ exists q, point_at (SO := ROps eps0 maxv0) seg3 (dom0 seg3) = Ok q /\ sqrt (dist2 [1; 2] q) < maxv0.
Proof. split; [exact seg3_bezier|]; split; [reflexivity|]; split; [exact seg3_unit|]; split; [exact seg3_open|]; split; [rewrite seg3_edge; unfold eps0; lra|exact seg3_near]. Qed.
Print Assumptions C59_closest_on_line.

Section C59_closest_improves_guess_refuted_statement.
  Local Existing Instance FOps.
  Local Open Scope float_scope.
  Theorem C59_closest_improves_guess_refuted : exists (c : Curve float) p u t q q',
    closest_guess c p = Ok u /\ point_at c u = Ok q /\ find_closest_parameter c p = Ok t /\ point_at c t = Ok q' /\
    (2 * vnorm (vsub q p) <? vnorm (vsub q' p)) = true.
  Proof. exact closest_improves_guess_refuted. Qed.
End C59_closest_improves_guess_refuted_statement.
Print Assumptions C59_closest_improves_guess_refuted.

Section C60_surf_closest_no_worse_statement.
  Variables eps maxv : R.
  Local Hint Extern 0 (Scalar R) => exact (ROps eps maxv) : typeclass_instances.
  Local Notation dist_at := (dist_at eps maxv).
  Theorem C60_surf_closest_no_worse : forall solve2 s verts p t,
    surf_ok s -> length p = (sdim s - 1)%nat ->
    (forall x q, In (x, q) verts -> surf_point_at s (fst x) (snd x) = Ok q) ->
    surf_find_closest_parameter solve2 s verts p = Ok t ->
    exists d, dist_at s p t d /\ forall x q, In (x, q) verts -> d <= rdist q p.
  Proof. first [exact (surf_closest_no_worse eps maxv) | exact (surf_closest_no_worse eps) | exact surf_closest_no_worse | exact (surf_closest_no_worse maxv)]. Qed.
End C60_surf_closest_no_worse_statement.
Example C60_case : surf_ok flat_patch /\ sdim flat_patch = 4%nat.
Proof. split; [exact flat_patch_ok|reflexivity]. Qed.
Print Assumptions C60_surf_closest_no_worse.

Section C47_line_search_outcome_statement.
  Variables eps maxv : R.
  Local Hint Extern 0 (Scalar R) => exact (ROps eps maxv) : typeclass_instances.
  Local Notation armijo := (armijo eps maxv).
  Local Notation direction := (direction eps maxv).
  Theorem C47_line_search_outcome : forall cost x0 f0 step norm df0 tol n,
    answers cost ->
    exists l k, line_search n cost x0 f0 step norm df0 tol (MkLS 1 x0 (Some f0) 0) = Ok l /\
    ls_t l = (/ 2) ^ k /\ (k <= n)%nat /\ (ls_it l <= n)%nat /\
    (forall i, (i < k)%nat -> ~ armijo cost x0 f0 step df0 ((/ 2) ^ i)) /\
    ((armijo cost x0 f0 step df0 (ls_t l) /\ ls_x l = vadd x0 (vscale step (ls_t l)) /\ exists f, ls_f l = Some f /\ cost (ls_x l) = Ok f /\ f < f0 + ls_t l * df0 / 10)
    \/ ls_t l * norm < tol \/ k = n).
  Proof. first [exact (line_search_outcome eps maxv) | exact (line_search_outcome eps) | exact line_search_outcome | exact (line_search_outcome maxv)]. Qed.
End C47_line_search_outcome_statement.
Example C47_case_answers : answers quad.
Proof. intros x; left; eexists; reflexivity. Qed.
Print Assumptions C47_line_search_outcome.

Section C47_line_search_accepts_statement.
  Variables eps maxv : R.
  Local Hint Extern 0 (Scalar R) => exact (ROps eps maxv) : typeclass_instances.
  Local Notation armijo := (armijo eps maxv).
  Local Notation direction := (direction eps maxv).
  Theorem C47_line_search_accepts : forall cost x0 f0 step norm df0 tol n L N,
    answers cost -> df0 < 0 -> 0 <= norm ->
    (forall t, 0 < t <= 1 -> exists f, cost (vadd x0 (vscale step t)) = Ok f /\ f <= f0 + t * df0 + L * (t * t)) ->
    L * (/ 2) ^ N < 9 / 10 * - df0 -> (N < n)%nat -> tol <= (/ 2) ^ N * norm ->
    exists l k, line_search n cost x0 f0 step norm df0 tol (MkLS 1 x0 (Some f0) 0) = Ok l /\ (k <= N)%nat /\ ls_t l = (/ 2) ^ k /\
    ls_x l = vadd x0 (vscale step (ls_t l)) /\ exists f, ls_f l = Some f /\ cost (ls_x l) = Ok f /\ f < f0.
  Proof. first [exact (line_search_accepts eps maxv) | exact (line_search_accepts eps) | exact line_search_accepts | exact (line_search_accepts maxv)]. Qed.
End C47_line_search_accepts_statement.
Example C47_case : answers quad /\ (forall t, 0 < t <= 1 -> exists f, quad (vadd (SO := ROps eps0 maxv0) [1] (vscale (SO := ROps eps0 maxv0) [-8] t)) = Ok f /\ f <= 4 + t * -64 + 256 * (t * t)) /\ 256 * (/ 2) ^ 3 < 9 / 10 * - -64.
Proof. split; [intros x; left; eexists; reflexivity|]; split; [intros t Ht; eexists; split; [reflexivity|]; unfold rc; cbn; rs; nra|lra]. Qed.
Print Assumptions C47_line_search_accepts.

Section C61_bfgs_secant_statement.
  Variables eps maxv : R.
  Local Hint Extern 0 (Scalar R) => exact (ROps eps maxv) : typeclass_instances.
  Local Notation armijo := (armijo eps maxv).
  Local Notation direction := (direction eps maxv).
  Theorem C61_bfgs_secant : forall n h y s,
    mat_ok n h -> length y = n -> length s = n -> dotp n y s <> 0 ->
    forall i, (i < n)%nat -> rc i (mat_vec (bfgs_update h y s) y) = rc i s.
  Proof. first [exact (bfgs_secant eps maxv) | exact (bfgs_secant eps) | exact bfgs_secant | exact (bfgs_secant maxv)]. Qed.
End C61_bfgs_secant_statement.
Example C61_case_secant : mat_ok 2 id2 /\ dotp 2 [1; 3] [2; 1] <> 0.
Proof. split; [exact (proj1 id2_ok)|unfold dotp, rc; cbn; lra]. Qed.
Print Assumptions C61_bfgs_secant.

Section C61_bfgs_symmetric_statement.
  Variables eps maxv : R.
  Local Hint Extern 0 (Scalar R) => exact (ROps eps maxv) : typeclass_instances.
  Local Notation armijo := (armijo eps maxv).
  Local Notation direction := (direction eps maxv).
  Theorem C61_bfgs_symmetric : forall n h y s,
    mat_ok n h -> length y = n -> length s = n -> symmetric n h -> symmetric n (bfgs_update h y s).
  Proof. first [exact (bfgs_symmetric eps maxv) | exact (bfgs_symmetric eps) | exact bfgs_symmetric | exact (bfgs_symmetric maxv)]. Qed.
End C61_bfgs_symmetric_statement.
Example C61_case_symmetric : symmetric 2 id2.
Proof. exact (proj1 (proj2 id2_ok)). Qed.
Print Assumptions C61_bfgs_symmetric.

Section C61_bfgs_posdef_statement.
  Variables eps maxv : R.
  Local Hint Extern 0 (Scalar R) => exact (ROps eps maxv) : typeclass_instances.
  Local Notation armijo := (armijo eps maxv).
  Local Notation direction := (direction eps maxv).
  Theorem C61_bfgs_posdef : forall n h y s,
    mat_ok n h -> length y = n -> length s = n -> symmetric n h -> posdef n h -> 0 < dotp n y s ->
    posdef n (bfgs_update h y s).
  Proof. first [exact (bfgs_posdef eps maxv) | exact (bfgs_posdef eps) | exact bfgs_posdef | exact (bfgs_posdef maxv)]. Qed.
End C61_bfgs_posdef_statement.
Example C61_case : mat_ok 2 id2 /\ symmetric 2 id2 /\ posdef 2 id2 /\ 0 < dotp 2 [1; 3] [2; 1].
Proof. split; [apply id2_ok|]; split; [apply id2_ok|]; split; [apply id2_ok|unfold dotp, rc; cbn; lra]. Qed.
Print Assumptions C61_bfgs_posdef.

Section C61_direction_descends_statement.
  Variables eps maxv : R.
  Local Hint Extern 0 (Scalar R) => exact (ROps eps maxv) : typeclass_instances.
  Local Notation armijo := (armijo eps maxv).
  Local Notation direction := (direction eps maxv).
  Theorem C61_direction_descends : forall n h g,
    mat_ok n h -> length g = n -> posdef n h -> nonzero n g -> dotp n g (direction h g) < 0.
  Proof. first [exact (direction_descends eps maxv) | exact (direction_descends eps) | exact direction_descends | exact (direction_descends maxv)]. Qed.
End C61_direction_descends_statement.
Example C61_case_direction : posdef 2 id2 /\ nonzero 2 [0; 5].
Proof. split; [apply id2_ok|exists 1%nat; split; [lia|unfold rc; cbn; lra]]. Qed.
Print Assumptions C61_direction_descends.

Section C61_bfgs_best_statement.
  Variables eps maxv : R.
  Local Hint Extern 0 (Scalar R) => exact (ROps eps maxv) : typeclass_instances.
  Local Notation armijo := (armijo eps maxv).
  Local Notation direction := (direction eps maxv).
  Theorem C61_bfgs_best : forall fuel cost gradient tol ctol max x0 r,
    bfgs_run fuel cost gradient tol ctol max x0 = Ok r ->
    exists c0 x c, cost x0 = Ok c0 /\ r = Some (x, c) /\ cost x = Ok c /\ c <= c0.
  Proof. first [exact (bfgs_best eps maxv) | exact (bfgs_best eps) | exact bfgs_best | exact (bfgs_best maxv)]. Qed.
End C61_bfgs_best_statement.
Print Assumptions C61_bfgs_best.

Section C61_bfgs_run_terminates_statement.
  Context {T : Type} {SO : Scalar T}.
  Local Open Scope scalar_scope.

  Theorem C61_bfgs_run_terminates : forall cost gradient tol ctol max x0,
    answers cost -> answers gradient ->
    bfgs_run (S max) cost gradient tol ctol max x0 <> OutOfFuel /\ forall e, bfgs_run (S max) cost gradient tol ctol max x0 <> Panic e.
  Proof. exact bfgs_run_terminates. Qed.
End C61_bfgs_run_terminates_statement.
Example C61_case_answers : answers quad /\ answers quad_grad.
Proof. split; intros x; left; eexists; reflexivity. Qed.
Print Assumptions C61_bfgs_run_terminates.

Section C61_bfgs_step_descends_refuted_statement.
  Local Existing Instance FOps.
  Local Open Scope float_scope.
  Theorem C61_bfgs_step_descends_refuted : exists (cost : list float -> Res float) gradient s s',
    bfgs_next cost gradient 0x1p-30 s = Ok s' /\ (bs_max s <=? bs_iter s)%nat = false /\ cost (bs_x s) = Ok (bs_cost s) /\
    (bs_cost s <? bs_cost s') = true.
  Proof. exact bfgs_step_descends_refuted. Qed.
End C61_bfgs_step_descends_refuted_statement.
Print Assumptions C61_bfgs_step_descends_refuted.
