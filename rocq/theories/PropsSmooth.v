(** * Properties of smoothness, ends and corners, and of rounding

    Only statements: each theorem is proved elsewhere; its statement is repeated here, followed by
    a concrete case that meets its hypotheses. *)
From Coq Require Import Floats.
From Coq Require Import Reals Lra Lia Psatz ZArith List String.
From Verif Require Import Base BaseFacts Scalar RSum BSplineSpec BSpline KnotModel KnotSpec KnotFacts KnotMisc VecFacts MiscModel CurveModel CurveKnotModel CurveSpec CurveProofs CurveGeom CurveGeom2 Decompose
  SurfaceModel SurfaceSpec SurfaceProofs BBoxModel CurveDeriv SmoothProofs EndTangent SurfCorners SurfContinuity FloatRefuted Demo.
Import ListNotations.
Local Open Scope R_scope.


(** a rational cubic with a double knot in the middle *)
Definition cubic : Curve R := MkCurve 3 3 [[0; 0; 1]; [2; 4; 2]; [3; 1; 1]; [5; 0; 1]; [6; 1; 3]; [7; 0; 1]] [0; 0; 0; 0; 1; 1; 2; 2; 2; 2].
Lemma cubic_ok : curve_ok cubic.
Proof. constructor; cbn; try lia; [repeat constructor|]. constructor; cbn; try lia; unfold kf; cbn; try lra. repeat constructor; lra. Qed.
Lemma cubic_eps : curve_eps eps0 cubic.
Proof. unfold curve_eps, eps_ok, eps0, kf. cbn. lra. Qed.
Lemma cubic_pos : pos_weights cubic.
Proof. intros j Hj. cbn in Hj. unfold cpc, rc. destruct j as [|[|[|[|[|[|j]]]]]]; cbn; try lra. lia. Qed.
Lemma cubic_mult : multiplicity (cknots cubic) 1 = 2%nat.
Proof. unfold multiplicity, cubic. cbn [cknots count_occ]. repeat (destruct (Req_EM_T _ _); try lra). reflexivity. Qed.
(** a rational patch *)
Definition sheet : Surf R := MkSurf 4 2 1 [0; 0; 0; 1; 2; 2; 2] [0; 0; 1; 1]
  [ [[0; 0; 0; 1]; [0; 1; 0; 1]]; [[2; 0; 2; 2]; [2; 2; 1; 2]]; [[2; 0; 1; 1]; [2; 1; 1; 1]]; [[3; 0; 0; 1]; [3; 1; 0; 1]] ].
Lemma sheet_ok : surf_ok sheet /\ surf_eps eps0 sheet /\ spos sheet.
Proof.
  split; [|split].
  - constructor; cbn; try lia; try (repeat constructor; fail).
    + constructor; cbn; try lia; unfold kf; cbn; try lra. repeat constructor; lra.
    + constructor; cbn; try lia; unfold kf; cbn; try lra. repeat constructor; lra.
  - split; unfold eps_ok, eps0, kf; cbn; lra.
  - intros a b Ha Hb. cbn in Ha, Hb. unfold spc, rc. destruct a as [|[|[|[|a]]]]; [| | | |lia]; (destruct b as [|[|b]]; [| |lia]); cbn; lra.
Qed.


Section C78_returned_exists_statement.
  Variables eps maxv : R.
  Local Hint Extern 0 (Scalar R) => exact (ROps eps maxv) : typeclass_instances.
  Local Notation returned := (returned eps maxv).

  Theorem C78_returned_exists : forall c i,
    curve_ok c -> curve_eps eps c -> pos_weights c -> (i < cdim c - 1)%nat ->
    exists D, returned c i D /\ forall u, dom0 c <= u <= dom1 c -> D 0%nat u = nurbs c i u.
  Proof. first [exact (returned_exists eps maxv) | exact (returned_exists eps) | exact returned_exists]. Qed.
End C78_returned_exists_statement.
Section C78_case_section.
  Local Hint Extern 0 (Scalar R) => exact (ROps eps0 maxv0) : typeclass_instances.
  Example C78_case : curve_ok cubic /\ curve_eps eps0 cubic /\ pos_weights cubic /\ dom0 cubic < 1 < dom1 cubic /\ (1 + multiplicity (cknots cubic) 1 = cdeg cubic)%nat.
  Proof. split; [exact cubic_ok|]. split; [exact cubic_eps|]. split; [exact cubic_pos|]. split; [unfold dom0, dom1, kf; cbn; lra|]. rewrite cubic_mult. reflexivity. Qed.
End C78_case_section.
Print Assumptions C78_returned_exists.

Section C78_derivatives_smooth_statement.
  Variables eps maxv : R.
  Local Hint Extern 0 (Scalar R) => exact (ROps eps maxv) : typeclass_instances.
  Local Notation returned := (returned eps maxv).

  Theorem C78_derivatives_smooth : forall c i D u r,
    curve_ok c -> curve_eps eps c -> pos_weights c -> (i < cdim c - 1)%nat -> returned c i D ->
    dom0 c < u < dom1 c -> (multiplicity (cknots c) u = 0 \/ S r + multiplicity (cknots c) u <= cdeg c)%nat ->
    derivable_pt_lim (D r) u (D (S r) u).
  Proof. first [exact (derivatives_smooth eps maxv) | exact (derivatives_smooth eps) | exact derivatives_smooth]. Qed.
End C78_derivatives_smooth_statement.
Section C78_case_smooth_section.
  Local Hint Extern 0 (Scalar R) => exact (ROps eps0 maxv0) : typeclass_instances.
  Example C78_case_smooth : exists D, returned eps0 maxv0 cubic 1 D /\ derivable_pt_lim (D 0%nat) 1 (D 1%nat 1).
  Proof. destruct (returned_exists eps0 maxv0 cubic 1 cubic_ok cubic_eps cubic_pos) as (D & HD & _); [cbn; lia|]. exists D. split; [exact HD|]. apply (derivatives_smooth eps0 maxv0 cubic 1 D 1 0 cubic_ok cubic_eps cubic_pos); [cbn; lia|exact HD|unfold dom0, dom1, kf; cbn; lra|right; rewrite cubic_mult; cbn; lia]. Qed.
End C78_case_smooth_section.
Print Assumptions C78_derivatives_smooth.

Section C78_derivatives_continuous_statement.
  Variables eps maxv : R.
  Local Hint Extern 0 (Scalar R) => exact (ROps eps maxv) : typeclass_instances.
  Local Notation returned := (returned eps maxv).

  Theorem C78_derivatives_continuous : forall c i D u r,
    curve_ok c -> curve_eps eps c -> pos_weights c -> (i < cdim c - 1)%nat -> returned c i D ->
    dom0 c < u < dom1 c -> (multiplicity (cknots c) u = 0 \/ r + multiplicity (cknots c) u <= cdeg c)%nat ->
    continuity_pt (D r) u.
  Proof. first [exact (derivatives_continuous eps maxv) | exact (derivatives_continuous eps) | exact derivatives_continuous]. Qed.
End C78_derivatives_continuous_statement.
Print Assumptions C78_derivatives_continuous.

Theorem C78_corner_at_full_multiplicity : forall eps maxv,
    0 < eps <= 1 ->
    exists c u, curve_ok c /\ curve_eps eps c /\ pos_weights c /\ dom0 c < u < dom1 c /\ multiplicity (cknots c) u = cdeg c /\
    forall D, returned eps maxv c 0 D -> forall l, ~ derivable_pt_lim (D 0%nat) u l.
Proof. exact (@corner_at_full_multiplicity). Qed.
Print Assumptions C78_corner_at_full_multiplicity.

Section C79_tangent_at_start_statement.
  Variables eps maxv : R.
  Local Hint Extern 0 (Scalar R) => exact (ROps eps maxv) : typeclass_instances.

  Theorem C79_tangent_at_start : forall c,
    curve_ok c -> curve_eps eps c -> pos_weights c -> (1 <= cdeg c)%nat ->
    (forall j, (j <= cdeg c)%nat -> kf (cknots c) j = kf (cknots c) 0) ->
    exists t, tangent_at c (dom0 c) = Ok t /\ length t = (cdim c - 1)%nat /\
    forall i, (i < cdim c - 1)%nat ->
    rc i t = INR (cdeg c) / (kf (cknots c) (cdeg c + 1) - kf (cknots c) (cdeg c))
    * (cpc c (cdim c - 1) 1 / cpc c (cdim c - 1) 0) * (ctrl_affine c i 1 - ctrl_affine c i 0).
  Proof. first [exact (tangent_at_start eps maxv) | exact (tangent_at_start eps) | exact tangent_at_start]. Qed.
End C79_tangent_at_start_statement.
Section C79_case_section.
  Local Hint Extern 0 (Scalar R) => exact (ROps eps0 maxv0) : typeclass_instances.
  Example C79_case : curve_ok cubic /\ curve_eps eps0 cubic /\ pos_weights cubic /\ (1 <= cdeg cubic)%nat /\ (forall j, (j <= cdeg cubic)%nat -> kf (cknots cubic) j = kf (cknots cubic) 0).
  Proof. split; [exact cubic_ok|]. split; [exact cubic_eps|]. split; [exact cubic_pos|]. split; [cbn; lia|]. intros j Hj. cbn in Hj. unfold kf. destruct j as [|[|[|[|j]]]]; [| | | |lia]; reflexivity. Qed.
End C79_case_section.
Print Assumptions C79_tangent_at_start.

Section C79_tangent_at_end_statement.
  Variables eps maxv : R.
  Local Hint Extern 0 (Scalar R) => exact (ROps eps maxv) : typeclass_instances.

  Theorem C79_tangent_at_end : forall c,
    curve_ok c -> curve_eps eps c -> pos_weights c -> (1 <= cdeg c)%nat ->
    (forall j, (length (cpts c) <= j <= length (cpts c) + cdeg c)%nat -> kf (cknots c) j = kf (cknots c) (length (cpts c))) ->
    exists t, tangent_at c (dom1 c) = Ok t /\ length t = (cdim c - 1)%nat /\
    forall i, (i < cdim c - 1)%nat ->
    rc i t = INR (cdeg c) / (kf (cknots c) (clast c + 1) - kf (cknots c) (clast c))
    * (cpc c (cdim c - 1) (clast c - 1) / cpc c (cdim c - 1) (clast c))
    * (ctrl_affine c i (clast c) - ctrl_affine c i (clast c - 1)).
  Proof. first [exact (tangent_at_end eps maxv) | exact (tangent_at_end eps) | exact tangent_at_end]. Qed.
End C79_tangent_at_end_statement.
Section C79_case_end_section.
  Local Hint Extern 0 (Scalar R) => exact (ROps eps0 maxv0) : typeclass_instances.
  Example C79_case_end : exists t, tangent_at cubic 2 = Ok t /\ rc 1 t = - 3 * (3 / 1) * (1 / 3) * 1.
  Proof. destruct (tangent_at_end eps0 maxv0 cubic cubic_ok cubic_eps cubic_pos) as (t & E & L & V); [cbn; lia|intros j Hj; cbn in Hj; unfold kf; destruct j as [|[|[|[|[|[|[|[|[|[|j]]]]]]]]]]; try lia; reflexivity|]. exists t. split; [exact E|]. rewrite V by (cbn; lia). unfold ctrl_affine, cpc, rc, kf. cbn. field. Qed.
End C79_case_end_section.
Print Assumptions C79_tangent_at_end.

Section C80_surface_corners_statement.
  Variables eps maxv : R.
  Local Hint Extern 0 (Scalar R) => exact (ROps eps maxv) : typeclass_instances.

  Theorem C80_surface_corners : forall s e f,
    surf_ok s -> surf_eps eps s -> spos s ->
    clamped_knots (suk s) (sdu s) (nrow s) -> clamped_knots (svk s) (sdv s) (ncol s) ->
    exists q, surf_point_at s (u_end e s) (v_end f s) = Ok q /\ length q = (sdim s - 1)%nat /\
    forall i, (i < sdim s - 1)%nat ->
    rc i q = spc s i (end_index e (nrow s)) (end_index f (ncol s))
    / spc s (sdim s - 1) (end_index e (nrow s)) (end_index f (ncol s)).
  Proof. first [exact (surface_corners eps maxv) | exact (surface_corners eps) | exact surface_corners]. Qed.
End C80_surface_corners_statement.
Section C80_case_section.
  Local Hint Extern 0 (Scalar R) => exact (ROps eps0 maxv0) : typeclass_instances.
  Example C80_case : surf_ok sheet /\ surf_eps eps0 sheet /\ spos sheet /\ clamped_knots (suk sheet) (sdu sheet) (nrow sheet) /\ clamped_knots (svk sheet) (sdv sheet) (ncol sheet).
  Proof. destruct sheet_ok as (A & B & C). split; [exact A|]. split; [exact B|]. split; [exact C|]. split; split; intros j Hj; cbn in Hj; unfold kf; destruct j as [|[|[|[|[|[|[|j]]]]]]]; try lia; reflexivity. Qed.
End C80_case_section.
Print Assumptions C80_surface_corners.

Section C55_surf_point_continuous_statement.
  Variables eps maxv : R.
  Local Hint Extern 0 (Scalar R) => exact (ROps eps maxv) : typeclass_instances.

  Theorem C55_surf_point_continuous : forall s i,
    surf_ok s -> surf_eps eps s -> surf_cont s -> spos s -> (i < sdim s - 1)%nat ->
    exists f, continuous2 s f /\
    forall u v, in_dom s u v -> exists q, surf_point_at s u v = Ok q /\ rc i q = f u v.
  Proof. first [exact (surf_point_continuous eps maxv) | exact (surf_point_continuous eps) | exact surf_point_continuous]. Qed.
End C55_surf_point_continuous_statement.
Section C55_case_surface_section.
  Local Hint Extern 0 (Scalar R) => exact (ROps eps0 maxv0) : typeclass_instances.
  Example C55_case_surface : surf_ok sheet /\ surf_eps eps0 sheet /\ surf_cont sheet /\ spos sheet.
  Proof. destruct sheet_ok as (A & B & C). split; [exact A|]. split; [exact B|]. split; [|exact C]. split; intros j H1 H2; cbn in H1, H2; [assert (j = 3%nat) as -> by lia|lia]; unfold kf; cbn; lra. Qed.
End C55_case_surface_section.
Print Assumptions C55_surf_point_continuous.

Section C03_basis_sum_float_refuted_statement.
  Local Existing Instance FOps.
  Local Open Scope float_scope.
  Theorem C03_basis_sum_float_refuted : exists a h x y : float, (a <? h) = true /\ find_span [a; a; h; h] 1 1 a = Ok 1%nat /\
    basis_functions [a; a; h; h] 1 a 1 = Ok [x; y] /\ (x + y =? 1) = false.
  Proof. exact basis_sum_float_refuted. Qed.
End C03_basis_sum_float_refuted_statement.
Print Assumptions C03_basis_sum_float_refuted.

Section C05_box_float_refuted_statement.
  Local Existing Instance FOps.
  Local Open Scope float_scope.
  Theorem C05_box_float_refuted : exists (c : Curve float) bb u q, c = MkCurve 2 2 [[3; 1]; [3; 1]; [3; 1]] [0; 0; 0; 1; 1; 1] /\ (0 <? u) = true /\ (u <? 1) = true /\
    bb_of_curve c = Ok bb /\ point_at c u = Ok q /\ bb_contains 1 bb q = false.
  Proof. exact box_float_refuted. Qed.
End C05_box_float_refuted_statement.
Print Assumptions C05_box_float_refuted.

Section C06_endpoint_float_refuted_statement.
  Local Existing Instance FOps.
  Local Open Scope float_scope.
  Theorem C06_endpoint_float_refuted : exists (c : Curve float) a b p q rest, knots_domain c = Ok (a, b) /\ cknots c = [a; a; b; b] /\ cdeg c = 1%nat /\ (a <? b) = true /\
    dehomogenized_control_points c = Ok ([p] :: rest) /\ point_at c a = Ok [q] /\ (q =? p) = false.
  Proof. exact endpoint_float_refuted. Qed.
End C06_endpoint_float_refuted_statement.
Print Assumptions C06_endpoint_float_refuted.

Section C09_invert_twice_float_refuted_statement.
  Local Existing Instance FOps.
  Local Open Scope float_scope.
  Theorem C09_invert_twice_float_refuted : exists (c d e : Curve float) x y, nth 3 (cknots c) 0 = x /\ nth 3 (cknots e) 0 = y /\
    forallb (fun ab => (fst ab <=? snd ab)) (combine (cknots c) (skipn 1 (cknots c))) = true /\ invert c = Ok d /\ invert d = Ok e /\ (x =? y) = false.
  Proof. exact invert_twice_float_refuted. Qed.
End C09_invert_twice_float_refuted_statement.
Print Assumptions C09_invert_twice_float_refuted.
