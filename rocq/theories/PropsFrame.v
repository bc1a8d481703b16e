(** * Properties of moving frames and swept surfaces

    Only statements: each theorem is proved elsewhere; its statement is repeated here, followed by
    a concrete case that meets its hypotheses. *)
From Coq Require Import Floats.
From Coq Require Import Reals Lra Lia ZArith List Sorted.
From Verif Require Import Base BaseFacts Scalar RSum KnotModel KnotSpec KnotFacts KnotMisc VecFacts CurveModel CurveSpec CurveGeom2 CurveShapes InterpProofs Decompose
  MergeModel MergeProofs SurfaceModel SurfaceSpec LoftModel LoftProofs LoftMissed LoftCases
  ArcModel ArcProofs ArcMain ArcTheorems RevolveProofs FrameModel FrameProofs FrameTheorems FrameSweep FrameCases FrameRefuted Demo.
Import ListNotations.
Local Open Scope R_scope.
Local Hint Extern 0 (Trig R) => exact TrigR : typeclass_instances.
Local Hint Extern 0 (Acos R) => exact AcosR : typeclass_instances.


Section C71_frames_spec_statement.
  Variables eps maxv : R.
  Local Hint Extern 0 (Scalar R) => exact (ROps eps maxv) : typeclass_instances.

  Theorem C71_frames_spec : forall c params,
    0 < eps < 1 -> 1 <= maxv ->
    curve_ok c -> curve_eps eps c -> pos_weights c -> cdim c = 4%nat -> params <> [] ->
    Forall (fun u => dom0 c <= u <= dom1 c) params ->
    (forall u t, In u params -> tangent_at c u = Ok t -> dot t t <> 0) ->
    exists fs, compute_frenet_frames c params = Ok fs /\ length fs = length params /\
    (forall i, (i < length params)%nat -> let f := nth i fs frame0 in
    point_at c (nth i params 0) = Ok (fr_pos f) /\ length (fr_pos f) = 3%nat /\
    (exists t, tangent_at c (nth i params 0) = Ok t /\ forall l, rc l (fr_tan f) = rc l t / sqrt (dot t t)) /\
    orthoframe (fr_tan f) (fr_nor f) (fr_bin f)) /\
    (forall i, (S i < length params)%nat -> follows (nth i fs frame0) (nth (S i) fs frame0)).
  Proof. first [exact (frames_spec eps maxv) | exact (frames_spec eps) | exact frames_spec]. Qed.
End C71_frames_spec_statement.
Section C71_case_section.
  Local Hint Extern 0 (Scalar R) => exact (ROps eps0 1) : typeclass_instances.
  Example C71_case : curve_ok rail1 /\ curve_eps eps0 rail1 /\ pos_weights rail1 /\ cdim rail1 = 4%nat /\ Forall (fun u => dom0 rail1 <= u <= dom1 rail1) [0; 1 / 2; 1] /\
    (forall u t, In u [0; 1 / 2; 1] -> tangent_at rail1 u = Ok t -> dot t t <> 0) /\ compute_frenet_frames rail1 [0; 1 / 2; 1] = Ok (map straight [0; 1 / 2; 1]).
  Proof. assert (D : dom0 rail1 = 0 /\ dom1 rail1 = 1) by (split; reflexivity). destruct D as (D0 & D1). rewrite D0, D1. destruct (sec_ok 0 0 0 0 0 1 1 eq_refl) as (A & B & C & _). do 3 (split; [assumption|]). split; [reflexivity|].
    assert (F : Forall (fun u => 0 <= u <= 1) [0; 1 / 2; 1]) by (repeat (apply Forall_cons; [lra|]); constructor). split; [exact F|]. split; [|apply straight_frames; [discriminate|exact F]].
    intros u t Hu E. rewrite Forall_forall in F. rewrite (rail_tangent u (F u Hu)) in E. injection E as <-. rewrite dot3. lra. Qed.
End C71_case_section.
(** a quarter turn of the tangent *)
Section C71_case_turn_section.
  Local Hint Extern 0 (Scalar R) => exact (ROps eps0 1) : typeclass_instances.
  Example C71_case_turn : forall n1, next_normal [0; 0; 1] [1; 0; 0] [0; -1; 0] = n1 -> carried [0; 0; 1] [1; 0; 0] [0; -1; 0] n1.
  Proof. intros n1 <-. apply (next_normal_spec eps0 1); try reflexivity; try (rewrite dot3; lra); unfold eps0; lra. Qed.
End C71_case_turn_section.
Print Assumptions C71_frames_spec.

Section C71_frame_places_statement.
  Variables eps maxv : R.
  Local Hint Extern 0 (Scalar R) => exact (ROps eps maxv) : typeclass_instances.

  Theorem C71_frame_places : forall f p,
    orthoframe (fr_tan f) (fr_nor f) (fr_bin f) -> length p = 3%nat ->
    apply_affine 4 (frame_matrix f) p = placed f p.
  Proof. first [exact (frame_places eps maxv) | exact (frame_places eps) | exact frame_places]. Qed.
End C71_frame_places_statement.
Section C71_case_places_section.
  Local Hint Extern 0 (Scalar R) => exact (ROps eps0 1) : typeclass_instances.
  Example C71_case_places : orthoframe (fr_tan (straight 2)) (fr_nor (straight 2)) (fr_bin (straight 2)) /\ apply_affine 4 (frame_matrix (straight 2)) [1; 2; 3] = [-1; -2; 5].
  Proof. split; [apply straight_ortho|]. rewrite (frame_places eps0 1) by (apply straight_ortho || reflexivity). unfold placed, rc. cbn [straight fr_pos fr_tan fr_nor fr_bin map seq nth]. do 3 (apply f_equal2; [ring|]). reflexivity. Qed.
End C71_case_places_section.
Print Assumptions C71_frame_places.

Section C71_placed_rigid_statement.
  Variables eps maxv : R.
  Local Hint Extern 0 (Scalar R) => exact (ROps eps maxv) : typeclass_instances.

  Theorem C71_placed_rigid : forall f p q,
    orthoframe (fr_tan f) (fr_nor f) (fr_bin f) -> length p = 3%nat -> length q = 3%nat ->
    rdist (placed f p) (placed f q) = rdist p q.
  Proof. first [exact (placed_rigid eps maxv) | exact (placed_rigid eps) | exact placed_rigid]. Qed.
End C71_placed_rigid_statement.
Section C71_case_rigid_section.
  Local Hint Extern 0 (Scalar R) => exact (ROps eps0 1) : typeclass_instances.
  Example C71_case_rigid : orthoframe (fr_tan (straight 2)) (fr_nor (straight 2)) (fr_bin (straight 2)) /\ rdist [0; 0; 0] [3; 4; 0] = 5.
  Proof. split; [apply straight_ortho|]. unfold rdist, rc. cbn [length rsum nth]. transitivity (sqrt (5 * 5)); [f_equal; ring|apply sqrt_square; lra]. Qed.
End C71_case_rigid_section.
Print Assumptions C71_placed_rigid.

Theorem C71_frames_empty_refuted : forall {T} {SO : Scalar T} {TO : Trig T} {AO : Acos T} (c : Curve T),
    panics (compute_frenet_frames c []).
Proof. exact (@frames_empty_refuted). Qed.
Print Assumptions C71_frames_empty_refuted.

Section C71_frames_cusp_refuted_statement.
  Local Existing Instance FOps.
  Local Open Scope float_scope.
  Theorem C71_frames_cusp_refuted : forall (TO : Trig float) (AO : Acos float),
    try_new 4 2 (cpts cusped) (cknots cusped) = Ok cusped /\ tangent_at cusped 0 = Ok [0; 0; 0] /\ point_at cusped 0 = Ok [0; 0; 0] /\
    exists f, compute_frenet_frames cusped [0] = Ok [f] /\ all_nan (fr_tan f) /\ all_nan (fr_nor f) /\ all_nan (fr_bin f).
  Proof. exact frames_cusp_refuted. Qed.
End C71_frames_cusp_refuted_statement.
Print Assumptions C71_frames_cusp_refuted.

Section C72_sweep_spec_statement.
  Variables eps maxv : R.
  Local Hint Extern 0 (Scalar R) => exact (ROps eps maxv) : typeclass_instances.
  Local Notation swept_column := (swept_column eps maxv).

  Theorem C72_sweep_spec : forall solve profile rail dv s,
    exact_solver solve -> 0 < eps < 1 -> 1 <= maxv -> (forall d, dv = Some d -> (1 <= d)%nat) ->
    curve_ok rail -> curve_eps eps rail -> pos_weights rail -> cdim rail = 4%nat ->
    (forall u t, dom0 rail <= u <= dom1 rail -> tangent_at rail u = Ok t -> dot t t <> 0) ->
    curve_ok profile -> curve_eps eps profile -> pos_weights profile -> clamped profile -> cdim profile = 4%nat -> (1 <= cdeg profile)%nat ->
    separated eps (cknots profile) ->
    exists us fs, length us = (2 * length (cpts rail))%nat /\ nth 0 us 0 = dom0 rail /\ nth (length us - 1) us 0 = dom1 rail /\
    compute_frenet_frames rail us = Ok fs /\ length fs = length us /\
    ((forall i, (i < length (cpts profile))%nat -> spread eps (swept_column fs profile i)) ->
    try_sweep solve profile rail dv = Ok s ->
    surf_ok s /\ sdim s = 4%nat /\ sdu s = cdeg profile /\ u0 s = 0 /\ u1 s = dom1 profile - dom0 profile /\ v0 s = 0 /\ v1 s = 1 /\
    forall u, dom0 profile <= u <= dom1 profile -> exists q, point_at profile u = Ok q /\
    surf_point_at s (u - dom0 profile) 0 = Ok (placed (nth 0 fs frame0) q) /\
    surf_point_at s (u - dom0 profile) 1 = Ok (placed (nth (length fs - 1) fs frame0) q)).
  Proof. first [exact (sweep_spec eps maxv) | exact (sweep_spec eps) | exact sweep_spec]. Qed.
End C72_sweep_spec_statement.
Section C72_case_section.
  Local Hint Extern 0 (Scalar R) => exact (ROps eps0 1) : typeclass_instances.
  Example C72_case : exact_solver solve4id /\ curve_ok rail1 /\ curve_eps eps0 rail1 /\ pos_weights rail1 /\
    (forall u t, dom0 rail1 <= u <= dom1 rail1 -> tangent_at rail1 u = Ok t -> dot t t <> 0) /\
    curve_ok profile1 /\ curve_eps eps0 profile1 /\ pos_weights profile1 /\ clamped profile1 /\ separated eps0 (cknots profile1) /\
    sweep_parameters rail1 = Ok [0; 1 / 3; 2 / 3; 1] /\ compute_frenet_frames rail1 [0; 1 / 3; 2 / 3; 1] = Ok (map straight [0; 1 / 3; 2 / 3; 1]) /\
    (forall i, (i < 2)%nat -> spread eps0 (swept_column eps0 1 (map straight [0; 1 / 3; 2 / 3; 1]) profile1 i)) /\
    exists s, try_sweep solve4id profile1 rail1 None = Ok s.
  Proof. split; [exact solve4id_exact|]. destruct (sec_ok 0 0 0 0 0 1 1 eq_refl) as (A & B & C & _). do 3 (split; [assumption|]). split.
    { change (dom0 rail1) with 0. change (dom1 rail1) with 1. intros u t Hu E. rewrite (rail_tangent u Hu) in E. injection E as <-. rewrite dot3. lra. }
    destruct (sec_ok 0 0 0 1 0 0 1 eq_refl) as (A' & B' & C' & D' & _). do 4 (split; [assumption|]). split.
    { intros x y Hx Hy. cbn in Hx, Hy. destruct Hx as [<-|[<-|[<-|[<-|[]]]]], Hy as [<-|[<-|[<-|[<-|[]]]]]; ((left; reflexivity) || (right; unfold eps0, Rabs; destruct (Rcase_abs _); lra)). }
    split; [exact rail_parameters|]. split; [apply straight_frames; [discriminate|repeat (apply Forall_cons; [lra|]); constructor]|]. split; [exact swept_spread|exact swept_ok]. Qed.
End C72_case_section.
Print Assumptions C72_sweep_spec.
