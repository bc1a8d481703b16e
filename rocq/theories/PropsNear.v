(** * How far polylines and meshes are from the shapes they stand for

    Only statements: each theorem is proved elsewhere; its statement is repeated here, followed by
    a concrete case that meets its hypotheses. *)
From Coq Require Import Reals Lra Lia List.
From Verif Require Import Base BaseFacts Scalar RSum BSplineSpec BSpline KnotModel KnotSpec KnotFacts VecFacts CurveModel CurveSpec CurveProofs CurveMore CurveGeom
  SurfaceModel SurfaceSpec SurfaceProofs SurfaceSample SurfContinuity AdaptModel AdaptMain CurveLipschitz SurfLipschitz MeshNear AdaptNear CurveChord Demo PropsLipschitz PropsAdapt PropsSurfClosest PropsSurfClosestNear.
Import ListNotations.
Local Open Scope R_scope.


Section C95_regular_polyline_near_statement.
  Variables eps maxv : R.
  Local Hint Extern 0 (Scalar R) => exact (ROps eps maxv) : typeclass_instances.

  Theorem C95_regular_polyline_near : forall c a b n,
    curve_ok c -> curve_eps eps c -> pos_weights c -> curve_cont c -> (1 <= cdeg c)%nat ->
    dom0 c <= a -> a <= b -> b <= dom1 c -> (2 <= n)%nat ->
    exists ps, sample_regular_range c a b n = Ok ps /\ length ps = n /\
    (forall j s, (S j < n)%nat -> 0 <= s <= 1 -> exists u, a <= u <= b /\
    forall i K, (i < cdim c - 1)%nat -> 0 <= K -> rational_rate c i K ->
    Rabs ((1 - s) * rc i (nth j ps []) + s * rc i (nth (S j) ps []) - nurbs c i u) <= K * ((b - a) / (INR n - 1) / 2)) /\
    (forall u, a <= u <= b -> exists j s, (S j < n)%nat /\ 0 <= s <= 1 /\
    forall i K, (i < cdim c - 1)%nat -> 0 <= K -> rational_rate c i K ->
    Rabs ((1 - s) * rc i (nth j ps []) + s * rc i (nth (S j) ps []) - nurbs c i u) <= K * ((b - a) / (INR n - 1) / 2)).
  Proof. first [exact (regular_polyline_near eps maxv) | exact (regular_polyline_near eps) | exact regular_polyline_near]. Qed.
End C95_regular_polyline_near_statement.
Example C95_case_polyline : curve_ok demo /\ curve_eps eps0 demo /\ pos_weights demo /\ curve_cont demo /\ (1 <= cdeg demo)%nat /\ dom0 demo <= 1 / 2 /\ 3 / 2 <= dom1 demo /\ forall i, (i < 2)%nat -> rational_rate demo i 18.
Proof.
  split; [exact demo_ok|]. split; [exact demo_eps|]. split; [exact demo_pos|]. split; [exact demo_cont|]. split; [cbn; lia|].
  destruct demo_dom as (-> & ->). split; [lra|]. split; [lra|]. exact demo_rational.
Qed.
Print Assumptions C95_regular_polyline_near.

Section C95_mesh_near_statement.
  Variables eps maxv : R.
  Local Hint Extern 0 (Scalar R) => exact (ROps eps maxv) : typeclass_instances.

  Theorem C95_mesh_near : forall s m wu wv,
    surf_ok s -> surf_eps eps s -> surf_cont s -> (1 <= sdu s)%nat -> (1 <= sdv s)%nat ->
    on_surface s m -> narrow m wu wv -> covering s m ->
    (forall a b c x y z, In [a; b; c] (tfaces m) -> bary x y z -> exists u v, in_dom s u v /\
    forall i Ku Kv, (i < 3)%nat -> 0 <= Ku -> 0 <= Kv -> surf_rate s i Ku Kv -> Rabs (face_coord m i a b c x y z - snurbs s i u v) <= Ku * (wu / 2) + Kv * (wv / 2)) /\
    (forall u v, in_dom s u v -> exists a b c x y z, In [a; b; c] (tfaces m) /\ bary x y z /\
    forall i Ku Kv, (i < 3)%nat -> 0 <= Ku -> 0 <= Kv -> surf_rate s i Ku Kv -> Rabs (face_coord m i a b c x y z - snurbs s i u v) <= Ku * (wu / 2) + Kv * (wv / 2)).
  Proof. first [exact (mesh_near eps maxv) | exact (mesh_near eps) | exact mesh_near]. Qed.
End C95_mesh_near_statement.
Print Assumptions C95_mesh_near.

Section C95_regular_mesh_near_statement.
  Variables eps maxv : R.
  Local Hint Extern 0 (Scalar R) => exact (ROps eps maxv) : typeclass_instances.

  Theorem C95_regular_mesh_near : forall s du dv,
    surf_ok s -> surf_eps eps s -> spos s -> surf_cont s -> sdim s = 4%nat -> (1 <= sdu s)%nat -> (1 <= sdv s)%nat -> (1 <= du)%nat -> (1 <= dv)%nat ->
    exists m, regular_tessellate s du dv = Ok m /\
    (forall a b c x y z, In [a; b; c] (tfaces m) -> bary x y z -> exists u v, in_dom s u v /\
    forall i Ku Kv, (i < 3)%nat -> 0 <= Ku -> 0 <= Kv -> surf_rate s i Ku Kv ->
    Rabs (face_coord m i a b c x y z - snurbs s i u v) <= Ku * ((u1 s - u0 s) / INR du / 2) + Kv * ((v1 s - v0 s) / INR dv / 2)) /\
    (forall u v, in_dom s u v -> exists a b c x y z, In [a; b; c] (tfaces m) /\ bary x y z /\
    forall i Ku Kv, (i < 3)%nat -> 0 <= Ku -> 0 <= Kv -> surf_rate s i Ku Kv ->
    Rabs (face_coord m i a b c x y z - snurbs s i u v) <= Ku * ((u1 s - u0 s) / INR du / 2) + Kv * ((v1 s - v0 s) / INR dv / 2)).
  Proof. first [exact (regular_mesh_near eps maxv) | exact (regular_mesh_near eps) | exact regular_mesh_near]. Qed.
End C95_regular_mesh_near_statement.
Example C95_case_regular : surf_ok asf /\ surf_eps eps0 asf /\ spos asf /\ surf_cont asf /\ sdim asf = 4%nat /\ (1 <= sdu asf)%nat /\ (1 <= sdv asf)%nat /\ forall i, (i < 3)%nat -> surf_rate asf i 12 2.
Proof.
  split; [exact asf_ok|]. split; [exact asf_eps|]. split; [exact asf_pos|]. split; [exact asf_cont|]. split; [reflexivity|]. split; [cbn; lia|]. split; [cbn; lia|]. exact asf_surf_rate.
Qed.
Print Assumptions C95_regular_mesh_near.

Section C95_adaptive_mesh_near_statement.
  Variables eps maxv : R.
  Local Hint Extern 0 (Scalar R) => exact (ROps eps maxv) : typeclass_instances.

  Theorem C95_adaptive_mesh_near : forall s opts wu wv,
    surf_ok s -> surf_eps eps s -> surf_cont s -> sdim s = 4%nat -> (1 <= sdu s)%nat -> (1 <= sdv s)%nat ->
    simple1 (sdu s) (nrow s - 1) (suk s) -> simple1 (sdv s) (ncol s - 1) (svk s) ->
    let o := match opts with Some o => o | None => ao_default end in
    grid_width (suk s) (sdu s) (nrow s) (ao_divs_u o) (u0 s) (u1 s) wu -> grid_width (svk s) (sdv s) (ncol s) (ao_divs_v o) (v0 s) (v1 s) wv ->
    exists m, adaptive_tessellate s None opts = Ok m /\
    (forall a b c x y z, In [a; b; c] (tfaces m) -> bary x y z -> exists u v, in_dom s u v /\
    forall i Ku Kv, (i < 3)%nat -> 0 <= Ku -> 0 <= Kv -> surf_rate s i Ku Kv -> Rabs (face_coord m i a b c x y z - snurbs s i u v) <= Ku * (wu / 2) + Kv * (wv / 2)) /\
    (forall u v, in_dom s u v -> exists a b c x y z, In [a; b; c] (tfaces m) /\ bary x y z /\
    forall i Ku Kv, (i < 3)%nat -> 0 <= Ku -> 0 <= Kv -> surf_rate s i Ku Kv -> Rabs (face_coord m i a b c x y z - snurbs s i u v) <= Ku * (wu / 2) + Kv * (wv / 2)).
  Proof. first [exact (adaptive_mesh_near eps maxv) | exact (adaptive_mesh_near eps) | exact adaptive_mesh_near]. Qed.
End C95_adaptive_mesh_near_statement.
(** the default mesh of this patch is never more than 12 / 6 + 2 away from it in any coordinate *)
Section C95_case_adaptive_section.
  Local Hint Extern 0 (Scalar R) => exact (ROps eps0 maxv0) : typeclass_instances.
  Example C95_case_adaptive : exists m, adaptive_tessellate asf None None = Ok m /\
    forall a b c x y z, In [a; b; c] (tfaces m) -> bary x y z -> exists u v, in_dom asf u v /\ forall i, (i < 3)%nat -> Rabs (face_coord m i a b c x y z - snurbs asf i u v) <= 4.
  Proof.
    destruct (adaptive_mesh_near eps0 maxv0 asf None (1 / 3) 2 asf_ok asf_eps asf_cont eq_refl ltac:(cbn; lia) ltac:(cbn; lia) (proj1 asf_simple) (proj2 asf_simple)) as (m & E & H & _).
    - unfold grid_width, u0, u1, nrow, kf. cbn. lra.
    - unfold grid_width. cbn [sdv asf Nat.leb]. intros i Hi. cbn in Hi. unfold kf. destruct i as [|[|[|i]]]; try lia; cbn; lra.
    - exists m. split; [exact E|]. intros a b c x y z Hf Hb. destruct (H a b c x y z Hf Hb) as (u & v & D & V). exists u, v. split; [exact D|].
      intros i Hi. specialize (V i 12 2 Hi ltac:(lra) ltac:(lra) (asf_surf_rate i Hi)). lra.
  Qed.
End C95_case_adaptive_section.
Print Assumptions C95_adaptive_mesh_near.
