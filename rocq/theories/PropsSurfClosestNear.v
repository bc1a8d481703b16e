(** * How far the answer of the closest point search on a surface is from the best point

    Only statements: each theorem is proved elsewhere; its statement is repeated here, followed by
    a concrete case that meets its hypotheses. *)
From Coq Require Import Reals Lra Lia List.
From Verif Require Import Base BaseFacts Scalar RSum BSplineSpec BSpline KnotModel KnotSpec KnotFacts VecFacts CurveModel CurveSpec CurveProofs CurveGeom CurveShapes
  SurfaceModel SurfaceSpec SurfaceProofs SurfaceSample SurfContinuity AdaptMain TrimModel SurfClosest CurveLipschitz SurfLipschitz ClosestNear SurfClosestNear Demo PropsAdapt PropsSurfClosest.
Import ListNotations.
Local Open Scope R_scope.

(** a rational patch that moves at most 12 per unit of u and at most 2 per unit of v *)
Ltac asf_rows a := destruct a as [|[|[|[|a]]]]; try lia.
Ltac asf_cols b := destruct b as [|[|[|b]]]; try lia.
Lemma asf_rate_u i : (i < 3)%nat -> rate_u asf i 6.
Proof.
  intros Hi a b Ha Hb _. cbn in Ha, Hb. unfold spc, rc, kf.
  destruct i as [|[|[|i]]]; [| | |lia]; asf_rows a; asf_cols b; cbn; unfold Rabs; destruct (Rcase_abs _); lra.
Qed.
Lemma asf_rate_v i : (i < 3)%nat -> rate_v asf i 2.
Proof.
  intros Hi a b Ha Hb _. cbn in Ha, Hb. unfold spc, rc, kf.
  destruct i as [|[|[|i]]]; [| | |lia]; asf_rows a; asf_cols b; cbn; unfold Rabs; destruct (Rcase_abs _); lra.
Qed.
Lemma asf_surf_rate i : (i < 3)%nat -> surf_rate asf i 12 2.
Proof.
  intros Hi. exists 1, 3, 6, 2, 2, 0. do 6 (split; [lra|]). split; [apply asf_rate_u; exact Hi|]. split; [apply asf_rate_v; exact Hi|].
  split; [|split; [|split; [|split; [|lra]]]].
  - intros a b Ha Hb _. cbn in Ha, Hb. unfold spc, rc, kf. asf_rows a; asf_cols b; cbn; unfold Rabs; destruct (Rcase_abs _); lra.
  - intros a b Ha Hb _. cbn in Ha, Hb. unfold spc, rc, kf. asf_rows a; asf_cols b; cbn; unfold Rabs; destruct (Rcase_abs _); lra.
  - intros a b Ha Hb. cbn in Ha, Hb. unfold spc, rc. asf_rows a; asf_cols b; cbn; lra.
  - intros a b Ha Hb. cbn in Ha, Hb. unfold spc, rc. destruct i as [|[|[|i]]]; [| | |lia]; asf_rows a; asf_cols b; cbn; unfold Rabs; destruct (Rcase_abs _); lra.
Qed.
Lemma asf_cont : surf_cont asf.
Proof.
  split; intros j H1 H2; cbn in *.
  - assert (j = 3)%nat as -> by lia. unfold kf. cbn. lra.
  - assert (j = 2)%nat as -> by lia. unfold kf. cbn. lra.
Qed.
Lemma asf_gaps : grid_gap (suk asf) (sdu asf) (nrow asf) (u0 asf) (u1 asf) (1 / 6) /\ grid_gap (svk asf) (sdv asf) (ncol asf) (v0 asf) (v1 asf) 1.
Proof.
  split.
  - unfold grid_gap, u0, u1, nrow, kf. cbn. lra.
  - unfold grid_gap. cbn [sdv asf Nat.leb]. intros i Hi. cbn in Hi. unfold kf. destruct i as [|[|[|i]]]; try lia; cbn; lra.
Qed.

Section C60_surf_closest_near_statement.
  Variables eps maxv : R.
  Local Hint Extern 0 (Scalar R) => exact (ROps eps maxv) : typeclass_instances.

  Theorem C60_surf_closest_near : forall solve2 s p u v (Ku Kv : nat -> R) hu hv,
    surf_ok s -> surf_eps eps s -> spos s -> surf_cont s -> sdim s = 4%nat -> (1 <= sdu s)%nat -> (1 <= sdv s)%nat ->
    simple1 (sdu s) (nrow s - 1) (suk s) -> simple1 (sdv s) (ncol s - 1) (svk s) -> length p = 3%nat ->
    (forall i, (i < 3)%nat -> 0 <= Ku i /\ 0 <= Kv i /\ surf_rate s i (Ku i) (Kv i)) ->
    grid_gap (suk s) (sdu s) (nrow s) (u0 s) (u1 s) hu -> grid_gap (svk s) (sdv s) (ncol s) (v0 s) (v1 s) hv ->
    surf_closest solve2 s p = Ok (u, v) ->
    exists q, surf_point_at s u v = Ok q /\
    forall a b r, in_dom s a b -> surf_point_at s a b = Ok r -> rdist q p <= rdist r p + enorm 3 (fun i => Ku i * hu + Kv i * hv).
  Proof. first [exact (surf_closest_near eps maxv) | exact (surf_closest_near eps) | exact surf_closest_near]. Qed.
End C60_surf_closest_near_statement.
Section C60_case_near_section.
  Local Hint Extern 0 (Scalar R) => exact (ROps eps0 maxv0) : typeclass_instances.
  (** the answer of the search on this patch misses no point by more than 4 * sqrt 3 *)
  Example C60_case_near : exists solve2 u v q, surf_closest solve2 asf [1; 1; 5] = Ok (u, v) /\ surf_point_at asf u v = Ok q /\
    forall a b r, in_dom asf a b -> surf_point_at asf a b = Ok r -> rdist q [1; 1; 5] <= rdist r [1; 1; 5] + enorm 3 (fun _ => 4).
  Proof.
    destruct C60_case_total as (solve2 & _ & u & v & E). destruct asf_gaps as (Gu & Gv).
    destruct (surf_closest_near eps0 maxv0 solve2 asf [1; 1; 5] u v (fun _ => 12) (fun _ => 2) (1 / 6) 1 asf_ok asf_eps asf_pos asf_cont eq_refl ltac:(cbn; lia) ltac:(cbn; lia) (proj1 asf_simple) (proj2 asf_simple) eq_refl) as (q & Eq & H); auto.
    { intros i Hi. split; [lra|]. split; [lra|]. apply asf_surf_rate. exact Hi. }
    exists solve2, u, v, q. split; [exact E|]. split; [exact Eq|]. intros a b r D Er. specialize (H a b r D Er).
    rewrite (enorm_ext 3 _ (fun _ => 4)) in H by (intros; lra). exact H.
  Qed.
End C60_case_near_section.
Print Assumptions C60_surf_closest_near.

Section C60_surf_closest_point_near_statement.
  Variables eps maxv : R.
  Local Hint Extern 0 (Scalar R) => exact (ROps eps maxv) : typeclass_instances.

  Theorem C60_surf_closest_point_near : forall solve2 s p q (Ku Kv : nat -> R) hu hv,
    surf_ok s -> surf_eps eps s -> spos s -> surf_cont s -> sdim s = 4%nat -> (1 <= sdu s)%nat -> (1 <= sdv s)%nat ->
    simple1 (sdu s) (nrow s - 1) (suk s) -> simple1 (sdv s) (ncol s - 1) (svk s) -> length p = 3%nat ->
    (forall i, (i < 3)%nat -> 0 <= Ku i /\ 0 <= Kv i /\ surf_rate s i (Ku i) (Kv i)) ->
    grid_gap (suk s) (sdu s) (nrow s) (u0 s) (u1 s) hu -> grid_gap (svk s) (sdv s) (ncol s) (v0 s) (v1 s) hv ->
    surf_closest_point solve2 s p = Ok q ->
    forall a b r, in_dom s a b -> surf_point_at s a b = Ok r -> rdist q p <= rdist r p + enorm 3 (fun i => Ku i * hu + Kv i * hv).
  Proof. first [exact (surf_closest_point_near eps maxv) | exact (surf_closest_point_near eps) | exact surf_closest_point_near]. Qed.
End C60_surf_closest_point_near_statement.
Print Assumptions C60_surf_closest_point_near.

Section C60_surf_closest_point_total_statement.
  Variables eps maxv : R.
  Local Hint Extern 0 (Scalar R) => exact (ROps eps maxv) : typeclass_instances.

  Theorem C60_surf_closest_point_total : forall solve2 s p,
    surf_ok s -> surf_eps eps s -> spos s -> sdim s = 4%nat -> (1 <= sdu s)%nat -> (1 <= sdv s)%nat ->
    simple1 (sdu s) (nrow s - 1) (suk s) -> simple1 (sdv s) (ncol s - 1) (svk s) -> eps <= u1 s - u0 s -> eps <= v1 s - v0 s ->
    open_net eps s -> length p = 3%nat -> (forall a b c g, solve2 a b c g <> None) ->
    exists u v q, surf_closest_point solve2 s p = Ok q /\ in_dom s u v /\ surf_closest solve2 s p = Ok (u, v) /\ length q = 3%nat /\
    forall i, (i < 3)%nat -> rc i q = snurbs s i u v.
  Proof. exact (surf_closest_point_total eps maxv). Qed.
End C60_surf_closest_point_total_statement.
Section C60_case_point_section.
  Local Hint Extern 0 (Scalar R) => exact (ROps eps0 maxv0) : typeclass_instances.
  Example C60_case_point : exists solve2 q, surf_closest_point solve2 asf [1; 1; 5] = Ok q /\ length q = 3%nat.
  Proof.
    exists (fun _ _ _ g => Some g). destruct (surf_closest_point_total eps0 maxv0 (fun _ _ _ g => Some g) asf [1; 1; 5] asf_ok asf_eps asf_pos eq_refl ltac:(cbn; lia) ltac:(cbn; lia) (proj1 asf_simple) (proj2 asf_simple) (proj1 C60_case_answers) (proj1 (proj2 C60_case_answers)) (proj2 (proj2 C60_case_answers)) eq_refl) as (u & v & q & E & _ & _ & L & _); [discriminate|].
    exists q. split; [exact E|exact L].
  Qed.
End C60_case_point_section.
Print Assumptions C60_surf_closest_point_total.
