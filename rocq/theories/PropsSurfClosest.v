(** * Closest points of surfaces, from the tessellation to the answer

    Only statements: each theorem is proved elsewhere; its statement is repeated here, followed by
    a concrete case that meets its hypotheses. *)
From Coq Require Import Reals Lra Lia List Sorted Permutation.
From Verif Require Import Base BaseFacts Scalar RSum BSplineSpec BSpline KnotModel KnotSpec KnotFacts VecFacts MiscModel CurveModel CurveShapes
  CurveSpec SurfaceModel SurfaceSpec SurfaceProofs AdaptModel AdaptMain ClosestModel NewtonSurf TrimModel SurfClosest Demo PropsAdapt.
Import ListNotations.
Local Open Scope R_scope.

(** the surface of the tessellation case: positive weights and an open net *)
Lemma asf_pos : spos asf.
Proof. intros a b Ha Hb. cbn in Ha, Hb. unfold spc, rc. destruct a as [|[|[|[|a]]]]; [..|lia]; destruct b as [|[|[|b]]]; [..|lia| | | |lia| | | |lia| | | |lia]; cbn; lra. Qed.
Lemma asf_simple : simple1 (sdu asf) (nrow asf - 1) (suk asf) /\ simple1 (sdv asf) (ncol asf - 1) (svk asf).
Proof. exact (proj2 (proj2 (proj2 (proj2 (proj2 C51_case_real))))). Qed.

Section C60_surf_closest_grid_statement.
  Variables eps maxv : R.
  Local Hint Extern 0 (Scalar R) => exact (ROps eps maxv) : typeclass_instances.

  Theorem C60_surf_closest_grid : forall solve2 s p u v,
    surf_ok s -> surf_eps eps s -> spos s -> sdim s = 4%nat -> (1 <= sdu s)%nat -> (1 <= sdv s)%nat ->
    simple1 (sdu s) (nrow s - 1) (suk s) -> simple1 (sdv s) (ncol s - 1) (svk s) -> length p = 3%nat ->
    surf_closest solve2 s p = Ok (u, v) ->
    exists q, surf_point_at s u v = Ok q /\
    forall a b r, grid_line (suk s) (sdu s) (nrow s) (u0 s) (u1 s) a -> grid_line (svk s) (sdv s) (ncol s) (v0 s) (v1 s) b ->
    surf_point_at s a b = Ok r -> rdist q p <= rdist r p.
  Proof. first [exact (surf_closest_grid eps maxv) | exact (surf_closest_grid eps) | exact surf_closest_grid]. Qed.
End C60_surf_closest_grid_statement.
Section C60_case_grid_section.
  Local Hint Extern 0 (Scalar R) => exact (ROps eps0 maxv0) : typeclass_instances.
  Example C60_case_grid : surf_ok asf /\ surf_eps eps0 asf /\ spos asf /\ sdim asf = 4%nat /\ (1 <= sdu asf)%nat /\ (1 <= sdv asf)%nat /\ simple1 (sdu asf) (nrow asf - 1) (suk asf) /\ simple1 (sdv asf) (ncol asf - 1) (svk asf) /\
    grid_line (suk asf) (sdu asf) (nrow asf) (u0 asf) (u1 asf) 1 /\ grid_line (svk asf) (sdv asf) (ncol asf) (v0 asf) (v1 asf) 1.
  Proof. split; [exact asf_ok|]. split; [exact asf_eps|]. split; [exact asf_pos|]. split; [reflexivity|]. split; [cbn; lia|]. split; [cbn; lia|]. split; [apply asf_simple|]. split; [apply asf_simple|]. split.
    - exists 3%nat. unfold u0, u1, kf. cbn. split; [lia|lra].
    - exists 2%nat. unfold kf. cbn. split; [lia|lra]. Qed.
End C60_case_grid_section.
Print Assumptions C60_surf_closest_grid.

Section C60_surf_closest_answers_statement.
  Variables eps maxv : R.
  Local Hint Extern 0 (Scalar R) => exact (ROps eps maxv) : typeclass_instances.
  Local Notation open_net := (open_net eps).

  Theorem C60_surf_closest_answers : forall solve2 s p,
    surf_ok s -> surf_eps eps s -> spos s -> sdim s = 4%nat -> (1 <= sdu s)%nat -> (1 <= sdv s)%nat ->
    simple1 (sdu s) (nrow s - 1) (suk s) -> simple1 (sdv s) (ncol s - 1) (svk s) -> eps <= u1 s - u0 s -> eps <= v1 s - v0 s -> open_net s ->
    (exists u v, surf_closest solve2 s p = Ok (u, v) /\ in_dom s u v) \/
    (errs (surf_closest solve2 s p) /\ exists a b c g, solve2 a b c g = None).
  Proof. first [exact (surf_closest_answers eps maxv) | exact (surf_closest_answers eps) | exact surf_closest_answers]. Qed.
End C60_surf_closest_answers_statement.
Section C60_case_answers_section.
  Local Hint Extern 0 (Scalar R) => exact (ROps eps0 maxv0) : typeclass_instances.
  Example C60_case_answers : eps0 <= u1 asf - u0 asf /\ eps0 <= v1 asf - v0 asf /\ open_net eps0 asf.
  Proof. unfold u0, u1, v0, v1, kf, eps0. cbn. split; [lra|]. split; [lra|]. split.
    - exists 0%nat, 0%nat. cbn. unfold sctl, spc, rc. cbn. split; [lia|]. split; [lia|]. rewrite Rabs_left; lra.
    - exists 0%nat, 1%nat. cbn. unfold sctl, spc, rc. cbn. split; [lia|]. split; [lia|]. rewrite Rabs_left; lra. Qed.
End C60_case_answers_section.
Print Assumptions C60_surf_closest_answers.

Section C60_surf_closest_total_statement.
  Variables eps maxv : R.
  Local Hint Extern 0 (Scalar R) => exact (ROps eps maxv) : typeclass_instances.
  Local Notation open_net := (open_net eps).

  Theorem C60_surf_closest_total : forall solve2 s p,
    surf_ok s -> surf_eps eps s -> spos s -> sdim s = 4%nat -> (1 <= sdu s)%nat -> (1 <= sdv s)%nat ->
    simple1 (sdu s) (nrow s - 1) (suk s) -> simple1 (sdv s) (ncol s - 1) (svk s) -> eps <= u1 s - u0 s -> eps <= v1 s - v0 s ->
    open_net s -> length p = 3%nat -> (forall a b c g, solve2 a b c g <> None) ->
    exists u v q, surf_closest solve2 s p = Ok (u, v) /\ in_dom s u v /\ surf_point_at s u v = Ok q /\
    forall a b r, grid_line (suk s) (sdu s) (nrow s) (u0 s) (u1 s) a -> grid_line (svk s) (sdv s) (ncol s) (v0 s) (v1 s) b ->
    surf_point_at s a b = Ok r -> rdist q p <= rdist r p.
  Proof. first [exact (surf_closest_total eps maxv) | exact (surf_closest_total eps) | exact surf_closest_total]. Qed.
End C60_surf_closest_total_statement.
Section C60_case_total_section.
  Local Hint Extern 0 (Scalar R) => exact (ROps eps0 maxv0) : typeclass_instances.
  Example C60_case_total : exists solve2 : R -> R -> R -> R * R -> option (R * R), (forall a b c g, solve2 a b c g <> None) /\ exists u v, surf_closest solve2 asf [1; 1; 5] = Ok (u, v).
  Proof. exists (fun _ _ _ g => Some g). split; [discriminate|].
    destruct (surf_closest_total eps0 maxv0 (fun _ _ _ g => Some g) asf [1; 1; 5] asf_ok asf_eps asf_pos eq_refl ltac:(cbn; lia) ltac:(cbn; lia) (proj1 asf_simple) (proj2 asf_simple) (proj1 C60_case_answers) (proj1 (proj2 C60_case_answers)) (proj2 (proj2 C60_case_answers)) eq_refl) as (u & v & _ & E & _); [discriminate|eauto]. Qed.
End C60_case_total_section.
Print Assumptions C60_surf_closest_total.
