(** * Properties of adaptive tessellation

    Only statements: each theorem is proved elsewhere; its statement is repeated here, followed by
    a concrete case that meets its hypotheses. *)
From Coq Require Import Floats.
From Coq Require Import Reals Lra Lia List ZArith Sorted.
From Verif Require Import Base BaseFacts Scalar RSum BSpline KnotModel KnotSpec KnotFacts VecFacts CurveModel
  SurfaceModel SurfaceSpec SurfaceProofs AdaptModel AdaptProofs AdaptForest AdaptReal AdaptEdges AdaptPoly AdaptMesh
  AdaptTiling AdaptSurface AdaptTotal AdaptMain AdaptRefuted Demo.
Import ListNotations.
Local Open Scope nat_scope.

(** a rational surface of degree (2, 1) in space with an interior knot in both directions *)
Definition asf : Surf R := (MkSurf 4 2 1 [0; 0; 0; 1; 2; 2; 2] [0; 0; 1; 3; 3]
  [ [[0; 0; 0; 1]; [0; 1; 0; 1]; [0; 3; 1; 1]]; [[2; 0; 2; 2]; [2; 2; 1; 2]; [2; 6; 1; 2]];
    [[2; 0; 1; 1]; [2; 1; 1; 1]; [2; 3; 0; 1]]; [[3; 0; 0; 1]; [3; 1; 0; 1]; [3; 3; 2; 1]] ])%R.
Lemma asf_ok : surf_ok asf.
Proof.
  constructor; cbn; try lia; try (repeat constructor; fail).
  - constructor; cbn; try lia; unfold kf; cbn; try lra. repeat constructor; lra.
  - constructor; cbn; try lia; unfold kf; cbn; try lra. repeat constructor; lra.
Qed.
Lemma asf_eps : surf_eps eps0 asf.
Proof. split; unfold eps_ok, eps0, kf; cbn; lra. Qed.


Section C51_adaptive_indices_statement.
  Context {T : Type} {SO : Scalar T}.
  Theorem C51_adaptive_indices : forall s c opts m,
    adaptive_tessellate s c opts = Ok m ->
    length (tnormals m) = length (tpts m) /\ length (tuvs m) = length (tpts m) /\
    Forall (fun f => length f = 3 /\ Forall (fun i => i < length (tpts m)) f) (tfaces m).
  Proof. exact adaptive_indices. Qed.
End C51_adaptive_indices_statement.
Section C51_cases.
  Local Existing Instance FOps.
  Example C51_case_mesh : match adaptive_tessellate two_patches None (Some (MkAOpts 0.25%float 1 1 0 2)) with
    | Ok m => 20 < length (tfaces m) /\ 20 < length (tpts m) | _ => False end.
  Proof. vm_compute. split; repeat constructor. Qed.
  Example C51_case_nodes : match adaptive_nodes two_patches None (Some (MkAOpts 0.25%float 1 1 0 2)) with
    | Ok nodes => 2 < length nodes | _ => False end.
  Proof. vm_compute. repeat constructor. Qed.
  Example C51_case_constrained : is_ok (adaptive_tessellate two_patches (Some (MkBCons (Some [0%float; 1%float]) None None None)) None).
  Proof.
    assert (H : match adaptive_tessellate two_patches (Some (MkBCons (Some [0%float; 1%float]) None None None)) None with Ok _ => True | _ => False end) by (vm_compute; exact I).
    destruct (adaptive_tessellate two_patches (Some (MkBCons (Some [0%float; 1%float]) None None None)) None) as [m| | |]; [exists m; reflexivity|contradiction..].
  Qed.
End C51_cases.
Print Assumptions C51_adaptive_indices.

Section C51_adaptive_terminates_statement.
  Context {T : Type} {SO : Scalar T}.
  Theorem C51_adaptive_terminates : forall s c opts,
    adaptive_tessellate s c opts = OutOfFuel -> stuck s.
  Proof. exact adaptive_terminates. Qed.
End C51_adaptive_terminates_statement.
Print Assumptions C51_adaptive_terminates.

Section C51_adaptive_node_count_statement.
  Context {T : Type} {SO : Scalar T}.
  Theorem C51_adaptive_node_count : forall s c opts nodes,
    adaptive_nodes s c opts = Ok nodes ->
    exists us vs, let o := match opts with Some o => o | None => ao_default end in
    adaptive_grid s c o = Ok (us, vs) /\
    length nodes <= (length vs - 1) * (length us - 1) * (2 ^ S (Nat.max (ao_min_depth o) (ao_max_depth o)) - 1).
  Proof. exact adaptive_node_count. Qed.
End C51_adaptive_node_count_statement.
Print Assumptions C51_adaptive_node_count.

Section C51_adaptive_on_surface_statement.
  Context {T : Type} {SO : Scalar T}.
  Variable s : Surf T.
  Local Notation point_of := (point_of s).
  Theorem C51_adaptive_on_surface : forall c opts m,
    adaptive_tessellate s c opts = Ok m -> Forall2 point_of (tuvs m) (tpts m).
  Proof. exact (adaptive_on_surface s). Qed.
End C51_adaptive_on_surface_statement.
Print Assumptions C51_adaptive_on_surface.

Section C51_adaptive_mesh_statement.
  Variables eps maxv : R.
  Local Hint Extern 0 (Scalar R) => exact (ROps eps maxv) : typeclass_instances.
  Local Open Scope R_scope.
  Theorem C51_adaptive_mesh : forall s opts,
    surf_ok s -> surf_eps eps s -> sdim s = 4%nat -> (1 <= sdu s)%nat -> (1 <= sdv s)%nat ->
    simple1 (sdu s) (nrow s - 1) (suk s) -> simple1 (sdv s) (ncol s - 1) (svk s) ->
    exists m, adaptive_tessellate s None opts = Ok m /\ tiles (mesh_tris m) (dom_rect s) /\
    Forall2 (fun uv p => in_rect (dom_rect s) uv /\ forall i, (i < 3)%nat -> rc i p = snurbs s i (fst uv) (snd uv)) (tuvs m) (tpts m).
  Proof. exact (adaptive_mesh eps maxv). Qed.
End C51_adaptive_mesh_statement.
Example C51_case_real : surf_ok asf /\ surf_eps eps0 asf /\ sdim asf = 4 /\ 1 <= sdu asf /\ 1 <= sdv asf /\
  simple1 (sdu asf) (nrow asf - 1) (suk asf) /\ simple1 (sdv asf) (ncol asf - 1) (svk asf).
Proof.
  split; [exact asf_ok|]. split; [exact asf_eps|]. split; [reflexivity|]. cbn. split; [lia|]. split; [lia|].
  split; intros P i Hi; cbn in *; [lia|]. assert (C : i = 1 \/ i = 2) by lia. destruct C as [-> | ->]; unfold kf; cbn; lra.
Qed.
Print Assumptions C51_adaptive_mesh.

Section C51_adaptive_crack_refuted_statement.
  Local Existing Instance FOps.
  Local Open Scope float_scope.
  Theorem C51_adaptive_crack_refuted : exists (s : Surf float) o m f a b q,
    adaptive_tessellate s None (Some o) = Ok m /\ hangs m f a b q.
  Proof. exact adaptive_crack_refuted. Qed.
End C51_adaptive_crack_refuted_statement.
Print Assumptions C51_adaptive_crack_refuted.

Section C51_adaptive_constrained_refuted_statement.
  Local Existing Instance FOps.
  Local Open Scope float_scope.
  Theorem C51_adaptive_constrained_refuted : exists (s : Surf float) (c : BCons float) m,
    is_ok (surf_point_at s 0 0) /\ adaptive_tessellate s (Some c) None = Ok m /\ tfaces m <> [] /\ Forall (fun p => (nth 1 p 0 =? 1) = true) (tpts m).
  Proof. exact adaptive_constrained_refuted. Qed.
End C51_adaptive_constrained_refuted_statement.
Print Assumptions C51_adaptive_constrained_refuted.

Section C51_adaptive_empty_constraint_refuted_statement.
  Local Existing Instance FOps.
  Local Open Scope float_scope.
  Theorem C51_adaptive_empty_constraint_refuted : exists (s : Surf float) (c : BCons float), is_ok (adaptive_tessellate s None None) /\ panics (adaptive_tessellate s (Some c) None).
  Proof. exact adaptive_empty_constraint_refuted. Qed.
End C51_adaptive_empty_constraint_refuted_statement.
Print Assumptions C51_adaptive_empty_constraint_refuted.
