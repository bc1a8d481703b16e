(** * Tessellation with prescribed boundary parameters

    Only statements: each theorem is proved elsewhere; its statement is repeated here, followed by
    a concrete case that meets its hypotheses. *)
From Coq Require Import Floats.
From Coq Require Import Reals Lra Lia List ZArith Sorted.
From Verif Require Import Base BaseFacts Scalar RSum BSpline KnotModel KnotSpec KnotFacts VecFacts CurveModel
  SurfaceModel SurfaceSpec SurfaceProofs AdaptModel AdaptProofs AdaptForest AdaptReal AdaptEdges AdaptPoly AdaptMesh
  AdaptTiling AdaptSurface AdaptTotal AdaptMain AdaptConstr AdaptConstr2 AdaptConstr3 AdaptRefuted Demo.
Import ListNotations.
Local Open Scope R_scope.


(** a rational surface of degree (2, 1) with an interior knot in both directions, constrained on two sides *)
Definition bsf : Surf R := MkSurf 4 2 1 [0; 0; 0; 1; 2; 2; 2] [0; 0; 1; 3; 3]
  [ [[0; 0; 0; 1]; [0; 1; 0; 1]; [0; 3; 1; 1]]; [[2; 0; 2; 2]; [2; 2; 1; 2]; [2; 6; 1; 2]];
    [[2; 0; 1; 1]; [2; 1; 1; 1]; [2; 3; 0; 1]]; [[3; 0; 0; 1]; [3; 1; 0; 1]; [3; 3; 2; 1]] ].
Definition bcs : BCons R := MkBCons None (Some [0; 1 / 3; 2]) None (Some [1 / 2; 1]).
Lemma bsf_all : surf_ok bsf /\ surf_eps eps0 bsf /\ (1 <= sdu bsf)%nat /\ (1 <= sdv bsf)%nat /\
  simple1 (sdu bsf) (nrow bsf - 1) (suk bsf) /\ simple1 (sdv bsf) (ncol bsf - 1) (svk bsf) /\ constraints_ok bsf bcs.
Proof.
  split; [|split; [|split; [|split; [|split; [|split]]]]].
  - constructor; cbn; try lia; try (repeat constructor; fail).
    + constructor; cbn; try lia; unfold kf; cbn; try lra. repeat constructor; lra.
    + constructor; cbn; try lia; unfold kf; cbn; try lra. repeat constructor; lra.
  - split; unfold eps_ok, eps0, kf; cbn; lra.
  - cbn; lia.
  - cbn; lia.
  - intros P i Hi; cbn in *; lia.
  - intros P i Hi; cbn in *. assert (C : i = 1%nat \/ i = 2%nat) by lia. destruct C as [-> | ->]; unfold kf; cbn; lra.
  - assert (D : u0 bsf = 0 /\ u1 bsf = 2) by (unfold u0, u1, kf; cbn; lra). destruct D as (D0 & D1).
    unfold constraints_ok. rewrite D0, D1. split; [|split; [|split]]; intros l H; cbn in H; try discriminate; injection H as <-;
      (split; [discriminate|]); (split; [repeat constructor; lra|]); repeat constructor; lra.
Qed.


Section C85_constrained_answers_statement.
  Variables eps maxv : R.
  Local Hint Extern 0 (Scalar R) => exact (ROps eps maxv) : typeclass_instances.

  Theorem C85_constrained_answers : forall s c opts,
    surf_ok s -> surf_eps eps s -> (1 <= sdu s)%nat -> (1 <= sdv s)%nat ->
    simple1 (sdu s) (nrow s - 1) (suk s) -> simple1 (sdv s) (ncol s - 1) (svk s) -> constraints_ok s c ->
    is_ok (adaptive_tessellate s (Some c) opts).
  Proof. first [exact (constrained_answers eps maxv) | exact (constrained_answers eps) | exact constrained_answers]. Qed.
End C85_constrained_answers_statement.
Section C85_case_section.
  Local Hint Extern 0 (Scalar R) => exact (ROps eps0 maxv0) : typeclass_instances.
  Example C85_case : exists m, adaptive_tessellate bsf (Some bcs) None = Ok m.
  Proof. destruct bsf_all as (A & B & C & D & F & G & H). exact (constrained_answers eps0 maxv0 bsf bcs None A B C D F G H). Qed.
End C85_case_section.
Print Assumptions C85_constrained_answers.

Section C85_constrained_sides_statement.
  Variables eps maxv : R.
  Local Hint Extern 0 (Scalar R) => exact (ROps eps maxv) : typeclass_instances.

  Theorem C85_constrained_sides : forall s c opts m d uv,
    surf_ok s -> surf_eps eps s -> (1 <= sdu s)%nat -> (1 <= sdv s)%nat ->
    simple1 (sdu s) (nrow s - 1) (suk s) -> simple1 (sdv s) (ncol s - 1) (svk s) -> constraints_ok s c ->
    (forall o, opts = Some o -> ao_min_depth o = 0%nat) -> adaptive_tessellate s (Some c) opts = Ok m ->
    low_list d c <> None -> In uv (tuvs m) -> across d uv = side_start s d -> listed c (u0 s) (u1 s) (v0 s) (v1 s) uv.
  Proof. first [exact (constrained_sides eps maxv) | exact (constrained_sides eps) | exact constrained_sides]. Qed.
End C85_constrained_sides_statement.
Section C85_case_sides_section.
  Local Hint Extern 0 (Scalar R) => exact (ROps eps0 maxv0) : typeclass_instances.
  Example C85_case_sides : forall m u, adaptive_tessellate bsf (Some bcs) None = Ok m -> In (u, 0) (tuvs m) -> u = 0 \/ u = 1 / 3 \/ u = 2.
  Proof. intros m u E H. destruct bsf_all as (A & B & C & D & F & G & K). assert (V : v0 bsf = 0 /\ v1 bsf = 3) by (unfold v0, v1, kf; cbn; lra). destruct V as (V0 & V1).
    destruct (constrained_sides eps0 maxv0 bsf bcs None m DirU (u, 0) A B C D F G K) as [L|[L|[L|L]]]; auto; try discriminate; destruct L as (l & El & I & Q); cbn in El; try discriminate; injection El as <-.
    - cbn in I. intuition auto.
    - cbn [fst snd] in *. lra. Qed.
End C85_case_sides_section.
Print Assumptions C85_constrained_sides.

Section C85_constrained_complete_statement.
  Variables eps maxv : R.
  Local Hint Extern 0 (Scalar R) => exact (ROps eps maxv) : typeclass_instances.

  Theorem C85_constrained_complete : forall s c opts m l t,
    surf_ok s -> surf_eps eps s -> (1 <= sdu s)%nat -> (1 <= sdv s)%nat ->
    simple1 (sdu s) (nrow s - 1) (suk s) -> simple1 (sdv s) (ncol s - 1) (svk s) -> constraints_ok s c ->
    adaptive_tessellate s (Some c) opts = Ok m -> bc_u_vmin c = Some l -> In t l ->
    exists u p, In ((u, v0 s), p) (combine (tuvs m) (tpts m)) /\ In u l /\ forall i, (i < sdim s - 1)%nat -> rc i p = snurbs s i t (v0 s).
  Proof. first [exact (constrained_complete eps maxv) | exact (constrained_complete eps) | exact constrained_complete]. Qed.
End C85_constrained_complete_statement.
Section C85_case_complete_section.
  Local Hint Extern 0 (Scalar R) => exact (ROps eps0 maxv0) : typeclass_instances.
  Example C85_case_complete : forall m, adaptive_tessellate bsf (Some bcs) None = Ok m -> exists u p, In ((u, 0), p) (combine (tuvs m) (tpts m)) /\ forall i, (i < 3)%nat -> rc i p = snurbs bsf i (1 / 3) 0.
  Proof. intros m E. destruct bsf_all as (A & B & C & D & F & G & K). assert (V : v0 bsf = 0) by (unfold v0, kf; cbn; lra).
    destruct (constrained_complete eps0 maxv0 bsf bcs None m [0; 1 / 3; 2] (1 / 3) A B C D F G K E eq_refl) as (u & p & H1 & _ & H2); [cbn; auto|]. rewrite V in H1, H2. exists u, p. split; [exact H1|exact H2]. Qed.
End C85_case_complete_section.
Print Assumptions C85_constrained_complete.

Section C85_adaptive_max_side_refuted_statement.
  Local Existing Instance FOps.
  Local Open Scope float_scope.
  Theorem C85_adaptive_max_side_refuted : exists (s : Surf float) (c : BCons float) m,
    bc_u_vmax c = Some [0; 1] /\ adaptive_tessellate s (Some c) None = Ok m /\
    exists uv, In uv (tuvs m) /\ (snd uv =? 1) = true /\ Forall (fun t => (fst uv =? t) = false) [0; 1].
  Proof. exact adaptive_max_side_refuted. Qed.
End C85_adaptive_max_side_refuted_statement.
Print Assumptions C85_adaptive_max_side_refuted.
