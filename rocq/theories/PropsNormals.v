(** * Vertex normals of adaptive meshes

    Only statements: each theorem is proved elsewhere; its statement is repeated here, followed by
    a concrete case that meets its hypotheses. *)
From Coq Require Import Floats.
From Coq Require Import Reals Lra Lia List ZArith Sorted.
From Verif Require Import Base BaseFacts Scalar RSum BSpline KnotModel KnotSpec KnotFacts VecFacts CurveModel
  SurfaceModel SurfaceSpec SurfaceProofs AdaptModel AdaptProofs AdaptForest AdaptReal AdaptEdges AdaptPoly AdaptMesh
  AdaptTiling AdaptSurface AdaptTotal AdaptMain AdaptConstr AdaptNormals AdaptNormals2 AdaptRefuted AdaptNormalsRefuted Demo PropsConstr.
Import ListNotations.
Local Open Scope R_scope.


Section C86_adaptive_normals_statement.
  Context {T : Type} {SO : Scalar T}.
  Variable s : Surf T.
  Local Notation vertex_normal := (vertex_normal s).

  Theorem C86_adaptive_normals : forall c opts m,
    adaptive_tessellate s c opts = Ok m -> Forall2 (vertex_normal (c <> None)) (tuvs m) (tnormals m).
  Proof. exact (adaptive_normals s). Qed.
End C86_adaptive_normals_statement.
Section C86_case_section.
  Local Hint Extern 0 (Scalar R) => exact (ROps eps0 maxv0) : typeclass_instances.
  Example C86_case : exists m, adaptive_tessellate bsf None None = Ok m /\ Forall2 (vertex_normal bsf (@None (BCons R) <> None)) (tuvs m) (tnormals m).
  Proof. destruct bsf_all as (A & B & C & D & F & G & H). destruct (adaptive_mesh eps0 maxv0 bsf None A B eq_refl C D F G) as (m & E & _).
    exists m. split; [exact E|]. exact (adaptive_normals bsf None None m E). Qed.
End C86_case_section.
Print Assumptions C86_adaptive_normals.

Section C86_adaptive_unit_normals_statement.
  Variables eps maxv : R.
  Local Hint Extern 0 (Scalar R) => exact (ROps eps maxv) : typeclass_instances.

  Theorem C86_adaptive_unit_normals : forall s opts m,
    0 < eps -> adaptive_tessellate s None opts = Ok m ->
    Forall2 (fun uv nm => exists n, normal_at s (fst uv) (snd uv) = Ok n /\
    (eps <= sq3 (fun i => rc i n) -> sq3 (fun i => rc i nm) = 1 /\ forall i, (i < 3)%nat -> rc i nm = rc i n / sqrt (sq3 (fun i => rc i n)))) (tuvs m) (tnormals m).
  Proof. first [exact (adaptive_unit_normals eps maxv) | exact (adaptive_unit_normals eps) | exact adaptive_unit_normals]. Qed.
End C86_adaptive_unit_normals_statement.
Section C86_case_unit_section.
  Local Hint Extern 0 (Scalar R) => exact (ROps eps0 maxv0) : typeclass_instances.
  Example C86_case_unit : exists m, adaptive_tessellate bsf None None = Ok m /\ tuvs m <> [].
  Proof. destruct bsf_all as (A & B & C & D & F & G & H). destruct (adaptive_mesh eps0 maxv0 bsf None A B eq_refl C D F G) as (m & E & Ht & _).
    exists m. split; [exact E|]. intros N. destruct Ht as (Ha & _ & Hc & _). destruct (Hc (0, 0)) as (t & It & _).
    { unfold in_rect, dom_rect, u0, u1, v0, v1, kf. cbn. lra. }
    rewrite Forall_forall in Ha. destruct (Ha t It) as (P & _). unfold mesh_tris in It. rewrite N in It. apply in_map_iff in It. destruct It as (fc & <- & _).
    destruct fc as [|i [|j [|k [|]]]]; unfold face_tri, tri_area2, area2 in P; [cbn [fst snd] in P; lra..| |cbn [fst snd] in P; lra]. destruct i, j, k; cbn [nth fst snd] in P; lra. Qed.
End C86_case_unit_section.
Print Assumptions C86_adaptive_unit_normals.

Section C86_adaptive_true_normals_statement.
  Variables eps maxv : R.
  Local Hint Extern 0 (Scalar R) => exact (ROps eps maxv) : typeclass_instances.

  Theorem C86_adaptive_true_normals : forall s opts m,
    surf_ok s -> surf_eps eps s -> spos s -> sdim s = 4%nat -> adaptive_tessellate s None opts = Ok m ->
    Forall2 (fun uv nm => forall su sv a b, (sdu s <= su <= nrow s - 1)%nat -> (sdv s <= sv <= ncol s - 1)%nat ->
    kf (suk s) su < fst uv < kf (suk s) (S su) -> kf (svk s) sv < snd uv < kf (svk s) (S sv) ->
    (forall i, (i < 3)%nat -> derivable_pt_lim (fun x => snurbs s i x (snd uv)) (fst uv) (a i) /\ derivable_pt_lim (fun y => snurbs s i (fst uv) y) (snd uv) (b i)) ->
    eps <= sq3 (crossf a b) ->
    forall i, (i < 3)%nat -> rc i nm = crossf a b i / sqrt (sq3 (crossf a b))) (tuvs m) (tnormals m).
  Proof. first [exact (adaptive_true_normals eps maxv) | exact (adaptive_true_normals eps) | exact adaptive_true_normals]. Qed.
End C86_adaptive_true_normals_statement.
Section C86_case_true_section.
  Local Hint Extern 0 (Scalar R) => exact (ROps eps0 maxv0) : typeclass_instances.
  Example C86_case_true : surf_ok bsf /\ surf_eps eps0 bsf /\ spos bsf /\ sdim bsf = 4%nat.
  Proof. destruct bsf_all as (A & B & _). split; [exact A|]. split; [exact B|]. split; [|reflexivity]. intros i j Hi Hj. cbn in Hi, Hj. destruct i as [|[|[|[|]]]]; [..|lia]; destruct j as [|[|[|]]]; first [lia|cbn; lra]. Qed.
End C86_case_true_section.
Print Assumptions C86_adaptive_true_normals.

Section C86_fix_normals_spec_statement.
  Context {T : Type}.

  Theorem C86_fix_normals_spec : forall (c : Four (SPoint T)) e,
    let p := four c e in let q := four (fix_normals c) e in
    sp_uv q = sp_uv p /\ sp_point q = sp_point p /\ (sp_degen p = false -> sp_normal q = sp_normal p) /\
    (sp_degen p = true ->
    (exists e', sp_degen (four c e') = false /\ sp_normal q = sp_normal (four c e')) \/
    (forall e', sp_degen (four c e') = true) \/
    (e = South /\ sp_degen (f1 c) = true /\ sp_degen (f3 c) = true /\ sp_normal q = sp_normal (f3 c))).
  Proof. exact fix_normals_spec. Qed.
End C86_fix_normals_spec_statement.
Example C86_case_fix : let q := MkSP (0, 0) [0; 0; 0] [0; 0; 0] true false false false false false false in let g := MkSP (1, 1) [0; 0; 0] [0; 0; 1] false false false false false false false in
  sp_normal (f1 (fix_normals (MkFour q q g q))) = [0; 0; 1].
Proof. reflexivity. Qed.
Print Assumptions C86_fix_normals_spec.

Section C86_repair_spec_statement.
  Context {T : Type} {SO : Scalar T}.

  Theorem C86_repair_spec : forall o depth (n n' : ANode T) d,
    should_divide o depth n = (n', d) -> (ao_min_depth o <= depth < ao_max_depth o)%nat ->
    ((exists e, sp_degen (four (an_corners n) e) = true) -> d = None) /\
    forall e, let p := four (an_corners n) e in let q := four (an_corners n') e in
    sp_uv q = sp_uv p /\ sp_point q = sp_point p /\ (sp_degen p = false -> sp_normal q = sp_normal p) /\
    (sp_degen p = true ->
    (exists e', sp_degen (four (an_corners n) e') = false /\ sp_normal q = sp_normal (four (an_corners n) e')) \/
    (forall e', sp_degen (four (an_corners n) e') = true) \/
    (e = South /\ sp_degen (f1 (an_corners n)) = true /\ sp_degen (f3 (an_corners n)) = true /\ sp_normal q = sp_normal (f3 (an_corners n)))).
  Proof. exact repair_spec. Qed.
End C86_repair_spec_statement.
Section C86_case_repair_section.
  Local Hint Extern 0 (Scalar R) => exact (ROps eps0 maxv0) : typeclass_instances.
  Example C86_case_repair : let q := MkSP (0, 0) [0; 0; 0] [0; 0; 0] true false false false false false false in let g := MkSP (1, 1) [0; 0; 0] [0; 0; 1] false false false false false false false in
    let nb := MkFour None None None None in
    should_divide (MkAOpts 1 1 1 0 5) 2 (MkANode None (MkFour g g g q) nb DirU (0, 0)) = (MkANode None (MkFour g g g (with_normal q [0; 0; 1])) nb DirU (0, 0), None).
  Proof. reflexivity. Qed.
End C86_case_repair_section.
Print Assumptions C86_repair_spec.

Section C86_adaptive_pole_refuted_statement.
  Local Existing Instance FOps.
  Local Open Scope float_scope.
  Theorem C86_adaptive_pole_refuted : exists (s : Surf float) m, adaptive_tessellate s None None = Ok m /\
    exists uv nm, In (uv, nm) (combine (tuvs m) (tnormals m)) /\ length nm = 3%nat /\ Forall (fun x => (x =? x) = false) nm.
  Proof. exact adaptive_pole_refuted. Qed.
End C86_adaptive_pole_refuted_statement.
Print Assumptions C86_adaptive_pole_refuted.

Section C86_adaptive_zero_normal_refuted_statement.
  Local Existing Instance FOps.
  Local Open Scope float_scope.
  Theorem C86_adaptive_zero_normal_refuted : exists (s : Surf float) o m, adaptive_tessellate s None (Some o) = Ok m /\
    exists uv nm, In (uv, nm) (combine (tuvs m) (tnormals m)) /\ length nm = 3%nat /\ Forall (fun x => (x =? 0) = true) nm.
  Proof. exact adaptive_zero_normal_refuted. Qed.
End C86_adaptive_zero_normal_refuted_statement.
Print Assumptions C86_adaptive_zero_normal_refuted.

Section C86_adaptive_constrained_normal_refuted_statement.
  Local Existing Instance FOps.
  Local Open Scope float_scope.
  Theorem C86_adaptive_constrained_normal_refuted : exists (s : Surf float) c m, adaptive_tessellate s (Some c) None = Ok m /\
    exists uv nm, In (uv, nm) (combine (tuvs m) (tnormals m)) /\ nm = [0; 0; 4].
  Proof. exact adaptive_constrained_normal_refuted. Qed.
End C86_adaptive_constrained_normal_refuted_statement.
Print Assumptions C86_adaptive_constrained_normal_refuted.

Section C86_fix_normals_refuted_statement.
  Local Existing Instance FOps.
  Local Open Scope float_scope.
  Theorem C86_fix_normals_refuted : exists c : Four (SPoint float), sp_degen (f2 c) = false /\ sp_normal (f2 c) = [0; 0; 1] /\
    sp_degen (f0 c) = true /\ sp_normal (f0 (fix_normals c)) = [0; 0; 0].
  Proof. exact fix_normals_refuted. Qed.
End C86_fix_normals_refuted_statement.
Print Assumptions C86_fix_normals_refuted.
