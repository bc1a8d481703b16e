(** * Properties of the search for intersections

    Only statements: each theorem is proved elsewhere; its statement is repeated here, followed by
    a concrete case that meets its hypotheses. *)
From Coq Require Import Floats.
From Coq Require Import Reals Lra Lia ZArith List Permutation Sorted.
From Verif Require Import Base BaseFacts Scalar RSum KnotModel KnotSpec KnotFacts VecFacts CurveModel CurveSpec CurveProofs CurveGeom2 CurveShapes
  SurfaceModel SurfaceSpec SurfaceProofs CompoundModel BBoxModel TraversalModel TraversalProofs TraversalCurve TraversalSurface
  IntersectModel IntersectProofs IntersectMain IntersectRefuted Demo.
Open Scope R_scope.

(** two crossing rational single-span curves, and a bilinear patch pierced by a line *)
Definition bz1 : Curve R := MkCurve 3 2 [[0; 0; 1]; [2; 4; 2]; [2; 0; 1]] [0; 0; 0; 1; 1; 1].
Definition bz2 : Curve R := MkCurve 3 1 [[0; 1; 1]; [3; 1; 1]] [0; 0; 1; 1].
Definition patch : Surf R := MkSurf 4 1 1 [0; 0; 1; 1] [0; 0; 1; 1]
  [ [[0; 0; 0; 1]; [0; 1; 0; 1]]; [[1; 0; 0; 1]; [1; 1; 1; 1]] ].
Definition pierce : Curve R := MkCurve 4 1 [[1 / 2; 1 / 2; -1; 1]; [1 / 2; 1 / 2; 1; 1]] [0; 0; 1; 1].

Ltac curve_tac := constructor; cbn; try lia; [repeat constructor|];
  constructor; cbn; try lia; unfold kf; cbn; try lra; repeat constructor; lra.
Lemma bz1_box : box_curve eps0 maxv0 bz1.
Proof.
  constructor.
  - curve_tac.
  - unfold curve_eps, eps_ok, eps0, kf. cbn. lra.
  - intros j Hj. cbn in Hj. unfold cpc, rc. cbn. destruct j as [|[|[|j]]]; cbn; try lra. lia.
  - intros i j Hi Hj. cbn in Hi, Hj. unfold cpc, rc, maxv0.
    destruct i as [|[|i]]; [| |lia]; (destruct j as [|[|[|j]]]; [| | |lia]); cbn; abs_lra.
Qed.
Lemma bz2_box : box_curve eps0 maxv0 bz2.
Proof.
  constructor.
  - curve_tac.
  - unfold curve_eps, eps_ok, eps0, kf. cbn. lra.
  - intros j Hj. cbn in Hj. unfold cpc, rc. cbn. destruct j as [|[|j]]; cbn; try lra. lia.
  - intros i j Hi Hj. cbn in Hi, Hj. unfold cpc, rc, maxv0.
    destruct i as [|[|i]]; [| |lia]; (destruct j as [|[|j]]; [| |lia]); cbn; abs_lra.
Qed.
Lemma pierce_box : box_curve eps0 maxv0 pierce.
Proof.
  constructor.
  - curve_tac.
  - unfold curve_eps, eps_ok, eps0, kf. cbn. lra.
  - intros j Hj. cbn in Hj. unfold cpc, rc. cbn. destruct j as [|[|j]]; cbn; try lra. lia.
  - intros i j Hi Hj. cbn in Hi, Hj. unfold cpc, rc, maxv0.
    destruct i as [|[|[|i]]]; [| | |lia]; (destruct j as [|[|j]]; [| |lia]); cbn; abs_lra.
Qed.
Lemma patch_box : box_surf eps0 patch.
Proof.
  constructor.
  - constructor; cbn; try lia; try (repeat constructor; fail);
      (constructor; cbn; try lia; unfold kf; cbn; try lra; repeat constructor; lra).
  - split; unfold eps_ok, eps0, kf; cbn; lra.
  - intros a b Ha Hb. cbn in Ha, Hb. unfold spc, rc.
    destruct a as [|[|a]]; [| |lia]; (destruct b as [|[|b]]; [| |lia]); cbn; lra.
Qed.
(** a solver that never finds anything, one hit and a way to tell hits apart *)
Definition no_solver (ca cb : Curve R) : Res (option (R * R)) := Ok None.
Definition opts : Options := MkOptions (1 / 100000) 10 (1 / 1000) (1 / 1000) 10.
Lemma bz_off (c : Curve R) : c = bz1 \/ c = bz2 -> divisions_off_knots eps0 maxv0 (fun _ => 1 / 2) c ((dom1 c - dom0 c) / INR (op_div opts)).
Proof.
  assert (D : forall c, c = bz1 \/ c = bz2 -> dom1 c - dom0 c = 1).
  { intros c' [-> | ->]; unfold dom0, dom1, kf; cbn; lra. }
  intros Hc. rewrite (D c Hc). cbn [opts op_div]. replace (INR 10) with 10 by (rewrite INR_IZR_INZ; reflexivity).
  apply bezier_divisions; try (destruct Hc as [-> | ->]; [exact bz1_box|exact bz2_box]); try (destruct Hc as [-> | ->]; split; reflexivity);
    unfold eps0; try lra; intros; lra.
Qed.


Section C45_cc_intersections_genuine_statement.
  Context {T : Type} {SO : Scalar T}.
  Local Open Scope scalar_scope.

  Theorem C45_cc_intersections_genuine : forall solve rng fuel a b o hits,
    cc_intersections solve rng fuel a b o = Ok hits -> Forall (genuine a b (op_min o)) hits.
  Proof. exact cc_intersections_genuine. Qed.
End C45_cc_intersections_genuine_statement.
Print Assumptions C45_cc_intersections_genuine.

Section C45_sc_intersections_genuine_statement.
  Context {T : Type} {SO : Scalar T}.
  Local Open Scope scalar_scope.

  Theorem C45_sc_intersections_genuine : forall solve rng fuel s b o hits,
    sc_intersections solve rng fuel s b o = Ok hits -> Forall (sgenuine s b (op_min o)) hits.
  Proof. exact sc_intersections_genuine. Qed.
End C45_sc_intersections_genuine_statement.
Print Assumptions C45_sc_intersections_genuine.

Section C45_cc_intersections_complete_statement.
  Variables eps maxv : R.
  Local Hint Extern 0 (Scalar R) => exact (ROps eps maxv) : typeclass_instances.
  Local Notation box_curve := (box_curve eps maxv).
  Local Notation hit_of := (hit_of eps maxv).
  Local Notation surf_hit_of := (surf_hit_of eps maxv).
  Local Notation solver_finds := (solver_finds eps maxv).
  Theorem C45_cc_intersections_complete : forall solve rng a b o,
    (forall k, 0 <= rng k <= 1) -> box_curve a -> box_curve b -> cdim a = cdim b -> (0 < op_div o)%nat ->
    divisions_off_knots eps maxv rng a ((dom1 a - dom0 a) / INR (op_div o)) ->
    divisions_off_knots eps maxv rng b ((dom1 b - dom0 b) / INR (op_div o)) ->
    (forall ca cb, exists r, solve ca cb = Ok r) ->
    exists fuel0 hits,
    (forall fuel, (fuel0 <= fuel)%nat -> cc_intersections solve rng fuel a b o = Ok hits) /\
    Forall (hit_of a b (op_min o)) hits /\ StronglySorted (fun x y => ha_t x + 1 / 1000 <= ha_t y) hits /\
    (solver_finds solve a b ((dom1 a - dom0 a) / INR (op_div o)) ((dom1 b - dom0 b) / INR (op_div o)) (op_min o) ->
    forall u v, dom0 a <= u <= dom1 a -> dom0 b <= v <= dom1 b -> point_at a u = point_at b v -> hits <> []).
  Proof. first [exact (cc_intersections_complete eps maxv) | exact (cc_intersections_complete eps) | exact cc_intersections_complete | exact (cc_intersections_complete maxv)]. Qed.
End C45_cc_intersections_complete_statement.
Example C45_case : box_curve eps0 maxv0 bz1 /\ box_curve eps0 maxv0 bz2 /\ divisions_off_knots eps0 maxv0 (fun _ => 1 / 2) bz1 ((dom1 bz1 - dom0 bz1) / INR (op_div opts)) /\ divisions_off_knots eps0 maxv0 (fun _ => 1 / 2) bz2 ((dom1 bz2 - dom0 bz2) / INR (op_div opts)) /\ forall ca cb, exists r, no_solver ca cb = Ok r.
Proof. split; [exact bz1_box|]; split; [exact bz2_box|]; split; [apply bz_off; now left|]; split; [apply bz_off; now right|eexists; reflexivity]. Qed.
Print Assumptions C45_cc_intersections_complete.

Section C45_sc_intersections_spec_statement.
  Variables eps maxv : R.
  Local Hint Extern 0 (Scalar R) => exact (ROps eps maxv) : typeclass_instances.
  Local Notation box_curve := (box_curve eps maxv).
  Local Notation hit_of := (hit_of eps maxv).
  Local Notation surf_hit_of := (surf_hit_of eps maxv).
  Local Notation solver_finds := (solver_finds eps maxv).
  Theorem C45_sc_intersections_spec : forall solve rng fuel s b o hits,
    box_surf eps s -> box_curve b -> sdim s = cdim b ->
    sc_intersections solve rng fuel s b o = Ok hits ->
    Forall (surf_hit_of s b (op_min o)) hits /\ StronglySorted (fun x y => sh_t x + 1 / 1000 <= sh_t y) hits.
  Proof. first [exact (sc_intersections_spec eps maxv) | exact (sc_intersections_spec eps) | exact sc_intersections_spec | exact (sc_intersections_spec maxv)]. Qed.
End C45_sc_intersections_spec_statement.
Example C45_case_surface : box_surf eps0 patch /\ box_curve eps0 maxv0 pierce /\ sdim patch = cdim pierce.
Proof. split; [exact patch_box|]; split; [exact pierce_box|reflexivity]. Qed.
Print Assumptions C45_sc_intersections_spec.

Section C45_finish_apart_statement.
  Variables eps maxv : R.
  Local Hint Extern 0 (Scalar R) => exact (ROps eps maxv) : typeclass_instances.
  Context {H : Type}.
  Variables (key : H -> R) (near : H -> H -> bool) (gap : H -> R) (d : R).
  Hypothesis far : forall x y, near x y = false -> d <= Rabs (key x - key y).
  Theorem C45_finish_apart : forall l,
    0 <= d -> StronglySorted (fun x y => key x + d <= key y) (finish key near gap l).
  Proof. exact (finish_apart eps maxv key near gap d far). Qed.
End C45_finish_apart_statement.
Example C45_case_apart : finish (SO := ROps eps0 maxv0) (fun x => x) (fun x y => Rltb (Rabs (x - y)) (1 / 2)) (fun x => x) [3; 1] = [1; 3] /\ forall x y, Rltb (Rabs (x - y)) (1 / 2) = false -> 1 / 2 <= Rabs (x - y).
Proof. split; [unfold finish; cbn; rs; unfold Rltb; repeat (destruct (Rlt_dec _ _); try lra; cbn [coalesce coalesce_from representatives representative app]); try reflexivity; exfalso; revert r0; unfold Rabs; destruct (Rcase_abs _); lra|]; intros x y; destruct (Rltb_spec (Rabs (x - y)) (1 / 2)); [discriminate|lra]. Qed.
Print Assumptions C45_finish_apart.

Section C45_finish_covers_statement.
  Variables eps maxv : R.
  Local Hint Extern 0 (Scalar R) => exact (ROps eps maxv) : typeclass_instances.
  Context {H : Type}.
  Variables (key : H -> R) (near : H -> H -> bool) (gap : H -> R).
  Local Notation chain := (chain near).
  Theorem C45_finish_covers : forall l x,
    In x l -> exists r, In r (finish key near gap l) /\ chain l x r /\ gap r <= gap x.
  Proof. exact (finish_covers eps maxv key near gap). Qed.
End C45_finish_covers_statement.
Print Assumptions C45_finish_covers.

Section C45_finish_keeps_statement.
  Variables eps maxv : R.
  Local Hint Extern 0 (Scalar R) => exact (ROps eps maxv) : typeclass_instances.
  Context {H : Type}.
  Variables (key : H -> R) (near : H -> H -> bool) (gap : H -> R).
  Theorem C45_finish_keeps : forall l,
    ForallOrdPairs (fun x y => near x y = false /\ near y x = false) l -> Permutation (finish key near gap l) l.
  Proof. exact (finish_keeps eps maxv key near gap). Qed.
End C45_finish_keeps_statement.
Example C45_case_keeps : ForallOrdPairs (fun x y : nat => Nat.eqb x y = false /\ Nat.eqb y x = false) [3; 1; 2]%nat.
Proof. repeat constructor. Qed.
Print Assumptions C45_finish_keeps.

Section C45_intersections_not_merged_refuted_statement.
  Local Existing Instance FOps.
  Local Open Scope float_scope.
  Theorem C45_intersections_not_merged_refuted : exists (a b : Curve float) h t0 t1 s0 s1,
    point_at a t0 = Ok [-0.5; 0.5] /\ point_at b s0 = Ok [-0.5; 0.5] /\
    point_at a t1 = Ok [0.5; 0.5] /\ point_at b s1 = Ok [0.5; 0.5] /\
    intersect a b = Ok [h] /\ ha_p h = [-0.5; 0.5].
  Proof. exact intersections_not_merged_refuted. Qed.
End C45_intersections_not_merged_refuted_statement.
Print Assumptions C45_intersections_not_merged_refuted.

Section C45_endpoint_intersection_found_refuted_statement.
  Local Existing Instance FOps.
  Local Open Scope float_scope.
  Theorem C45_endpoint_intersection_found_refuted : exists (a b : Curve float) s,
    knots_domain a = Ok (0, 1) /\ knots_domain b = Ok (0, 1) /\ point_at a 1 = Ok [2; 0] /\ point_at b s = Ok [2; 0] /\
    (0 <? s) = true /\ (s <? 1) = true /\ intersect a b = Ok [].
  Proof. exact endpoint_intersection_found_refuted. Qed.
End C45_endpoint_intersection_found_refuted_statement.
Print Assumptions C45_endpoint_intersection_found_refuted.

Section C62_compound_hits_statement.
  Context {T : Type} {SO : Scalar T}.
  Local Open Scope nat_scope.

  Theorem C62_compound_hits : forall inter spans other out,
    compound_x_curve inter spans other = Ok out ->
    exists raw kept, Forall2 (span_hits inter other) spans raw /\ out = concat kept /\ length kept = length spans /\
    (length spans <= 1 -> kept = raw) /\
    (forall i, S i < length spans -> culled (nth i raw []) (nth (S i) raw []) (nth i kept [])) /\
    (1 < length spans -> culled (nth (length spans - 1) raw []) (nth 0 kept []) (nth (length spans - 1) kept [])).
  Proof. exact compound_hits. Qed.
End C62_compound_hits_statement.
Example C62_case : (compound_x_curve (SO := ROps eps0 maxv0) (fun _ _ => Ok [MkHit [0] (1 / 2) [0] (1 / 2)]) [bz1] bz2 = Ok [(bz1, bz2, MkHit [0] (1 / 2) [0] (1 / 2))]).
Proof. reflexivity. Qed.
Print Assumptions C62_compound_hits.

Section C62_compound_hits_sound_statement.
  Context {T : Type} {SO : Scalar T}.
  Local Open Scope nat_scope.

  Theorem C62_compound_hits_sound : forall inter spans other out,
    compound_x_curve inter spans other = Ok out ->
    forall s o h, In (s, o, h) out -> In s spans /\ o = other /\ exists hits, inter s other = Ok hits /\ In h hits.
  Proof. exact compound_hits_sound. Qed.
End C62_compound_hits_sound_statement.
Print Assumptions C62_compound_hits_sound.

Section C62_compound_keeps_hits_statement.
  Context {T : Type} {SO : Scalar T}.
  Local Open Scope nat_scope.

  Theorem C62_compound_keeps_hits : forall inter spans other out,
    compound_x_curve inter spans other = Ok out ->
    forall s hits h d0 d1, In s spans -> inter s other = Ok hits -> In h hits -> knots_domain s = Ok (d0, d1) ->
    (sabs (d1 - ha_t h) <? sone / sofz 100)%S = false -> In (s, other, h) out.
  Proof. exact compound_keeps_hits. Qed.
End C62_compound_keeps_hits_statement.
Print Assumptions C62_compound_keeps_hits.

Section C62_compounds_hits_sound_statement.
  Context {T : Type} {SO : Scalar T}.
  Local Open Scope nat_scope.

  Theorem C62_compounds_hits_sound : forall inter spans others out,
    compound_x_compound inter spans others = Ok out ->
    forall s o h, In (s, o, h) out -> In s spans /\ In o others /\ exists hits, inter s o = Ok hits /\ In h hits.
  Proof. exact compounds_hits_sound. Qed.
End C62_compounds_hits_sound_statement.
Print Assumptions C62_compounds_hits_sound.

Section C62_open_compound_keeps_hits_refuted_statement.
  Local Existing Instance FOps.
  Local Open Scope float_scope.
  Theorem C62_open_compound_keeps_hits_refuted : exists (s0 s1 c : Curve float) h0 h1 r,
    point_at s0 1 = point_at s1 0 /\ point_at s0 0 <> point_at s1 1 /\
    intersect s0 c = Ok [h0] /\ intersect s1 c = Ok [h1] /\ (1.75 <? vnorm (vsub (ha_p h0) (ha_p h1))) = true /\
    compound_x_curve intersect [s0; s1] c = Ok r /\ map (fun h => snd h) r = [h0].
  Proof. exact open_compound_keeps_hits_refuted. Qed.
End C62_open_compound_keeps_hits_refuted_statement.
Print Assumptions C62_open_compound_keeps_hits_refuted.

Section C62_compound_hits_distinct_refuted_statement.
  Local Existing Instance FOps.
  Local Open Scope float_scope.
  Theorem C62_compound_hits_distinct_refuted : exists (a b0 b1 : Curve float) h0 h1,
    point_at b0 1 = point_at b1 0 /\ compound_x_compound intersect [a] [b0; b1] = Ok [h0; h1] /\
    ha_p (snd h0) = ha_p (snd h1) /\ ha_t (snd h0) = ha_t (snd h1) /\ hb_p (snd h0) = hb_p (snd h1).
  Proof. exact compound_hits_distinct_refuted. Qed.
End C62_compound_hits_distinct_refuted_statement.
Print Assumptions C62_compound_hits_distinct_refuted.
