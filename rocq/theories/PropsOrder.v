(** * Accessors, the three boolean operations, and intersections in the other order

    Only statements: each theorem is proved elsewhere; its statement is repeated here, followed by
    a concrete case that meets its hypotheses. *)
From Coq Require Import Floats Reals Lra Lia List Sorted Permutation.
From Verif Require Import Base BaseFacts Scalar RSum BSplineSpec BSpline KnotModel KnotSpec KnotFacts VecFacts MiscModel CurveModel CurveKnotModel
  CurveSpec CurveProofs CurveGeom CurveGeom2 KnotMisc Accessors Boehm Refine SplitModel SplitProofs Decompose CompoundModel CompoundProofs CompoundCycle TrimFine BBoxModel
  ClosestModel BfgsModel IntersectModel IntersectRefuted ClipModel ClipSpec Boolean CompoundArc BooleanCompound BooleanModel BooleanSwap BooleanMethods BfgsSwap IntersectSwap IntersectOrderRefuted
  Demo PropsBoolean PropsBoolean2 PropsBoolean3.
Import ListNotations.
Local Open Scope R_scope.

(** one candidate pair of the two squares, refined to the crossing (4, 2) *)
Section Case.
  Local Hint Extern 0 (Scalar R) => exact (ROps eps0 maxv0) : typeclass_instances.
  Definition one (_ _ : Curve R) : Res (option (R * R)) := Ok (Some (3 / 2, 5 / 2)).
  Definition eno (_ _ : Curve R) : Res (option (R * R)) := Ok (Some (5 / 2, 3 / 2)).
  Lemma one_hit min h da db ca cb : cc_candidate one sq1 sq2 da db min ca cb = Ok (Some h) -> ha_t h = 3 / 2 /\ hb_t h = 5 / 2.
  Proof.
    unfold cc_candidate, one. cbn [bind]. destruct (in_range da (3 / 2) && in_range db (5 / 2))%bool; [|discriminate]. intros H.
    apply bind_ok in H as (p & _ & H). apply bind_ok in H as (q & _ & H). revert H. destruct (vnorm (vsub p q) <? min)%S; intros H; [|discriminate]. injection H as <-. auto.
  Qed.
  Lemma one_clustered min : clustered (reached eps0 maxv0 sq1 sq2 min one [(sq1, sq2)]).
  Proof.
    assert (G : forall h, reached eps0 maxv0 sq1 sq2 min one [(sq1, sq2)] h -> ha_t h = 3 / 2 /\ hb_t h = 5 / 2).
    { intros h (da & db & ca & cb & _ & _ & _ & E). exact (one_hit _ _ _ _ _ _ E). }
    assert (Z : forall x, Rabs (x - x) < tol) by (intros x; rewrite Rminus_diag_eq, Rabs_R0 by reflexivity; unfold tol; lra).
    split; [|split].
    - intros x y Hx Hy _. destruct (G x Hx) as (_ & ->), (G y Hy) as (_ & ->). apply Z.
    - intros x y Hx Hy _. destruct (G x Hx) as (-> & _), (G y Hy) as (-> & _). apply Z.
    - intros x y z Hx _ Hz _ _. unfold same. destruct (G x Hx) as (-> & ->), (G z Hz) as (-> & ->). auto.
  Qed.
  Lemma one_hits : exists h, cc_refine one sq1 sq2 (1 / 100000) [(sq1, sq2)] = Ok [h].
  Proof.
    unfold cc_refine. rewrite !knots_domain_ok by apply sq_ok. cbn [bind mapM]. change (dom0 sq1, dom1 sq1) with (0, 4). change (dom0 sq2, dom1 sq2) with (0, 4).
    unfold cc_candidate, one. cbn [bind]. unfold in_range. cbn [fst snd]. rs.
    destruct (Rleb_spec 0 (3 / 2)); [|exfalso; lra]. destruct (Rleb_spec (3 / 2) 4); [|exfalso; lra]. destruct (Rleb_spec 0 (5 / 2)); [|exfalso; lra]. destruct (Rleb_spec (5 / 2) 4); [|exfalso; lra]. cbn [andb].
    unfold sq1, sq2. rewrite (sq_point 2 (3 / 2)) by (try lia; cbn; lra). cbn [bind]. rewrite (sq_point 3 (5 / 2)) by (try lia; cbn; lra). cbn [bind].
    unfold vnorm. rs. match goal with |- context [sqrt ?x] => assert (E : x = 0) end.
    { unfold vnorm2, vdot, vsub, ssum, cpc, rc. cbn [nth cpts square map app Nat.sub INR map2 fold_left]. rs. field. }
    rewrite E, sqrt_0. destruct (Rltb_spec 0 (1 / 100000)); [|exfalso; lra]. cbn [bind keep_some]. unfold finish, sort_by. cbn [fold_right insert_by coalesce coalesce_from representatives representative]. eauto.
  Qed.

  (** a run without iterations answers with its starting point *)
  Lemma idle : exists t, bfgs_cc 1 (MkOptions (1 / 100000) 64 eps0 eps0 0) demo demo = Ok (Some t).
  Proof.
    unfold bfgs_cc. rewrite knots_domain_ok by exact demo_ok. cbn [bind]. unfold bfgs_run, cc_cost. unfold coord at 1 2. cbn [nth].
    pose proof (demo_ok) as Hc. assert (Hs : shape_ok demo) by (constructor; [apply (co_pts _ Hc)|apply (co_len _ Hc)|reflexivity]).
    assert (Hu : dom0 demo <= dom0 demo <= dom1 demo) by (destruct demo_dom as [-> ->]; lra).
    pose proof (wfun_pos eps0 maxv0 demo _ demo_ok demo_eps demo_pos Hu) as W. destruct (point_at_spec eps0 maxv0 demo _ demo_ok demo_eps Hu ltac:(lra)) as (q & Eq & _).
    destruct (point_at_total demo (dom0 demo) Hs) as (p & Ep & Et). rewrite Ep. cbn [bind]. unfold gap_cost. cbv zeta.
    destruct (coord (cdim demo - 1) p =? szero)%S eqn:Z; [rewrite Et in Eq; discriminate|]. cbn [negb andb bind loop_]. unfold bfgs_stop. cbn [bs_max bs_iter op_iters Nat.leb orb bind bs_best best_update].
    match goal with |- context [if (?x =? ?x)%S then _ else _] => assert (E : (x =? x)%S = true) by (rs; destruct (Reqb_spec x x); congruence); rewrite E end. eauto.
  Qed.
End Case.


Section C04_accessors_spec_statement.
  Variables eps maxv : R.
  Local Hint Extern 0 (Scalar R) => exact (ROps eps maxv) : typeclass_instances.
  Local Notation traced := (traced eps maxv).
  Local Notation on_boundary := (on_boundary eps maxv).
  Local Notation crossing_point := (crossing_point eps maxv).

  Theorem C04_accessors_spec : forall (c : Curve R),
    curve_ok c -> pos_weights c ->
    exists ps, dehomogenized_control_points c = Ok ps /\ length ps = length (cpts c) /\ length (weights c) = length (cpts c) /\
    forall j, (j < length (cpts c))%nat -> length (nth j ps []) = (cdim c - 1)%nat /\ 0 < nth j (weights c) 0 /\
    nth j (cpts c) [] = vscale (nth j ps []) (nth j (weights c) 0) ++ [nth j (weights c) 0].
  Proof. first [exact (accessors_spec eps maxv) | exact (accessors_spec eps maxv inter contains)]. Qed.
End C04_accessors_spec_statement.
Print Assumptions C04_accessors_spec.

Section C04_evaluation_accessors_statement.
  Variables eps maxv : R.
  Local Hint Extern 0 (Scalar R) => exact (ROps eps maxv) : typeclass_instances.
  Local Notation traced := (traced eps maxv).
  Local Notation on_boundary := (on_boundary eps maxv).
  Local Notation crossing_point := (crossing_point eps maxv).

  Theorem C04_evaluation_accessors : forall (c : Curve R) u,
    curve_ok c -> curve_eps eps c -> pos_weights c -> dom0 c <= u <= dom1 c ->
    exists ps p, dehomogenized_control_points c = Ok ps /\ point_at c u = Ok p /\ length p = (cdim c - 1)%nat /\
    let N := fun j => cox_closed (kf (cknots c)) (dom1 c) (cdeg c) j u in
    let w := fun j => nth j (weights c) 0 in
    0 < rsum (length (cpts c)) (fun j => N j * w j) /\
    forall i, (i < cdim c - 1)%nat ->
    rc i p = rsum (length (cpts c)) (fun j => N j * w j * rc i (nth j ps [])) / rsum (length (cpts c)) (fun j => N j * w j).
  Proof. first [exact (evaluation_accessors eps maxv) | exact (evaluation_accessors eps maxv inter contains)]. Qed.
End C04_evaluation_accessors_statement.
Example C04_case_accessors : curve_ok demo /\ curve_eps eps0 demo /\ pos_weights demo /\ dom0 demo <= 1 <= dom1 demo.
Proof. split; [exact demo_ok|]. split; [exact demo_eps|]. split; [exact demo_pos|]. destruct demo_dom as [-> ->]. lra. Qed.
Print Assumptions C04_evaluation_accessors.

Section C92_boolean_methods_statement.
  Variables eps maxv : R.
  Local Hint Extern 0 (Scalar R) => exact (ROps eps maxv) : typeclass_instances.
  Local Notation traced := (traced eps maxv).
  Local Notation on_boundary := (on_boundary eps maxv).
  Local Notation crossing_point := (crossing_point eps maxv).
  Variable inter : Curve R -> Curve R -> Res (list (@Hit R)).
  Variable contains : Opd R -> list R -> Res bool.
  Local Notation crossing_case := (crossing_case eps maxv inter contains).

  Theorem C92_boolean_methods : forall a b hits (inA inB : list R -> bool),
    0 < eps -> crossing_case a b hits inA inB ->
    exists u i d, op_union inter contains a b = Ok u /\ op_intersection inter contains a b = Ok i /\ op_difference inter contains a b = Ok d /\
    (forall p, traced u p <-> crossing_point a hits p \/ on_boundary a p /\ inB p = false \/ on_boundary b p /\ inA p = false) /\
    (forall p, traced i p <-> crossing_point a hits p \/ on_boundary a p /\ inB p = true \/ on_boundary b p /\ inA p = true) /\
    (forall p, traced d p <-> crossing_point a hits p \/ on_boundary a p /\ inB p = false \/ on_boundary b p /\ inA p = true).
  Proof. first [exact (boolean_methods eps maxv) | exact (boolean_methods eps maxv inter contains)]. Qed.
End C92_boolean_methods_statement.
Print Assumptions C92_boolean_methods.

Section C92_boolean_cover_statement.
  Variables eps maxv : R.
  Local Hint Extern 0 (Scalar R) => exact (ROps eps maxv) : typeclass_instances.
  Local Notation traced := (traced eps maxv).
  Local Notation on_boundary := (on_boundary eps maxv).
  Local Notation crossing_point := (crossing_point eps maxv).
  Variable inter : Curve R -> Curve R -> Res (list (@Hit R)).
  Variable contains : Opd R -> list R -> Res bool.
  Local Notation crossing_case := (crossing_case eps maxv inter contains).

  Theorem C92_boolean_cover : forall a b hits (inA inB : list R -> bool),
    0 < eps -> crossing_case a b hits inA inB ->
    exists u i d, op_union inter contains a b = Ok u /\ op_intersection inter contains a b = Ok i /\ op_difference inter contains a b = Ok d /\
    (forall p, traced u p \/ traced i p <-> on_boundary a p \/ on_boundary b p) /\
    (forall p, on_boundary a p -> traced d p \/ traced i p) /\
    (forall p, on_boundary b p -> traced u p \/ traced d p) /\
    (forall p, traced d p -> on_boundary a p \/ on_boundary b p).
  Proof. first [exact (boolean_cover eps maxv) | exact (boolean_cover eps maxv inter contains)]. Qed.
End C92_boolean_cover_statement.
Print Assumptions C92_boolean_cover.

Section C92_boolean_start_statement.
  Variables eps maxv : R.
  Local Hint Extern 0 (Scalar R) => exact (ROps eps maxv) : typeclass_instances.
  Local Notation traced := (traced eps maxv).
  Local Notation on_boundary := (on_boundary eps maxv).
  Local Notation crossing_point := (crossing_point eps maxv).

  Theorem C92_boolean_start : forall (o : Opd R),
    ring eps maxv (opd_spans o) -> opd_spans o <> [] ->
    exists c rest p, opd_spans o = c :: rest /\ opd_first o = Ok p /\ compound_point_at (opd_spans o) (dom0 c) = Ok (Some p) /\
    forall d, In d (opd_spans o) -> dom0 c <= dom0 d.
  Proof. first [exact (boolean_start eps maxv) | exact (boolean_start eps maxv inter contains)]. Qed.
End C92_boolean_start_statement.
(** the pair of squares of C92 meets the hypotheses *)
Example C92_case_start : 0 < eps0 /\ crossing_case eps0 maxv0 found outside (OpCompound edges) (OpCurve sq2) edge_hits (in_box 0 4) (in_box 2 6) /\
  ring eps0 maxv0 (opd_spans (OpCompound edges)) /\ opd_spans (OpCompound edges) <> [].
Proof. split; [unfold eps0; lra|]. split; [exact edges_case|]. split; [exact edges_ring|discriminate]. Qed.
Print Assumptions C92_boolean_start.

Section C97_solver_swap_statement.
  Variables eps maxv : R.
  Local Hint Extern 0 (Scalar R) => exact (ROps eps maxv) : typeclass_instances.
  Local Notation traced := (traced eps maxv).
  Local Notation on_boundary := (on_boundary eps maxv).
  Local Notation crossing_point := (crossing_point eps maxv).

  Theorem C97_solver_swap : forall fuel o (a b : Curve R) ta tb,
    shape_ok a -> shape_ok b -> cdim a = cdim b ->
    bfgs_cc fuel o a b = Ok (Some (ta, tb)) -> bfgs_cc fuel o b a = Ok (Some (tb, ta)).
  Proof. first [exact (solver_swap eps maxv) | exact (solver_swap eps maxv inter contains)]. Qed.
End C97_solver_swap_statement.
Section C97_case_solver_section.
  Local Hint Extern 0 (Scalar R) => exact (ROps eps0 maxv0) : typeclass_instances.
  Example C97_case_solver : shape_ok demo /\ exists t, bfgs_cc 1 (MkOptions (1 / 100000) 64 eps0 eps0 0) demo demo = Ok (Some t).
  Proof. split; [pose proof demo_ok as Hc; constructor; [apply (co_pts _ Hc)|apply (co_len _ Hc)|reflexivity]|exact idle]. Qed.
End C97_case_solver_section.
Print Assumptions C97_solver_swap.

Section C97_refine_swap_statement.
  Variables eps maxv : R.
  Local Hint Extern 0 (Scalar R) => exact (ROps eps maxv) : typeclass_instances.
  Variables (a b : Curve R) (min : R).
  Local Notation reached := (reached eps maxv a b min).

  Theorem C97_refine_swap : forall solve solve' pairs pairs' r,
    (forall ca cb, In (ca, cb) pairs -> exists x, solve ca cb = Ok x /\ solve' cb ca = Ok (swap_answer x)) ->
    Permutation pairs' (map swap_pair pairs) -> clustered (reached solve pairs) ->
    cc_refine solve a b min pairs = Ok r -> exists r', cc_refine solve' b a min pairs' = Ok r' /\ matched r r'.
  Proof. exact (refine_swap eps maxv a b min). Qed.
End C97_refine_swap_statement.
Section C97_case_section.
  Local Hint Extern 0 (Scalar R) => exact (ROps eps0 maxv0) : typeclass_instances.
  Example C97_case : (exists x, one sq1 sq2 = Ok x /\ eno sq2 sq1 = Ok (swap_answer x)) /\ Permutation [(sq2, sq1)] (map swap_pair [(sq1, sq2)]) /\
    clustered (reached eps0 maxv0 sq1 sq2 (1 / 100000) one [(sq1, sq2)]) /\ exists h, cc_refine one sq1 sq2 (1 / 100000) [(sq1, sq2)] = Ok [h].
  Proof. split; [eexists; split; reflexivity|]. split; [reflexivity|]. split; [apply one_clustered|exact one_hits]. Qed.
End C97_case_section.
Print Assumptions C97_refine_swap.

Section C97_bfgs_refine_swap_statement.
  Variables eps maxv : R.
  Local Hint Extern 0 (Scalar R) => exact (ROps eps maxv) : typeclass_instances.
  Local Notation traced := (traced eps maxv).
  Local Notation on_boundary := (on_boundary eps maxv).
  Local Notation crossing_point := (crossing_point eps maxv).

  Theorem C97_bfgs_refine_swap : forall (a b : Curve R) min fuel o pairs pairs' r,
    (forall ca cb, In (ca, cb) pairs -> shape_ok ca /\ shape_ok cb /\ cdim ca = cdim cb /\ exists t, bfgs_cc fuel o ca cb = Ok (Some t)) ->
    Permutation pairs' (map swap_pair pairs) -> clustered (reached eps maxv a b min (bfgs_cc fuel o) pairs) ->
    cc_refine (bfgs_cc fuel o) a b min pairs = Ok r -> exists r', cc_refine (bfgs_cc fuel o) b a min pairs' = Ok r' /\ matched r r'.
  Proof. first [exact (bfgs_refine_swap eps maxv) | exact (bfgs_refine_swap eps maxv inter contains)]. Qed.
End C97_bfgs_refine_swap_statement.
Print Assumptions C97_bfgs_refine_swap.

Section C97_intersections_symmetric_refuted_statement.
  Local Existing Instance FOps.
  Local Open Scope float_scope.
  Theorem C97_intersections_symmetric_refuted : exists (a b : Curve float) t0 t1 t2 s0 s1 r r',
    (t1 - t0 =? 2) = true /\ (t2 - t1 =? 2) = true /\
    point_at a t0 = Ok [0; 0] /\ point_at b s0 = Ok [0; 0] /\ point_at a t1 = Ok [2; 0] /\ point_at b s1 = Ok [2; 0] /\
    point_at a t2 = Ok [0; 0] /\
    intersect a b = Ok r /\ length r = 3%nat /\ intersect b a = Ok r' /\ length r' = 2%nat.
  Proof. exact intersections_symmetric_refuted. Qed.
End C97_intersections_symmetric_refuted_statement.
Print Assumptions C97_intersections_symmetric_refuted.
