(** * Boolean operations as a whole, and the order of the operands

    Only statements: each theorem is proved elsewhere; its statement is repeated here, followed by
    a concrete case that meets its hypotheses. *)
From Coq Require Import Reals Lra Lia List Sorted Permutation.
From Verif Require Import Base BaseFacts Scalar RSum BSplineSpec BSpline KnotModel KnotSpec KnotFacts VecFacts MiscModel CurveModel CurveKnotModel
  CurveSpec CurveProofs CurveGeom CurveGeom2 KnotMisc Boehm Refine SplitModel SplitProofs Decompose CompoundModel CompoundProofs CompoundCycle TrimFine BBoxModel IntersectModel
  ClipModel ClipSpec Boolean CompoundArc BooleanCompound BooleanModel BooleanSwap Demo PropsBoolean PropsBoolean2.
Import ListNotations.
Local Open Scope R_scope.

(** the square made of four edges and the square curve of C92; two of the edges cross it *)
Definition found (a b : Curve R) : Res (list (@Hit R)) :=
  Ok (if Reqb (nth 0 (cknots a) 0) 1 then [MkHit [4; 2] (3 / 2) [4; 2] (5 / 2)]
      else if Reqb (nth 0 (cknots a) 0) 2 then [MkHit [2; 4] (5 / 2) [2; 4] (3 / 2)] else []).
Definition edge_hits : list (@CHit R) :=
  [(edge 1 4 0 4 4, sq2, MkHit [4; 2] (3 / 2) [4; 2] (5 / 2)); (edge 2 4 4 0 4, sq2, MkHit [2; 4] (5 / 2) [2; 4] (3 / 2))].
Definition outside (o : Opd R) (p : list R) : Res bool := Ok false.
Ltac cmp := repeat match goal with
  | |- context [Rltb ?x ?y] => lazymatch x with context [Rltb _ _] => fail | _ => lazymatch y with context [Rltb _ _] => fail | _ => destruct (Rltb_spec x y); try (exfalso; lra) end end
  | |- context [Reqb ?x ?y] => let Q := fresh in destruct (Reqb_spec x y) as [Q|Q]; [try (exfalso; lra)|try (exfalso; apply Q; lra)] end.
Section Case.
  Local Hint Extern 0 (Scalar R) => exact (ROps eps0 maxv0) : typeclass_instances.
  Lemma edges_found : boolean_hits found (OpCompound edges) (OpCurve sq2) = Ok edge_hits.
  Proof.
    cbn [boolean_hits]. unfold compound_x_curve, edges, found. cbn [mapM bind edge cknots nth]. cmp. cbn [map bind].
    unfold cull_seams. cbn [length for_range]. unfold for_range, cull_step. cbn [Nat.sub for_ Nat.eqb get nth_error bind seam_cull map last].
    unfold knots_domain, domain. cbn [length cknots cdeg edge usub Nat.ltb Nat.leb Nat.sub get nth_error bind ha_t]. rs. unfold seam_tol. rs.
    rewrite (Rabs_pos_eq (1 + 1 - 3 / 2)) by lra. destruct (Rltb_spec (1 + 1 - 3 / 2) (1 / 100)); [exfalso; lra|]. cbn [andb]. reflexivity.
  Qed.
  Lemma sq2_second u : 1 <= u < 2 -> point_at sq2 u = Ok [2; 6 - 4 * (u - 1)].
  Proof. intros Hu. pose proof (sq_point 2 u 6 6 2 6 2 2 6 2 ltac:(lia) ltac:(cbn; lra)) as E. cbv zeta in E. change sq2 with (square [6; 6] [2; 6] [2; 2] [6; 2]). rewrite E. unfold cpc, rc. cbn. do 2 f_equal; [lra|f_equal; lra]. Qed.
  Lemma sq2_third u : 2 <= u < 3 -> point_at sq2 u = Ok [2 + 4 * (u - 2); 2].
  Proof. intros Hu. pose proof (sq_point 3 u 6 6 2 6 2 2 6 2 ltac:(lia) ltac:(cbn; lra)) as E. cbv zeta in E. change sq2 with (square [6; 6] [2; 6] [2; 2] [6; 2]). rewrite E. unfold cpc, rc. cbn. do 2 f_equal; [lra|f_equal; lra]. Qed.
  Lemma perpendicular x y x' y' : x * x' = 0 -> y * y' = 0 -> vdot (vnormalize [x; y]) (vnormalize [x'; y']) = 0.
  Proof.
    intros Hx Hy. unfold vnormalize. generalize (vnorm [x; y]) (vnorm [x'; y']). intros n m. unfold vdot, vdivs, ssum. cbn [map map2 fold_left fold_right]. rs.
    unfold Rdiv. replace (x * / n * (x' * / m)) with (x * x' * (/ n * / m)) by ring. replace (y * / n * (y' * / m)) with (y * y' * (/ n * / m)) by ring. rewrite Hx, Hy. ring.
  Qed.
  Ltac cross_tac :=
    match goal with |- context [line_intersects ?l ?m] => assert (EL : line_intersects l m = true); [
      unfold line_intersects, line_rect, bb_new, bb_intersects, bb_axis, orientation, orient2d, coord, smin, smax; cbn [seq map forallb lstart lend bmin bmax nth]; rs; unfold maxv0, eps0; cmp; reflexivity|rewrite EL] end;
    cbn [negb]; unfold vsub; cbn [map2]; rs; rewrite perpendicular by lra; rewrite Rabs_R0; destruct (Rltb_spec 0 (9975 / 10000)); [reflexivity|exfalso; lra].
  Lemma edges_transversal : transversal eps0 maxv0 edge_hits.
  Proof.
    split; [|reflexivity]. unfold edge_hits. constructor; [|constructor; [|constructor]].
    - cbn [ha_t hb_t]. unfold degeneracy. cbv zeta. rs. rewrite !edge_point by lra. cbn [bind]. rewrite !sq2_third by lra. cbn [bind]. cross_tac.
    - cbn [ha_t hb_t]. unfold degeneracy. cbv zeta. rs. rewrite !edge_point by lra. cbn [bind]. rewrite !sq2_second by lra. cbn [bind]. cross_tac.
  Qed.
  Lemma edges_case : crossing_case eps0 maxv0 found outside (OpCompound edges) (OpCurve sq2) edge_hits (in_box 0 4) (in_box 2 6).
  Proof.
    constructor.
    - exact edges_ring.
    - exact sq2_ring.
    - exact edges_found.
    - discriminate.
    - exact edges_transversal.
    - exact edges_boundaries.
    - exists [0; 0], [6; 6].
      assert (E1 : opd_first (OpCompound edges) = Ok [0; 0]).
      { cbn [opd_first edges]. unfold first_point. rewrite knots_domain_ok by apply edge_ok. cbn [bind]. change (dom0 (edge 0 0 0 4 0)) with 0. rewrite edge_point by lra. do 2 f_equal; [lra|f_equal; lra]. }
      assert (E2 : opd_first (OpCurve sq2) = Ok [6; 6]).
      { cbn [opd_first]. unfold first_point. rewrite knots_domain_ok by apply sq_ok. cbn [bind]. change (dom0 sq2) with 0. apply (sq_ends 6 6 2 6 2 2 6 2). }
      split; [exact E1|]. split; [exact E2|].
      assert (B1 : in_box 2 6 [0; 0] = false) by (unfold in_box, rc; cbn [nth]; cmp; reflexivity).
      assert (B2 : in_box 0 4 [6; 6] = false) by (unfold in_box, rc; cbn [nth]; cmp; reflexivity).
      rewrite B1, B2. split; [reflexivity|]. split; [reflexivity|]. intros side t p Hp Hx. change (map params edge_hits) with sq_cross. apply edges_status; [destruct side; exact Hp|].
      intros x [<-|[<-|[]]]; destruct side; cbn [par_of fst snd]; [exact (Hx _ (or_introl eq_refl))|exact (Hx _ (or_introl eq_refl))|exact (Hx _ (or_intror (or_introl eq_refl)))|exact (Hx _ (or_intror (or_introl eq_refl)))].
  Qed.
End Case.


Section C92_boolean_trace_statement.
  Variables eps maxv : R.
  Local Hint Extern 0 (Scalar R) => exact (ROps eps maxv) : typeclass_instances.
  Local Notation traced := (traced eps maxv).
  Local Notation on_boundary := (on_boundary eps maxv).
  Local Notation transversal := (transversal eps maxv).
  Variable inter : Curve R -> Curve R -> Res (list (@Hit R)).
  Variable contains : Opd R -> list R -> Res bool.
  Local Notation crossing_case := (crossing_case eps maxv inter contains).

  Theorem C92_boolean_trace : forall op a b hits (inA inB : list R -> bool),
    0 < eps -> crossing_case a b hits inA inB ->
    exists rs, boolean inter contains op a b = Ok rs /\
    Forall (fun r => rinteriors r = [] /\ compound_is_closed (rexterior r) = Ok true) rs /\
    forall p, traced rs p <->
    (exists x, In x hits /\ compound_point_at (opd_spans a) (ha_t (snd x)) = Ok (Some p)) \/
    (on_boundary a p /\ match op with Intersection => inB p = true | Union => inB p = false | Difference => inB p = false end) \/
    (on_boundary b p /\ match op with Intersection => inA p = true | Union => inA p = false | Difference => inA p = true end).
  Proof. first [exact (boolean_trace eps maxv inter contains) | exact (boolean_trace eps maxv inter) | exact (boolean_trace eps maxv)]. Qed.
End C92_boolean_trace_statement.
(** the union, intersection and difference of the two squares are computed and have these boundaries *)
Section C92_case_boolean_section.
  Local Hint Extern 0 (Scalar R) => exact (ROps eps0 maxv0) : typeclass_instances.
  Example C92_case_boolean : forall op, exists rs, boolean found outside op (OpCompound edges) (OpCurve sq2) = Ok rs.
  Proof. intros op. destruct (boolean_trace eps0 maxv0 found outside op _ _ _ _ _ ltac:(unfold eps0; lra) edges_case) as (rs & E & _). eauto. Qed.
End C92_case_boolean_section.
Print Assumptions C92_boolean_trace.

Section C96_boolean_swap_statement.
  Variables eps maxv : R.
  Local Hint Extern 0 (Scalar R) => exact (ROps eps maxv) : typeclass_instances.
  Local Notation traced := (traced eps maxv).
  Local Notation on_boundary := (on_boundary eps maxv).
  Local Notation transversal := (transversal eps maxv).
  Variable inter : Curve R -> Curve R -> Res (list (@Hit R)).
  Variable contains : Opd R -> list R -> Res bool.
  Local Notation crossing_case := (crossing_case eps maxv inter contains).

  Theorem C96_boolean_swap : forall op a b hits hits' inA inB,
    0 < eps -> commutes op -> crossing_case a b hits inA inB -> boolean_hits inter b a = Ok hits' ->
    Permutation (map params hits') (map flip (map params hits)) -> transversal hits' ->
    exists rs rs', boolean inter contains op a b = Ok rs /\ boolean inter contains op b a = Ok rs' /\ forall p, traced rs p <-> traced rs' p.
  Proof. first [exact (boolean_swap eps maxv inter contains) | exact (boolean_swap eps maxv inter) | exact (boolean_swap eps maxv)]. Qed.
End C96_boolean_swap_statement.
Print Assumptions C96_boolean_swap.

Section C96_boolean_swap_mixed_statement.
  Variables eps maxv : R.
  Local Hint Extern 0 (Scalar R) => exact (ROps eps maxv) : typeclass_instances.
  Local Notation traced := (traced eps maxv).
  Local Notation on_boundary := (on_boundary eps maxv).
  Local Notation transversal := (transversal eps maxv).
  Variable inter : Curve R -> Curve R -> Res (list (@Hit R)).
  Variable contains : Opd R -> list R -> Res bool.
  Local Notation crossing_case := (crossing_case eps maxv inter contains).

  Theorem C96_boolean_swap_mixed : forall op c ss hits inA inB,
    0 < eps -> commutes op -> crossing_case (OpCompound ss) (OpCurve c) hits inA inB ->
    exists rs rs', boolean inter contains op (OpCompound ss) (OpCurve c) = Ok rs /\ boolean inter contains op (OpCurve c) (OpCompound ss) = Ok rs' /\ forall p, traced rs p <-> traced rs' p.
  Proof. first [exact (boolean_swap_mixed eps maxv inter contains) | exact (boolean_swap_mixed eps maxv inter) | exact (boolean_swap_mixed eps maxv)]. Qed.
End C96_boolean_swap_mixed_statement.
Section C96_case_section.
  Local Hint Extern 0 (Scalar R) => exact (ROps eps0 maxv0) : typeclass_instances.
  Example C96_case : 0 < eps0 /\ commutes Union /\ commutes Intersection /\ crossing_case eps0 maxv0 found outside (OpCompound edges) (OpCurve sq2) edge_hits (in_box 0 4) (in_box 2 6).
  Proof. split; [unfold eps0; lra|]. split; [discriminate|]. split; [discriminate|exact edges_case]. Qed.
  (** the hypotheses of the general form are met by the same case *)
  Example C96_case_hits : exists hits', boolean_hits found (OpCurve sq2) (OpCompound edges) = Ok hits' /\ Permutation (map params hits') (map flip (map params edge_hits)) /\ transversal eps0 maxv0 hits'.
  Proof. destruct (mixed_hits eps0 maxv0 found sq2 edges edge_hits edges_found) as (h & E & P & T & _). exists h. split; [exact E|]. split; [exact P|apply T, edges_transversal]. Qed.
End C96_case_section.
Print Assumptions C96_boolean_swap_mixed.

Section C96_boolean_swap_disjoint_statement.

  Theorem C96_boolean_swap_disjoint : forall {T : Type} {SO : Scalar T} inter contains op (a b : Opd T) rs,
    op <> Difference ->
    boolean_hits inter a b = Ok [] -> boolean_hits inter b a = Ok [] -> boolean inter contains op a b = Ok rs ->
    exists rs', boolean inter contains op b a = Ok rs' /\ Permutation rs rs'.
  Proof. exact @boolean_swap_disjoint. Qed.
End C96_boolean_swap_disjoint_statement.
(** two squares apart: the union has both as regions, in the order of the operands *)
Section C96_case_disjoint_section.
  Local Hint Extern 0 (Scalar R) => exact (ROps eps0 maxv0) : typeclass_instances.
  Example C96_case_disjoint : let far := square [16; 16] [12; 16] [12; 12] [16; 12] in
    boolean (fun _ _ => Ok []) outside Union (OpCurve sq2) (OpCurve far) = Ok [MkRegion [sq2] []; MkRegion [far] []].
  Proof.
    intros far.
    assert (E1 : opd_first (OpCurve sq2) = Ok [6; 6]) by (cbn [opd_first]; unfold first_point; rewrite knots_domain_ok by apply sq_ok; cbn [bind]; apply (sq_ends 6 6 2 6 2 2 6 2)).
    assert (E2 : opd_first (OpCurve far) = Ok [16; 16]) by (cbn [opd_first]; unfold first_point; rewrite knots_domain_ok by apply sq_ok; cbn [bind]; apply (sq_ends 16 16 12 16 12 12 16 12)).
    unfold boolean. cbn [boolean_hits]. rewrite E1, E2. reflexivity.
  Qed.
End C96_case_disjoint_section.
Print Assumptions C96_boolean_swap_disjoint.
