(** * Boolean operations on compound curves

    Only statements: each theorem is proved elsewhere; its statement is repeated here, followed by
    a concrete case that meets its hypotheses. *)
From Coq Require Import Reals Lra Lia List Sorted Permutation.
From Verif Require Import Base BaseFacts Scalar RSum BSplineSpec BSpline KnotModel KnotSpec KnotFacts VecFacts MiscModel CurveModel CurveKnotModel
  CurveSpec CurveProofs CurveGeom CurveGeom2 KnotMisc Boehm Refine SplitModel SplitProofs Decompose CompoundModel CompoundProofs CompoundCycle TrimFine
  ClipModel ClipSpec Boolean CompoundArc BooleanCompound Demo PropsBoolean.
Import ListNotations.
Local Open Scope R_scope.

(** a square made of four separate edges; its other half-way partner is the square curve of the earlier case *)
Definition edge (k x0 y0 x1 y1 : R) : Curve R := MkCurve 3 1 [[x0; y0; 1]; [x1; y1; 1]] [k; k; k + 1; k + 1].
Lemma edge_ok k x0 y0 x1 y1 : curve_ok (edge k x0 y0 x1 y1).
Proof. constructor; cbn; try lia; [repeat constructor|]. constructor; cbn; try lia; unfold kf; cbn; try lra. repeat constructor; lra. Qed.
Lemma edge_fine k x0 y0 x1 y1 : fine eps0 (edge k x0 y0 x1 y1).
Proof.
  split; [split; [apply edge_ok|split]|split].
  - unfold curve_eps, eps_ok, eps0, kf; cbn; lra.
  - intros j Hj. cbn in Hj. unfold cpc, rc. destruct j as [|[|j]]; cbn; try lra; lia.
  - unfold clamped, dom0, dom1, kf. cbn. lra.
  - intros j H1 H2. cbn in H1, H2. lia.
Qed.
Lemma edge_hcoord i k u x0 y0 x1 y1 : let c := edge k x0 y0 x1 y1 in k <= u < k + 1 -> hcoord c i u = (k + 1 - u) * cpc c i 0 + (u - k) * cpc c i 1.
Proof.
  intros c Hu. assert (Hin : in_span (cknots c) (clast c) 1 u).
  { unfold in_span, kf. cbn. split; [lra|split; [lra|left; lra]]. }
  rewrite <- (piece_hcoord c 1 i u (edge_ok _ _ _ _ _) Hin) by (cbn; lia). unfold piece. cbn [cdeg c edge]. change (length (cpts c)) with 2%nat.
  cbn [rsum]. fold c. generalize (cpc c i). intros f. cbn [bs Nat.eqb Nat.add]; unfold wl, wr, quot0; cbn [Nat.add]; unfold kf; cbn [nth cknots c edge last].
  repeat match goal with |- context [Req_EM_T ?x ?y] => let Q := fresh in destruct (Req_EM_T x y) as [Q|Q]; [try (exfalso; lra)|try (exfalso; apply Q; lra)] end; field; lra.
Qed.
Section Points.
  Local Hint Extern 0 (Scalar R) => exact (ROps eps0 maxv0) : typeclass_instances.
  Lemma edge_point k u x0 y0 x1 y1 : k <= u <= k + 1 -> point_at (edge k x0 y0 x1 y1) u = Ok [(k + 1 - u) * x0 + (u - k) * x1; (k + 1 - u) * y0 + (u - k) * y1].
  Proof.
    intros Hu. set (c := edge k x0 y0 x1 y1). pose proof (edge_ok k x0 y0 x1 y1) as Hc. fold c in Hc. destruct (edge_fine k x0 y0 x1 y1) as ((_ & He & Hw) & _). fold c in He, Hw.
    assert (Hd : dom0 c <= u <= dom1 c) by exact Hu. assert (D1 : dom1 c = k + 1) by reflexivity.
    destruct (point_at_spec eps0 maxv0 c u Hc He Hd) as (p & E & L & Ep). { apply Rgt_not_eq, (wfun_pos eps0 maxv0); auto. }
    rewrite E. f_equal. apply (vec_ext _ _ 2); [exact L|reflexivity|]. intros i Hi. rewrite Ep by (cbn; lia). unfold nurbs, wfun.
    assert (G : forall i, hcoord c i u = (k + 1 - u) * cpc c i 0 + (u - k) * cpc c i 1).
    { intros q. destruct (Req_dec u (k + 1)) as [Eu|Nu]; [|apply edge_hcoord; lra]. rewrite Eu, <- D1. rewrite (hcoord_end c); [|auto|].
      - change (clast c) with 1%nat. change (length (cpts c) - 1)%nat with 1%nat. rewrite D1. lra.
      - intros t Ht. cbn in Ht. unfold kf. destruct t as [|[|[|[|t]]]]; cbn; try lra; lia. }
    rewrite !G. unfold cpc, rc. destruct i as [|[|i]]; [| |lia]; cbn; field; lra.
  Qed.
End Points.
Definition edges : list (Curve R) := [edge 0 0 0 4 0; edge 1 4 0 4 4; edge 2 4 4 0 4; edge 3 0 4 0 0].
Lemma edge_ends k x0 y0 x1 y1 : st eps0 maxv0 (edge k x0 y0 x1 y1) = [x0; y0] /\ en eps0 maxv0 (edge k x0 y0 x1 y1) = [x1; y1].
Proof.
  unfold st, en, point_or. change (dom0 (edge k x0 y0 x1 y1)) with k. change (dom1 (edge k x0 y0 x1 y1)) with (k + 1). rewrite !edge_point by lra.
  split; (f_equal; [lra|f_equal; lra]).
Qed.
Lemma edges_ring : ring eps0 maxv0 edges.
Proof.
  constructor.
  - unfold edges. repeat (apply Forall_cons; [apply edge_fine|]). apply Forall_nil.
  - unfold edges. repeat (apply FOP_cons; [repeat (apply Forall_cons; [unfold dom0, dom1, kf; cbn; lra|]); apply Forall_nil|]). apply FOP_nil.
  - exists [0; 0]. unfold edges. cbn [run]. rewrite !(proj1 (edge_ends _ _ _ _ _)), !(proj2 (edge_ends _ _ _ _ _)). auto.
Qed.
Lemma curve_ring c : fine eps0 c -> st eps0 maxv0 c = en eps0 maxv0 c -> ring eps0 maxv0 [c].
Proof. intros F E. constructor; [apply Forall_cons; [exact F|apply Forall_nil]|apply FOP_cons; [apply Forall_nil|apply FOP_nil]|]. exists (st eps0 maxv0 c). cbn [run]. auto. Qed.
Lemma sq2_ring : ring eps0 maxv0 [sq2].
Proof. apply curve_ring; [apply sq_fine|]. destruct (sq_half false) as (_ & _ & B3 & B4). cbv zeta in *. congruence. Qed.
Lemma edge_inside k x0 y0 x1 y1 u : k + eps0 <= u <= k + 1 - eps0 -> inside_span eps0 (edge k x0 y0 x1 y1) u.
Proof.
  intros Hu. assert (0 < eps0) by (unfold eps0; lra). split; [unfold dom0, dom1, kf; cbn; lra|]. intros y Hy. cbn in Hy.
  repeat destruct Hy as [<-|Hy]; try (destruct Hy); [rewrite Rabs_left|rewrite Rabs_left|rewrite Rabs_pos_eq|rewrite Rabs_pos_eq]; lra.
Qed.
Lemma edges_cross u p : (u = 3 / 2 /\ p = [4; 2]) \/ (u = 5 / 2 /\ p = [2; 4]) -> @compound_point_at R (ROps eps0 maxv0) edges u = Ok (Some p).
Proof.
  intros H. apply (ring_at eps0 maxv0 edges u p edges_ring). destruct H as [(-> & ->)|(-> & ->)].
  - exists (edge 1 4 0 4 4). split; [right; now left|]. split; [unfold dom0, dom1, kf; cbn; lra|]. rewrite edge_point by lra. do 2 f_equal; [lra|f_equal; lra].
  - exists (edge 2 4 4 0 4). split; [right; right; now left|]. split; [unfold dom0, dom1, kf; cbn; lra|]. rewrite edge_point by lra. do 2 f_equal; [lra|f_equal; lra].
Qed.
Lemma sq2_cross u p : (u = 5 / 2 /\ p = [4; 2]) \/ (u = 3 / 2 /\ p = [2; 4]) -> @compound_point_at R (ROps eps0 maxv0) [sq2] u = Ok (Some p).
Proof.
  intros H. apply (ring_at eps0 maxv0 [sq2] u p sq2_ring). exists sq2. split; [now left|]. destruct (sq_half false) as (B1 & B2 & _). cbv zeta in *. unfold point_or in *.
  destruct H as [(-> & ->)|(-> & ->)]; (split; [unfold dom0, dom1, kf; cbn; lra|]);
    (destruct (good_point eps0 maxv0 sq2 (3 / 2) (proj1 (sq_fine _ _ _ _ _ _ _ _)) ltac:(unfold dom0, dom1, kf; cbn; lra)) as (q1 & Q1 & _));
    (destruct (good_point eps0 maxv0 sq2 (5 / 2) (proj1 (sq_fine _ _ _ _ _ _ _ _)) ltac:(unfold dom0, dom1, kf; cbn; lra)) as (q2 & Q2 & _)); rewrite Q1 in B1; rewrite Q2 in B2; congruence.
Qed.
Lemma edges_boundaries : boundaries_ok eps0 maxv0 (OCompound edges) (OCurve sq2) sq_cross.
Proof.
  destruct (sq_half false) as (_ & _ & B3 & _). cbv zeta in *.
  assert (Cp : forall x, In x sq_cross -> cpoint eps0 maxv0 edges (fst x) = [4; 2] /\ x = (3 / 2, 5 / 2) \/ cpoint eps0 maxv0 edges (fst x) = [2; 4] /\ x = (5 / 2, 3 / 2)).
  { intros x [<-|[<-|[]]]; [left|right]; (split; [|reflexivity]); unfold cpoint; cbn [fst]; [rewrite (edges_cross (3 / 2) [4; 2]) by (left; auto)|rewrite (edges_cross (5 / 2) [2; 4]) by (right; auto)]; reflexivity. }
  constructor.
  - intros [|] x Hx; unfold spans, opd; cbn [operand_spans].
    + destruct Hx as [<-|[<-|[]]]; cbn [par_of fst snd]; [exists (edge 1 4 0 4 4); split; [right; now left|]|exists (edge 2 4 4 0 4); split; [right; right; now left|]]; apply edge_inside; unfold eps0; lra.
    + exists sq2. split; [now left|]. split; [exact (xo_dom _ _ _ _ _ sq_crossings false x Hx)|exact (xo_off _ _ _ _ _ sq_crossings false x Hx)].
  - intros x Hx. unfold spans, opd. cbn [operand_spans]. destruct Hx as [<-|[<-|[]]]; cbn [fst snd].
    + rewrite (edges_cross (3 / 2) [4; 2]) by (left; auto). now rewrite (sq2_cross (5 / 2) [4; 2]) by (left; auto).
    + rewrite (edges_cross (5 / 2) [2; 4]) by (right; auto). now rewrite (sq2_cross (3 / 2) [2; 4]) by (right; auto).
  - exact (xo_sep _ _ _ _ _ sq_crossings).
  - unfold spans, opd. cbn [operand_spans]. apply FOP_cons; [|apply FOP_cons; [apply Forall_nil|apply FOP_nil]]. apply Forall_cons; [|apply Forall_nil].
    destruct (Cp (3 / 2, 5 / 2) ltac:(now left)) as [(-> & _)|(_ & Q)]; [|injection Q as Q1 _; lra].
    destruct (Cp (5 / 2, 3 / 2) ltac:(right; now left)) as [(_ & Q)|(-> & _)]; [injection Q as Q1 _; lra|]. apply far_sq. lra.
  - intros side x c Hx Hc. change (spans (OCompound edges) (OCurve sq2) true) with edges.
    destruct (Cp x Hx) as [(-> & _)|(-> & _)]; destruct side; unfold spans, opd in Hc; cbn [operand_spans edges In] in Hc;
      repeat destruct Hc as [<-|Hc]; try (destruct Hc); rewrite ?(proj1 (edge_ends _ _ _ _ _)), ?B3; apply far_sq; lra.
  - intros [|]; unfold spans, opd; cbn [operand_spans]; unfold edges;
      repeat (apply FOP_cons; [repeat (apply Forall_cons; [rewrite !(proj1 (edge_ends _ _ _ _ _)); apply far_sq; lra|]); apply Forall_nil|]); apply FOP_nil.
  - intros c d Hc Hd. unfold spans, opd in *. cbn [operand_spans edges In] in *. destruct Hd as [<-|[]]. rewrite B3.
    repeat destruct Hc as [<-|Hc]; try (destruct Hc); rewrite (proj1 (edge_ends _ _ _ _ _)); apply far_sq; lra.
Qed.
Lemma edges_status side t p : @compound_point_at R (ROps eps0 maxv0) (spans (OCompound edges) (OCurve sq2) side) t = Ok (Some p) ->
  (forall x, In x sq_cross -> t <> par_of side x) -> inside_at sq_cross false false side t = (if side then in_box 2 6 else in_box 0 4) p.
Proof.
  destruct side; unfold spans, opd; cbn [operand_spans]; intros E Hn.
  - apply (ring_at eps0 maxv0 edges t p edges_ring) in E as (c & Hc & Hd & Ep).
    assert (N1 : t <> 3 / 2) by (apply (Hn (3 / 2, 5 / 2)); now left). assert (N2 : t <> 5 / 2) by (apply (Hn (5 / 2, 3 / 2)); right; now left).
    assert (Ei : inside_at sq_cross false false true t = (if Rlt_dec (3 / 2) t then if Rlt_dec (5 / 2) t then false else true else false)).
    { unfold inside_at, passed, sq_cross. cbn [filter par_of fst snd]. destruct (Rlt_dec (3 / 2) t), (Rlt_dec (5 / 2) t); try lra; reflexivity. }
    rewrite Ei. clear Ei. unfold in_box.
    repeat destruct Hc as [<-|Hc]; try (destruct Hc); unfold dom0, dom1, kf in Hd; cbn in Hd; rewrite edge_point in Ep by lra; injection Ep as <-; unfold rc; cbn [nth];
      destruct (Rlt_dec (3 / 2) t), (Rlt_dec (5 / 2) t); try lra; repeat match goal with |- context [Rltb ?x ?y] => destruct (Rltb_spec x y); try lra end; reflexivity.
  - apply (ring_at eps0 maxv0 [sq2] t p sq2_ring) in E as (c & [<-|[]] & Hd & Ep). exact (sq_status false t p Hd Ep Hn).
Qed.

Theorem C92_trim_arc_inside : forall eps maxv (ss : list (Curve R)) a b ca cb,
    0 < eps -> ring eps maxv ss -> a + eps <= b -> In ca ss -> In cb ss ->
    inside_span eps ca a -> inside_span eps cb b ->
    exists qs J, @compound_trim R (ROps eps maxv) ss a b = Ok qs /\ arc eps maxv ss qs J (point_or eps maxv ca a) (point_or eps maxv cb b) (fun t => a <= t <= b) /\
    NoDup J /\ forall c, In c J <-> In c ss /\ a < dom0 c < b.
Proof. exact (@trim_arc_inside). Qed.
Section C92_case_arc_section.
  Local Hint Extern 0 (Scalar R) => exact (ROps eps0 maxv0) : typeclass_instances.
  Example C92_case_arc : 0 < eps0 /\ ring eps0 maxv0 edges /\ inside_span eps0 (edge 1 4 0 4 4) (3 / 2) /\ inside_span eps0 (edge 2 4 4 0 4) (5 / 2) /\ In (edge 1 4 0 4 4) edges /\ In (edge 2 4 4 0 4) edges.
  Proof. split; [unfold eps0; lra|]. split; [exact edges_ring|]. split; [apply edge_inside; unfold eps0; lra|]. split; [apply edge_inside; unfold eps0; lra|]. split; [right; now left|right; right; now left]. Qed.
End C92_case_arc_section.
Print Assumptions C92_trim_arc_inside.

Theorem C92_trim_arc_outside : forall eps maxv (ss : list (Curve R)) a b ca cb,
    0 < eps -> ring eps maxv ss -> a + eps <= b -> In ca ss -> In cb ss ->
    inside_span eps ca a -> inside_span eps cb b ->
    exists qs J, @compound_trim R (ROps eps maxv) ss b a = Ok qs /\ arc eps maxv ss qs J (point_or eps maxv cb b) (point_or eps maxv ca a) (fun t => b <= t \/ t <= a) /\
    NoDup J /\ forall c, In c J <-> In c ss /\ (b < dom0 c \/ dom0 c < a).
Proof. exact (@trim_arc_outside). Qed.
Print Assumptions C92_trim_arc_outside.

Section C92_clip_boundary_any_statement.
  Variables eps maxv : R.
  Local Hint Extern 0 (Scalar R) => exact (ROps eps maxv) : typeclass_instances.
  Local Notation ring := (ring eps maxv).
  Variables sub clp : operand.
  Local Notation spans := (spans sub clp).
  Local Notation otrim := (otrim eps maxv sub clp).
  Local Notation boundaries_ok := (boundaries_ok eps maxv sub clp).

  Theorem C92_clip_boundary_any : forall op ca cb (l : list ((R * R) * Degeneracy R)) sel,
    0 < eps -> ring (operand_spans sub) -> ring (operand_spans clp) ->
    clip_select l = Ok sel -> sel <> [] -> boundaries_ok sel ->
    exists rs, clip otrim compound_new (operand_spans sub) (operand_spans clp) op (Ok ca) (Ok cb) l = Ok rs /\
    Forall (fun r => rinteriors r = [] /\ compound_is_closed (rexterior r) = Ok true) rs /\
    forall p, (exists r t, In r rs /\ compound_point_at (rexterior r) t = Ok (Some p)) <->
    exists side t, compound_point_at (spans side) t = Ok (Some p) /\
    ((exists x, In x sel /\ t = par_of side x) \/ segment_kept op side (Boolean.inside_at sel ca cb side t) = true).
  Proof. first [exact (clip_boundary_any eps maxv sub clp) | exact (clip_boundary_any eps sub clp) | exact clip_boundary_any]. Qed.
End C92_clip_boundary_any_statement.
Section C92_case_any_section.
  Local Hint Extern 0 (Scalar R) => exact (ROps eps0 maxv0) : typeclass_instances.
  Example C92_case_any : 0 < eps0 /\ ring eps0 maxv0 (operand_spans (OCompound edges)) /\ ring eps0 maxv0 (operand_spans (OCurve sq2)) /\ clip_select (map (fun x => (x, DNone : Degeneracy R)) sq_cross) = Ok sq_cross /\ sq_cross <> [] /\ boundaries_ok eps0 maxv0 (OCompound edges) (OCurve sq2) sq_cross.
  Proof. split; [unfold eps0; lra|]. split; [exact edges_ring|]. split; [exact sq2_ring|]. split; [reflexivity|]. split; [discriminate|]. exact edges_boundaries. Qed.
End C92_case_any_section.
Print Assumptions C92_clip_boundary_any.

Section C92_clip_boundary_any_sets_statement.
  Variables eps maxv : R.
  Local Hint Extern 0 (Scalar R) => exact (ROps eps maxv) : typeclass_instances.
  Local Notation ring := (ring eps maxv).
  Variables sub clp : operand.
  Local Notation spans := (spans sub clp).
  Local Notation otrim := (otrim eps maxv sub clp).
  Local Notation boundaries_ok := (boundaries_ok eps maxv sub clp).

  Theorem C92_clip_boundary_any_sets : forall op ca cb (l : list ((R * R) * Degeneracy R)) sel (inA inB : list R -> bool),
    0 < eps -> ring (operand_spans sub) -> ring (operand_spans clp) ->
    clip_select l = Ok sel -> sel <> [] -> boundaries_ok sel ->
    (forall side t p, compound_point_at (spans side) t = Ok (Some p) -> (forall x, In x sel -> t <> par_of side x) ->
    Boolean.inside_at sel ca cb side t = (if side then inB else inA) p) ->
    exists rs, clip otrim compound_new (operand_spans sub) (operand_spans clp) op (Ok ca) (Ok cb) l = Ok rs /\
    forall p, (exists r t, In r rs /\ compound_point_at (rexterior r) t = Ok (Some p)) <->
    (exists x, In x sel /\ compound_point_at (operand_spans sub) (fst x) = Ok (Some p)) \/
    ((exists t, compound_point_at (operand_spans sub) t = Ok (Some p)) /\ match op with Intersection => inB p = true | Union => inB p = false | Difference => inB p = false end) \/
    ((exists t, compound_point_at (operand_spans clp) t = Ok (Some p)) /\ match op with Intersection => inA p = true | Union => inA p = false | Difference => inA p = true end).
  Proof. first [exact (clip_boundary_any_sets eps maxv sub clp) | exact (clip_boundary_any_sets eps sub clp) | exact clip_boundary_any_sets]. Qed.
End C92_clip_boundary_any_sets_statement.
Section C92_case_any_sets_section.
  Local Hint Extern 0 (Scalar R) => exact (ROps eps0 maxv0) : typeclass_instances.
  Example C92_case_any_sets : forall side t p, compound_point_at (spans (OCompound edges) (OCurve sq2) side) t = Ok (Some p) -> (forall x, In x sq_cross -> t <> par_of side x) ->
    inside_at sq_cross false false side t = (if side then in_box 2 6 else in_box 0 4) p.
  Proof. exact edges_status. Qed.
End C92_case_any_sets_section.
Print Assumptions C92_clip_boundary_any_sets.
