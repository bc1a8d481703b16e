(** * Properties of compound curves

    Only statements: each theorem is proved elsewhere; its statement is repeated here, followed by
    a concrete case that meets its hypotheses. *)
From Coq Require Import Floats.
From Coq Require Import Reals Lra Lia Psatz ZArith Sorted Permutation.
From Verif Require Import Base BaseFacts Scalar RSum BSplineSpec BSpline KnotModel KnotSpec KnotFacts VecFacts
  CurveModel CurveKnotModel CurveSpec CurveProofs CurveGeom CurveGeom2 KnotMisc Boehm Refine SplitModel SplitProofs Decompose
  BBoxModel BBoxProofs CompoundModel CompoundProofs CompoundRefuted Demo.
Open Scope R_scope.

(** two joined clamped spans: the demo curve and a segment starting at its end *)
Definition cp_a : Curve R := demo.
Definition cp_b : Curve R := MkCurve 3 1 [[5; 0; 1]; [7; 1; 1]] [3; 3; 4; 4].
Lemma cp_b_ok : curve_ok cp_b.
Proof.
  constructor; cbn; try lia; [repeat constructor|].
  constructor; cbn; try lia; unfold kf; cbn; try lra. repeat constructor; lra.
Qed.
Lemma cp_good : Forall (span_good eps0) [cp_a; cp_b].
Proof.
  constructor; [split; [exact demo_ok|split; [exact demo_eps|exact demo_pos]]|constructor; [|constructor]].
  split; [exact cp_b_ok|]. split; [unfold curve_eps, eps_ok, eps0, kf; cbn; lra|].
  intros j Hj. cbn in Hj. unfold cpc, rc. destruct j as [|[|j]]; cbn; try lra; lia.
Qed.
Lemma cp_clamped : Forall clamped [cp_a; cp_b].
Proof. constructor; [exact demo_clamped|constructor; [|constructor]]. unfold clamped, dom0, dom1, kf. cbn. lra. Qed.
Lemma cp_joined : all_joined eps0 maxv0 [cp_a; cp_b].
Proof.
  pose proof cp_good as G. inversion G as [|? ? (G1 & G2 & G3) G']; subst. inversion G' as [|? ? (G4 & G5 & G6) _]; subst.
  pose proof (hcoord_end cp_a) as Ea. pose proof (hcoord_start cp_b) as Eb.
  split; [|split; exact I].
  assert (Da : dom0 cp_a < dom1 cp_a) by (unfold dom0, dom1, kf; cbn; lra).
  assert (Db : dom0 cp_b < dom1 cp_b) by (unfold dom0, dom1, kf; cbn; lra).
  destruct (point_at_spec eps0 maxv0 cp_a (dom1 cp_a) G1 G2 ltac:(lra)) as (p & P1 & P2 & P3).
  { apply Rgt_not_eq, (wfun_pos eps0 maxv0); auto; lra. }
  destruct (point_at_spec eps0 maxv0 cp_b (dom0 cp_b) G4 G5 ltac:(lra)) as (q & Q1 & Q2 & Q3).
  { apply Rgt_not_eq, (wfun_pos eps0 maxv0); auto; lra. }
  exists p. split; [exact P1|]. rewrite Q1. f_equal. apply (vec_ext q p 2); [exact Q2|exact P2|].
  intros i Hi. rewrite P3, Q3 by (cbn; lia). unfold nurbs, wfun.
  assert (Ca : forall t, (length (cpts cp_a) <= t <= length (cpts cp_a) + cdeg cp_a)%nat -> kf (cknots cp_a) t = kf (cknots cp_a) (length (cpts cp_a))).
  { intros t Ht. cbn in Ht. unfold kf. destruct t as [|[|[|[|[|[|[|t]]]]]]]; cbn; try lra; lia. }
  assert (Cb : forall t, (t <= cdeg cp_b)%nat -> kf (cknots cp_b) t = kf (cknots cp_b) (cdeg cp_b)).
  { intros t Ht. cbn in Ht. unfold kf. destruct t as [|[|t]]; cbn; try lra; lia. }
  rewrite !Ea, !Eb by auto. unfold cpc, rc. destruct i as [|[|i]]; cbn; try lra; lia.
Qed.


Section C39_compound_new_origin_statement.
  Context {T : Type} {SO : Scalar T}.
  Theorem C39_compound_new_origin : forall spans res,
    compound_new spans = Ok res ->
    exists keep dropped chain, Permutation spans (keep ++ dropped) /\ Forall2 oriented keep chain /\
    Forall2 shifted chain res /\ (exists c rest, spans = c :: rest /\ In c chain).
  Proof. exact compound_new_origin. Qed.
End C39_compound_new_origin_statement.
Print Assumptions C39_compound_new_origin.

Section C39_compound_new_empty_statement.
  Context {T : Type} {SO : Scalar T}.
  Theorem C39_compound_new_empty : panics (compound_new (T := T) []).
  Proof. exact compound_new_empty. Qed.
End C39_compound_new_empty_statement.
Print Assumptions C39_compound_new_empty.

Section C39_compound_new_chained_statement.
  Variables eps maxv : R.
  Local Hint Extern 0 (Scalar R) => exact (ROps eps maxv) : typeclass_instances.
  Local Notation span_good := (span_good eps).
  Local Notation joined := (joined eps maxv).
  Local Notation all_joined := (all_joined eps maxv).
  Local Notation piece_on := (piece_on eps maxv).
  Local Notation kept_inside := (kept_inside eps maxv).
  Local Notation kept_outside := (kept_outside eps maxv).
  Theorem C39_compound_new_chained : forall spans,
    spans <> [] -> Forall span_good spans ->
    exists c res, compound_new spans = Ok (c :: res) /\ Forall span_good (c :: res) /\
    first_knot c = 0 /\ knots_chained (c :: res).
  Proof. first [exact (compound_new_chained eps maxv) | exact (compound_new_chained eps) | exact compound_new_chained | exact (compound_new_chained maxv)]. Qed.
End C39_compound_new_chained_statement.
Example C39_case : [cp_a; cp_b] <> [] /\ Forall (span_good eps0) [cp_a; cp_b].
Proof. split; [discriminate|exact cp_good]. Qed.
Print Assumptions C39_compound_new_chained.

Section C39_compound_new_contiguous_statement.
  Variables eps maxv : R.
  Local Hint Extern 0 (Scalar R) => exact (ROps eps maxv) : typeclass_instances.
  Local Notation span_good := (span_good eps).
  Local Notation joined := (joined eps maxv).
  Local Notation all_joined := (all_joined eps maxv).
  Local Notation piece_on := (piece_on eps maxv).
  Local Notation kept_inside := (kept_inside eps maxv).
  Local Notation kept_outside := (kept_outside eps maxv).
  Theorem C39_compound_new_contiguous : forall spans,
    spans <> [] -> Forall span_good spans -> Forall clamped spans ->
    exists c res, compound_new spans = Ok (c :: res) /\ Forall span_good (c :: res) /\
    dom0 c = 0 /\ contiguous (c :: res).
  Proof. first [exact (compound_new_contiguous eps maxv) | exact (compound_new_contiguous eps) | exact compound_new_contiguous | exact (compound_new_contiguous maxv)]. Qed.
End C39_compound_new_contiguous_statement.
Example C39_case_clamped : Forall clamped [cp_a; cp_b].
Proof. exact cp_clamped. Qed.
Print Assumptions C39_compound_new_contiguous.

Section C39_compound_new_joined_statement.
  Variables eps maxv : R.
  Local Hint Extern 0 (Scalar R) => exact (ROps eps maxv) : typeclass_instances.
  Local Notation span_good := (span_good eps).
  Local Notation joined := (joined eps maxv).
  Local Notation all_joined := (all_joined eps maxv).
  Local Notation piece_on := (piece_on eps maxv).
  Local Notation kept_inside := (kept_inside eps maxv).
  Local Notation kept_outside := (kept_outside eps maxv).
  Theorem C39_compound_new_joined : forall spans,
    spans <> [] -> Forall span_good spans -> all_joined spans ->
    compound_new spans = Ok (aligned 0 spans).
  Proof. first [exact (compound_new_joined eps maxv) | exact (compound_new_joined eps) | exact compound_new_joined | exact (compound_new_joined maxv)]. Qed.
End C39_compound_new_joined_statement.
Example C39_case_joined : all_joined eps0 maxv0 [cp_a; cp_b].
Proof. exact cp_joined. Qed.
Print Assumptions C39_compound_new_joined.

Section C39_compound_eval_statement.
  Variables eps maxv : R.
  Local Hint Extern 0 (Scalar R) => exact (ROps eps maxv) : typeclass_instances.
  Local Notation span_good := (span_good eps).
  Local Notation joined := (joined eps maxv).
  Local Notation all_joined := (all_joined eps maxv).
  Local Notation piece_on := (piece_on eps maxv).
  Local Notation kept_inside := (kept_inside eps maxv).
  Local Notation kept_outside := (kept_outside eps maxv).
  Theorem C39_compound_eval : forall spans k u,
    spans <> [] -> Forall span_good spans -> Forall clamped spans -> all_joined spans ->
    (k < length spans)%nat ->
    let c := nth k spans (MkCurve 0 0 [] []) in
    dom0 c <= u <= dom1 c ->
    exists cc p, compound_new spans = Ok cc /\ point_at c u = Ok p /\
    compound_point_at cc (span_offset spans k + (u - dom0 c)) = Ok (Some p).
  Proof. first [exact (compound_eval eps maxv) | exact (compound_eval eps) | exact compound_eval | exact (compound_eval maxv)]. Qed.
End C39_compound_eval_statement.
Print Assumptions C39_compound_eval.

Section C39_compound_new_drops_refuted_statement.
  Local Existing Instance FOps.
  Local Open Scope float_scope.
  Theorem C39_compound_new_drops_refuted : exists (a b c : Curve float) (r r' : list (Curve float)),
    span_ends a = Ok ([0; 0], [1; 0]) /\ span_ends b = Ok ([1; 0], [2; 1]) /\ span_ends c = Ok ([2; 1], [4; 1]) /\
    compound_new [a; b; c] = Ok r /\ length r = 3%nat /\
    compound_new [c; b; a] = Ok r' /\ length r' = 2%nat.
  Proof. exact compound_new_drops_refuted. Qed.
End C39_compound_new_drops_refuted_statement.
Print Assumptions C39_compound_new_drops_refuted.

Section C39_compound_new_disconnects_refuted_statement.
  Local Existing Instance FOps.
  Local Open Scope float_scope.
  Theorem C39_compound_new_disconnects_refuted : exists (a b c x y z : Curve float) (p q : list float),
    compound_new [a; b; c] = Ok [x; y; z] /\
    span_ends x = Ok ([0; 0], p) /\ span_ends y = Ok (q, [1; 0]) /\ p = [1; 0] /\ q = [1; 1].
  Proof. exact compound_new_disconnects_refuted. Qed.
End C39_compound_new_disconnects_refuted_statement.
Print Assumptions C39_compound_new_disconnects_refuted.

Section C39_compound_gap_refuted_statement.
  Local Existing Instance FOps.
  Local Open Scope float_scope.
  Theorem C39_compound_gap_refuted : exists (a b x y : Curve float),
    compound_new [a; b] = Ok [x; y] /\ knots_domain x = Ok (1, 2) /\ knots_domain y = Ok (4, 5) /\
    span_ends x = Ok ([0; 0], [1; 0]) /\ span_ends y = Ok ([1; 0], [2; 1]) /\
    compound_point_at [x; y] 3 = Ok None.
  Proof. exact compound_gap_refuted. Qed.
End C39_compound_gap_refuted_statement.
Print Assumptions C39_compound_gap_refuted.

Section C40_compound_point_at_inside_statement.
  Variables eps maxv : R.
  Local Hint Extern 0 (Scalar R) => exact (ROps eps maxv) : typeclass_instances.
  Local Notation span_good := (span_good eps).
  Local Notation joined := (joined eps maxv).
  Local Notation all_joined := (all_joined eps maxv).
  Local Notation piece_on := (piece_on eps maxv).
  Local Notation kept_inside := (kept_inside eps maxv).
  Local Notation kept_outside := (kept_outside eps maxv).
  Theorem C40_compound_point_at_inside : forall l t,
    Forall span_good l -> contiguous l -> l <> [] ->
    sdom0 l <= t <= sdom1 l ->
    exists k c p, nth_error l k = Some c /\ dom0 c <= t <= dom1 c /\ (k <> 0%nat -> dom0 c < t) /\
    point_at c t = Ok p /\ compound_point_at l t = Ok (Some p).
  Proof. first [exact (compound_point_at_inside eps maxv) | exact (compound_point_at_inside eps) | exact compound_point_at_inside | exact (compound_point_at_inside maxv)]. Qed.
End C40_compound_point_at_inside_statement.
Example C40_case : contiguous (aligned 0 [cp_a; cp_b]) /\ Forall (span_good eps0) (aligned 0 [cp_a; cp_b]).
Proof. pose proof cp_good as G; inversion G as [|? ? G1 G']; subst; inversion G' as [|? ? G2 _]; subst; split; [cbn [contiguous aligned]; destruct (reparam_dom 1 (0 - first_knot cp_a) cp_a (proj1 G1)) as [_ ->]; destruct (reparam_dom 1 (0 + last_knot cp_a - first_knot cp_a - first_knot cp_b) cp_b (proj1 G2)) as [-> _]; unfold first_knot, last_knot, dom0, dom1, kf; cbn; lra|]; cbn [aligned]; constructor; [now apply reparam_good|]; constructor; [now apply reparam_good|constructor]. Qed.
Print Assumptions C40_compound_point_at_inside.

Section C40_compound_point_at_outside_statement.
  Variables eps maxv : R.
  Local Hint Extern 0 (Scalar R) => exact (ROps eps maxv) : typeclass_instances.
  Local Notation span_good := (span_good eps).
  Local Notation joined := (joined eps maxv).
  Local Notation all_joined := (all_joined eps maxv).
  Local Notation piece_on := (piece_on eps maxv).
  Local Notation kept_inside := (kept_inside eps maxv).
  Local Notation kept_outside := (kept_outside eps maxv).
  Theorem C40_compound_point_at_outside : forall l t,
    Forall curve_ok l -> contiguous l -> l <> [] ->
    t < sdom0 l \/ sdom1 l < t -> compound_point_at l t = Ok None.
  Proof. first [exact (compound_point_at_outside eps maxv) | exact (compound_point_at_outside eps) | exact compound_point_at_outside | exact (compound_point_at_outside maxv)]. Qed.
End C40_compound_point_at_outside_statement.
Print Assumptions C40_compound_point_at_outside.

Section C41_compound_invert_spec_statement.
  Context {T : Type} {SO : Scalar T}.
  Theorem C41_compound_invert_spec : forall spans res,
    compound_invert spans = Ok res ->
    length res = length spans /\
    forall k c, nth_error spans k = Some c ->
    exists c', invert c = Ok c' /\ nth_error res (length spans - 1 - k) = Some c'.
  Proof. exact compound_invert_spec. Qed.
End C41_compound_invert_spec_statement.
Print Assumptions C41_compound_invert_spec.

Section C41_compound_invert_involutive_statement.
  Variables eps maxv : R.
  Local Hint Extern 0 (Scalar R) => exact (ROps eps maxv) : typeclass_instances.
  Local Notation span_good := (span_good eps).
  Local Notation joined := (joined eps maxv).
  Local Notation all_joined := (all_joined eps maxv).
  Local Notation piece_on := (piece_on eps maxv).
  Local Notation kept_inside := (kept_inside eps maxv).
  Local Notation kept_outside := (kept_outside eps maxv).
  Theorem C41_compound_invert_involutive : forall l,
    Forall curve_ok l ->
    exists r, compound_invert l = Ok r /\ compound_invert r = Ok l.
  Proof. first [exact (compound_invert_involutive eps maxv) | exact (compound_invert_involutive eps) | exact compound_invert_involutive | exact (compound_invert_involutive maxv)]. Qed.
End C41_compound_invert_involutive_statement.
Example C41_case : Forall curve_ok [cp_a; cp_b].
Proof. constructor; [exact demo_ok|constructor; [exact cp_b_ok|constructor]]. Qed.
Print Assumptions C41_compound_invert_involutive.

Section C41_compound_invert_eval_statement.
  Variables eps maxv : R.
  Local Hint Extern 0 (Scalar R) => exact (ROps eps maxv) : typeclass_instances.
  Local Notation span_good := (span_good eps).
  Local Notation joined := (joined eps maxv).
  Local Notation all_joined := (all_joined eps maxv).
  Local Notation piece_on := (piece_on eps maxv).
  Local Notation kept_inside := (kept_inside eps maxv).
  Local Notation kept_outside := (kept_outside eps maxv).
  Theorem C41_compound_invert_eval : forall pre c post,
    let l := pre ++ c :: post in
    Forall span_good l -> Forall clamped l -> curve_cont c -> contiguous l ->
    exists r, compound_invert l = Ok r /\
    forall t, dom0 c < t < dom1 c ->
    compound_point_at r t = compound_point_at l (dom0 c + dom1 c - t).
  Proof. first [exact (compound_invert_eval eps maxv) | exact (compound_invert_eval eps) | exact compound_invert_eval | exact (compound_invert_eval maxv)]. Qed.
End C41_compound_invert_eval_statement.
Example C41_case_cont : curve_cont cp_a.
Proof. exact demo_cont. Qed.
Print Assumptions C41_compound_invert_eval.

Section C41_compound_invert_refuted_statement.
  Local Existing Instance FOps.
  Local Open Scope float_scope.
  Theorem C41_compound_invert_refuted : exists (a b x y : Curve float) (r : list (Curve float)),
    compound_new [a; b] = Ok [x; y] /\ compound_point_at [x; y] 2 = Ok (Some [2; 1]) /\
    compound_invert [x; y] = Ok r /\ compound_point_at r 0 = Ok (Some [1; 0]).
  Proof. exact compound_invert_refuted. Qed.
End C41_compound_invert_refuted_statement.
Print Assumptions C41_compound_invert_refuted.

Section C57_compound_trim_inside_statement.
  Variables eps maxv : R.
  Local Hint Extern 0 (Scalar R) => exact (ROps eps maxv) : typeclass_instances.
  Local Notation span_good := (span_good eps).
  Local Notation joined := (joined eps maxv).
  Local Notation all_joined := (all_joined eps maxv).
  Local Notation piece_on := (piece_on eps maxv).
  Local Notation kept_inside := (kept_inside eps maxv).
  Local Notation kept_outside := (kept_outside eps maxv).
  Theorem C57_compound_trim_inside : forall l a b,
    Forall (fun c => curve_ok c /\ curve_eps eps c /\ off_knots eps c a /\ off_knots eps c b) l ->
    a + eps <= b ->
    exists pieces, compound_trim l a b = Ok (concat pieces) /\ Forall2 (kept_inside a b) l pieces.
  Proof. first [exact (compound_trim_inside eps maxv) | exact (compound_trim_inside eps) | exact compound_trim_inside | exact (compound_trim_inside maxv)]. Qed.
End C57_compound_trim_inside_statement.
Example C57_case : Forall (fun c => curve_ok c /\ curve_eps eps0 c /\ off_knots eps0 c (1 / 2) /\ off_knots eps0 c (7 / 2)) [cp_a; cp_b] /\ 1 / 2 + eps0 <= 7 / 2.
Proof. pose proof cp_good as G; inversion G as [|? ? (G1 & G2 & _) G']; subst; inversion G' as [|? ? (G3 & G4 & _) _]; subst; split; [|unfold eps0; lra]; constructor; [|constructor; [|constructor]]; (split; [assumption|]; split; [assumption|]; split; intros y Hy; unfold eps0; in_cases; abs_lra). Qed.
Print Assumptions C57_compound_trim_inside.

Section C57_compound_trim_outside_statement.
  Variables eps maxv : R.
  Local Hint Extern 0 (Scalar R) => exact (ROps eps maxv) : typeclass_instances.
  Local Notation span_good := (span_good eps).
  Local Notation joined := (joined eps maxv).
  Local Notation all_joined := (all_joined eps maxv).
  Local Notation piece_on := (piece_on eps maxv).
  Local Notation kept_inside := (kept_inside eps maxv).
  Local Notation kept_outside := (kept_outside eps maxv).
  Theorem C57_compound_trim_outside : forall l a b,
    Forall (fun c => curve_ok c /\ curve_eps eps c /\ off_knots eps c a /\ off_knots eps c b) l ->
    b + eps <= a ->
    exists pieces, compound_trim l a b = Ok (concat pieces) /\ Forall2 (kept_outside a b) l pieces.
  Proof. first [exact (compound_trim_outside eps maxv) | exact (compound_trim_outside eps) | exact compound_trim_outside | exact (compound_trim_outside maxv)]. Qed.
End C57_compound_trim_outside_statement.
Print Assumptions C57_compound_trim_outside.

Section C57_compound_trim_junction_refuted_statement.
  Local Existing Instance FOps.
  Local Open Scope float_scope.
  Theorem C57_compound_trim_junction_refuted : exists (a b x y p q : Curve float),
    compound_new [a; b] = Ok [x; y] /\ knots_domain x = Ok (0, 1) /\ knots_domain y = Ok (1, 2) /\
    compound_trim [x; y] 0.5 1 = Ok [p; q] /\
    knots_domain p = Ok (0.5, 1) /\ knots_domain q = Ok (1, 2).
  Proof. exact compound_trim_junction_refuted. Qed.
End C57_compound_trim_junction_refuted_statement.
Print Assumptions C57_compound_trim_junction_refuted.

Section C58_compound_transform_affine_statement.
  Variables eps maxv : R.
  Local Hint Extern 0 (Scalar R) => exact (ROps eps maxv) : typeclass_instances.
  Local Notation span_good := (span_good eps).
  Local Notation joined := (joined eps maxv).
  Local Notation all_joined := (all_joined eps maxv).
  Local Notation piece_on := (piece_on eps maxv).
  Local Notation kept_inside := (kept_inside eps maxv).
  Local Notation kept_outside := (kept_outside eps maxv).
  Theorem C58_compound_transform_affine : forall m D l t q,
    Forall span_good l -> Forall (fun c => cdim c = D) l ->
    affine_matrix D m -> compound_point_at l t = Ok (Some q) ->
    compound_point_at (compound_transform m l) t = Ok (Some (apply_affine D m q)).
  Proof. first [exact (compound_transform_affine eps maxv) | exact (compound_transform_affine eps) | exact compound_transform_affine | exact (compound_transform_affine maxv)]. Qed.
End C58_compound_transform_affine_statement.
Print Assumptions C58_compound_transform_affine.

Section C58_compound_closest_spec_statement.
  Variables eps maxv : R.
  Local Hint Extern 0 (Scalar R) => exact (ROps eps maxv) : typeclass_instances.
  Local Notation span_good := (span_good eps).
  Local Notation joined := (joined eps maxv).
  Local Notation all_joined := (all_joined eps maxv).
  Local Notation piece_on := (piece_on eps maxv).
  Local Notation kept_inside := (kept_inside eps maxv).
  Local Notation kept_outside := (kept_outside eps maxv).
  Theorem C58_compound_closest_spec : forall closest l p q,
    compound_closest_point closest l p = Ok q ->
    (exists c, In c l /\ closest c p = Ok q) /\
    forall c q', In c l -> closest c p = Ok q' -> vnorm2 (vsub q p) <= vnorm2 (vsub q' p).
  Proof. first [exact (compound_closest_spec eps maxv) | exact (compound_closest_spec eps) | exact compound_closest_spec | exact (compound_closest_spec maxv)]. Qed.
End C58_compound_closest_spec_statement.
Print Assumptions C58_compound_closest_spec.
