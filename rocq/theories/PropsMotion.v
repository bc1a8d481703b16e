(** * Properties of lengths and derivatives under motions and reparametrisation

    Only statements: each theorem is proved elsewhere; its statement is repeated here, followed by
    a concrete case that meets its hypotheses. *)
From Coq Require Import Reals Lra Lia Psatz ZArith List String Permutation.
From Verif Require Import Base BaseFacts Scalar RSum BSplineSpec BSpline KnotModel KnotSpec KnotFacts KnotMisc VecFacts CurveModel CurveKnotModel CurveSpec CurveProofs CurveGeom CurveGeom2 Decompose
  CurveDeriv LengthModel LengthProofs LengthMotion LengthMotion2 Demo.
Import ListNotations.
Local Open Scope R_scope.


(** a rational quadratic of two spans, the midpoint rule, and a quarter turn that doubles lengths *)
Definition bow : Curve R := MkCurve 3 2 [[0; 0; 1]; [2; 4; 2]; [3; 1; 1]; [5; 0; 1]] [0; 0; 0; 1; 3; 3; 3].
Definition mid_rule : list (R * R) := [(0, 2)].
Definition turn : list (list R) := [[0; -2; 5]; [2; 0; 1]; [0; 0; 1]].
Definition eps1 : R := 1 / 100000.
Lemma bow_length : length_curve eps1 bow.
Proof.
  constructor.
  - constructor; cbn; try lia; [repeat constructor|]. constructor; cbn; try lia; unfold kf; cbn; try lra; repeat constructor; lra.
  - unfold curve_eps, eps_ok, eps1, kf. cbn. lra.
  - intros j H1 H2. cbn in *. assert (j = 3)%nat as -> by lia. unfold kf. cbn. lra.
  - unfold clamped, dom0, dom1, kf. cbn. lra.
  - intros a b Ha Hb. cbn in Ha, Hb. repeat (destruct Ha as [<-|Ha]); try destruct Ha; repeat (destruct Hb as [<-|Hb]); try destruct Hb; first [left; reflexivity | right; unfold eps1; abs_lra].
  - intros j Hj. cbn in Hj. unfold cpc, rc. cbn. destruct j as [|[|[|[|j]]]]; cbn; try lra. lia.
Qed.
Lemma bow_sep : separated (eps1 * (dom1 bow - dom0 bow)) (cknots bow).
Proof.
  replace (dom1 bow - dom0 bow) with 3 by (unfold dom0, dom1, kf; cbn; lra).
  intros a b Ha Hb. cbn in Ha, Hb. repeat (destruct Ha as [<-|Ha]); try destruct Ha; repeat (destruct Hb as [<-|Hb]); try destruct Hb; first [left; reflexivity | right; unfold eps1; abs_lra].
Qed.
Lemma mid_ok : rule_ok mid_rule /\ symmetric_rule mid_rule.
Proof.
  split; [constructor; [cbn; lra|constructor]|]. unfold symmetric_rule, mid_rule. cbn. rewrite Ropp_0. apply Permutation_refl.
Qed.
Lemma turn_ok : affine_matrix 3 turn /\ similarity 3 2 turn.
Proof.
  split.
  - split; [reflexivity|]. split; [repeat constructor|]. split; [|reflexivity].
    intros j Hj. destruct j as [|[|j]]; [reflexivity|reflexivity|cbn in Hj; lia].
  - split; [lra|]. intros j l Hj Hl. cbn in Hj, Hl.
    destruct j as [|[|j]]; [| |lia]; (destruct l as [|[|l]]; [| |lia]); cbn; unfold Rsqr, rc; cbn; lra.
Qed.


Section C82_length_transform_statement.
  Variables eps maxv : R.
  Local Hint Extern 0 (Scalar R) => exact (ROps eps maxv) : typeclass_instances.
  Local Notation length_curve := (length_curve eps).

  Theorem C82_length_transform : forall gauss k m c,
    length_curve c -> affine_matrix (cdim c) m -> similarity (cdim c) k m ->
    rule_ok (gauss (16 + cdeg c)%nat) ->
    exists l, try_length gauss c = Ok l /\ try_length gauss (transform m c) = Ok (k * l).
  Proof. first [exact (length_transform eps maxv) | exact (length_transform eps) | exact length_transform]. Qed.
End C82_length_transform_statement.
Section C82_case_section.
  Local Hint Extern 0 (Scalar R) => exact (ROps eps1 maxv0) : typeclass_instances.
  Example C82_case : exists l, try_length (fun _ => mid_rule) bow = Ok l /\ try_length (fun _ => mid_rule) (transform turn bow) = Ok (2 * l).
  Proof. exact (length_transform eps1 maxv0 (fun _ => mid_rule) 2 turn bow bow_length (proj1 turn_ok) (proj2 turn_ok) (proj1 mid_ok)). Qed.
End C82_case_section.
Print Assumptions C82_length_transform.

Section C82_length_normalize_statement.
  Variables eps maxv : R.
  Local Hint Extern 0 (Scalar R) => exact (ROps eps maxv) : typeclass_instances.
  Local Notation length_curve := (length_curve eps).

  Theorem C82_length_normalize : forall gauss c,
    length_curve c -> separated (eps * (dom1 c - dom0 c)) (cknots c) ->
    rule_ok (gauss (16 + cdeg c)%nat) ->
    exists c' l, normalize_knots c = Ok c' /\ length_curve c' /\ try_length gauss c = Ok l /\ try_length gauss c' = Ok l.
  Proof. first [exact (length_normalize eps maxv) | exact (length_normalize eps) | exact length_normalize]. Qed.
End C82_length_normalize_statement.
Section C82_case_normalize_section.
  Local Hint Extern 0 (Scalar R) => exact (ROps eps1 maxv0) : typeclass_instances.
  Example C82_case_normalize : exists c' l, normalize_knots bow = Ok c' /\ length_curve eps1 c' /\ try_length (fun _ => mid_rule) bow = Ok l /\ try_length (fun _ => mid_rule) c' = Ok l.
  Proof. exact (length_normalize eps1 maxv0 (fun _ => mid_rule) bow bow_length bow_sep (proj1 mid_ok)). Qed.
End C82_case_normalize_section.
Print Assumptions C82_length_normalize.

Section C82_length_invert_statement.
  Variables eps maxv : R.
  Local Hint Extern 0 (Scalar R) => exact (ROps eps maxv) : typeclass_instances.
  Local Notation length_curve := (length_curve eps).

  Theorem C82_length_invert : forall gauss c,
    length_curve c -> rule_ok (gauss (16 + cdeg c)%nat) -> symmetric_rule (gauss (16 + cdeg c)%nat) ->
    exists c' l, invert c = Ok c' /\ try_length gauss c = Ok l /\ try_length gauss c' = Ok l.
  Proof. first [exact (length_invert eps maxv) | exact (length_invert eps) | exact length_invert]. Qed.
End C82_length_invert_statement.
Section C82_case_invert_section.
  Local Hint Extern 0 (Scalar R) => exact (ROps eps1 maxv0) : typeclass_instances.
  Example C82_case_invert : exists c' l, invert bow = Ok c' /\ try_length (fun _ => mid_rule) bow = Ok l /\ try_length (fun _ => mid_rule) c' = Ok l.
  Proof. exact (length_invert eps1 maxv0 (fun _ => mid_rule) bow bow_length (proj1 mid_ok) (proj2 mid_ok)). Qed.
End C82_case_invert_section.
Print Assumptions C82_length_invert.

Section C83_derivatives_transform_statement.
  Variables eps maxv : R.
  Local Hint Extern 0 (Scalar R) => exact (ROps eps maxv) : typeclass_instances.
  Local Notation derivs_moved := (derivs_moved eps maxv).

  Theorem C83_derivatives_transform : forall m c u,
    curve_ok c -> curve_eps eps c -> pos_weights c -> affine_matrix (cdim c) m ->
    dom0 c <= u <= dom1 c ->
    derivs_moved 1 (fun i l => rc l (nth i m [])) c (transform m c) u u.
  Proof. first [exact (derivatives_transform eps maxv) | exact (derivatives_transform eps) | exact derivatives_transform]. Qed.
End C83_derivatives_transform_statement.
Section C83_case_section.
  Local Hint Extern 0 (Scalar R) => exact (ROps eps1 maxv0) : typeclass_instances.
  Example C83_case : exists ds ds', rational_derivatives bow 1 3 = Ok ds /\ rational_derivatives (transform turn bow) 1 3 = Ok ds' /\ rc 0 (nth 2 ds' []) = - 2 * rc 1 (nth 2 ds []).
  Proof. destruct (derivatives_transform eps1 maxv0 turn bow 1 (lc_ok _ _ bow_length) (lc_eps _ _ bow_length) (lc_pos _ _ bow_length) (proj1 turn_ok)) with (d := 3%nat) as (ds & ds' & E1 & E2 & V); [unfold dom0, dom1, kf; cbn; lra|]. exists ds, ds'. split; [exact E1|]. split; [exact E2|]. specialize (V 2%nat 0%nat ltac:(lia) ltac:(cbn; lia)). cbn [cdim bow Nat.sub rsum] in V. unfold rc in V at 2 4. cbn [nth turn] in V. lra. Qed.
End C83_case_section.
Print Assumptions C83_derivatives_transform.

Section C83_derivatives_normalize_statement.
  Variables eps maxv : R.
  Local Hint Extern 0 (Scalar R) => exact (ROps eps maxv) : typeclass_instances.

  Theorem C83_derivatives_normalize : forall c c' u,
    curve_ok c -> curve_eps eps c -> pos_weights c ->
    normalize_knots c = Ok c' -> curve_eps eps c' -> dom0 c <= u <= dom1 c ->
    forall d, exists ds ds', rational_derivatives c u d = Ok ds /\
    rational_derivatives c' ((u - dom0 c) / (dom1 c - dom0 c)) d = Ok ds' /\
    forall r i, (1 <= r <= d)%nat -> (i < cdim c - 1)%nat ->
    rc i (nth r ds' []) = (dom1 c - dom0 c) ^ r * rc i (nth r ds []).
  Proof. first [exact (derivatives_normalize eps maxv) | exact (derivatives_normalize eps) | exact derivatives_normalize]. Qed.
End C83_derivatives_normalize_statement.
Section C83_case_normalize_section.
  Local Hint Extern 0 (Scalar R) => exact (ROps eps1 maxv0) : typeclass_instances.
  Example C83_case_normalize : curve_ok bow /\ curve_eps eps1 bow /\ pos_weights bow /\ exists c', normalize_knots bow = Ok c' /\ curve_eps eps1 c'.
  Proof. split; [exact (lc_ok _ _ bow_length)|]. split; [exact (lc_eps _ _ bow_length)|]. split; [exact (lc_pos _ _ bow_length)|]. destruct (length_normalize eps1 maxv0 (fun _ => mid_rule) bow bow_length bow_sep (proj1 mid_ok)) as (c' & l & E & H & _). exists c'. split; [exact E|exact (lc_eps _ _ H)]. Qed.
End C83_case_normalize_section.
Print Assumptions C83_derivatives_normalize.

Section C83_derivatives_invert_statement.
  Variables eps maxv : R.
  Local Hint Extern 0 (Scalar R) => exact (ROps eps maxv) : typeclass_instances.

  Theorem C83_derivatives_invert : forall c u,
    curve_ok c -> curve_eps eps c -> curve_cont c -> pos_weights c ->
    dom0 c <= u <= dom1 c -> (~ In u (cknots c) \/ u = dom0 c \/ u = dom1 c) ->
    exists c', invert c = Ok c' /\
    forall d, exists ds ds', rational_derivatives c u d = Ok ds /\
    rational_derivatives c' (mirror_c c - u) d = Ok ds' /\
    forall r i, (1 <= r <= d)%nat -> (i < cdim c - 1)%nat ->
    rc i (nth r ds' []) = (- 1) ^ r * rc i (nth r ds []).
  Proof. first [exact (derivatives_invert eps maxv) | exact (derivatives_invert eps) | exact derivatives_invert]. Qed.
End C83_derivatives_invert_statement.
Section C83_case_invert_section.
  Local Hint Extern 0 (Scalar R) => exact (ROps eps1 maxv0) : typeclass_instances.
  Example C83_case_invert : exists c', invert bow = Ok c' /\ exists ds ds', rational_derivatives bow 2 2 = Ok ds /\ rational_derivatives c' (mirror_c bow - 2) 2 = Ok ds' /\ rc 1 (nth 1 ds' []) = (- 1) ^ 1 * rc 1 (nth 1 ds []).
  Proof. destruct (derivatives_invert eps1 maxv0 bow 2 (lc_ok _ _ bow_length) (lc_eps _ _ bow_length) (lc_cont _ _ bow_length) (lc_pos _ _ bow_length)) as (c' & E & V); [unfold dom0, dom1, kf; cbn; lra|left; cbn; intros H; repeat (destruct H as [H|H]; [lra|]); exact H|]. exists c'. split; [exact E|]. destruct (V 2%nat) as (ds & ds' & E1 & E2 & W). exists ds, ds'. split; [exact E1|]. split; [exact E2|]. apply W; [lia|cbn; lia]. Qed.
End C83_case_invert_section.
Print Assumptions C83_derivatives_invert.
