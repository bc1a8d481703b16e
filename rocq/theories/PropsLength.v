(** * Properties of lengths

    Only statements: each theorem is proved elsewhere; its statement is repeated here, followed by
    a concrete case that meets its hypotheses. *)
From Coq Require Import Floats.
From Coq Require Import Reals Lra Lia ZArith Sorted.
From Verif Require Import Base BaseFacts Scalar RSum BSplineSpec BSpline KnotModel KnotSpec KnotFacts VecFacts
  CurveModel CurveKnotModel CurveSpec CurveProofs CurveGeom CurveGeom2 KnotMisc CurveShapes Boehm Refine SplitModel SplitProofs Decompose
  CurveDeriv LengthModel LengthProofs LengthMain LengthLine LengthRefuted Demo.
Open Scope R_scope.

(** a straight segment of length 3, an angle of two edges, and the midpoint rule *)
Definition seg3 : Curve R := MkCurve 3 1 [[0; 1; 1]; [3; 1; 1]] [0; 0; 1; 1].
Definition angle : Curve R := MkCurve 3 1 [[0; 0; 1]; [3; 0; 1]; [3; 4; 1]] [0; 0; 3; 7; 7].
Definition mid_rule : list (R * R) := [(0, 2)].
Definition eps1 : R := 1 / 100000.

Lemma mid_rule_ok : rule_ok mid_rule /\ wsum mid_rule (fun _ => 1) = 2.
Proof. split; [constructor; [cbn; lra|constructor]|cbn; lra]. Qed.
Lemma seg3_bezier : bezier_seg eps1 seg3.
Proof.
  constructor.
  - constructor; cbn; try lia; [repeat constructor|]. constructor; cbn; try lia; unfold kf; cbn; try lra; repeat constructor; lra.
  - unfold curve_eps, eps_ok, eps1, kf. cbn. lra.
  - intros j Hj. cbn in Hj. unfold cpc, rc. cbn. destruct j as [|[|j]]; cbn; try lra. lia.
  - reflexivity.
Qed.
Lemma seg3_unit : unit_weights seg3.
Proof. repeat (apply Forall_cons; [reflexivity|]). constructor. Qed.
Lemma seg3_edge : edge seg3 0 1 = 3.
Proof.
  unfold edge, cpc, rc. cbn.
  match goal with |- sqrt ?x = _ => replace x with (3 * 3) by ring end. apply sqrt_square. lra.
Qed.
Lemma seg3_dom : dom0 seg3 = 0 /\ dom1 seg3 = 1.
Proof. unfold dom0, dom1, kf. cbn. lra. Qed.
Lemma seg3_head : head_length eps1 mid_rule seg3 < 25 / 10000.
Proof.
  rewrite line_head; [|exact seg3_bezier|reflexivity|exact seg3_unit|exact (proj2 mid_rule_ok)].
  rewrite seg3_edge. destruct seg3_dom as (-> & ->). unfold eps1. lra.
Qed.
Lemma seg3_length : length_curve eps1 seg3.
Proof.
  constructor; try apply seg3_bezier.
  - intros j H1 H2. cbn in *. lia.
  - unfold clamped, dom0, dom1, kf. cbn. lra.
  - intros a b Ha Hb. in_cases; first [left; reflexivity | right; unfold eps1; abs_lra].
Qed.
Lemma seg3_total : seg_length (SO := ROps eps1 maxv0) mid_rule seg3 (dom1 seg3) = Ok 3.
Proof.
  rewrite seg_length_value; [|exact seg3_bezier|exact (proj1 mid_rule_ok)]. f_equal.
  destruct seg3_dom as (D0 & D1). rewrite line_length; [|exact seg3_bezier|reflexivity|exact seg3_unit|exact (proj2 mid_rule_ok)|].
  - rewrite seg3_edge, D0, D1. lra.
  - rewrite D0, D1. unfold eps1. lra.
Qed.
Lemma seg3_mono u v : dom0 seg3 <= u <= v -> v <= dom1 seg3 -> mlen eps1 mid_rule seg3 u <= mlen eps1 mid_rule seg3 v.
Proof.
  intros Hu Hv. destruct seg3_dom as (D0 & D1). pose proof seg3_bezier as Hb. pose proof seg3_unit as Hn. pose proof (proj2 mid_rule_ok) as Hw.
  destruct (Rlt_le_dec (dom0 seg3 + eps1) u) as [C|C].
  - rewrite !line_length by (auto; lra). rewrite seg3_edge, D0, D1. lra.
  - replace (mlen eps1 mid_rule seg3 u) with 0; [apply (mlen_nonneg eps1); [exact Hb|exact (proj1 mid_rule_ok)]|].
    unfold mlen. destruct (Rlt_dec (dom0 seg3 + eps1) u); [lra|reflexivity].
Qed.
Lemma seg3_segments segs s : try_decompose_bezier_segments (SO := ROps eps1 maxv0) seg3 = Ok segs -> In s segs -> s = seg3.
Proof.
  intros E. destruct (decompose_single eps1 maxv0 seg3 0 1 seg3_bezier eq_refl) as (_ & E'); [unfold eps1; lra|].
  rewrite E' in E. injection E as <-. intros [<-|[]]. reflexivity.
Qed.
Lemma angle_length : length_curve eps1 angle.
Proof.
  constructor.
  - constructor; cbn; try lia; [repeat constructor|]. constructor; cbn; try lia; unfold kf; cbn; try lra; repeat constructor; lra.
  - unfold curve_eps, eps_ok, eps1, kf. cbn. lra.
  - intros j H1 H2. cbn in *. assert (j = 2)%nat as -> by lia. unfold kf. cbn. lra.
  - unfold clamped, dom0, dom1, kf. cbn. lra.
  - intros a b Ha Hb. in_cases; first [left; reflexivity | right; unfold eps1; abs_lra].
  - intros j Hj. cbn in Hj. unfold cpc, rc. cbn. destruct j as [|[|[|j]]]; cbn; try lra. lia.
Qed.


Section C34_seg_length_value_statement.
  Variables eps maxv : R.
  Local Hint Extern 0 (Scalar R) => exact (ROps eps maxv) : typeclass_instances.
  Local Notation bezier_seg := (bezier_seg eps).
  Local Notation mlen := (mlen eps).
  Local Notation head_length := (head_length eps).
  Local Notation bracket := (bracket eps maxv).
  Local Notation length_curve := (length_curve eps).
  Local Notation cut := (cut eps maxv).
  Theorem C34_seg_length_value : forall rule s u,
    bezier_seg s -> rule_ok rule -> seg_length rule s u = Ok (mlen rule s u).
  Proof. first [exact (seg_length_value eps maxv) | exact (seg_length_value eps) | exact seg_length_value | exact (seg_length_value maxv)]. Qed.
End C34_seg_length_value_statement.
Example C34_case_value : bezier_seg eps1 seg3 /\ rule_ok mid_rule.
Proof. split; [exact seg3_bezier|exact (proj1 mid_rule_ok)]. Qed.
Print Assumptions C34_seg_length_value.

Section C34_try_length_spec_statement.
  Variables eps maxv : R.
  Local Hint Extern 0 (Scalar R) => exact (ROps eps maxv) : typeclass_instances.
  Local Notation bezier_seg := (bezier_seg eps).
  Local Notation mlen := (mlen eps).
  Local Notation head_length := (head_length eps).
  Local Notation bracket := (bracket eps maxv).
  Local Notation length_curve := (length_curve eps).
  Local Notation cut := (cut eps maxv).
  Theorem C34_try_length_spec : forall gauss c,
    length_curve c -> rule_ok (gauss (16 + cdeg c)%nat) ->
    exists vs segs ls, try_decompose_bezier_segments c = Ok segs /\ cut c vs segs /\
    mapM (fun s => seg_length (gauss (16 + cdeg c)%nat) s (dom1 s)) segs = Ok ls /\
    Forall (fun l => 0 <= l) ls /\
    try_length gauss c = Ok (psum ls (length ls)).
  Proof. first [exact (try_length_spec eps maxv) | exact (try_length_spec eps) | exact try_length_spec | exact (try_length_spec maxv)]. Qed.
End C34_try_length_spec_statement.
Example C34_case_length : length_curve eps1 angle /\ rule_ok mid_rule.
Proof. split; [exact angle_length|exact (proj1 mid_rule_ok)]. Qed.
Print Assumptions C34_try_length_spec.

Section C34_line_length_statement.
  Variables eps maxv : R.
  Local Hint Extern 0 (Scalar R) => exact (ROps eps maxv) : typeclass_instances.
  Theorem C34_line_length : forall rule s u,
    bezier_seg eps s -> cdeg s = 1%nat -> unit_weights s -> wsum rule (fun _ => 1) = 2 ->
    dom0 s + eps < u <= dom1 s -> mlen eps rule s u = (u - dom0 s) / (dom1 s - dom0 s) * edge s 0 1.
  Proof. first [exact (line_length eps maxv) | exact (line_length eps) | exact line_length | exact (line_length maxv)]. Qed.
End C34_line_length_statement.
Example C34_case_line : bezier_seg eps1 seg3 /\ cdeg seg3 = 1%nat /\ unit_weights seg3 /\ wsum mid_rule (fun _ => 1) = 2 /\ dom0 seg3 + eps1 < 1 / 2 <= dom1 seg3.
Proof. split; [exact seg3_bezier|]; split; [reflexivity|]; split; [exact seg3_unit|]; split; [exact (proj2 mid_rule_ok)|]; destruct seg3_dom as (-> & ->); unfold eps1; lra. Qed.
Print Assumptions C34_line_length.

Section C34_polyline_length_statement.
  Variables eps maxv : R.
  Local Hint Extern 0 (Scalar R) => exact (ROps eps maxv) : typeclass_instances.
  Theorem C34_polyline_length : forall gauss c,
    length_curve eps c -> cdeg c = 1%nat -> unit_weights c ->
    rule_ok (gauss 17%nat) -> wsum (gauss 17%nat) (fun _ => 1) = 2 ->
    exists vs pts, StronglySorted Rlt vs /\ (forall x, In x vs <-> In x (cknots c)) /\
    Forall2 (fun v p => point_at c v = Ok p) vs pts /\ try_length gauss c = Ok (chord pts (length pts - 1)).
  Proof. first [exact (polyline_length eps maxv) | exact (polyline_length eps) | exact polyline_length | exact (polyline_length maxv)]. Qed.
End C34_polyline_length_statement.
Example C34_case_polyline : length_curve eps1 angle /\ cdeg angle = 1%nat /\ unit_weights angle /\ rule_ok mid_rule /\ wsum mid_rule (fun _ => 1) = 2.
Proof. split; [exact angle_length|]; split; [reflexivity|]; split; [repeat (apply Forall_cons; [reflexivity|]); constructor|exact mid_rule_ok]. Qed.
Print Assumptions C34_polyline_length.

Section C34_seg_parameter_terminates_statement.
  Variables eps maxv : R.
  Local Hint Extern 0 (Scalar R) => exact (ROps eps maxv) : typeclass_instances.
  Local Notation bezier_seg := (bezier_seg eps).
  Local Notation mlen := (mlen eps).
  Local Notation head_length := (head_length eps).
  Local Notation bracket := (bracket eps maxv).
  Local Notation length_curve := (length_curve eps).
  Local Notation cut := (cut eps maxv).
  Theorem C34_seg_parameter_terminates : forall rule s tol,
    bezier_seg s -> rule_ok rule -> 0 < tol -> head_length rule s < tol ->
    exists fuel0, forall fuel, (fuel0 <= fuel)%nat -> forall len total, seg_length rule s (dom1 s) = Ok total ->
    exists p, seg_parameter fuel rule s len tol total = Ok p.
  Proof. first [exact (seg_parameter_terminates eps maxv) | exact (seg_parameter_terminates eps) | exact seg_parameter_terminates | exact (seg_parameter_terminates maxv)]. Qed.
End C34_seg_parameter_terminates_statement.
Example C34_case_terminates : bezier_seg eps1 seg3 /\ rule_ok mid_rule /\ 0 < 25 / 10000 /\ head_length eps1 mid_rule seg3 < 25 / 10000.
Proof. split; [exact seg3_bezier|]; split; [exact (proj1 mid_rule_ok)|]; split; [lra|exact seg3_head]. Qed.
Print Assumptions C34_seg_parameter_terminates.

Section C34_seg_parameter_bracket_statement.
  Variables eps maxv : R.
  Local Hint Extern 0 (Scalar R) => exact (ROps eps maxv) : typeclass_instances.
  Local Notation bezier_seg := (bezier_seg eps).
  Local Notation mlen := (mlen eps).
  Local Notation head_length := (head_length eps).
  Local Notation bracket := (bracket eps maxv).
  Local Notation length_curve := (length_curve eps).
  Local Notation cut := (cut eps maxv).
  Theorem C34_seg_parameter_bracket : forall fuel rule s len tol total p,
    bezier_seg s ->
    seg_length rule s (dom1 s) = Ok total -> seg_parameter fuel rule s len tol total = Ok p ->
    dom0 s <= p <= dom1 s /\ (len <= 0 -> p = dom0 s) /\ (0 < len -> total <= len -> p = dom1 s) /\
    (0 < len < total -> bracket rule s len tol p).
  Proof. first [exact (seg_parameter_bracket eps maxv) | exact (seg_parameter_bracket eps) | exact seg_parameter_bracket | exact (seg_parameter_bracket maxv)]. Qed.
End C34_seg_parameter_bracket_statement.
Example C34_case_bracket : bezier_seg eps1 seg3 /\ seg_length (SO := ROps eps1 maxv0) mid_rule seg3 (dom1 seg3) = Ok 3 /\ exists fuel p, seg_parameter (SO := ROps eps1 maxv0) fuel mid_rule seg3 1 (25 / 10000) 3 = Ok p.
Proof. split; [exact seg3_bezier|]; split; [exact seg3_total|]; destruct (seg_parameter_terminates eps1 maxv0 mid_rule seg3 (25 / 10000) seg3_bezier (proj1 mid_rule_ok) ltac:(lra) seg3_head) as (n & Hn); exists n; exact (Hn n (le_n n) 1 3 seg3_total). Qed.
Print Assumptions C34_seg_parameter_bracket.

Section C34_seg_parameter_accuracy_statement.
  Variables eps maxv : R.
  Local Hint Extern 0 (Scalar R) => exact (ROps eps maxv) : typeclass_instances.
  Local Notation bezier_seg := (bezier_seg eps).
  Local Notation mlen := (mlen eps).
  Local Notation head_length := (head_length eps).
  Local Notation bracket := (bracket eps maxv).
  Local Notation length_curve := (length_curve eps).
  Local Notation cut := (cut eps maxv).
  Theorem C34_seg_parameter_accuracy : forall fuel rule s len tol total p,
    bezier_seg s -> rule_ok rule ->
    (forall u v, dom0 s <= u <= v -> v <= dom1 s -> mlen rule s u <= mlen rule s v) ->
    0 <= len <= total -> 0 <= tol ->
    seg_length rule s (dom1 s) = Ok total -> seg_parameter fuel rule s len tol total = Ok p ->
    exists l, seg_length rule s p = Ok l /\ Rabs (l - len) <= tol.
  Proof. first [exact (seg_parameter_accuracy eps maxv) | exact (seg_parameter_accuracy eps) | exact seg_parameter_accuracy | exact (seg_parameter_accuracy maxv)]. Qed.
End C34_seg_parameter_accuracy_statement.
Example C34_case_accuracy : forall u v, dom0 seg3 <= u <= v -> v <= dom1 seg3 -> mlen eps1 mid_rule seg3 u <= mlen eps1 mid_rule seg3 v.
Proof. exact seg3_mono. Qed.
Print Assumptions C34_seg_parameter_accuracy.

Section C34_seg_parameter_diverges_statement.
  Variables eps maxv : R.
  Local Hint Extern 0 (Scalar R) => exact (ROps eps maxv) : typeclass_instances.
  Local Notation bezier_seg := (bezier_seg eps).
  Local Notation mlen := (mlen eps).
  Local Notation head_length := (head_length eps).
  Local Notation bracket := (bracket eps maxv).
  Local Notation length_curve := (length_curve eps).
  Local Notation cut := (cut eps maxv).
  Theorem C34_seg_parameter_diverges : forall fuel rule s len tol total,
    bezier_seg s -> rule_ok rule -> tol < 0 -> 0 < len < total ->
    seg_length rule s (dom1 s) = Ok total -> seg_parameter fuel rule s len tol total = OutOfFuel.
  Proof. first [exact (seg_parameter_diverges eps maxv) | exact (seg_parameter_diverges eps) | exact seg_parameter_diverges | exact (seg_parameter_diverges maxv)]. Qed.
End C34_seg_parameter_diverges_statement.
Print Assumptions C34_seg_parameter_diverges.

Section C34_parameter_at_length_spec_statement.
  Variables eps maxv : R.
  Local Hint Extern 0 (Scalar R) => exact (ROps eps maxv) : typeclass_instances.
  Local Notation located := (located eps maxv).
  Local Notation sample_on := (sample_on eps maxv).
  Theorem C34_parameter_at_length_spec : forall gauss fuel c len tolerance p,
    length_curve eps c -> rule_ok (gauss (16 + cdeg c)%nat) ->
    try_parameter_at_length gauss fuel c len tolerance = Ok p ->
    dom0 c <= p <= dom1 c /\ (len < eps -> p = dom0 c) /\
    (eps <= len ->
    let rule := gauss (16 + cdeg c)%nat in
    let tol := match tolerance with Some t => t | None => 1 / 10000 end in
    exists segs ls i, try_decompose_bezier_segments c = Ok segs /\
    mapM (fun s => seg_length rule s (dom1 s)) segs = Ok ls /\ (i < length segs)%nat /\
    psum ls i < len <= psum ls (S i) + eps /\ located rule c segs ls i len tol p).
  Proof. first [exact (parameter_at_length_spec eps maxv) | exact (parameter_at_length_spec eps) | exact parameter_at_length_spec | exact (parameter_at_length_spec maxv)]. Qed.
End C34_parameter_at_length_spec_statement.
Example C34_case_parameter : length_curve eps1 seg3 /\ exists fuel p, try_parameter_at_length (SO := ROps eps1 maxv0) (fun _ => mid_rule) fuel seg3 1 (Some (25 / 10000)) = Ok p.
Proof. 
  split; [exact seg3_length|].
  destruct (parameter_at_length_total eps1 maxv0 (fun _ => mid_rule) seg3 1 (Some (25 / 10000)) seg3_length (proj1 mid_rule_ok)) as (total & Et & H & _).
  { lra. } { intros segs s E Hs. rewrite (seg3_segments segs s E Hs). exact seg3_head. }
  destruct H as (n & Hn); [|destruct (Hn n (le_n n)) as (p & Ep); exists n, p; exact Ep].
  rewrite (try_length_single eps1 maxv0 (fun _ => mid_rule) seg3 0 1 seg3_bezier (proj1 mid_rule_ok) eq_refl) in Et by (unfold eps1; lra).
  rewrite <- (seg_length_value eps1 maxv0 mid_rule seg3 (dom1 seg3) seg3_bezier (proj1 mid_rule_ok)) in Et.
  rewrite seg3_total in Et. injection Et as <-. unfold eps1. lra. Qed.
Print Assumptions C34_parameter_at_length_spec.

Section C34_parameter_at_length_total_statement.
  Variables eps maxv : R.
  Local Hint Extern 0 (Scalar R) => exact (ROps eps maxv) : typeclass_instances.
  Local Notation located := (located eps maxv).
  Local Notation sample_on := (sample_on eps maxv).
  Theorem C34_parameter_at_length_total : forall gauss c len tolerance,
    length_curve eps c -> rule_ok (gauss (16 + cdeg c)%nat) ->
    let rule := gauss (16 + cdeg c)%nat in
    let tol := match tolerance with Some t => t | None => 1 / 10000 end in
    0 < tol -> (forall segs s, try_decompose_bezier_segments c = Ok segs -> In s segs -> head_length eps rule s < tol) ->
    exists total, try_length gauss c = Ok total /\
    (len <= total + eps -> exists fuel0, forall fuel, (fuel0 <= fuel)%nat ->
    exists p, try_parameter_at_length gauss fuel c len tolerance = Ok p) /\
    (total + eps < len -> forall fuel, errs (try_parameter_at_length gauss fuel c len tolerance)).
  Proof. first [exact (parameter_at_length_total eps maxv) | exact (parameter_at_length_total eps) | exact parameter_at_length_total | exact (parameter_at_length_total maxv)]. Qed.
End C34_parameter_at_length_total_statement.
Example C34_case_total : length_curve eps1 seg3 /\ forall segs s, try_decompose_bezier_segments (SO := ROps eps1 maxv0) seg3 = Ok segs -> In s segs -> head_length eps1 mid_rule s < 25 / 10000.
Proof. split; [exact seg3_length|]; intros segs s E Hs; rewrite (seg3_segments segs s E Hs); exact seg3_head. Qed.
Print Assumptions C34_parameter_at_length_total.

Section C34_parameter_unclamped_refuted_statement.
  Local Existing Instance FOps.
  Local Open Scope float_scope.
  Theorem C34_parameter_unclamped_refuted : exists (c : Curve float) gauss fuel len total a b p,
    knots_domain c = Ok (a, b) /\ try_length gauss c = Ok total /\ (0 <? len) = true /\ (len <? total) = true /\
    try_parameter_at_length gauss fuel c len None = Ok p /\ (p <? a) = true.
  Proof. exact parameter_unclamped_refuted. Qed.
End C34_parameter_unclamped_refuted_statement.
Print Assumptions C34_parameter_unclamped_refuted.

Section C35_divide_by_length_spec_statement.
  Variables eps maxv : R.
  Local Hint Extern 0 (Scalar R) => exact (ROps eps maxv) : typeclass_instances.
  Local Notation located := (located eps maxv).
  Local Notation sample_on := (sample_on eps maxv).
  Theorem C35_divide_by_length_spec : forall gauss c len,
    length_curve eps c -> rule_ok (gauss (16 + cdeg c)%nat) ->
    let rule := gauss (16 + cdeg c)%nat in
    (forall segs s, try_decompose_bezier_segments c = Ok segs -> In s segs -> head_length eps rule s < dtol) ->
    exists total segs ls, try_length gauss c = Ok total /\ try_decompose_bezier_segments c = Ok segs /\
    mapM (fun s => seg_length rule s (dom1 s)) segs = Ok ls /\ psum ls (length ls) = total /\
    (len <= 0 \/ total <= len -> forall fuel, errs (try_divide_by_length gauss fuel c len)) /\
    (0 < len < total -> exists fuel0, forall fuel, (fuel0 <= fuel)%nat ->
    exists samples idx, try_divide_by_length gauss fuel c len = Ok samples /\
    (* recorded lengths 0, L, 2L, ... up to the total *)
    (2 <= length samples)%nat /\
    (forall k, (k < length samples)%nat -> snd (nth k samples (0, 0)) = INR k * len) /\
    INR (length samples - 1) * len < total + deps <= INR (length samples) * len /\
    (* the first one at the start, the others where the measured length says *)
    fst (nth 0 samples (0, 0)) = dom0 c /\
    (forall k, (1 <= k < length samples)%nat ->
    sample_on rule c segs ls (idx k) (INR k * len) (fst (nth k samples (0, 0)))) /\
    (* in the order of the segments *)
    (forall k k', (1 <= k <= k')%nat -> (k' < length samples)%nat ->
    idx k = idx k' \/ fst (nth k samples (0, 0)) <= fst (nth k' samples (0, 0)))).
  Proof. first [exact (divide_by_length_spec eps maxv) | exact (divide_by_length_spec eps) | exact divide_by_length_spec | exact (divide_by_length_spec maxv)]. Qed.
End C35_divide_by_length_spec_statement.
Example C35_case : length_curve eps1 seg3 /\ (forall segs s, try_decompose_bezier_segments (SO := ROps eps1 maxv0) seg3 = Ok segs -> In s segs -> head_length eps1 mid_rule s < dtol) /\ try_length (SO := ROps eps1 maxv0) (fun _ => mid_rule) seg3 = Ok 3.
Proof. 
  split; [exact seg3_length|]. split.
  { intros segs s E Hs. rewrite (seg3_segments segs s E Hs). exact seg3_head. }
  rewrite (try_length_single eps1 maxv0 (fun _ => mid_rule) seg3 0 1 seg3_bezier (proj1 mid_rule_ok) eq_refl) by (unfold eps1; lra).
  rewrite <- (seg_length_value eps1 maxv0 mid_rule seg3 (dom1 seg3) seg3_bezier (proj1 mid_rule_ok)). exact seg3_total. Qed.
Print Assumptions C35_divide_by_length_spec.

Section C35_divide_by_count_spec_statement.
  Variables eps maxv : R.
  Local Hint Extern 0 (Scalar R) => exact (ROps eps maxv) : typeclass_instances.
  Local Notation located := (located eps maxv).
  Local Notation sample_on := (sample_on eps maxv).
  Theorem C35_divide_by_count_spec : forall gauss c n,
    length_curve eps c -> rule_ok (gauss (16 + cdeg c)%nat) ->
    let rule := gauss (16 + cdeg c)%nat in
    (forall segs s, try_decompose_bezier_segments c = Ok segs -> In s segs -> head_length eps rule s < dtol) ->
    exists total, try_length gauss c = Ok total /\
    (n = 1%nat -> forall fuel, errs (try_divide_by_count gauss fuel c n)) /\
    ((2 <= n)%nat -> deps <= total / INR n -> exists fuel0, forall fuel, (fuel0 <= fuel)%nat ->
    exists samples, try_divide_by_count gauss fuel c n = Ok samples /\ length samples = S n /\
    forall k, (k <= n)%nat -> snd (nth k samples (0, 0)) = INR k * (total / INR n)).
  Proof. first [exact (divide_by_count_spec eps maxv) | exact (divide_by_count_spec eps) | exact divide_by_count_spec | exact (divide_by_count_spec maxv)]. Qed.
End C35_divide_by_count_spec_statement.
Example C35_case_count : deps <= 3 / INR 4.
Proof. unfold deps; cbn; lra. Qed.
Print Assumptions C35_divide_by_count_spec.

Section C35_divide_unclamped_refuted_statement.
  Local Existing Instance FOps.
  Local Open Scope float_scope.
  Theorem C35_divide_unclamped_refuted : exists (c : Curve float) gauss fuel len total a b samples p q l,
    knots_domain c = Ok (a, b) /\ try_length gauss c = Ok total /\ (0 <? len) = true /\ (len <? total) = true /\
    try_divide_by_length gauss fuel c len = Ok samples /\ In (p, 0) samples /\ (p <? a) = true /\
    In (q, l) samples /\ (b <? q) = true /\ (total <? l) = true.
  Proof. exact divide_unclamped_refuted. Qed.
End C35_divide_unclamped_refuted_statement.
Print Assumptions C35_divide_unclamped_refuted.
