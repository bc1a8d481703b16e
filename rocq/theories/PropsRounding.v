(** * Properties of evaluation with rounded arithmetic

    Only statements: each theorem is proved elsewhere; its statement is repeated here, followed by
    a concrete case that meets its hypotheses. *)
From Coq Require Import Reals Lra Lia Psatz ZArith List String.
From Flocq Require Import Core.
From Verif Require Import Base BaseFacts Scalar RSum BSplineSpec BSpline KnotModel KnotSpec KnotFacts VecFacts CurveModel CurveSpec CurveProofs
  SurfaceModel SurfaceSpec SurfaceProofs Rounding RoundingInstance RoundedEval RoundedSurface RoundedDouble Demo.
Import ListNotations.
Local Open Scope R_scope.


(** a rational quadratic with integer knots, and a rational patch *)
Definition quad : Curve R := MkCurve 3 2 [[0; 0; 1]; [2; 4; 2]; [3; 1; 1]; [5; 0; 1]] [0; 0; 0; 1; 2; 2; 2].
Lemma quad_ok : curve_ok quad /\ curve_eps eps0 quad /\ pos_weights quad.
Proof.
  split; [|split].
  - constructor; cbn; try lia; [repeat constructor|]. constructor; cbn; try lia; unfold kf; cbn; try lra. repeat constructor; lra.
  - unfold curve_eps, eps_ok, eps0, kf. cbn. lra.
  - intros j Hj. cbn in Hj. unfold cpc, rc. destruct j as [|[|[|[|j]]]]; cbn; try lra. lia.
Qed.
Lemma quad_machine : machine (nearest 53) (cknots quad).
Proof. apply machine_ints. intros x Hx. cbn in Hx. repeat (destruct Hx as [<-|Hx]; [first [exists 0%Z; split; [reflexivity|cbn; lia] | exists 1%Z; split; [reflexivity|cbn; lia] | exists 2%Z; split; [reflexivity|cbn; lia]]|]). destruct Hx. Qed.
Definition sheet : Surf R := MkSurf 4 2 1 [0; 0; 0; 1; 2; 2; 2] [0; 0; 1; 1]
  [ [[0; 0; 0; 1]; [0; 1; 0; 1]]; [[2; 0; 2; 2]; [2; 2; 1; 2]]; [[2; 0; 1; 1]; [2; 1; 1; 1]]; [[3; 0; 0; 1]; [3; 1; 0; 1]] ].
Lemma sheet_ok : surf_ok sheet /\ surf_eps eps0 sheet /\ spos sheet.
Proof.
  split; [|split].
  - constructor; cbn; try lia; try (repeat constructor; fail).
    + constructor; cbn; try lia; unfold kf; cbn; try lra. repeat constructor; lra.
    + constructor; cbn; try lia; unfold kf; cbn; try lra. repeat constructor; lra.
  - split; unfold eps_ok, eps0, kf; cbn; lra.
  - intros a b Ha Hb. cbn in Ha, Hb. unfold spc, rc. destruct a as [|[|[|[|a]]]]; [| | | |lia]; (destruct b as [|[|b]]; [| |lia]); cbn; lra.
Qed.
Lemma sheet_machine : machine (nearest 53) (suk sheet) /\ machine (nearest 53) (svk sheet).
Proof. split; apply machine_ints; intros x Hx; cbn in Hx; repeat (destruct Hx as [<-|Hx]; [first [exists 0%Z; split; [reflexivity|cbn; lia] | exists 1%Z; split; [reflexivity|cbn; lia] | exists 2%Z; split; [reflexivity|cbn; lia]]|]); destruct Hx. Qed.


Section C81_find_span_rounded_statement.
  Variables (mu : R) (rnd : R -> R) (eps maxv : R).
  Hypothesis Hr : rounding mu rnd.
  Local Hint Extern 0 (Scalar R) => exact (FlOps rnd eps maxv) : typeclass_instances.
  Local Notation ap := (ap mu).
  Local Notation machine := (machine rnd).

  Theorem C81_find_span_rounded : forall k p n u,
    knots_ok p n k -> eps_ok eps p n k -> machine k -> kf k p <= u <= kf k (n + 1) ->
    exists s, find_span k n p u = Ok s /\ (p <= s <= n)%nat /\ in_span k n s u.
  Proof. exact (find_span_rounded mu rnd eps maxv Hr). Qed.
End C81_find_span_rounded_statement.
Section C81_case_span_section.
  Local Hint Extern 0 (Scalar R) => exact (FlOps (nearest 53) eps0 maxv0) : typeclass_instances.
  Example C81_case_span : exists s, find_span (cknots quad) 3 2 (1 / 3) = Ok s /\ in_span (cknots quad) 3 s (1 / 3).
  Proof. destruct (find_span_rounded _ _ eps0 maxv0 double_rounding (cknots quad) 2 3 (1 / 3)) as (s & E & _ & H); [apply (co_knots quad), quad_ok|apply quad_ok|exact quad_machine|unfold kf; cbn; lra|eauto]. Qed.
End C81_case_span_section.
Print Assumptions C81_find_span_rounded.

Section C81_basis_functions_rounded_statement.
  Variables (mu : R) (rnd : R -> R) (eps maxv : R).
  Hypothesis Hr : rounding mu rnd.
  Local Hint Extern 0 (Scalar R) => exact (FlOps rnd eps maxv) : typeclass_instances.
  Local Notation ap := (ap mu).
  Local Notation machine := (machine rnd).

  Theorem C81_basis_functions_rounded : forall k s p u,
    mono (kf k) -> kf k s < kf k (S s) -> kf k s <= u <= kf k (S s) -> (p <= s)%nat -> (s + p < length k)%nat ->
    exists b, basis_functions k s u p = Ok b /\ length b = S p /\
    forall r, (r <= p)%nat -> ap (6 * p) (nth r b 0) (bs (kf k) s p (s - p + r) u).
  Proof. exact (basis_functions_rounded mu rnd eps maxv Hr). Qed.
End C81_basis_functions_rounded_statement.
Print Assumptions C81_basis_functions_rounded.

Section C81_point_at_rounded_statement.
  Variables (mu : R) (rnd : R -> R) (eps maxv : R).
  Hypothesis Hr : rounding mu rnd.
  Local Hint Extern 0 (Scalar R) => exact (FlOps rnd eps maxv) : typeclass_instances.
  Local Notation ap := (ap mu).
  Local Notation machine := (machine rnd).

  Theorem C81_point_at_rounded : forall c u,
    curve_ok c -> curve_eps eps c -> machine (cknots c) -> pos_weights c -> dom0 c <= u <= dom1 c ->
    exists p, point_at c u = Ok p /\ length p = (cdim c - 1)%nat /\
    forall i M, (i < cdim c - 1)%nat ->
    (forall j, (j < length (cpts c))%nat -> Rabs (cpc c i j / cpc c (cdim c - 1) j) <= M) ->
    Rabs (rc i p - nurbs c i u) <= gam mu (14 * cdeg c + 5) * M.
  Proof. exact (point_at_rounded mu rnd eps maxv Hr). Qed.
End C81_point_at_rounded_statement.
Section C81_case_section.
  Local Hint Extern 0 (Scalar R) => exact (FlOps (nearest 53) eps0 maxv0) : typeclass_instances.
  Example C81_case : exists p, point_at quad (1 / 3) = Ok p /\ Rabs (rc 1 p - nurbs quad 1 (1 / 3)) <= (14 * INR 2 + 6) * bpow radix2 (-53) * 2.
  Proof. destruct quad_ok as (A & B & C). destruct (point_at_double eps0 maxv0 quad (1 / 3) A B quad_machine C) as (p & E & _ & H); [unfold dom0, dom1, kf; cbn; lra|cbn; lia|]. exists p. split; [exact E|]. apply H; [cbn; lia|]. intros j Hj. cbn in Hj. unfold cpc, rc. destruct j as [|[|[|[|j]]]]; [| | | |lia]; cbn; apply Rabs_le; lra. Qed.
End C81_case_section.
Print Assumptions C81_point_at_rounded.

Section C81_box_rounded_statement.
  Variables (mu : R) (rnd : R -> R) (eps maxv : R).
  Hypothesis Hr : rounding mu rnd.
  Local Hint Extern 0 (Scalar R) => exact (FlOps rnd eps maxv) : typeclass_instances.
  Local Notation ap := (ap mu).
  Local Notation machine := (machine rnd).

  Theorem C81_box_rounded : forall c u,
    curve_ok c -> curve_eps eps c -> machine (cknots c) -> pos_weights c -> dom0 c <= u <= dom1 c ->
    exists p, point_at c u = Ok p /\
    forall i lo hi, (i < cdim c - 1)%nat ->
    (forall j, (j < length (cpts c))%nat -> lo <= cpc c i j / cpc c (cdim c - 1) j <= hi) ->
    lo - gam mu (14 * cdeg c + 5) * Rmax (Rabs lo) (Rabs hi) <= rc i p <=
    hi + gam mu (14 * cdeg c + 5) * Rmax (Rabs lo) (Rabs hi).
  Proof. exact (box_rounded mu rnd eps maxv Hr). Qed.
End C81_box_rounded_statement.
Print Assumptions C81_box_rounded.

Section C81_surf_point_at_rounded_statement.
  Variables (mu : R) (rnd : R -> R) (eps maxv : R).
  Hypothesis Hr : rounding mu rnd.
  Local Hint Extern 0 (Scalar R) => exact (FlOps rnd eps maxv) : typeclass_instances.
  Local Notation ap := (ap mu).

  Theorem C81_surf_point_at_rounded : forall s u v,
    surf_ok s -> surf_eps eps s -> machine rnd (suk s) -> machine rnd (svk s) -> spos s -> in_dom s u v ->
    exists p, surf_point_at s u v = Ok p /\ length p = (sdim s - 1)%nat /\
    forall i M, (i < sdim s - 1)%nat ->
    (forall a b, (a < nrow s)%nat -> (b < ncol s)%nat -> Rabs (spc s i a b / spc s (sdim s - 1) a b) <= M) ->
    Rabs (rc i p - snurbs s i u v) <= gam mu (14 * (sdu s + sdv s) + 9) * M.
  Proof. exact (surf_point_at_rounded mu rnd eps maxv Hr). Qed.
End C81_surf_point_at_rounded_statement.
Section C81_case_surf_section.
  Local Hint Extern 0 (Scalar R) => exact (FlOps (nearest 53) eps0 maxv0) : typeclass_instances.
  Example C81_case_surf : surf_ok sheet /\ surf_eps eps0 sheet /\ machine (nearest 53) (suk sheet) /\ machine (nearest 53) (svk sheet) /\ spos sheet /\ in_dom sheet (1 / 3) (1 / 7).
  Proof. destruct sheet_ok as (A & B & C). destruct sheet_machine as (D & F). repeat (split; [assumption|]). split; unfold u0, u1, v0, v1, kf; cbn; lra. Qed.
End C81_case_surf_section.
Print Assumptions C81_surf_point_at_rounded.

Section C81_point_at_double_statement.
  Variables eps maxv : R.
  Local Hint Extern 0 (Scalar R) => exact (FlOps (nearest 53) eps maxv) : typeclass_instances.

  Theorem C81_point_at_double : forall c u,
    curve_ok c -> curve_eps eps c -> machine (nearest 53) (cknots c) -> pos_weights c -> dom0 c <= u <= dom1 c ->
    (Z.of_nat (cdeg c) <= 1000000)%Z ->
    exists p, point_at c u = Ok p /\ length p = (cdim c - 1)%nat /\
    forall i M, (i < cdim c - 1)%nat ->
    (forall j, (j < length (cpts c))%nat -> Rabs (cpc c i j / cpc c (cdim c - 1) j) <= M) ->
    Rabs (rc i p - nurbs c i u) <= (14 * INR (cdeg c) + 6) * bpow radix2 (-53) * M.
  Proof. exact (point_at_double eps maxv). Qed.
End C81_point_at_double_statement.
Print Assumptions C81_point_at_double.

Section C81_surf_point_at_double_statement.
  Variables eps maxv : R.
  Local Hint Extern 0 (Scalar R) => exact (FlOps (nearest 53) eps maxv) : typeclass_instances.

  Theorem C81_surf_point_at_double : forall s u v,
    surf_ok s -> surf_eps eps s -> machine (nearest 53) (suk s) -> machine (nearest 53) (svk s) -> spos s -> in_dom s u v ->
    (Z.of_nat (sdu s + sdv s) <= 1000000)%Z ->
    exists p, surf_point_at s u v = Ok p /\ length p = (sdim s - 1)%nat /\
    forall i M, (i < sdim s - 1)%nat ->
    (forall a b, (a < nrow s)%nat -> (b < ncol s)%nat -> Rabs (spc s i a b / spc s (sdim s - 1) a b) <= M) ->
    Rabs (rc i p - snurbs s i u v) <= (14 * (INR (sdu s) + INR (sdv s)) + 10) * bpow radix2 (-53) * M.
  Proof. exact (surf_point_at_double eps maxv). Qed.
End C81_surf_point_at_double_statement.
Print Assumptions C81_surf_point_at_double.

Theorem C81_nearest_rounding : forall prec,
    (1 < prec)%Z -> rounding (unit_roundoff prec) (nearest prec).
Proof. exact (@nearest_rounding). Qed.
Print Assumptions C81_nearest_rounding.
