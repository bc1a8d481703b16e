(** * How fast curves move and how dense regular samples are

    Only statements: each theorem is proved elsewhere; its statement is repeated here, followed by
    a concrete case that meets its hypotheses. *)
From Coq Require Import Reals Lra Lia List.
From Verif Require Import Base BaseFacts Scalar RSum BSplineSpec BSpline KnotModel KnotSpec KnotFacts VecFacts CurveModel CurveSpec CurveProofs CurveMore
  CurveGeom LengthLine CurveLipschitz Demo.
Import ListNotations.
Local Open Scope R_scope.

(** a quadratic with unit weights whose control points move at most 8 per unit of the parameter *)
Lemma demo1_cont : curve_cont demo1.
Proof. intros j H1 H2. cbn in *. assert (j = 3)%nat as -> by lia. unfold kf. cbn. lra. Qed.
Lemma demo1_pos : pos_weights demo1.
Proof. intros j Hj. cbn in Hj. unfold cpc, rc. cbn. destruct j as [|[|[|[|j]]]]; cbn; try lra. lia. Qed.
Lemma demo1_unit : unit_weights demo1.
Proof. unfold unit_weights, rc. cbn. repeat (apply Forall_cons; [reflexivity|]). apply Forall_nil. Qed.
Lemma demo1_rate i : (i < 2)%nat -> rate_le demo1 i 8.
Proof.
  intros Hi j Hj _. cbn in Hj. unfold cpc, rc, kf.
  destruct i as [|[|i]]; [| |lia]; destruct j as [|[|[|j]]]; try lia; cbn; unfold Rabs; destruct (Rcase_abs _); lra.
Qed.

Section C64_curve_lipschitz_statement.
  Variable c : Curve R.
  Variables (i : nat) (L : R).
  Hypothesis Hok : curve_ok c.
  Hypothesis Hcont : curve_cont c.
  Hypothesis Hp : (1 <= cdeg c)%nat.
  Hypothesis HL : 0 <= L.
  Hypothesis Hrate : rate_le c i L.

  Theorem C64_curve_lipschitz : forall u v,
    dom0 c <= u <= dom1 c -> dom0 c <= v <= dom1 c ->
    Rabs (hcoord c i u - hcoord c i v) <= L * Rabs (u - v).
  Proof. exact (curve_lipschitz c i L Hok Hcont Hp HL Hrate). Qed.
End C64_curve_lipschitz_statement.
Example C64_case_lipschitz : curve_ok demo1 /\ curve_cont demo1 /\ (1 <= cdeg demo1)%nat /\ rate_le demo1 1 8 /\ dom0 demo1 < dom1 demo1.
Proof. split; [exact demo1_ok|]. split; [exact demo1_cont|]. split; [cbn; lia|]. split; [apply demo1_rate; lia|]. unfold dom0, dom1, kf. cbn. lra. Qed.
Print Assumptions C64_curve_lipschitz.

Section C64_points_lipschitz_statement.

  Theorem C64_points_lipschitz : forall c i L u v,
    curve_ok c -> curve_cont c -> (1 <= cdeg c)%nat -> unit_weights c -> 0 <= L -> rate_le c i L ->
    dom0 c <= u <= dom1 c -> dom0 c <= v <= dom1 c -> Rabs (nurbs c i u - nurbs c i v) <= L * Rabs (u - v).
  Proof. exact points_lipschitz. Qed.
End C64_points_lipschitz_statement.
Example C64_case_points : unit_weights demo1 /\ rate_le demo1 0 8.
Proof. split; [exact demo1_unit|apply demo1_rate; lia]. Qed.
Print Assumptions C64_points_lipschitz.

Section C64_samples_dense_statement.
  Variables eps maxv : R.
  Local Hint Extern 0 (Scalar R) => exact (ROps eps maxv) : typeclass_instances.

  Theorem C64_samples_dense : forall c a b n,
    curve_ok c -> curve_eps eps c -> pos_weights c -> curve_cont c -> (1 <= cdeg c)%nat -> unit_weights c ->
    dom0 c <= a -> a <= b -> b <= dom1 c -> (2 <= n)%nat ->
    exists ps, sample_regular_range c a b n = Ok ps /\ length ps = n /\
    forall u, a <= u <= b -> exists q, In q ps /\
    forall i L, (i < cdim c - 1)%nat -> 0 <= L -> rate_le c i L -> Rabs (nurbs c i u - rc i q) <= L * ((b - a) / (INR n - 1) / 2).
  Proof. first [exact (samples_dense eps maxv) | exact (samples_dense eps) | exact samples_dense]. Qed.
End C64_samples_dense_statement.
Example C64_case_dense : curve_ok demo1 /\ curve_eps eps0 demo1 /\ pos_weights demo1 /\ curve_cont demo1 /\ unit_weights demo1 /\ dom0 demo1 <= 1 / 2 /\ 3 / 2 <= dom1 demo1.
Proof. split; [exact demo1_ok|]. split; [exact demo1_eps|]. split; [exact demo1_pos|]. split; [exact demo1_cont|]. split; [exact demo1_unit|]. unfold dom0, dom1, kf. cbn. lra. Qed.
Print Assumptions C64_samples_dense.
(** a curve with different weights: its points move at most 18 per unit of the parameter *)
Lemma demo_rational i : (i < 2)%nat -> rational_rate demo i 18.
Proof.
  intros Hi. exists 1, 5, 8, 2. split; [lra|]. split; [lra|]. split; [lra|]. split; [lra|].
  split; [|split; [|split; [|split; [|lra]]]].
  - intros j Hj _. cbn in Hj. unfold cpc, rc, kf. destruct i as [|[|i]]; [| |lia]; destruct j as [|[|[|j]]]; try lia; cbn; unfold Rabs; destruct (Rcase_abs _); lra.
  - intros j Hj _. cbn in Hj. unfold cpc, rc, kf. destruct j as [|[|[|j]]]; try lia; cbn; unfold Rabs; destruct (Rcase_abs _); lra.
  - intros j Hj. cbn in Hj. unfold cpc, rc. destruct j as [|[|[|[|j]]]]; try lia; cbn; lra.
  - intros j Hj. cbn in Hj. unfold cpc, rc. destruct i as [|[|i]]; [| |lia]; destruct j as [|[|[|[|j]]]]; try lia; cbn; lra.
Qed.

Section C64_rational_lipschitz_statement.
  Variables eps maxv : R.
  Local Hint Extern 0 (Scalar R) => exact (ROps eps maxv) : typeclass_instances.

  Theorem C64_rational_lipschitz : forall c i K u v,
    curve_ok c -> curve_eps eps c -> curve_cont c -> (1 <= cdeg c)%nat -> (i < cdim c - 1)%nat -> rational_rate c i K ->
    dom0 c <= u <= dom1 c -> dom0 c <= v <= dom1 c -> Rabs (nurbs c i u - nurbs c i v) <= K * Rabs (u - v).
  Proof. first [exact (rational_lipschitz eps maxv) | exact (rational_lipschitz eps) | exact rational_lipschitz]. Qed.
End C64_rational_lipschitz_statement.
Example C64_case_rational : curve_ok demo /\ curve_eps eps0 demo /\ curve_cont demo /\ (1 <= cdeg demo)%nat /\ rational_rate demo 1 18 /\ ~ unit_weights demo.
Proof.
  split; [exact demo_ok|]. split; [exact demo_eps|]. split; [exact demo_cont|]. split; [cbn; lia|]. split; [apply demo_rational; lia|].
  intros H. unfold unit_weights in H. rewrite Forall_forall in H. specialize (H [2; 4; 2] ltac:(cbn; tauto)). unfold rc in H. cbn in H. lra.
Qed.
Print Assumptions C64_rational_lipschitz.

Section C64_rational_samples_dense_statement.
  Variables eps maxv : R.
  Local Hint Extern 0 (Scalar R) => exact (ROps eps maxv) : typeclass_instances.

  Theorem C64_rational_samples_dense : forall c a b n,
    curve_ok c -> curve_eps eps c -> pos_weights c -> curve_cont c -> (1 <= cdeg c)%nat ->
    dom0 c <= a -> a <= b -> b <= dom1 c -> (2 <= n)%nat ->
    exists ps, sample_regular_range c a b n = Ok ps /\ length ps = n /\
    forall u, a <= u <= b -> exists q, In q ps /\
    forall i K, (i < cdim c - 1)%nat -> 0 <= K -> rational_rate c i K -> Rabs (nurbs c i u - rc i q) <= K * ((b - a) / (INR n - 1) / 2).
  Proof. first [exact (rational_samples_dense eps maxv) | exact (rational_samples_dense eps) | exact rational_samples_dense]. Qed.
End C64_rational_samples_dense_statement.
Example C64_case_rational_dense : pos_weights demo /\ dom0 demo <= 1 / 2 /\ 3 / 2 <= dom1 demo /\ forall i, (i < 2)%nat -> rational_rate demo i 18.
Proof. split; [exact demo_pos|]. destruct demo_dom as (-> & ->). split; [lra|]. split; [lra|]. exact demo_rational. Qed.
Print Assumptions C64_rational_samples_dense.
