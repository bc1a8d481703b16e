(** * Interpolation: success and uniqueness

    Only statements: each theorem is proved elsewhere; its statement is repeated here, followed by
    a concrete case that meets its hypotheses. *)
From Coq Require Import Reals Lra Lia ZArith List Sorted.
From Verif Require Import Base BaseFacts Scalar RSum KnotModel KnotSpec KnotFacts VecFacts CurveModel CurveSpec CurveProofs CurveGeom CurveGeom2 CurveShapes
  InterpModel InterpProofs InterpPeriodic SchoenbergWhitney InterpUnique InterpSingular Demo.
Import ListNotations.
Local Open Scope R_scope.

(** a staircase of five points in the plane, and a quadrilateral *)
Definition stairs : list (list R) := [[0; 0]; [1; 0]; [1; 1]; [2; 1]; [2; 2]].
Definition kite : list (list R) := [[0; 0]; [1; 0]; [1; 1]; [0; 2]].

Lemma sqrt_is_1 x : x = 1 -> sqrt x = 1.
Proof. intros ->. exact sqrt_1. Qed.
Lemma stairs_dist i : (S i < 5)%nat -> rdist (nth i stairs []) (nth (S i) stairs []) = 1.
Proof. intros H. destruct i as [|[|[|[|i]]]]; try lia; unfold rdist; cbn; apply sqrt_is_1; lra. Qed.
Lemma stairs_steps : distinct_steps stairs.
Proof. intros i Hi. rewrite stairs_dist by exact Hi. lra. Qed.
Lemma stairs_chord i : (i <= 4)%nat -> chord stairs i = INR i.
Proof.
  intros H. unfold chord. rewrite (rsum_ext _ _ (fun _ => 1)); [rewrite rsum_const; ring|]. intros j Hj. apply stairs_dist. lia.
Qed.
Lemma stairs_eps : steps_above_eps eps0 stairs.
Proof.
  unfold steps_above_eps, iparam, eps0. change (length stairs - 1)%nat with 4%nat. change (4 - 1)%nat with 3%nat. rewrite !stairs_chord by lia.
  change (INR 4) with (1 + 1 + 1 + 1). change (INR 3) with (1 + 1 + 1). change (INR 1) with 1. lra.
Qed.
Lemma kite_loop : distinct_loop kite.
Proof. intros i Hi. cbn [kite length] in Hi. destruct i as [|[|[|[|i]]]]; try lia; unfold rdist; cbn; apply sqrt_lt_R0; lra. Qed.


Section C23_schoenberg_whitney_statement.
  Variables (k : list R) (p n : nat).
  Hypothesis Hk : knots_ok p n k.
  Hypothesis Hp : (1 <= p)%nat.
  Notation t := (kf k).
  Hypothesis Hc : interior_cont p n t.
  Hypothesis Hc0 : forall j, (j <= p)%nat -> t j = t 0%nat.
  Hypothesis Hc1 : forall j, (n + 1 <= j <= n + p + 1)%nat -> t j = t (S n).
  Local Notation sf := (sf k p n).

  Theorem C23_schoenberg_whitney : forall (x : nat -> R),
    (forall j, (1 <= j <= n - 1)%nat -> t j < x j < t (j + p + 1)%nat) -> (forall j, (1 <= j)%nat -> (S j <= n - 1)%nat -> x j < x (S j)) ->
    forall w P a b, (b + 1 - a <= w)%nat -> (1 <= a)%nat -> (b <= n - 1)%nat ->
    (forall j, (j < a)%nat -> P j = 0) -> (forall j, (b < j <= n)%nat -> P j = 0) ->
    (forall j, (a <= j <= b)%nat -> sf P (x j) = 0) -> forall j, (j <= n)%nat -> P j = 0.
  Proof. exact (schoenberg_whitney k p n Hk Hp Hc Hc0 Hc1). Qed.
End C23_schoenberg_whitney_statement.
Section C23_case_placed_section.
  Local Hint Extern 0 (Scalar R) => exact (ROps eps0 maxv0) : typeclass_instances.
  Example C23_case_placed : knots_ok 3 4 (iknots stairs 3) /\ interior_cont 3 4 (kf (iknots stairs 3)) /\ (forall j, (j <= 3)%nat -> kf (iknots stairs 3) j = kf (iknots stairs 3) 0) /\ (forall j, (5 <= j <= 8)%nat -> kf (iknots stairs 3) j = kf (iknots stairs 3) 5) /\ forall j, (1 <= j <= 3)%nat -> kf (iknots stairs 3) j < iparam stairs j < kf (iknots stairs 3) (j + 3 + 1).
  Proof. split; [apply (iknots_ok stairs 3 stairs_steps); cbn; lia|]. split; [apply (iknots_interior stairs 3 stairs_steps); cbn; lia|].
    split; [apply iknots_start; cbn; lia|]. split; [apply (iknots_end stairs 3); cbn; lia|]. intros j Hj. apply (iparam_placed stairs 3 stairs_steps); cbn; lia. Qed.
End C23_case_placed_section.
Print Assumptions C23_schoenberg_whitney.

Section C23_interpolate_succeeds_statement.
  Variables eps maxv : R.
  Local Hint Extern 0 (Scalar R) => exact (ROps eps maxv) : typeclass_instances.
  Local Notation steps_above_eps := (steps_above_eps eps).

  Theorem C23_interpolate_succeeds : forall solve D pts p,
    exact_solver solve -> complete_solver solve -> (1 <= D)%nat -> (1 <= p)%nat -> (p + 1 <= length pts)%nat ->
    Forall (fun q => length q = (D - 1)%nat) pts -> distinct_steps pts -> steps_above_eps pts ->
    exists c, try_interpolate solve D pts p = Ok c /\
    curve_ok c /\ cdim c = D /\ cdeg c = p /\ dom0 c = 0 /\ dom1 c = 1 /\
    forall i, (i < length pts)%nat -> point_at c (iparam pts i) = Ok (nth i pts []).
  Proof. first [exact (interpolate_succeeds eps maxv) | exact (interpolate_succeeds eps) | exact interpolate_succeeds]. Qed.
End C23_interpolate_succeeds_statement.
Section C23_case_succeeds_section.
  Local Hint Extern 0 (Scalar R) => exact (ROps eps0 maxv0) : typeclass_instances.
  Example C23_case_succeeds : exact_solver gsolve /\ complete_solver gsolve /\ distinct_steps stairs /\ steps_above_eps eps0 stairs /\ Forall (fun q : list R => length q = (3 - 1)%nat) stairs /\ exists c, try_interpolate gsolve 3 stairs 3 = Ok c /\ point_at c (1 / 4) = Ok [1; 0].
  Proof. split; [exact gsolve_exact|]. split; [exact gsolve_complete|]. split; [exact stairs_steps|]. split; [exact stairs_eps|].
    assert (F : Forall (fun q : list R => length q = (3 - 1)%nat) stairs) by (repeat constructor). split; [exact F|].
    destruct (interpolate_succeeds eps0 maxv0 gsolve 3 stairs 3 gsolve_exact gsolve_complete ltac:(lia) ltac:(lia) ltac:(cbn; lia) F stairs_steps stairs_eps) as (c & E & _ & _ & _ & _ & _ & P).
    exists c. split; [exact E|]. specialize (P 1%nat ltac:(cbn; lia)). cbn [nth stairs] in P. replace (1 / 4) with (iparam stairs 1); [exact P|].
    unfold iparam. change (length stairs - 1)%nat with 4%nat. rewrite !stairs_chord by lia. change (INR 4) with (1 + 1 + 1 + 1). change (INR 1) with 1. lra. Qed.
End C23_case_succeeds_section.
Print Assumptions C23_interpolate_succeeds.

Section C23_interpolate_unique_statement.
  Variables eps maxv : R.
  Local Hint Extern 0 (Scalar R) => exact (ROps eps maxv) : typeclass_instances.
  Local Notation steps_above_eps := (steps_above_eps eps).

  Theorem C23_interpolate_unique : forall solve D pts p,
    exact_solver solve -> (1 <= D)%nat -> (1 <= p)%nat -> (p + 1 <= length pts)%nat ->
    Forall (fun q => length q = (D - 1)%nat) pts -> distinct_steps pts -> steps_above_eps pts ->
    forall c, try_interpolate solve D pts p = Ok c ->
    forall c', curve_ok c' -> cdim c' = D -> cdeg c' = p -> cknots c' = cknots c -> length (cpts c') = length pts ->
    (forall j, (j < length pts)%nat -> cpc c' (D - 1) j = 1) ->
    (forall i, (i < length pts)%nat -> point_at c' (iparam pts i) = Ok (nth i pts [])) -> c' = c.
  Proof. first [exact (interpolate_unique eps maxv) | exact (interpolate_unique eps) | exact interpolate_unique]. Qed.
End C23_interpolate_unique_statement.
Print Assumptions C23_interpolate_unique.

Section C23_periodic_even_quadratic_fails_statement.
  Variables eps maxv : R.
  Local Hint Extern 0 (Scalar R) => exact (ROps eps maxv) : typeclass_instances.

  Theorem C23_periodic_even_quadratic_fails : forall solve D pts l,
    exact_solver solve -> (1 <= D)%nat -> (3 <= length pts)%nat -> Nat.even (length pts) = true ->
    Forall (fun q => length q = (D - 1)%nat) pts -> distinct_loop pts -> 0 < eps <= / INR (length pts - 1) ->
    (l < D - 1)%nat -> rsum (length pts) (fun i => alt i * rc l (nth i pts [])) <> 0 ->
    errs (try_periodic_interpolate solve D pts 2 Uniform).
  Proof. first [exact (periodic_even_quadratic_fails eps maxv) | exact (periodic_even_quadratic_fails eps) | exact periodic_even_quadratic_fails]. Qed.
End C23_periodic_even_quadratic_fails_statement.
Section C23_case_periodic_fails_section.
  Local Hint Extern 0 (Scalar R) => exact (ROps eps0 maxv0) : typeclass_instances.
  Example C23_case_periodic_fails : distinct_loop kite /\ 0 < eps0 <= / INR (length kite - 1) /\ forall solve, exact_solver solve -> errs (try_periodic_interpolate solve 3 kite 2 Uniform).
  Proof. assert (B : 0 < eps0 <= / INR (length kite - 1)).
    { change (INR (length kite - 1)) with (1 + 1 + 1). unfold eps0. lra. }
    split; [exact kite_loop|]. split; [exact B|]. intros solve Hs.
    apply (periodic_even_quadratic_fails eps0 maxv0 solve 3 kite 1 Hs); try exact kite_loop; try exact B; try (cbn; lia); try reflexivity.
    - repeat constructor.
    - unfold alt. cbn. lra. Qed.
End C23_case_periodic_fails_section.
Print Assumptions C23_periodic_even_quadratic_fails.
