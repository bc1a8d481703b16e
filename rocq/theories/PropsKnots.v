(** * Properties of degree elevation and knot removal

    Only statements: each theorem is proved elsewhere; its statement is repeated here, followed by
    a concrete case that meets its hypotheses. *)
From Coq Require Import Reals Lra Lia Psatz ZArith Floats.
From Verif Require Import Base BaseFacts Scalar RSum BSplineSpec BSpline KnotModel KnotSpec KnotFacts VecFacts MiscModel
  CurveModel CurveKnotModel CurveSpec CurveProofs KnotMisc Boehm ElevateModel ElevateProofs RemoveProofs Demo.
Open Scope R_scope.
Local Existing Instance FOps.
Local Open Scope nat_scope.

Section C25_elevate_noop_statement.
  Context {T : Type} {SO : Scalar T}.
  Theorem C25_elevate_noop : forall (c : Curve T) t,
    t <= cdeg c -> try_elevate_degree c t = Ok c.
  Proof. exact elevate_noop. Qed.
End C25_elevate_noop_statement.
Print Assumptions C25_elevate_noop.

Section C25_elevate_by_two_panics_statement.
  Context {T : Type} {SO : Scalar T}.
  Theorem C25_elevate_by_two_panics : forall (c : Curve T) t,
    cdeg c + 2 <= t -> panics (try_elevate_degree c t).
  Proof. exact elevate_by_two_panics. Qed.
End C25_elevate_by_two_panics_statement.
Print Assumptions C25_elevate_by_two_panics.

Theorem C25_elevate_degree_refuted : exists c c', c = el_line /\ point_at c 1%float = Ok [2; 4]%float /\
    try_elevate_degree c 2 = Ok c' /\
    cknots c' = [0; 0; 0; 1; 1; 1; 0; 0; 0]%float /\
    length (cpts c') = 6 /\ nth 5 (cpts c') [] = [0; 0; 0]%float /\
    knots_domain c = Ok (0, 1)%float /\ knots_domain c' = Ok (0, 0)%float /\
    point_at c' 1%float <> point_at c 1%float.
Proof. exact (@elevate_degree_refuted). Qed.
Print Assumptions C25_elevate_degree_refuted.

Theorem C25_elevate_degree_spans_refuted : exists c : Curve float, length (cpts c) = 7 /\
    is_ok (try_new 3 2 (cpts c) (cknots c)) /\ panics (try_elevate_degree c 3).
Proof. exact (@elevate_degree_spans_refuted). Qed.
Print Assumptions C25_elevate_degree_spans_refuted.

Theorem C25_elevate_degree_shape_refuted : exists c', try_elevate_degree el_cubic 4 = Ok c' /\
    cknots c' = [0; 0; 0; 0; 0; 1; 1; 2; 2; 3; 3; 4; 4; 4; 4; 4]%float /\
    cpts c' = [[0; 0; 1]; [1.5; 3; 1]; [2.25; 3.25; 1]; [3.5; 1.9999999999999998; 1]; [5; 2.5; 1]; [6.75; 0.5; 1]; [7.5; 0; 1]; [9; 0; 1];
    [0; 0; 0]; [0; 0; 0]; [0; 0; 0]]%float /\
    point_at c' 2%float = Ok [6.5; 0.875]%float /\
    exists p, point_at el_cubic 2%float = Ok p /\ (coord 0 p <? 4.25)%float = true.
Proof. exact (@elevate_degree_shape_refuted). Qed.
Print Assumptions C25_elevate_degree_shape_refuted.

Section C26_remove_absent_statement.
  Context {T : Type} {SO : Scalar T}.
  Theorem C26_remove_absent : forall (c : Curve T) x tol,
    cpts c <> [] -> (forall k, In k (cknots c) -> seqb k x = false) -> errs (try_remove_knot c x tol).
  Proof. exact remove_absent. Qed.
End C26_remove_absent_statement.
Example C26_case_absent : errs (@try_remove_knot _ FOps (MkCurve 3 1 [[0;0;1];[2;2;1]]%float [0;0;1;1]%float) 0.5%float None).
Proof. vm_compute. eexists. reflexivity. Qed.
Print Assumptions C26_remove_absent.

Section C26_remove_counts_statement.
  Context {T : Type} {SO : Scalar T}.
  Theorem C26_remove_counts : forall (c c' : Curve T) x tol t,
    length (cknots c) = length (cpts c) + cdeg c + 1 -> dimD (cdim c) (cpts c) ->
    try_remove_knot c x tol = Ok (c', t) ->
    cdim c' = cdim c /\ cdeg c' = cdeg c /\ dimD (cdim c) (cpts c') /\
    length (cknots c') + t = length (cknots c) /\ length (cpts c') + t = length (cpts c) /\
    (t = 0 -> c' = c) /\
    exists m s, multiplicity (cknots c) = Ok m /\ knot_count m x = Some s /\ t <= s.
  Proof. exact remove_counts. Qed.
End C26_remove_counts_statement.
Example C26_case_counts : exists c', @try_remove_knot _ FOps (MkCurve 3 1 [[0;0;1];[1;1;1];[2;2;1]]%float [0;0;0.5;1;1]%float) 0.5%float None = Ok (c', 1).
Proof. vm_compute. eexists. reflexivity. Qed.
Print Assumptions C26_remove_counts.

Section C26_remove_tolerance_refuted_statement.
  Local Existing Instance FOps.
  Local Open Scope float_scope.
  Theorem C26_remove_tolerance_refuted : exists (c' : Curve float) (p p' : list float),
    try_remove_knot rm_amp 1023 (Some 1) = Ok (c', 1%nat) /\
    point_at rm_amp 512 = Ok p /\ point_at c' 512 = Ok p' /\ (511 <? coord 1 p' - coord 1 p) = true.
  Proof. exact remove_tolerance_refuted. Qed.
End C26_remove_tolerance_refuted_statement.
Print Assumptions C26_remove_tolerance_refuted.

Section C26_remove_double_refuted_statement.
  Local Existing Instance FOps.
  Local Open Scope float_scope.
  Theorem C26_remove_double_refuted : exists c : Curve float,
    try_refine_knot rm_quad [0.5; 0.5] = Ok c /\ try_remove_knot c 0.5 None = Ok (c, 0%nat).
  Proof. exact remove_double_refuted. Qed.
End C26_remove_double_refuted_statement.
Print Assumptions C26_remove_double_refuted.

Section C26_remove_double_panic_refuted_statement.
  Local Existing Instance FOps.
  Local Open Scope float_scope.
  Theorem C26_remove_double_panic_refuted : exists c : Curve float,
    is_ok (try_new 3 2 (cpts c) (cknots c)) /\ panics (try_remove_knot c 1 (Some 100)).
  Proof. exact remove_double_panic_refuted. Qed.
End C26_remove_double_panic_refuted_statement.
Print Assumptions C26_remove_double_panic_refuted.

Section C26_remove_wrong_knot_refuted_statement.
  Local Existing Instance FOps.
  Local Open Scope float_scope.
  Theorem C26_remove_wrong_knot_refuted : exists c c' : Curve float,
    cknots c = [0;0;0;0.5;1;1;2;2;2] /\ is_ok (try_new 3 2 (cpts c) (cknots c)) /\
    try_remove_knot c 1 (Some 100) = Ok (c', 2%nat) /\ cknots c' = [0;0;0;1;2;2;2] /\
    point_at c 1 = Ok [3; 0] /\ point_at c' 1 = Ok [2.5; 0].
  Proof. exact remove_wrong_knot_refuted. Qed.
End C26_remove_wrong_knot_refuted_statement.
Print Assumptions C26_remove_wrong_knot_refuted.
Local Open Scope R_scope.


Section C26_remove_simple_knot_statement.
  Variables eps maxv : R.
  Local Hint Extern 0 (Scalar R) => exact (ROps eps maxv) : typeclass_instances.
  Theorem C26_remove_simple_knot : forall c r x tol,
    curve_ok c -> 0 <= eps -> separated eps (cknots c) ->
    (1 <= cdeg c)%nat -> simple_knot c r x ->
    exists c' t, try_remove_knot c x (Some tol) = Ok (c', t) /\
    ((t = 0%nat /\ c' = c) \/
    (t = 1%nat /\ curve_ok c' /\ cdim c' = cdim c /\ cdeg c' = cdeg c /\
    cknots c' = firstn r (cknots c) ++ skipn (S r) (cknots c) /\
    forall i u, dom0 c <= u <= dom1 c -> Rabs (hcoord c' i u - hcoord c i u) <= tol * ramp c r)).
  Proof. first [exact (remove_simple_knot eps maxv) | exact (remove_simple_knot eps) | exact remove_simple_knot | exact (remove_simple_knot maxv)]. Qed.
End C26_remove_simple_knot_statement.
Example C26_case : curve_ok demo /\ 0 <= eps0 /\ separated eps0 (cknots demo) /\ (1 <= cdeg demo)%nat /\ simple_knot demo 3 1.
Proof. split; [exact demo_ok|]. split; [unfold eps0; lra|]. split; [exact demo_sep|]. split; [cbn; lia|]. unfold simple_knot, clast, kf. cbn. split; [lia|lra]. Qed.
Print Assumptions C26_remove_simple_knot.

Section C26_remove_odd_degree_statement.
  Variables eps maxv : R.
  Local Hint Extern 0 (Scalar R) => exact (ROps eps maxv) : typeclass_instances.
  Theorem C26_remove_odd_degree : forall c r x tol,
    curve_ok c -> 0 <= eps -> separated eps (cknots c) ->
    Nat.odd (cdeg c) = true -> simple_knot c r x ->
    exists c' t, try_remove_knot c x (Some tol) = Ok (c', t) /\ curve_ok c' /\
    (t <= 1)%nat /\ (0 <= tol -> forall i u, dom0 c <= u <= dom1 c -> Rabs (hcoord c' i u - hcoord c i u) <= tol).
  Proof. first [exact (remove_odd_degree eps maxv) | exact (remove_odd_degree eps) | exact remove_odd_degree | exact (remove_odd_degree maxv)]. Qed.
End C26_remove_odd_degree_statement.
Print Assumptions C26_remove_odd_degree.

Section C26_remove_zero_tolerance_statement.
  Variables eps maxv : R.
  Local Hint Extern 0 (Scalar R) => exact (ROps eps maxv) : typeclass_instances.
  Theorem C26_remove_zero_tolerance : forall c r x,
    curve_ok c -> 0 <= eps -> separated eps (cknots c) ->
    (1 <= cdeg c)%nat -> simple_knot c r x ->
    exists c' t, try_remove_knot c x (Some 0) = Ok (c', t) /\ curve_ok c' /\
    forall i u, dom0 c <= u <= dom1 c -> hcoord c' i u = hcoord c i u.
  Proof. first [exact (remove_zero_tolerance eps maxv) | exact (remove_zero_tolerance eps) | exact remove_zero_tolerance | exact (remove_zero_tolerance maxv)]. Qed.
End C26_remove_zero_tolerance_statement.
Print Assumptions C26_remove_zero_tolerance.

Definition rm_c0 : Curve R := MkCurve 3 1 [[0; 0; 1]; [2; 2; 1]] [0; 0; 1; 1].
Definition rm_c : Curve R := MkCurve 3 1 [[0; 0; 1]; [1; 1; 1]; [2; 2; 1]] [0; 0; 1 / 2; 1; 1].


Section C26_remove_inserted_knot_statement.
  Variables eps maxv : R.
  Local Hint Extern 0 (Scalar R) => exact (ROps eps maxv) : typeclass_instances.
  Theorem C26_remove_inserted_knot : forall c r x tol c0,
    curve_ok c -> 0 <= eps -> separated eps (cknots c) ->
    (1 <= cdeg c)%nat -> simple_knot c r x -> 0 <= tol -> curve_ok c0 -> is_insert c0 (r - 1) x c ->
    try_remove_knot c x (Some tol) = Ok (c0, 1%nat).
  Proof. first [exact (remove_inserted_knot eps maxv) | exact (remove_inserted_knot eps) | exact remove_inserted_knot | exact (remove_inserted_knot maxv)]. Qed.
End C26_remove_inserted_knot_statement.
Example C26_case_inserted : curve_ok rm_c /\ separated eps0 (cknots rm_c) /\ Nat.odd (cdeg rm_c) = true /\
  simple_knot rm_c 2 (1 / 2) /\ curve_ok rm_c0 /\ is_insert rm_c0 1 (1 / 2) rm_c.
Proof. 
  assert (O0 : curve_ok rm_c0) by (constructor; cbn; try lia; [repeat constructor|]; constructor; cbn; try lia; unfold kf; cbn; try lra; repeat constructor; lra).
  assert (O1 : curve_ok rm_c) by (constructor; cbn; try lia; [repeat constructor|]; constructor; cbn; try lia; unfold kf; cbn; try lra; repeat constructor; lra).
  split; [exact O1|]. split; [intros a b Ha Hb; in_cases; first [left; reflexivity | right; unfold eps0; abs_lra]|].
  split; [reflexivity|]. split; [unfold simple_knot, clast, kf; cbn; split; [lia|lra]|]. split; [exact O0|].
  constructor; try reflexivity.
  - cbn. repeat constructor.
  - intros i t Ht. cbn in Ht. assert (t = 0)%nat as -> by lia. unfold cpc, rc. cbn. reflexivity.
  - intros i t H1 H2 H3. cbn in H1, H2. assert (t = 1)%nat as -> by lia. unfold cpc, rc, kf. cbn.
    destruct i as [|[|[|i]]]; cbn; try lra; destruct i; cbn; lra.
  - intros i t Ht. cbn in Ht. assert (t = 2)%nat as -> by lia. unfold cpc, rc. cbn. reflexivity. Qed.
Print Assumptions C26_remove_inserted_knot.
