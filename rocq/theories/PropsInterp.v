(** * Properties of interpolation and of uniform knot vectors

    Only statements: each theorem is proved elsewhere; its statement is repeated here, followed by
    a concrete case that meets its hypotheses. *)
From Coq Require Import Floats.
From Coq Require Import Reals Lra Lia ZArith List Sorted.
From Verif Require Import Base BaseFacts Scalar RSum BSplineSpec BSpline KnotModel KnotSpec KnotFacts KnotProofs VecFacts CurveModel CurveSpec CurveProofs CurveGeom2 CurveShapes
  InterpModel InterpProofs InterpPeriodic InterpRefuted KnotUniform Demo.
Open Scope R_scope.

(** a solver that knows one answer and checks it *)
Definition check_solver (x : list R) (m : list (list R)) (b : list R) : option (list R) :=
  if (length x =? length m)%nat &&
     forallb (fun i => if Req_EM_T (rsum (length m) (fun j => nth j (nth i m []) 0 * nth j x 0)) (nth i b 0) then true else false) (seq 0 (length m))
  then Some x else None.
Lemma check_exact x : exact_solver (check_solver x).
Proof.
  intros m b y _ _ E. unfold check_solver in E. destruct (_ && _) eqn:G; [|discriminate]. injection E as <-.
  apply andb_prop in G. destruct G as (G1 & G2). apply Nat.eqb_eq in G1. split; [exact G1|]. intros i Hi.
  rewrite forallb_forall in G2. specialize (G2 i ltac:(apply in_seq; lia)). destruct (Req_EM_T _ _); [assumption|discriminate].
Qed.
Lemma check_some x m b : length x = length m ->
  (forall i, (i < length m)%nat -> rsum (length m) (fun j => nth j (nth i m []) 0 * nth j x 0) = nth i b 0) -> check_solver x m b = Some x.
Proof.
  intros L H. unfold check_solver. rewrite (proj2 (Nat.eqb_eq _ _) L). cbn [andb].
  match goal with |- (if ?c then _ else _) = _ => replace c with true; [reflexivity|] end. symmetry. apply forallb_forall.
  intros i Hi. apply in_seq in Hi. destruct (Req_EM_T _ _) as [_|C]; [reflexivity|]. exfalso. apply C, H. lia.
Qed.
Definition ipts : list (list R) := [[0]; [1]; [3]].
Lemma ipts_rd a b : rdist [a] [b] = Rabs (b - a).
Proof. unfold rdist. cbn. unfold rc. cbn. rewrite Rplus_0_l. replace ((a - b) * (a - b)) with (Rsqr (b - a)) by (unfold Rsqr; ring). apply sqrt_Rsqr_abs. Qed.
Lemma ipts_steps : distinct_steps ipts.
Proof.
  intros i Hi. cbn in Hi. destruct i as [|[|i]]; [| |lia]; cbn [nth ipts]; rewrite ipts_rd; unfold Rabs; destruct (Rcase_abs _); lra.
Qed.
Lemma ipts_loop : distinct_loop ipts.
Proof.
  intros i Hi. cbn in Hi. destruct i as [|[|[|i]]]; [| | |lia]; cbn [nth ipts length Nat.modulo Nat.divmod Nat.sub snd];
    rewrite ipts_rd; unfold Rabs; destruct (Rcase_abs _); lra.
Qed.
Lemma ipts_param i : (i < 3)%nat -> iparam ipts i = nth i [0; 1 / 3; 1] 0.
Proof.
  intros Hi. assert (C1 : chord ipts 1 = 1) by (unfold chord; cbn [rsum nth ipts]; rewrite ipts_rd; unfold Rabs; destruct (Rcase_abs _); lra).
  assert (C2 : chord ipts 2 = 3).
  { unfold chord in *. cbn [rsum] in *. rewrite C1. cbn [nth ipts]; rewrite ipts_rd; unfold Rabs; destruct (Rcase_abs _); lra. }
  unfold iparam. change (length ipts - 1)%nat with 2%nat. rewrite C2.
  destruct i as [|[|[|i]]]; [| | |lia]; cbn [nth]; [unfold chord; cbn; lra|rewrite C1; lra|rewrite C2; lra].
Qed.
Ltac q0 := unfold quot0; repeat match goal with |- context [Req_EM_T ?a ?b] => destruct (Req_EM_T a b); [try (exfalso; lra)|try (exfalso; lra)] end.
Lemma interp_case : exists c, try_interpolate (SO := ROps eps0 maxv0) (check_solver [0; 3 / 2; 3]) 2 ipts 2 = Ok c.
Proof.
  assert (Hl : Forall (fun q : list R => length q = (2 - 1)%nat) ipts) by (repeat constructor).
  unfold try_interpolate, try_interpolate_control_points. cbn [length ipts Nat.ltb Nat.leb Nat.add]. fold ipts.
  rewrite (chord_params_eq eps0 maxv0 1) by (cbn; auto; lia). cbn [bind].
  rewrite (averaged_knots_eq eps0 maxv0) by (cbn; lia). cbn [bind usub Nat.leb Nat.sub].
  pose proof (iknots_ok ipts 2 ipts_steps ltac:(lia) ltac:(cbn; lia)) as Hk. cbn [length ipts Nat.sub] in Hk. fold ipts in Hk.
  assert (Row : forall u, exists row, interp_row (SO := ROps eps0 maxv0) (iknots ipts 2) 2 2 0 u = Ok row /\ length row = 3%nat /\
    rsum 3 (fun j => nth j row 0 * nth j [0; 3 / 2; 3] 0) = 3 * u).
  { intros u. destruct (find_span_real eps0 maxv0 _ 2 2 u Hk ltac:(unfold eps0; lra)) as (s & Ef & Hsr & Hne & _).
    assert (s = 2%nat) as -> by lia.
    destruct (interp_row_real eps0 maxv0 _ _ _ _ _ Hk Ef Hsr Hne) as (row & E & L & H). exists row. split; [exact E|]. split; [exact L|].
    cbn [rsum]. rewrite !H by lia. 
    assert (K : kf (iknots ipts 2) = kf [0;0;0;1;1;1]) by reflexivity. rewrite K. cbn [bs Nat.eqb Nat.add nth]. unfold wl, wr, kf. cbn [nth Nat.add last].
    q0; lra. }
  cbn [length ipts seq map]. fold ipts. 
  destruct (Row (iparam ipts 0)) as (r0 & E0 & L0 & S0). destruct (Row (iparam ipts 1)) as (r1 & E1 & L1 & S1).
  destruct (Row (iparam ipts 2)) as (r2 & E2 & L2 & S2).
  cbn [mapM]. change (3 - 3)%nat with 0%nat. rewrite E0. cbn [bind]. rewrite E1. cbn [bind]. rewrite E2. cbn [bind].
  unfold try_solve_interpolation. cbn [get nth_error ipts bind length seq mapM map]. 
  rewrite check_some.
  - cbn [ok_or bind get nth_error length ipts seq mapM map]. eexists. reflexivity.
  - reflexivity.
  - cbn [length]. intros i Hi. destruct i as [|[|[|i]]]; [| | |lia]; (etransitivity; [first [exact S0|exact S1|exact S2]|]);
      rewrite ipts_param by lia; cbn; lra.
Qed.

Lemma ploop_case : exists c, try_periodic_interpolate (SO := ROps eps0 maxv0) (check_solver [0; 1; 3]) 2 ipts 1 Uniform = Ok c.
Proof.
  assert (Hl : Forall (fun q : list R => length q = (2 - 1)%nat) ipts) by (repeat constructor).
  unfold try_periodic_interpolate, try_periodic_interpolate_control_points. cbn [length ipts Nat.ltb Nat.leb Nat.add]. fold ipts.
  rewrite (parameterize_eq eps0 maxv0 1) by (cbn; auto; lia). cbn [bind].
  set (K := [0; 0; 1 / 2; 1; 3 / 2; 3 / 2]).
  assert (EK : periodic_knots (SO := ROps eps0 maxv0) (map (pstep Uniform ipts) (seq 0 (length ipts))) 3 1 = Ok K).
  { unfold periodic_knots. cbn. unfold K, pstep. cbn. do 2 f_equal. repeat (f_equal; try lra). }
  rewrite EK. cbn [bind usub Nat.leb Nat.sub length K].
  assert (Hk : knots_ok 1 3 K) by (unfold K; constructor; cbn; try lia; unfold kf; cbn; try lra; repeat constructor; lra).
  assert (He : eps_ok eps0 1 3 K) by (unfold K, eps_ok, eps0, kf; cbn; lra).
  assert (Row : forall i, (i < 3)%nat -> exists row, periodic_row (SO := ROps eps0 maxv0) K 3 1 1 i = Ok row /\ length row = 3%nat /\
    rsum 3 (fun j => nth j row 0 * nth j [0; 1; 3] 0) = nth i [0; 1; 3] 0).
  { intros i Hi. destruct (find_span_brackets eps0 maxv0 K 1 3 (kf K (i + 1)) Hk He) as (s & Ef & Hsr & Hin).
    { destruct i as [|[|[|i]]]; [| | |lia]; unfold K, kf; cbn; lra. }
    destruct Hin as (Hne & Hin).
    assert (s = (i + 1)%nat) as ->.
    { destruct i as [|[|[|i]]]; [| | |lia]; (destruct s as [|[|[|[|s]]]]; [| | | |lia]); unfold K, kf in Hin, Hne; cbn in Hin, Hne; try reflexivity; try lia; exfalso; intuition (try lia; lra). }
    destruct (periodic_row_real eps0 maxv0 K 1 3 i (i + 1) Hk ltac:(lia) Hi Ef Hsr Hne) as (row & E & L & H).
    exists row. split; [exact E|]. split; [exact L|]. rewrite (H (fun j => nth j [0; 1; 3] 0)).
    cbn [rsum Nat.add]. 
    destruct i as [|[|[|i]]]; [| | |lia]; cbn [bs Nat.eqb Nat.add nth Nat.modulo Nat.divmod Nat.sub snd]; unfold wl, wr, kf, K; cbn [nth Nat.add last]; q0; lra. }
  destruct (Row 0%nat ltac:(lia)) as (r0 & E0 & L0 & S0). destruct (Row 1%nat ltac:(lia)) as (r1 & E1 & L1 & S1).
  destruct (Row 2%nat ltac:(lia)) as (r2 & E2 & L2 & S2).
  cbn [mapM seq]. change (6 - 1 - 2)%nat with 3%nat. change (3 - 2)%nat with 1%nat. rewrite E0. cbn [bind]. rewrite E1. cbn [bind]. rewrite E2. cbn [bind].
  unfold try_solve_interpolation. cbn [get nth_error ipts bind length seq mapM map]. 
  rewrite check_some.
  - cbn [ok_or bind get nth_error length ipts seq mapM map app]. eexists. apply KnotMisc.try_new_sorted; [cbn; lia|reflexivity|]. repeat constructor; lra.
  - reflexivity.
  - cbn [length]. intros i Hi. destruct i as [|[|[|i]]]; [| | |lia]; (etransitivity; [first [exact S0|exact S1|exact S2]|]); reflexivity.
Qed.


Section C23_interpolate_passes_statement.
  Variables eps maxv : R.
  Local Hint Extern 0 (Scalar R) => exact (ROps eps maxv) : typeclass_instances.
  Theorem C23_interpolate_passes : forall solve D pts p,
    exact_solver solve -> 0 < eps -> (1 <= D)%nat -> (1 <= p)%nat -> (p + 1 <= length pts)%nat ->
    Forall (fun q => length q = (D - 1)%nat) pts -> distinct_steps pts ->
    forall c, try_interpolate solve D pts p = Ok c ->
    curve_ok c /\ cdim c = D /\ cdeg c = p /\ dom0 c = 0 /\ dom1 c = 1 /\
    forall i, (i < length pts)%nat -> point_at c (iparam pts i) = Ok (nth i pts []).
  Proof. first [exact (interpolate_passes eps maxv) | exact (interpolate_passes eps) | exact interpolate_passes | exact (interpolate_passes maxv)]. Qed.
End C23_interpolate_passes_statement.
Example C23_case : exact_solver (check_solver [0; 3 / 2; 3]) /\ Forall (fun q : list R => length q = (2 - 1)%nat) ipts /\ distinct_steps ipts /\ exists c, try_interpolate (SO := ROps eps0 maxv0) (check_solver [0; 3 / 2; 3]) 2 ipts 2 = Ok c.
Proof. split; [apply check_exact|]; split; [repeat constructor|]; split; [exact ipts_steps|exact interp_case]. Qed.
Print Assumptions C23_interpolate_passes.

Section C23_interpolate_outcome_statement.
  Variables eps maxv : R.
  Local Hint Extern 0 (Scalar R) => exact (ROps eps maxv) : typeclass_instances.
  Theorem C23_interpolate_outcome : forall solve D pts p,
    exact_solver solve -> 0 < eps -> (1 <= D)%nat -> (1 <= p)%nat -> (p + 1 <= length pts)%nat ->
    Forall (fun q => length q = (D - 1)%nat) pts -> distinct_steps pts ->
    (exists c, try_interpolate solve D pts p = Ok c) \/
    (errs (try_interpolate solve D pts p) /\
    exists m l, length m = length pts /\ (l < D - 1)%nat /\ solve m (map (coord l) pts) = None /\
    (forall i, (i < length pts)%nat -> length (nth i m []) = length pts /\
    rsum (length pts) (fun j => nth j (nth i m []) 0) = 1)).
  Proof. first [exact (interpolate_outcome eps maxv) | exact (interpolate_outcome eps) | exact interpolate_outcome | exact (interpolate_outcome maxv)]. Qed.
End C23_interpolate_outcome_statement.
Print Assumptions C23_interpolate_outcome.

Section C23_interpolate_too_few_statement.
  Variables eps maxv : R.
  Local Hint Extern 0 (Scalar R) => exact (ROps eps maxv) : typeclass_instances.
  Theorem C23_interpolate_too_few : forall solve D (pts : list (list R)) p,
    (length pts < p + 1)%nat -> errs (try_interpolate solve D pts p).
  Proof. first [exact (interpolate_too_few eps maxv) | exact (interpolate_too_few eps) | exact interpolate_too_few | exact (interpolate_too_few maxv)]. Qed.
End C23_interpolate_too_few_statement.
Print Assumptions C23_interpolate_too_few.

Section C23_periodic_interpolate_passes_statement.
  Variables eps maxv : R.
  Local Hint Extern 0 (Scalar R) => exact (ROps eps maxv) : typeclass_instances.
  Theorem C23_periodic_interpolate_passes : forall solve D pts p st,
    exact_solver solve -> 0 < eps -> (1 <= D)%nat -> (1 <= p)%nat -> (p + 1 <= length pts)%nat ->
    Forall (fun q => length q = (D - 1)%nat) pts -> distinct_loop pts ->
    forall c, try_periodic_interpolate solve D pts p st = Ok c ->
    curve_ok c /\ cdim c = D /\ cdeg c = p /\ length (cpts c) = (length pts + p)%nat /\
    dom1 c = dom0 c + rsum (length pts) (pstep st pts) /\
    (forall i, (i < length pts)%nat -> point_at c (dom0 c + rsum i (pstep st pts)) = Ok (nth i pts [])) /\
    (eps <= rsum (length pts) (pstep st pts) ->
    first_point c = Ok (nth 0 pts []) /\ end_point c = Ok (nth 0 pts [])).
  Proof. first [exact (periodic_interpolate_passes eps maxv) | exact (periodic_interpolate_passes eps) | exact periodic_interpolate_passes | exact (periodic_interpolate_passes maxv)]. Qed.
End C23_periodic_interpolate_passes_statement.
Example C23_case_periodic : exact_solver (check_solver [0; 1; 3]) /\ distinct_loop ipts /\ eps0 <= rsum (length ipts) (pstep Uniform ipts) /\ exists c, try_periodic_interpolate (SO := ROps eps0 maxv0) (check_solver [0; 1; 3]) 2 ipts 1 Uniform = Ok c.
Proof. split; [apply check_exact|]; split; [exact ipts_loop|]; split; [unfold pstep, eps0; cbn; lra|exact ploop_case]. Qed.
Print Assumptions C23_periodic_interpolate_passes.

Section C23_periodic_interpolate_too_few_statement.
  Variables eps maxv : R.
  Local Hint Extern 0 (Scalar R) => exact (ROps eps maxv) : typeclass_instances.
  Theorem C23_periodic_interpolate_too_few : forall solve D (pts : list (list R)) p st,
    (length pts < p + 1)%nat -> errs (try_periodic_interpolate solve D pts p st).
  Proof. first [exact (periodic_interpolate_too_few eps maxv) | exact (periodic_interpolate_too_few eps) | exact periodic_interpolate_too_few | exact (periodic_interpolate_too_few maxv)]. Qed.
End C23_periodic_interpolate_too_few_statement.
Print Assumptions C23_periodic_interpolate_too_few.

Section C23_periodic_interpolate_degree_zero_statement.
  Variables eps maxv : R.
  Local Hint Extern 0 (Scalar R) => exact (ROps eps maxv) : typeclass_instances.
  Theorem C23_periodic_interpolate_degree_zero : forall solve D (pts : list (list R)) st,
    (2 <= length pts)%nat -> panics (try_periodic_interpolate solve D pts 0 st).
  Proof. first [exact (periodic_interpolate_degree_zero eps maxv) | exact (periodic_interpolate_degree_zero eps) | exact periodic_interpolate_degree_zero | exact (periodic_interpolate_degree_zero maxv)]. Qed.
End C23_periodic_interpolate_degree_zero_statement.
Print Assumptions C23_periodic_interpolate_degree_zero.

Section C23_interpolate_coincident_refuted_statement.
  Local Existing Instance FOps.
  Local Open Scope float_scope.
  Theorem C23_interpolate_coincident_refuted : exists (pts : list (list float)) (solve : list (list float) -> list float -> option (list float)) c,
    (forall q, In q pts -> q = [1; 2]) /\ try_interpolate solve 3 pts 1 = Ok c /\
    existsb (fun x => negb (x =? x)) (cknots c) = true.
  Proof. exact interpolate_coincident_refuted. Qed.
End C23_interpolate_coincident_refuted_statement.
Print Assumptions C23_interpolate_coincident_refuted.

Section C23_interpolate_degree_zero_refuted_statement.
  Local Existing Instance FOps.
  Local Open Scope float_scope.
  Theorem C23_interpolate_degree_zero_refuted : exists (pts : list (list float)) (solve : list (list float) -> list float -> option (list float)) c,
    try_interpolate solve 2 pts 0 = Ok c /\ existsb (fun x => negb (x =? x)) (cknots c) = true.
  Proof. exact interpolate_degree_zero_refuted. Qed.
End C23_interpolate_degree_zero_refuted_statement.
Print Assumptions C23_interpolate_degree_zero_refuted.

Section C63_uniform_real_statement.
  Variables eps maxv : R.
  Local Hint Extern 0 (Scalar R) => exact (ROps eps maxv) : typeclass_instances.
  Theorem C63_uniform_real : forall n p,
    (2 <= n)%nat ->
    exists k, uniform n p = Ok k /\ length k = (n + 2 * p)%nat /\
    (forall i, (i < n + 2 * p)%nat -> nth i k 0 = INR (Nat.min (i - p) (n - 1))) /\
    knots_ok p (n + p - 2) k /\ domain k p = Ok (0, INR (n - 1)).
  Proof. first [exact (uniform_real eps maxv) | exact (uniform_real eps) | exact uniform_real | exact (uniform_real maxv)]. Qed.
End C63_uniform_real_statement.
Example C63_case : uniform (SO := ROps eps0 maxv0) 3 2 = Ok [0; 0; 0; 1; 2; 2; 2].
Proof. reflexivity. Qed.
Print Assumptions C63_uniform_real.

Section C63_uniform_zero_panics_statement.
  Variables eps maxv : R.
  Local Hint Extern 0 (Scalar R) => exact (ROps eps maxv) : typeclass_instances.
  Theorem C63_uniform_zero_panics : forall p,
    panics (uniform (T := R) 0 p).
  Proof. first [exact (uniform_zero_panics eps maxv) | exact (uniform_zero_panics eps) | exact uniform_zero_panics | exact (uniform_zero_panics maxv)]. Qed.
End C63_uniform_zero_panics_statement.
Print Assumptions C63_uniform_zero_panics.

Theorem C02_find_span_linear_any : forall {T} {SO : Scalar T} (k : list T) n p u,
    (n <= length k)%nat ->
    exists s, find_span_linear k n p u = Ok s /\ (p <= s)%nat /\ (s = p \/ s < n)%nat /\
    (forall i d, (p < i <= s)%nat -> sleb (nth i k d) u = true) /\
    ((n <= S s)%nat \/ (forall d, sleb (nth (S s) k d) u = false)).
Proof. exact (@find_span_linear_any). Qed.
Print Assumptions C02_find_span_linear_any.

Section C02_find_span_linear_real_statement.
  Variables eps maxv : R.
  Local Hint Extern 0 (Scalar R) => exact (ROps eps maxv) : typeclass_instances.
  Theorem C02_find_span_linear_real : forall (k : list R) n p u,
    knots_ok p n k -> kf k p <= u ->
    exists s, find_span_linear k (n + 1) p u = Ok s /\ (p <= s <= n)%nat /\ kf k s <= u /\
    (u < kf k (S s) \/ (s = n /\ kf k (n + 1) <= u) ).
  Proof. first [exact (find_span_linear_real eps maxv) | exact (find_span_linear_real eps) | exact find_span_linear_real | exact (find_span_linear_real maxv)]. Qed.
End C02_find_span_linear_real_statement.
Example C02_case_linear : knots_ok 1 2 [0; 0; 1; 2; 2] /\ find_span_linear (SO := ROps eps0 maxv0) [0; 0; 1; 2; 2] (2 + 1) 1 (3 / 2) = Ok 2%nat.
Proof. split; [constructor; cbn; try lia; unfold kf; cbn; try lra; repeat constructor; lra|]; destruct (find_span_linear_real eps0 maxv0 [0; 0; 1; 2; 2] 2 1 (3 / 2)) as (s & E & Hs & H1 & H2); [constructor; cbn; try lia; unfold kf; cbn; try lra; repeat constructor; lra|unfold kf; cbn; lra|]; rewrite E; f_equal; destruct s as [|[|[|s]]]; try lia; exfalso; unfold kf in H2; cbn in H2; destruct H2 as [H2|(H2 & _)]; [lra|lia]. Qed.
Print Assumptions C02_find_span_linear_real.

Section C02_find_span_linear_differs_refuted_statement.
  Variables eps maxv : R.
  Local Hint Extern 0 (Scalar R) => exact (ROps eps maxv) : typeclass_instances.
  Theorem C02_find_span_linear_differs_refuted : exists (k : list R) n p u s, knots_ok p n k /\ kf k n <= u < kf k (n + 1) /\
    find_span_linear k n p u = Ok s /\ s <> n.
  Proof. first [exact (find_span_linear_differs_refuted eps maxv) | exact (find_span_linear_differs_refuted eps) | exact find_span_linear_differs_refuted | exact (find_span_linear_differs_refuted maxv)]. Qed.
End C02_find_span_linear_differs_refuted_statement.
Print Assumptions C02_find_span_linear_differs_refuted.
