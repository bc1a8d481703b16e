(** * Properties of the tessellation of curves

    Only statements: each theorem is proved elsewhere; its statement is repeated here, followed by
    a concrete case that meets its hypotheses. *)
From Coq Require Import Floats.
From Coq Require Import Reals Lra Lia ZArith Sorted.
From Verif Require Import Base BaseFacts Scalar RSum BSplineSpec BSpline KnotModel KnotSpec KnotFacts VecFacts MiscModel
  CurveModel CurveKnotModel CurveSpec CurveProofs CurveGeom CurveGeom2 CurveShapes CompoundModel
  TessCurveModel TessCurveProofs TessCurveMore TessCurveRefuted Demo.
Open Scope R_scope.

(** the parabola (u, u^2) over [0, 1] and an angle of two edges *)
Definition parabola : Curve R := MkCurve 3 2 [[0; 0; 1]; [1 / 2; 0; 1]; [1; 1; 1]] [0; 0; 0; 1; 1; 1].
Definition corner : Curve R := MkCurve 3 1 [[0; 0; 1]; [3; 0; 1]; [3; 4; 1]] [0; 0; 3; 7; 7].

Lemma parabola_tess : tess_curve eps0 parabola.
Proof.
  constructor.
  - constructor; cbn; try lia; [repeat constructor|]. constructor; cbn; try lia; unfold kf; cbn; try lra; repeat constructor; lra.
  - unfold curve_eps, eps_ok, eps0, kf. cbn. lra.
  - intros j Hj. cbn in Hj. unfold cpc, rc. cbn. destruct j as [|[|[|j]]]; cbn; try lra. lia.
  - left. reflexivity.
Qed.
Lemma parabola_dom : dom0 parabola = 0 /\ dom1 parabola = 1.
Proof. unfold dom0, dom1, kf. cbn. lra. Qed.
Lemma parabola_hcoord i u : 0 <= u <= 1 ->
  hcoord parabola i u = (1 - u) * (1 - u) * cpc parabola i 0 + 2 * u * (1 - u) * cpc parabola i 1 + u * u * cpc parabola i 2.
Proof.
  intros Hu. rewrite (hcoord_any_span parabola 2 i u).
  - cbn [cdeg cpts parabola length cknots]. unfold piece. cbn [rsum bs Nat.eqb Nat.add]. unfold wl, wr, kf. cbn [Nat.add nth last].
    unfold quot0. repeat match goal with |- context [Req_EM_T ?a ?b] => destruct (Req_EM_T a b); [try (exfalso; lra)|try (exfalso; lra)] end. generalize (cpc parabola i 0) (cpc parabola i 1) (cpc parabola i 2). intros. field.
  - apply parabola_tess.
  - intros j H1 H2. cbn in *. lia.
  - cbn. lia.
  - unfold kf. cbn. lra.
  - unfold kf. cbn. lra.
Qed.
Lemma parabola_moves : moves_at_most eps0 maxv0 parabola 3.
Proof.
  intros u v p q Hu Hv Ep Eq. destruct parabola_dom as (D0 & D1). pose proof parabola_tess as Ht.
  assert (V : forall u p, dom0 parabola <= u <= dom1 parabola -> point_at (SO := ROps eps0 maxv0) parabola u = Ok p ->
            length p = 2%nat /\ rc 0 p = u /\ rc 1 p = u * u).
  { clear - D0 D1 Ht. intros u p Hu E. assert (Hu' : 0 <= u <= 1) by lra.
    assert (W : wfun parabola u = 1). { unfold wfun. rewrite parabola_hcoord by auto. unfold cpc, rc. cbn. ring. }
    destruct (point_at_spec eps0 maxv0 parabola u) as (p' & E' & L & H); try apply Ht; auto; [lra|].
    rewrite E in E'. injection E' as <-. split; [exact L|]. rewrite !H by (cbn; lia). unfold nurbs. rewrite W, !parabola_hcoord by auto.
    unfold cpc, rc. cbn. split; field. }
  destruct (V u p Hu Ep) as (Lp & P0 & P1). destruct (V v q Hv Eq) as (Lq & Q0 & Q1).
  unfold sq_dist. rewrite Lp. cbn [rsum]. rewrite P0, P1, Q0, Q1.
  replace (0 + (v - u) * (v - u) + (v * v - u * u) * (v * v - u * u)) with ((1 + (u + v) * (u + v)) * ((u - v) * (u - v))) by ring.
  replace (3 * (u - v) * (3 * (u - v))) with (9 * ((u - v) * (u - v))) by ring.
  apply Rmult_le_compat_r; [apply Rle_0_sqr|]. nra.
Qed.
Lemma corner_ok : curve_ok corner /\ curve_eps eps0 corner /\ curve_cont corner /\ cdeg corner = 1%nat /\
  forall j, (j < length (cpts corner))%nat -> cpc corner (cdim corner - 1) j <> 0.
Proof.
  split; [|split; [|split; [|split]]].
  - constructor; cbn; try lia; [repeat constructor|]. constructor; cbn; try lia; unfold kf; cbn; try lra; repeat constructor; lra.
  - unfold curve_eps, eps_ok, eps0, kf. cbn. lra.
  - intros j H1 H2. cbn in *. assert (j = 2)%nat as -> by lia. unfold kf. cbn. lra.
  - reflexivity.
  - intros j Hj. cbn in Hj. unfold cpc, rc. cbn. destruct j as [|[|[|j]]]; cbn; try lra. lia.
Qed.


Section C36_tessellate_structure_statement.
  Variables eps maxv : R.
  Local Hint Extern 0 (Scalar R) => exact (ROps eps maxv) : typeclass_instances.
  Variable rng : nat -> R.
  Local Notation evaluates := (evaluates eps maxv).
  Local Notation tess_curve := (tess_curve eps).
  Local Notation rng_ok := (rng_ok rng).
  Local Notation moves_at_most := (moves_at_most eps maxv).
  Local Notation flat_chord := (flat_chord eps maxv).
  Theorem C36_tessellate_structure : forall c tolerance,
    tess_curve c -> rng_ok -> cdeg c <> 1%nat ->
    exists fuel0, forall fuel k, (fuel0 <= fuel)%nat -> exists pts k' us, tessellate rng fuel c tolerance k = Ok (pts, k') /\
    evaluates c us pts /\ us <> [] /\ StronglySorted Rlt us /\ (forall u, In u us -> dom0 c <= u <= dom1 c) /\
    dom1 c - tmin < last us (dom0 c).
  Proof. exact (tessellate_structure eps maxv rng). Qed.
End C36_tessellate_structure_statement.
Example C36_case_structure : tess_curve eps0 parabola /\ rng_ok (fun _ => 1 / 2) /\ cdeg parabola <> 1%nat.
Proof. split; [exact parabola_tess|]; split; [intros k; lra|discriminate]. Qed.
Print Assumptions C36_tessellate_structure.

Section C36_tessellate_complete_statement.
  Variables eps maxv : R.
  Local Hint Extern 0 (Scalar R) => exact (ROps eps maxv) : typeclass_instances.
  Variable rng : nat -> R.
  Local Notation evaluates := (evaluates eps maxv).
  Local Notation tess_curve := (tess_curve eps).
  Local Notation rng_ok := (rng_ok rng).
  Local Notation moves_at_most := (moves_at_most eps maxv).
  Local Notation flat_chord := (flat_chord eps maxv).
  Theorem C36_tessellate_complete : forall c tolerance M,
    tess_curve c -> rng_ok -> cdeg c <> 1%nat -> 0 < tol_of tolerance -> moves_at_most c M ->
    (2 * tmin * M) * (2 * tmin * M) < tol_of tolerance -> (2 * tmin * M) * (2 * tmin * M) * ((2 * tmin * M) * (2 * tmin * M)) < tol_of tolerance ->
    tmin <= dom1 c - dom0 c ->
    exists fuel0, forall fuel k, (fuel0 <= fuel)%nat -> exists pts k' us, tessellate rng fuel c tolerance k = Ok (pts, k') /\
    evaluates c us pts /\ (2 <= length us)%nat /\ hd (dom0 c) us = dom0 c /\ last us (dom0 c) = dom1 c /\
    chain (flat_chord c (tol_of tolerance)) us.
  Proof. exact (tessellate_complete eps maxv rng). Qed.
End C36_tessellate_complete_statement.
Example C36_case : tess_curve eps0 parabola /\ moves_at_most eps0 maxv0 parabola 3 /\ (2 * tmin * 3) * (2 * tmin * 3) < 1 / 1000 /\ (2 * tmin * 3) * (2 * tmin * 3) * ((2 * tmin * 3) * (2 * tmin * 3)) < 1 / 1000 /\ tmin <= dom1 parabola - dom0 parabola.
Proof. split; [exact parabola_tess|]; split; [exact parabola_moves|]; destruct parabola_dom as (-> & ->); unfold tmin; lra. Qed.
Print Assumptions C36_tessellate_complete.

Section C36_tessellate_nonpositive_statement.
  Variables eps maxv : R.
  Local Hint Extern 0 (Scalar R) => exact (ROps eps maxv) : typeclass_instances.
  Variable rng : nat -> R.
  Local Notation evaluates := (evaluates eps maxv).
  Local Notation tess_curve := (tess_curve eps).
  Local Notation rng_ok := (rng_ok rng).
  Local Notation moves_at_most := (moves_at_most eps maxv).
  Local Notation flat_chord := (flat_chord eps maxv).
  Theorem C36_tessellate_nonpositive : forall c tol,
    tess_curve c -> rng_ok -> cdeg c <> 1%nat -> tol <= 0 ->
    exists fuel0, forall fuel k, (fuel0 <= fuel)%nat -> exists p k' u, tessellate rng fuel c (Some tol) k = Ok ([p], k') /\
    point_at c u = Ok p /\ dom1 c - tmin < u <= dom1 c.
  Proof. exact (tessellate_nonpositive eps maxv rng). Qed.
End C36_tessellate_nonpositive_statement.
Print Assumptions C36_tessellate_nonpositive.

Section C36_tessellate_degree_one_statement.
  Variables eps maxv : R.
  Local Hint Extern 0 (Scalar R) => exact (ROps eps maxv) : typeclass_instances.
  Theorem C36_tessellate_degree_one : forall rng fuel c tolerance k,
    curve_ok c -> curve_eps eps c -> curve_cont c -> cdeg c = 1%nat ->
    (forall j, (j < length (cpts c))%nat -> cpc c (cdim c - 1) j <> 0) ->
    exists pts, tessellate rng fuel c tolerance k = Ok (pts, k) /\ length pts = length (cpts c) /\
    (forall j, (j < length pts)%nat -> point_at c (kf (cknots c) (S j)) = Ok (nth j pts [])) /\
    kf (cknots c) 1 = dom0 c /\ kf (cknots c) (length pts) = dom1 c.
  Proof. first [exact (tessellate_degree_one eps maxv) | exact (tessellate_degree_one eps) | exact tessellate_degree_one | exact (tessellate_degree_one maxv)]. Qed.
End C36_tessellate_degree_one_statement.
Example C36_case_degree_one : curve_ok corner /\ curve_eps eps0 corner /\ curve_cont corner /\ cdeg corner = 1%nat /\ forall j, (j < length (cpts corner))%nat -> cpc corner (cdim corner - 1) j <> 0.
Proof. exact corner_ok. Qed.
Print Assumptions C36_tessellate_degree_one.

Section C36_join_open_steps_statement.
  Context {A : Type}.
  Implicit Types tess : list (list A).

  Theorem C36_join_open_steps : forall d tess,
    linked d tess -> steps (join_open tess) = flat_map steps tess.
  Proof. exact join_open_steps. Qed.
End C36_join_open_steps_statement.
Example C36_case_open : linked 0%nat [[1; 2; 3]; [3; 4]; [4; 5; 6]]%nat /\ join_open [[1; 2; 3]; [3; 4]; [4; 5; 6]]%nat = [1; 2; 3; 4; 5; 6]%nat.
Proof. cbn; repeat split; discriminate. Qed.
Print Assumptions C36_join_open_steps.

Section C36_join_closed_steps_statement.
  Context {A : Type}.
  Implicit Types tess : list (list A).

  Theorem C36_join_closed_steps : forall d tess,
    linked d tess -> (exists t, In t tess /\ (2 <= length t)%nat) ->
    hd d (join_open tess) = last (join_open tess) d ->
    join_closed tess = join_open tess /\ steps (join_closed tess) = flat_map steps tess /\
    hd d (join_closed tess) = last (join_closed tess) d.
  Proof. exact join_closed_steps. Qed.
End C36_join_closed_steps_statement.
Example C36_case_closed : linked 0%nat [[1; 2; 3]; [3; 4]; [4; 5; 1]]%nat /\ join_closed [[1; 2; 3]; [3; 4]; [4; 5; 1]]%nat = [1; 2; 3; 4; 5; 1]%nat.
Proof. cbn; repeat split; discriminate. Qed.
Print Assumptions C36_join_closed_steps.

Section C36_join_closed_ends_statement.
  Context {A : Type}.
  Implicit Types tess : list (list A).

  Theorem C36_join_closed_ends : forall d tess,
    hd d (join_closed tess) = last (join_closed tess) d.
  Proof. exact join_closed_ends. Qed.
End C36_join_closed_ends_statement.
Print Assumptions C36_join_closed_ends.

Section C36_tessellate_deviates_refuted_statement.
  Local Existing Instance FOps.
  Local Open Scope float_scope.
  Theorem C36_tessellate_deviates_refuted : exists (c : Curve float) rng fuel pts k u p,
    (forall i, rng i = 0) /\ tessellate rng fuel c None 0 = Ok (pts, k) /\ pts = [[0; 0]; [3; 0]] /\
    (0 <? u) = true /\ (u <? 1) = true /\ knots_domain c = Ok (0, 1) /\ point_at c u = Ok p /\ (0.5 <? coord 1 p) = true.
  Proof. exact tessellate_deviates_refuted. Qed.
End C36_tessellate_deviates_refuted_statement.
Print Assumptions C36_tessellate_deviates_refuted.
