(** * Variation diminution

    Only statements: each theorem is proved elsewhere; its statement is repeated here, followed by
    a concrete case that meets its hypotheses. *)
From Coq Require Import Reals Lra Lia Psatz ZArith List String.
From Verif Require Import Base BaseFacts Scalar RSum BSplineSpec BSpline KnotModel KnotSpec KnotFacts VecFacts CurveModel CurveKnotModel CurveSpec CurveProofs CurveGeom CurveGeom2
  VariationDim Demo.
Import ListNotations.
Local Open Scope R_scope.


(** heights of the example curve: 0 at both ends and 5/3 at the inner knot *)
Section Heights.
  Local Hint Extern 0 (Scalar R) => exact (ROps eps0 maxv0) : typeclass_instances.
  Lemma demo_height : exists p0 p1 p2, point_at demo 0 = Ok p0 /\ point_at demo 1 = Ok p1 /\ point_at demo 2 = Ok p2 /\
    rc 1 p0 = 0 /\ rc 1 p1 = 5 / 3 /\ rc 1 p2 = 0.
  Proof.
    destruct demo_dom as (D0 & D1).
    assert (P : forall u, 0 <= u <= 2 -> exists p, point_at demo u = Ok p /\ rc 1 p = nurbs demo 1 u).
    { intros u Hu. destruct (point_at_spec eps0 maxv0 demo u demo_ok demo_eps) as (p & E & _ & V); [lra| |].
      - apply Rgt_not_eq. apply (wfun_pos eps0 maxv0 demo u demo_ok demo_eps demo_pos). lra.
      - exists p. split; [exact E|]. apply V. cbn. lia. }
    destruct (P 0 ltac:(lra)) as (p0 & E0 & V0). destruct (P 1 ltac:(lra)) as (p1 & E1 & V1). destruct (P 2 ltac:(lra)) as (p2 & E2 & V2).
    exists p0, p1, p2. split; [exact E0|]. split; [exact E1|]. split; [exact E2|]. rewrite V0, V1, V2. unfold nurbs, wfun.
    assert (S0 : forall i, hcoord demo i 0 = cpc demo i 0).
    { intros i. rewrite <- D0. apply (hcoord_start demo i demo_ok). intros j Hj. cbn in Hj.
      destruct j as [|[|[|j]]]; [reflexivity|reflexivity|reflexivity|lia]. }
    assert (S2 : forall i, hcoord demo i 2 = cpc demo i 3).
    { intros i. rewrite <- D1. change 3%nat with (clast demo). apply (hcoord_end demo i demo_ok). intros j Hj. cbn in Hj. unfold kf.
      destruct j as [|[|[|[|[|[|[|j]]]]]]]; try lia; reflexivity. }
    assert (S1 : forall i, hcoord demo i 1 = cpc demo i 1 / 2 + cpc demo i 2 / 2).
    { intros i. rewrite <- (piece_hcoord demo 3 i 1 demo_ok); [|unfold in_span, kf; cbn; lra|cbn; lia]. unfold piece.
      cbn [length cpts demo rsum cdeg bs Nat.eqb Nat.add]. unfold wl, wr, quot0, kf. cbn [nth last demo cknots Nat.add].
      repeat destruct (Req_EM_T _ _); try lra; field. }
    rewrite !S0, !S1, !S2. unfold cpc, rc. cbn. repeat split; lra.
  Qed.
  Lemma side_height d p : side [0; 1] d p = rc 1 p - d.
  Proof. unfold side. cbn. unfold rc. cbn. ring. Qed.
End Heights.


Section C84_variation_diminishing_statement.
  Variables eps maxv : R.
  Local Hint Extern 0 (Scalar R) => exact (ROps eps maxv) : typeclass_instances.

  Theorem C84_variation_diminishing : forall c n d m (us : nat -> R) (ps : nat -> list R),
    curve_ok c -> curve_eps eps c -> pos_weights c -> length n = (cdim c - 1)%nat ->
    (forall j, (j < m)%nat -> dom0 c <= us j <= dom1 c /\ point_at c (us j) = Ok (ps j)) ->
    (forall j, (S j < m)%nat -> us j < us (S j)) ->
    (forall j, (j < m)%nat -> side n d (ps j) <> 0) ->
    (forall j, (S j < m)%nat -> side n d (ps j) * side n d (ps (S j)) < 0) ->
    exists e : nat -> nat, (forall j, (j < m)%nat -> (e j < length (cpts c))%nat /\ 0 < side n d (control_point c (e j)) * side n d (ps j)) /\
    (forall j, (S j < m)%nat -> (e j < e (S j))%nat).
  Proof. first [exact (variation_diminishing eps maxv) | exact (variation_diminishing eps) | exact variation_diminishing]. Qed.
End C84_variation_diminishing_statement.
Section C84_case_section.
  Local Hint Extern 0 (Scalar R) => exact (ROps eps0 maxv0) : typeclass_instances.
  Example C84_case : exists e, (e 0 < e 1 < e 2)%nat /\ (e 2 < 4)%nat /\ side [0; 1] (1 / 2) (control_point demo (e 0%nat)) < 0 < side [0; 1] (1 / 2) (control_point demo (e 1%nat)).
  Proof. destruct demo_height as (p0 & p1 & p2 & E0 & E1 & E2 & H0 & H1 & H2). destruct demo_dom as (D0 & D1).
    destruct (variation_diminishing eps0 maxv0 demo [0; 1] (1 / 2) 3 (fun j => nth j [0; 1; 2] 0) (fun j => nth j [p0; p1; p2] []) demo_ok demo_eps demo_pos eq_refl) as (e & A & B).
    - intros j Hj. destruct j as [|[|[|j]]]; [| | |lia]; cbn [nth]; (split; [lra|assumption]).
    - intros j Hj. destruct j as [|[|j]]; [| |lia]; cbn [nth]; lra.
    - intros j Hj. rewrite side_height. destruct j as [|[|[|j]]]; [| | |lia]; cbn [nth]; lra.
    - intros j Hj. rewrite !side_height. destruct j as [|[|j]]; [| |lia]; cbn [nth]; rewrite ?H0, ?H1, ?H2; lra.
    - exists e. pose proof (B 0%nat ltac:(lia)). pose proof (B 1%nat ltac:(lia)). destruct (A 0%nat ltac:(lia)) as (A1 & A2). destruct (A 1%nat ltac:(lia)) as (A3 & A4). destruct (A 2%nat ltac:(lia)) as (A5 & A6).
      split; [lia|]. split; [exact A5|]. cbn [nth] in *. rewrite (side_height _ p0) in A2. rewrite (side_height _ p1) in A4. rewrite H0 in A2. rewrite H1 in A4. lra. Qed.
End C84_case_section.
Print Assumptions C84_variation_diminishing.

Section C84_monotone_control_statement.
  Variables eps maxv : R.
  Local Hint Extern 0 (Scalar R) => exact (ROps eps maxv) : typeclass_instances.

  Theorem C84_monotone_control : forall c n u v p q,
    curve_ok c -> curve_eps eps c -> pos_weights c -> length n = (cdim c - 1)%nat ->
    (forall t, (S t < length (cpts c))%nat -> side n 0 (control_point c t) <= side n 0 (control_point c (S t))) ->
    dom0 c <= u -> u <= v -> v <= dom1 c -> point_at c u = Ok p -> point_at c v = Ok q ->
    side n 0 p <= side n 0 q.
  Proof. first [exact (monotone_control eps maxv) | exact (monotone_control eps) | exact monotone_control]. Qed.
End C84_monotone_control_statement.
Section C84_case_monotone_section.
  Local Hint Extern 0 (Scalar R) => exact (ROps eps0 maxv0) : typeclass_instances.
  Example C84_case_monotone : forall u v p q, 0 <= u -> u <= v -> v <= 2 -> point_at demo u = Ok p -> point_at demo v = Ok q -> rc 0 p <= rc 0 q.
  Proof. intros u v p q Hu Huv Hv Ep Eq. destruct demo_dom as (D0 & D1).
    assert (Hs : forall x, side [1; 0] 0 x = rc 0 x) by (intros x; unfold side; cbn; unfold rc; cbn; ring).
    rewrite <- !Hs. apply (monotone_control eps0 maxv0 demo [1; 0] u v p q demo_ok demo_eps demo_pos eq_refl); try lra; auto.
    intros t Ht. rewrite !Hs. cbn in Ht. unfold control_point, cpc, rc. destruct t as [|[|[|t]]]; cbn; try lra. lia. Qed.
End C84_case_monotone_section.
Print Assumptions C84_monotone_control.
