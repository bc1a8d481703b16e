(** * C87: where curves are not determined by their points *)
From Coq Require Import Reals Lra Lia Sorted.
From Verif Require Import Base BaseFacts Scalar KnotModel RSum BSplineSpec BSpline KnotSpec KnotFacts KnotProofs VecFacts CurveModel CurveSpec CurveProofs
  CurveGeom CurveGeom2 Bernstein BezierTheorems Unique Unique2.
Import ListNotations.
Open Scope R_scope.

(** a polyline whose knot 1 occurs three times: its third control point acts nowhere *)
Definition loose (x : R) : Curve R := MkCurve 2 1 [[0; 1]; [1; 1]; [x; 1]; [3; 1]; [4; 1]] [0; 0; 1; 1; 1; 2; 2].
(** two descriptions of the segment [x(u) = u] *)
Definition seg_plain : Curve R := MkCurve 2 2 [[0; 1]; [1/2; 1]; [1; 1]] [0; 0; 0; 1; 1; 1].
Definition seg_rational : Curve R := MkCurve 2 2 [[0; 1]; [1/2; 3/2]; [2; 2]] [0; 0; 0; 1; 1; 1].

Ltac sorted_lra := repeat (constructor; try lra).

Lemma loose_ok x : curve_ok (loose x).
Proof.
  constructor; cbn; try lia.
  - repeat constructor.
  - constructor; cbn; try lia; try lra. sorted_lra.
Qed.
Lemma seg_plain_ok : curve_ok seg_plain.
Proof.
  constructor; cbn; try lia.
  - repeat constructor.
  - constructor; cbn; try lia; try lra. sorted_lra.
Qed.
Lemma seg_rational_ok : curve_ok seg_rational.
Proof.
  constructor; cbn; try lia.
  - repeat constructor.
  - constructor; cbn; try lia; try lra. sorted_lra.
Qed.

Section Real.
  Variables eps maxv : R.
  Local Hint Extern 0 (Scalar R) => exact (ROps eps maxv) : typeclass_instances.

  Lemma loose_hcoord x y i u : 0 <= u <= 2 -> hcoord (loose x) i u = hcoord (loose y) i u.
  Proof.
    intros Hu. pose proof (loose_ok x) as Hx. pose proof (loose_ok y) as Hy.
    destruct (domain_span (loose x) u Hx) as (s & Hs & Hin); [exact Hu|]. pose proof (in_span_le _ _ _ _ Hin) as Hle. cbn in Hs.
    rewrite <- (piece_hcoord (loose x) s i u Hx Hin) by (cbn; lia). rewrite <- (piece_hcoord (loose y) s i u Hy Hin) by (cbn; lia).
    rewrite !piece_window by (cbn; lia). apply rsum_ext. intros r Hr. cbn [cdeg loose cknots] in *. f_equal. unfold cpc. f_equal.
    assert (C : s = 1%nat \/ s = 4%nat).
    { destruct Hin as (N & _). destruct s as [|[|[|[|[|s]]]]]; try lia; exfalso; cbn in N; lra. }
    destruct C as [-> | ->]; destruct r as [|[|r]]; try lia; reflexivity.
  Qed.

  Theorem loose_points x y u : 0 < eps <= 1 -> 0 <= u <= 2 -> point_at (loose x) u = point_at (loose y) u.
  Proof.
    intros He Hu. apply (point_at_transfer eps maxv); auto using loose_ok.
    - split; [lra|]. cbn. split; lra.
    - split; [lra|]. cbn. split; lra.
    - intros i. now apply loose_hcoord.
  Qed.

  (** with a knot of multiplicity [degree + 2] different control polygons have the same points *)
  Theorem points_determine_curve_refuted : 0 < eps <= 1 ->
    exists c c', curve_ok c /\ curve_eps eps c /\ curve_ok c' /\ weight_one c /\ weight_one c' /\
      cdim c' = cdim c /\ cdeg c' = cdeg c /\ cknots c' = cknots c /\
      (forall u, dom0 c <= u <= dom1 c -> point_at c' u = point_at c u) /\ c' <> c.
  Proof.
    intros He. exists (loose 2), (loose 7). split; [apply loose_ok|]. split; [split; [lra|]; cbn; split; lra|]. split; [apply loose_ok|].
    split; [repeat constructor|]. split; [repeat constructor|]. split; [reflexivity|]. split; [reflexivity|]. split; [reflexivity|].
    split; [intros u Hu; apply loose_points; auto|]. intros E. injection E as E. lra.
  Qed.

  Lemma pos_list c : Forall (fun p => 0 < rc (cdim c - 1) p) (cpts c) -> pos_weights c.
  Proof. intros H j Hj. rewrite Forall_forall in H. apply H, nth_In, Hj. Qed.

  Lemma seg_plain_pos : pos_weights seg_plain.
  Proof. apply pos_list. cbn. repeat constructor; cbn; lra. Qed.
  Lemma seg_rational_pos : pos_weights seg_rational.
  Proof. apply pos_list. cbn. repeat constructor; cbn; lra. Qed.

  Lemma quad_sum (f : nat -> R) t : rsum 3 (fun j => bernstein 2 j t * f j) = (1 - t) ^ 2 * f 0%nat + 2 * t * (1 - t) * f 1%nat + t ^ 2 * f 2%nat.
  Proof. unfold bernstein. cbn [rsum pascal Nat.add Nat.sub pow]. simpl INR. ring. Qed.

  Lemma seg_at c u : 0 < eps <= 1 -> 0 <= u <= 1 -> c = seg_plain \/ c = seg_rational -> point_at c u = Ok [u].
  Proof.
    intros He Hu Hcc.
    assert (Hc : curve_ok c) by (destruct Hcc as [-> | ->]; [apply seg_plain_ok|apply seg_rational_ok]).
    assert (Hw : pos_weights c) by (destruct Hcc as [-> | ->]; [apply seg_plain_pos|apply seg_rational_pos]).
    assert (Hb : is_bezier c 0 1) by (destruct Hcc as [-> | ->]; (split; [lra|]; split; reflexivity)).
    assert (Ed : cdeg c = 2%nat /\ cdim c = 2%nat) by (destruct Hcc as [-> | ->]; split; reflexivity). destruct Ed as (Ep & Ed).
    destruct (bezier_point_at eps maxv c 0 1 u Hc Hb ltac:(lra) ltac:(lra) Hu Hw) as (W & q & E & L & H).
    rewrite E. f_equal. rewrite Ed in L. apply (vec_ext _ _ 1); [exact L|reflexivity|]. intros i Hi. assert (i = 0%nat) as -> by lia.
    rewrite H by lia. clear H. rewrite Ep, Ed in *. replace ((u - 0) / (1 - 0)) with u in * by field.
    rewrite (quad_sum (cpc c (2 - 1)) u) in *. rewrite (quad_sum (cpc c 0) u).
    unfold rc. cbn [nth]. destruct Hcc as [-> | ->]; unfold cpc, rc in *; cbn [nth cpts seg_plain seg_rational Nat.sub] in *; field; lra.
  Qed.

  (** with weights, different control polygons on the same knots have the same points *)
  Theorem rational_points_refuted : 0 < eps <= 1 ->
    exists c c', curve_ok c /\ curve_eps eps c /\ curve_ok c' /\ pos_weights c /\ pos_weights c' /\ low_mult c /\
      cdim c' = cdim c /\ cdeg c' = cdeg c /\ cknots c' = cknots c /\
      (forall u, dom0 c <= u <= dom1 c -> point_at c' u = point_at c u) /\ c' <> c.
  Proof.
    intros He. exists seg_plain, seg_rational. split; [apply seg_plain_ok|]. split; [split; [lra|]; cbn; split; lra|]. split; [apply seg_rational_ok|].
    split; [apply seg_plain_pos|]. split; [apply seg_rational_pos|].
    split; [intros x Hx; cbn in *; repeat (destruct (Req_EM_T _ x); [lra|]); lia|].
    split; [reflexivity|]. split; [reflexivity|]. split; [reflexivity|].
    split; [intros u Hu; cbn in Hu; rewrite !seg_at; auto|]. intros E. injection E. intros. lra.
  Qed.
End Real.
