(** * A closed cubic and a point inside it: the hypotheses of the containment theorems are met *)
From Coq Require Import Reals Lra Lia ZArith List Sorted.
From Verif Require Import Base BaseFacts Scalar RSum BSplineSpec BSpline KnotModel KnotSpec KnotFacts KnotProofs
     VecFacts CurveModel CurveKnotModel CurveSpec CurveProofs CurveGeom CurveGeom2 Boehm Refine KnotMisc
     SplitModel SplitProofs BBoxModel BBoxProofs TraversalModel TraversalProofs TraversalCurve CurveShapes SurfaceShapes
     CompoundModel IntersectModel IntersectProofs ClosestModel ContainsModel CrossingSpec CrossingProofs ContainsProofs ContainsMain ContainsTheorems Demo.
Import ListNotations.
Local Open Scope R_scope.

(** a drop: x = y (1 - 2 u), y = 3 u (1 - u) *)
Definition drop : Curve R := MkCurve 3 3 [[0; 0; 1]; [1; 1; 1]; [-1; 1; 1]; [0; 0; 1]] [0; 0; 0; 0; 1; 1; 1; 1].

Lemma bern3 u : 0 <= u <= 1 ->
  cox_closed (kf [0; 0; 0; 0; 1; 1; 1; 1]) 1 3 0 u = (1 - u) * (1 - u) * (1 - u) /\
  cox_closed (kf [0; 0; 0; 0; 1; 1; 1; 1]) 1 3 1 u = 3 * u * (1 - u) * (1 - u) /\
  cox_closed (kf [0; 0; 0; 0; 1; 1; 1; 1]) 1 3 2 u = 3 * u * u * (1 - u) /\
  cox_closed (kf [0; 0; 0; 0; 1; 1; 1; 1]) 1 3 3 u = u * u * u.
Proof.
  intros Hu. set (k := [0; 0; 0; 0; 1; 1; 1; 1]).
  assert (E3 : kf k 3 = 0) by reflexivity. assert (E4 : kf k 4 = 1) by reflexivity.
  assert (C : forall a, cox_closed (kf k) 1 3 a u = bs (kf k) 3 3 a u).
  { intros a. apply (cox_closed_bs _ _ 3); rewrite ?E3, ?E4; try lra; auto.
    - apply sorted_mono. unfold k. repeat constructor; lra.
    - destruct (Rlt_le_dec u 1); [left; lra|right; split; [reflexivity|lra]]. }
  rewrite !C. cbn [bs]. unfold wl, wr. cbn [Nat.add Nat.eqb].
  change (kf k 0) with 0. change (kf k 1) with 0. change (kf k 2) with 0. change (kf k 3) with 0. change (kf k 4) with 1. change (kf k 5) with 1. change (kf k 6) with 1. change (kf k 7) with 1.
  replace (1 - 0) with 1 by lra. rewrite !quot0_1. repeat split; ring.
Qed.

Lemma drop_nurbs u : 0 <= u <= 1 -> nurbs drop 0 u = 3 * u * (1 - u) * (1 - 2 * u) /\ nurbs drop 1 u = 3 * u * (1 - u).
Proof.
  intros Hu. destruct (bern3 u Hu) as (B0 & B1 & B2 & B3). unfold nurbs, wfun, hcoord. cbn [drop cpts length cdim Nat.sub cknots cdeg].
  change (dom1 drop) with 1. cbn [rsum]. rewrite B0, B1, B2, B3. unfold cpc, rc. cbn [drop cpts nth].
  split; field; nra.
Qed.

Definition opts : @Options R := MkOptions (1 / 100000) 64 (1 / 100000000) (1 / 10000000000) 200.
Definition half (k : nat) : R := 1 / 2.

Lemma drop_ok : curve_ok drop.
Proof. constructor; cbn; try lia; [repeat constructor|]; constructor; cbn; try lia; unfold kf; cbn; try lra; repeat constructor; lra. Qed.
Lemma drop_box : box_curve eps0 maxv0 drop.
Proof.
  constructor.
  - exact drop_ok.
  - unfold curve_eps, eps_ok, eps0, kf. cbn. lra.
  - intros j Hj. cbn in Hj. unfold cpc, rc. cbn. destruct j as [|[|[|[|j]]]]; cbn; try lra. lia.
  - intros i j Hi Hj. cbn in Hi, Hj. unfold cpc, rc, maxv0.
    destruct i as [|[|i]]; [| |lia]; (destruct j as [|[|[|[|j]]]]; [| | | |lia]); cbn; abs_lra.
Qed.

(** where the drop is level with the point (0, 1/2), up to the tolerance of the bisection *)
Lemma drop_level u : 0 <= u <= 1 -> Rabs (nurbs drop 1 u - 1 / 2) < 1 / 100 -> 2 / 10 <= u <= 23 / 100 \/ 77 / 100 <= u <= 8 / 10.
Proof.
  intros Hu H. destruct (drop_nurbs u Hu) as (_ & E). rewrite E in H. apply Rabs_def2 in H.
  destruct (Rlt_dec u (1 / 2)).
  - left. split; nra.
  - right. split; nra.
Qed.
Lemma drop_right v : 1 / 10 <= v <= 4 / 10 -> 3 / 100 <= nurbs drop 0 v.
Proof.
  intros Hv. destruct (drop_nurbs v ltac:(lra)) as (E & _). rewrite E. assert (9 / 100 <= v * (1 - v)) by nra.
  replace (3 * v * (1 - v) * (1 - 2 * v)) with (3 * (v * (1 - v)) * (1 - 2 * v)) by ring. nra.
Qed.
Lemma drop_left v : 6 / 10 <= v <= 9 / 10 -> nurbs drop 0 v <= - (3 / 100).
Proof.
  intros Hv. destruct (drop_nurbs v ltac:(lra)) as (E & _). rewrite E. assert (9 / 100 <= v * (1 - v)) by nra.
  replace (3 * v * (1 - v) * (1 - 2 * v)) with (- (3 * (v * (1 - v)) * (2 * v - 1))) by ring. nra.
Qed.

Lemma drop_dom : dom0 drop = 0 /\ dom1 drop = 1.
Proof. split; reflexivity. Qed.

Lemma drop_lipschitz : height_lipschitz drop 3.
Proof.
  destruct drop_dom as (D0 & D1). intros u v Hu Hv. rewrite D0, D1 in *.
  destruct (drop_nurbs u Hu) as (_ & Eu). destruct (drop_nurbs v Hv) as (_ & Ev). rewrite Eu, Ev.
  replace (3 * u * (1 - u) - 3 * v * (1 - v)) with (3 * ((u - v) * (1 - u - v))) by ring.
  rewrite Rabs_mult, (Rabs_pos_eq 3) by lra. rewrite Rabs_mult.
  assert (Rabs (1 - u - v) <= 1) by (apply Rabs_le; lra). pose proof (Rabs_pos (u - v)). nra.
Qed.

Lemma piece_size_drop : piece_size drop opts = 1 / 64.
Proof. unfold piece_size. destruct drop_dom as (-> & ->). cbn [op_div opts]. replace (INR 64) with 64 by (cbn; lra). lra. Qed.

Lemma drop_side : one_sided drop 0 (1 / 2) (1 / 64).
Proof.
  destruct drop_dom as (D0 & D1). intros s t u Hs Hu Ht Hst Eu. rewrite D0, D1 in *.
  destruct (drop_level u ltac:(lra)) as [H|H].
  - rewrite Eu. replace (1 / 2 - 1 / 2) with 0 by lra. rewrite Rabs_R0. lra.
  - left. intros v Hv. pose proof (drop_right v ltac:(lra)). lra.
  - right. intros v Hv. pose proof (drop_left v ltac:(lra)). lra.
Qed.

Lemma drop_apart : crossings_apart drop 0 (1 / 2) (1 / 100000) (1 / 64).
Proof.
  destruct drop_dom as (D0 & D1). intros s t s' t' u v H1 H2 H3 H4 H5 L1 L2 C1 C2 A1 A2 X1 X2. rewrite D0, D1 in *. exfalso.
  destruct (drop_level u ltac:(lra) ltac:(lra)) as [U|U]; [|pose proof (drop_left u ltac:(lra)); lra].
  destruct (drop_level v ltac:(lra) ltac:(lra)) as [V|V]; [|pose proof (drop_left v ltac:(lra)); lra].
  (* the height increases over both pieces: the end of the first one is not above the start of the second *)
  destruct (drop_nurbs s ltac:(lra)) as (_ & Es). destruct (drop_nurbs t ltac:(lra)) as (_ & Et).
  destruct (drop_nurbs s' ltac:(lra)) as (_ & Es'). destruct (drop_nurbs t' ltac:(lra)) as (_ & Et').
  unfold above in *. rewrite Es, Et in C1. rewrite Es', Et' in C2.
  assert (I : forall a b, 0 <= a -> a <= b -> b <= 1 / 2 -> 3 * a * (1 - a) <= 3 * b * (1 - b)) by (intros; nra).
  pose proof (I s t ltac:(lra) ltac:(lra) ltac:(lra)). pose proof (I t s' ltac:(lra) ltac:(lra) ltac:(lra)). pose proof (I s' t' ltac:(lra) ltac:(lra) ltac:(lra)).
  destruct (Rlt_dec (1 / 2) (3 * t * (1 - t))) as [C|C].
  - apply C2. split; lra.
  - apply C1. split; lra.
Qed.

Lemma drop_clear : clear_of eps0 maxv0 half drop 0 (1 / 2) opts.
Proof.
  constructor; rewrite ?piece_size_drop.
  - exact drop_box.
  - reflexivity.
  - intros i j Hi Hj. cbn in Hj. unfold cpc, rc, maxv0.
    destruct i as [|[|i]]; [| |lia]; (destruct j as [|[|[|[|j]]]]; [| | | |lia]); cbn; abs_lra.
  - exists 3. split; [exact drop_lipschitz|]. cbn [op_iters op_min opts].
    assert (H : 2 ^ 13 <= 2 ^ 200) by (apply Rle_pow; [lra|lia]).
    assert (K : 2 ^ 13 = 8192) by (cbn; lra). rewrite K in H. set (z := 2 ^ 200) in *. clearbody z.
    apply Rmult_lt_reg_r with z; [lra|]. unfold Rdiv. rewrite Rmult_assoc, Rinv_l by lra. lra.
  - exact drop_side.
  - exact drop_apart.
  - apply bezier_divisions.
    + intros k. unfold half. lra.
    + exact drop_box.
    + split; reflexivity.
    + unfold eps0. lra.
Qed.

Lemma drop_width : has_width [drop].
Proof.
  exists drop, drop, 0, (2 / 10). destruct drop_dom as (D0 & D1). rewrite D0, D1.
  destruct (drop_nurbs 0 ltac:(lra)) as (E0 & _). destruct (drop_nurbs (2 / 10) ltac:(lra)) as (E1 & _). rewrite E0, E1.
  repeat split; try (now left); lra.
Qed.
Lemma drop_in : in_control_box [drop] [0; 1 / 2].
Proof.
  intros [|[|i]] Hi; [| |lia]; (split; [exists drop, 0%nat|exists drop, 1%nat]); (split; [now left|split; [cbn; lia|]]);
    unfold cpc, rc; cbn; lra.
Qed.

Local Hint Extern 0 (Scalar R) => exact (ROps eps0 maxv0) : typeclass_instances.
Lemma drop_closed : is_closed drop = Ok true.
Proof.
  unfold is_closed. assert (Ec : curve_is_clamped drop = Ok true).
  { destruct (is_clamped_iff eps0 maxv0 (cknots drop) 3) as (b & E & Hb).
    - unfold eps0. lra.
    - cbn. repeat constructor; lra.
    - intros x y Hx Hy. unfold eps0. cbn in Hx, Hy.
      destruct Hx as [<-|[<-|[<-|[<-|[<-|[<-|[<-|[<-|[]]]]]]]]]; destruct Hy as [<-|[<-|[<-|[<-|[<-|[<-|[<-|[<-|[]]]]]]]]]; auto; right; abs_lra.
    - cbn. lia.
    - unfold curve_is_clamped. change (cdeg drop) with 3%nat. rewrite E. f_equal. apply Hb.
      split; intros j Hj; destruct j as [|[|[|[|j]]]]; try lia; reflexivity. }
  rewrite Ec. cbn [bind]. rewrite (affine_ok eps0 maxv0) by (auto using drop_box). cbn [bind].
  unfold affine_pts. cbn -[Rdiv vnorm vsub sltb seps smul sofnat]. 
  rewrite (vnorm_rdist eps0 maxv0) by reflexivity. unfold rdist. rs. cbn [length rsum map]. unfold rc. cbn [nth].
  match goal with |- context [sqrt ?x] => replace x with 0 by ring end. rewrite sqrt_0.
  rewrite (sofnat_INR eps0 maxv0). f_equal. apply Rltb_true. unfold eps0. cbn. lra.
Qed.

(** one crossing to the right: the point is inside *)
Lemma drop_parity : crossing_parity (nurbs drop 0) (nurbs drop 1) 0 (1 / 2) (dom0 drop) (dom1 drop) true.
Proof.
  destruct drop_dom as (-> & ->). exists [(0, 1 / 2); (1 / 2, 1)], 1%nat.
  assert (E0 : nurbs drop 1 0 = 0) by (rewrite (proj2 (drop_nurbs 0 ltac:(lra))); ring).
  assert (E1 : nurbs drop 1 1 = 0) by (rewrite (proj2 (drop_nurbs 1 ltac:(lra))); ring).
  assert (E2 : nurbs drop 1 (1 / 2) = 3 / 4) by (rewrite (proj2 (drop_nurbs (1 / 2) ltac:(lra))); field).
  assert (Lv : forall u, 0 <= u <= 1 -> nurbs drop 1 u = 1 / 2 -> 2 / 10 <= u <= 23 / 100 \/ 77 / 100 <= u <= 8 / 10).
  { intros u Hu Eu. apply drop_level; auto. rewrite Eu. replace (1 / 2 - 1 / 2) with 0 by lra. rewrite Rabs_R0. lra. }
  assert (Rt : level_right (nurbs drop 0) (nurbs drop 1) 0 (1 / 2) 0 (1 / 2)).
  { intros u Hu Eu. destruct (Lv u ltac:(lra) Eu) as [H|H]; [|lra]. pose proof (drop_right u ltac:(lra)). lra. }
  assert (Lt : level_left (nurbs drop 0) (nurbs drop 1) 0 (1 / 2) (1 / 2) 1).
  { intros u Hu Eu. destruct (Lv u ltac:(lra) Eu) as [H|H]; [lra|]. pose proof (drop_left u ltac:(lra)). lra. }
  split; [cbn; lra|]. split.
  { intros s t [E|[E|[]]]; injection E as <- <-; auto. }
  split; [|reflexivity]. apply tally_yes; [|apply tally_no; [|constructor]].
  - split; [|exact Rt]. cbn [fst snd]. unfold above. rewrite E0, E2. lra.
  - intros (Hc & Hr). cbn [fst snd] in *.
    destruct (lipschitz_ivt (nurbs drop 1) 3 0 1 (1 / 2)) with (s := 1 / 2) (t := 1) as (u & Hu & Eu); try lra.
    + exact drop_lipschitz.
    + specialize (Hr u Hu Eu). specialize (Lt u Hu Eu). lra.
Qed.

(** the answer for the drop *)
Lemma drop_contains : exists fuel0, forall fuel, (fuel0 <= fuel)%nat ->
  curve_contains half fuel drop [0; 1 / 2] (Some opts) =
    near_or eps0 maxv0 (find_closest_point drop [0; 1 / 2]) [0; 1 / 2] (Some opts) true.
Proof.
  destruct (curve_contains_parity eps0 maxv0 half drop 0 (1 / 2) (Some opts)) as (fuel0 & b & P & E).
  - cbn. lia.
  - cbn. lia.
  - exact drop_clear.
  - intros k. unfold half. lra.
  - exact drop_closed.
  - exact drop_width.
  - exact drop_in.
  - exists fuel0. intros fuel Hf. rewrite (E fuel Hf).
    now rewrite (parity_unique drop 0 (1 / 2) 3 b true drop_lipschitz P drop_parity).
Qed.
