(** * Properties of refinement and splitting with rounded arithmetic

    Only statements: each theorem is proved elsewhere; its statement is repeated here, followed by
    a concrete case that meets its hypotheses. *)
From Coq Require Import Reals Lra Lia Psatz ZArith List Sorted Permutation.
From Flocq Require Import Core.
From Verif Require Import Base BaseFacts Scalar RSum BSplineSpec BSpline KnotModel KnotSpec KnotFacts VecFacts CurveModel CurveKnotModel CurveSpec CurveProofs CurveGeom CurveGeom2
  Refine SplitModel SplitProofs Rounding RoundingInstance RoundedEval RoundedDouble RoundedRefine RoundedCut RoundedDouble2 Demo.
Import ListNotations.
Local Open Scope R_scope.


(** a rational quadratic with even knots; its weights are 1 and 2 and its ordinates at most 2 *)
Definition arc : Curve R := MkCurve 3 2 [[0; 0; 1]; [2; 4; 2]; [3; 1; 1]; [5; 0; 1]] [0; 0; 0; 2; 4; 4; 4].
Lemma arc_ok : curve_ok arc /\ curve_eps eps0 arc.
Proof.
  split.
  - constructor; cbn; try lia; [repeat constructor|]. constructor; cbn; try lia; unfold kf; cbn; try lra. repeat constructor; lra.
  - unfold curve_eps, eps_ok, eps0, kf. cbn. lra.
Qed.
Lemma arc_box : curve_box arc 1 1 2 2.
Proof.
  split; intros j Hj; cbn in Hj; unfold cpc, rc; (destruct j as [|[|[|[|j]]]]; [| | | |lia]); cbn; try lra; apply Rabs_le; lra.
Qed.
Lemma int_machine z : (Z.abs z <= 2 ^ 53)%Z -> nearest 53 (IZR z) = IZR z.
Proof. intros H. apply (machine_ints [IZR z]) with (i := 0%nat). intros x [<-|[]]. eauto. Qed.
Lemma arc_machine : machine (nearest 53) (cknots arc).
Proof. apply machine_ints. intros x Hx. cbn in Hx. repeat (destruct Hx as [<-|Hx]; [first [exists 0%Z; split; [reflexivity|cbn; lia] | exists 2%Z; split; [reflexivity|cbn; lia] | exists 4%Z; split; [reflexivity|cbn; lia]]|]). destruct Hx. Qed.
Lemma unit_small : 0 < bpow radix2 (-53) <= / 2 ^ 20.
Proof.
  split; [apply bpow_gt_0|]. apply Rle_trans with (bpow radix2 (-20)); [apply bpow_le; lia|]. right. cbn. lra.
Qed.
Lemma sep_small : eps0 / (1 - bpow radix2 (-53)) <= 1.
Proof. pose proof unit_small as (A & B). apply Rmult_le_reg_r with (1 - bpow radix2 (-53)); [lra|]. unfold Rdiv. rewrite Rmult_assoc, Rinv_l by lra. unfold eps0. lra. Qed.
Lemma arc_refine : refine_ok (eps0 / (1 - bpow radix2 (-53))) arc [1; 3].
Proof.
  pose proof sep_small as Hs. constructor.
  - repeat constructor; lra.
  - repeat constructor; unfold dom0, dom1, kf; cbn; lra.
  - intros x y Hx Hy. cbn in Hx, Hy. repeat (destruct Hx as [<-|Hx]; [repeat (destruct Hy as [<-|Hy]; [first [now left | right; eapply Rle_trans; [exact Hs|]; first [rewrite Rabs_pos_eq by lra; lra | rewrite Rabs_left1 by lra; lra]]|]); destruct Hy|]). destruct Hx.
Qed.
Lemma arc_off : off_knots (eps0 / (1 - bpow radix2 (-53))) arc 1.
Proof. pose proof sep_small as Hs. intros y Hy. cbn in Hy. repeat (destruct Hy as [<-|Hy]; [eapply Rle_trans; [exact Hs|]; first [rewrite Rabs_pos_eq by lra; lra | rewrite Rabs_left1 by lra; lra]|]). destruct Hy. Qed.


Section C90_refine_rounded_statement.
  Variables (mu : R) (rnd : R -> R) (eps maxv : R).
  Hypothesis Hr : rounding mu rnd.
  Local Notation FL := (FlOps rnd eps maxv).
  Local Notation RE := (ROps eps maxv).

  Theorem C90_refine_rounded : forall c xs,
    curve_ok c -> curve_eps eps c -> machine rnd (cknots c) -> refine_ok (eps / (1 - mu)) c xs ->
    exists cE cF, @try_refine_knot R RE c xs = Ok cE /\ @try_refine_knot R FL c xs = Ok cF /\
    cdim cF = cdim cE /\ cdeg cF = cdeg cE /\ cknots cF = cknots cE /\ length (cpts cF) = length (cpts cE) /\
    Forall (fun q => length q = cdim c) (cpts cF) /\
    forall i j M, (forall t, (t < length (cpts c))%nat -> Rabs (cpc c i t) <= M) -> (j < length (cpts cE))%nat ->
    Rabs (cpc cF i j - cpc cE i j) <= gam mu (11 * length xs) * M.
  Proof. exact (refine_rounded mu rnd eps maxv Hr). Qed.
End C90_refine_rounded_statement.
Section C90_case_points_section.
  Local Hint Extern 0 (Scalar R) => exact (FlOps (nearest 53) eps0 maxv0) : typeclass_instances.
  Example C90_case_points : exists cE cF, @try_refine_knot R (ROps eps0 maxv0) arc [1; 3] = Ok cE /\ try_refine_knot arc [1; 3] = Ok cF /\ cknots cF = cknots cE /\ length (cpts cF) = 6%nat.
  Proof. destruct arc_ok as (A & B). pose proof arc_refine as C. rewrite <- u53_eq in C || (change (bpow radix2 (-53)) with u53 in C; rewrite <- u53_eq in C). destruct (refine_rounded _ _ eps0 maxv0 double_rounding arc [1; 3] A B arc_machine C) as (cE & cF & H1 & H2 & _ & _ & H3 & H4 & _). exists cE, cF. split; [exact H1|]. split; [exact H2|]. split; [exact H3|]. rewrite H4. destruct (refine_spec eps0 maxv0 arc [1; 3] A B) as (c' & E' & _ & _ & _ & L); [apply (refine_ok_weak _ _ eps0 double_rounding); [unfold eps0; lra|exact C]|]. rewrite H1 in E'. injection E' as <-. exact L. Qed.
End C90_case_points_section.
Print Assumptions C90_refine_rounded.

Section C90_refine_point_rounded_statement.
  Variables (mu : R) (rnd : R -> R) (eps maxv : R).
  Hypothesis Hr : rounding mu rnd.
  Local Notation FL := (FlOps rnd eps maxv).
  Local Notation RE := (ROps eps maxv).

  Theorem C90_refine_point_rounded : forall c xs i lo hi M,
    curve_ok c -> curve_eps eps c -> machine rnd (cknots c) -> (forall x, In x xs -> rnd x = x) ->
    refine_ok (eps / (1 - mu)) c xs -> inside c xs -> 0 < lo -> curve_box c i lo hi M -> (i < cdim c - 1)%nat ->
    gam mu (11 * length xs) * hi < lo ->
    exists cF, @try_refine_knot R FL c xs = Ok cF /\ curve_ok cF /\ curve_eps eps cF /\ pos_weights cF /\ Permutation (cknots cF) (cknots c ++ xs) /\
    let e := 2 * (gam mu (11 * length xs) * hi) * M / (lo - gam mu (11 * length xs) * hi) in
    forall u, dom0 c <= u <= dom1 c ->
    Rabs (nurbs cF i u - nurbs c i u) <= e /\
    exists p, @point_at R FL cF u = Ok p /\ Rabs (rc i p - nurbs c i u) <= e + gam mu (14 * cdeg c + 5) * (M + e).
  Proof. exact (refine_point_rounded mu rnd eps maxv Hr). Qed.
End C90_refine_point_rounded_statement.
Print Assumptions C90_refine_point_rounded.

Section C90_split_point_rounded_statement.
  Variables (mu : R) (rnd : R -> R) (eps maxv : R).
  Hypothesis Hr : rounding mu rnd.
  Local Notation FL := (FlOps rnd eps maxv).
  Local Notation RE := (ROps eps maxv).

  Theorem C90_split_point_rounded : forall c u i lo hi M,
    curve_ok c -> curve_eps eps c -> machine rnd (cknots c) -> rnd u = u -> dom0 c < u < dom1 c -> off_knots (eps / (1 - mu)) c u ->
    0 < lo -> curve_box c i lo hi M -> (i < cdim c - 1)%nat -> gam mu (11 * (cdeg c + 1)) * hi < lo ->
    exists l r, @try_split R FL c u = Ok (l, r) /\
    curve_ok l /\ curve_eps eps l /\ pos_weights l /\ dom0 l = dom0 c /\ dom1 l = u /\
    curve_ok r /\ curve_eps eps r /\ pos_weights r /\ dom0 r = u /\ dom1 r = dom1 c /\
    let g := gam mu (11 * (cdeg c + 1)) * hi in
    let e := 2 * g * M / (lo - g) in
    (forall v, dom0 c <= v <= u -> Rabs (nurbs l i v - nurbs c i v) <= e /\
    exists p, @point_at R FL l v = Ok p /\ Rabs (rc i p - nurbs c i v) <= e + gam mu (14 * cdeg c + 5) * (M + e)) /\
    (forall v, u <= v <= dom1 c -> Rabs (nurbs r i v - nurbs c i v) <= e /\
    exists p, @point_at R FL r v = Ok p /\ Rabs (rc i p - nurbs c i v) <= e + gam mu (14 * cdeg c + 5) * (M + e)).
  Proof. exact (split_point_rounded mu rnd eps maxv Hr). Qed.
End C90_split_point_rounded_statement.
Print Assumptions C90_split_point_rounded.

Section C90_refine_point_double_statement.
  Variables eps maxv : R.
  Local Hint Extern 0 (Scalar R) => exact (FlOps (nearest 53) eps maxv) : typeclass_instances.
  Local Notation u53 := (bpow radix2 (-53)).

  Theorem C90_refine_point_double : forall c xs i lo hi M,
    curve_ok c -> curve_eps eps c -> machine (nearest 53) (cknots c) -> (forall x, In x xs -> nearest 53 x = x) ->
    refine_ok (eps / (1 - u53)) c xs -> inside c xs -> 0 < lo -> curve_box c i lo hi M -> (i < cdim c - 1)%nat ->
    (Z.of_nat (length xs) <= 1000000)%Z -> (Z.of_nat (cdeg c) <= 1000000)%Z -> (11 * INR (length xs) + 1) * u53 * hi < lo ->
    exists cF, try_refine_knot c xs = Ok cF /\ curve_ok cF /\ pos_weights cF /\ Permutation (cknots cF) (cknots c ++ xs) /\
    let e := 2 * ((11 * INR (length xs) + 1) * u53 * hi) * M / (lo - (11 * INR (length xs) + 1) * u53 * hi) in
    forall u, dom0 c <= u <= dom1 c ->
    Rabs (nurbs cF i u - nurbs c i u) <= e /\
    exists p, point_at cF u = Ok p /\ Rabs (rc i p - nurbs c i u) <= e + (14 * INR (cdeg c) + 6) * u53 * (M + e).
  Proof. exact (refine_point_double eps maxv). Qed.
End C90_refine_point_double_statement.
Section C90_case_refine_section.
  Local Hint Extern 0 (Scalar R) => exact (FlOps (nearest 53) eps0 maxv0) : typeclass_instances.
  Example C90_case_refine : exists cF, try_refine_knot arc [1; 3] = Ok cF /\ forall u, 0 <= u <= 4 -> Rabs (nurbs cF 1 u - nurbs arc 1 u) <= 2 * ((11 * INR 2 + 1) * bpow radix2 (-53) * 2) * 2 / (1 - (11 * INR 2 + 1) * bpow radix2 (-53) * 2).
  Proof. destruct arc_ok as (A & B). pose proof unit_small as (U1 & U2). destruct (refine_point_double eps0 maxv0 arc [1; 3] 1 1 2 2 A B arc_machine) as (cF & E & _ & _ & _ & H); [intros x [<-|[<-|[]]]; apply int_machine; cbn; lia|exact arc_refine|repeat constructor; unfold dom0, dom1, kf; cbn; lra|lra|exact arc_box|cbn; lia|cbn; lia|cbn; lia|cbn [length INR]; lra|]. exists cF. split; [exact E|]. intros u Hu. apply H. unfold dom0, dom1, kf. cbn. lra. Qed.
End C90_case_refine_section.
Print Assumptions C90_refine_point_double.

Section C90_split_point_double_statement.
  Variables eps maxv : R.
  Local Hint Extern 0 (Scalar R) => exact (FlOps (nearest 53) eps maxv) : typeclass_instances.
  Local Notation u53 := (bpow radix2 (-53)).

  Theorem C90_split_point_double : forall c u i lo hi M,
    curve_ok c -> curve_eps eps c -> machine (nearest 53) (cknots c) -> nearest 53 u = u -> dom0 c < u < dom1 c -> off_knots (eps / (1 - u53)) c u ->
    0 < lo -> curve_box c i lo hi M -> (i < cdim c - 1)%nat ->
    (Z.of_nat (cdeg c) <= 1000000)%Z -> (11 * INR (cdeg c + 1) + 1) * u53 * hi < lo ->
    exists l r, try_split c u = Ok (l, r) /\
    curve_ok l /\ pos_weights l /\ dom0 l = dom0 c /\ dom1 l = u /\ curve_ok r /\ pos_weights r /\ dom0 r = u /\ dom1 r = dom1 c /\
    let g := (11 * INR (cdeg c + 1) + 1) * u53 * hi in
    let e := 2 * g * M / (lo - g) in
    (forall v, dom0 c <= v <= u -> Rabs (nurbs l i v - nurbs c i v) <= e /\
    exists p, point_at l v = Ok p /\ Rabs (rc i p - nurbs c i v) <= e + (14 * INR (cdeg c) + 6) * u53 * (M + e)) /\
    (forall v, u <= v <= dom1 c -> Rabs (nurbs r i v - nurbs c i v) <= e /\
    exists p, point_at r v = Ok p /\ Rabs (rc i p - nurbs c i v) <= e + (14 * INR (cdeg c) + 6) * u53 * (M + e)).
  Proof. exact (split_point_double eps maxv). Qed.
End C90_split_point_double_statement.
Section C90_case_split_section.
  Local Hint Extern 0 (Scalar R) => exact (FlOps (nearest 53) eps0 maxv0) : typeclass_instances.
  Example C90_case_split : exists l r p, try_split arc 1 = Ok (l, r) /\ point_at l (1 / 3) = Ok p /\ Rabs (rc 1 p - nurbs arc 1 (1 / 3)) <= 1 / 1000.
  Proof. destruct arc_ok as (A & B). pose proof unit_small as (U1 & U2). destruct (split_point_double eps0 maxv0 arc 1 1 1 2 2 A B arc_machine) as (l & r & E & _ & _ & _ & _ & _ & _ & _ & _ & H & _); [apply int_machine; cbn; lia|unfold dom0, dom1, kf; cbn; lra|exact arc_off|lra|exact arc_box|cbn; lia|cbn; lia|cbn [cdeg arc Nat.add INR]; lra|]. destruct (H (1 / 3)) as (_ & p & Ep & Hp); [unfold dom0, kf; cbn; lra|]. exists l, r, p. split; [exact E|]. split; [exact Ep|]. eapply Rle_trans; [exact Hp|]. cbn [cdeg arc Nat.add INR]. set (d := bpow radix2 (-53)) in *. set (q := (11 * (1 + 1 + 1) + 1) * d * 2). assert (Q : 0 < q <= 1 / 10000) by (unfold q; lra). assert (F : 2 * q * 2 / (1 - q) <= 5 / 10000) by (apply Rmult_le_reg_r with (1 - q); [lra|]; unfold Rdiv; rewrite Rmult_assoc, Rinv_l by lra; lra). assert (F0 : 0 <= 2 * q * 2 / (1 - q)) by (unfold Rdiv; apply Rmult_le_pos; [lra|apply Rlt_le, Rinv_0_lt_compat; lra]). set (e := 2 * q * 2 / (1 - q)) in *. assert ((14 * (1 + 1) + 6) * d * (2 + e) <= (14 * (1 + 1) + 6) * d * 3) by (apply Rmult_le_compat_l; lra). lra. Qed.
End C90_case_split_section.
Print Assumptions C90_split_point_double.
