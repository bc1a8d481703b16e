(** * Single-span curves: Bernstein form and degree elevation *)
From Coq Require Import Reals Lra Lia List ZArith Sorted.
From Verif Require Import Base BaseFacts Scalar RSum BSplineSpec BSpline KnotModel KnotFacts KnotSpec VecFacts MiscModel MiscProofs CurveModel CurveSpec CurveProofs CurveGeom CurveGeom2 NewtonProofs
  CurveKnotModel KnotMisc Boehm Decompose ElevateModel Bernstein ElevateBezier.
Import ListNotations.
Open Scope R_scope.

(** a curve whose knots are [a] and [b], each repeated degree + 1 times *)
Definition is_bezier (c : Curve R) (a b : R) : Prop :=
  a < b /\ cknots c = bezier_knots (cdeg c) a b /\ length (cpts c) = S (cdeg c).

(** the curve without its last three control points and its last three knots *)
Definition drop_surplus (c : Curve R) : Curve R :=
  MkCurve (cdim c) (cdeg c) (firstn (length (cpts c) - 3) (cpts c)) (firstn (length (cknots c) - 3) (cknots c)).

Lemma bezier_dom c a b : is_bezier c a b -> dom0 c = a /\ dom1 c = b.
Proof.
  intros (Hab & Hk & Hl). unfold dom0, dom1. rewrite Hk, Hl, !bezier_kf.
  destruct (Nat.leb_spec (cdeg c) (cdeg c)), (Nat.leb_spec (S (cdeg c)) (cdeg c)); try lia; auto.
Qed.

Theorem bezier_hcoord c a b i u : is_bezier c a b -> a <= u <= b ->
  hcoord c i u = rsum (S (cdeg c)) (fun j => bernstein (cdeg c) j ((u - a) / (b - a)) * cpc c i j).
Proof.
  intros H Hu. pose proof (bezier_dom c a b H) as (_ & D1). destruct H as (Hab & Hk & Hl). unfold hcoord. rewrite D1, Hl, Hk.
  apply rsum_ext. intros j Hj. rewrite cox_bezier by (try lra; lia). reflexivity.
Qed.

Lemma repeat_sorted (x : R) n : Sorted Rle (repeat x n).
Proof. induction n as [|n IH]; cbn [repeat]; constructor; [exact IH|]. destruct n; cbn [repeat]; constructor; lra. Qed.
Lemma bezier_sorted p a b : a <= b -> Sorted Rle (bezier_knots p a b).
Proof.
  intros H. unfold bezier_knots. generalize (S p) at 1 as n. intros n. induction n as [|n IH]; cbn [repeat app]; [apply (repeat_sorted b (S p))|].
  constructor; [exact IH|]. destruct n; cbn [repeat app]; constructor; lra.
Qed.
Lemma bezier_length p a b : length (bezier_knots p a b) = (2 * p + 2)%nat.
Proof. unfold bezier_knots. rewrite app_length, !repeat_length. lia. Qed.
Lemma bezier_curve_ok c a b : is_bezier c a b -> (1 <= cdim c)%nat -> Forall (fun q => length q = cdim c) (cpts c) -> curve_ok c.
Proof.
  intros (Hab & Hk & Hl) Hd Fd. constructor; [exact Hd|exact Fd|lia|]. unfold clast. rewrite Hl, Hk.
  constructor; [rewrite bezier_length; lia|lia|apply bezier_sorted; lra| |]; rewrite !bezier_kf;
    destruct (Nat.leb_spec (cdeg c) (cdeg c)), (Nat.leb_spec (cdeg c + 1) (cdeg c)), (Nat.leb_spec (S (cdeg c) - 1) (cdeg c)), (Nat.leb_spec (S (cdeg c) - 1 + 1) (cdeg c)); try lia; lra.
Qed.

Section Real.
  Variables eps maxv : R.
  Local Hint Extern 0 (Scalar R) => exact (ROps eps maxv) : typeclass_instances.

  (** a single-span curve is the rational Bernstein form of its control points *)
  Theorem bezier_point_at c a b u : curve_ok c -> is_bezier c a b -> 0 < eps -> eps <= b - a -> a <= u <= b -> pos_weights c ->
    let t := (u - a) / (b - a) in
    let w := rsum (S (cdeg c)) (fun j => bernstein (cdeg c) j t * cpc c (cdim c - 1) j) in
    0 < w /\ exists q, point_at c u = Ok q /\ length q = (cdim c - 1)%nat /\
      forall i, (i < cdim c - 1)%nat -> rc i q = rsum (S (cdeg c)) (fun j => bernstein (cdeg c) j t * cpc c i j) / w.
  Proof.
    intros Hc Hb He1 He2 Hu Hw t w. pose proof (bezier_dom c a b Hb) as (D0 & D1).
    assert (Ce : curve_eps eps c).
    { destruct Hb as (Hab & Hk & Hl). unfold curve_eps, eps_ok, clast. rewrite Hk, Hl, !bezier_kf.
      destruct (Nat.leb_spec (cdeg c) (cdeg c)), (Nat.leb_spec (cdeg c + 1) (cdeg c)), (Nat.leb_spec (S (cdeg c) - 1) (cdeg c)), (Nat.leb_spec (S (cdeg c) - 1 + 1) (cdeg c)); try lia; lra. }
    assert (Hu' : dom0 c <= u <= dom1 c) by (rewrite D0, D1; lra).
    pose proof (wfun_pos eps maxv c u Hc Ce Hw Hu') as Wp.
    assert (Ew : wfun c u = w) by (unfold wfun; now rewrite (bezier_hcoord c a b) by assumption).
    split; [now rewrite <- Ew|].
    destruct (point_at_spec eps maxv c u Hc Ce Hu') as (q & Eq & Lq & Vq); [lra|].
    exists q. split; [exact Eq|]. split; [exact Lq|]. intros i Hi. rewrite Vq by exact Hi. unfold nurbs. rewrite Ew, (bezier_hcoord c a b) by assumption. reflexivity.
  Qed.

  (** raising a single-span curve by one: three surplus zero points and zero knots at the end, and
      without them a curve of the next degree with the same domain and the same homogeneous points *)
  Theorem elevate_bezier_points c a b : curve_ok c -> is_bezier c a b -> (1 <= cdeg c)%nat ->
    exists c', try_elevate_degree c (S (cdeg c)) = Ok c' /\
      skipn (length (cpts c') - 3) (cpts c') = repeat (repeat 0 (cdim c)) 3 /\ skipn (length (cknots c') - 3) (cknots c') = repeat 0 3 /\
      curve_ok (drop_surplus c') /\ cdim (drop_surplus c') = cdim c /\ is_bezier (drop_surplus c') a b /\ cdeg (drop_surplus c') = S (cdeg c) /\
      forall i u, (i < cdim c)%nat -> a <= u <= b -> hcoord (drop_surplus c') i u = hcoord c i u.
  Proof.
    intros Hc Hb Hp. pose proof Hb as (Hab & Hk & Hl).
    destruct (elevate_bezier eps maxv c (cdeg c) a b Hp eq_refl Hk Hl (co_pts c Hc)) as (Q & EQ & LQ & VQ).
    eexists. split; [exact EQ|]. unfold drop_surplus. cbn [cpts cknots cdim cdeg].
    rewrite !app_length, !repeat_length, bezier_length, LQ.
    replace (cdeg c + 2 + 3 - 3)%nat with (length Q + 0)%nat by lia. replace (2 * S (cdeg c) + 2 + 3 - 3)%nat with (length (bezier_knots (S (cdeg c)) a b) + 0)%nat by (rewrite bezier_length; lia).
    rewrite !firstn_app_2. cbn [firstn]. rewrite !app_nil_r, !Nat.add_0_r.
    set (c' := MkCurve (cdim c) (S (cdeg c)) Q (bezier_knots (S (cdeg c)) a b)).
    assert (Hb' : is_bezier c' a b) by (split; [exact Hab|split; [reflexivity|cbn; lia]]).
    split; [now rewrite skipn_app, skipn_all, Nat.sub_diag|]. split; [now rewrite skipn_app, skipn_all, Nat.sub_diag|].
    split.
    { apply (bezier_curve_ok c' a b Hb'); [exact (co_dim c Hc)|]. apply Forall_forall. intros q Hq. apply (In_nth _ _ []) in Hq. destruct Hq as (j & Hj & <-).
      apply (VQ j). cbn in Hj. lia. }
    split; [reflexivity|]. split; [exact Hb'|]. split; [reflexivity|].
    intros i u Hi Hu. rewrite (bezier_hcoord c' a b), (bezier_hcoord c a b) by assumption. set (t := (u - a) / (b - a)). cbn [cdeg c'].
    set (p := cdeg c) in *. assert (Sp : 0 < INR (S p)) by (apply lt_0_INR; lia).
    apply (Rmult_eq_reg_l (INR (S p))); [|lra]. rewrite <- !rsum_scal.
    transitivity (rsum (S (S p)) (fun j => INR j * cpc c i (j - 1) * bernstein (S p) j t) + rsum (S (S p)) (fun j => INR (S p - j) * cpc c i j * bernstein (S p) j t)).
    { rewrite <- rsum_plus. apply rsum_ext. intros j Hj. destruct (VQ j ltac:(lia)) as (_ & V). specialize (V i Hi).
      replace (cpc c' i j) with (rc i (nth j Q [])) by reflexivity.
      transitivity ((INR (S p) * rc i (nth j Q [])) * bernstein (S p) j t); [ring|]. rewrite V. ring. }
    rewrite (rsum_S_l (S p) (fun j => INR j * cpc c i (j - 1) * bernstein (S p) j t)). change (INR 0) with 0. rewrite !Rmult_0_l, Rplus_0_l.
    change (rsum (S (S p)) (fun j => INR (S p - j) * cpc c i j * bernstein (S p) j t)) with (rsum (S p) (fun j => INR (S p - j) * cpc c i j * bernstein (S p) j t) + INR (S p - S p) * cpc c i (S p) * bernstein (S p) (S p) t).
    rewrite Nat.sub_diag. change (INR 0) with 0. rewrite !Rmult_0_l, Rplus_0_r. rewrite <- rsum_plus.
    apply rsum_ext. intros j Hj. replace (S j - 1)%nat with j by lia. rewrite <- Rmult_assoc, (bernstein_up p j t) by lia. ring.
  Qed.

  (** the surplus knots are out of order whenever the domain ends above zero *)
  Theorem elevate_bezier_unsorted c a b : curve_ok c -> is_bezier c a b -> (1 <= cdeg c)%nat -> 0 < b ->
    exists c', try_elevate_degree c (S (cdeg c)) = Ok c' /\ ~ Sorted Rle (cknots c').
  Proof.
    intros Hc Hb Hp H0. pose proof Hb as (Hab & Hk & Hl).
    destruct (elevate_bezier eps maxv c (cdeg c) a b Hp eq_refl Hk Hl (co_pts c Hc)) as (Q & EQ & _).
    eexists. split; [exact EQ|]. cbn [cknots]. intros Srt.
    pose proof (sorted_mono _ Srt) as M. set (k := bezier_knots (S (cdeg c)) a b ++ repeat 0 3) in *.
    pose proof (M (2 * S (cdeg c) + 1)%nat) as M1. unfold kf in M1.
    assert (Lk : length k = (2 * S (cdeg c) + 5)%nat) by (unfold k; rewrite app_length, bezier_length, repeat_length; lia).
    assert (N1 : nth (2 * S (cdeg c) + 1) k (last k 0) = b).
    { unfold k at 1. rewrite app_nth1 by (rewrite bezier_length; lia). transitivity (kf (bezier_knots (S (cdeg c)) a b) (2 * S (cdeg c) + 1)).
      - unfold kf. apply nth_indep. rewrite bezier_length. lia.
      - rewrite bezier_kf. destruct (Nat.leb_spec (2 * S (cdeg c) + 1) (S (cdeg c))); [lia|reflexivity]. }
    assert (N2 : nth (S (2 * S (cdeg c) + 1)) k (last k 0) = 0).
    { unfold k at 1. rewrite app_nth2 by (rewrite bezier_length; lia). rewrite bezier_length. replace (S (2 * S (cdeg c) + 1) - (2 * S (cdeg c) + 2))%nat with 0%nat by lia. reflexivity. }
    lra.
  Qed.

  (** the pieces of the decomposition carry the Bernstein coefficients of the curve on every span *)
  Theorem decompose_bernstein c : curve_ok c -> curve_eps eps c -> curve_cont c -> clamped c -> separated eps (cknots c) ->
    exists vs segs, try_decompose_bezier_segments c = Ok segs /\ StronglySorted Rlt vs /\ (forall x, In x vs <-> In x (cknots c)) /\ S (length segs) = length vs /\
      forall i u, (i < length segs)%nat -> nth i vs 0 <= u <= nth (S i) vs 0 ->
        let s := nth i segs c in
        let t := (u - nth i vs 0) / (nth (S i) vs 0 - nth i vs 0) in
        let w := rsum (S (cdeg c)) (fun j => bernstein (cdeg c) j t * cpc s (cdim c - 1) j) in
        w <> 0 -> exists q, point_at c u = Ok q /\ length q = (cdim c - 1)%nat /\
          forall x, (x < cdim c - 1)%nat -> rc x q = rsum (S (cdeg c)) (fun j => bernstein (cdeg c) j t * cpc s x j) / w.
  Proof.
    intros Hc He Hk Hcl Hs. destruct (decompose_spec eps maxv c Hc He Hk Hcl Hs) as (vs & segs & E & Sv & Iv & Lv & P).
    exists vs, segs. split; [exact E|]. split; [exact Sv|]. split; [exact Iv|]. split; [exact Lv|].
    intros i u Hi Hu s t w Hw. destruct (P i Hi) as (Os & Es & Ed & Eg & El & Ek & D0 & D1 & Pu). fold s in Os, Es, Ed, Eg, El, Ek, D0, D1, Pu.
    assert (Hb : is_bezier s (nth i vs 0) (nth (S i) vs 0)).
    { split; [|split].
      - rewrite <- D0, <- D1. apply dom_le; assumption.
      - rewrite Ek, Eg. unfold bezier_knots. replace (cdeg c + 1)%nat with (S (cdeg c)) by lia. reflexivity.
      - rewrite El, Eg. reflexivity. }
    assert (Ew : wfun s u = w) by (unfold wfun; rewrite (bezier_hcoord s _ _ _ _ Hb Hu), Eg, Ed; reflexivity).
    destruct (point_at_spec eps maxv s u Os Es) as (q & Eq & Lq & Vq); [rewrite D0, D1; exact Hu|rewrite Ew; exact Hw|].
    exists q. rewrite <- (Pu u Hu). split; [exact Eq|]. rewrite Ed in Lq, Vq. split; [exact Lq|]. intros x Hx. rewrite Vq by exact Hx. unfold nurbs.
    rewrite Ew, (bezier_hcoord s _ _ _ _ Hb Hu), Eg. reflexivity.
  Qed.
End Real.
