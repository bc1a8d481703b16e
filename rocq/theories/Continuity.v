(** * C55: evaluated curves have no jumps, also at their knots *)
From Coq Require Import Reals Lra Lia Sorted Ranalysis.
From Verif Require Import Base BaseFacts Scalar RSum BSplineSpec BSpline KnotModel KnotSpec
  KnotFacts KnotProofs VecFacts MiscModel CurveModel CurveSpec CurveProofs CurveGeom.
Open Scope R_scope.

(** [f] restricted to [a, b] is continuous at every point of [a, b] *)
Definition continuous_on (f : R -> R) (a b : R) : Prop :=
  forall u0, a <= u0 <= b -> forall e, 0 < e ->
    exists d, 0 < d /\ forall u, a <= u <= b -> Rabs (u - u0) < d -> Rabs (f u - f u0) < e.

Lemma continuous_on_limit f a b : continuous_on f a b <->
  forall u0, a <= u0 <= b -> limit1_in f (fun u => a <= u <= b) (f u0) u0.
Proof.
  split; intros H u0 Hu e He.
  - destruct (H u0 Hu e He) as (d & Hd & Q). exists d. split; [exact Hd|].
    intros x (Hx & Hdx). apply Q; auto.
  - destruct (H u0 Hu e He) as (d & Hd & Q). exists d. split; [exact Hd|].
    intros u Hu' Hd'. apply Q. split; auto.
Qed.

Lemma continuous_on_div f g a b : continuous_on f a b -> continuous_on g a b ->
  (forall u, a <= u <= b -> g u <> 0) -> continuous_on (fun u => f u / g u) a b.
Proof.
  rewrite !continuous_on_limit. intros Hf Hg Hn u0 Hu. unfold Rdiv.
  apply limit_mul; [now apply Hf|]. apply limit_inv; [now apply Hg|now apply Hn].
Qed.

Lemma quot0_cont f b : continuity f -> continuity (fun u => quot0 (f u) b).
Proof.
  intros Hf. unfold quot0. destruct (Req_EM_T b 0).
  - apply continuity_const. now intros x y.
  - intros u. apply (continuity_pt_mult f (fun _ => / b)); [apply Hf|].
    apply continuity_pt_const. now intros x y.
Qed.

Lemma bs_cont k s p i : continuity (bs k s p i).
Proof.
  revert i. induction p as [|q IH]; intros i.
  - intros u. apply continuity_pt_const. now intros x y.
  - assert (Hid : continuity (fun x : R => x)) by (apply derivable_continuous; apply derivable_id).
    assert (Hc : forall a, continuity (fun _ : R => a)) by (intros a; apply continuity_const; now intros x y).
    intros u. change (bs k s (S q) i) with
      (fun u => wl k (S q) i u * bs k s q i u + wr k (S q) i u * bs k s q (i + 1) u).
    apply (continuity_pt_plus (fun u => wl k (S q) i u * bs k s q i u)
             (fun u => wr k (S q) i u * bs k s q (i + 1) u)).
    + apply (continuity_pt_mult (wl k (S q) i) (bs k s q i)); [|apply IH].
      unfold wl. apply (quot0_cont (fun u => u - k i)). intros x.
      apply (continuity_pt_minus (fun u => u) (fun _ => k i)); [apply Hid|apply Hc].
    + apply (continuity_pt_mult (wr k (S q) i) (bs k s q (i + 1))); [|apply IH].
      unfold wr. apply (quot0_cont (fun u => k (i + S q + 1)%nat - u)). intros x.
      apply (continuity_pt_minus (fun _ => k (i + S q + 1)%nat) (fun u => u)); [apply Hc|apply Hid].
Qed.

Lemma rsum_cont n (f : nat -> R -> R) :
  (forall i, (i < n)%nat -> continuity (f i)) -> continuity (fun u => rsum n (fun i => f i u)).
Proof.
  induction n as [|n IH]; intros H.
  - cbn [rsum]. apply continuity_const. now intros x y.
  - intros u. cbn [rsum]. apply (continuity_pt_plus (fun u => rsum n (fun i => f i u)) (f n)).
    + apply IH. intros; apply H; lia.
    + apply H. lia.
Qed.

Lemma piece_cont k p n P s : continuity (piece k p n P s).
Proof.
  unfold piece. apply (rsum_cont n (fun i u => bs k s p i u * P i)). intros i _ u.
  apply (continuity_pt_mult (bs k s p i) (fun _ => P i)); [apply bs_cont|].
  apply continuity_pt_const. now intros x y.
Qed.

(** finitely many positive radii have a positive lower bound *)
Lemma min_radius n (Q : nat -> R -> Prop) :
  (forall s, (s <= n)%nat -> exists d, 0 < d /\ Q s d) ->
  (forall s d d', 0 < d' <= d -> Q s d -> Q s d') ->
  exists d, 0 < d /\ forall s, (s <= n)%nat -> Q s d.
Proof.
  intros H Hm. induction n as [|n IH].
  - destruct (H 0%nat (le_n _)) as (d & Hd & Hq). exists d. split; [exact Hd|].
    intros s Hs. now replace s with 0%nat by lia.
  - destruct IH as (d & Hd & Hq). { intros s Hs. apply H. lia. }
    destruct (H (S n) (le_n _)) as (d' & Hd' & Hq').
    exists (Rmin d d'). split; [now apply Rmin_pos|]. intros s Hs.
    pose proof (Rmin_pos _ _ Hd Hd'). pose proof (Rmin_l d d'). pose proof (Rmin_r d d').
    destruct (Nat.eq_dec s (S n)) as [->|].
    + apply (Hm _ d'); auto; lra.
    + apply (Hm _ d); [lra|]. apply Hq. lia.
Qed.

(** the homogeneous coordinates are continuous on the whole domain *)
Theorem hcoord_continuous c i : curve_ok c -> curve_cont c ->
  continuous_on (hcoord c i) (dom0 c) (dom1 c).
Proof.
  intros Hc Hcc u0 Hu0 e He.
  set (k := kf (cknots c)).
  destruct (min_radius (clast c) (fun s d => (cdeg c <= s)%nat -> k s < k (S s) ->
      forall u, k s <= u <= k (S s) -> Rabs (u - u0) < d -> Rabs (hcoord c i u - hcoord c i u0) < e))
    as (d & Hd & H).
  - intros s Hs. destruct (Rlt_le_dec (k s) (k (S s))) as [Hne|Hne].
    2:{ exists 1. split; [lra|]. intros; lra. }
    destruct (le_lt_dec (cdeg c) s) as [Hps|]; [|exists 1; split; [lra|lia]].
    destruct (Rle_dec (k s) u0) as [A|A]; [destruct (Rle_dec u0 (k (S s))) as [B|B]|].
    + destruct (piece_cont k (cdeg c) (length (cpts c)) (cpc c i) s u0 e He) as (d & Hd & Q).
      exists d. split; [exact Hd|]. intros _ _ u Hu Hdu.
      rewrite (hcoord_any_span c s i u) by (auto; lia).
      rewrite (hcoord_any_span c s i u0) by (auto; lia).
      destruct (Req_dec u0 u) as [->|Hn].
      { rewrite Rminus_diag_eq by reflexivity. now rewrite Rabs_R0. }
      apply Q. split; [split; [exact I|exact Hn]|exact Hdu].
    + exists (u0 - k (S s)). split; [lra|]. intros _ _ u Hu Hdu. exfalso.
      unfold Rabs in Hdu. destruct (Rcase_abs (u - u0)); lra.
    + exists (k s - u0). split; [lra|]. intros _ _ u Hu Hdu. exfalso.
      unfold Rabs in Hdu. destruct (Rcase_abs (u - u0)); lra.
  - intros s d d' Hd HQ Hps Hne u Hu Hdu. apply HQ; auto. lra.
  - exists d. split; [exact Hd|]. intros u Hu Hdu.
    destruct (domain_span c u Hc Hu) as (s & Hs & Hin). pose proof (in_span_le _ _ _ _ Hin).
    destruct Hin as (Hne & _). apply (H s); auto; lia.
Qed.

Section Real.
  Variables eps maxv : R.
  Local Hint Extern 0 (Scalar R) => exact (ROps eps maxv) : typeclass_instances.

  (** the points returned by evaluation, coordinate by coordinate *)
  Theorem point_at_continuous c i :
    curve_ok c -> curve_eps eps c -> curve_cont c -> pos_weights c -> (i < cdim c - 1)%nat ->
    exists f, continuous_on f (dom0 c) (dom1 c) /\
      forall u, dom0 c <= u <= dom1 c -> exists q, point_at c u = Ok q /\ rc i q = f u.
  Proof.
    intros Hc He Hcc Hw Hi. exists (nurbs c i).
    assert (Hp : forall u, dom0 c <= u <= dom1 c -> wfun c u <> 0).
    { intros u Hu. pose proof (wfun_pos eps maxv c u Hc He Hw Hu). lra. }
    split.
    - unfold nurbs. apply continuous_on_div; [now apply hcoord_continuous|now apply hcoord_continuous|exact Hp].
    - intros u Hu. destruct (point_at_spec eps maxv c u Hc He Hu (Hp u Hu)) as (q & E & _ & Hq).
      exists q. split; auto.
  Qed.
End Real.

(** ** A knot of multiplicity degree + 1 inside the domain may be a jump *)
Definition jump_curve : Curve R :=
  MkCurve 2 1 [[0; 1]; [1; 1]; [5; 1]; [7; 1]] [0; 0; 1; 1; 2; 2].

Lemma jump_left u : 0 <= u < 1 -> hcoord jump_curve 0 u = u.
Proof.
  intros Hu. unfold hcoord. set (k := kf (cknots jump_curve)).
  assert (Hm : mono k).
  { apply sorted_mono. repeat constructor; lra. }
  rewrite (rsum_ext _ _ (fun j => bs k 1 1 j u * cpc jump_curve 0 j)).
  2:{ intros j Hj. f_equal. apply (cox_closed_bs k (dom1 jump_curve) 3 1); auto; try lia;
      unfold dom1, k, kf; cbn; try lra; auto. }
  cbn [length cpts jump_curve rsum bs Nat.eqb Nat.add]. unfold wl, wr, cpc, k, kf, rc. cbn.
  repeat first [rewrite (quot0_nz _ (1 - 0)) by lra | rewrite (quot0_nz _ (2 - 1)) by lra
               | rewrite quot0_0 by lra]. field.
Qed.

Lemma jump_at : hcoord jump_curve 0 1 = 5.
Proof.
  unfold hcoord. set (k := kf (cknots jump_curve)).
  assert (Hm : mono k).
  { apply sorted_mono. repeat constructor; lra. }
  rewrite (rsum_ext _ _ (fun j => bs k 3 1 j 1 * cpc jump_curve 0 j)).
  2:{ intros j Hj. f_equal. apply (cox_closed_bs k (dom1 jump_curve) 3 3); auto; try lia;
      unfold dom1, k, kf; cbn; try lra; auto. }
  cbn [length cpts jump_curve rsum bs Nat.eqb Nat.add]. unfold wl, wr, cpc, k, kf, rc. cbn.
  repeat first [rewrite (quot0_nz _ (1 - 0)) by lra | rewrite (quot0_nz _ (2 - 1)) by lra
               | rewrite quot0_0 by lra]. field.
Qed.

Theorem full_multiplicity_jumps :
  exists c, curve_ok c /\ ~ continuous_on (hcoord c 0) (dom0 c) (dom1 c).
Proof.
  exists jump_curve. split.
  - constructor; cbn; try lia; [repeat constructor|].
    constructor; cbn; try lia; unfold kf; cbn; try lra. repeat constructor; lra.
  - intros H. destruct (H 1) with (e := 1) as (d & Hd & Q).
    { unfold dom0, dom1, kf. cbn. lra. } { lra. }
    set (u := 1 - Rmin (d / 2) (1 / 2)).
    pose proof (Rmin_l (d / 2) (1 / 2)). pose proof (Rmin_r (d / 2) (1 / 2)).
    assert (0 < Rmin (d / 2) (1 / 2)) by (apply Rmin_pos; lra).
    specialize (Q u). rewrite jump_at, (jump_left u) in Q by (unfold u; lra).
    assert (Rabs (u - 5) < 1).
    { apply Q. { unfold dom0, dom1, kf. cbn. unfold u. lra. }
      unfold Rabs. destruct (Rcase_abs (u - 1)); unfold u in *; lra. }
    unfold Rabs in *. destruct (Rcase_abs (u - 5)); unfold u in *; lra.
Qed.
