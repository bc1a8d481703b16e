(** * Rounding errors of refined and split curves (C90) *)
From Coq Require Import Reals Lra Lia ZArith Bool List Sorted Permutation.
From Verif Require Import Base BaseFacts Scalar RSum BSplineSpec BSpline KnotModel KnotSpec KnotFacts KnotProofs
  VecFacts MiscModel CurveModel CurveKnotModel CurveSpec CurveProofs CurveGeom CurveGeom2 Boehm Refine SplitModel SplitProofs Rounding RoundedEval RoundedRefine.
Import ListNotations.
Open Scope R_scope.

(** two curves over the same knots whose control points differ, in coordinate [i], by at most [e i] *)
Record close (e : nat -> R) (cE cF : Curve R) : Prop := {
  cl_dim : cdim cF = cdim cE;
  cl_deg : cdeg cF = cdeg cE;
  cl_knots : cknots cF = cknots cE;
  cl_len : length (cpts cF) = length (cpts cE);
  cl_pts : Forall (fun q => length q = cdim cE) (cpts cF);
  cl_err : forall i j, (j < length (cpts cE))%nat -> Rabs (cpc cF i j - cpc cE i j) <= e i
}.

Lemma abs_inv x y : Rabs x <= y -> - y <= x <= y.
Proof. intros H. pose proof (Rle_abs x). pose proof (Rle_abs (- x)) as Q. rewrite Rabs_Ropp in Q. lra. Qed.

Lemma close_ok e cE cF : curve_ok cE -> close e cE cF -> curve_ok cF.
Proof.
  intros Hc [A B C D E _]. pose proof (clast_S cE Hc). assert (L : clast cF = clast cE) by (unfold clast; now rewrite D). constructor.
  - rewrite A. apply Hc.
  - rewrite A. exact E.
  - rewrite B, D. apply Hc.
  - rewrite L, B, C. apply Hc.
Qed.
Lemma close_eps e cE cF eps : close e cE cF -> curve_eps eps cE -> curve_eps eps cF.
Proof. intros [A B C D E _] H. unfold curve_eps in *. assert (L : clast cF = clast cE) by (unfold clast; now rewrite D). now rewrite L, B, C. Qed.

(** the two curves are as close as their control points: no error amplification *)
Lemma close_hcoord e cE cF i u : curve_ok cE -> close e cE cF -> dom0 cE <= u <= dom1 cE -> Rabs (hcoord cF i u - hcoord cE i u) <= e i.
Proof.
  intros Hc [A B C D _ Er] Hu. unfold hcoord. unfold dom1. rewrite D, B, C. fold (dom1 cE).
  set (N := fun j => cox_closed (kf (cknots cE)) (dom1 cE) (cdeg cE) j u).
  assert (HN : forall j, 0 <= N j) by (intros j; now apply cox_nonneg).
  assert (HS : rsum (length (cpts cE)) N = 1) by now apply cox_sum.
  change (Rabs (rsum (length (cpts cE)) (fun j => N j * cpc cF i j) - rsum (length (cpts cE)) (fun j => N j * cpc cE i j)) <= e i).
  assert (U : rsum (length (cpts cE)) (fun j => N j * cpc cF i j) <= rsum (length (cpts cE)) (fun j => N j * cpc cE i j) + e i).
  { replace (e i) with (e i * rsum (length (cpts cE)) N) by (rewrite HS; lra). rewrite <- rsum_scal, <- rsum_plus. apply rsum_le. intros j Hj.
    specialize (Er i j Hj). apply abs_inv in Er. specialize (HN j). nra. }
  assert (L : rsum (length (cpts cE)) (fun j => N j * cpc cE i j) <= rsum (length (cpts cE)) (fun j => N j * cpc cF i j) + e i).
  { replace (e i) with (e i * rsum (length (cpts cE)) N) by (rewrite HS; lra). rewrite <- rsum_scal, <- rsum_plus. apply rsum_le. intros j Hj.
    specialize (Er i j Hj). apply abs_inv in Er. specialize (HN j). nra. }
  apply Rabs_le. lra.
Qed.

(** positive weights survive while the error stays below the smallest weight *)
Lemma close_ratio a w a' w' da dw lo M : 0 < lo -> lo <= w -> Rabs a <= M * w -> Rabs (a' - a) <= da -> Rabs (w' - w) <= dw -> dw < lo ->
  0 < w' /\ Rabs (a' / w' - a / w) <= (da + M * dw) / (lo - dw).
Proof.
  intros Hlo Hw Ha Hda Hdw Hd.
  assert (Hb : - dw <= w' - w <= dw) by (pose proof (Rle_abs (w' - w)); pose proof (Rle_abs (- (w' - w))) as Q; rewrite Rabs_Ropp in Q; lra).
  assert (W' : lo - dw <= w') by lra. split; [lra|].
  replace (a' / w' - a / w) with (((a' - a) + (a / w) * (w - w')) / w') by (field; lra).
  unfold Rdiv at 1. rewrite Rabs_mult, (Rabs_pos_eq (/ w')) by (apply Rlt_le, Rinv_0_lt_compat; lra).
  assert (Hq : Rabs (a / w) <= M).
  { unfold Rdiv. rewrite Rabs_mult, (Rabs_pos_eq (/ w)) by (apply Rlt_le, Rinv_0_lt_compat; lra). apply Rmult_le_reg_r with w; [lra|].
    rewrite Rmult_assoc, Rinv_l by lra. lra. }
  assert (HN : Rabs (a' - a + a / w * (w - w')) <= da + M * dw).
  { eapply Rle_trans; [apply Rabs_triang|]. apply Rplus_le_compat; [exact Hda|]. rewrite Rabs_mult. apply Rmult_le_compat; try apply Rabs_pos; [exact Hq|].
    now rewrite Rabs_minus_sym. }
  unfold Rdiv. apply Rmult_le_compat; [apply Rabs_pos|apply Rlt_le, Rinv_0_lt_compat; lra|exact HN|]. apply Rinv_le_contravar; lra.
Qed.

Section Close.
  Variables eps maxv : R.
  Local Hint Extern 0 (Scalar R) => exact (ROps eps maxv) : typeclass_instances.

  (** control points in homogeneous form: weights between [lo] and [hi], Cartesian coordinate [i] bounded by [M] *)
  Definition inbox (D i : nat) (lo hi M : R) (q : list R) : Prop := lo <= rc (D - 1) q <= hi /\ Rabs (rc i q) <= M * rc (D - 1) q.
  Lemma inbox_convex D i lo hi M : convex_set eps maxv D (inbox D i lo hi M).
  Proof.
    intros p q t Lp Lq Ht ((A1 & A2) & A3) ((B1 & B2) & B3). unfold inbox. rewrite !rc_vlerp by lia.
    assert (G : forall x y z, 0 <= z -> x <= y -> x * z <= y * z) by (intros; now apply Rmult_le_compat_r).
    pose proof (G _ _ (1 - t) ltac:(lra) A1). pose proof (G _ _ (1 - t) ltac:(lra) A2). pose proof (G _ _ (1 - t) ltac:(lra) A3).
    pose proof (G _ _ t ltac:(lra) B1). pose proof (G _ _ t ltac:(lra) B2). pose proof (G _ _ t ltac:(lra) B3).
    split; [lra|]. eapply Rle_trans; [apply Rabs_triang|]. rewrite !Rabs_mult, (Rabs_pos_eq (1 - t)), (Rabs_pos_eq t) by lra. lra.
  Qed.

  Lemma inbox_sum c i lo hi M u : curve_ok c -> Forall (inbox (cdim c) i lo hi M) (cpts c) -> dom0 c <= u <= dom1 c ->
    lo <= wfun c u <= hi /\ Rabs (hcoord c i u) <= M * wfun c u.
  Proof.
    intros Hc Hb Hu. rewrite Forall_forall in Hb. unfold wfun, hcoord.
    set (N := fun j => cox_closed (kf (cknots c)) (dom1 c) (cdeg c) j u).
    assert (HN : forall j, 0 <= N j) by (intros j; now apply cox_nonneg).
    assert (HS : rsum (length (cpts c)) N = 1) by now apply cox_sum.
    change (lo <= rsum (length (cpts c)) (fun j => N j * cpc c (cdim c - 1) j) <= hi /\
      Rabs (rsum (length (cpts c)) (fun j => N j * cpc c i j)) <= M * rsum (length (cpts c)) (fun j => N j * cpc c (cdim c - 1) j)).
    assert (B : forall j, (j < length (cpts c))%nat -> inbox (cdim c) i lo hi M (nth j (cpts c) [])) by (intros j Hj; apply Hb, nth_In, Hj).
    split; [split|].
    - replace lo with (lo * rsum (length (cpts c)) N) by (rewrite HS; lra). rewrite <- rsum_scal. apply rsum_le. intros j Hj.
      destruct (B j Hj) as ((A1 & A2) & A3). unfold cpc. specialize (HN j). nra.
    - replace hi with (hi * rsum (length (cpts c)) N) by (rewrite HS; lra). rewrite <- rsum_scal. apply rsum_le. intros j Hj.
      destruct (B j Hj) as ((A1 & A2) & A3). unfold cpc. specialize (HN j). nra.
    - rewrite <- rsum_scal. apply Rabs_le. split.
      + match goal with |- - ?x <= _ => replace (- x) with (-1 * x) by lra end. rewrite <- rsum_scal. apply rsum_le. intros j Hj. destruct (B j Hj) as ((A1 & A2) & A3). apply abs_inv in A3.
        unfold cpc. specialize (HN j). nra.
      + apply rsum_le. intros j Hj. destruct (B j Hj) as ((A1 & A2) & A3). apply abs_inv in A3. unfold cpc. specialize (HN j). nra.
  Qed.

  (** the points of the two curves *)
  Lemma close_point e cE cF i lo hi M u : curve_ok cE -> close e cE cF -> 0 < lo -> e (cdim cE - 1)%nat < lo ->
    Forall (inbox (cdim cE) i lo hi M) (cpts cE) -> dom0 cE <= u <= dom1 cE ->
    Rabs (nurbs cF i u - nurbs cE i u) <= (e i + M * e (cdim cE - 1)%nat) / (lo - e (cdim cE - 1)%nat).
  Proof.
    intros Hc Hcl Hlo He Hb Hu. destruct (inbox_sum cE i lo hi M u Hc Hb Hu) as ((W1 & W2) & A). unfold nurbs.
    apply (close_ratio _ _ _ _ _ _ lo M); auto; unfold wfun; [|rewrite (cl_dim _ _ _ Hcl)]; now apply close_hcoord.
  Qed.
  Lemma close_pts e cE cF i lo hi M : curve_ok cE -> close e cE cF -> 0 < lo -> e (cdim cE - 1)%nat < lo -> Forall (inbox (cdim cE) i lo hi M) (cpts cE) ->
    pos_weights cF /\ forall j, (j < length (cpts cF))%nat -> Rabs (cpc cF i j / cpc cF (cdim cF - 1) j) <= M + (e i + M * e (cdim cE - 1)%nat) / (lo - e (cdim cE - 1)%nat).
  Proof.
    intros Hc Hcl Hlo He Hb. rewrite Forall_forall in Hb.
    assert (G : forall j, (j < length (cpts cF))%nat -> 0 < cpc cF (cdim cE - 1) j /\
      Rabs (cpc cF i j / cpc cF (cdim cE - 1) j - cpc cE i j / cpc cE (cdim cE - 1) j) <= (e i + M * e (cdim cE - 1)%nat) / (lo - e (cdim cE - 1)%nat) /\
      Rabs (cpc cE i j / cpc cE (cdim cE - 1) j) <= M).
    { intros j Hj. rewrite (cl_len _ _ _ Hcl) in Hj. destruct (Hb (nth j (cpts cE) []) (nth_In _ _ Hj)) as ((A1 & A2) & A3).
      destruct (close_ratio (cpc cE i j) (cpc cE (cdim cE - 1) j) (cpc cF i j) (cpc cF (cdim cE - 1) j) (e i) (e (cdim cE - 1)%nat) lo M) as (P & Q); auto; try now apply Hcl.
      split; [exact P|]. split; [exact Q|]. change (lo <= cpc cE (cdim cE - 1) j) in A1. unfold Rdiv. rewrite Rabs_mult, (Rabs_pos_eq (/ _)) by (apply Rlt_le, Rinv_0_lt_compat; lra).
      apply Rmult_le_reg_r with (cpc cE (cdim cE - 1) j); [lra|]. rewrite Rmult_assoc, Rinv_l by lra. rewrite Rmult_1_r. exact A3. }
    split.
    - intros j Hj. rewrite (cl_dim _ _ _ Hcl). now apply G.
    - intros j Hj. rewrite (cl_dim _ _ _ Hcl). destruct (G j Hj) as (_ & Q & P).
      replace (cpc cF i j / cpc cF (cdim cE - 1) j) with (cpc cE i j / cpc cE (cdim cE - 1) j + (cpc cF i j / cpc cF (cdim cE - 1) j - cpc cE i j / cpc cE (cdim cE - 1) j)) by ring.
      eapply Rle_trans; [apply Rabs_triang|]. lra.
  Qed.
End Close.

Section Rounded.
  Variable mu : R.
  Variable rnd : R -> R.
  Variables eps maxv : R.
  Hypothesis Hr : rounding mu rnd.
  Local Notation FL := (FlOps rnd eps maxv).
  Local Notation RE := (ROps eps maxv).

  Lemma machine_in k : (forall x, In x k -> rnd x = x) -> k <> [] -> machine rnd k.
  Proof.
    intros H Hne i. apply H. destruct (Nat.lt_ge_cases i (length k)).
    - rewrite (kf_nth k i 0) by lia. now apply nth_In.
    - rewrite kf_ge by lia. rewrite last_nth by exact Hne. apply nth_In. destruct k; [congruence|cbn; lia].
  Qed.
  Lemma in_machine c x : curve_ok c -> machine rnd (cknots c) -> In x (cknots c) -> rnd x = x.
  Proof. intros Hc H Hx. destruct (In_nth _ _ 0 Hx) as (i & Hi & <-). rewrite <- (kf_nth (cknots c) i 0) by lia. apply H. Qed.

  (** data of a curve in homogeneous form: weights in [lo, hi], Cartesian coordinates bounded by [M] *)
  Definition curve_box (c : Curve R) (i : nat) (lo hi M : R) : Prop :=
    (forall j, (j < length (cpts c))%nat -> lo <= cpc c (cdim c - 1) j <= hi) /\
    (forall j, (j < length (cpts c))%nat -> Rabs (cpc c i j / cpc c (cdim c - 1) j) <= M).
  Lemma curve_box_in c i lo hi M : 0 < lo -> curve_box c i lo hi M -> Forall (inbox (cdim c) i lo hi M) (cpts c).
  Proof.
    intros Hlo (A & B). apply Forall_forall. intros q Hq. destruct (In_nth _ _ [] Hq) as (j & Hj & <-). specialize (A j Hj). specialize (B j Hj).
    split; [exact A|]. unfold Rdiv in B. rewrite Rabs_mult, (Rabs_pos_eq (/ _)) in B by (apply Rlt_le, Rinv_0_lt_compat; lra).
    apply (Rmult_le_compat_r (cpc c (cdim c - 1) j)) in B; [|lra]. rewrite Rmult_assoc, Rinv_l in B by lra. rewrite Rmult_1_r in B. exact B.
  Qed.
  Lemma curve_box_bounds c i lo hi M : curve_ok c -> 0 < lo -> curve_box c i lo hi M -> 0 <= M /\ lo <= hi /\
    (forall t, (t < length (cpts c))%nat -> Rabs (cpc c i t) <= M * hi) /\ (forall t, (t < length (cpts c))%nat -> Rabs (cpc c (cdim c - 1) t) <= hi).
  Proof.
    intros Hc Hlo Hb. pose proof (curve_box_in c i lo hi M Hlo Hb) as Hf. rewrite Forall_forall in Hf. destruct Hb as (A & B).
    pose proof (co_len c Hc) as Hl. pose proof (B 0%nat ltac:(lia)) as B0. pose proof (A 0%nat ltac:(lia)) as A0.
    assert (HM : 0 <= M) by (eapply Rle_trans; [apply Rabs_pos|exact B0]). split; [exact HM|]. split; [lra|]. split.
    - intros t Ht. destruct (Hf (nth t (cpts c) []) (nth_In _ _ Ht)) as ((A1 & A2) & A3). eapply Rle_trans; [exact A3|]. now apply Rmult_le_compat_l.
    - intros t Ht. specialize (A t Ht). rewrite Rabs_pos_eq; lra.
  Qed.

  (** what is inherited by the two runs: [g] is the accumulated rounding of the control points *)
  Section Transfer.
    Variables (c cE cF : Curve R) (i : nat) (lo hi M g a b : R).
    Hypothesis (Hc : curve_ok c) (HE : curve_ok cE) (HEe : curve_eps eps cE) (Hk : machine rnd (cknots cE)) (Hdim : cdim cE = cdim c) (Hdeg : cdeg cE = cdeg c).
    Hypothesis (Hdom0 : dom0 cE = a) (Hdom1 : dom1 cE = b) (Hh : forall i u, a <= u <= b -> hcoord cE i u = hcoord c i u).
    Hypothesis (Hlo : 0 < lo) (Hb : curve_box c i lo hi M) (Hi : (i < cdim c - 1)%nat) (Hg : 0 <= g) (Hglo : g * hi < lo).
    Hypothesis HC : forall m, (forall i t, (t < length (cpts c))%nat -> Rabs (cpc c i t) <= m i) -> close (fun i => g * m i) cE cF.
    Hypothesis HQ : forall Q, convex_set eps maxv (cdim c) Q -> Forall Q (cpts c) -> Forall Q (cpts cE).

    Lemma transfer_close : close (fun k => if (k =? i)%nat then g * (M * hi) else if (k =? cdim c - 1)%nat then g * hi else Rabs (g * (rsum (length (cpts c)) (fun t => Rabs (cpc c k t))))) cE cF.
    Proof.
      destruct (curve_box_bounds c i lo hi M Hc Hlo Hb) as (HM & Hlh & B1 & B2).
      specialize (HC (fun k => if (k =? i)%nat then M * hi else if (k =? cdim c - 1)%nat then hi else rsum (length (cpts c)) (fun t => Rabs (cpc c k t)))).
      destruct HC as [A B C D E F].
      - intros k t Ht. destruct (Nat.eqb_spec k i) as [->|]; [now apply B1|]. destruct (Nat.eqb_spec k (cdim c - 1)) as [->|]; [now apply B2|].
        clear - Ht. induction (length (cpts c)) as [|n IH]; [lia|]. cbn [rsum]. destruct (Nat.eq_dec t n) as [->|].
        + assert (0 <= rsum n (fun t => Rabs (cpc c k t))) by (apply rsum_nonneg; intros; apply Rabs_pos). lra.
        + specialize (IH ltac:(lia)). pose proof (Rabs_pos (cpc c k n)). lra.
      - constructor; auto. intros k j Hj. specialize (F k j Hj). cbv beta in F. destruct (k =? i)%nat; [exact F|]. destruct (k =? cdim c - 1)%nat; [exact F|].
        eapply Rle_trans; [exact F|apply Rle_abs].
    Qed.

    Local Notation err := (2 * (g * hi) * M / (lo - g * hi)).
    Lemma transfer_points : curve_ok cF /\ curve_eps eps cF /\ cknots cF = cknots cE /\ cdim cF = cdim c /\ pos_weights cF /\
      forall u, a <= u <= b ->
        Rabs (nurbs cF i u - nurbs c i u) <= err /\
        exists p, @point_at R FL cF u = Ok p /\ Rabs (rc i p - nurbs c i u) <= err + gam mu (14 * cdeg c + 5) * (M + err).
    Proof.
      pose proof transfer_close as Hcl. set (e := fun k : nat => _) in Hcl.
      assert (Hei : e i = g * (M * hi)) by (unfold e; now rewrite Nat.eqb_refl).
      assert (Hew : e (cdim cE - 1)%nat = g * hi).
      { unfold e. rewrite Hdim. destruct (Nat.eqb_spec (cdim c - 1) i); [lia|]. now rewrite Nat.eqb_refl. }
      assert (Hbx : Forall (inbox (cdim cE) i lo hi M) (cpts cE)).
      { rewrite Hdim. apply HQ; [apply inbox_convex|now apply curve_box_in]. }
      assert (Hlt : e (cdim cE - 1)%nat < lo) by (rewrite Hew; exact Hglo).
      destruct (close_pts e cE cF i lo hi M HE Hcl Hlo Hlt Hbx) as (Hpw & Hcp).
      assert (Ex : (e i + M * e (cdim cE - 1)%nat) / (lo - e (cdim cE - 1)%nat) = err) by (rewrite Hei, Hew; f_equal; ring).
      rewrite Ex in Hcp.
      pose proof (close_ok e cE cF HE Hcl) as HF. pose proof (close_eps e cE cF eps Hcl HEe) as HFe.
      split; [exact HF|]. split; [exact HFe|]. split; [apply Hcl|]. split; [rewrite <- Hdim; apply Hcl|]. split; [exact Hpw|]. intros u Hu.
      assert (N1 : nurbs cE i u = nurbs c i u) by (unfold nurbs, wfun; rewrite Hdim, !Hh by exact Hu; reflexivity).
      assert (P1 : Rabs (nurbs cF i u - nurbs c i u) <= err).
      { rewrite <- N1, <- Ex. apply (close_point e cE cF i lo hi M); auto. rewrite Hdom0, Hdom1. exact Hu. }
      split; [exact P1|].
      assert (D : dom0 cF = dom0 cE /\ dom1 cF = dom1 cE).
      { unfold dom0, dom1. now rewrite (cl_knots _ _ _ Hcl), (cl_deg _ _ _ Hcl), (cl_len _ _ _ Hcl). } destruct D as (D0 & D1).
      destruct (point_at_rounded mu rnd eps maxv Hr cF u HF HFe) as (p & Ep & Lp & Hp); [rewrite (cl_knots _ _ _ Hcl); exact Hk|exact Hpw|lra|].
      exists p. split; [exact Ep|]. specialize (Hp i (M + err)). rewrite (cl_dim _ _ _ Hcl), Hdim, (cl_deg _ _ _ Hcl), Hdeg in Hp. rewrite (cl_dim _ _ _ Hcl), Hdim in Hcp.
      specialize (Hp Hi Hcp). replace (rc i p - nurbs c i u) with ((rc i p - nurbs cF i u) + (nurbs cF i u - nurbs c i u)) by ring.
      eapply Rle_trans; [apply Rabs_triang|]. lra.
    Qed.
  End Transfer.

  (** ** Refinement *)
  Theorem refine_point_rounded c xs i lo hi M :
    curve_ok c -> curve_eps eps c -> machine rnd (cknots c) -> (forall x, In x xs -> rnd x = x) ->
    refine_ok (eps / (1 - mu)) c xs -> inside c xs -> 0 < lo -> curve_box c i lo hi M -> (i < cdim c - 1)%nat ->
    gam mu (11 * length xs) * hi < lo ->
    exists cF, @try_refine_knot R FL c xs = Ok cF /\ curve_ok cF /\ curve_eps eps cF /\ pos_weights cF /\ Permutation (cknots cF) (cknots c ++ xs) /\
      let e := 2 * (gam mu (11 * length xs) * hi) * M / (lo - gam mu (11 * length xs) * hi) in
      forall u, dom0 c <= u <= dom1 c ->
        Rabs (nurbs cF i u - nurbs c i u) <= e /\
        exists p, @point_at R FL cF u = Ok p /\ Rabs (rc i p - nurbs c i u) <= e + gam mu (14 * cdeg c + 5) * (M + e).
  Proof.
    intros Hc He Hk Hxk Hx Hin Hlo Hb Hi Hg. pose proof He as (He0 & _). pose proof (refine_ok_weak mu rnd eps Hr c xs He0 Hx) as Hx'.
    destruct (refine_rounded mu rnd eps maxv Hr c xs Hc He Hk Hx) as (cE & cF & E & EF & A & B & C & D & Pt & Er).
    destruct (refine_spec eps maxv c xs Hc He Hx') as (cE' & E' & Sc & Ok' & Pm & Ln). rewrite E in E'. injection E' as <-.
    destruct (Ok' Hin) as (HE & HEe). exists cF. split; [exact EF|].
    assert (HkE : machine rnd (cknots cE)).
    { apply machine_in.
      - intros x Hxin. apply (Permutation_in _ Pm) in Hxin. apply in_app_or in Hxin. destruct Hxin as [Hi'|Hi']; [now apply (in_machine c)|auto].
      - pose proof (curve_len cE HE). destruct (cknots cE); [cbn in *; lia|discriminate]. }
    destruct (transfer_points c cE cF i lo hi M (gam mu (11 * length xs)) (dom0 c) (dom1 c) Hc HE HEe HkE) as (P1 & P2 & P3 & P4 & P5 & P6); auto.
    - apply (sc_dim _ _ Sc).
    - apply (sc_deg _ _ Sc).
    - apply (sc_dom0 _ _ Sc).
    - apply (sc_dom1 _ _ Sc).
    - intros k u Hu. now apply same_hcoord.
    - intros m Hm. constructor; try assumption; [rewrite (sc_dim _ _ Sc); exact Pt|]. intros k j Hj. apply Er; auto.
    - intros Q HQ HF. apply (refine_convex eps maxv c xs cE Q); auto.
    - split; [exact P1|]. split; [exact P2|]. split; [exact P5|]. split; [rewrite P3; exact Pm|]. exact P6.
  Qed.

  (** ** Splitting *)
  Lemma try_new_any D p pts pts' k l : @try_new R RE D p pts k = Ok l -> length pts' = length pts ->
    @try_new R FL D p pts' k = Ok (MkCurve D p pts' (cknots l)) /\ l = MkCurve D p pts (cknots l).
  Proof.
    intros E L. change (@try_new R FL D p pts' k) with (@try_new R RE D p pts' k). unfold try_new in *. rewrite L.
    destruct (ensure (p <? length pts)%nat _); try discriminate E. cbn [bind] in *. destruct (ensure (length k =? _)%nat _); try discriminate E. cbn [bind] in *.
    destruct (sort_knots k); try discriminate E. cbn [bind] in *. injection E as <-. auto.
  Qed.
  Lemma try_new_close D p pts pts' k l e : @try_new R RE D p pts k = Ok l -> length pts' = length pts -> Forall (fun q => length q = D) pts' ->
    (forall i j, (j < length pts)%nat -> Rabs (rc i (nth j pts' []) - rc i (nth j pts [])) <= e i) -> close e l (MkCurve D p pts' (cknots l)).
  Proof. intros E L F H. destruct (try_new_any D p pts pts' k l E L) as (_ & El). rewrite El. cbn [cknots]. constructor; auto. Qed.
  Lemma split_rounded c u : curve_ok c -> curve_eps eps c -> machine rnd (cknots c) -> dom0 c <= u <= dom1 c -> sep_from (eps / (1 - mu)) c u ->
    exists lE rE lF rF, @try_split R RE c u = Ok (lE, rE) /\ @try_split R FL c u = Ok (lF, rF) /\
      forall m, (forall i t, (t < length (cpts c))%nat -> Rabs (cpc c i t) <= m i) ->
        close (fun i => gam mu (11 * (cdeg c + 1)) * m i) lE lF /\ close (fun i => gam mu (11 * (cdeg c + 1)) * m i) rE rF.
  Proof.
    intros Hc He Hk Hu Hs. pose proof He as (He0 & _).
    assert (Hmu : 0 < 1 - mu) by (pose proof (rd_mu _ _ Hr); lra).
    assert (He1 : 0 < eps / (1 - mu)) by (apply Rdiv_lt_0_compat; lra).
    pose proof (sep_refine (eps / (1 - mu)) c u (cdeg c + 1) He1 Hu Hs) as Hx.
    pose proof (refine_ok_weak mu rnd eps Hr c _ He0 Hx) as Hx'.
    destruct (refine_rounded mu rnd eps maxv Hr c _ Hc He Hk Hx) as (cE & cF & E & EF & A & B & C & D & Pt & Er). rewrite repeat_length in Er.
    assert (Hs' : sep_from eps c u).
    { intros y Hy. destruct (Hs y Hy) as [|H]; [now left|]. right. eapply Rle_trans; [|exact H]. apply Rmult_le_reg_r with (1 - mu); [exact Hmu|].
      unfold Rdiv. rewrite Rmult_assoc, Rinv_l by lra. pose proof (rd_mu _ _ Hr). nra. }
    destruct (split_parts eps maxv c u Hc He Hu Hs') as (lE & rE & s & ES & Hsp & Hsi & _).
    destruct (span_of eps maxv c u Hc He Hu) as (s0 & Hs0 & Hin0 & Efs).
    assert (Efs' : @find_span R FL (cknots c) (clast c) (cdeg c) u = Ok s0) by (rewrite <- Efs; now apply (find_span_same mu)).
    exists lE, rE. unfold try_split in ES |- *.
    rewrite (kclamp_id eps maxv) in ES by auto. change (@kclamp R FL (cknots c) (cdeg c) u) with (@kclamp R RE (cknots c) (cdeg c) u). rewrite (kclamp_id eps maxv) by auto.
    cbn [bind] in ES |- *. rewrite E in ES. rewrite E, EF. cbn [bind] in ES |- *. rewrite (last_index_ok c Hc) in ES. rewrite (last_index_ok c Hc). cbn [bind] in ES |- *.
    rewrite Efs in ES. rewrite Efs, Efs'. cbn [bind] in ES |- *. rewrite C.
    destruct (slice (cknots cE) 0 (s0 + cdeg c + 1 + 1)) as [k0| | |]; try discriminate ES. cbn [bind] in ES |- *.
    destruct (slice (cknots cE) (s0 + 1) (length (cknots cE))) as [k1| | |]; try discriminate ES. cbn [bind] in ES |- *.
    rewrite D. unfold slice in ES |- *. rewrite D.
    destruct ((0 <=? s0 + 1) && (s0 + 1 <=? length (cpts cE)))%nat; [|discriminate ES]. cbn [bind] in ES |- *.
    destruct ((s0 + 1 <=? length (cpts cE)) && (length (cpts cE) <=? length (cpts cE)))%nat; [|discriminate ES]. cbn [bind] in ES |- *. cbn [skipn] in ES |- *.
    destruct (@try_new R RE (cdim c) (cdeg c) (firstn (s0 + 1 - 0) (cpts cE)) k0) as [l0| | |] eqn:E0; try discriminate ES. cbn [bind] in ES |- *.
    destruct (@try_new R RE (cdim c) (cdeg c) (firstn (length (cpts cE) - (s0 + 1)) (skipn (s0 + 1) (cpts cE))) k1) as [r0| | |] eqn:E1; try discriminate ES. cbn [bind] in ES |- *.
    injection ES as <- <-.
    set (pl := firstn (s0 + 1 - 0) (cpts cF)). set (pr := firstn (length (cpts cE) - (s0 + 1)) (skipn (s0 + 1) (cpts cF))).
    assert (Ll : length pl = length (firstn (s0 + 1 - 0) (cpts cE))) by (unfold pl; rewrite !firstn_length; lia).
    assert (Lr : length pr = length (firstn (length (cpts cE) - (s0 + 1)) (skipn (s0 + 1) (cpts cE)))) by (unfold pr; rewrite !firstn_length, !skipn_length; lia).
    exists (MkCurve (cdim c) (cdeg c) pl (cknots l0)), (MkCurve (cdim c) (cdeg c) pr (cknots r0)). split; [reflexivity|].
    destruct (try_new_any _ _ _ pl _ _ E0 Ll) as (-> & _). cbn [bind]. destruct (try_new_any _ _ _ pr _ _ E1 Lr) as (-> & _). cbn [bind]. split; [reflexivity|].
    intros m Hm. rewrite Forall_forall in Pt. split.
    - eapply try_new_close; [exact E0|exact Ll| |].
      + apply Forall_forall. intros q Hq. apply Pt. rewrite <- (firstn_skipn (s0 + 1 - 0) (cpts cF)). apply in_or_app. now left.
      + intros i j Hj. rewrite firstn_length in Hj. unfold pl. rewrite !nth_firstn by lia. apply (Er i j (m i)); [auto|lia].
    - eapply try_new_close; [exact E1|exact Lr| |].
      + apply Forall_forall. intros q Hq. apply Pt. rewrite <- (firstn_skipn (s0 + 1) (cpts cF)). apply in_or_app. right.
        rewrite <- (firstn_skipn (length (cpts cE) - (s0 + 1)) (skipn (s0 + 1) (cpts cF))). apply in_or_app. now left.
      + intros i j Hj. rewrite firstn_length, skipn_length in Hj. unfold pr. rewrite !nth_firstn by lia. rewrite !nth_skipn. apply (Er i _ (m i)); [auto|lia].
  Qed.

  (** the two computed halves, and the points computed on them, against the curve that was split *)
  Theorem split_point_rounded c u i lo hi M :
    curve_ok c -> curve_eps eps c -> machine rnd (cknots c) -> rnd u = u -> dom0 c < u < dom1 c -> off_knots (eps / (1 - mu)) c u ->
    0 < lo -> curve_box c i lo hi M -> (i < cdim c - 1)%nat -> gam mu (11 * (cdeg c + 1)) * hi < lo ->
    exists l r, @try_split R FL c u = Ok (l, r) /\
      curve_ok l /\ curve_eps eps l /\ pos_weights l /\ dom0 l = dom0 c /\ dom1 l = u /\
      curve_ok r /\ curve_eps eps r /\ pos_weights r /\ dom0 r = u /\ dom1 r = dom1 c /\
      let g := gam mu (11 * (cdeg c + 1)) * hi in
      let e := 2 * g * M / (lo - g) in
      (forall v, dom0 c <= v <= u -> Rabs (nurbs l i v - nurbs c i v) <= e /\
         exists p, @point_at R FL l v = Ok p /\ Rabs (rc i p - nurbs c i v) <= e + gam mu (14 * cdeg c + 5) * (M + e)) /\
      (forall v, u <= v <= dom1 c -> Rabs (nurbs r i v - nurbs c i v) <= e /\
         exists p, @point_at R FL r v = Ok p /\ Rabs (rc i p - nurbs c i v) <= e + gam mu (14 * cdeg c + 5) * (M + e)).
  Proof.
    intros Hc He Hk Hku Hu Ho Hlo Hb Hi Hg. pose proof He as (He0 & _).
    assert (Hmu : 0 < 1 - mu) by (pose proof (rd_mu _ _ Hr); lra).
    assert (He1 : 0 < eps / (1 - mu)) by (apply Rdiv_lt_0_compat; lra).
    assert (Ho' : off_knots eps c u).
    { intros y Hy. specialize (Ho y Hy). eapply Rle_trans; [|exact Ho]. apply Rmult_le_reg_r with (1 - mu); [exact Hmu|].
      unfold Rdiv. rewrite Rmult_assoc, Rinv_l by lra. pose proof (rd_mu _ _ Hr). nra. }
    pose proof (off_sep eps c u Ho') as Hs.
    destruct (split_rounded c u Hc He Hk ltac:(lra) (off_sep _ c u Ho)) as (lE & rE & lF & rF & E & EF & Cl).
    destruct (split_parts eps maxv c u Hc He ltac:(lra) Hs) as (l2 & r2 & s & E2 & S1 & S2 & Pl & Pr & Kl & Kr).
    rewrite E in E2. injection E2 as <- <-.
    destruct (split_left_ok eps c lE u s Hc He Hs S1 S2 Pl Kl) as (Ol & El).
    { apply (off_lt eps); auto; [lia|apply S2]. }
    destruct (split_right_ok eps c rE u s Hc He Hs S1 S2 Pr Kr ltac:(lra)) as (Or & Er).
    assert (Hcv : forall Q, convex_set eps maxv (cdim c) Q -> Forall Q (cpts c) -> Forall Q (cpts lE) /\ Forall Q (cpts rE)).
    { intros Q HQ HF. apply (split_convex eps maxv c u lE rE Q); auto. lra. }
    assert (Hin : forall x k, In x (repeat u k) -> rnd x = x) by (intros x k Hx; apply repeat_spec in Hx; now subst).
    assert (Hkl : machine rnd (cknots lE)).
    { apply machine_in; [|rewrite Kl; destruct (firstn _ _); [|discriminate]; rewrite Nat.add_1_r; discriminate]. intros x Hx. rewrite Kl in Hx. apply in_app_or in Hx. destruct Hx as [Hx|Hx]; [|eauto].
      apply (in_machine c); auto. rewrite <- (firstn_skipn (S s) (cknots c)). apply in_or_app. now left. }
    assert (Hkr : machine rnd (cknots rE)).
    { apply machine_in; [|rewrite Kr, Nat.add_1_r; discriminate]. intros x Hx. rewrite Kr in Hx. apply in_app_or in Hx. destruct Hx as [Hx|Hx]; [eauto|].
      apply (in_machine c); auto. rewrite <- (firstn_skipn (S s) (cknots c)). apply in_or_app. now right. }
    exists lF, rF. split; [exact EF|].
    destruct (transfer_points c lE lF i lo hi M (gam mu (11 * (cdeg c + 1))) (dom0 c) u Hc Ol El Hkl) as (A1 & A2 & A3 & A4 & A5 & A6); auto; try apply Pl.
    { intros k v Hv. apply (part_hcoord c lE (dom0 c) u); auto. now apply (off_good eps). }
    { intros m Hm. now apply Cl. }
    { intros Q HQ HF. now apply Hcv. }
    destruct (transfer_points c rE rF i lo hi M (gam mu (11 * (cdeg c + 1))) u (dom1 c) Hc Or Er Hkr) as (B1 & B2 & B3 & B4 & B5 & B6); auto; try apply Pr.
    { intros k v Hv. apply (part_hcoord c rE u (dom1 c)); auto. right. now left. }
    { intros m Hm. now apply Cl. }
    { intros Q HQ HF. now apply Hcv. }
    assert (Dl : forall X Y e, close e X Y -> dom0 Y = dom0 X /\ dom1 Y = dom1 X).
    { intros X Y e Hcl. unfold dom0, dom1. now rewrite (cl_knots _ _ _ Hcl), (cl_deg _ _ _ Hcl), (cl_len _ _ _ Hcl). }
    destruct (Cl (fun k => rsum (length (cpts c)) (fun t => Rabs (cpc c k t)))) as (C1 & C2).
    { intros k t Ht. clear - Ht. induction (length (cpts c)) as [|n IH]; [lia|]. cbn [rsum]. destruct (Nat.eq_dec t n) as [->|].
      + assert (0 <= rsum n (fun t => Rabs (cpc c k t))) by (apply rsum_nonneg; intros; apply Rabs_pos). lra.
      + specialize (IH ltac:(lia)). pose proof (Rabs_pos (cpc c k n)). lra. }
    destruct (Dl _ _ _ C1) as (F1 & F2). destruct (Dl _ _ _ C2) as (F3 & F4).
    split; [exact A1|]. split; [exact A2|]. split; [exact A5|]. split; [rewrite F1; apply Pl|]. split; [rewrite F2; apply Pl|].
    split; [exact B1|]. split; [exact B2|]. split; [exact B5|]. split; [rewrite F3; apply Pr|]. split; [rewrite F4; apply Pr|].
    cbv zeta. split; [exact A6|exact B6].
  Qed.
End Rounded.
