(** * Closest parameter on a straight segment: the exact answer *)
From Coq Require Import Reals Lra Lia.
From Verif Require Import Base BaseFacts Scalar RSum BSplineSpec BSpline BSplineDeriv KnotModel KnotSpec KnotFacts VecFacts
  CurveModel CurveSpec CurveProofs CurveGeom CurveGeom2 CurveShapes CurveDeriv MiscModel MiscProofs LengthProofs LengthLine ClosestModel NewtonProofs NewtonMain.
Open Scope R_scope.

Section Real.
  Variables eps maxv : R.
  Local Hint Extern 0 (Scalar R) => exact (ROps eps maxv) : typeclass_instances.

  Lemma best_ratio v d s : 0 < v -> 0 <= s <= 1 -> (forall r, 0 <= r <= 1 -> - (2 * s * d) + s * s * v <= - (2 * r * d) + r * r * v) ->
    s = Rmax 0 (Rmin 1 (d / v)).
  Proof.
    intros Hv Hs Opt. set (q := d / v). assert (Eq : d = q * v) by (unfold q; field; lra).
    assert (O : forall r, 0 <= r <= 1 -> (s - r) * (s + r - 2 * q) <= 0).
    { intros r Hr. specialize (Opt r Hr). apply Rmult_le_reg_r with v; [lra|]. rewrite Rmult_0_l. rewrite Eq in Opt.
      replace ((s - r) * (s + r - 2 * q) * v) with ((- (2 * s * (q * v)) + s * s * v) - (- (2 * r * (q * v)) + r * r * v)) by ring. lra. }
    destruct (Rlt_le_dec q 0) as [C|C].
    - rewrite Rmin_right, Rmax_left by lra. specialize (O 0 ltac:(lra)). nra.
    - destruct (Rlt_le_dec 1 q) as [C'|C'].
      + rewrite Rmin_left, Rmax_right by lra. specialize (O 1 ltac:(lra)). nra.
      + rewrite Rmin_right, Rmax_right by lra. specialize (O q ltac:(lra)).
        assert (Z : (s - q) * (s - q) <= 0) by lra. assert (0 <= (s - q) * (s - q)) by apply Rle_0_sqr.
        apply Rminus_diag_uniq. apply Rsqr_0_uniq. unfold Rsqr. lra.
  Qed.

  Lemma line_weights s j : bezier_seg eps s -> cdeg s = 1%nat -> unit_weights s -> (j <= 1)%nat -> cpc s (cdim s - 1) j = 1.
  Proof.
    intros H Hd Hu Hj. unfold unit_weights in Hu. rewrite Forall_forall in Hu. unfold cpc. apply Hu. apply nth_In. rewrite (bg_len _ _ H). lia.
  Qed.

  Lemma line_ratd0 s i u : bezier_seg eps s -> cdeg s = 1%nat -> unit_weights s -> (i < cdim s - 1)%nat ->
    ratd s 1 i 0 u = cpc s i 0 + (u - dom0 s) / (dom1 s - dom0 s) * (cpc s i 1 - cpc s i 0).
  Proof.
    intros H Hd Hu Hi. destruct (seg_dom eps s H) as (D0 & D1 & Dl). unfold ratd. rewrite cq_eq. cbn [rsum].
    rewrite !(line_piece eps) by auto. rewrite !(line_weights s) by auto. field. lra.
  Qed.
  Lemma line_ratd1 s i u : bezier_seg eps s -> cdeg s = 1%nat -> unit_weights s -> (i < cdim s - 1)%nat ->
    ratd s 1 i 1 u = (cpc s i 1 - cpc s i 0) / (dom1 s - dom0 s).
  Proof.
    intros H Hd Hu Hi. destruct (seg_dom eps s H) as (D0 & D1 & Dl). unfold ratd. rewrite cq_eq. cbn [rsum pascal].
    rewrite !(line_piece_1 eps), !(line_piece eps) by auto. rewrite !(line_weights s) by auto. cbn [INR Nat.add]. field. lra.
  Qed.
  Lemma line_ratd2 s i u : bezier_seg eps s -> cdeg s = 1%nat -> unit_weights s -> (i < cdim s - 1)%nat -> ratd s 1 i 2 u = 0.
  Proof.
    intros H Hd Hu Hi. destruct (seg_dom eps s H) as (D0 & D1 & Dl). unfold ratd. rewrite cq_eq. cbn [rsum].
    rewrite !(line_piece_1 eps) by auto. rewrite !dpiece_high by lia. rewrite !(line_piece eps) by auto. rewrite !(line_weights s) by auto. field. lra.
  Qed.

  (** the problem on a segment: gradient and Hessian *)
  Definition line_dot (s : Curve R) (p : list R) : R := rsum (cdim s - 1) (fun i => (rc i p - cpc s i 0) * (cpc s i 1 - cpc s i 0)).
  Definition line_len2 (s : Curve R) : R := rsum (cdim s - 1) (fun i => (cpc s i 1 - cpc s i 0) * (cpc s i 1 - cpc s i 0)).

  Lemma line_derivs s u d : bezier_seg eps s -> cdeg s = 1%nat -> dom0 s <= u <= dom1 s ->
    exists ds, rational_derivatives s u d = Ok ds /\ length ds = S d /\
        forall m, (m <= d)%nat -> length (nth m ds []) = (cdim s - 1)%nat /\ forall i, (i < cdim s - 1)%nat -> rc i (nth m ds []) = ratd s 1 i m u.
  Proof.
    intros H Hd Hu. destruct (seg_dom eps s H) as (D0 & D1 & Dl). rewrite Hd in D0, D1.
    assert (Ec : clast s = 1%nat) by (rewrite (seg_clast eps s H); exact Hd).
    destruct (rational_derivatives_all eps maxv s 1) as (_ & V); try apply H; try lia; try lra.
    apply V. unfold in_span. rewrite D0, D1, Ec. split; [lra|]. split; [lra|]. destruct (Rlt_le_dec u (dom1 s)); [now left|right; split; [reflexivity|lra]].
  Qed.

  Lemma line_gradient s p u : bezier_seg eps s -> cdeg s = 1%nat -> unit_weights s -> length p = (cdim s - 1)%nat -> dom0 s <= u <= dom1 s ->
    curve_gradient s p u = Ok (((u - dom0 s) / (dom1 s - dom0 s) * line_len2 s - line_dot s p) / (dom1 s - dom0 s)).
  Proof.
    intros H Hd Hu Lp Hin. destruct (seg_dom eps s H) as (D0 & D1 & Dl).
    destruct (line_derivs s u 1) as (ds & E & L & V); auto. unfold curve_gradient. rewrite E. cbn [bind].
    rewrite !(get_ok _ _ []) by lia. cbn [bind]. f_equal. destruct (V 0%nat ltac:(lia)) as (L0 & V0). destruct (V 1%nat ltac:(lia)) as (L1 & V1).
    rewrite vdot_rsum by (rewrite (vsub_length _ _ (cdim s - 1)); auto). rewrite L1.
    unfold line_len2, line_dot. rewrite <- rsum_scal, <- rsum_minus.
    match goal with |- _ = ?S / ?D => replace (S / D) with (/ D * S) by (unfold Rdiv; ring) end. rewrite <- rsum_scal. apply rsum_ext. intros i Hi.
    rewrite rc_vsub by lia. rewrite V0, V1, line_ratd0, line_ratd1 by auto. field. lra.
  Qed.

  Lemma line_hessian s p u : bezier_seg eps s -> cdeg s = 1%nat -> unit_weights s -> length p = (cdim s - 1)%nat -> dom0 s <= u <= dom1 s ->
    curve_hessian s p u = Ok (line_len2 s / ((dom1 s - dom0 s) * (dom1 s - dom0 s))).
  Proof.
    intros H Hd Hu Lp Hin. destruct (seg_dom eps s H) as (D0 & D1 & Dl).
    destruct (line_derivs s u 2) as (ds & E & L & V); auto. unfold curve_hessian. rewrite E. cbn [bind].
    rewrite !(get_ok _ _ []) by lia. cbn [bind]. f_equal. destruct (V 0%nat ltac:(lia)) as (L0 & V0). destruct (V 1%nat ltac:(lia)) as (L1 & V1).
    destruct (V 2%nat ltac:(lia)) as (L2 & V2).
    rewrite !vdot_rsum by (rewrite ?(vsub_length _ _ (cdim s - 1)); auto). rewrite L1, L2. rs.
    rewrite (rsum_0 (cdim s - 1)) by (intros i Hi; rewrite V2, line_ratd2 by auto; ring). rewrite Rplus_0_l.
    unfold line_len2.
    match goal with |- _ = ?S / ?D => replace (S / D) with (/ D * S) by (unfold Rdiv; ring) end. rewrite <- rsum_scal. apply rsum_ext. intros i Hi. rewrite V1, line_ratd1 by auto. field. lra.
  Qed.

  Lemma line_point s u : bezier_seg eps s -> cdeg s = 1%nat -> unit_weights s -> dom0 s <= u <= dom1 s ->
    exists q, point_at s u = Ok q /\ length q = (cdim s - 1)%nat /\
      forall i, (i < cdim s - 1)%nat -> rc i q = cpc s i 0 + (u - dom0 s) / (dom1 s - dom0 s) * (cpc s i 1 - cpc s i 0).
  Proof.
    intros H Hd Hu Hin. destruct (guess_points eps maxv s u) as (q & E & L & V); try apply H; auto. exists q. split; [exact E|]. split; [exact L|].
    intros i Hi. rewrite V by auto. destruct (derivs_total eps maxv s u 0) as (ds & Ed & Ld & _ & V0); try apply H; auto.
    destruct (line_derivs s u 0) as (ds' & Ed' & _ & V'); auto. rewrite Ed in Ed'. injection Ed' as <-.
    rewrite <- V0 by auto. destruct (V' 0%nat ltac:(lia)) as (_ & V''). rewrite V'' by auto. now apply line_ratd0.
  Qed.

  Lemma line_dist2 s p u q : bezier_seg eps s -> cdeg s = 1%nat -> unit_weights s -> length p = (cdim s - 1)%nat -> dom0 s <= u <= dom1 s ->
    point_at s u = Ok q ->
    let r := (u - dom0 s) / (dom1 s - dom0 s) in
    dist2 p q = rsum (cdim s - 1) (fun i => (rc i p - cpc s i 0) * (rc i p - cpc s i 0)) + (- (2 * r * line_dot s p) + r * r * line_len2 s).
  Proof.
    intros H Hd Hu Lp Hin E r. destruct (line_point s u) as (q' & E' & L & V); auto. rewrite E in E'. injection E' as <-.
    unfold dist2. rewrite Lp. unfold line_dot, line_len2.
    rewrite Ropp_mult_distr_l, <- !rsum_scal, <- !rsum_plus. apply rsum_ext. intros i Hi. rewrite V by auto. fold r. ring.
  Qed.

  (** *** The answer for a straight segment is its nearest point *)
  Theorem closest_on_line s p : 0 < eps -> bezier_seg eps s -> cdeg s = 1%nat -> unit_weights s -> length p = (cdim s - 1)%nat ->
    is_closed s = Ok false -> eps <= edge s 0 1 -> (exists q, point_at s (dom0 s) = Ok q /\ sqrt (dist2 p q) < maxv) ->
    exists t q, find_closest_parameter s p = Ok t /\ dom0 s <= t <= dom1 s /\ point_at s t = Ok q /\
      forall u q', dom0 s <= u <= dom1 s -> point_at s u = Ok q' -> dist2 p q <= dist2 p q'.
  Proof.
    intros He H Hd Hu Lp Hcl Hedge Hmax. destruct (seg_dom eps s H) as (D0 & D1 & Dl).
    pose proof (bg_len _ _ H) as Hlen. rewrite Hd in Hlen.
    destruct (closest_guess_spec eps maxv s p) as (pts & u & Ln & Vs & Eg & Hin & Hbest); try apply H; auto; [lia|].
    rewrite Hlen, Hd in Ln. cbn [Nat.mul Nat.add] in Ln. rewrite Ln in Vs.
    destruct (Vs 0%nat ltac:(lia)) as (F0 & P0). destruct (Vs 1%nat ltac:(lia)) as (F1 & P1).
    assert (S0 : sample_u s 2 0 = dom0 s) by (unfold sample_u; cbn [INR]; ring).
    assert (S1 : sample_u s 2 1 = dom1 s) by (unfold sample_u; cbn [INR]; field).
    rewrite S0 in F0, P0. rewrite S1 in F1, P1. set (q0 := snd (nth 0 pts (0, []))) in *. set (q1 := snd (nth 1 pts (0, []))) in *.
    destruct (line_point s (dom0 s)) as (x & E0 & L0 & V0); auto; [lra|]. rewrite P0 in E0. injection E0 as <-.
    destruct (line_point s (dom1 s)) as (x & E1 & L1 & V1); auto; [lra|]. rewrite P1 in E1. injection E1 as <-.
    assert (W0 : forall i, (i < cdim s - 1)%nat -> rc i q0 = cpc s i 0) by (intros i Hi; rewrite V0 by auto; field; lra).
    assert (W1 : forall i, (i < cdim s - 1)%nat -> rc i q1 = cpc s i 1) by (intros i Hi; rewrite V1 by auto; field; lra).
    assert (Ev : dist2 q1 q0 = line_len2 s).
    { unfold dist2, line_len2. rewrite L1. apply rsum_ext. intros i Hi. now rewrite W0, W1. }
    assert (Hv : 0 < line_len2 s).
    { change (edge s 0 1) with (sqrt (line_len2 s)) in Hedge. destruct (Rlt_le_dec 0 (line_len2 s)) as [C|C]; [exact C|]. rewrite sqrt_neg_0 in Hedge by auto. lra. }
    destruct Hbest as (m & On & Lb).
    { intros i Hi. rewrite Ln in Hi. replace i with 0%nat by lia. fold q0 q1. rewrite Ev. exact Hedge. }
    { exact Hmax. }
    destruct On as (i & r & Hi & Hr & Eu & Em). rewrite Ln in Hi. replace i with 0%nat in * by lia. clear i Hi. rewrite F0, F1 in Eu. fold q0 q1 in Em.
    assert (Er : (u - dom0 s) / (dom1 s - dom0 s) = r) by (rewrite Eu; field; lra).
    assert (Sg : forall x, 0 <= x <= 1 -> dist2 p (seg_at q0 q1 x) = dist2 p q0 + (- (2 * x * line_dot s p) + x * x * line_len2 s)).
    { intros x Hx. rewrite (dist2_seg p q0 q1 x (cdim s - 1)) by auto. rewrite Ev.
      replace (rsum (cdim s - 1) (fun i => (rc i p - rc i q0) * (rc i q1 - rc i q0))) with (line_dot s p); [ring|].
      unfold line_dot. apply rsum_ext. intros i Hi. now rewrite W0, W1. }
    assert (Eopt : r = Rmax 0 (Rmin 1 (line_dot s p / line_len2 s))).
    { apply best_ratio; auto. intros x Hx. specialize (Lb 0%nat x ltac:(lia) Hx). fold q0 q1 in Lb. rewrite Em in Lb.
      apply sqrt_le_0 in Lb; try apply dist2_nonneg. rewrite !Sg in Lb by auto. lra. }
    set (w := line_dot s p / line_len2 s) in *.
    destruct (line_point s u) as (q & Eq & Lq & Vq); auto.
    exists u, q. split; [|split; [exact Hin|]; split; [exact Eq|]].
    - unfold find_closest_parameter. rewrite knots_domain_ok by apply H. cbn [bind]. rewrite Hcl. cbn [bind]. rewrite Eg. cbn [bind newton_run].
      unfold newton_next at 1. rewrite line_gradient, line_hessian by auto. cbn [bind]. rs. rewrite Er.
      assert (Ey : newton_constrain (dom0 s) (dom1 s) false (u - 1 * (1 / (line_len2 s / ((dom1 s - dom0 s) * (dom1 s - dom0 s)))) * ((r * line_len2 s - line_dot s p) / (dom1 s - dom0 s))) = u).
      { replace (u - 1 * (1 / (line_len2 s / ((dom1 s - dom0 s) * (dom1 s - dom0 s)))) * ((r * line_len2 s - line_dot s p) / (dom1 s - dom0 s)))
          with (dom0 s + (dom1 s - dom0 s) * w) by (rewrite Eu; unfold w; field; lra).
        unfold newton_constrain. rs. set (a := dom0 s) in *. set (D := dom1 s - a) in *. assert (Ed1 : dom1 s = a + D) by (unfold D; ring). rewrite Ed1 in *.
        assert (HD : 0 < D) by lra. clearbody D a.
        destruct (Rlt_le_dec w 0) as [C|C].
        - rewrite Rmin_right, Rmax_left in Eopt by lra. destruct (Rltb_spec (a + D * w) a); [rewrite Eu, Eopt; ring|nra].
        - destruct (Rltb_spec (a + D * w) a); [nra|]. destruct (Rlt_le_dec 1 w) as [C'|C'].
          + rewrite Rmin_left, Rmax_right in Eopt by lra. destruct (Rltb_spec (a + D) (a + D * w)); [rewrite Eu, Eopt; ring|nra].
          + rewrite Rmin_right, Rmax_right in Eopt by lra. destruct (Rltb_spec (a + D) (a + D * w)); [nra|]. rewrite Eu, Eopt. ring. }
      rewrite Ey. replace (u - u) with 0 by ring. rewrite Rabs_R0. destruct (Rltb_spec 0 eps); [|lra]. cbn [bind].
      assert (Ef : sfinite u = true). { unfold sfinite. rs. destruct (Reqb_spec (u - u) 0); [reflexivity|lra]. }
      rewrite Ef. reflexivity.
    - intros u' q' Hin' Eq'. rewrite (line_dist2 s p u q), (line_dist2 s p u' q') by auto. cbv zeta. rewrite Er.
      set (r' := (u' - dom0 s) / (dom1 s - dom0 s)).
      assert (Hr' : 0 <= r' <= 1).
      { unfold r'. split; [apply Rmult_le_pos; [lra|left; apply Rinv_0_lt_compat; lra]|].
        apply Rmult_le_reg_r with (dom1 s - dom0 s); [lra|]. unfold Rdiv. rewrite Rmult_assoc, Rinv_l by lra. lra. }
      specialize (Lb 0%nat r' ltac:(lia) Hr'). fold q0 q1 in Lb. rewrite Em in Lb. apply sqrt_le_0 in Lb; try apply dist2_nonneg. rewrite !Sg in Lb by auto. lra.
  Qed.
End Real.
