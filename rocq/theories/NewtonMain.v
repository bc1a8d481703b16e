(** * Closest parameter on a curve: the first guess, totality and exact answers *)
From Coq Require Import Reals Lra Lia.
From Verif Require Import Base BaseFacts Scalar RSum BSplineSpec BSpline BSplineDeriv KnotModel KnotSpec KnotFacts VecFacts
  CurveModel CurveSpec CurveProofs CurveGeom CurveGeom2 CurveShapes CurveDeriv MiscModel MiscProofs ClosestModel NewtonProofs.
Open Scope R_scope.

Section Real.
  Variables eps maxv : R.
  Local Hint Extern 0 (Scalar R) => exact (ROps eps maxv) : typeclass_instances.

  Notation qu l i := (fst (nth i l (0, []))).
  Notation qp l i := (snd (nth i l (0, []))).

  (** parameter [u] at distance [m] from [p] on the polyline with vertices [l] *)
  Definition on_polyline (p : list R) (l : list (R * list R)) (m u : R) : Prop :=
    exists i s, (S i < length l)%nat /\ 0 <= s <= 1 /\ u = qu l i + (qu l (S i) - qu l i) * s /\ m = sqrt (dist2 p (seg_at (qp l i) (qp l (S i)) s)).
  (** no point of the polyline is closer to [p] than [m] *)
  Definition lower_bound (p : list R) (l : list (R * list R)) (m : R) : Prop :=
    forall i s, (S i < length l)%nat -> 0 <= s <= 1 -> m <= sqrt (dist2 p (seg_at (qp l i) (qp l (S i)) s)).

  Lemma vnorm_dist2 (p q : list R) : length q = length p -> vnorm (vsub p q) = sqrt (dist2 p q).
  Proof.
    intros L. unfold vnorm. rewrite vnorm2_rsum, (vsub_length p q (length p)) by auto. rs. unfold dist2.
    f_equal. apply rsum_ext. intros i Hi. now rewrite rc_vsub by lia.
  Qed.

  Lemma seg_at_length a b s : length (seg_at a b s) = length a.
  Proof. unfold seg_at. now rewrite map_length, seq_length. Qed.

  Lemma dist2_nonneg p q : 0 <= dist2 p q.
  Proof. unfold dist2. apply rsum_nonneg. intros. apply Rle_0_sqr. Qed.

  Definition long_segments (l : list (R * list R)) : Prop :=
    forall i, (S i < length l)%nat -> eps <= sqrt (dist2 (qp l (S i)) (qp l i)).

  Lemma scan_spec p l min u : 0 < eps -> (forall i, (i < length l)%nat -> length (qp l i) = length p) -> long_segments l ->
    let '(m', u') := closest_scan p l min u in
    m' <= min /\ lower_bound p l m' /\ ((m' = min /\ u' = u) \/ on_polyline p l m' u').
  Proof.
    intros He. revert min u. induction l as [|(u0, p0) l IH]; intros min u HL Hs.
    - cbn. split; [lra|]. split; [intros i s Hi; cbn in Hi; lia|auto].
    - destruct l as [|(u1, p1) l].
      + cbn. split; [lra|]. split; [intros i s Hi; cbn in Hi; lia|auto].
      + set (l1 := (u1, p1) :: l) in *.
        assert (HL1 : forall i, (i < length l1)%nat -> length (qp l1 i) = length p) by (intros i Hi; apply (HL (S i)); cbn [length]; lia).
        assert (Hs1 : long_segments l1) by (intros i Hi; apply (Hs (S i)); cbn [length] in *; lia).
        assert (L0 : length p0 = length p) by (apply (HL 0%nat); cbn [length]; lia).
        assert (L1 : length p1 = length p) by (apply (HL 1%nat); unfold l1; cbn [length]; lia).
        destruct (segment_closest_optimal eps maxv p p0 p1 u0 u1) as (s & Hs01 & E & Opt); auto.
        { apply (Hs 0%nat). unfold l1. cbn [length]. lia. }
        change (closest_scan p ((u0, p0) :: l1) min u) with
          (let '(pu, pp) := segment_closest_point p p0 p1 u0 u1 in
           let d := vnorm (vsub p pp) in if sltb d min then closest_scan p l1 d pu else closest_scan p l1 min u).
        rewrite E. cbv zeta. rewrite vnorm_dist2 by (now rewrite seg_at_length). rs. set (d := sqrt (dist2 p (seg_at p0 p1 s))).
        assert (Up : forall m' u', on_polyline p l1 m' u' -> on_polyline p ((u0, p0) :: l1) m' u').
        { intros m' u' (i & r & Hi & Hr & Eu & Em). exists (S i), r. split; [cbn [length]; lia|]. auto. }
        assert (Lb : forall m', m' <= d -> lower_bound p l1 m' -> lower_bound p ((u0, p0) :: l1) m').
        { intros m' Hm B i r Hi Hr. destruct i as [|i]; [|apply (B i r); auto; cbn [length] in *; lia].
          apply Rle_trans with d; [exact Hm|]. apply sqrt_le_1_alt. now apply Opt. }
        destruct (Rltb_spec d min) as [C|C].
        * specialize (IH d (u0 + (u1 - u0) * s) HL1 Hs1). destruct (closest_scan p l1 d (u0 + (u1 - u0) * s)) as (m', u') eqn:Es.
          destruct IH as (I1 & I2 & I3). split; [lra|]. split; [now apply Lb|]. right. destruct I3 as [(-> & ->)|I3]; [|now apply Up].
          exists 0%nat, s. split; [unfold l1; cbn [length]; lia|]. auto.
        * specialize (IH min u HL1 Hs1). destruct (closest_scan p l1 min u) as (m', u') eqn:Es.
          destruct IH as (I1 & I2 & I3). split; [lra|]. split; [apply Lb; auto; lra|]. destruct I3 as [I3|I3]; [now left|right; now apply Up].
  Qed.

  (** the scan never leaves the range of the parameters of the samples *)
  Lemma segment_param_in p p0 p1 u0 u1 a b : 0 < eps -> length p0 = length p -> length p1 = length p ->
    a <= u0 <= b -> a <= u1 <= b -> a <= fst (segment_closest_point p p0 p1 u0 u1) <= b.
  Proof.
    intros He L0 L1 H0 H1. destruct (Rlt_le_dec (sqrt (dist2 p1 p0)) eps) as [C|C].
    - rewrite (segment_closest_short eps maxv) by (auto; congruence). exact H0.
    - destruct (segment_closest_optimal eps maxv p p0 p1 u0 u1) as (s & Hs & -> & _); auto. cbn [fst]. nra.
  Qed.

  Lemma scan_in p l a b min u : 0 < eps -> (forall x, In x l -> length (snd x) = length p /\ a <= fst x <= b) -> a <= u <= b ->
    a <= snd (closest_scan p l min u) <= b.
  Proof.
    intros He. revert min u. induction l as [|(u0, p0) l IH]; intros min u Hl Hu; [exact Hu|].
    destruct l as [|(u1, p1) l]; [exact Hu|]. set (l1 := (u1, p1) :: l) in *.
    change (closest_scan p ((u0, p0) :: l1) min u) with
      (let '(pu, pp) := segment_closest_point p p0 p1 u0 u1 in
       let d := vnorm (vsub p pp) in if sltb d min then closest_scan p l1 d pu else closest_scan p l1 min u).
    destruct (Hl (u0, p0) ltac:(now left)) as (L0 & I0). destruct (Hl (u1, p1) ltac:(right; now left)) as (L1 & I1). cbn [fst snd] in *.
    pose proof (segment_param_in p p0 p1 u0 u1 a b He L0 L1 I0 I1) as Hp.
    destruct (segment_closest_point p p0 p1 u0 u1) as (pu, pp). cbn [fst] in Hp. cbv zeta.
    destruct (sltb _ _); apply IH; auto; intros x Hx; apply Hl; now right.
  Qed.

  (** *** The first guess: a nearest point of the polyline through the samples *)
  Theorem closest_guess_spec c p : 0 < eps -> curve_ok c -> curve_eps eps c -> pos_weights c -> (1 <= cdeg c)%nat -> length p = (cdim c - 1)%nat ->
    exists pts u, length pts = (length (cpts c) * cdeg c)%nat /\
      (forall i, (i < length pts)%nat -> qu pts i = sample_u c (length pts) i /\ point_at c (sample_u c (length pts) i) = Ok (qp pts i)) /\
      closest_guess c p = Ok u /\ dom0 c <= u <= dom1 c /\
      (long_segments pts -> (exists q, point_at c (dom0 c) = Ok q /\ sqrt (dist2 p q) < maxv) ->
       exists m, on_polyline p pts m u /\ lower_bound p pts m).
  Proof.
    intros He Hc Hce Hw Hd Lp. pose proof (co_len c Hc) as Hl. set (n := (length (cpts c) * cdeg c)%nat).
    assert (Hn : (2 <= n)%nat) by (unfold n; nia).
    destruct (samples_spec eps maxv c n) as (pts & E & Ln & V); auto.
    assert (Lq : forall i, (i < length pts)%nat -> length (qp pts i) = length p).
    { intros i Hi. destruct (guess_points eps maxv c (sample_u c n i)) as (q & Eq & Lq & _); auto; [apply sample_u_in; auto; lia|].
      destruct (V i ltac:(lia)) as (_ & Ep). rewrite Ep in Eq. injection Eq as ->. lia. }
    exists pts, (snd (closest_scan p pts maxv (dom0 c))). split; [exact Ln|]. split; [rewrite Ln; exact V|].
    split; [|split].
    - unfold closest_guess. rewrite knots_domain_ok by auto. cbn [bind]. fold n. rewrite E. cbn [bind].
      rewrite usub_ok by lia. reflexivity.
    - pose proof (dom_le c Hc). apply scan_in; auto; [|lra]. intros x Hx. apply (In_nth _ _ (0, [])) in Hx. destruct Hx as (i & Hi & <-).
      split; [now apply Lq|]. destruct (V i ltac:(lia)) as (-> & _). apply sample_u_in; auto; lia.
    - intros Hs (q & Eq & Hq). pose proof (scan_spec p pts maxv (dom0 c) He Lq Hs) as S.
      destruct (closest_scan p pts maxv (dom0 c)) as (m, u). cbn [snd]. destruct S as (_ & Lb & [(Em & _)|On]).
      + exfalso. specialize (Lb 0%nat 0 ltac:(lia) ltac:(lra)).
        destruct (V 0%nat ltac:(lia)) as (_ & E0).
        assert (Z : sample_u c n 0 = dom0 c) by (unfold sample_u; cbn [INR]; ring). rewrite Z, Eq in E0. injection E0 as E0.
        replace (seg_at (qp pts 0) (qp pts 1) 0) with q in Lb; [lra|].
        apply (vec_ext q _ (length p)); [rewrite E0; apply Lq; lia|rewrite seg_at_length; apply Lq; lia|].
        intros i Hi. rewrite rc_seg_at by (rewrite Lq by lia; lia). rewrite <- E0. ring.
      + exists m. auto.
  Qed.

  Lemma is_closed_total c : curve_ok c -> curve_eps eps c -> pos_weights c -> exists b, is_closed c = Ok b.
  Proof.
    intros Hc He Hw. pose proof (co_len c Hc) as Hl. unfold is_closed.
    assert (Hcl : exists b, curve_is_clamped c = Ok b).
    { unfold curve_is_clamped, is_clamped, multiplicity. pose proof (curve_len c Hc).
      rewrite (get_ok _ _ 0) by lia. cbn [bind]. destruct (fold_left _ _ _) as (done, cur). cbn [bind].
      destruct (head _); [destruct (last _ _)|]; eauto. }
    destruct Hcl as (b & ->). cbn [bind]. destruct b.
    - unfold dehomogenized_control_points.
      rewrite (mapM_ok _ (fun p => vdivs (firstn (cdim c - 1) p) (coord (cdim c - 1) p))).
      + cbn [bind]. rewrite (get_ok _ 0 []) by (rewrite map_length; lia). cbn [bind]. rewrite usub_ok by lia. cbn [bind].
        rewrite (get_ok _ (length (cpts c) - 1) []) by (rewrite map_length; lia). cbn [bind]. eauto.
      + intros p Hp. unfold dehomogenize. apply (In_nth _ _ []) in Hp. destruct Hp as (j & Hj & <-). specialize (Hw j Hj).
        rewrite coord_rc. rs. unfold cpc in Hw. destruct (Reqb_spec (rc (cdim c - 1) (nth j (cpts c) [])) 0); [lra|reflexivity].
    - rewrite knots_domain_ok by auto. cbn [bind]. pose proof (dom_le c Hc).
      destruct (guess_points eps maxv c (dom0 c)) as (q & -> & _); auto; [lra|]. cbn [bind].
      destruct (guess_points eps maxv c (dom1 c)) as (q' & -> & _); auto; [lra|]. cbn [bind]. eauto.
  Qed.

  Lemma newton_open_total c p n u : curve_ok c -> curve_eps eps c -> pos_weights c -> dom0 c <= u <= dom1 c ->
    exists t, newton_run n (newton_next (dom0 c) (dom1 c) false (curve_gradient c p) (curve_hessian c p)) u = Ok t /\ dom0 c <= t <= dom1 c.
  Proof.
    intros Hc He Hw. pose proof (dom_le c Hc) as Hd. revert u. induction n as [|n IH]; intros u Hu; [exists u; split; [reflexivity|exact Hu]|].
    cbn [newton_run]. unfold newton_next at 1. destruct (curve_gradient_total eps maxv c p u) as (g & ->); auto. cbn [bind].
    destruct (curve_hessian_total eps maxv c p u) as (h & ->); auto. cbn [bind].
    set (y := newton_constrain _ _ _ _).
    assert (Hy : dom0 c <= y <= dom1 c).
    { apply (inside_R eps maxv). apply constrain_open; apply inside_R; lra. }
    destruct (sltb _ _); [exists y; split; [reflexivity|exact Hy]|]. now apply IH.
  Qed.

  (** *** On a valid open curve there is always an answer, in the domain *)
  Theorem closest_parameter_total c p : 0 < eps -> curve_ok c -> curve_eps eps c -> pos_weights c -> (1 <= cdeg c)%nat ->
    length p = (cdim c - 1)%nat -> is_closed c = Ok false ->
    exists t, find_closest_parameter c p = Ok t /\ dom0 c <= t <= dom1 c.
  Proof.
    intros He Hc Hce Hw Hd Lp Hcl. unfold find_closest_parameter. rewrite knots_domain_ok by auto. cbn [bind]. rewrite Hcl. cbn [bind].
    destruct (closest_guess_spec c p) as (pts & u & _ & _ & -> & Hu & _); auto. cbn [bind].
    destruct (newton_open_total c p 5 u) as (t & Et & Ht); auto. rewrite Et. cbn [bind].
    assert (Ef : sfinite t = true). { unfold sfinite. rs. destruct (Reqb_spec (t - t) 0); [reflexivity|lra]. }
    rewrite Ef. eauto.
  Qed.

  (** *** A guess that already hits the point is returned unchanged, on open and on closed curves *)
  Theorem closest_exact_hit c p u : 0 < eps -> curve_ok c -> curve_eps eps c -> pos_weights c -> (1 <= cdeg c)%nat ->
    length p = (cdim c - 1)%nat -> closest_guess c p = Ok u -> point_at c u = Ok p -> find_closest_parameter c p = Ok u.
  Proof.
    intros He Hc Hce Hw Hd Lp Hg Hp. destruct (closest_guess_spec c p) as (pts & u' & _ & _ & Eu & Hu & _); auto.
    rewrite Hg in Eu. injection Eu as <-.
    unfold find_closest_parameter. rewrite knots_domain_ok by auto. cbn [bind].
    destruct (is_closed_total c) as (b & ->); auto. cbn [bind]. rewrite Hg. cbn [bind newton_run]. unfold newton_next at 1.
    rewrite (curve_gradient_zero eps maxv c p u); auto.
    2:{ intros i Hi. destruct (guess_points eps maxv c u) as (q & Eq & _ & V); auto. rewrite Hp in Eq. injection Eq as <-. symmetry. now apply V. }
    cbn [bind]. destruct (curve_hessian_total eps maxv c p u) as (h & ->); auto. cbn [bind].
    assert (Ey : newton_constrain (dom0 c) (dom1 c) b (u - 1 * (1 / h) * 0) = u).
    { replace (u - 1 * (1 / h) * 0) with u by ring. unfold newton_constrain. rs.
      destruct (Rltb_spec u (dom0 c)); [lra|]. destruct (Rltb_spec (dom1 c) u); [lra|reflexivity]. }
    rs. rewrite Ey. replace (u - u) with 0 by ring. rewrite Rabs_R0. destruct (Rltb_spec 0 eps); [|lra]. cbn [bind].
    assert (Ef : sfinite u = true). { unfold sfinite. rs. destruct (Reqb_spec (u - u) 0); [reflexivity|lra]. }
    rewrite Ef. reflexivity.
  Qed.

  (** *** Stopping: an answer is the result of five steps, or of a last step shorter than epsilon; in the second case, when the step was
      not cut at the ends of the domain, the first-order condition holds up to epsilon *)
  Theorem closest_parameter_stationary c p t : find_closest_parameter c p = Ok t -> is_closed c = Ok false -> curve_ok c ->
    exists u k y, closest_guess c p = Ok u /\ (k < 5)%nat /\
      iterates (newton_next (dom0 c) (dom1 c) false (curve_gradient c p) (curve_hessian c p)) k u y /\
      exists g h, curve_gradient c p y = Ok g /\ curve_hessian c p y = Ok h /\
        t = Rmax (dom0 c) (Rmin (dom1 c) (y - g / h)) /\
        (k = 4%nat \/ Rabs (t - y) < eps /\ (dom0 c < t < dom1 c -> h <> 0 -> Rabs g < eps * Rabs h)).
  Proof.
    intros H Hcl Hc. pose proof (dom_le c Hc) as Hd. unfold find_closest_parameter in H. rewrite knots_domain_ok in H by auto. cbn [bind] in H.
    rewrite Hcl in H. cbn [bind] in H. destruct (closest_guess c p) as [u| | |]; cbn [bind] in H; try discriminate.
    match type of H with bind ?e _ = _ => destruct e as [r| | |] eqn:E end; cbn [bind] in H; try discriminate.
    destruct (sfinite r); [|discriminate]. injection H as <-.
    destruct (newton_run_steps _ 5 _ _ (Nat.lt_0_succ 4) E) as (k & y & Hk & Hi & Hy & Hs).
    exists u, k, y. split; [reflexivity|]. split; [lia|]. split; [exact Hi|].
    unfold newton_next in Hy. destruct (curve_gradient c p y) as [g| | |]; cbn [bind] in Hy; try discriminate.
    destruct (curve_hessian c p y) as [h| | |]; cbn [bind] in Hy; try discriminate. injection Hy as Hy.
    exists g, h. split; [reflexivity|]. split; [reflexivity|].
    revert Hy Hs. rs. unfold newton_constrain. rs. replace (y - 1 * (1 / h) * g) with (y - g / h) by (unfold Rdiv; ring).
    intros Hy Hs.
    assert (Et : r = Rmax (dom0 c) (Rmin (dom1 c) (y - g / h))).
    { rewrite <- Hy. destruct (Rltb_spec (y - g / h) (dom0 c)).
      - rewrite Rmin_right by lra. rewrite Rmax_left by lra. reflexivity.
      - destruct (Rltb_spec (dom1 c) (y - g / h)).
        + rewrite Rmin_left by lra. rewrite Rmax_right by lra. reflexivity.
        + rewrite Rmin_right by lra. rewrite Rmax_right by lra. reflexivity. }
    split; [exact Et|]. destruct Hs as [Hs|Hs]; [left; lia|]. right.
    destruct (Rltb_spec (Rabs (r - y)) eps) as [C|]; [|discriminate]. split; [exact C|].
    intros Hr Hh. assert (Er : r = y - g / h).
    { rewrite <- Hy in *. destruct (Rltb_spec (y - g / h) (dom0 c)); [lra|]. destruct (Rltb_spec (dom1 c) (y - g / h)); [lra|reflexivity]. }
    rewrite Er in C. replace (y - g / h - y) with (- (g / h)) in C by ring. rewrite Rabs_Ropp in C. unfold Rdiv in C. rewrite Rabs_mult, Rabs_inv in C.
    assert (0 < Rabs h) by now apply Rabs_pos_lt.
    apply Rmult_lt_reg_r with (/ Rabs h); [now apply Rinv_0_lt_compat|]. rewrite Rmult_assoc, Rinv_r by lra. lra.
  Qed.
End Real.
