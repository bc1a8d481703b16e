(** * Lengths of curves of degree one: exact whenever the weights of the rule add up to two *)
From Coq Require Import Reals Lra Lia Sorted.
From Verif Require Import Base BaseFacts Scalar RSum BSplineSpec BSpline BSplineDeriv KnotModel KnotSpec KnotFacts VecFacts
  CurveModel CurveKnotModel CurveSpec CurveProofs CurveGeom CurveGeom2 KnotMisc CurveShapes CurveDeriv SplitModel SplitProofs Decompose
  LengthModel LengthProofs LengthMain.
Open Scope R_scope.

Section Real.
  Variables eps maxv : R.
  Local Hint Extern 0 (Scalar R) => exact (ROps eps maxv) : typeclass_instances.

  Definition unit_weights (c : Curve R) : Prop := Forall (fun p => rc (cdim c - 1) p = 1) (cpts c).
  (** distance of two control points without their weights *)
  Definition edge (c : Curve R) (i j : nat) : R :=
    sqrt (rsum (cdim c - 1) (fun m => (cpc c m j - cpc c m i) * (cpc c m j - cpc c m i))).

  Lemma line_piece s i u : bezier_seg eps s -> cdeg s = 1%nat ->
    dpiece s 1 i 0 u = cpc s i 0 + (u - dom0 s) / (dom1 s - dom0 s) * (cpc s i 1 - cpc s i 0).
  Proof.
    intros H Hd. destruct (seg_dom eps s H) as (D0 & D1 & Dl). rewrite Hd in D0, D1.
    unfold dpiece. rewrite (bg_len _ _ H), Hd. cbn [rsum]. rewrite !dbs_0. cbn [bs Nat.eqb Nat.add].
    unfold wl, wr, quot0. cbn [Nat.add]. rewrite ?D0, ?D1.
    repeat match goal with |- context [Req_EM_T ?a ?b] => destruct (Req_EM_T a b); [lra|] end.
    field. lra.
  Qed.

  Lemma line_piece_1 s i u : bezier_seg eps s -> cdeg s = 1%nat ->
    dpiece s 1 i 1 u = (cpc s i 1 - cpc s i 0) / (dom1 s - dom0 s).
  Proof.
    intros H Hd. destruct (seg_dom eps s H) as (D0 & D1 & Dl).
    apply (uniqueness_limite (dpiece s 1 i 0) u); [apply dpiece_deriv, curve_mono, H|].
    set (k := (cpc s i 1 - cpc s i 0) / (dom1 s - dom0 s)).
    apply (derivable_pt_lim_ext (plus_fct (mult_real_fct k id) (fct_cte (cpc s i 0 - k * dom0 s)))).
    { intros x. rewrite (line_piece s i x H Hd). unfold plus_fct, mult_real_fct, fct_cte, id, k. field. lra. }
    assert (Ek : k = k * 1 + 0) by ring. rewrite Ek at 3. clear Ek.
    apply derivable_pt_lim_plus; [apply derivable_pt_lim_scal, derivable_pt_lim_id|apply derivable_pt_lim_const].
  Qed.

  Lemma line_speed s u : bezier_seg eps s -> cdeg s = 1%nat -> unit_weights s -> speed s u = edge s 0 1 / (dom1 s - dom0 s).
  Proof.
    intros H Hd Hu. destruct (seg_dom eps s H) as (D0 & D1 & Dl).
    assert (W : forall j, (j <= 1)%nat -> cpc s (cdim s - 1) j = 1).
    { intros j Hj. unfold unit_weights in Hu. rewrite Forall_forall in Hu. unfold cpc. apply Hu. apply nth_In. rewrite (bg_len _ _ H). lia. }
    unfold speed, edge. rewrite Hd.
    rewrite (rsum_ext (cdim s - 1) _ (fun m => / ((dom1 s - dom0 s) * (dom1 s - dom0 s)) * ((cpc s m 1 - cpc s m 0) * (cpc s m 1 - cpc s m 0)))).
    - rewrite rsum_scal. rewrite sqrt_mult.
      + rewrite sqrt_inv, sqrt_square by (try nra; lra). unfold Rdiv. ring.
      + left. apply Rinv_0_lt_compat, Rmult_lt_0_compat; lra.
      + apply rsum_nonneg. intros. apply Rle_0_sqr.
    - intros m Hm. unfold ratd. rewrite cq_eq. cbn [rsum pascal]. rewrite cq_eq. cbn [rsum].
      rewrite !line_piece_1 by auto. rewrite !line_piece by auto. rewrite !W by lia. cbn. field. lra.
  Qed.

  (** the measured length of a straight segment is its length *)
  Theorem line_length rule s u : bezier_seg eps s -> cdeg s = 1%nat -> unit_weights s -> wsum rule (fun _ => 1) = 2 ->
    dom0 s + eps < u <= dom1 s -> mlen eps rule s u = (u - dom0 s) / (dom1 s - dom0 s) * edge s 0 1.
  Proof.
    intros H Hd Hu Hr Hl. destruct (seg_dom eps s H) as (D0 & D1 & Dl). unfold mlen.
    destruct (Rlt_dec (dom0 s + eps) u); [|lra]. rewrite Rmin_right by lra. unfold quad.
    rewrite (wsum_ext _ _ (fun _ => edge s 0 1 / (dom1 s - dom0 s))) by (intros; now apply line_speed).
    rewrite wsum_const, Hr. field. lra.
  Qed.

  Lemma line_head rule s : bezier_seg eps s -> cdeg s = 1%nat -> unit_weights s -> wsum rule (fun _ => 1) = 2 ->
    head_length eps rule s = eps / (dom1 s - dom0 s) * edge s 0 1.
  Proof.
    intros H Hd Hu Hr. destruct (seg_dom eps s H) as (D0 & D1 & Dl). unfold head_length, quad.
    rewrite (wsum_ext _ _ (fun _ => edge s 0 1 / (dom1 s - dom0 s))) by (intros; now apply line_speed).
    rewrite wsum_const, Hr. field. lra.
  Qed.

  Lemma edge_points s : bezier_seg eps s -> cdeg s = 1%nat -> unit_weights s -> clamped s ->
    exists p q, point_at s (dom0 s) = Ok p /\ point_at s (dom1 s) = Ok q /\ edge s 0 1 = rdist p q.
  Proof.
    intros H Hd Hu (C0 & C1). destruct (seg_dom eps s H) as (D0 & D1 & Dl). pose proof (bg_len _ _ H) as Hl. rewrite Hd in Hl.
    pose proof (curve_mono s (bg_ok _ _ H)) as Hm. pose proof (curve_len s (bg_ok _ _ H)) as Hk.
    assert (W : forall j, (j <= 1)%nat -> cpc s (cdim s - 1) j = 1).
    { intros j Hj. unfold unit_weights in Hu. rewrite Forall_forall in Hu. unfold cpc. apply Hu. apply nth_In. lia. }
    assert (F : first_point s = Ok (affine_point s 0)).
    { apply (clamped_start eps maxv); try apply H; [|rewrite W by lia; lra].
      intros j Hj. destruct j as [|j]; [reflexivity|]. rewrite Hd in Hj. replace (S j) with (cdeg s) by lia. rewrite C0, D0. reflexivity. }
    assert (L : end_point s = Ok (affine_point s (clast s))).
    { apply (clamped_end eps maxv); try apply H; [|rewrite W; [lra|unfold clast; lia]].
      rewrite Hd, Hl. intros j Hj. unfold dom1 in C1. rewrite Hk, Hd, Hl in C1. cbn [Nat.add Nat.sub] in C1.
      destruct (Nat.eq_dec j 3) as [->|]; [exact C1|]. now replace j with 2%nat by lia. }
    unfold first_point in F. unfold end_point in L. rewrite knots_domain_ok in F, L by apply H. cbn [bind] in F, L.
    exists (affine_point s 0), (affine_point s (clast s)). split; [exact F|]. split; [exact L|].
    unfold edge, rdist. rewrite affine_point_length by (try apply H; lia). f_equal. apply rsum_ext. intros m Hm'.
    rewrite !(affine_point_rc eps maxv) by auto. replace (clast s) with 1%nat by (unfold clast; lia). rewrite !W by lia. field.
  Qed.

  (** *** The length of a curve of degree one is the length of the polygon through its points at the knots *)
  Theorem polyline_length gauss c : length_curve eps c -> cdeg c = 1%nat -> unit_weights c ->
    rule_ok (gauss 17%nat) -> wsum (gauss 17%nat) (fun _ => 1) = 2 ->
    exists vs pts, StronglySorted Rlt vs /\ (forall x, In x vs <-> In x (cknots c)) /\
      Forall2 (fun v p => point_at c v = Ok p) vs pts /\ try_length gauss c = Ok (chord pts (length pts - 1)).
  Proof.
    intros H Hd Hu Hr Hw. assert (He : 0 < eps) by apply (lc_eps _ _ H).
    destruct (try_length_spec eps maxv gauss c H) as (vs & segs & ls & Es & Hcut & Els & Pos & Et); [now rewrite Hd|].
    rewrite Hd in Els. cbn [Nat.add] in Els. pose proof (ct_len _ _ _ _ _ Hcut) as Lv.
    assert (Pt : forall i, (i <= length segs)%nat -> exists p, point_at c (nth i vs 0) = Ok p).
    { intros i Hi. assert (Dm : dom0 c <= nth i vs 0 <= dom1 c).
      { rewrite <- (ct_first _ _ _ _ _ Hcut), <- (ct_last _ _ _ _ _ Hcut). split; apply (cut_mono eps maxv c vs segs Hcut He); lia. }
      destruct (point_at_spec eps maxv c (nth i vs 0)) as (p & E & _); try apply H; auto; [|now exists p].
      apply Rgt_not_eq, (wfun_pos eps maxv); try apply H; auto. }
    set (P := fun i => match point_at c (nth i vs 0) with Ok p => p | _ => [] end).
    assert (PE : forall i, (i <= length segs)%nat -> point_at c (nth i vs 0) = Ok (P i)).
    { intros i Hi. unfold P. destruct (Pt i Hi) as (p & ->). reflexivity. }
    exists vs, (map P (seq 0 (length vs))).
    split; [|split; [|split]].
    - clear - Hcut He Lv.
      assert (M : forall i j, (i < j < length vs)%nat -> nth i vs 0 < nth j vs 0).
      { intros i j Hij. pose proof (ct_step _ _ _ _ _ Hcut i ltac:(lia)). pose proof (cut_mono eps maxv c vs segs Hcut He (S i) j ltac:(lia)). lra. }
      clear - M. induction vs as [|x vs IH]; constructor.
      + apply IH. intros i j Hij. apply (M (S i) (S j)). cbn [length]. lia.
      + apply Forall_forall. intros y Hy. apply (In_nth _ _ 0) in Hy. destruct Hy as (j & Hj & <-). apply (M 0%nat (S j)). cbn [length]. lia.
    - exact (ct_in _ _ _ _ _ Hcut).
    - assert (F : forall l k, (forall i, (i < length l)%nat -> point_at c (nth i l 0) = Ok (P (k + i)%nat)) ->
               Forall2 (fun v p => point_at c v = Ok p) l (map P (seq k (length l)))).
      { induction l as [|x l IH]; intros k Hk; cbn [length seq map]; constructor.
        - pose proof (Hk 0%nat ltac:(cbn; lia)) as Q. cbn [nth] in Q. now rewrite Nat.add_0_r in Q.
        - apply IH. intros i Hi. pose proof (Hk (S i) ltac:(cbn; lia)) as Q. cbn [nth] in Q. rewrite Q. do 2 f_equal. lia. }
      apply F. intros i Hi. apply PE. lia.
    - rewrite Et. f_equal. assert (Lls : length ls = length segs) by now apply mapM_length in Els.
      rewrite map_length, seq_length. replace (length vs - 1)%nat with (length ls) by lia.
      unfold psum, chord. apply rsum_ext. intros i Hi.
      rewrite !(nth_map_lt P (seq 0 (length vs)) _ 0%nat) by (rewrite seq_length; lia). rewrite !seq_nth by lia. cbn [Nat.add].
      pose proof (ct_seg _ _ _ _ _ Hcut i ltac:(lia)) as Bz. destruct (ct_deg _ _ _ _ _ Hcut i ltac:(lia)) as (Ed & Eg).
      destruct (ct_dom _ _ _ _ _ Hcut i ltac:(lia)) as (Q0 & Q1). pose proof (ct_step _ _ _ _ _ Hcut i ltac:(lia)) as Hst.
      assert (Us : unit_weights (nth i segs c)) by (unfold unit_weights; rewrite Ed; apply (ct_unit _ _ _ _ _ Hcut); auto; lia).
      assert (El : nth i ls 0 = mlen eps (gauss 17%nat) (nth i segs c) (dom1 (nth i segs c))).
      { rewrite (mapM_ok _ (fun s => mlen eps (gauss 17%nat) s (dom1 s))) in Els.
        - injection Els as <-. rewrite (nth_map_lt _ segs i c 0) by lia. reflexivity.
        - intros s Hs. apply (In_nth _ _ c) in Hs. destruct Hs as (k & Hk & <-). apply seg_length_value; auto. now apply (ct_seg _ _ _ _ _ Hcut). }
      rewrite El, line_length by (auto; try congruence; rewrite Q0, Q1; lra).
      destruct (edge_points (nth i segs c)) as (p & q & Ep & Eq & Ee); auto; [congruence| |].
      { pose proof (ct_knots _ _ _ _ _ Hcut i ltac:(lia)) as K. unfold clamped. rewrite Q0, Q1, K, Hd. unfold kf. cbn. auto. }
      rewrite Q0 in Ep. rewrite Q1 in Eq. rewrite (ct_point _ _ _ _ _ Hcut) in Ep by (try lra; lia).
      rewrite (ct_point _ _ _ _ _ Hcut) in Eq by (try lra; lia). rewrite PE in Ep, Eq by lia. injection Ep as <-. injection Eq as <-.
      rewrite Ee, Q0, Q1. field. lra.
  Qed.
End Real.
