(** * How fast a curve moves, and how close its regular samples come to every point of it *)
From Coq Require Import Reals Lra Lia List.
From Verif Require Import Base BaseFacts Scalar RSum BSplineSpec BSpline BSplineDeriv KnotModel KnotSpec KnotFacts KnotProofs
  VecFacts CurveModel CurveSpec CurveProofs CurveGeom CurveGeom2 SplitProofs Continuity CurveMore LengthLine SchoenbergWhitney.
Import ListNotations.
Open Scope R_scope.

(** greatest rate at which coordinate [i] of the control points changes: [p |P_j+1 - P_j| / (k_j+p+1 - k_j+1)];
    differences over an empty knot range do not count *)
Definition rate_le (c : Curve R) (i : nat) (L : R) : Prop :=
  forall j, (j < clast c)%nat -> kf (cknots c) (j + 1)%nat < kf (cknots c) (j + cdeg c + 1)%nat ->
    INR (cdeg c) * Rabs (cpc c i (j + 1) - cpc c i j) <= L * (kf (cknots c) (j + cdeg c + 1)%nat - kf (cknots c) (j + 1)%nat).

Section Lip.
  Variable c : Curve R.
  Variables (i : nat) (L : R).
  Hypothesis Hok : curve_ok c.
  Hypothesis Hcont : curve_cont c.
  Hypothesis Hp : (1 <= cdeg c)%nat.
  Hypothesis HL : 0 <= L.
  Hypothesis Hrate : rate_le c i L.
  Notation k := (cknots c).
  Notation p := (cdeg c).
  Notation n := (clast c).
  Notation t := (kf k).
  Notation P := (cpc c i).

  Let Hk : knots_ok p n k := co_knots c Hok.
  Let Hm : mono t := sorted_mono k (ko_sorted p n k Hk).

  Lemma len_n : length (cpts c) = S n.
  Proof. pose proof (co_len c Hok). unfold clast. lia. Qed.

  Lemma slope_le j : (j < n)%nat -> Rabs (slope k p P j) <= L.
  Proof.
    intros Hj. unfold slope, dq. replace (S j + p)%nat with (j + p + 1)%nat by lia. replace (S j) with (j + 1)%nat by lia.
    destruct (Rlt_dec (t (j + 1)%nat) (t (j + p + 1)%nat)) as [H|H].
    - specialize (Hrate j Hj H). rewrite quot0_nz by lra. set (d := t (j + p + 1)%nat - t (j + 1)%nat) in *. assert (0 < d) by (unfold d; lra).
      rewrite !Rabs_mult. rewrite (Rabs_pos_eq (INR p)) by apply pos_INR. rewrite (Rabs_pos_eq (1 / d)) by (apply Rlt_le, Rdiv_lt_0_compat; lra).
      apply (Rmult_le_reg_r d); [assumption|].
      replace (INR p * (Rabs (P (j + 1)%nat - P j) * (1 / d)) * d) with (INR p * Rabs (P (j + 1)%nat - P j)) by (field; lra). exact Hrate.
    - assert (E : t (j + p + 1)%nat - t (j + 1)%nat = 0).
      { pose proof (mono_le t (j + 1) (j + p + 1) Hm ltac:(lia)). lra. }
      rewrite E. unfold quot0. destruct (Req_EM_T 0 0) as [_|X]; [|lra]. rewrite !Rmult_0_r, Rabs_R0. exact HL.
  Qed.

  Lemma dpc_le s u : (p <= s <= n)%nat -> t s < t (S s) -> t s <= u <= t (S s) -> Rabs (dpc k p n P s u) <= L.
  Proof.
    intros Hs Hl Hu. unfold dpc.
    assert (B : forall j, 0 <= bs t s (p - 1) (S j) u) by (intros j; apply bs_nonneg; assumption).
    assert (U : rsum n (fun j => bs t s (p - 1) (S j) u) = 1).
    { pose proof (bs_sum t s Hm Hl (p - 1) (S n) u ltac:(lia) ltac:(lia)) as O. rewrite rsum_S_l in O.
      rewrite (bs_support t s (p - 1) 0 u) in O by lia. lra. }
    apply Rabs_le.
    assert (W : forall j, (j < n)%nat -> - L <= slope k p P j <= L).
    { intros j Hj. pose proof (slope_le j Hj) as Q. split; [pose proof (Rle_abs (- slope k p P j)) as Z; rewrite Rabs_Ropp in Z; lra|pose proof (Rle_abs (slope k p P j)); lra]. }
    split.
    - replace (- L) with (rsum n (fun j => bs t s (p - 1) (S j) u * - L)) by (rewrite rsum_scal_r, U; ring).
      apply rsum_le. intros j Hj. apply Rmult_le_compat_l; [apply B|apply W; exact Hj].
    - replace L with (rsum n (fun j => bs t s (p - 1) (S j) u * L)) by (rewrite rsum_scal_r, U; ring).
      apply rsum_le. intros j Hj. apply Rmult_le_compat_l; [apply B|apply W; exact Hj].
  Qed.

  Lemma lip_span s u v : (p <= s <= n)%nat -> t s < t (S s) -> t s <= u -> u <= v -> v <= t (S s) ->
    Rabs (hcoord c i v - hcoord c i u) <= L * (v - u).
  Proof.
    intros Hs Hl Hu Huv Hv.
    assert (E : forall x, t s <= x <= t (S s) -> hcoord c i x = pc k p n P s x).
    { intros x Hx. rewrite (hcoord_any_span c s i x Hok Hcont Hs Hl Hx). unfold pc, piece. rewrite len_n. reflexivity. }
    rewrite !E by lra.
    destruct (MVT_abs (pc k p n P s) (dpc k p n P s) u v) as (x & Ex & Hx).
    { intros x _. apply (pc_deriv k p n Hk Hp). exact Hs. }
    rewrite Rmin_left, Rmax_right in Hx by lra. rewrite Ex, (Rabs_pos_eq (v - u)) by lra.
    apply Rmult_le_compat_r; [lra|]. apply dpc_le; [exact Hs|exact Hl|lra].
  Qed.

  Lemma lip_upto m : (p + m <= S n)%nat -> forall u v, t p <= u -> u <= v -> v <= t (p + m)%nat ->
    Rabs (hcoord c i v - hcoord c i u) <= L * (v - u).
  Proof.
    induction m as [|m IH]; intros Hb u v Hu Huv Hv.
    - rewrite Nat.add_0_r in Hv. assert (u = v) as -> by lra. rewrite Rminus_diag_eq, Rabs_R0 by reflexivity. lra.
    - replace (p + S m)%nat with (S (p + m)) in * by lia. set (b := t (p + m)%nat) in *.
      destruct (Rle_dec v b) as [H|H]; [apply IH; [lia|assumption..]|].
      assert (Hl : t (p + m)%nat < t (S (p + m))) by (fold b; lra).
      destruct (Rle_dec b u) as [H'|H']; [apply (lip_span (p + m)); [lia|assumption..]|].
      assert (X : Rabs (hcoord c i b - hcoord c i u) <= L * (b - u)) by (apply IH; [lia|lra..]).
      assert (Y : Rabs (hcoord c i v - hcoord c i b) <= L * (v - b)) by (apply (lip_span (p + m)); [lia|assumption|unfold b; lra|lra|assumption]).
      replace (hcoord c i v - hcoord c i u) with ((hcoord c i v - hcoord c i b) + (hcoord c i b - hcoord c i u)) by ring.
      eapply Rle_trans; [apply Rabs_triang|]. lra.
  Qed.

  (** the homogeneous coordinates never move faster than the control points *)
  Theorem curve_lipschitz u v : dom0 c <= u <= dom1 c -> dom0 c <= v <= dom1 c ->
    Rabs (hcoord c i u - hcoord c i v) <= L * Rabs (u - v).
  Proof.
    intros Hu Hv. pose proof (ko_pn _ _ _ Hk) as Hpn.
    assert (D1 : dom1 c = t (p + (S n - p))%nat) by (unfold dom1; rewrite len_n; f_equal; lia).
    assert (D0 : dom0 c = t p) by reflexivity.
    destruct (Rle_dec u v) as [H|H].
    - rewrite Rabs_minus_sym, (Rabs_minus_sym u), (Rabs_pos_eq (v - u)) by lra. apply (lip_upto (S n - p)); [lia|lra..].
    - rewrite (Rabs_pos_eq (u - v)) by lra. apply (lip_upto (S n - p)); [lia|lra..].
  Qed.
End Lip.

(** ** Unit weights: the points themselves *)
Section Samples.
  Variables eps maxv : R.
  Local Hint Extern 0 (Scalar R) => exact (ROps eps maxv) : typeclass_instances.

  Lemma unit_wfun c u : curve_ok c -> curve_cont c -> (1 <= cdeg c)%nat -> unit_weights c -> dom0 c <= u <= dom1 c -> wfun c u = 1.
  Proof.
    intros Hok Hcont Hp Hw Hu. pose proof (co_knots c Hok) as Hk. pose proof (ko_pn _ _ _ Hk) as Hpn. pose proof (ko_first _ _ _ Hk) as Hf.
    pose proof (sorted_mono _ (ko_sorted _ _ _ Hk)) as Hm. pose proof (len_n c Hok) as Ln.
    assert (W : forall j, (j <= clast c)%nat -> cpc c (cdim c - 1) j = 1).
    { intros j Hj. unfold unit_weights in Hw. rewrite Forall_forall in Hw. unfold cpc. apply Hw. apply nth_In. lia. }
    assert (R0 : rate_le c (cdim c - 1) 0).
    { intros j Hj _. rewrite !W by lia. rewrite Rminus_diag_eq, Rabs_R0 by reflexivity. lra. }
    pose proof (curve_lipschitz c (cdim c - 1) 0 Hok Hcont Hp (Rle_refl 0) R0 u (dom0 c) Hu ltac:(lra)) as Q.
    rewrite Rmult_0_l in Q. pose proof (Rabs_pos (hcoord c (cdim c - 1) u - hcoord c (cdim c - 1) (dom0 c))) as Q'.
    assert (E : hcoord c (cdim c - 1) u - hcoord c (cdim c - 1) (dom0 c) = 0).
    { destruct (Req_dec (hcoord c (cdim c - 1) u - hcoord c (cdim c - 1) (dom0 c)) 0) as [Z|Z]; [exact Z|]. apply Rabs_pos_lt in Z. lra. }
    unfold wfun. replace (hcoord c (cdim c - 1) u) with (hcoord c (cdim c - 1) (dom0 c)) by lra.
    assert (Hl : kf (cknots c) (cdeg c) < kf (cknots c) (S (cdeg c))) by (replace (S (cdeg c)) with (cdeg c + 1)%nat by lia; exact Hf).
    rewrite (hcoord_any_span c (cdeg c) (cdim c - 1) (dom0 c) Hok Hcont); [|lia|exact Hl|unfold dom0; lra].
    unfold piece. rewrite Ln. rewrite (rsum_ext (S (clast c)) _ (fun j => bs (kf (cknots c)) (cdeg c) (cdeg c) j (dom0 c))).
    - apply bs_sum; [exact Hm|exact Hl|lia|lia].
    - intros j Hj. rewrite W by lia. ring.
    - exact Hp.
  Qed.

  (** two points of a curve are no farther apart than its control points move in that time *)
  Theorem points_lipschitz c i L u v : curve_ok c -> curve_cont c -> (1 <= cdeg c)%nat -> unit_weights c -> 0 <= L -> rate_le c i L ->
    dom0 c <= u <= dom1 c -> dom0 c <= v <= dom1 c -> Rabs (nurbs c i u - nurbs c i v) <= L * Rabs (u - v).
  Proof.
    intros Hok Hcont Hp Hw HL Hr Hu Hv. unfold nurbs. rewrite !unit_wfun by assumption. unfold Rdiv. rewrite Rinv_1, !Rmult_1_r.
    apply curve_lipschitz; assumption.
  Qed.

  Lemma nearest_step h : 0 <= h -> forall m x, 0 <= x <= INR m * h -> exists j, (j <= m)%nat /\ Rabs (x - INR j * h) <= h / 2.
  Proof.
    intros Hh. induction m as [|m IH]; intros x Hx.
    - exists 0%nat. cbn [INR] in *. split; [lia|]. rewrite Rabs_pos_eq by lra. lra.
    - rewrite S_INR in Hx. destruct (Rle_dec x (INR m * h)) as [H|H].
      + destruct (IH x ltac:(lra)) as (j & Hj & E). exists j. split; [lia|exact E].
      + destruct (Rle_dec (x - INR m * h) (h / 2)) as [H'|H'].
        * exists m. split; [lia|]. rewrite Rabs_pos_eq by lra. exact H'.
        * exists (S m). split; [lia|]. rewrite S_INR, Rabs_left1 by lra. lra.
  Qed.

  (** every point of the sampled range is within half a step's worth of movement of one of the samples *)
  Theorem samples_dense c a b n : curve_ok c -> curve_eps eps c -> pos_weights c -> curve_cont c -> (1 <= cdeg c)%nat -> unit_weights c ->
    dom0 c <= a -> a <= b -> b <= dom1 c -> (2 <= n)%nat ->
    exists ps, sample_regular_range c a b n = Ok ps /\ length ps = n /\
    forall u, a <= u <= b -> exists q, In q ps /\
      forall i L, (i < cdim c - 1)%nat -> 0 <= L -> rate_le c i L -> Rabs (nurbs c i u - rc i q) <= L * ((b - a) / (INR n - 1) / 2).
  Proof.
    intros Hok He Hpos Hcont Hp Hw Ha Hab Hb Hn.
    destruct (sample_regular_range_spec eps maxv c a b n Hok He Hpos Ha Hab Hb Hn) as (ps & E & Lp & Hps).
    exists ps. split; [exact E|]. split; [exact Lp|]. intros u Hu.
    assert (N1 : INR (n - 1) = INR n - 1) by (rewrite minus_INR by lia; cbn [INR]; lra).
    assert (N0 : 1 <= INR (n - 1)) by (change 1 with (INR 1); apply le_INR; lia).
    set (h := (b - a) / (INR n - 1)).
    assert (Hh : 0 <= h) by (unfold h; rewrite <- N1; apply Rmult_le_pos; [lra|apply Rlt_le, Rinv_0_lt_compat; lra]).
    assert (Hnh : INR (n - 1) * h = b - a) by (unfold h; rewrite <- N1; field; lra).
    destruct (nearest_step h Hh (n - 1) (u - a) ltac:(lra)) as (j & Hj & D).
    destruct (Hps j ltac:(lia)) as (_ & Hc). exists (nth j ps []). split; [apply nth_In; lia|]. intros i L Hi HL Hr.
    rewrite Hc by exact Hi. assert (Er : regular a b n j = a + INR j * h) by reflexivity.
    assert (J : 0 <= INR j * h <= b - a).
    { split; [apply Rmult_le_pos; [apply pos_INR|exact Hh]|]. rewrite <- Hnh. apply Rmult_le_compat_r; [exact Hh|apply le_INR; exact Hj]. }
    eapply Rle_trans; [apply (points_lipschitz c i L); try assumption; [lra|rewrite Er; lra]|].
    apply Rmult_le_compat_l; [exact HL|]. rewrite Er. replace (u - (a + INR j * h)) with (u - a - INR j * h) by ring. exact D.
  Qed.

  (** ** Any positive weights *)

  (** rate of the points: weights at least [w], affine control coordinates at most [M] in size, homogeneous
      coordinate and weight moving at rates [L] and [Lw] *)
  Definition rational_rate (c : Curve R) (i : nat) (K : R) : Prop := exists w M L Lw,
    0 < w /\ 0 <= M /\ 0 <= L /\ 0 <= Lw /\ rate_le c i L /\ rate_le c (cdim c - 1) Lw /\
    (forall j, (j < length (cpts c))%nat -> w <= cpc c (cdim c - 1) j) /\
    (forall j, (j < length (cpts c))%nat -> - M <= cpc c i j / cpc c (cdim c - 1) j <= M) /\
    (L + M * Lw) / w <= K.

  Lemma wfun_ge c u w : curve_ok c -> curve_eps eps c -> dom0 c <= u <= dom1 c ->
    (forall j, (j < length (cpts c))%nat -> w <= cpc c (cdim c - 1) j) -> w <= wfun c u.
  Proof.
    intros Hc He Hu Hw. destruct (span_of eps maxv c u Hc He Hu) as (s & Hs & Hin & _). pose proof (clast_S c Hc) as Hn.
    unfold wfun. rewrite <- (piece_hcoord c s) by (auto; lia). pose proof (in_span_le _ _ _ _ Hin) as Hle. destruct Hin as (Hne & _ & _).
    pose proof (curve_mono c Hc) as Hm. unfold piece.
    assert (Hsum : rsum (length (cpts c)) (fun i => bs (kf (cknots c)) s (cdeg c) i u) = 1) by (apply bs_sum; auto; lia).
    replace w with (rsum (length (cpts c)) (fun j => bs (kf (cknots c)) s (cdeg c) j u * w)) by (rewrite rsum_scal_r, Hsum; ring).
    apply rsum_le. intros j Hj. apply Rmult_le_compat_l; [now apply bs_nonneg|apply Hw; exact Hj].
  Qed.

  Theorem rational_lipschitz c i K u v : curve_ok c -> curve_eps eps c -> curve_cont c -> (1 <= cdeg c)%nat -> (i < cdim c - 1)%nat -> rational_rate c i K ->
    dom0 c <= u <= dom1 c -> dom0 c <= v <= dom1 c -> Rabs (nurbs c i u - nurbs c i v) <= K * Rabs (u - v).
  Proof.
    intros Hok He Hcont Hp Hi (w & M & L & Lw & Hw & HM & HL & HLw & Hr & Hrw & Wge & Box & HK) Hu Hv.
    assert (Hpos : pos_weights c) by (intros j Hj; specialize (Wge j Hj); lra).
    pose proof (wfun_ge c u w Hok He Hu Wge) as Wu. pose proof (wfun_ge c v w Hok He Hv Wge) as Wv.
    pose proof (curve_lipschitz c i L Hok Hcont Hp HL Hr u v Hu Hv) as A.
    pose proof (curve_lipschitz c (cdim c - 1) Lw Hok Hcont Hp HLw Hrw u v Hu Hv) as B. fold (wfun c u) in B. fold (wfun c v) in B.
    assert (N : Rabs (nurbs c i v) <= M).
    { destruct (control_box eps maxv c v i (- M) M Hok He Hpos Hv Hi Box) as (q & Eq & Q).
      destruct (point_at_spec eps maxv c v Hok He Hv) as (q' & Eq' & _ & Q'); [lra|]. rewrite Eq in Eq'. injection Eq' as <-.
      rewrite <- Q' by exact Hi. apply Rabs_le. exact Q. }
    assert (E : nurbs c i u - nurbs c i v = ((hcoord c i u - hcoord c i v) + - nurbs c i v * (wfun c u - wfun c v)) / wfun c u).
    { unfold nurbs. field. split; lra. }
    rewrite E. unfold Rdiv. rewrite Rabs_mult, (Rabs_pos_eq (/ wfun c u)) by (apply Rlt_le, Rinv_0_lt_compat; lra).
    set (d := Rabs (u - v)) in *. assert (Hd : 0 <= d) by apply Rabs_pos.
    assert (S1 : Rabs (hcoord c i u - hcoord c i v + - nurbs c i v * (wfun c u - wfun c v)) <= (L + M * Lw) * d).
    { eapply Rle_trans; [apply Rabs_triang|]. rewrite Rabs_mult, Rabs_Ropp.
      pose proof (Rmult_le_compat _ _ _ _ (Rabs_pos (nurbs c i v)) (Rabs_pos (wfun c u - wfun c v)) N B) as X. lra. }
    assert (S2 : / wfun c u <= / w) by (apply Rinv_le_contravar; lra).
    eapply Rle_trans; [apply Rmult_le_compat; [apply Rabs_pos|apply Rlt_le, Rinv_0_lt_compat; lra|exact S1|exact S2]|].
    replace ((L + M * Lw) * d * / w) with ((L + M * Lw) / w * d) by (unfold Rdiv; ring). apply Rmult_le_compat_r; assumption.
  Qed.

  Theorem rational_samples_dense c a b n : curve_ok c -> curve_eps eps c -> pos_weights c -> curve_cont c -> (1 <= cdeg c)%nat ->
    dom0 c <= a -> a <= b -> b <= dom1 c -> (2 <= n)%nat ->
    exists ps, sample_regular_range c a b n = Ok ps /\ length ps = n /\
    forall u, a <= u <= b -> exists q, In q ps /\
      forall i K, (i < cdim c - 1)%nat -> 0 <= K -> rational_rate c i K -> Rabs (nurbs c i u - rc i q) <= K * ((b - a) / (INR n - 1) / 2).
  Proof.
    intros Hok He Hpos Hcont Hp Ha Hab Hb Hn.
    destruct (sample_regular_range_spec eps maxv c a b n Hok He Hpos Ha Hab Hb Hn) as (ps & E & Lp & Hps).
    exists ps. split; [exact E|]. split; [exact Lp|]. intros u Hu.
    assert (N1 : INR (n - 1) = INR n - 1) by (rewrite minus_INR by lia; cbn [INR]; lra).
    assert (N0 : 1 <= INR (n - 1)) by (change 1 with (INR 1); apply le_INR; lia).
    set (h := (b - a) / (INR n - 1)).
    assert (Hh : 0 <= h) by (unfold h; rewrite <- N1; apply Rmult_le_pos; [lra|apply Rlt_le, Rinv_0_lt_compat; lra]).
    assert (Hnh : INR (n - 1) * h = b - a) by (unfold h; rewrite <- N1; field; lra).
    destruct (nearest_step h Hh (n - 1) (u - a) ltac:(lra)) as (j & Hj & D).
    destruct (Hps j ltac:(lia)) as (_ & Hc). exists (nth j ps []). split; [apply nth_In; lia|]. intros i K Hi HK Hr.
    rewrite Hc by exact Hi. assert (Er : regular a b n j = a + INR j * h) by reflexivity.
    assert (J : 0 <= INR j * h <= b - a).
    { split; [apply Rmult_le_pos; [apply pos_INR|exact Hh]|]. rewrite <- Hnh. apply Rmult_le_compat_r; [exact Hh|apply le_INR; exact Hj]. }
    eapply Rle_trans; [apply (rational_lipschitz c i K); try assumption; [lra|rewrite Er; lra]|].
    apply Rmult_le_compat_l; [exact HK|]. rewrite Er. replace (u - (a + INR j * h)) with (u - a - INR j * h) by ring. exact D.
  Qed.
End Samples.
