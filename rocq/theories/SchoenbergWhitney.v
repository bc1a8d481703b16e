(** * The Schoenberg-Whitney theorem: a spline that vanishes at enough well-placed parameters is zero *)
From Coq Require Import Reals Lra Lia Psatz Sorted List Classical_Prop.
From Verif Require Import Base BaseFacts Scalar RSum BSplineSpec BSpline BSplineDeriv KnotModel KnotSpec KnotFacts KnotProofs
  VecFacts CurveModel CurveSpec CurveProofs CurveGeom CurveGeom2 SplitProofs Continuity VariationDim LengthMotion Unique.
Import ListNotations.
Open Scope R_scope.

(** a polynomial piece that vanishes on an interval has no coefficients there *)
Lemma bs_independent_on k s : mono k -> k s < k (S s) -> forall p (P : nat -> R) al be, (p <= s)%nat -> al < be ->
  (forall u, al < u < be -> rsum (S p) (fun r => bs k s p (s - p + r) u * P r) = 0) -> forall r, (r <= p)%nat -> P r = 0.
Proof.
  intros Hm Hs. induction p as [|q IH]; intros P al be Hp Hab H r Hr.
  - assert (r = 0)%nat as -> by lia. specialize (H ((al + be) / 2) ltac:(lra)). cbn [rsum] in H.
    replace (s - 0 + 0)%nat with s in H by lia. cbn [bs] in H. rewrite Nat.eqb_refl in H. lra.
  - set (i0 := (s - S q)%nat). assert (I0 : (s - q)%nat = S i0) by (unfold i0; lia).
    assert (D : forall r, (r <= q)%nat -> (P (S r) - P r) * dq k (S q) (s - q + r) = 0).
    { apply (IH (fun r => (P (S r) - P r) * dq k (S q) (s - q + r)) al be); [lia|exact Hab|]. intros u Hu.
      set (A := fun r => dq k (S q) (i0 + r) * bs k s q (i0 + r) u).
      assert (L : derivable_pt_lim (fun x => rsum (S (S q)) (fun r => bs k s (S q) (i0 + r) x * P r)) u (rsum (S (S q)) (fun r => INR (S q) * (P r * (A r - A (S r)))))).
      { apply (derivable_rsum (S (S q)) (fun r x => bs k s (S q) (i0 + r) x * P r) (fun r u => INR (S q) * (P r * ((dq k (S q) (i0 + r) * bs k s q (i0 + r) u) - (dq k (S q) (i0 + S r) * bs k s q (i0 + S r) u))))).
        intros j Hj. pose proof (bs_deriv k s q (i0 + j) u Hm) as B. pose proof (derivable_pt_lim_scal _ (P j) u _ B) as B'.
        replace (i0 + S j)%nat with (i0 + j + 1)%nat by lia.
        match type of B' with derivable_pt_lim _ _ ?l => match goal with |- derivable_pt_lim _ _ ?m => replace m with l by ring end end.
        apply (derivable_pt_lim_ext (mult_real_fct (P j) (bs k s (S q) (i0 + j)))); [|exact B']. intros x. unfold mult_real_fct. ring. }
      assert (Z : rsum (S (S q)) (fun r => INR (S q) * (P r * (A r - A (S r)))) = 0).
      { eapply (flat_slope _ al be u); [exact Hab|lra| |exact L]. intros x Hx. apply H. exact Hx. }
      rewrite rsum_scal, rsum_parts in Z.
      assert (A0 : A 0%nat = 0) by (unfold A; rewrite bs_support; [ring|unfold i0; lia]).
      assert (A1 : A (S (S q)) = 0) by (unfold A; rewrite bs_support; [ring|unfold i0; lia]).
      rewrite A0, A1 in Z. assert (Hn : INR (S q) <> 0) by (apply not_0_INR; lia).
      assert (Z' : rsum (S q) (fun r => (P (S r) - P r) * A (S r)) = 0) by (apply (Rmult_eq_reg_l (INR (S q))); [|exact Hn]; lra).
      rewrite <- Z'. apply rsum_ext. intros j Hj. unfold A. rewrite I0. replace (i0 + S j)%nat with (S i0 + j)%nat by lia. ring. }
    assert (E : forall r, (r <= S q)%nat -> P r = P 0%nat).
    { induction r0 as [|r0 IHr]; intros Hr0; [reflexivity|]. rewrite <- IHr by lia. specialize (D r0 ltac:(lia)).
      assert (Q : dq k (S q) (s - q + r0) <> 0).
      { unfold dq. pose proof (mono_le k (s - q + r0) s Hm ltac:(lia)). pose proof (mono_le k (S s) (s - q + r0 + S q) Hm ltac:(lia)).
        rewrite quot0_nz by lra. intros C. assert (X : (k (s - q + r0 + S q)%nat - k (s - q + r0)%nat) * (1 / (k (s - q + r0 + S q)%nat - k (s - q + r0)%nat)) = 1) by (field; lra). rewrite C in X. lra. }
      apply Rmult_integral in D. destruct D as [D|D]; [lra|contradiction]. }
    rewrite E by exact Hr. specialize (H ((al + be) / 2) ltac:(lra)). fold i0 in H.
    rewrite (rsum_ext (S (S q)) _ (fun r => P 0%nat * bs k s (S q) (i0 + r) ((al + be) / 2))) in H by (intros j Hj; rewrite E by lia; ring).
    rewrite rsum_scal in H.
    assert (O : rsum (S (S q)) (fun r => bs k s (S q) (i0 + r) ((al + be) / 2)) = 1).
    { rewrite <- (bs_sum k s Hm Hs (S q) (S s) ((al + be) / 2)) by lia. symmetry.
      rewrite (rsum_window (S s) i0 (S (S q))); [reflexivity|unfold i0; lia|]. intros j Hj C. apply bs_support. unfold i0 in C. lia. }
    rewrite O in H. lra.
Qed.

(** ** The derivative of a spline is a spline *)
Section Knots.
  Variables (k : list R) (p n : nat).
  Hypothesis Hk : knots_ok p n k.
  Hypothesis Hp : (1 <= p)%nat.
  Notation t := (kf k).

  (** the scalar spline with coefficients [P], as a one-dimensional curve *)
  Definition spl (P : nat -> R) : Curve R := MkCurve 1 p (map (fun j => [P j]) (seq 0 (S n))) k.
  Definition inner : list R := firstn (length k - 2) (skipn 1 k).
  Definition slope (P : nat -> R) (j : nat) : R := INR p * ((P (S j) - P j) * dq t p (S j)).
  Definition dspl (P : nat -> R) : Curve R := MkCurve 1 (p - 1) (map (fun j => [slope P j]) (seq 0 n)) inner.

  Let Hm : mono t := sorted_mono k (ko_sorted p n k Hk).

  Lemma spl_len P : length (cpts (spl P)) = S n.
  Proof. cbn [spl cpts]. now rewrite map_length, seq_length. Qed.
  Lemma spl_cpc P j : (j <= n)%nat -> cpc (spl P) 0 j = P j.
  Proof. intros H. unfold cpc. cbn [spl cpts]. rewrite (nth_map_lt (fun j => [P j]) _ _ 0%nat) by (rewrite seq_length; lia). rewrite seq_nth by lia. reflexivity. Qed.
  Lemma dspl_len P : length (cpts (dspl P)) = n.
  Proof. cbn [dspl cpts]. now rewrite map_length, seq_length. Qed.
  Lemma dspl_cpc P j : (j < n)%nat -> cpc (dspl P) 0 j = slope P j.
  Proof. intros H. unfold cpc. cbn [dspl cpts]. rewrite (nth_map_lt (fun j => [slope P j]) _ _ 0%nat) by (rewrite seq_length; lia). rewrite seq_nth by lia. reflexivity. Qed.

  Lemma spl_ok P : curve_ok (spl P).
  Proof.
    pose proof (ko_pn _ _ _ Hk). constructor; [cbn; lia| | |].
    - cbn [spl cpts cdim]. apply Forall_forall. intros q Hq. apply in_map_iff in Hq. destruct Hq as (j & <- & _). reflexivity.
    - rewrite spl_len. cbn. lia.
    - unfold clast. rewrite spl_len. cbn [spl cdeg cknots]. replace (S n - 1)%nat with n by lia. exact Hk.
  Qed.

  Lemma inner_kf j : (j + 2 <= n + p + 1)%nat -> kf inner j = t (S j).
  Proof.
    intros Hj. pose proof (ko_len _ _ _ Hk) as L. unfold inner. rewrite kf_firstn by (rewrite ?skipn_length; lia). rewrite kf_skipn by lia. f_equal. lia.
  Qed.
  Lemma inner_len : length inner = (n - 1 + (p - 1) + 2)%nat.
  Proof. pose proof (ko_len _ _ _ Hk). pose proof (ko_pn _ _ _ Hk). unfold inner. rewrite firstn_length, skipn_length. lia. Qed.
  Lemma inner_ok : knots_ok (p - 1) (n - 1) inner.
  Proof.
    pose proof (ko_pn _ _ _ Hk) as Hpn. pose proof (ko_len _ _ _ Hk) as L. constructor.
    - apply inner_len.
    - lia.
    - apply mono_sorted. intros i Hi. rewrite inner_len in Hi. rewrite <- !(kf_nth _ _ 0) by (rewrite inner_len; lia). rewrite !inner_kf by lia. apply Hm.
    - rewrite !inner_kf by lia. pose proof (ko_first _ _ _ Hk) as F. replace (S (p - 1)) with p by lia. replace (S (p - 1 + 1)) with (p + 1)%nat by lia. exact F.
    - rewrite !inner_kf by lia. pose proof (ko_last _ _ _ Hk) as F. replace (S (n - 1)) with n by lia. replace (S (n - 1 + 1)) with (n + 1)%nat by lia. exact F.
  Qed.
  Lemma dspl_ok P : curve_ok (dspl P).
  Proof.
    pose proof (ko_pn _ _ _ Hk). constructor; [cbn; lia| | |].
    - cbn [dspl cpts cdim]. apply Forall_forall. intros q Hq. apply in_map_iff in Hq. destruct Hq as (j & <- & _). reflexivity.
    - rewrite dspl_len. cbn. lia.
    - unfold clast. rewrite dspl_len. cbn [dspl cdeg cknots]. apply inner_ok.
  Qed.

  (** the polynomial piece over span [s], and its derivative *)
  Definition pc (P : nat -> R) (s : nat) (u : R) : R := piece t p (S n) P s u.
  Definition dpc (P : nat -> R) (s : nat) (u : R) : R := rsum n (fun j => bs t s (p - 1) (S j) u * slope P j).

  Lemma pc_deriv P s u : (p <= s <= n)%nat -> derivable_pt_lim (pc P s) u (dpc P s u).
  Proof.
    intros Hs. destruct p as [|q] eqn:Ep; [lia|]. set (A := fun r => dq t (S q) r * bs t s q r u).
    assert (L : derivable_pt_lim (fun x => rsum (S n) (fun r => bs t s (S q) r x * P r)) u (rsum (S n) (fun r => INR (S q) * (P r * (A r - A (S r)))))).
    { apply (derivable_rsum (S n) (fun r x => bs t s (S q) r x * P r) (fun r u => INR (S q) * (P r * (dq t (S q) r * bs t s q r u - dq t (S q) (S r) * bs t s q (S r) u)))).
      intros j Hj. pose proof (bs_deriv t s q j u Hm) as B. pose proof (derivable_pt_lim_scal _ (P j) u _ B) as B'. rewrite Nat.add_1_r in B'.
      match type of B' with derivable_pt_lim _ _ ?l => match goal with |- derivable_pt_lim _ _ ?m => replace m with l by ring end end.
      apply (derivable_pt_lim_ext (mult_real_fct (P j) (bs t s (S q) j))); [|exact B']. intros x. unfold mult_real_fct. ring. }
    rewrite rsum_scal, rsum_parts in L.
    assert (A0 : A 0%nat = 0) by (unfold A; rewrite bs_support; [ring|lia]).
    assert (A1 : A (S n) = 0) by (unfold A; rewrite bs_support; [ring|lia]).
    rewrite A0, A1 in L. unfold pc, piece. rewrite Ep.
    match type of L with derivable_pt_lim _ _ ?l => replace (dpc P s u) with l; [exact L|] end.
    unfold dpc. rewrite ?Ep. replace (S q - 1)%nat with q by lia.
    replace (P 0%nat * 0 - P n * 0 + rsum n (fun r => (P (S r) - P r) * A (S r))) with (rsum n (fun r => (P (S r) - P r) * A (S r))) by ring.
    rewrite <- rsum_scal. apply rsum_ext. intros j Hj. unfold A, slope. rewrite ?Ep. ring.
  Qed.

  (** the spline and its derivative as functions of the parameter *)
  Definition sf (P : nat -> R) (u : R) : R := hcoord (spl P) 0 u.
  Definition sd (P : nat -> R) (u : R) : R := hcoord (dspl P) 0 u.
  Hypothesis Hc : interior_cont p n t.
  Hypothesis Hc0 : forall j, (j <= p)%nat -> t j = t 0%nat.
  Hypothesis Hc1 : forall j, (n + 1 <= j <= n + p + 1)%nat -> t j = t (S n).
  Notation lo := (t p).
  Notation hi := (t (S n)).

  Lemma spl_cont P : curve_cont (spl P).
  Proof. unfold curve_cont, clast. rewrite spl_len. cbn [spl cdeg cknots]. replace (S n - 1)%nat with n by lia. exact Hc. Qed.
  Lemma spl_clast P : clast (spl P) = n.
  Proof. unfold clast. rewrite spl_len. lia. Qed.
  Lemma spl_dom0 P : dom0 (spl P) = lo.
  Proof. reflexivity. Qed.
  Lemma spl_dom1 P : dom1 (spl P) = hi.
  Proof. unfold dom1. rewrite spl_len. reflexivity. Qed.

  Lemma sf_piece P s u : (p <= s <= n)%nat -> t s < t (S s) -> t s <= u <= t (S s) -> sf P u = pc P s u.
  Proof.
    intros Hs Hl Hu. unfold sf. rewrite (hcoord_any_span (spl P) s 0 u (spl_ok P) (spl_cont P)).
    - unfold pc, piece. rewrite spl_len. cbn [spl cknots cdeg]. apply rsum_ext. intros j Hj. rewrite spl_cpc by lia. reflexivity.
    - rewrite spl_clast. exact Hs.
    - exact Hl.
    - exact Hu.
  Qed.

  Lemma sd_piece P s u : (p <= s <= n)%nat -> t s < u < t (S s) -> sd P u = dpc P s u.
  Proof.
    intros Hs Hu. pose proof (ko_pn _ _ _ Hk) as Hpn. unfold sd. rewrite <- (piece_hcoord (dspl P) (s - 1) 0 u (dspl_ok P)).
    - unfold dpc, piece. rewrite dspl_len. cbn [dspl cknots cdeg]. apply rsum_ext. intros j Hj. rewrite dspl_cpc by lia. f_equal.
      replace s with (s - 1 + 1)%nat at 2 by lia. replace (S j) with (j + 1)%nat by lia. symmetry. apply bs_shift.
      intros i Hi. rewrite inner_kf by lia. f_equal. lia.
    - unfold in_span. cbn [dspl cknots]. rewrite !inner_kf by lia. replace (S (s - 1)) with s by lia. repeat split; lra.
    - unfold clast. rewrite dspl_len. lia.
  Qed.

  (** the spline can only rise where its derivative is positive somewhere in between, and fall where it is negative *)
  Lemma rise P sg : forall m, (m <= S n)%nat -> forall x y, lo <= x -> x < y -> y <= t m -> 0 < sg * (sf P y - sf P x) ->
    exists z, x < z < y /\ 0 < sg * sd P z.
  Proof.
    assert (MV : forall s x y, (p <= s <= n)%nat -> t s <= x -> x < y -> y <= t (S s) -> 0 < sg * (sf P y - sf P x) -> exists z, x < z < y /\ 0 < sg * sd P z).
    { intros s x y Hs H1 H2 H3 H. assert (Hl : t s < t (S s)) by lra. rewrite !(sf_piece P s) in H by (try assumption; lra).
      destruct (MVT_cor2 (pc P s) (dpc P s) x y H2) as (z & E & Hz); [intros c _; apply pc_deriv; exact Hs|].
      exists z. split; [exact Hz|]. rewrite (sd_piece P s) by (try assumption; lra). rewrite E in H. rewrite <- Rmult_assoc in H. nra. }
    induction m as [|m IH]; intros Hmn x y Hx Hxy Hy H.
    - exfalso. pose proof (mono_le t 0 p Hm ltac:(lia)). lra.
    - destruct (Rle_lt_dec y (t m)) as [Hl|Hl]; [apply IH; try assumption; lia|].
      destruct (le_lt_dec p m) as [Hpm|Hpm].
      2:{ exfalso. pose proof (mono_le t (S m) p Hm ltac:(lia)). lra. }
      destruct (Rle_lt_dec (t m) x) as [Hxm|Hxm]; [apply (MV m); try assumption; lia|].
      destruct (Rlt_le_dec 0 (sg * (sf P (t m) - sf P x))) as [Hr|Hr].
      + destruct (IH ltac:(lia) x (t m) Hx Hxm (Rle_refl _) Hr) as (z & Hz & Hd). exists z. split; [lra|exact Hd].
      + destruct (MV m (t m) y ltac:(lia) (Rle_refl _) Hl Hy) as (z & Hz & Hd); [nra|]. exists z. split; [lra|exact Hd].
  Qed.

  (** zeros separated by nonzero values make the derivative alternate *)
  Lemma derivative_alternates P (y : nat -> R) : forall m,
    (forall i, (i <= S m)%nat -> lo <= y i <= hi /\ sf P (y i) = 0) -> (forall i, (i <= m)%nat -> y i < y (S i)) ->
    (forall i, (i <= m)%nat -> exists q, y i < q < y (S i) /\ sf P q <> 0) ->
    exists us : nat -> R, (forall j, (j <= S m)%nat -> lo <= us j <= hi /\ us j < y (S m) /\ sd P (us j) <> 0) /\
      (forall j, (j <= m)%nat -> us j < us (S j)) /\ (forall j, (j <= m)%nat -> sd P (us j) * sd P (us (S j)) < 0).
  Proof.
    assert (UP : forall a q, lo <= a -> a < q -> q <= hi -> sf P a = 0 -> sf P q <> 0 -> exists z, a < z < q /\ 0 < sf P q * sd P z).
    { intros a q H1 H2 H3 H4 H5. destruct (rise P (sf P q) (S n) (le_n _) a q H1 H2 H3) as (z & Hz & Hd); [rewrite H4; nra|]. exists z. split; assumption. }
    assert (DN : forall q b, lo <= q -> q < b -> b <= hi -> sf P b = 0 -> sf P q <> 0 -> exists z, q < z < b /\ sf P q * sd P z < 0).
    { intros q b H1 H2 H3 H4 H5. destruct (rise P (- sf P q) (S n) (le_n _) q b H1 H2 H3) as (z & Hz & Hd); [rewrite H4; nra|]. exists z. split; [exact Hz|nra]. }
    induction m as [|m IH]; intros Hy Hi Hq.
    - destruct (Hq 0%nat ltac:(lia)) as (q & Hq1 & Hq2). destruct (Hy 0%nat ltac:(lia)) as [Ha Hza]. destruct (Hy 1%nat ltac:(lia)) as [Hb Hzb].
      destruct (UP (y 0%nat) q) as (z1 & Hz1 & Hd1); try assumption; try lra. destruct (DN q (y 1%nat)) as (z2 & Hz2 & Hd2); try assumption; try lra.
      exists (fun j => match j with O => z1 | _ => z2 end). split; [|split].
      + intros [|j] Hj; (split; [lra|split; [lra|intros E; rewrite E in *; lra]]).
      + intros j Hj. assert (j = 0)%nat as -> by lia. lra.
      + intros j Hj. assert (j = 0)%nat as -> by lia. nra.
    - destruct IH as (us & H1 & H2 & H3); [intros; apply Hy; lia|intros; apply Hi; lia|intros; apply Hq; lia|].
      destruct (Hq (S m) ltac:(lia)) as (q & Hq1 & Hq2). destruct (Hy (S m) ltac:(lia)) as [Ha Hza]. destruct (Hy (S (S m)) ltac:(lia)) as [Hb Hzb].
      destruct (H1 (S m) ltac:(lia)) as (L1 & L2 & L3).
      assert (Z : exists z, y (S m) < z < y (S (S m)) /\ sd P (us (S m)) * sd P z < 0).
      { destruct (Rtotal_order (sf P q * sd P (us (S m))) 0) as [Hs|[Hs|Hs]].
        - destruct (UP (y (S m)) q) as (z & Hz & Hd); try assumption; try lra. exists z. split; [lra|].
          assert (0 < sf P q * sf P q) by nra. nra.
        - exfalso. apply Rmult_integral in Hs. tauto.
        - destruct (DN q (y (S (S m)))) as (z & Hz & Hd); try assumption; try lra. exists z. split; [lra|].
          assert (0 < sf P q * sf P q) by nra. nra. }
      destruct Z as (z & Hz & Hd).
      exists (fun j => if (j <=? S m)%nat then us j else z). split; [|split].
      + intros j Hj. destruct (Nat.leb_spec j (S m)) as [Hl|Hl].
        * destruct (H1 j Hl) as (A & B & C). split; [exact A|split; [lra|exact C]].
        * split; [lra|split; [lra|intros E; rewrite E in *; lra]].
      + intros j Hj. rewrite (proj2 (Nat.leb_le j (S m)) ltac:(lia)). destruct (Nat.leb_spec (S j) (S m)) as [Hl|Hl].
        * apply H2. lia.
        * assert (j = S m) as -> by lia. lra.
      + intros j Hj. rewrite (proj2 (Nat.leb_le j (S m)) ltac:(lia)). destruct (Nat.leb_spec (S j) (S m)) as [Hl|Hl].
        * apply H3. lia.
        * assert (j = S m) as -> by lia. exact Hd.
  Qed.

  (** the derivative changes sign at most as often as its coefficients do *)
  Lemma derivative_variation P a b m (us : nat -> R) : (1 <= a)%nat -> (b <= n - 1)%nat ->
    (forall j, (j < a)%nat -> P j = 0) -> (forall j, (b < j <= n)%nat -> P j = 0) ->
    (forall j, (j < m)%nat -> lo <= us j <= hi /\ sd P (us j) <> 0) -> (forall j, (S j < m)%nat -> us j < us (S j)) ->
    (forall j, (S j < m)%nat -> sd P (us j) * sd P (us (S j)) < 0) -> (1 <= m)%nat -> (m + a <= b + 2)%nat.
  Proof.
    intros Ha Hb Z0 Z1 H1 H2 H3 Hm1. pose proof (ko_pn _ _ _ Hk) as Hpn.
    assert (AL : forall u, along (fun _ => 1) (dspl P) u = sd P u).
    { intros u. unfold along. cbn [dspl cdim rsum]. fold (dspl P). unfold sd. ring. }
    destruct (variation_form (fun _ => 1) (dspl P) us m (dspl_ok P)) as (e & He & Hi).
    - intros j Hj. unfold dom0, dom1. rewrite dspl_len. cbn [dspl cknots cdeg]. rewrite !inner_kf by lia.
      replace (S (p - 1)) with p by lia. apply H1. exact Hj.
    - exact H2.
    - intros j Hj. rewrite AL. apply H1. exact Hj.
    - intros j Hj. rewrite !AL. apply H3. exact Hj.
    - assert (B : forall j, (j < m)%nat -> (a - 1 <= e j <= b)%nat).
      { intros j Hj. destruct (He j Hj) as [E1 E2]. rewrite dspl_len in E1. unfold form in E2. cbn [dspl cdim rsum] in E2. fold (dspl P) in E2.
        rewrite dspl_cpc in E2 by exact E1. destruct (le_lt_dec (a - 1) (e j)) as [L|L].
        - split; [exact L|]. destruct (le_lt_dec (e j) b) as [L'|L']; [exact L'|]. exfalso. unfold slope in E2. rewrite !Z1 in E2 by lia. lra.
        - exfalso. unfold slope in E2. rewrite !Z0 in E2 by lia. lra. }
      assert (G : forall j, (j < m)%nat -> (a - 1 + j <= e j)%nat).
      { induction j as [|j IH]; intros Hj; [pose proof (B 0%nat Hj); lia|]. specialize (IH ltac:(lia)). specialize (Hi j Hj). lia. }
      pose proof (G (m - 1)%nat ltac:(lia)). pose proof (B (m - 1)%nat ltac:(lia)). lia.
  Qed.

  (** a spline vanishes outside the support of its coefficients *)
  Lemma left_span u m : lo < u -> u <= t m -> exists s, (p <= s < m)%nat /\ t s < u <= t (S s).
  Proof.
    induction m as [|m IH]; intros H1 H2; [pose proof (mono_le t 0 p Hm ltac:(lia)); lra|].
    destruct (Rle_lt_dec u (t m)) as [L|L].
    - destruct (IH H1 L) as (s & Hs & E). exists s. split; [lia|exact E].
    - exists m. split; [|lra]. destruct (le_lt_dec p m) as [G|G]; [lia|]. pose proof (mono_le t (S m) p Hm ltac:(lia)). lra.
  Qed.

  Lemma sf_left P a u : (1 <= a)%nat -> (forall j, (j < a)%nat -> P j = 0) -> lo <= u <= hi -> u <= t a -> sf P u = 0.
  Proof.
    intros Ha Z Hu Hua. pose proof (ko_pn _ _ _ Hk) as Hpn. destruct (Rle_lt_dec u lo) as [L|L].
    - assert (u = lo) as -> by lra. unfold sf. change lo with (dom0 (spl P)). rewrite hcoord_start; [|apply spl_ok|exact Hc0]. rewrite spl_cpc by lia. apply Z. lia.
    - destruct (left_span u (S n) L ltac:(lra)) as (s & Hs & Hsu). rewrite (sf_piece P s) by (try lia; lra).
      assert (Hsa : (s < a)%nat). { destruct (le_lt_dec a s) as [G|G]; [|exact G]. pose proof (mono_le t a s Hm G). lra. }
      unfold pc, piece. apply rsum_0. intros j Hj.
      destruct (le_lt_dec j s) as [G|G]; [rewrite Z by lia; ring|]. rewrite bs_support by lia. ring.
  Qed.

  Lemma sf_right P b u : (b <= n - 1)%nat -> (forall j, (b < j <= n)%nat -> P j = 0) -> lo <= u <= hi -> t (b + p + 1)%nat <= u -> sf P u = 0.
  Proof.
    intros Hb Z Hu Hub. pose proof (ko_pn _ _ _ Hk) as Hpn. destruct (Rle_lt_dec hi u) as [L|L].
    - assert (u = hi) as -> by lra. unfold sf. rewrite <- (spl_dom1 P). rewrite hcoord_end.
      + rewrite spl_clast, spl_cpc by lia. apply Z. lia.
      + apply spl_ok.
      + intros j Hj. rewrite spl_len in *. cbn [spl cknots cdeg] in *. apply Hc1. lia.
    - destruct (domain_span (spl P) u (spl_ok P)) as (s & Hs & Hin); [rewrite spl_dom0, spl_dom1; exact Hu|].
      rewrite spl_clast in *. cbn [spl cdeg cknots] in *. destruct Hin as (I1 & I2 & I3).
      assert (I4 : u < t (S s)) by (destruct I3 as [I3|[-> I3]]; lra).
      rewrite (sf_piece P s) by (try assumption; lra).
      assert (Hsb : (b + p < s)%nat). { destruct (le_lt_dec s (b + p)) as [G|G]; [|exact G]. pose proof (mono_le t (S s) (b + p + 1) Hm ltac:(lia)). lra. }
      unfold pc, piece. apply rsum_0. intros j Hj.
      destruct (le_lt_dec j b) as [G|G]; [|rewrite Z by lia; ring]. rewrite bs_support by lia. ring.
  Qed.

  Lemma sf_add P Q u : sf (fun j => P j + Q j) u = sf P u + sf Q u.
  Proof.
    unfold sf, hcoord. rewrite !spl_len. rewrite <- rsum_plus. apply rsum_ext. intros j Hj. rewrite !spl_cpc by lia.
    unfold dom1. rewrite !spl_len. cbn [spl cknots cdeg]. ring.
  Qed.
  Lemma sf_ext P Q u : (forall j, (j <= n)%nat -> P j = Q j) -> sf P u = sf Q u.
  Proof.
    intros E. unfold sf, hcoord. rewrite !spl_len. apply rsum_ext. intros j Hj. rewrite !spl_cpc by lia. rewrite E by lia.
    unfold dom1. rewrite !spl_len. reflexivity.
  Qed.

  Lemma sf_zero P u : (forall j, (j <= n)%nat -> P j = 0) -> sf P u = 0.
  Proof.
    intros E. unfold sf, hcoord. rewrite !spl_len. apply rsum_0. intros j Hj. rewrite spl_cpc by lia. rewrite E by lia. ring.
  Qed.

  (** where the spline vanishes on an interval, the coefficients acting there are zero *)
  Lemma flat_span P al be : al < be -> lo <= al -> be <= hi -> (forall u, al < u < be -> sf P u = 0) ->
    exists s, (p <= s <= n)%nat /\ al < t (S s) /\ t s < be /\ forall j, (s - p <= j <= s)%nat -> P j = 0.
  Proof.
    intros Hab Hl Hh Z. pose proof (ko_pn _ _ _ Hk) as Hpn. set (u := (al + be) / 2). assert (Hu : al < u < be) by (unfold u; lra).
    destruct (domain_span (spl P) u (spl_ok P)) as (s & Hs & Hin); [rewrite spl_dom0, spl_dom1; lra|].
    rewrite spl_clast in *. cbn [spl cdeg cknots] in *. destruct Hin as (I1 & I2 & I3).
    assert (I4 : u < t (S s)) by (destruct I3 as [I3|[-> I3]]; lra).
    exists s. split; [exact Hs|]. split; [lra|]. split; [lra|].
    assert (B : forall r, (r <= p)%nat -> P (s - p + r)%nat = 0).
    { apply (bs_independent_on t s Hm I1 p (fun r => P (s - p + r)%nat) (Rmax al (t s)) (Rmin be (t (S s)))); [lia| |].
      - apply Rmax_case; apply Rmin_case; lra.
      - intros x [X1 X2]. pose proof (Rmax_l al (t s)). pose proof (Rmax_r al (t s)). pose proof (Rmin_l be (t (S s))). pose proof (Rmin_r be (t (S s))).
        specialize (Z x ltac:(lra)). rewrite (sf_piece P s) in Z by (try assumption; lra). unfold pc, piece in Z. rewrite <- Z. symmetry.
        rewrite (rsum_window (S n) (s - p) (S p)); [reflexivity|lia|]. intros j Hj C. rewrite bs_support by lia. ring. }
    intros j Hj. replace j with (s - p + (j - (s - p)))%nat by lia. apply B. lia.
  Qed.

  (** *** A spline that vanishes at one parameter inside the support of each inner coefficient is zero *)
  Theorem schoenberg_whitney (x : nat -> R) :
    (forall j, (1 <= j <= n - 1)%nat -> t j < x j < t (j + p + 1)%nat) -> (forall j, (1 <= j)%nat -> (S j <= n - 1)%nat -> x j < x (S j)) ->
    forall w P a b, (b + 1 - a <= w)%nat -> (1 <= a)%nat -> (b <= n - 1)%nat ->
    (forall j, (j < a)%nat -> P j = 0) -> (forall j, (b < j <= n)%nat -> P j = 0) ->
    (forall j, (a <= j <= b)%nat -> sf P (x j) = 0) -> forall j, (j <= n)%nat -> P j = 0.
  Proof.
    intros Hx Hxi. pose proof (ko_pn _ _ _ Hk) as Hpn.
    assert (TD : forall j, (1 <= j <= n + p)%nat -> lo <= t j <= hi).
    { intros j Hj. split.
      - destruct (le_lt_dec j p) as [G|G]; [rewrite (Hc0 j), (Hc0 p) by lia; lra|apply mono_le; [exact Hm|lia]].
      - destruct (le_lt_dec j (S n)) as [G|G]; [apply mono_le; [exact Hm|lia]|rewrite Hc1 by lia; lra]. }
    assert (XD : forall j, (1 <= j <= n - 1)%nat -> lo <= x j <= hi).
    { intros j Hj. pose proof (Hx j Hj). pose proof (TD j ltac:(lia)). pose proof (TD (j + p + 1)%nat ltac:(lia)). lra. }
    induction w as [|w IH]; intros P a b Hw Ha Hb Z0 Z1 Zx j Hj.
    - destruct (le_lt_dec a j) as [G|G]; [apply Z1; lia|apply Z0; exact G].
    - destruct (le_lt_dec a b) as [Hab|Hab]; [|destruct (le_lt_dec a j) as [G|G]; [apply Z1; lia|apply Z0; exact G]].
      set (m := (b - a + 1)%nat).
      set (y := fun i => if (i =? 0)%nat then t a else if (i =? S m)%nat then t (b + p + 1)%nat else x (a + i - 1)%nat).
      assert (Y0 : y 0%nat = t a) by reflexivity.
      assert (Y1 : y (S m) = t (b + p + 1)%nat) by (unfold y; cbn [Nat.eqb]; rewrite Nat.eqb_refl; reflexivity).
      assert (Yi : forall i, (1 <= i <= m)%nat -> y i = x (a + i - 1)%nat).
      { intros i Hi. unfold y. rewrite (proj2 (Nat.eqb_neq i 0)) by lia. rewrite (proj2 (Nat.eqb_neq i (S m))) by lia. reflexivity. }
      assert (YD : forall i, (i <= S m)%nat -> lo <= y i <= hi /\ sf P (y i) = 0).
      { intros i Hi. destruct (Nat.eq_dec i 0) as [->|N0].
        - rewrite Y0. pose proof (TD a ltac:(lia)). split; [assumption|]. apply (sf_left P a); try assumption. lra.
        - destruct (Nat.eq_dec i (S m)) as [->|N1].
          + rewrite Y1. pose proof (TD (b + p + 1)%nat ltac:(lia)). split; [assumption|]. apply (sf_right P b); try assumption. lra.
          + rewrite Yi by lia. split; [apply XD; unfold m in *; lia|apply Zx; unfold m in *; lia]. }
      assert (YI : forall i, (i <= m)%nat -> y i < y (S i)).
      { intros i Hi. destruct (Nat.eq_dec i 0) as [->|N0].
        - rewrite Y0, Yi by (unfold m; lia). replace (a + 1 - 1)%nat with a by lia. apply Hx. lia.
        - destruct (Nat.eq_dec i m) as [->|N1].
          + rewrite Y1, Yi by lia. replace (a + m - 1)%nat with b by (unfold m; lia). apply Hx. lia.
          + rewrite !Yi by lia. replace (a + S i - 1)%nat with (S (a + i - 1)) by lia. apply Hxi; unfold m in *; lia. }
      destruct (classic (forall i, (i <= m)%nat -> exists q, y i < q < y (S i) /\ sf P q <> 0)) as [Hall|Hnot].
      + exfalso. destruct (derivative_alternates P y m YD YI Hall) as (us & U1 & U2 & U3).
        pose proof (derivative_variation P a b (m + 2) us Ha Hb Z0 Z1) as V.
        assert (m + 2 + a <= b + 2)%nat; [|unfold m in *; lia]. apply V.
        * intros i Hi. destruct (U1 i ltac:(lia)) as (A & _ & C). split; assumption.
        * intros i Hi. apply U2. lia.
        * intros i Hi. apply U3. lia.
        * lia.
      + assert (Hg : exists i, (i <= m)%nat /\ forall q, y i < q < y (S i) -> sf P q = 0).
        { apply NNPP. intros N. apply Hnot. intros i Hi. apply NNPP. intros N'. apply N. exists i. split; [exact Hi|]. intros q Hq.
          apply NNPP. intros N2. apply N'. exists q. split; assumption. }
        destruct Hg as (i & Hi & Hflat).
        assert (YA : forall i, (i <= S m)%nat -> t a <= y i).
        { induction i0 as [|i0 IHi]; intros Hi0; [rewrite Y0; lra|]. specialize (IHi ltac:(lia)). pose proof (YI i0 ltac:(lia)). lra. }
        assert (YB : forall d, (d <= S m)%nat -> y (S m - d)%nat <= t (b + p + 1)%nat).
        { induction d as [|d IHd]; intros Hd; [rewrite Nat.sub_0_r, Y1; lra|]. specialize (IHd ltac:(lia)). pose proof (YI (S m - S d)%nat ltac:(lia)) as Q.
          replace (S (S m - S d)) with (S m - d)%nat in Q by lia. lra. }
        destruct (flat_span P (y i) (y (S i))) as (s & Hs & F1 & F2 & F3); [apply YI; exact Hi|apply YD; lia|apply YD; lia|exact Hflat|].
        assert (Sa : (a <= s)%nat).
        { destruct (le_lt_dec a s) as [G|G]; [exact G|]. pose proof (mono_le t (S s) a Hm G). pose proof (YA i ltac:(lia)). lra. }
        assert (Sb : (s <= b + p)%nat).
        { destruct (le_lt_dec s (b + p)) as [G|G]; [exact G|]. pose proof (mono_le t (b + p + 1) s Hm ltac:(lia)).
          pose proof (YB (S m - S i)%nat ltac:(lia)) as Q. replace (S m - (S m - S i))%nat with (S i) in Q by lia. lra. }
        set (P1 := fun j => if (j <? s - p)%nat then P j else 0). set (P2 := fun j => if (s <? j)%nat then P j else 0).
        assert (PE : forall j, (j <= n)%nat -> P j = P1 j + P2 j).
        { intros q Hq. unfold P1, P2. destruct (Nat.ltb_spec q (s - p)) as [G|G]; destruct (Nat.ltb_spec s q) as [G'|G']; try lia; try lra. rewrite F3 by lia. lra. }
        assert (W2 : forall u, lo <= u <= hi -> u <= t (S s) -> sf P2 u = 0).
        { intros u Hu Hus. apply (sf_left P2 (S s)); try assumption; [lia|]. intros q Hq. unfold P2. rewrite (proj2 (Nat.ltb_ge s q)) by lia. reflexivity. }
        assert (W1 : forall u, lo <= u <= hi -> t s <= u -> sf P1 u = 0).
        { intros u Hu Hus. destruct (le_lt_dec (s - p) 0) as [G|G].
          - apply sf_zero. intros q Hq. unfold P1. rewrite (proj2 (Nat.ltb_ge q (s - p))) by lia. reflexivity.
          - apply (sf_right P1 (s - p - 1)); [lia| |exact Hu|].
            + intros q Hq. unfold P1. rewrite (proj2 (Nat.ltb_ge q (s - p))) by lia. reflexivity.
            + replace (s - p - 1 + p + 1)%nat with s by lia. exact Hus. }
        assert (Q1 : forall j, (j <= n)%nat -> P1 j = 0).
        { apply (IH P1 a (s - p - 1)%nat); try lia.
          - intros q Hq. unfold P1. rewrite Z0 by exact Hq. destruct (q <? s - p)%nat; reflexivity.
          - intros q Hq. unfold P1. rewrite (proj2 (Nat.ltb_ge q (s - p))) by lia. reflexivity.
          - intros q Hq. pose proof (Zx q ltac:(lia)) as E. rewrite (sf_ext P (fun j => P1 j + P2 j)) in E by exact PE. rewrite sf_add in E.
            rewrite W2 in E; [lra|apply XD; lia|]. pose proof (Hx q ltac:(lia)). pose proof (mono_le t (q + p + 1) (S s) Hm ltac:(lia)). lra. }
        assert (Q2 : forall j, (j <= n)%nat -> P2 j = 0).
        { apply (IH P2 (S s) b); try lia.
          - intros q Hq. unfold P2. rewrite (proj2 (Nat.ltb_ge s q)) by lia. reflexivity.
          - intros q Hq. unfold P2. rewrite Z1 by exact Hq. destruct (s <? q)%nat; reflexivity.
          - intros q Hq. pose proof (Zx q ltac:(lia)) as E. rewrite (sf_ext P (fun j => P1 j + P2 j)) in E by exact PE. rewrite sf_add in E.
            rewrite W1 in E; [lra|apply XD; lia|]. pose proof (Hx q ltac:(lia)). pose proof (mono_le t s q Hm ltac:(lia)). lra. }
        rewrite PE by exact Hj. rewrite Q1, Q2 by exact Hj. lra.
  Qed.
End Knots.
