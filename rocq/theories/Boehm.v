(** * Knot insertion at the level of curves: a curve with one more knot and the blended control
      points describes the same function *)
From Coq Require Import Reals Lra Sorted Permutation.
From Verif Require Import Base BaseFacts Scalar RSum BSplineSpec BSpline BSplineInsert KnotModel
  KnotSpec KnotFacts KnotProofs VecFacts CurveModel CurveSpec CurveProofs CurveGeom CurveGeom2.
Open Scope R_scope.

(** well-formed: like [curve_ok], but the end spans of the domain may be empty *)
Record curve_wf (c : Curve R) : Prop := {
  wf_dim : (1 <= cdim c)%nat;
  wf_pts : Forall (fun p => length p = cdim c) (cpts c);
  wf_len : (cdeg c < length (cpts c))%nat;
  wf_klen : length (cknots c) = (length (cpts c) + cdeg c + 1)%nat;
  wf_sorted : Sorted Rle (cknots c)
}.

Lemma ok_wf c : curve_ok c -> curve_wf c.
Proof.
  intros Hc. pose proof (curve_len c Hc). destruct Hc as [H1 H2 H3 [_ _ H4 _ _]].
  constructor; auto.
Qed.

Lemma wf_ok c : curve_wf c -> kf (cknots c) (cdeg c) < kf (cknots c) (S (cdeg c)) ->
  kf (cknots c) (clast c) < kf (cknots c) (S (clast c)) -> curve_ok c.
Proof.
  intros [H1 H2 H3 H4 H5] F L. constructor; auto. unfold clast in *.
  constructor; auto; try lia; rewrite Nat.add_1_r; auto.
Qed.

Lemma wf_clast c : curve_wf c -> S (clast c) = length (cpts c).
Proof. intros [_ _ H _ _]. unfold clast. lia. Qed.

Lemma wf_mono c : curve_wf c -> mono (kf (cknots c)).
Proof. intros [_ _ _ _ H]. now apply sorted_mono. Qed.

(** [c'] has the same dimension, degree and domain as [c], and every non-empty span of [c'] lies
    in a span of [c] and carries the same polynomial piece *)
Record same_curve (c c' : Curve R) : Prop := {
  sc_wf : curve_wf c';
  sc_dim : cdim c' = cdim c;
  sc_deg : cdeg c' = cdeg c;
  sc_dom0 : dom0 c' = dom0 c;
  sc_dom1 : dom1 c' = dom1 c;
  sc_piece : forall s', (cdeg c <= s' <= clast c')%nat ->
    kf (cknots c') s' < kf (cknots c') (S s') ->
    exists s, (cdeg c <= s <= clast c)%nat /\
      kf (cknots c) s <= kf (cknots c') s' /\ kf (cknots c') (S s') <= kf (cknots c) (S s) /\
      forall i u, piece (kf (cknots c')) (cdeg c) (length (cpts c')) (cpc c' i) s' u
                  = piece (kf (cknots c)) (cdeg c) (length (cpts c)) (cpc c i) s u
}.

Lemma same_curve_refl c : curve_wf c -> same_curve c c.
Proof.
  intros Hc. constructor; auto. intros s' Hs Hn. exists s'.
  repeat split; auto; try lia; lra.
Qed.

Lemma same_curve_trans a b c : same_curve a b -> same_curve b c -> same_curve a c.
Proof.
  intros [A1 A2 A3 A4 A5 A6] [B1 B2 B3 B4 B5 B6].
  constructor; try congruence; auto.
  intros s' Hs Hn. destruct (B6 s') as (s1 & S1 & S2 & S3 & S4); [rewrite A3; exact Hs|exact Hn|].
  destruct (A6 s1) as (s & T1 & T2 & T3 & T4); [rewrite <- A3; exact S1|lra|].
  exists s. split; [exact T1|]. split; [lra|]. split; [lra|].
  intros i u. rewrite <- T4, <- A3. apply S4.
Qed.

Lemma same_hcoord c c' i u : curve_ok c -> curve_ok c' -> same_curve c c' ->
  dom0 c <= u <= dom1 c -> hcoord c' i u = hcoord c i u.
Proof.
  intros Hc B1 [_ B2 B3 B4 B5 B6] Hu.
  destruct (domain_span c' u B1) as (s' & Hs' & Hin'); [lra|].
  rewrite B3 in Hs'. pose proof Hin' as (N & Lo & Hi).
  destruct (B6 s' Hs' N) as (s & S1 & S2 & S3 & S4).
  pose proof (curve_mono c Hc) as Hm. pose proof (clast_S c Hc) as Hn.
  pose proof (clast_S c' B1) as Hn'.
  assert (Hin : in_span (cknots c) (clast c) s u).
  { unfold in_span. split; [lra|]. split; [lra|].
    destruct Hi as [Hi|[-> Hi]]; [left; lra|]. right.
    assert (E1 : u = dom1 c).
    { rewrite Hi, Hn'. exact B5. }
    pose proof (ko_last _ _ _ (co_knots c Hc)) as K. rewrite Nat.add_1_r in K.
    assert (E2 : dom1 c = kf (cknots c) (S (clast c))) by (unfold dom1; now rewrite Hn).
    destruct (Nat.eq_dec s (clast c)) as [->|Hne]; [split; [auto|lra]|].
    pose proof (mono_le _ (S s) (clast c) Hm ltac:(lia)). lra. }
  rewrite <- (piece_hcoord c s i u Hc Hin) by lia.
  rewrite <- (piece_hcoord c' s' i u B1 Hin') by lia.
  rewrite B3. apply S4.
Qed.

(** ** Insertion of one knot *)
Definition ins_knots (k : list R) (j : nat) (x : R) : list R :=
  firstn (S j) k ++ x :: skipn (S j) k.

Lemma ins_knots_length k j x : length (ins_knots k j x) = S (length k).
Proof.
  unfold ins_knots. rewrite app_length. cbn [length]. rewrite firstn_length, skipn_length. lia.
Qed.

Lemma ins_knots_nth k j x m : (S j < length k)%nat -> (m <= length k)%nat ->
  nth m (ins_knots k j x) 0 = kins (kf k) j x m.
Proof.
  intros Hj Hm. unfold ins_knots.
  assert (Lf : length (firstn (S j) k) = S j) by (rewrite firstn_length; lia).
  destruct (Nat.le_gt_cases m j) as [C|C].
  - rewrite app_nth1 by lia. rewrite kins_lo by lia. rewrite nth_firstn by lia.
    symmetry. apply kf_nth. lia.
  - rewrite app_nth2 by lia. rewrite Lf.
    destruct (Nat.eq_dec m (S j)) as [->|Hne].
    + rewrite Nat.sub_diag, kins_at by lia. reflexivity.
    + destruct (m - S j)%nat as [|d] eqn:E; [lia|]. cbn [nth]. rewrite nth_skipn.
      rewrite (kins_hi _ _ _ m (m - 1)) by lia. rewrite (kf_nth _ _ 0) by lia. f_equal. lia.
Qed.

Lemma ins_knots_kf k j x m : (S j < length k)%nat ->
  kf (ins_knots k j x) m = kins (kf k) j x m.
Proof.
  intros Hj. destruct (Nat.le_gt_cases m (length k)) as [C|C].
  - rewrite (kf_nth _ _ 0) by (rewrite ins_knots_length; lia). now apply ins_knots_nth.
  - rewrite kf_ge by (rewrite ins_knots_length; lia).
    rewrite last_nth by (intros E; apply (f_equal (@length R)) in E;
                         rewrite ins_knots_length in E; discriminate).
    rewrite ins_knots_length. replace (S (length k) - 1)%nat with (length k) by lia.
    rewrite ins_knots_nth by lia.
    rewrite (kins_hi _ _ _ m (m - 1)) by lia. rewrite (kins_hi _ _ _ (length k) (length k - 1)) by lia.
    rewrite (kf_ge k (m - 1)) by lia. rewrite (kf_nth _ _ 0) by lia. symmetry. apply last_nth.
    destruct k; [cbn in *; lia|discriminate].
Qed.

(** [c'] is obtained from [c] by inserting [x] after knot [j] (blended control points; the points
    of empty windows are unconstrained) *)
Record is_insert (c : Curve R) (j : nat) (x : R) (c' : Curve R) : Prop := {
  ii_dim : cdim c' = cdim c;
  ii_deg : cdeg c' = cdeg c;
  ii_knots : cknots c' = ins_knots (cknots c) j x;
  ii_len : length (cpts c') = S (length (cpts c));
  ii_pts : Forall (fun p => length p = cdim c) (cpts c');
  ii_lo : forall i t, (t + cdeg c <= j)%nat -> cpc c' i t = cpc c i t;
  ii_mid : forall i t, (j < t + cdeg c)%nat -> (t <= j)%nat ->
    kf (cknots c) t < kf (cknots c) (t + cdeg c) ->
    cpc c' i t = (x - kf (cknots c) t) / (kf (cknots c) (t + cdeg c) - kf (cknots c) t) * cpc c i t
                 + (1 - (x - kf (cknots c) t) / (kf (cknots c) (t + cdeg c) - kf (cknots c) t))
                   * cpc c i (t - 1);
  ii_hi : forall i t, (j < t <= length (cpts c))%nat -> cpc c' i t = cpc c i (t - 1)
}.

Theorem insert_same c j x c' :
  curve_wf c -> (cdeg c <= j <= clast c)%nat ->
  kf (cknots c) j <= x <= kf (cknots c) (S j) ->
  is_insert c j x c' ->
  same_curve c c' /\ (curve_ok c -> dom0 c < x < dom1 c -> curve_ok c').
Proof.
  intros Hc Hj Hx [I1 I2 I3 I4 I5 I6 I7 I8].
  pose proof (wf_mono c Hc) as Hm. pose proof (wf_klen c Hc) as Hl.
  pose proof (wf_clast c Hc) as Hn. pose proof (wf_len c Hc) as Hcl.
  set (k := kf (cknots c)) in *. set (p := cdeg c) in *. set (n := clast c) in *.
  assert (K : forall m, kf (cknots c') m = kins k j x m).
  { intros m. rewrite I3. apply ins_knots_kf. lia. }
  assert (Hm' : mono (kins k j x)) by now apply kins_mono.
  assert (Hn' : clast c' = S n) by (unfold clast; lia).
  assert (D0 : kf (cknots c') p = k p).
  { rewrite K. apply kins_lo. lia. }
  assert (D1 : kf (cknots c') (S (S n)) = k (S n)).
  { rewrite K. apply kins_hi; lia. }
  assert (Hc' : curve_wf c').
  { constructor.
    - rewrite I1. apply (wf_dim c Hc).
    - rewrite I1. exact I5.
    - rewrite I2, I4. unfold p in Hcl. lia.
    - rewrite I2, I3, I4, ins_knots_length. fold p. lia.
    - apply mono_sorted. intros i Hi. rewrite I3, ins_knots_length in Hi.
      rewrite I3. rewrite !ins_knots_nth by lia. apply Hm'. }
  split.
  2:{ intros Hok Hd. pose proof (co_knots c Hok) as [_ _ _ Kf Kl]. fold k p n in Kf, Kl.
      rewrite Nat.add_1_r in Kf, Kl.
      apply wf_ok; auto; rewrite ?I2, ?Hn', !K; fold p.
      + rewrite kins_lo by lia. unfold dom0 in Hd. fold k p in Hd.
        destruct (Nat.eq_dec j p) as [->|Hne].
        * rewrite kins_at by lia. lra.
        * rewrite kins_lo by lia. exact Kf.
      + rewrite (kins_hi k j x (S (S n)) (S n)) by lia.
        unfold dom1 in Hd. rewrite <- Hn in Hd. fold k in Hd.
        destruct (Nat.eq_dec j n) as [->|Hne].
        * rewrite kins_at by lia. lra.
        * rewrite (kins_hi k j x (S n) n) by lia. exact Kl. }
  constructor; auto.
  - unfold dom0. rewrite I2. exact D0.
  - unfold dom1. rewrite I4. rewrite <- Hn. exact D1.
  - fold p k n. intros s' Hs' Hne. rewrite !K in Hne.
    set (s := if (s' <=? j)%nat then s' else (s' - 1)%nat).
    assert (Hrel : span_rel j s s').
    { unfold span_rel, s. destruct (Nat.leb_spec s' j); lia. }
    exists s.
    assert (Hs : (p <= s <= n)%nat).
    { unfold s. destruct (Nat.leb_spec s' j); lia. }
    split; [exact Hs|]. rewrite !K.
    assert (B : k s <= kins k j x s' /\ kins k j x (S s') <= k (S s)).
    { destruct Hrel as [[H1 H2]|[H1 H2]].
      - rewrite H2. rewrite kins_lo by lia. split; [lra|].
        destruct (Nat.eq_dec s j) as [->|]; [rewrite kins_at by lia; lra|].
        rewrite kins_lo by lia. lra.
      - rewrite H2. rewrite (kins_hi k j x (S (S s)) (S s)) by lia. split; [|lra].
        destruct (Nat.eq_dec s j) as [->|]; [rewrite kins_at by lia; lra|].
        rewrite (kins_hi k j x (S s) s) by lia. lra. }
    split; [apply B|]. split; [apply B|].
    intros i u. rewrite I4.
    assert (E : piece (kf (cknots c')) p (S (length (cpts c))) (cpc c' i) s' u
                = piece (kins k j x) p (S (length (cpts c))) (cpc c' i) s' u).
    { unfold piece. apply rsum_ext. intros t Ht. f_equal. apply bs_ext. intros; apply K. }
    rewrite E. apply (piece_insert k j x Hm Hx s s' Hrel Hne); try lia.
    intros t Ht1 Ht2 Ht3.
    destruct (Nat.le_gt_cases (t + p) j) as [C|C].
    { rewrite al_lo by lia. rewrite (I6 i t C). lra. }
    destruct (Nat.le_gt_cases t j) as [C'|C'].
    + rewrite al_mid by lia. apply I7; auto.
      (* the window of a non-empty span is not empty *)
      assert (H : kins k j x t < kins k j x (S (t + p))).
      { assert (kins k j x t <= kins k j x s') by (apply mono_le; auto).
        assert (kins k j x (S s') <= kins k j x (S (t + p))) by (apply mono_le; auto; lia).
        lra. }
      rewrite kins_lo in H by lia. rewrite (kins_hi k j x (S (t + p)) (t + p)) in H by lia.
      exact H.
    + rewrite al_hi by lia. rewrite (I8 i t) by lia. lra.
Qed.

Lemma ins_knots_perm k j x : Permutation (ins_knots k j x) (x :: k).
Proof.
  unfold ins_knots. symmetry. rewrite <- (firstn_skipn (S j) k) at 1.
  apply Permutation_cons_app. apply Permutation_refl.
Qed.
