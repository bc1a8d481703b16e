(** * Binomials (C28), closest points (C29, C30), transposition (C31) *)
From Coq Require Import Reals Lra Lia Psatz ZArith.
From Verif Require Import Base BaseFacts Scalar RSum KnotFacts VecFacts MiscModel.
Open Scope R_scope.

(** ** Pascal's triangle (specification) *)
Fixpoint pascal (n k : nat) : nat :=
  match n, k with
  | _, O => 1
  | O, S _ => 0
  | S n', S k' => pascal n' k' + pascal n' (S k')
  end.

Lemma pascal_0 n : pascal n 0 = 1%nat.
Proof. destruct n; reflexivity. Qed.
Lemma pascal_big n k : (n < k)%nat -> pascal n k = 0%nat.
Proof.
  revert k; induction n as [|n IH]; intros [|k] H; try lia; [reflexivity|].
  cbn [pascal]. rewrite !IH by lia. reflexivity.
Qed.
Lemma pascal_diag n : pascal n n = 1%nat.
Proof. induction n as [|n IH]; [reflexivity|]. cbn [pascal]. rewrite IH, pascal_big by lia. reflexivity. Qed.

(** (k+1) C(n,k+1) = (n-k) C(n,k) *)
Lemma pascal_step n k : (S k * pascal n (S k) = (n - k) * pascal n k)%nat.
Proof.
  revert k; induction n as [|n IH]; intros k.
  - destruct k; cbn [pascal]; lia.
  - destruct k as [|k].
    + cbn [pascal]. rewrite !pascal_0. specialize (IH 0%nat). rewrite pascal_0 in IH. nia.
    + cbn [pascal]. pose proof (IH k) as I1. pose proof (IH (S k)) as I2.
      destruct (Nat.lt_ge_cases n (S k)) as [C|C].
      * rewrite (pascal_big n (S (S k))) by lia. rewrite (pascal_big n (S k)) in * by lia.
        destruct (Nat.eq_dec n k) as [->|]; [|rewrite (pascal_big n k) by lia; lia].
        replace (S k - S k)%nat with 0%nat by lia. lia.
      * replace (S n - S k)%nat with (n - k)%nat by lia.
        replace (n - k)%nat with (S (n - S k)) in * by lia. nia.
Qed.

Lemma pascal_fact n k : (k <= n)%nat -> (pascal n k * (fact k * fact (n - k)) = fact n)%nat.
Proof.
  revert k; induction n as [|n IH]; intros [|k] H; try lia; try reflexivity.
  - rewrite pascal_0. cbn [fact Nat.sub]. lia.
  - destruct (Nat.eq_dec k n) as [->|Hne].
    + rewrite pascal_diag, Nat.sub_diag. cbn [fact]. lia.
    + cbn [pascal]. pose proof (IH k ltac:(lia)) as I1. pose proof (IH (S k) ltac:(lia)) as I2.
      replace (S n - S k)%nat with (n - k)%nat by lia.
      replace (n - k)%nat with (S (n - S k)) in * by lia. cbn [fact] in *.
      assert (E : (S n = S k + S (n - S k))%nat) by lia.
      set (m := (n - S k)%nat) in *. set (fk := fact k) in *. set (fm := fact m) in *.
      set (a := pascal n k) in *. set (b := pascal n (S k)) in *.
      transitivity ((S k + S m) * fact n)%nat; [|rewrite <- E; lia].
      set (F := fact n) in *. clearbody F a b fk fm. nia.
Qed.

Lemma pascal_sym n k : (k <= n)%nat -> pascal n (n - k) = pascal n k.
Proof.
  intros H. pose proof (pascal_fact n k H) as A. pose proof (pascal_fact n (n - k) ltac:(lia)) as B.
  replace (n - (n - k))%nat with k in B by lia.
  assert (0 < fact k * fact (n - k))%nat.
  { pose proof (lt_O_fact k). pose proof (lt_O_fact (n - k)). nia. }
  rewrite (Nat.mul_comm (fact (n - k))) in B. nia.
Qed.

Section Real.
  Variables eps maxv : R.
  Local Hint Extern 0 (Scalar R) => exact (ROps eps maxv) : typeclass_instances.

  (** every stored entry is right *)
  Definition memo_ok (m : list (nat * nat * R)) : Prop :=
    Forall (fun e => snd e = INR (pascal (fst (fst e)) (snd (fst e)))) m.

  Lemma memo_get_ok (m : list (nat * nat * R)) n k v : memo_ok m -> memo_get m n k = Some v -> v = INR (pascal n k).
  Proof.
    induction m as [|[[n' k'] v'] m IH]; intros H E; [discriminate|].
    inversion H as [|x l H1 H2]; subst. cbn [memo_get fst snd] in *.
    destruct (Nat.eqb_spec n n') as [->|]; destruct (Nat.eqb_spec k k') as [->|]; cbn [andb] in E; auto.
    injection E as <-. exact H1.
  Qed.

  (** one query, from any correct table *)
  Theorem bin_get_spec n k (m : list (nat * nat * R)) : memo_ok m ->
    fst (bin_get n k m) = INR (pascal n k) /\ memo_ok (snd (bin_get n k m)).
  Proof.
    revert k m. induction n as [|n IH]; intros k m Hm.
    - cbn [bin_get]. destruct (Nat.eqb_spec k 0) as [->|Hk]; cbn [orb Nat.eqb].
      + cbn. auto.
      + cbn. destruct k; [lia|]. cbn. auto.
    - cbn [bin_get]. destruct (Nat.eqb_spec k 0) as [->|Hk]; cbn [orb].
      { rewrite pascal_0. cbn. auto. }
      destruct (Nat.eqb_spec k (S n)) as [->|Hk'].
      { rewrite pascal_diag. cbn. auto. }
      cbn [Nat.eqb orb]. destruct (Nat.ltb_spec (S n) k) as [C|C].
      { rewrite pascal_big by auto. cbn. auto. }
      assert (Ep : pascal (S n) (Nat.min k (S n - k)) = pascal (S n) k).
      { destruct (Nat.min_spec k (S n - k)) as [[_ ->]|[_ ->]]; [reflexivity|]. apply pascal_sym. lia. }
      set (k0 := Nat.min k (S n - k)) in *. assert (Hk0 : (1 <= k0)%nat) by (unfold k0; lia).
      clearbody k0.
      destruct (memo_get m (S n) k0) as [v|] eqn:Em.
      { rewrite <- Ep. cbn [fst snd]. split; [now apply memo_get_ok in Em|exact Hm]. }
      destruct (IH k0 m Hm) as (A1 & A2). destruct (bin_get n k0 m) as [a m1]. cbn [fst snd] in A1, A2.
      destruct (IH (k0 - 1)%nat m1 A2) as (B1 & B2). destruct (bin_get n (k0 - 1) m1) as [b m2].
      cbn [fst snd] in B1, B2 |- *. rs.
      assert (R1 : a + b = INR (pascal (S n) k0)).
      { destruct k0 as [|k1]; [lia|]. cbn [pascal]. replace (S k1 - 1)%nat with k1 in B1 by lia.
        rewrite plus_INR. lra. }
      split; [now rewrite R1, Ep|]. constructor; [exact R1|exact B2].
  Qed.

  (** any history of queries *)
  Definition run_queries (qs : list (nat * nat)) : list (nat * nat * R) :=
    fold_left (fun m q => snd (bin_get (fst q) (snd q) m)) qs [].

  Theorem bin_get_history qs n k : fst (bin_get n k (run_queries qs)) = INR (pascal n k).
  Proof.
    apply bin_get_spec. unfold run_queries.
    assert (G : forall l m, memo_ok m -> memo_ok (fold_left (fun m q => snd (bin_get (fst q) (snd q) m)) l m)).
    { induction l as [|q l IH]; intros m Hm; [exact Hm|]. cbn [fold_left]. apply IH. now apply bin_get_spec. }
    apply G. constructor.
  Qed.

  Lemma sofnat_INR n : sofnat n = INR n.
  Proof. unfold sofnat. rs. symmetry. apply INR_IZR_INZ. Qed.

  (** the closed-form function *)
  Theorem binomial_fn_spec n k : binomial_fn n k = INR (pascal n k).
  Proof.
    unfold binomial_fn. destruct (Nat.eqb_spec k 0) as [->|Hk]; cbn [orb].
    { rewrite pascal_0. reflexivity. }
    destruct (Nat.eqb_spec k n) as [->|Hk']. { rewrite pascal_diag. reflexivity. }
    destruct (Nat.eqb_spec n 0) as [->|Hn]; cbn [orb]. { destruct k; [lia|reflexivity]. }
    destruct (Nat.ltb_spec n k) as [C|C]. { rewrite pascal_big by auto. reflexivity. }
    assert (G : forall i, (i <= n)%nat ->
      fold_left (fun r i => r * sofnat (n - i) / sofnat (i + 1))%S (seq 0 i) sone = INR (pascal n i)).
    { induction i as [|i IH]; intros Hi; [rewrite pascal_0; reflexivity|].
      rewrite seq_S, fold_left_app. cbn [fold_left Nat.add]. rewrite IH by lia. rs.
      rewrite !sofnat_INR. rewrite Nat.add_1_r.
      pose proof (f_equal INR (pascal_step n i)) as E. rewrite !mult_INR in E.
      assert (INR (S i) <> 0) by (apply not_0_INR; lia).
      apply (Rmult_eq_reg_l (INR (S i))); [|assumption]. rewrite E. field. assumption. }
    rewrite G by lia. destruct (Nat.min_spec k (n - k)) as [[_ ->]|[_ ->]]; [reflexivity|].
    now rewrite pascal_sym by lia.
  Qed.

  (** ** Closest point on a segment *)
  (** squared distance and the point of the segment at ratio [s] (specification) *)
  Definition dist2 (a b : list R) : R := rsum (length a) (fun i => (rc i a - rc i b) * (rc i a - rc i b)).
  Definition seg_at (a b : list R) (s : R) : list R :=
    map (fun i => rc i a + s * (rc i b - rc i a)) (seq 0 (length a)).

  Lemma rc_seg_at a b s i : (i < length a)%nat -> rc i (seg_at a b s) = rc i a + s * (rc i b - rc i a).
  Proof.
    intros H. unfold seg_at, rc at 1. rewrite (nth_map_lt _ _ i 0%nat 0) by (rewrite seq_length; auto).
    now rewrite seq_nth.
  Qed.

  Lemma dist2_seg pt a b s D : length pt = D -> length a = D -> length b = D ->
    dist2 pt (seg_at a b s) =
      dist2 pt a - 2 * s * rsum D (fun i => (rc i pt - rc i a) * (rc i b - rc i a)) + s * s * dist2 b a.
  Proof.
    intros L1 L2 L3. unfold dist2. rewrite L1, L3.
    rewrite (rsum_ext D _ (fun i => (rc i pt - rc i a) * (rc i pt - rc i a)
      + ((- 2 * s) * ((rc i pt - rc i a) * (rc i b - rc i a)) + (s * s) * ((rc i b - rc i a) * (rc i b - rc i a))))).
    2:{ intros i Hi. rewrite rc_seg_at by lia. ring. }
    rewrite rsum_plus, rsum_plus, !rsum_scal. ring.
  Qed.

  Lemma vnorm2_rsum (a : list R) : vnorm2 a = rsum (length a) (fun i => rc i a * rc i a).
  Proof. unfold vnorm2. now rewrite vdot_rsum. Qed.

  Theorem segment_closest_optimal pt a b u0 u1 :
    0 < eps -> length a = length pt -> length b = length pt -> eps <= sqrt (dist2 b a) ->
    exists s, 0 <= s <= 1 /\
      segment_closest_point pt a b u0 u1 = (u0 + (u1 - u0) * s, seg_at a b s) /\
      forall s', 0 <= s' <= 1 -> dist2 pt (seg_at a b s) <= dist2 pt (seg_at a b s').
  Proof.
    intros He L1 L2 Hl. set (D := length pt) in *.
    set (dot := rsum D (fun i => (rc i pt - rc i a) * (rc i b - rc i a))).
    set (vv := dist2 b a) in *. set (l := sqrt vv) in *.
    assert (Hl0 : 0 < l) by lra.
    assert (Hvv : l * l = vv).
    { apply sqrt_sqrt. destruct (Rlt_le_dec vv 0) as [C|C]; [|exact C].
      unfold l in Hl0. rewrite sqrt_neg_0 in Hl0 by lra. lra. }
    assert (F : forall s, dist2 pt (seg_at a b s) = dist2 pt a - 2 * s * dot + s * s * vv).
    { intros s. now apply dist2_seg. }
    assert (En : vnorm (vsub b a) = l).
    { unfold vnorm. rewrite vnorm2_rsum, (vsub_length b a D) by auto. rs. unfold l, vv, dist2. rewrite L2.
      f_equal. apply rsum_ext. intros i Hi. now rewrite rc_vsub by lia. }
    assert (Ed : vdot (vsub pt a) (vdivs (vsub b a) l) = dot / l).
    { rewrite vdot_rsum by (rewrite (vdivs_length _ _ D) by (now apply vsub_length); now apply vsub_length).
      rewrite (vsub_length pt a D) by auto. unfold dot, Rdiv. rewrite Rmult_comm, <- rsum_scal.
      apply rsum_ext. intros i Hi. rewrite rc_vdivs, !rc_vsub by lia. unfold Rdiv. ring. }
    unfold segment_closest_point. rewrite En, Ed. rs.
    destruct (Rltb_spec l eps) as [C|_]; [lra|].
    assert (Dl : forall x, x / l * l = x) by (intros; field; lra).
    destruct (Rltb_spec (dot / l) 0) as [C|C].
    - assert (Hd : dot < 0). { rewrite <- (Dl dot). nra. }
      exists 0. split; [lra|]. split.
      + f_equal; [lra|]. apply (vec_ext a _ D); auto; [unfold seg_at; now rewrite map_length, seq_length|].
        intros i Hi. rewrite rc_seg_at by lia. lra.
      + intros s' Hs. rewrite !F. nra.
    - assert (Hd : 0 <= dot). { rewrite <- (Dl dot). nra. }
      destruct (Rltb_spec l (dot / l)) as [C'|C'].
      + assert (Hd' : vv < dot). { rewrite <- Hvv, <- (Dl dot). nra. }
        exists 1. split; [lra|]. split.
        * f_equal; [lra|]. apply (vec_ext b _ D); auto; [unfold seg_at; now rewrite map_length, seq_length|].
          intros i Hi. rewrite rc_seg_at by lia. lra.
        * intros s' Hs. rewrite !F.
          assert (P1 : 0 <= (1 - s') * (2 * (dot - vv))) by (apply Rmult_le_pos; lra).
          assert (P2 : 0 <= (1 - s') * (1 - s') * vv) by (apply Rmult_le_pos; nra). nra.
      + assert (Hd' : dot <= vv). { rewrite <- Hvv, <- (Dl dot). nra. }
        assert (Hs : dot / l / l = dot / vv) by (rewrite <- Hvv; field; lra).
        exists (dot / vv). assert (Hv0 : 0 < vv) by nra.
        assert (Hsv : dot / vv * vv = dot) by (field; lra).
        split.
        { split; [apply Rmult_le_pos; [lra|left; now apply Rinv_0_lt_compat]|]. nra. }
        split.
        * f_equal; [rewrite <- Hs; field; lra|].
          assert (La : length (vdivs (vsub b a) l) = D) by (apply vdivs_length; now apply vsub_length).
          apply (vec_ext _ _ D).
          -- apply vadd_length; [now apply vscale_length|auto].
          -- unfold seg_at. now rewrite map_length, seq_length.
          -- intros i Hi. rewrite rc_vadd by (rewrite (vscale_length _ _ D); auto).
             rewrite rc_vscale, rc_vdivs, rc_vsub by lia. rewrite rc_seg_at by lia. rewrite <- Hs. field. lra.
        * intros s' Hs'. rewrite !F. set (s := dot / vv) in *.
          assert (P : 0 <= (s' - s) * (s' - s) * vv) by (apply Rmult_le_pos; [apply Rle_0_sqr|lra]).
          rewrite <- Hsv. nra.
  Qed.

  (** a segment shorter than epsilon is represented by its start *)
  Theorem segment_closest_short (pt a b : list R) u0 u1 :
    length b = length a -> sqrt (dist2 b a) < eps -> segment_closest_point pt a b u0 u1 = (u0, a).
  Proof.
    intros L H. unfold segment_closest_point.
    assert (En : vnorm (vsub b a) = sqrt (dist2 b a)).
    { unfold vnorm. rewrite vnorm2_rsum, (vsub_length b a (length b)) by auto. rs. unfold dist2.
      f_equal. apply rsum_ext. intros i Hi. now rewrite rc_vsub by lia. }
    rewrite En. rs. destruct (Rltb_spec (sqrt (dist2 b a)) eps); [reflexivity|lra].
  Qed.

  (** ** Rays *)
  (** point of the ray at [t] *)
  Definition ray_at (r : Ray) (t : R) : list R :=
    map (fun i => rc i (ray_o r) + rc i (ray_d r) * t) (seq 0 (length (ray_o r))).
  Definition ray_wf (D : nat) (r : @Ray R) : Prop := length (ray_o r) = D /\ length (ray_d r) = D.

  Lemma rc_ray_at r t i : (i < length (ray_o r))%nat -> rc i (ray_at r t) = rc i (ray_o r) + rc i (ray_d r) * t.
  Proof.
    intros H. unfold ray_at, rc at 1. rewrite (nth_map_lt _ _ i 0%nat 0) by (rewrite seq_length; auto).
    now rewrite seq_nth.
  Qed.
  Lemma ray_at_length r t : length (ray_at r t) = length (ray_o r).
  Proof. unfold ray_at. now rewrite map_length, seq_length. Qed.

  Lemma ray_point_at_eq D r t : ray_wf D r -> ray_point_at r t = ray_at r t.
  Proof.
    intros (L1 & L2). apply (vec_ext _ _ D).
    - unfold ray_point_at. apply vadd_length; [auto|now apply vscale_length].
    - now rewrite ray_at_length.
    - intros i Hi. rewrite rc_ray_at by lia. unfold ray_point_at.
      rewrite rc_vadd by (rewrite (vscale_length _ _ D) by auto; lia). now rewrite rc_vscale.
  Qed.

  Theorem ray_intersection_closest D a b :
    0 < eps -> ray_wf D a -> ray_wf D b ->
    match ray_intersection a b with
    | Some ((p, t), (q, w)) =>
        p = ray_at a t /\ q = ray_at b w /\
        (forall t' w', dist2 p q <= dist2 (ray_at a t') (ray_at b w')) /\
        ((exists t' w', ray_at a t' = ray_at b w') -> p = q)
    | None =>
        let dd x y := rsum D (fun i => rc i x * rc i y) in
        Rabs (dd (ray_d a) (ray_d a) * dd (ray_d b) (ray_d b) - dd (ray_d a) (ray_d b) * dd (ray_d a) (ray_d b)) < eps
    end.
  Proof.
    intros He Wa Wb. pose proof Wa as (A1 & A2). pose proof Wb as (B1 & B2).
    set (dd := fun x y => rsum D (fun i => rc i x * rc i y)).
    unfold ray_intersection. rewrite !vdot_rsum by lia. rewrite ?A2, ?B2.
    change (rsum D (fun i => rc i (ray_d a) * rc i (ray_d b))) with (dd (ray_d a) (ray_d b)).
    change (rsum D (fun i => rc i (ray_d a) * rc i (ray_d a))) with (dd (ray_d a) (ray_d a)).
    change (rsum D (fun i => rc i (ray_d b) * rc i (ray_d b))) with (dd (ray_d b) (ray_d b)).
    change (rsum D (fun i => rc i (ray_d a) * rc i (ray_o a))) with (dd (ray_d a) (ray_o a)).
    change (rsum D (fun i => rc i (ray_d a) * rc i (ray_o b))) with (dd (ray_d a) (ray_o b)).
    change (rsum D (fun i => rc i (ray_d b) * rc i (ray_o b))) with (dd (ray_d b) (ray_o b)).
    change (rsum D (fun i => rc i (ray_d b) * rc i (ray_o a))) with (dd (ray_d b) (ray_o a)).
    rs. set (daa := dd (ray_d a) (ray_d a)). set (dbb := dd (ray_d b) (ray_d b)).
    set (dab := dd (ray_d a) (ray_d b)).
    set (dab0 := dd (ray_d a) (ray_o b)). set (daa0 := dd (ray_d a) (ray_o a)).
    set (dbb0 := dd (ray_d b) (ray_o b)). set (dba0 := dd (ray_d b) (ray_o a)).
    destruct (Rltb_spec (Rabs (daa * dbb - dab * dab)) eps) as [C|C]; [exact C|].
    set (div := daa * dbb - dab * dab) in *.
    assert (Hdiv : div <> 0).
    { intros Z. rewrite Z, Rabs_R0 in C. lra. }
    assert (Haa : daa <> 0).
    { intros Z. apply Hdiv. unfold div. rewrite Z.
      (* a zero direction is orthogonal to everything *)
      assert (Z0 : forall i, (i < D)%nat -> rc i (ray_d a) = 0).
      { intros i Hi. unfold daa, dd in Z.
        destruct (Req_dec (rc i (ray_d a)) 0) as [|Hn]; [assumption|exfalso].
        assert (0 < rsum D (fun i => rc i (ray_d a) * rc i (ray_d a))); [|lra].
        apply (rsum_pos D _ i); auto; [intros; apply Rle_0_sqr|now apply Rsqr_pos_lt]. }
      assert (dab = 0).
      { unfold dab, dd. rewrite (rsum_ext D _ (fun _ => 0)) by (intros i Hi; rewrite Z0 by auto; ring).
        apply rsum_0. auto. }
      rewrite H. ring. }
    set (w := (dab * (dab0 - daa0) - daa * (dbb0 - dba0)) / div).
    set (t := (dab0 - daa0 + w * dab) / daa).
    rewrite !(ray_point_at_eq D) by auto.
    split; [reflexivity|]. split; [reflexivity|].
    (* squared distance as a quadratic form *)
    assert (Q : forall t' w', dist2 (ray_at a t') (ray_at b w') =
      dist2 (ray_o a) (ray_o b) + 2 * t' * (daa0 - dab0) - 2 * w' * (dba0 - dbb0)
      + t' * t' * daa - 2 * t' * w' * dab + w' * w' * dbb).
    { intros t' w'. unfold dist2. rewrite ray_at_length, A1.
      rewrite (rsum_ext D _ (fun i => (rc i (ray_o a) - rc i (ray_o b)) * (rc i (ray_o a) - rc i (ray_o b))
        + ((2 * t') * (rc i (ray_d a) * rc i (ray_o a)) + ((- 2 * t') * (rc i (ray_d a) * rc i (ray_o b))
        + ((- 2 * w') * (rc i (ray_d b) * rc i (ray_o a)) + ((2 * w') * (rc i (ray_d b) * rc i (ray_o b))
        + ((t' * t') * (rc i (ray_d a) * rc i (ray_d a)) + ((- 2 * t' * w') * (rc i (ray_d a) * rc i (ray_d b))
        + (w' * w') * (rc i (ray_d b) * rc i (ray_d b)))))))))).
      2:{ intros i Hi. rewrite !rc_ray_at by lia. ring. }
      rewrite !rsum_plus, !rsum_scal.
      unfold daa0, dab0, dba0, dbb0, daa, dab, dbb, dd. ring. }
    assert (N1 : t * daa - w * dab = dab0 - daa0) by (unfold t; field; auto).
    assert (N2 : t * dab - w * dbb = dbb0 - dba0).
    { unfold t, w, div in *. field. auto. }
    assert (Pos : forall x y, 0 <= x * x * daa - 2 * x * y * dab + y * y * dbb).
    { intros x y. assert (E : x * x * daa - 2 * x * y * dab + y * y * dbb =
        rsum D (fun i => (x * rc i (ray_d a) - y * rc i (ray_d b)) * (x * rc i (ray_d a) - y * rc i (ray_d b)))).
      { unfold daa, dab, dbb, dd.
        rewrite (rsum_ext D (fun i => (x * rc i (ray_d a) - y * rc i (ray_d b)) * (x * rc i (ray_d a) - y * rc i (ray_d b)))
          (fun i => (x * x) * (rc i (ray_d a) * rc i (ray_d a)) + ((- 2 * x * y) * (rc i (ray_d a) * rc i (ray_d b))
            + (y * y) * (rc i (ray_d b) * rc i (ray_d b))))) by (intros; ring).
        rewrite !rsum_plus, !rsum_scal. ring. }
      rewrite E. apply rsum_nonneg. intros i Hi. apply Rle_0_sqr. }
    assert (Opt : forall t' w', dist2 (ray_at a t) (ray_at b w) <= dist2 (ray_at a t') (ray_at b w')).
    { intros t' w'. rewrite !Q. pose proof (Pos (t' - t) (w' - w)).
      assert (E1 : daa0 - dab0 = w * dab - t * daa) by lra.
      assert (E2 : dba0 - dbb0 = w * dbb - t * dab) by lra.
      rewrite E1, E2. nra. }
    split; [exact Opt|].
    intros (t' & w' & E). specialize (Opt t' w'). rewrite E in Opt.
    assert (Z : dist2 (ray_at b w') (ray_at b w') = 0).
    { unfold dist2. apply rsum_0. intros. ring. }
    rewrite Z in Opt.
    apply (vec_ext _ _ D); [now rewrite ray_at_length|now rewrite ray_at_length|].
    intros i Hi. destruct (Req_dec (rc i (ray_at a t) - rc i (ray_at b w)) 0) as [|Hn]; [lra|exfalso].
    assert (0 < dist2 (ray_at a t) (ray_at b w)); [|lra].
    unfold dist2. rewrite ray_at_length, A1.
    apply (rsum_pos D _ i); auto; [intros; apply Rle_0_sqr|now apply Rsqr_pos_lt].
  Qed.
End Real.

(** ** Transposition *)
Definition rect {A} (r c : nat) (g : list (list A)) : Prop :=
  length g = r /\ Forall (fun row => length row = c) g.

Lemma push_row_spec {A} (row : list A) cols : length row = length cols ->
  push_row cols row = Ok (map (fun x => fst x ++ [snd x]) (combine cols row)).
Proof.
  revert cols; induction row as [|p row IH]; intros [|c cols] H; cbn in *; try lia; [reflexivity|].
  rewrite IH by lia. reflexivity.
Qed.

Theorem transpose_spec {A} (d : A) r c g : (1 <= r)%nat -> rect r c g ->
  exists t, transpose g = Ok t /\ rect c r t /\
    forall i j, (i < r)%nat -> (j < c)%nat -> nth i (nth j t []) d = nth j (nth i g []) d.
Proof.
  intros Hr (Hl & Hc). unfold transpose. rewrite (get_ok g 0 []) by lia. cbn [bind].
  assert (H0 : length (nth 0 g []) = c).
  { rewrite Forall_forall in Hc. apply Hc. apply nth_In. lia. }
  rewrite H0.
  destruct (foldM_rule (fun pre (s : list (list A)) => length s = c /\ Forall (fun q => length q = length pre) s /\
      forall i j, (i < length pre)%nat -> (j < c)%nat -> nth i (nth j s []) d = nth j (nth i pre []) d)
      push_row g (repeat [] c)) as (t & E & H1 & H2 & H3).
  - split; [apply repeat_length|]. split; [apply Forall_forall; intros x Hx; apply repeat_spec in Hx; now subst|].
    cbn. intros; lia.
  - intros pre x post s Hg (S1 & S2 & S3).
    assert (Lx : length x = c).
    { rewrite Forall_forall in Hc. apply Hc. rewrite Hg. apply in_or_app. right. now left. }
    rewrite push_row_spec by lia. eexists. split; [reflexivity|]. rewrite app_length. cbn [length].
    assert (Lc : length (combine s x) = c) by (rewrite combine_length; lia).
    assert (Nj : forall j, (j < c)%nat -> nth j (map (fun y => fst y ++ [snd y]) (combine s x)) [] = nth j s [] ++ [nth j x d]).
    { intros j Hj. rewrite (nth_map_lt _ _ j ([], d) []) by lia. now rewrite combine_nth by lia. }
    split; [now rewrite map_length|]. split.
    + apply Forall_forall. intros q Hq. apply in_map_iff in Hq. destruct Hq as ([a b] & <- & Hab).
      apply in_combine_l in Hab. rewrite Forall_forall in S2. cbn [fst]. rewrite app_length, (S2 a Hab). cbn. lia.
    + intros i j Hi Hj. rewrite Nj by auto.
      assert (Ls : length (nth j s []) = length pre).
      { rewrite Forall_forall in S2. apply S2. apply nth_In. lia. }
      destruct (Nat.eq_dec i (length pre)) as [->|].
      * rewrite app_nth2 by lia. rewrite Ls, Nat.sub_diag. rewrite app_nth2 by lia. rewrite Nat.sub_diag. reflexivity.
      * rewrite app_nth1 by lia. rewrite S3 by lia. rewrite app_nth1 by lia. reflexivity.
  - rewrite E. exists t. split; [reflexivity|]. rewrite Hl in *. split; [split; auto|exact H3].
Qed.

Theorem transpose_involutive {A} (g : list (list A)) r c : (1 <= r)%nat -> (1 <= c)%nat -> rect r c g ->
  exists t, transpose g = Ok t /\ transpose t = Ok g.
Proof.
  intros Hr Hc Hg.
  assert (d : A).
  { destruct Hg as (H1 & H2). destruct g as [|row g]; [cbn in H1; lia|].
    destruct row as [|x row]; [apply Forall_inv in H2; cbn in H2; lia|exact x]. }
  destruct (transpose_spec d r c g Hr Hg) as (t & E & Ht & N1). exists t. split; [exact E|].
  destruct (transpose_spec d c r t Hc Ht) as (g' & E' & Hg' & N2). rewrite E'. f_equal.
  destruct Hg as (A1 & A2). destruct Hg' as (B1 & B2).
  apply (list_ext []); [lia|]. intros i Hi. rewrite B1 in Hi.
  assert (L1 : length (nth i g []) = c) by (rewrite Forall_forall in A2; apply A2; apply nth_In; lia).
  assert (L2 : length (nth i g' []) = c) by (rewrite Forall_forall in B2; apply B2; apply nth_In; lia).
  apply (list_ext d); [lia|]. intros j Hj. rewrite N2 by lia. apply N1; lia.
Qed.

Theorem transpose_empty {A} : panics (transpose (@nil (list A))).
Proof. cbn. eexists; reflexivity. Qed.
