(** * B-spline theory over R: the polynomial piece of a fixed span.

    [bs k s p i u] is the polynomial with which the i-th basis function of degree [p] agrees on
    the span [s], i.e. the Cox-de Boor recursion started from the indicator of [i = s]. *)
From Coq Require Import Reals Lra Lia Arith Psatz.
From Verif Require Import RSum BSplineSpec.
Open Scope R_scope.

Lemma quot0_nz a b : b <> 0 -> quot0 a b = a / b.
Proof. intros H. unfold quot0. destruct (Req_EM_T b 0); [contradiction|reflexivity]. Qed.

Lemma quot0_0 a b : b = 0 -> quot0 a b = 0.
Proof. intros H. unfold quot0. destruct (Req_EM_T b 0); [reflexivity|contradiction]. Qed.

Definition mono (k : nat -> R) : Prop := forall i, k i <= k (S i).

Lemma mono_le k i j : mono k -> (i <= j)%nat -> k i <= k j.
Proof.
  intros Hm H. induction H as [|j H IH]; [lra|]. pose proof (Hm j). lra.
Qed.

(** left weight of the recursion for degree [p] *)
Definition wl (k : nat -> R) (p i : nat) (u : R) : R :=
  quot0 (u - k i) (k (i + p)%nat - k i).
(** right weight *)
Definition wr (k : nat -> R) (p i : nat) (u : R) : R :=
  quot0 (k (i + p + 1)%nat - u) (k (i + p + 1)%nat - k (i + 1)%nat).

Fixpoint bs (k : nat -> R) (s p i : nat) (u : R) : R :=
  match p with
  | O => if Nat.eqb i s then 1 else 0
  | S q => wl k p i u * bs k s q i u + wr k p i u * bs k s q (i + 1) u
  end.

Lemma bs_S k s q i u :
  bs k s (S q) i u = wl k (S q) i u * bs k s q i u + wr k (S q) i u * bs k s q (i + 1) u.
Proof. reflexivity. Qed.

Lemma bs_0 k s i u : bs k s 0 i u = if Nat.eqb i s then 1 else 0.
Proof. reflexivity. Qed.

(** agreement with the textbook recursion on the half-open span *)
Lemma cox_bs k s p i u :
  mono k -> k s <= u < k (S s) -> cox_de_boor k p i u = bs k s p i u.
Proof.
  intros Hm Hu. revert i; induction p as [|q IH]; intros i.
  - cbn [cox_de_boor bs].
    destruct (Nat.eqb_spec i s) as [->|Hne].
    + destruct (Rle_dec (k s) u); [|lra]. destruct (Rlt_dec u (k (S s))); lra.
    + destruct (Rle_dec (k i) u) as [H1|H1]; [|reflexivity].
      destruct (Rlt_dec u (k (S i))) as [H2|H2]; [|reflexivity].
      exfalso. destruct (Nat.lt_ge_cases i s) as [H|H].
      * assert (k (S i) <= k s) by (apply mono_le; [exact Hm|lia]). lra.
      * assert (k (S s) <= k i) by (apply mono_le; [exact Hm|lia]). lra.
  - cbn [cox_de_boor]. rewrite bs_S, !IH. reflexivity.
Qed.

Lemma bs_support k s p i u : (s < i \/ i + p < s)%nat -> bs k s p i u = 0.
Proof.
  revert i; induction p as [|q IH]; intros i H.
  - cbn. destruct (Nat.eqb_spec i s); [lia|reflexivity].
  - rewrite bs_S. rewrite !IH by lia. lra.
Qed.

Section Span.
  Variable k : nat -> R.
  Variable s : nat.
  Hypothesis Hm : mono k.
  Hypothesis Hs : k s < k (S s).

  Lemma den_pos i j : (i <= s)%nat -> (s < j)%nat -> 0 < k j - k i.
  Proof.
    intros H1 H2. assert (k i <= k s) by (apply mono_le; auto).
    assert (k (S s) <= k j) by (apply mono_le; auto). lra.
  Qed.

  (** inside the support the recursion uses ordinary quotients *)
  Lemma wl_in p i u : (i <= s)%nat -> (s < i + p)%nat ->
    wl k p i u = (u - k i) / (k (i + p)%nat - k i).
  Proof. intros H1 H2. unfold wl. apply quot0_nz. pose proof (den_pos i (i + p) H1 H2). lra. Qed.

  Lemma wr_in p i u : (i + 1 <= s)%nat -> (s < i + p + 1)%nat ->
    wr k p i u = 1 - wl k p (i + 1) u.
  Proof.
    intros H1 H2. unfold wr, wl. pose proof (den_pos (i + 1) (i + p + 1) H1 H2).
    replace (i + 1 + p)%nat with (i + p + 1)%nat by lia.
    rewrite !quot0_nz by lra. field. lra.
  Qed.

  Lemma bs_nonneg p i u : k s <= u <= k (S s) -> 0 <= bs k s p i u.
  Proof.
    intros Hu. revert i; induction p as [|q IH]; intros i.
    - cbn. destruct (Nat.eqb i s); lra.
    - rewrite bs_S.
      assert (forall a b, 0 <= a -> 0 <= b -> 0 <= quot0 a b) as Hq.
      { intros a b Ha Hb. unfold quot0. destruct (Req_EM_T b 0); [lra|].
        apply Rmult_le_pos; [exact Ha|]. apply Rlt_le, Rinv_0_lt_compat. lra. }
      assert (H1 : 0 <= wl k (S q) i u * bs k s q i u).
      { destruct (Nat.lt_ge_cases s i) as [H|H].
        - rewrite (bs_support k s q i) by lia. lra.
        - apply Rmult_le_pos; [|apply IH]. apply Hq.
          + assert (k i <= k s) by (apply mono_le; auto). lra.
          + assert (k i <= k (i + S q)%nat) by (apply mono_le; [auto|lia]). lra. }
      assert (H2 : 0 <= wr k (S q) i u * bs k s q (i + 1) u).
      { destruct (Nat.lt_ge_cases (i + S q) s) as [H|H].
        - rewrite (bs_support k s q (i + 1)) by lia. lra.
        - apply Rmult_le_pos; [|apply IH]. apply Hq.
          + assert (k (S s) <= k (i + S q + 1)%nat) by (apply mono_le; [auto|lia]). lra.
          + assert (k (i + 1)%nat <= k (i + S q + 1)%nat) by (apply mono_le; [auto|lia]). lra. }
      lra.
  Qed.

  (** partition of unity, for every parameter *)
  Lemma bs_sum p n u : (p <= s)%nat -> (s < n)%nat -> rsum n (fun i => bs k s p i u) = 1.
  Proof.
    revert n; induction p as [|q IH]; intros n Hp Hn.
    - rewrite (rsum_single n s); [cbn; now rewrite Nat.eqb_refl|exact Hn|].
      intros i Hi Hne. cbn. destruct (Nat.eqb_spec i s); [contradiction|reflexivity].
    - rewrite (rsum_ext n _ (fun i => (wl k (S q) i u * bs k s q i u)
                                   + (1 - wl k (S q) (i + 1) u) * bs k s q (i + 1) u)).
      2:{ intros i Hi. rewrite bs_S. f_equal.
          destruct (Nat.lt_ge_cases s (i + 1)) as [H|H].
          - rewrite (bs_support k s q (i + 1)) by lia. lra.
          - destruct (Nat.lt_ge_cases s (i + S q + 1)) as [H'|H'].
            + rewrite wr_in by lia. reflexivity.
            + rewrite (bs_support k s q (i + 1)) by lia. lra. }
      rewrite rsum_plus.
      set (g := fun i => (1 - wl k (S q) i u) * bs k s q i u).
      assert (E : rsum n (fun i => (1 - wl k (S q) (i + 1) u) * bs k s q (i + 1) u) = rsum n g).
      { assert (E1 : rsum (S n) g = rsum n g + g n) by reflexivity.
        rewrite rsum_S_l in E1.
        assert (Eg0 : g 0%nat = 0).
        { unfold g. rewrite (bs_support k s q 0) by lia. lra. }
        assert (Egn : g n = 0).
        { unfold g. rewrite (bs_support k s q n) by lia. lra. }
        rewrite (rsum_ext n (fun i => (1 - wl k (S q) (i + 1) u) * bs k s q (i + 1) u)
                          (fun i => g (S i))).
        2:{ intros i Hi. unfold g. now rewrite Nat.add_1_r. }
        lra. }
      rewrite E. unfold g. rewrite <- rsum_plus.
      rewrite (rsum_ext n _ (fun i => bs k s q i u)) by (intros; lra).
      apply IH; lia.
  Qed.
End Span.

(** ** Value of the polynomial piece of a spline on span [s] *)
Definition piece (k : nat -> R) (p n : nat) (P : nat -> R) (s : nat) (u : R) : R :=
  rsum n (fun i => bs k s p i u * P i).

Lemma piece_window k p n P s u :
  (p <= s)%nat -> (s < n)%nat ->
  piece k p n P s u = rsum (S p) (fun r => bs k s p (s - p + r) u * P (s - p + r)%nat).
Proof.
  intros Hp Hn. unfold piece.
  rewrite (rsum_window n (s - p) (S p)); [reflexivity|lia|].
  intros i Hi Ho. rewrite bs_support by lia. lra.
Qed.

Lemma piece_spline k p n P s u :
  mono k -> k s <= u < k (S s) -> piece k p n P s u = spline k p n P u.
Proof.
  intros Hm Hu. unfold piece, spline. apply rsum_ext. intros i Hi.
  now rewrite (cox_bs k s).
Qed.

(** ** Special values and continuity at a knot of multiplicity [m]:
    u = k (s+1) = ... = k (s+m), with s and s+m the adjacent non-empty spans *)
Lemma bs_at_right_end k s q i :
  mono k -> k s < k (S s) -> (forall j, (1 <= j <= q)%nat -> k (s + j)%nat = k (S s)) ->
  bs k s q i (k (S s)) = if Nat.eqb i s then 1 else 0.
Proof.
  intros Hm Hs. revert i; induction q as [|q IH]; intros i He; [reflexivity|].
  rewrite bs_S, !IH by (intros j Hj; apply He; lia).
  assert (Eq : k (s + S q)%nat = k (S s)) by (apply He; lia).
  destruct (Nat.eqb_spec i s) as [->|Hne].
  - rewrite (proj2 (Nat.eqb_neq (s + 1) s)) by lia.
    unfold wl. rewrite Eq. rewrite quot0_nz by lra. field. lra.
  - destruct (Nat.eqb_spec (i + 1) s) as [H1|H1]; [|lra].
    unfold wr. replace (i + S q + 1)%nat with (s + S q)%nat by lia. rewrite H1, Eq.
    rewrite quot0_nz by lra. unfold Rdiv. rewrite Rminus_diag_eq by reflexivity. lra.
Qed.

Lemma bs_at_left_end k s q i :
  mono k -> k s < k (S s) -> (q <= s)%nat ->
  (forall j, (s - q < j <= s)%nat -> k j = k s) ->
  bs k s q i (k s) = if Nat.eqb i (s - q) then 1 else 0.
Proof.
  intros Hm Hs. revert i; induction q as [|q IH]; intros i Hq He.
  - cbn. now rewrite Nat.sub_0_r.
  - rewrite bs_S, !IH by (try lia; intros j Hj; apply He; lia).
    destruct (Nat.eqb_spec i (s - S q)) as [->|Hne].
    + rewrite (proj2 (Nat.eqb_neq (s - S q) (s - q))) by lia.
      rewrite (proj2 (Nat.eqb_eq (s - S q + 1) (s - q))) by lia.
      unfold wr. replace (s - S q + S q + 1)%nat with (S s) by lia.
      rewrite (He (s - S q + 1)%nat) by lia.
      rewrite quot0_nz by lra. field. lra.
    + destruct (Nat.eqb_spec i (s - q)) as [->|H1].
      * rewrite (proj2 (Nat.eqb_neq (s - q + 1) (s - q))) by lia.
        unfold wl. rewrite (He (s - q)%nat) by lia. unfold quot0, Rdiv.
        destruct (Req_EM_T _ 0); rewrite ?(Rminus_diag_eq (k s) (k s)) by reflexivity; lra.
      * rewrite (proj2 (Nat.eqb_neq (i + 1) (s - q))) by lia. lra.
Qed.

Lemma bs_continuous k s m p i :
  mono k -> (1 <= m <= p)%nat -> k s < k (S s) -> k (s + m)%nat < k (S (s + m)) ->
  (forall j, (1 <= j <= m)%nat -> k (s + j)%nat = k (S s)) ->
  bs k s p i (k (S s)) = bs k (s + m) p i (k (S s)).
Proof.
  intros Hm Hmp Hs Hs' He.
  assert (Hb : forall i, bs k s m i (k (S s)) = bs k (s + m) m i (k (S s))).
  { intros i'. rewrite bs_at_right_end by auto.
    rewrite <- (He m) by lia.
    rewrite (bs_at_left_end k (s + m) m i'); [|exact Hm|exact Hs'|lia|].
    2:{ intros j Hj. replace j with (s + (j - s))%nat by lia. rewrite !He by lia. reflexivity. }
    replace (s + m - m)%nat with s by lia. reflexivity. }
  assert (G : forall d i, bs k s (m + d) i (k (S s)) = bs k (s + m) (m + d) i (k (S s))).
  { induction d as [|d IH]; intros i'; [rewrite Nat.add_0_r; apply Hb|].
    rewrite Nat.add_succ_r, !bs_S, !IH. reflexivity. }
  replace p with (m + (p - m))%nat by lia. apply G.
Qed.

(** ** Affine reparametrisation *)
Lemma bs_affine k k' a b s p i u :
  a <> 0 -> (forall j, k' j = a * k j + b) -> bs k' s p i (a * u + b) = bs k s p i u.
Proof.
  intros Ha He. revert i; induction p as [|q IH]; intros i; [reflexivity|].
  rewrite !bs_S, !IH. unfold wl, wr. rewrite !He.
  assert (Eq : forall x y, quot0 (a * x) (a * y) = quot0 x y).
  { intros x y. unfold quot0. destruct (Req_EM_T y 0) as [->|Hy].
    - rewrite Rmult_0_r. destruct (Req_EM_T 0 0); [reflexivity|lra].
    - destruct (Req_EM_T (a * y) 0) as [E|_].
      + exfalso. apply Rmult_integral in E. tauto.
      + field. auto. }
  replace (a * u + b - (a * k i + b)) with (a * (u - k i)) by ring.
  replace (a * k (i + S q)%nat + b - (a * k i + b)) with (a * (k (i + S q)%nat - k i)) by ring.
  replace (a * k (i + S q + 1)%nat + b - (a * u + b)) with (a * (k (i + S q + 1)%nat - u)) by ring.
  replace (a * k (i + S q + 1)%nat + b - (a * k (i + 1)%nat + b))
    with (a * (k (i + S q + 1)%nat - k (i + 1)%nat)) by ring.
  rewrite !Eq. reflexivity.
Qed.

(** ** Reflection: k' j = c - k (L - j), L the last knot index *)
Lemma bs_reflect k k' c L s p i u :
  (forall j, (j <= L)%nat -> k' j = c - k (L - j)%nat) ->
  (s + 1 <= L)%nat -> (i + p + 1 <= L)%nat ->
  bs k' (L - 1 - s) p (L - 1 - p - i) (c - u) = bs k s p i u.
Proof.
  intros He HsL. revert i; induction p as [|q IH]; intros i HiL.
  - cbn. replace (L - 1 - 0 - i)%nat with (L - 1 - i)%nat by lia.
    destruct (Nat.eqb_spec i s), (Nat.eqb_spec (L - 1 - i) (L - 1 - s)); auto; lia.
  - rewrite !bs_S.
    replace (L - 1 - S q - i)%nat with (L - 1 - q - (i + 1))%nat at 2 by lia.
    replace (L - 1 - S q - i + 1)%nat with (L - 1 - q - i)%nat by lia.
    rewrite !IH by lia. rewrite Rplus_comm. f_equal; f_equal.
    + unfold wl, wr. rewrite !He by lia. f_equal.
      * replace (L - (L - 1 - S q - i + S q + 1))%nat with i by lia. ring.
      * replace (L - (L - 1 - S q - i + S q + 1))%nat with i by lia.
        replace (L - (L - 1 - S q - i + 1))%nat with (i + S q)%nat by lia. ring.
    + unfold wl, wr. rewrite !He by lia. f_equal.
      * replace (L - (L - 1 - S q - i))%nat with (i + S q + 1)%nat by lia. ring.
      * replace (L - (L - 1 - S q - i))%nat with (i + S q + 1)%nat by lia.
        replace (L - (L - 1 - S q - i + S q))%nat with (i + 1)%nat by lia. ring.
Qed.

(** shift of indices: the basis depends only on the knots from [i] to [i+p+1] *)
Lemma bs_shift k k' d s p i u :
  (forall j, (i <= j <= i + p + 1)%nat -> k' (j + d)%nat = k j) ->
  bs k' (s + d) p (i + d) u = bs k s p i u.
Proof.
  revert i; induction p as [|q IH]; intros i He.
  - cbn. destruct (Nat.eqb_spec i s), (Nat.eqb_spec (i + d) (s + d)); auto; lia.
  - rewrite !bs_S. replace (i + d + 1)%nat with (i + 1 + d)%nat by lia.
    rewrite !IH by (intros j Hj; apply He; lia).
    unfold wl, wr.
    replace (i + d + S q)%nat with (i + S q + d)%nat by lia.
    replace (i + S q + d + 1)%nat with (i + S q + 1 + d)%nat by lia.
    replace (i + d + 1)%nat with (i + 1 + d)%nat by lia.
    rewrite !He by lia. reflexivity.
Qed.

Lemma bs_ext k k' s p i u :
  (forall j, (i <= j <= i + p + 1)%nat -> k' j = k j) -> bs k' s p i u = bs k s p i u.
Proof.
  intros He. pose proof (bs_shift k k' 0 s p i u) as H. rewrite !Nat.add_0_r in H.
  apply H. intros j Hj. rewrite Nat.add_0_r. now apply He.
Qed.
