(** * Boehm's knot insertion identity *)
From Coq Require Import Reals Lra Lia Arith Psatz.
From Verif Require Import RSum BSplineSpec BSpline.
Open Scope R_scope.

(** insert [x] between the knots [j] and [j+1] *)
Definition kins (k : nat -> R) (j : nat) (x : R) (m : nat) : R :=
  if (m <=? j)%nat then k m else if (m =? S j)%nat then x else k (m - 1)%nat.

Lemma kins_lo k j x m : (m <= j)%nat -> kins k j x m = k m.
Proof. intros H. unfold kins. destruct (Nat.leb_spec m j); [reflexivity|lia]. Qed.
Lemma kins_at k j x m : m = S j -> kins k j x m = x.
Proof.
  intros ->. unfold kins. destruct (Nat.leb_spec (S j) j); [lia|]. now rewrite Nat.eqb_refl.
Qed.
Lemma kins_hi k j x m m' : m = S m' -> (j < m')%nat -> kins k j x m = k m'.
Proof.
  intros -> H. unfold kins. destruct (Nat.leb_spec (S m') j); [lia|].
  destruct (Nat.eqb_spec (S m') (S j)); [lia|]. f_equal. lia.
Qed.

Lemma kins_mono k j x : mono k -> k j <= x <= k (S j) -> mono (kins k j x).
Proof.
  intros Hm Hx i.
  destruct (Nat.lt_ge_cases i j) as [H|H].
  - rewrite !kins_lo by lia. apply Hm.
  - destruct (Nat.eq_dec i j) as [->|H1].
    + rewrite kins_lo, kins_at by lia. lra.
    + destruct (Nat.eq_dec i (S j)) as [->|H2].
      * rewrite kins_at, (kins_hi k j x (S (S j)) (S j)) by lia. lra.
      * rewrite (kins_hi k j x i (i - 1)), (kins_hi k j x (S i) i) by lia.
        replace i with (S (i - 1)) at 2 by lia. apply Hm.
Qed.

(** blending coefficient of degree [p] *)
Definition al (k : nat -> R) (j : nat) (x : R) (p i : nat) : R :=
  if (i + p <=? j)%nat then 1
  else if (j <? i)%nat then 0
  else (x - k i) / (k (i + p)%nat - k i).

Lemma al_lo k j x p i : (i + p <= j)%nat -> al k j x p i = 1.
Proof. intros H. unfold al. destruct (Nat.leb_spec (i + p) j); [reflexivity|lia]. Qed.
Lemma al_hi k j x p i : (j < i)%nat -> al k j x p i = 0.
Proof.
  intros H. unfold al. destruct (Nat.leb_spec (i + p) j); [lia|].
  destruct (Nat.ltb_spec j i); [reflexivity|lia].
Qed.
Lemma al_mid k j x p i : (i <= j)%nat -> (j < i + p)%nat ->
  al k j x p i = (x - k i) / (k (i + p)%nat - k i).
Proof.
  intros H1 H2. unfold al. destruct (Nat.leb_spec (i + p) j); [lia|].
  destruct (Nat.ltb_spec j i); [lia|reflexivity].
Qed.

Definition span_rel (j s s' : nat) : Prop :=
  (s <= j /\ s' = s)%nat \/ (j <= s /\ s' = S s)%nat.

Section Insert.
  Variable k : nat -> R.
  Variable j : nat.
  Variable x : R.
  Hypothesis Hm : mono k.
  Hypothesis Hx : k j <= x <= k (S j).
  Variable s s' : nat.
  Hypothesis Hrel : span_rel j s s'.
  Let k' := kins k j x.
  Hypothesis Hs' : k' s' < k' (S s').

  Let Hm' : mono k'.
  Proof. exact (kins_mono k j x Hm Hx). Qed.

  Lemma old_span_nonempty : k s < k (S s).
  Proof.
    unfold k' in Hs'. destruct Hrel as [[H1 H2]|[H1 H2]]; subst s'.
    - rewrite (kins_lo k j x s) in Hs' by lia.
      destruct (Nat.eq_dec s j) as [E|E].
      + subst s. rewrite kins_at in Hs' by lia. lra.
      + rewrite kins_lo in Hs' by lia. exact Hs'.
    - rewrite (kins_hi k j x (S (S s)) (S s)) in Hs' by lia.
      destruct (Nat.eq_dec s j) as [E|E].
      + subst s. rewrite kins_at in Hs' by lia. lra.
      + rewrite (kins_hi k j x (S s) s) in Hs' by lia. exact Hs'.
  Qed.

  Let den' i i' : (i <= s')%nat -> (s' < i')%nat -> 0 < k' i' - k' i.
  Proof. intros H1 H2. exact (den_pos k' s' Hm' Hs' i i' H1 H2). Qed.

  Let kle a b : (a <= b)%nat -> k a <= k b.
  Proof. intros H. now apply mono_le. Qed.

  Let xlo a : (a <= j)%nat -> k a <= x.
  Proof. intros H. pose proof (kle a j H). lra. Qed.
  Let xhi a : (j < a)%nat -> x <= k a.
  Proof. intros H. pose proof (kle (S j) a H). lra. Qed.

  (** coefficient of the first basis function *)
  Lemma coef1 q i : (i <= s')%nat -> (s' <= i + q)%nat ->
    forall u, wl k (S q) i u * al k j x q i = al k j x (S q) i * wl k' (S q) i u.
  Proof.
    intros H1 H2 u.
    assert (D : 0 < k' (i + S q)%nat - k' i) by (apply den'; lia).
    unfold wl. rewrite (quot0_nz _ (k' (i + S q)%nat - k' i)) by lra.
    destruct (Nat.le_gt_cases (i + S q) j) as [C|C].
    - unfold k' in *. rewrite !kins_lo in * by lia. rewrite !al_lo by lia.
      rewrite quot0_nz by lra. lra.
    - destruct (Nat.le_gt_cases i j) as [C1|C1].
      2:{ rewrite !al_hi by lia. lra. }
      destruct (Nat.eq_dec (i + q) j) as [C2|C2].
      + rewrite (al_lo k j x q) by lia. rewrite (al_mid k j x (S q)) by lia.
        unfold k' in *. rewrite (kins_at k j x (i + S q)) in * by lia.
        rewrite (kins_lo k j x i) in * by lia.
        pose proof (xhi (i + S q) C). rewrite quot0_nz by lra. field. split; lra.
      + rewrite (al_mid k j x q), (al_mid k j x (S q)) by lia.
        unfold k' in *. rewrite (kins_hi k j x (i + S q) (i + q)) in * by lia.
        rewrite (kins_lo k j x i) in * by lia.
        assert (k (i + q)%nat <= k (i + S q)%nat) by (apply kle; lia). rewrite quot0_nz by lra. field. split; lra.
  Qed.

  (** coefficient of the third basis function *)
  Lemma coef3 q i : (i + 2 <= s')%nat -> (s' <= i + 2 + q)%nat ->
    forall u, wr k (S q) i u * (1 - al k j x q (i + 2))
              = (1 - al k j x (S q) (i + 1)) * wr k' (S q) (i + 1) u.
  Proof.
    intros H1 H2 u.
    assert (D : 0 < k' (i + 1 + S q + 1)%nat - k' (i + 1 + 1)%nat) by (apply den'; lia).
    unfold wr. rewrite (quot0_nz _ (k' _ - k' _)) by lra.
    replace (i + 1 + S q + 1)%nat with (i + q + 3)%nat in * by lia.
    replace (i + 1 + 1)%nat with (i + 2)%nat in * by lia.
    replace (i + S q + 1)%nat with (i + q + 2)%nat in * by lia.
    destruct (Nat.le_gt_cases (i + q + 2) j) as [C|C].
    - rewrite !al_lo by lia. lra.
    - destruct (Nat.le_gt_cases (i + 2) j) as [C1|C1].
      + rewrite (al_mid k j x q), (al_mid k j x (S q)) by lia.
        unfold k' in *. rewrite (kins_hi k j x (i + q + 3) (i + q + 2)) in * by lia.
        rewrite (kins_lo k j x (i + 2)) in * by lia.
        replace (i + 2 + q)%nat with (i + q + 2)%nat by lia.
        replace (i + 1 + S q)%nat with (i + q + 2)%nat by lia.
        assert (k (i + 1)%nat <= k (i + 2)%nat) by (apply kle; lia). rewrite quot0_nz by lra. field. split; lra.
      + rewrite (al_hi k j x q) by lia.
        destruct (Nat.eq_dec (i + 1) j) as [C2|C2].
        * rewrite (al_mid k j x (S q)) by lia.
          unfold k' in *. rewrite (kins_hi k j x (i + q + 3) (i + q + 2)) in * by lia.
          rewrite (kins_at k j x (i + 2)) in * by lia.
          replace (i + 1 + S q)%nat with (i + q + 2)%nat by lia.
          assert (k (i + 1)%nat <= x) by (apply xlo; lia). rewrite quot0_nz by lra. field. split; lra.
        * rewrite (al_hi k j x (S q)) by lia.
          unfold k' in *. rewrite (kins_hi k j x (i + q + 3) (i + q + 2)) in * by lia.
          rewrite (kins_hi k j x (i + 2) (i + 1)) in * by lia.
          rewrite quot0_nz by lra. lra.
  Qed.

  (** coefficient of the middle basis function *)
  Lemma coef2 q i : (i + 1 <= s')%nat -> (s' <= i + 1 + q)%nat ->
    forall u, wl k (S q) i u * (1 - al k j x q (i + 1)) + wr k (S q) i u * al k j x q (i + 1)
              = al k j x (S q) i * wr k' (S q) i u
                + (1 - al k j x (S q) (i + 1)) * wl k' (S q) (i + 1) u.
  Proof.
    intros H1 H2 u.
    assert (D : 0 < k' (i + S q + 1)%nat - k' (i + 1)%nat) by (apply den'; lia).
    unfold wr, wl. replace (i + 1 + S q)%nat with (i + S q + 1)%nat by lia.
    rewrite !(quot0_nz _ (k' (i + S q + 1)%nat - k' (i + 1)%nat)) by lra.
    replace (i + S q + 1)%nat with (i + q + 2)%nat in * by lia.
    replace (i + S q)%nat with (i + q + 1)%nat in * by lia.
    destruct (Nat.le_gt_cases (i + q + 2) j) as [C|C].
    - rewrite !al_lo by lia. unfold k' in *. rewrite !kins_lo in * by lia.
      rewrite (quot0_nz _ (k (i + q + 2)%nat - k (i + 1)%nat)) by lra. lra.
    - destruct (Nat.eq_dec (i + q + 1) j) as [C1|C1].
      + rewrite (al_lo k j x q), (al_lo k j x (S q) i), (al_mid k j x (S q)) by lia.
        unfold k' in *. rewrite (kins_at k j x (i + q + 2)) in * by lia.
        rewrite (kins_lo k j x (i + 1)) in * by lia.
        replace (i + 1 + S q)%nat with (i + q + 2)%nat by lia.
        assert (x <= k (i + q + 2)%nat) by (apply xhi; lia). rewrite (quot0_nz _ (k (i + q + 2)%nat - k (i + 1)%nat)) by lra.
        field. split; lra.
      + destruct (Nat.le_gt_cases (i + 1) j) as [C2|C2].
        * rewrite (al_mid k j x q), (al_mid k j x (S q) i), (al_mid k j x (S q) (i + 1)) by lia.
          unfold k' in *. rewrite (kins_hi k j x (i + q + 2) (i + q + 1)) in * by lia.
          rewrite (kins_lo k j x (i + 1)) in * by lia.
          replace (i + 1 + S q)%nat with (i + q + 2)%nat by lia.
          replace (i + 1 + q)%nat with (i + q + 1)%nat by lia.
          replace (i + S q)%nat with (i + q + 1)%nat by lia.
          assert (k (i)%nat <= k (i + 1)%nat) by (apply kle; lia). assert (k (i + q + 1)%nat <= k (i + q + 2)%nat) by (apply kle; lia).
          rewrite !quot0_nz by lra. field. repeat split; lra.
        * destruct (Nat.eq_dec i j) as [C3|C3].
          -- rewrite (al_hi k j x q), (al_mid k j x (S q) i), (al_hi k j x (S q) (i + 1)) by lia.
             unfold k' in *. rewrite (kins_hi k j x (i + q + 2) (i + q + 1)) in * by lia.
             rewrite (kins_at k j x (i + 1)) in * by lia.
             replace (i + S q)%nat with (i + q + 1)%nat by lia.
             assert (k i <= x) by (apply xlo; lia). rewrite quot0_nz by lra. field. split; lra.
          -- rewrite (al_hi k j x q), (al_hi k j x (S q) i), (al_hi k j x (S q) (i + 1)) by lia.
             unfold k' in *. rewrite (kins_hi k j x (i + q + 2) (i + q + 1)) in * by lia.
             rewrite (kins_hi k j x (i + 1) i) in * by lia.
             rewrite quot0_nz by lra. field. lra.
  Qed.

  (** Boehm: an old basis function is a combination of two new ones *)
  Theorem bs_insert p i u :
    bs k s p i u = al k j x p i * bs k' s' p i u
                   + (1 - al k j x p (i + 1)) * bs k' s' p (i + 1) u.
  Proof.
    revert i; induction p as [|q IH]; intros i.
    - cbn. unfold al. destruct Hrel as [[H1 H2]|[H1 H2]]; subst s'.
      + destruct (Nat.eqb_spec i s), (Nat.eqb_spec (i + 1) s),
          (Nat.leb_spec (i + 0) j), (Nat.leb_spec (i + 1 + 0) j),
          (Nat.ltb_spec j i), (Nat.ltb_spec j (i + 1)); try lia; lra.
      + destruct (Nat.eqb_spec i s), (Nat.eqb_spec i (S s)), (Nat.eqb_spec (i + 1) (S s)),
          (Nat.leb_spec (i + 0) j), (Nat.leb_spec (i + 1 + 0) j),
          (Nat.ltb_spec j i), (Nat.ltb_spec j (i + 1)); try lia; lra.
    - rewrite !bs_S. rewrite !IH. rewrite <- !Nat.add_assoc. cbn [Nat.add].
      set (B0 := bs k' s' q i u). set (B1 := bs k' s' q (i + 1) u).
      set (B2 := bs k' s' q (i + 2) u).
      assert (E1 : wl k (S q) i u * al k j x q i * B0 = al k j x (S q) i * wl k' (S q) i u * B0).
      { destruct (Nat.le_gt_cases i s') as [C|C].
        - destruct (Nat.le_gt_cases s' (i + q)) as [C'|C'].
          + rewrite (coef1 q i C C' u). reflexivity.
          + unfold B0. rewrite bs_support by lia. lra.
        - unfold B0. rewrite bs_support by lia. lra. }
      assert (E2 : (wl k (S q) i u * (1 - al k j x q (i + 1))
                    + wr k (S q) i u * al k j x q (i + 1)) * B1
              = (al k j x (S q) i * wr k' (S q) i u
                + (1 - al k j x (S q) (i + 1)) * wl k' (S q) (i + 1) u) * B1).
      { destruct (Nat.le_gt_cases (i + 1) s') as [C|C].
        - destruct (Nat.le_gt_cases s' (i + 1 + q)) as [C'|C'].
          + rewrite (coef2 q i C C' u). reflexivity.
          + unfold B1. rewrite bs_support by lia. lra.
        - unfold B1. rewrite bs_support by lia. lra. }
      assert (E3 : wr k (S q) i u * (1 - al k j x q (i + 2)) * B2
              = (1 - al k j x (S q) (i + 1)) * wr k' (S q) (i + 1) u * B2).
      { destruct (Nat.le_gt_cases (i + 2) s') as [C|C].
        - destruct (Nat.le_gt_cases s' (i + 2 + q)) as [C'|C'].
          + rewrite (coef3 q i C C' u). reflexivity.
          + unfold B2. rewrite bs_support by lia. lra.
        - unfold B2. rewrite bs_support by lia. lra. }
      lra.
  Qed.

  (** the curve is unchanged by [Q i = al i * P i + (1 - al i) * P (i-1)]; only the control
      points of the window of the span matter *)
  Theorem piece_insert p n (P Q : nat -> R) u :
    (p <= s)%nat -> (s < n)%nat ->
    (forall i, (i <= n)%nat -> (s' <= i + p)%nat -> (i <= s')%nat ->
       Q i = al k j x p i * P i + (1 - al k j x p i) * P (i - 1)%nat) ->
    piece k' p (S n) Q s' u = piece k p n P s u.
  Proof.
    intros Hp Hn HQ. unfold piece.
    rewrite (rsum_ext n (fun i => bs k s p i u * P i)
               (fun i => al k j x p i * bs k' s' p i u * P i
                         + (1 - al k j x p (i + 1)) * bs k' s' p (i + 1) u * P i)).
    2:{ intros i Hi. rewrite bs_insert. lra. }
    rewrite rsum_plus.
    rewrite (rsum_ext (S n) (fun i => bs k' s' p i u * Q i)
               (fun i => al k j x p i * bs k' s' p i u * P i
                         + (1 - al k j x p i) * bs k' s' p i u * P (i - 1)%nat)).
    2:{ intros i Hi.
        destruct (Nat.le_gt_cases s' (i + p)) as [C|C].
        - destruct (Nat.le_gt_cases i s') as [C'|C'].
          + rewrite HQ by lia. lra.
          + rewrite bs_support by lia. lra.
        - rewrite bs_support by lia. lra. }
    rewrite rsum_plus. f_equal.
    - cbn [rsum].
      assert (E : al k j x p n * bs k' s' p n u = 0).
      { destruct Hrel as [[H1 H2]|[H1 H2]].
        - rewrite bs_support by lia. lra.
        - rewrite (al_hi k j x p n) by lia. lra. }
      rewrite E. lra.
    - rewrite rsum_S_l.
      assert (E : (1 - al k j x p 0) * bs k' s' p 0 u = 0).
      { destruct Hrel as [[H1 H2]|[H1 H2]].
        - rewrite (al_lo k j x p 0) by lia. lra.
        - rewrite bs_support by lia. lra. }
      rewrite E.
      rewrite (rsum_ext n _ (fun i => (1 - al k j x p (i + 1)) * bs k' s' p (i + 1) u * P i)).
      2:{ intros i Hi. rewrite Nat.add_1_r. do 2 f_equal. lia. }
      lra.
  Qed.
End Insert.
