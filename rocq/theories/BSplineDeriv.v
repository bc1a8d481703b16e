(** * Derivatives of the B-spline polynomials of a span *)
From Coq Require Import Reals Lra Lia Bool.
From Verif Require Import RSum BSplineSpec BSpline.
Open Scope R_scope.

(** 1 / (k(i+p) - k(i)), zero when the support is empty *)
Definition dq (k : nat -> R) (p i : nat) : R := quot0 1 (k (i + p)%nat - k i).

Lemma quot0_mul a b : quot0 a b = a * quot0 1 b.
Proof. unfold quot0. destruct (Req_EM_T b 0); unfold Rdiv; ring. Qed.

Lemma wl_dq k p i u : wl k p i u = (u - k i) * dq k p i.
Proof. unfold wl, dq. apply quot0_mul. Qed.
Lemma wr_dq k p i u : wr k p i u = (k (i + p + 1)%nat - u) * dq k p (i + 1).
Proof.
  unfold wr, dq. rewrite quot0_mul. replace (i + 1 + p)%nat with (i + p + 1)%nat by lia. reflexivity.
Qed.

(** the middle coefficient *)
Lemma dq_middle k q i u : mono k ->
  dq k q (i + 1) * (wr k (S q) i u - wl k (S q) i u) =
  dq k (S q) i * wr k q i u - dq k (S q) (i + 1) * wl k q (i + 1) u.
Proof.
  intros Hm. rewrite !wr_dq, !wl_dq.
  assert (M : forall a b, (a <= b)%nat -> k a <= k b) by (intros; now apply mono_le).
  unfold dq. replace (i + 1 + q)%nat with (i + S q)%nat by lia.
  replace (i + q + 1)%nat with (i + S q)%nat by lia.
  replace (i + 1 + S q)%nat with (i + S q + 1)%nat by lia.
  pose proof (M i (i + 1)%nat ltac:(lia)). pose proof (M (i + S q)%nat (i + S q + 1)%nat ltac:(lia)).
  pose proof (M (i + 1)%nat (i + S q)%nat ltac:(lia)).
  destruct (Req_EM_T (k (i + S q)%nat - k (i + 1)%nat) 0) as [Z|Z].
  - rewrite (quot0_0 _ _ Z). replace (k (i + S q)%nat) with (k (i + 1)%nat) by lra. ring.
  - rewrite !quot0_nz by lra. field. repeat split; lra.
Qed.

Lemma bs_deriv k s p i u : mono k ->
  derivable_pt_lim (bs k s (S p) i) u
    (INR (S p) * (dq k (S p) i * bs k s p i u - dq k (S p) (i + 1) * bs k s p (i + 1) u)).
Proof.
  intros Hm.
  assert (Aff : forall f a b u l, derivable_pt_lim f u l ->
    derivable_pt_lim (fun x => (a * x + b) * f x) u (a * f u + (a * u + b) * l)).
  { intros f a b x l H.
    assert (E : derivable_pt_lim (fun x => a * x + b) x a).
    { pose proof (derivable_pt_lim_plus (mult_real_fct a id) (fct_cte b) x (a * 1) 0
        (derivable_pt_lim_scal id a x 1 (derivable_pt_lim_id x)) (derivable_pt_lim_const b x)) as P.
      replace (a * 1 + 0) with a in P by ring. exact P. }
    exact (derivable_pt_lim_mult _ _ x a l E H). }
  assert (Step : forall q i u l1 l2,
    derivable_pt_lim (bs k s q i) u l1 -> derivable_pt_lim (bs k s q (i + 1)) u l2 ->
    derivable_pt_lim (bs k s (S q) i) u
      (dq k (S q) i * bs k s q i u - dq k (S q) (i + 1) * bs k s q (i + 1) u
       + (wl k (S q) i u * l1 + wr k (S q) i u * l2))).
  { intros q j x l1 l2 H1 H2.
    pose proof (Aff _ (dq k (S q) j) (- (k j * dq k (S q) j)) x l1 H1) as D1.
    pose proof (Aff _ (- dq k (S q) (j + 1)) (k (j + S q + 1)%nat * dq k (S q) (j + 1)) x l2 H2) as D2.
    pose proof (derivable_pt_lim_plus _ _ x _ _ D1 D2) as D.
    apply (derivable_pt_lim_ext _ _ x _ (fun y => eq_sym (bs_S k s q j y))).
    apply (derivable_pt_lim_ext (plus_fct
       (fun x => (dq k (S q) j * x + - (k j * dq k (S q) j)) * bs k s q j x)
       (fun x => (- dq k (S q) (j + 1) * x + k (j + S q + 1)%nat * dq k (S q) (j + 1)) * bs k s q (j + 1) x))).
    { intros y. unfold plus_fct. rewrite wl_dq, wr_dq. ring. }
    match type of D with derivable_pt_lim _ _ ?a => match goal with |- derivable_pt_lim _ _ ?b =>
      replace b with a; [exact D|] end end.
    rewrite wl_dq, wr_dq. ring. }
  revert i u. induction p as [|q IH]; intros i u.
  - assert (C : forall j x, derivable_pt_lim (bs k s 0 j) x 0).
    { intros j x. apply (derivable_pt_lim_ext (fct_cte (if Nat.eqb j s then 1 else 0))).
      - reflexivity.
      - apply derivable_pt_lim_const. }
    pose proof (Step 0%nat i u 0 0 (C i u) (C (i + 1)%nat u)) as D.
    replace (INR 1 * _) with (dq k 1 i * bs k s 0 i u - dq k 1 (i + 1) * bs k s 0 (i + 1) u
       + (wl k 1 i u * 0 + wr k 1 i u * 0)) by (cbn [INR]; ring). exact D.
  - pose proof (Step (S q) i u _ _ (IH i u) (IH (i + 1)%nat u)) as D.
    match type of D with derivable_pt_lim _ _ ?a => match goal with |- derivable_pt_lim _ _ ?b =>
      replace b with a; [exact D|] end end.
    rewrite (S_INR (S q)).
    rewrite (bs_S k s q i), (bs_S k s q (i + 1)).
    pose proof (dq_middle k (S q) i u Hm) as Mid.
    set (b0 := bs k s q i u). set (b1 := bs k s q (i + 1) u). set (b2 := bs k s q (i + 1 + 1) u).
    assert (L : wl k (S (S q)) i u * dq k (S q) i = dq k (S (S q)) i * wl k (S q) i u).
    { rewrite !wl_dq. ring. }
    assert (Rr : wr k (S (S q)) i u * dq k (S q) (i + 1 + 1) = dq k (S (S q)) (i + 1) * wr k (S q) (i + 1) u).
    { rewrite !wr_dq. replace (i + 1 + S q + 1)%nat with (i + S (S q) + 1)%nat by lia. ring. }
    set (n := INR (S q)).
    transitivity (dq k (S (S q)) i * (wl k (S q) i u * b0 + wr k (S q) i u * b1)
       - dq k (S (S q)) (i + 1) * (wl k (S q) (i + 1) u * b1 + wr k (S q) (i + 1) u * b2)
       + n * ((wl k (S (S q)) i u * dq k (S q) i) * b0
              + (dq k (S q) (i + 1) * (wr k (S (S q)) i u - wl k (S (S q)) i u)) * b1
              - (wr k (S (S q)) i u * dq k (S q) (i + 1 + 1)) * b2)); [ring|].
    rewrite L, Rr, Mid. ring.
Qed.

(** coefficients of the m-th derivative of the basis function (p, i) over the functions of degree
    p - m (The NURBS Book, eq. 2.10) *)
Fixpoint dcoef (k : nat -> R) (p i m j : nat) : R :=
  match m with
  | O => if Nat.eqb j 0 then 1 else 0
  | S m' =>
      (dcoef k p i m' j - match j with O => 0 | S j' => dcoef k p i m' j' end)
      * dq k (p - m') (i + j)
  end.

Lemma dcoef_big k p i m j : (m < j)%nat -> dcoef k p i m j = 0.
Proof.
  revert j; induction m as [|m IH]; intros j H; cbn [dcoef].
  - destruct j; [lia|reflexivity].
  - destruct j as [|j]; [lia|]. rewrite !IH by lia. ring.
Qed.

(** p! / (p-m)! *)
Fixpoint falling (p m : nat) : R :=
  match m with O => 1 | S m' => falling p m' * (INR p - INR m') end.

Lemma falling_0 p m : (p < m)%nat -> falling p m = 0.
Proof.
  induction m as [|m IH]; intros H; [lia|]. cbn [falling].
  destruct (Nat.eq_dec p m) as [->|]; [ring|]. rewrite IH by lia. ring.
Qed.

(** m-th derivative of the basis polynomial *)
Definition dbs (k : nat -> R) (s p m i : nat) (u : R) : R :=
  falling p m * rsum (S m) (fun j => dcoef k p i m j * bs k s (p - m) (i + j) u).

Lemma dbs_0 k s p i u : dbs k s p 0 i u = bs k s p i u.
Proof. unfold dbs. cbn [falling rsum dcoef Nat.eqb]. rewrite Nat.sub_0_r, Nat.add_0_r. ring. Qed.

Lemma derivable_rsum n (f g : nat -> R -> R) u :
  (forall i, (i < n)%nat -> derivable_pt_lim (f i) u (g i u)) ->
  derivable_pt_lim (fun x => rsum n (fun i => f i x)) u (rsum n (fun i => g i u)).
Proof.
  induction n as [|n IH]; intros H.
  - cbn [rsum]. apply derivable_pt_lim_const.
  - cbn [rsum]. apply (derivable_pt_lim_plus (fun x => rsum n (fun i => f i x)) (f n)).
    + apply IH. intros; apply H; lia.
    + apply H. lia.
Qed.

Theorem dbs_deriv k s p m i u : mono k ->
  derivable_pt_lim (dbs k s p m i) u (dbs k s p (S m) i u).
Proof.
  intros Hm. destruct (Nat.lt_ge_cases m p) as [C|C].
  - assert (Hp : (p - m = S (p - S m))%nat) by lia.
    set (q := (p - S m)%nat) in *.
    assert (D : derivable_pt_lim (fun x => rsum (S m) (fun j => dcoef k p i m j * bs k s (S q) (i + j) x)) u
      (rsum (S m) (fun j => dcoef k p i m j *
         (INR (S q) * (dq k (S q) (i + j) * bs k s q (i + j) u - dq k (S q) (i + j + 1) * bs k s q (i + j + 1) u))))).
    { apply (derivable_rsum (S m) (fun j x => dcoef k p i m j * bs k s (S q) (i + j) x)
        (fun j u => dcoef k p i m j * (INR (S q) * (dq k (S q) (i + j) * bs k s q (i + j) u
           - dq k (S q) (i + j + 1) * bs k s q (i + j + 1) u)))).
      intros j Hj. apply (derivable_pt_lim_scal (bs k s (S q) (i + j))). now apply bs_deriv. }
    pose proof (derivable_pt_lim_scal _ (falling p m) u _ D) as D2.
    unfold dbs. rewrite Hp.
    match type of D2 with derivable_pt_lim _ _ ?a => match goal with |- derivable_pt_lim _ _ ?b =>
      replace b with a; [exact D2|] end end.
    cbn [falling]. rewrite Rmult_assoc. f_equal.
    assert (Ei : INR p - INR m = INR (S q)).
    { rewrite <- Hp. rewrite minus_INR by lia. reflexivity. }
    rewrite Ei, <- rsum_scal. clear D D2.
    (* summation by parts *)
    set (B := fun j => dq k (S q) (i + j) * bs k s q (i + j) u).
    transitivity (INR (S q) * (rsum (S m) (fun j => dcoef k p i m j * B j) - rsum (S m) (fun j => dcoef k p i m j * B (S j)))).
    { rewrite <- rsum_minus, <- rsum_scal. apply rsum_ext. intros j Hj. unfold B.
      replace (i + S j)%nat with (i + j + 1)%nat by lia. ring. }
    transitivity (INR (S q) * rsum (S (S m)) (fun j => dcoef k p i m j * B j - match j with O => 0 | S j' => dcoef k p i m j' end * B j)).
    + f_equal. rewrite rsum_minus. rewrite (rsum_S_l (S m) (fun j => match j with O => 0 | S j' => dcoef k p i m j' end * B j)).
      change (rsum (S (S m)) (fun j => dcoef k p i m j * B j))
        with (rsum (S m) (fun j => dcoef k p i m j * B j) + dcoef k p i m (S m) * B (S m)).
      rewrite (dcoef_big k p i m (S m)) by lia. ring.
    + rewrite rsum_scal. f_equal. apply rsum_ext. intros j Hj. cbn [dcoef]. rewrite Hp. unfold B. fold q. ring.
  - assert (Z : dbs k s p (S m) i u = 0) by (unfold dbs; rewrite falling_0 by lia; ring).
    rewrite Z. destruct (Nat.eq_dec m p) as [->|].
    + apply (derivable_pt_lim_ext (fct_cte (dbs k s p p i 0))).
      * intros x. unfold fct_cte, dbs. f_equal. apply rsum_ext. intros j Hj. rewrite Nat.sub_diag. reflexivity.
      * apply derivable_pt_lim_const.
    + apply (derivable_pt_lim_ext (fct_cte 0)).
      * intros x. unfold fct_cte, dbs. rewrite falling_0 by lia. ring.
      * apply derivable_pt_lim_const.
Qed.

(** sums over the window of the span only *)
Lemma dbs_window k s p m r u : (m <= p)%nat -> (r <= p)%nat -> (p <= s)%nat ->
  rsum (S m) (fun j => dcoef k p (s - p + r) m j * bs k s (p - m) (s - p + r + j) u)
  = rsum (S m) (fun j => if Nat.leb (m - r) j && Nat.leb j (p - r)
                         then dcoef k p (s - p + r) m j * bs k s (p - m) (s - p + r + j) u else 0).
Proof.
  intros H1 H2 H3. apply rsum_ext. intros j Hj.
  destruct (Nat.leb_spec (m - r) j); destruct (Nat.leb_spec j (p - r)); cbn [andb]; try reflexivity;
    rewrite bs_support by lia; ring.
Qed.
