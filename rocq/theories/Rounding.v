(** * Rounded arithmetic

    The model is generic over its scalars.  Here they are real numbers on which every operation is
    the exact one followed by a rounding function [rnd] of relative error at most [mu]: floating
    point without overflow and underflow.  Round-to-nearest of binary64 is an instance with
    mu = 2^-53 (see [RoundingInstance]). *)
From Coq Require Import Reals Lra Lia ZArith Bool List.
From Verif Require Import Base BaseFacts Scalar RSum BSplineSpec BSpline KnotModel KnotSpec KnotFacts.
Import ListNotations.
Open Scope R_scope.

Definition FlOps (rnd : R -> R) (eps maxv : R) : Scalar R := {|
  szero := 0; sone := 1;
  sadd := fun x y => rnd (x + y); ssub := fun x y => rnd (x - y);
  smul := fun x y => rnd (x * y); sdiv := fun x y => rnd (x / y);
  sopp := Ropp; sabs := Rabs; ssqrt := fun x => rnd (R_sqrt.sqrt x);
  sltb := Rltb; sleb := Rleb; seqb := Reqb;
  seps := eps; smax_value := maxv;
  sofz := IZR |}.

(** a rounding function of relative error at most [mu] *)
Record rounding (mu : R) (rnd : R -> R) : Prop := {
  rd_mu : 0 <= mu < 1;
  rd_rel : forall x, Rabs (rnd x - x) <= mu * Rabs x;
  rd_mono : forall x y, x <= y -> rnd x <= rnd y
}.

(** the bound on the relative error after [n] operations *)
Definition gam (mu : R) (n : nat) : R := / (1 - mu) ^ n - 1.

Lemma fl_zero mu rnd : rounding mu rnd -> rnd 0 = 0.
Proof.
  intros H. pose proof (rd_rel _ _ H 0) as E. rewrite Rabs_R0, Rmult_0_r, Rminus_0_r in E.
  pose proof (Rabs_pos (rnd 0)) as P. destruct (Req_dec (rnd 0) 0) as [|Q]; [assumption|].
  apply Rabs_pos_lt in Q. lra.
Qed.

Section Calculus.
  Variables (mu : R) (rnd : R -> R).
  Hypothesis Hr : rounding mu rnd.
  Notation q := (1 - mu).

  Lemma q_pos : 0 < q <= 1.
  Proof. pose proof (rd_mu _ _ Hr). lra. Qed.
  Lemma qn_pos n : 0 < q ^ n.
  Proof. apply Rfunctions.pow_lt. apply q_pos. Qed.
  Lemma qn_le1 n : q ^ n <= 1.
  Proof.
    induction n as [|n IH]; cbn [pow]; [lra|]. pose proof q_pos. pose proof (qn_pos n).
    apply Rle_trans with (1 * q ^ n); [apply Rmult_le_compat_r; lra|lra].
  Qed.
  Lemma qn_anti n m : (n <= m)%nat -> q ^ m <= q ^ n.
  Proof.
    intros H. replace m with (n + (m - n))%nat by lia. rewrite pow_add.
    pose proof (qn_pos n). pose proof (qn_le1 (m - n)).
    apply Rle_trans with (q ^ n * 1); [apply Rmult_le_compat_l; lra|lra].
  Qed.

  (** ** Non-negative quantities: relative error of [n] operations *)
  Definition ap (n : nat) (x y : R) : Prop := 0 <= y /\ q ^ n * y <= x /\ q ^ n * x <= y.

  Lemma ap_exact y : 0 <= y -> ap 0 y y.
  Proof. intros H. unfold ap. cbn [pow]. lra. Qed.
  Lemma ap_nonneg n x y : ap n x y -> 0 <= x.
  Proof. intros (H1 & H2 & H3). pose proof (qn_pos n). assert (0 <= q ^ n * y) by (apply Rmult_le_pos; lra). lra. Qed.
  Lemma ap_pos n x y : ap n x y -> 0 < y -> 0 < x.
  Proof. intros (H1 & H2 & H3) Hy. pose proof (qn_pos n). assert (0 < q ^ n * y) by (apply Rmult_lt_0_compat; lra). lra. Qed.
  Lemma ap_weak n m x y : (n <= m)%nat -> ap n x y -> ap m x y.
  Proof.
    intros H Ha. pose proof (ap_nonneg _ _ _ Ha) as Hx. destruct Ha as (H1 & H2 & H3).
    pose proof (qn_anti n m H) as Hq. unfold ap.
    assert (q ^ m * y <= q ^ n * y) by (apply Rmult_le_compat_r; lra).
    assert (q ^ m * x <= q ^ n * x) by (apply Rmult_le_compat_r; lra). lra.
  Qed.
  Lemma ap_rnd x : 0 <= x -> ap 1 (rnd x) x.
  Proof.
    intros H. pose proof (rd_rel _ _ Hr x) as E. rewrite (Rabs_right x) in E by lra.
    assert (E' : - (mu * x) <= rnd x - x <= mu * x).
    { revert E. unfold Rabs. destruct (Rcase_abs _); lra. }
    pose proof (rd_mu _ _ Hr). unfold ap. rewrite pow_1. split; [exact H|]. split; [lra|].
    apply Rle_trans with (q * (x + mu * x)); [apply Rmult_le_compat_l; lra|].
    assert (0 <= mu * mu * x) by (apply Rmult_le_pos; [apply Rmult_le_pos|]; lra). lra.
  Qed.
  Lemma ap_trans n m x y z : ap n x y -> ap m y z -> ap (n + m) x z.
  Proof.
    intros (A1 & A2 & A3) (B1 & B2 & B3). pose proof (qn_pos n) as Pn. pose proof (qn_pos m) as Pm. unfold ap. rewrite pow_add.
    split; [exact B1|]. split.
    - apply Rle_trans with (q ^ n * y); [|exact A2]. rewrite Rmult_assoc. apply Rmult_le_compat_l; lra.
    - apply Rle_trans with (q ^ m * y); [|exact B3].
      replace (q ^ n * q ^ m * x) with (q ^ m * (q ^ n * x)) by ring. apply Rmult_le_compat_l; lra.
  Qed.
  Lemma ap_step n x y : ap n x y -> ap (S n) (rnd x) y.
  Proof. intros H. apply (ap_trans 1 n (rnd x) x y); [apply ap_rnd, (ap_nonneg _ _ _ H)|exact H]. Qed.
  Lemma ap_add n a b c d : ap n a b -> ap n c d -> ap n (a + c) (b + d).
  Proof. intros (A1 & A2 & A3) (B1 & B2 & B3). unfold ap. split; [lra|]. split; lra. Qed.
  Lemma ap_mul n m a b c d : ap n a b -> ap m c d -> ap (n + m) (a * c) (b * d).
  Proof.
    intros Ha Hb. pose proof (ap_nonneg _ _ _ Ha). pose proof (ap_nonneg _ _ _ Hb).
    destruct Ha as (A1 & A2 & A3), Hb as (B1 & B2 & B3). pose proof (qn_pos n). pose proof (qn_pos m). unfold ap. rewrite pow_add.
    split; [now apply Rmult_le_pos|]. split.
    - replace (q ^ n * q ^ m * (b * d)) with ((q ^ n * b) * (q ^ m * d)) by ring.
      apply Rmult_le_compat; auto; apply Rmult_le_pos; lra.
    - replace (q ^ n * q ^ m * (a * c)) with ((q ^ n * a) * (q ^ m * c)) by ring.
      apply Rmult_le_compat; auto; apply Rmult_le_pos; lra.
  Qed.
  Lemma ap_inv n x y : 0 < y -> ap n x y -> ap n (/ x) (/ y).
  Proof.
    intros Hy Ha. pose proof (ap_pos _ _ _ Ha Hy) as Hx. destruct Ha as (A1 & A2 & A3). pose proof (qn_pos n) as P. unfold ap.
    assert (0 < / x) by now apply Rinv_0_lt_compat. assert (0 < / y) by now apply Rinv_0_lt_compat.
    split; [lra|]. split.
    - replace (q ^ n * / y) with ((q ^ n * x) * (/ x * / y)) by (field; lra).
      replace (/ x) with (y * (/ x * / y)) at 2 by (field; lra).
      apply Rmult_le_compat_r; [|exact A3]. apply Rlt_le, Rmult_lt_0_compat; auto.
    - replace (q ^ n * / x) with ((q ^ n * y) * (/ x * / y)) by (field; lra).
      replace (/ y) with (x * (/ x * / y)) at 2 by (field; lra).
      apply Rmult_le_compat_r; [|exact A2]. apply Rlt_le, Rmult_lt_0_compat; auto.
  Qed.
  Lemma ap_div n m a b c d : 0 < d -> ap n a b -> ap m c d -> ap (n + m) (a / c) (b / d).
  Proof. intros Hd Ha Hc. unfold Rdiv. apply ap_mul; [exact Ha|]. now apply ap_inv. Qed.

  (** ** Signed quantities: error relative to a bound [Y] of the exact value *)
  Definition near (n : nat) (x y Y : R) : Prop := Rabs y <= Y /\ Rabs (x - y) <= gam mu n * Y.

  Lemma gam_0 : gam mu 0 = 0.
  Proof. unfold gam. cbn [pow]. rewrite Rinv_1. lra. Qed.
  Lemma gam_mono n m : (n <= m)%nat -> gam mu n <= gam mu m.
  Proof.
    intros H. unfold gam. apply Rplus_le_compat_r. apply Rinv_le_contravar; [apply qn_pos|now apply qn_anti].
  Qed.
  Lemma gam_nonneg n : 0 <= gam mu n.
  Proof. rewrite <- gam_0. apply gam_mono. lia. Qed.
  Lemma gam_mul n m : (1 + gam mu n) * (1 + gam mu m) = 1 + gam mu (n + m).
  Proof. unfold gam. rewrite pow_add. pose proof (qn_pos n). pose proof (qn_pos m). field. lra. Qed.
  Lemma gam_1 : mu <= gam mu 1.
  Proof.
    unfold gam. rewrite pow_1. pose proof (rd_mu _ _ Hr). apply (Rmult_le_reg_l q); [lra|].
    replace (q * (/ q - 1)) with mu by (field; lra). assert (0 <= mu * mu) by (apply Rmult_le_pos; lra). lra.
  Qed.

  Lemma near_0 : near 0 0 0 0.
  Proof. unfold near. rewrite Rminus_0_r, Rabs_R0. lra. Qed.
  Lemma near_exact y : near 0 y y (Rabs y).
  Proof. unfold near. rewrite Rminus_diag_eq, Rabs_R0, gam_0 by reflexivity. lra. Qed.
  Lemma near_Y n x y Y : near n x y Y -> 0 <= Y.
  Proof. intros (H & _). pose proof (Rabs_pos y). lra. Qed.
  Lemma near_weak n m x y Y : (n <= m)%nat -> near n x y Y -> near m x y Y.
  Proof.
    intros H Hn. pose proof (near_Y _ _ _ _ Hn). destruct Hn as (A & B). split; [exact A|].
    apply Rle_trans with (gam mu n * Y); [exact B|]. apply Rmult_le_compat_r; [lra|now apply gam_mono].
  Qed.
  Lemma near_step n x y Y : near n x y Y -> near (S n) (rnd x) y Y.
  Proof.
    intros Hn. pose proof (near_Y _ _ _ _ Hn) as HY. destruct Hn as (A & B). split; [exact A|].
    pose proof (rd_rel _ _ Hr x) as E. pose proof (rd_mu _ _ Hr) as Hmu.
    assert (Ex : Rabs x <= Y + gam mu n * Y).
    { replace x with (y + (x - y)) by ring. eapply Rle_trans; [apply Rabs_triang|]. lra. }
    replace (rnd x - y) with ((rnd x - x) + (x - y)) by ring. eapply Rle_trans; [apply Rabs_triang|].
    assert (M : mu * Rabs x <= gam mu 1 * (Y + gam mu n * Y)).
    { apply Rmult_le_compat; [lra|apply Rabs_pos|apply gam_1|exact Ex]. }
    pose proof (gam_mul 1 n) as G. change (1 + n)%nat with (S n) in G.
    replace (gam mu (S n)) with ((1 + gam mu 1) * (1 + gam mu n) - 1) by lra. lra.
  Qed.
  Lemma near_add n a b A c d C : near n a b A -> near n c d C -> near n (a + c) (b + d) (A + C).
  Proof.
    intros (A1 & A2) (B1 & B2). split.
    - eapply Rle_trans; [apply Rabs_triang|]. lra.
    - replace (a + c - (b + d)) with ((a - b) + (c - d)) by ring. eapply Rle_trans; [apply Rabs_triang|]. lra.
  Qed.
  Lemma ap_near n x y : ap n x y -> near n x y y.
  Proof.
    intros (A1 & A2 & A3). pose proof (qn_pos n) as P. split; [rewrite Rabs_right; lra|]. unfold gam.
    assert (U : x <= / q ^ n * y).
    { apply (Rmult_le_reg_l (q ^ n)); [exact P|]. replace (q ^ n * (/ q ^ n * y)) with y by (field; lra). exact A3. }
    assert (L : y * (1 - q ^ n) <= (/ q ^ n - 1) * y).
    { assert (0 <= (1 - q ^ n) * (1 - q ^ n) * (/ q ^ n) * y).
      { apply Rmult_le_pos; [|exact A1]. apply Rmult_le_pos; [apply Rle_0_sqr|]. left. now apply Rinv_0_lt_compat. }
      replace ((/ q ^ n - 1) * y) with (y * (1 - q ^ n) + (1 - q ^ n) * (1 - q ^ n) * (/ q ^ n) * y) by (field; lra). lra. }
    unfold Rabs. destruct (Rcase_abs _); lra.
  Qed.
  Lemma near_scale n m x y Y a b : near n x y Y -> ap m a b -> near (n + m) (x * a) (y * b) (Y * b).
  Proof.
    intros Hn Ha. pose proof (near_Y _ _ _ _ Hn) as HY. destruct Hn as (A & B). pose proof (ap_nonneg _ _ _ Ha) as Pa.
    pose proof (ap_near _ _ _ Ha) as (_ & C). destruct Ha as (Pb & _ & _). split.
    - rewrite Rabs_mult, (Rabs_right b) by lra. apply Rmult_le_compat_r; lra.
    - replace (x * a - y * b) with ((x - y) * a + y * (a - b)) by ring. eapply Rle_trans; [apply Rabs_triang|].
      rewrite !Rabs_mult, (Rabs_right a) by lra.
      assert (Ea : a <= b + gam mu m * b) by (revert C; unfold Rabs; destruct (Rcase_abs _); lra).
      assert (G1 : Rabs (x - y) * a <= (gam mu n * Y) * (b + gam mu m * b)) by (apply Rmult_le_compat; auto; apply Rabs_pos).
      assert (G2 : Rabs y * Rabs (a - b) <= Y * (gam mu m * b)) by (apply Rmult_le_compat; auto; apply Rabs_pos).
      pose proof (gam_mul n m) as G. replace (gam mu (n + m)) with ((1 + gam mu n) * (1 + gam mu m) - 1) by lra. lra.
  Qed.
  Lemma near_div n m x y Y a b : 0 < b -> near n x y Y -> ap m a b -> near (n + m) (x / a) (y / b) (Y / b).
  Proof. intros Hb Hn Ha. unfold Rdiv. apply near_scale; [exact Hn|]. now apply ap_inv. Qed.
  Lemma near_bound n x y Y Z : Y <= Z -> near n x y Y -> near n x y Z.
  Proof.
    intros H (A & B). split; [lra|]. apply Rle_trans with (gam mu n * Y); [exact B|].
    apply Rmult_le_compat_l; [apply gam_nonneg|exact H].
  Qed.
End Calculus.

(** the bound in the usual form *)
Lemma gam_bound mu n : 0 <= mu < 1 -> INR n * mu < 1 -> gam mu n <= INR n * mu / (1 - INR n * mu).
Proof.
  intros Hmu Hn. assert (B : 1 - INR n * mu <= (1 - mu) ^ n).
  { clear Hn. induction n as [|n IH]; [cbn; lra|]. rewrite S_INR. cbn [pow].
    apply Rle_trans with ((1 - mu) * (1 - INR n * mu)); [|apply Rmult_le_compat_l; lra].
    assert (0 <= mu * (INR n * mu)). { apply Rmult_le_pos; [lra|]. apply Rmult_le_pos; [apply pos_INR|lra]. } lra. }
  unfold gam. replace (INR n * mu / (1 - INR n * mu)) with (/ (1 - INR n * mu) - 1) by (field; lra).
  apply Rplus_le_compat_r. apply Rinv_le_contravar; lra.
Qed.
