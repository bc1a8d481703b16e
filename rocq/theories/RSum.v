(** * Finite sums of reals, [rsum n f = f 0 + ... + f (n-1)] *)
From Coq Require Import Reals Lra Lia Arith List.
Import ListNotations.
Open Scope R_scope.

Fixpoint rsum (n : nat) (f : nat -> R) : R :=
  match n with
  | O => 0
  | S m => rsum m f + f m
  end.

Lemma rsum_ext n f g : (forall i, (i < n)%nat -> f i = g i) -> rsum n f = rsum n g.
Proof.
  induction n as [|n IH]; intros H; simpl; [reflexivity|].
  rewrite IH by (intros i Hi; apply H; lia). rewrite H by lia. reflexivity.
Qed.

Lemma rsum_0 n f : (forall i, (i < n)%nat -> f i = 0) -> rsum n f = 0.
Proof.
  induction n as [|n IH]; intros H; simpl; [reflexivity|].
  rewrite IH by (intros i Hi; apply H; lia). rewrite H by lia. lra.
Qed.

Lemma rsum_plus n f g : rsum n (fun i => f i + g i) = rsum n f + rsum n g.
Proof. induction n as [|n IH]; simpl; [lra|]. rewrite IH. lra. Qed.

Lemma rsum_minus n f g : rsum n (fun i => f i - g i) = rsum n f - rsum n g.
Proof. induction n as [|n IH]; simpl; [lra|]. rewrite IH. lra. Qed.

Lemma rsum_scal n c f : rsum n (fun i => c * f i) = c * rsum n f.
Proof. induction n as [|n IH]; simpl; [lra|]. rewrite IH. lra. Qed.

Lemma rsum_scal_r n c f : rsum n (fun i => f i * c) = rsum n f * c.
Proof. induction n as [|n IH]; simpl; [lra|]. rewrite IH. lra. Qed.

Lemma rsum_S_l n f : rsum (S n) f = f 0%nat + rsum n (fun i => f (S i)).
Proof. induction n as [|n IH]; [simpl; lra|]. cbn [rsum] in *. rewrite IH. lra. Qed.

Lemma rsum_split n m f : rsum (n + m) f = rsum n f + rsum m (fun i => f (n + i)%nat).
Proof.
  induction m as [|m IH]; [rewrite Nat.add_0_r; simpl; lra|].
  rewrite Nat.add_succ_r. cbn [rsum]. rewrite IH. lra.
Qed.

Lemma rsum_single n j f :
  (j < n)%nat -> (forall i, (i < n)%nat -> i <> j -> f i = 0) -> rsum n f = f j.
Proof.
  intros Hj H. replace n with (j + (1 + (n - S j)))%nat by lia.
  rewrite rsum_split, rsum_split. rewrite rsum_0.
  2:{ intros i Hi. apply H; lia. }
  rewrite (rsum_0 (n - S j)).
  2:{ intros i Hi. apply H; lia. }
  simpl. rewrite Nat.add_0_r. lra.
Qed.

(** restriction of a sum to the window where it is supported *)
Lemma rsum_window n lo w f :
  (lo + w <= n)%nat ->
  (forall i, (i < n)%nat -> (i < lo \/ lo + w <= i)%nat -> f i = 0) ->
  rsum n f = rsum w (fun r => f (lo + r)%nat).
Proof.
  intros Hw H. replace n with (lo + (w + (n - (lo + w))))%nat by lia.
  rewrite rsum_split, rsum_split. rewrite rsum_0 by (intros i Hi; apply H; lia).
  rewrite (rsum_0 (n - (lo + w))) by (intros i Hi; apply H; lia). lra.
Qed.

Lemma rsum_nonneg n f : (forall i, (i < n)%nat -> 0 <= f i) -> 0 <= rsum n f.
Proof.
  induction n as [|n IH]; intros H; simpl; [lra|].
  assert (0 <= rsum n f) by (apply IH; intros i Hi; apply H; lia).
  assert (0 <= f n) by (apply H; lia). lra.
Qed.

Lemma rsum_le n f g : (forall i, (i < n)%nat -> f i <= g i) -> rsum n f <= rsum n g.
Proof.
  induction n as [|n IH]; intros H; simpl; [lra|].
  assert (rsum n f <= rsum n g) by (apply IH; intros i Hi; apply H; lia).
  assert (f n <= g n) by (apply H; lia). lra.
Qed.

Lemma rsum_pos n f j :
  (forall i, (i < n)%nat -> 0 <= f i) -> (j < n)%nat -> 0 < f j -> 0 < rsum n f.
Proof.
  intros H Hj Hp. replace n with (j + (1 + (n - S j)))%nat by lia.
  rewrite rsum_split, rsum_split.
  assert (0 <= rsum j f) by (apply rsum_nonneg; intros i Hi; apply H; lia).
  assert (0 <= rsum (n - S j) (fun i => f (j + (1 + i))%nat))
    by (apply rsum_nonneg; intros i Hi; apply H; lia).
  simpl in *. rewrite Nat.add_0_r. lra.
Qed.

Lemma rsum_rev n f : rsum n f = rsum n (fun i => f (n - 1 - i)%nat).
Proof.
  induction n as [|n IH]; [reflexivity|].
  rewrite (rsum_S_l n (fun i => f (S n - 1 - i)%nat)). cbn [rsum].
  replace (S n - 1 - 0)%nat with n by lia.
  rewrite IH. rewrite Rplus_comm. f_equal.
  apply rsum_ext. intros i Hi. f_equal. lia.
Qed.

Lemma rsum_swap n m (f : nat -> nat -> R) :
  rsum n (fun i => rsum m (fun j => f i j)) = rsum m (fun j => rsum n (fun i => f i j)).
Proof.
  induction n as [|n IH]; simpl.
  - symmetry. apply rsum_0. auto.
  - rewrite IH. rewrite <- rsum_plus. reflexivity.
Qed.

Lemma rsum_const n c : rsum n (fun _ => c) = INR n * c.
Proof.
  induction n as [|n IH]; [simpl; lra|]. cbn [rsum]. rewrite IH, S_INR. lra.
Qed.
