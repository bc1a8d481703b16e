(** * Facts about knot lists *)
From Coq Require Import Reals Lra Sorted.
From Verif Require Import Base BaseFacts Scalar BSpline KnotSpec.
Open Scope R_scope.

Lemma kf_nth k i d : (i < length k)%nat -> kf k i = nth i k d.
Proof. intros H. unfold kf. now apply nth_indep. Qed.

Lemma get_kf k i : (i < length k)%nat -> get k i = Ok (kf k i).
Proof. intros H. now apply get_ok. Qed.

Lemma sorted_nth_le k i : Sorted Rle k -> (S i < length k)%nat -> nth i k 0 <= nth (S i) k 0.
Proof.
  intros Hs. revert i; induction Hs as [|a l Hs IH Hh]; intros i Hi; simpl in *; [lia|].
  destruct i as [|i].
  - destruct l as [|b l]; simpl in *; [lia|]. now inversion Hh.
  - apply (IH i). lia.
Qed.

Lemma last_nth {A} (k : list A) d : k <> [] -> last k d = nth (length k - 1) k d.
Proof.
  induction k as [|a l IH]; intros H; [contradiction|].
  destruct l as [|b l]; [reflexivity|].
  change (last (a :: b :: l) d) with (last (b :: l) d). rewrite IH by discriminate.
  simpl. now rewrite Nat.sub_0_r.
Qed.

Lemma sorted_mono k : Sorted Rle k -> mono (kf k).
Proof.
  intros Hs i. destruct (Nat.lt_ge_cases (S i) (length k)) as [H|H].
  - rewrite !(kf_nth k _ 0) by lia. now apply sorted_nth_le.
  - unfold kf at 2. rewrite (nth_overflow k _ H).
    destruct (Nat.lt_ge_cases i (length k)) as [H1|H1].
    + destruct k as [|a l]; [simpl in *; lia|].
      rewrite (kf_nth _ i 0) by lia. rewrite last_nth by discriminate.
      replace (length (a :: l) - 1)%nat with i by lia. lra.
    + unfold kf. rewrite (nth_overflow k _ H1). lra.
Qed.

Lemma mono_sorted k : (forall i, (S i < length k)%nat -> nth i k 0 <= nth (S i) k 0) -> Sorted Rle k.
Proof.
  induction k as [|a l IH]; intros H; [constructor|].
  constructor.
  - apply IH. intros i Hi. apply (H (S i)). simpl; lia.
  - destruct l as [|b l]; constructor. apply (H 0%nat). simpl; lia.
Qed.

Lemma kf_ge k i : (length k <= i)%nat -> kf k i = last k 0.
Proof. intros H. unfold kf. now apply nth_overflow. Qed.

(** real comparisons as booleans *)
Lemma Rltb_true a b : Rltb a b = true <-> a < b.
Proof. unfold Rltb. destruct (Rlt_dec a b); split; intros; auto; try discriminate; contradiction. Qed.
Lemma Rltb_false a b : Rltb a b = false <-> b <= a.
Proof.
  unfold Rltb. destruct (Rlt_dec a b); split; intros; auto; try discriminate; lra.
Qed.
Lemma Rleb_true a b : Rleb a b = true <-> a <= b.
Proof. unfold Rleb. destruct (Rle_dec a b); split; intros; auto; try discriminate; contradiction. Qed.
Lemma Rleb_false a b : Rleb a b = false <-> b < a.
Proof. unfold Rleb. destruct (Rle_dec a b); split; intros; auto; try discriminate; lra. Qed.
Lemma Reqb_true a b : Reqb a b = true <-> a = b.
Proof. unfold Reqb. destruct (Req_EM_T a b); split; intros; auto; try discriminate; contradiction. Qed.
Lemma Reqb_false a b : Reqb a b = false <-> a <> b.
Proof. unfold Reqb. destruct (Req_EM_T a b); split; intros; auto; try discriminate; contradiction. Qed.

Lemma Rltb_spec a b : BoolSpec (a < b) (b <= a) (Rltb a b).
Proof.
  destruct (Rltb a b) eqn:E; constructor; [now apply Rltb_true|now apply Rltb_false].
Qed.
Lemma Rleb_spec a b : BoolSpec (a <= b) (b < a) (Rleb a b).
Proof.
  destruct (Rleb a b) eqn:E; constructor; [now apply Rleb_true|now apply Rleb_false].
Qed.
Lemma Reqb_spec a b : BoolSpec (a = b) (a <> b) (Reqb a b).
Proof.
  destruct (Reqb a b) eqn:E; constructor; [now apply Reqb_true|now apply Reqb_false].
Qed.

(** reduce class projections of the real instance *)
Ltac rs := cbn [szero sone sadd ssub smul sdiv sopp sabs ssqrt sltb sleb seqb seps smax_value
                sofz ROps] in *.
