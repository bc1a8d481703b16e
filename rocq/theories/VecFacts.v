(** * Coordinates of vector operations over R *)
From Coq Require Import Reals Lra.
From Verif Require Import Base BaseFacts Scalar RSum KnotFacts.
Open Scope R_scope.

Lemma map2_length {A B C} (f : A -> B -> C) l1 l2 :
  length (map2 f l1 l2) = Nat.min (length l1) (length l2).
Proof. revert l2; induction l1 as [|a l IH]; intros [|b l2]; simpl; auto. Qed.

Lemma nth_map2 {A B C} (f : A -> B -> C) l1 l2 i a b c :
  (i < length l1)%nat -> (i < length l2)%nat ->
  nth i (map2 f l1 l2) c = f (nth i l1 a) (nth i l2 b).
Proof.
  revert l2 i; induction l1 as [|x l IH]; intros [|y l2] [|i] H1 H2; simpl in *; try lia; auto.
  apply IH; lia.
Qed.

Section AnyScalarVec.
  Context {T : Type} {SO : Scalar T}.
  Lemma vadd_length a b D : length a = D -> length b = D -> length (vadd a b) = D.
  Proof. intros H1 H2. unfold vadd. rewrite map2_length. lia. Qed.
  Lemma vsub_length a b D : length a = D -> length b = D -> length (vsub a b) = D.
  Proof. intros H1 H2. unfold vsub. rewrite map2_length. lia. Qed.
  Lemma vscale_length a k D : length a = D -> length (vscale a k) = D.
  Proof. intros H. unfold vscale. now rewrite map_length. Qed.
  Lemma vdivs_length a k D : length a = D -> length (vdivs a k) = D.
  Proof. intros H. unfold vdivs. now rewrite map_length. Qed.
  Lemma vzero_length D : length (vzero D) = D.
  Proof. apply repeat_length. Qed.
  Lemma vlerp_length a b t D : length a = D -> length b = D -> length (vlerp a b t) = D.
  Proof. intros H1 H2. unfold vlerp. apply vadd_length; now apply vscale_length. Qed.
End AnyScalarVec.

Section RealVec.
  Variables eps maxv : R.
  Local Hint Extern 0 (Scalar R) => exact (ROps eps maxv) : typeclass_instances.

  (** coordinate of a real vector, zero outside *)
  Definition rc (i : nat) (p : list R) : R := nth i p 0.

  Lemma coord_rc i (p : list R) : coord i p = rc i p.
  Proof. reflexivity. Qed.

  Lemma rc_vadd i a b : length a = length b -> rc i (vadd a b) = rc i a + rc i b.
  Proof.
    intros H. unfold rc, vadd. destruct (Nat.lt_ge_cases i (length a)) as [L|L].
    - rewrite (nth_map2 _ a b i 0 0 0) by lia. reflexivity.
    - rewrite !nth_overflow by (rewrite ?map2_length; lia). lra.
  Qed.
  Lemma rc_vsub i a b : length a = length b -> rc i (vsub a b) = rc i a - rc i b.
  Proof.
    intros H. unfold rc, vsub. destruct (Nat.lt_ge_cases i (length a)) as [L|L].
    - rewrite (nth_map2 _ a b i 0 0 0) by lia. reflexivity.
    - rewrite !nth_overflow by (rewrite ?map2_length; lia). lra.
  Qed.
  Lemma rc_vscale i a k : rc i (vscale a k) = rc i a * k.
  Proof.
    unfold rc, vscale. destruct (Nat.lt_ge_cases i (length a)) as [L|L].
    - now rewrite (nth_map_lt _ a i 0 0).
    - rewrite !nth_overflow by (rewrite ?map_length; lia). lra.
  Qed.
  Lemma rc_vdivs i a k : rc i (vdivs a k) = rc i a / k.
  Proof.
    unfold rc, vdivs. destruct (Nat.lt_ge_cases i (length a)) as [L|L].
    - now rewrite (nth_map_lt _ a i 0 0).
    - rewrite !nth_overflow by (rewrite ?map_length; lia). unfold Rdiv; lra.
  Qed.
  Lemma rc_vzero i D : rc i (vzero D) = 0.
  Proof.
    unfold rc, vzero. destruct (Nat.lt_ge_cases i D) as [L|L].
    - now rewrite nth_repeat_lt.
    - apply nth_overflow. rewrite repeat_length. lia.
  Qed.
  Lemma rc_vlerp i a b t : length a = length b ->
    rc i (vlerp a b t) = rc i a * (1 - t) + rc i b * t.
  Proof.
    intros H. unfold vlerp. rewrite rc_vadd by (unfold vscale; rewrite !map_length; auto).
    now rewrite !rc_vscale.
  Qed.
  Lemma rc_firstn i n p : (i < n)%nat -> rc i (firstn n p) = rc i p.
  Proof. intros H. unfold rc. now apply nth_firstn. Qed.

  Lemma vec_ext (a b : list R) D :
    length a = D -> length b = D -> (forall i, (i < D)%nat -> rc i a = rc i b) -> a = b.
  Proof.
    intros H1 H2 H. apply (list_ext 0); [lia|]. intros i Hi. apply H. lia.
  Qed.

  Lemma fold_left_Rplus l a : fold_left Rplus l a = a + fold_left Rplus l 0.
  Proof.
    revert a; induction l as [|h t IH]; intros a; simpl; [lra|].
    rewrite IH, (IH (0 + h)). lra.
  Qed.

  Lemma ssum_rsum (l : list R) : ssum l = rsum (length l) (fun i => nth i l 0).
  Proof.
    unfold ssum. cbn [szero sadd ROps].
    induction l as [|h t IH]; [reflexivity|].
    cbn [length]. rewrite rsum_S_l. simpl. rewrite fold_left_Rplus, IH. lra.
  Qed.

  Lemma vdot_rsum (a b : list R) : length a = length b ->
    vdot a b = rsum (length a) (fun i => rc i a * rc i b).
  Proof.
    intros H. unfold vdot. rewrite ssum_rsum, map2_length, <- H, Nat.min_id.
    apply rsum_ext. intros i Hi. unfold rc. now rewrite (nth_map2 _ a b i 0 0 0) by lia.
  Qed.
End RealVec.
