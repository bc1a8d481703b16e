(** * The crossing number does not depend on the division *)
From Coq Require Import Reals Lra Lia List Permutation Classical.
From Verif Require Import CrossingSpec.
Import ListNotations.
Local Open Scope R_scope.

Section Tally.
  Context {A : Type} (P : A -> Prop).
  Lemma tally_exists l : exists n, tally P l n.
  Proof.
    induction l as [|x l (n & IH)]; [exists 0%nat; constructor|].
    destruct (classic (P x)); [exists (S n)|exists n]; now constructor.
  Qed.
  Lemma tally_unique l n m : tally P l n -> tally P l m -> n = m.
  Proof.
    intros H. revert m. induction H as [|x l n Hx H IH|x l n Hx H IH]; intros m K; inversion K; subst; auto; try contradiction.
  Qed.
  Lemma tally_app l l' n n' : tally P l n -> tally P l' n' -> tally P (l ++ l') (n + n').
  Proof. intros H K. induction H; cbn; [exact K|constructor; auto..]. Qed.
  Lemma tally_perm l l' n : Permutation l l' -> tally P l n -> tally P l' n.
  Proof.
    intros Q. revert n. induction Q as [|x l l' Q IH|x y l|l l' l'' Q1 IH1 Q2 IH2]; intros n H; auto.
    - inversion H; subst; constructor; auto.
    - inversion H as [|? ? ? ? K|? ? ? ? K]; subst; inversion K; subst;
        solve [repeat (first [apply tally_yes; [assumption|]|apply tally_no; [assumption|]]); assumption].
  Qed.
  Lemma tally_none l : (forall x, In x l -> ~ P x) -> tally P l 0.
  Proof.
    induction l as [|x l IH]; intros H; [constructor|]. apply tally_no; [apply H; now left|].
    apply IH. intros y Hy. apply H. now right.
  Qed.
End Tally.

(** dividing a piece *)
Lemma pieces_split a b l1 l2 s m t : s <= m <= t ->
  pieces a b (l1 ++ (s, t) :: l2) -> pieces a b (l1 ++ (s, m) :: (m, t) :: l2).
Proof.
  intros Hm. revert a. induction l1 as [|[x y] l1 IH]; intros a; cbn [app pieces].
  - intros (-> & H & K). repeat split; auto; lra.
  - intros (-> & H & K). repeat split; auto.
Qed.

Lemma pieces_bounds a b l : pieces a b l -> a <= b /\ forall s t, In (s, t) l -> a <= s /\ s <= t /\ t <= b.
Proof.
  revert a. induction l as [|[x y] l IH]; intros a; cbn [pieces].
  - intros ->. split; [lra|intros ? ? []].
  - intros (-> & H & K). apply IH in K. destruct K as (K1 & K2). split; [lra|].
    intros s t [E|E]; [injection E as <- <-; lra|]. destruct (K2 s t E) as (? & ? & ?). lra.
Qed.

(** of two different pieces one comes first *)
Lemma pieces_ordered a b l : pieces a b l ->
  ForallOrdPairs (fun x y => snd x <= fst y) l.
Proof.
  revert a. induction l as [|[x y] l IH]; intros a; cbn [pieces]; [constructor|].
  intros (-> & H & K). constructor; [|eauto]. apply Forall_forall. intros [s t] Hin. cbn [fst snd].
  apply (proj2 (pieces_bounds _ _ _ K)) in Hin. lra.
Qed.

Section Unique.
  Variables X Y : R -> R.
  Variables px py : R.
  Let above := above Y py.
  Let right := level_right X Y px py.
  Let left := level_left X Y px py.
  Let crosses := crosses X Y px py.

  (** a piece counts for 0 or 1 *)
  Definition counts (s t : R) : bool -> Prop := fun b =>
    if b then crosses (s, t) else ~ crosses (s, t).

  Lemma counts_exists s t : exists b, counts s t b.
  Proof. destruct (classic (crosses (s, t))); [exists true|exists false]; assumption. Qed.

  Variables lo hi : R.
  Hypothesis ivt : forall s t, lo <= s -> s <= t -> t <= hi -> ~ (above s <-> above t) -> exists u, s <= u <= t /\ Y u = py.

  Lemma counts_split s m t b b1 b2 : lo <= s -> t <= hi -> s <= m <= t -> right s t \/ left s t ->
    counts s t b -> counts s m b1 -> counts m t b2 -> b = xorb b1 b2.
  Proof.
    intros Hlo Hhi Hm Hd. assert (R1 : right s t -> right s m /\ right m t).
    { intros H. split; intros u Hu; apply H; lra. }
    assert (R2 : left s t -> forall s' t', s <= s' <= t' -> t' <= t -> ~ crosses (s', t')).
    { intros H s' t' H1 H2 (Hc & Hr). cbn [fst snd] in *. destruct (ivt s' t' ltac:(lra) ltac:(lra) ltac:(lra) Hc) as (u & Hu & Eu).
      pose proof (Hr u Hu Eu). assert (X u < px) by (apply H; [lra|exact Eu]). lra. }
    destruct Hd as [Hr|Hl].
    - destruct (R1 Hr) as (Hr1 & Hr2).
      assert (G : forall s' t' x, right s' t' -> counts s' t' x -> (x = true <-> ~ (above s' <-> above t'))).
      { intros s' t' [|] Hr' Hx; cbn in Hx; unfold crosses, CrossingSpec.crosses in Hx; cbn [fst snd] in Hx.
        - tauto.
        - split; [discriminate|]. intros H. exfalso. apply Hx. split; assumption. }
      intros C C1 C2. apply G in C; auto. apply G in C1; auto. apply G in C2; auto.
      destruct (classic (above s)), (classic (above m)), (classic (above t));
        destruct b, b1, b2; cbn; try reflexivity; exfalso; intuition discriminate.
    - pose proof (R2 Hl s t ltac:(lra) ltac:(lra)). pose proof (R2 Hl s m ltac:(lra) ltac:(lra)).
      pose proof (R2 Hl m t ltac:(lra) ltac:(lra)).
      destruct b, b1, b2; cbn; try tauto.
  Qed.

  Lemma odd_tally s t l n : tally crosses ((s, t) :: l) n ->
    exists b m, counts s t b /\ tally crosses l m /\ Nat.odd n = xorb b (Nat.odd m).
  Proof.
    intros H. inversion H as [|? ? m Hx K|? ? m Hx K]; subst.
    - exists true, m. repeat split; auto; try apply Hx. rewrite Nat.odd_succ, <- Nat.negb_odd. now destruct (Nat.odd m).
    - exists false, n. repeat split; auto. now destruct (Nat.odd n).
  Qed.
  Lemma tally_odd s t l b m : counts s t b -> tally crosses l m ->
    exists n, tally crosses ((s, t) :: l) n /\ Nat.odd n = xorb b (Nat.odd m).
  Proof.
    intros C H. destruct b; cbn [counts] in C.
    - exists (S m). split; [now constructor|]. rewrite Nat.odd_succ, <- Nat.negb_odd. now destruct (Nat.odd m).
    - exists m. split; [now constructor|]. now destruct (Nat.odd m).
  Qed.
  Lemma counts_unique s t b b' : counts s t b -> counts s t b' -> b = b'.
  Proof. destruct b, b'; cbn; intros; tauto. Qed.

  Lemma pieces_parity k : forall a b l1 l2 n1 n2, (length l1 + length l2 <= k)%nat -> lo <= a -> b <= hi ->
    pieces a b l1 -> pieces a b l2 ->
    (forall s t, In (s, t) l1 -> right s t \/ left s t) ->
    (forall s t, In (s, t) l2 -> right s t \/ left s t) ->
    tally crosses l1 n1 -> tally crosses l2 n2 -> Nat.odd n1 = Nat.odd n2.
  Proof.
    induction k as [|k IH]; intros a b l1 l2 n1 n2 Hk Hlo Hhi P1 P2 D1 D2 T1 T2.
    { destruct l1, l2; cbn in Hk; try lia. inversion T1; inversion T2; subst; reflexivity. }
    assert (Z : forall l n s, pieces s s l -> tally crosses l n -> n = 0%nat).
    { intros l n s P T. refine (tally_unique crosses l n 0 T _). apply tally_none. intros [x y] Hin (Hc & _). cbn [fst snd] in Hc.
      apply (proj2 (pieces_bounds _ _ _ P)) in Hin. assert (x = y) by lra. subst. tauto. }
    destruct l1 as [|[s1 t1] l1].
    { cbn in P1. subst b. inversion T1; subst. now rewrite (Z l2 n2 a P2 T2). }
    destruct l2 as [|[s2 t2] l2].
    { cbn in P2. subst b. inversion T2; subst. now rewrite (Z _ n1 a P1 T1). }
    destruct P1 as (-> & H1 & P1), P2 as (-> & H2 & P2).
    pose proof (proj1 (pieces_bounds _ _ _ P1)) as B1. pose proof (proj1 (pieces_bounds _ _ _ P2)) as B2.
    destruct (odd_tally _ _ _ _ T1) as (b1 & m1 & C1 & K1 & E1).
    destruct (odd_tally _ _ _ _ T2) as (b2 & m2 & C2 & K2 & E2). rewrite E1, E2.
    assert (Da : right a t1 \/ left a t1) by (apply D1; now left).
    assert (Db : right a t2 \/ left a t2) by (apply D2; now left).
    assert (Sub : forall s t s' t', s <= s' -> t' <= t -> right s t \/ left s t -> right s' t' \/ left s' t').
    { intros s t s' t' A1 A2 [H|H]; [left|right]; intros u Hu; apply H; lra. }
    cbn [length] in Hk.
    destruct (Rtotal_order t1 t2) as [Lt|[->|Gt]].
    - destruct (counts_exists t1 t2) as (x & Cx). destruct (tally_odd t1 t2 l2 x m2 Cx K2) as (n & Tn & En).
      rewrite (counts_split a t1 t2 b2 b1 x) by (auto; lra).
      assert (Q : Nat.odd m1 = Nat.odd n).
      { apply (IH t1 b l1 ((t1, t2) :: l2)); auto; cbn [length pieces]; try lia; try lra.
        - repeat split; auto; lra.
        - intros s t Hin. apply D1. now right.
        - intros s t [E|Hin]; [injection E as <- <-; eapply Sub; [| |exact Db]; lra|]. apply D2. now right. }
      rewrite Q, En. now destruct b1, x, (Nat.odd m2).
    - rewrite (counts_unique a t2 b1 b2) by auto. f_equal. apply (IH t2 b l1 l2); auto; try lia; try lra.
      + intros s t Hin. apply D1. now right.
      + intros s t Hin. apply D2. now right.
    - destruct (counts_exists t2 t1) as (x & Cx). destruct (tally_odd t2 t1 l1 x m1 Cx K1) as (n & Tn & En).
      rewrite (counts_split a t2 t1 b1 b2 x) by (auto; lra).
      assert (Q : Nat.odd n = Nat.odd m2).
      { apply (IH t2 b ((t2, t1) :: l1) l2); auto; cbn [length pieces]; try lia; try lra.
        - repeat split; auto; lra.
        - intros s t [E|Hin]; [injection E as <- <-; eapply Sub; [| |exact Da]; lra|]. apply D1. now right.
        - intros s t Hin. apply D2. now right. }
      rewrite <- Q, En. now destruct b2, x, (Nat.odd m1).
  Qed.

  Theorem crossing_parity_unique b b' : crossing_parity X Y px py lo hi b -> crossing_parity X Y px py lo hi b' -> b = b'.
  Proof.
    intros (l & n & P & D & H & ->) (l' & n' & P' & D' & H' & ->).
    apply (pieces_parity (length l + length l') lo hi l l'); auto; lra.
  Qed.
End Unique.

(** a Lipschitz function takes the values in between *)
Lemma lipschitz_ivt (f : R -> R) M lo hi y : (forall u v, lo <= u <= hi -> lo <= v <= hi -> Rabs (f u - f v) <= M * Rabs (u - v)) ->
  forall s t, lo <= s -> s <= t -> t <= hi -> ~ (y < f s <-> y < f t) -> exists u, s <= u <= t /\ f u = y.
Proof.
  intros HL s t H1 H2 H3 Hc.
  assert (HM : 0 <= M \/ s = t).
  { destruct (Req_dec s t) as [->|Hn]; [now right|left]. specialize (HL s t ltac:(lra) ltac:(lra)).
    pose proof (Rabs_pos (f s - f t)). assert (0 < Rabs (s - t)) by (apply Rabs_pos_lt; lra).
    apply Rmult_le_reg_r with (Rabs (s - t)); lra. }
  destruct HM as [HM| ->]; [|exfalso; tauto].
  set (cl := fun u => Rmax s (Rmin t u)).
  assert (Hcl : forall u, s <= cl u <= t).
  { intros u. unfold cl, Rmax, Rmin. destruct (Rle_dec t u), (Rle_dec s _); lra. }
  assert (Hcl1 : forall u v, Rabs (cl u - cl v) <= Rabs (u - v)).
  { intros u v. unfold cl, Rmax, Rmin, Rabs.
    destruct (Rle_dec t u), (Rle_dec t v); repeat destruct (Rle_dec s _); repeat destruct (Rcase_abs _); lra. }
  assert (Hid : forall u, s <= u <= t -> cl u = u).
  { intros u Hu. unfold cl, Rmax, Rmin. destruct (Rle_dec t u), (Rle_dec s _); lra. }
  assert (G : forall (g : R -> R), (forall u v, Rabs (g u - g v) <= M * Rabs (u - v)) -> continuity g).
  { intros g Hg x e He. exists (e / (M + 1)). split; [apply Rdiv_lt_0_compat; lra|].
    intros x' (_ & Hx). cbn in *. unfold R_dist in *. eapply Rle_lt_trans; [apply Hg|].
    assert (Rabs (x' - x) * (M + 1) < e).
    { apply Rmult_lt_reg_r with (/ (M + 1)); [apply Rinv_0_lt_compat; lra|]. rewrite Rmult_assoc, Rinv_r by lra. rewrite Rmult_1_r. exact Hx. }
    pose proof (Rabs_pos (x' - x)). nra. }
  assert (Hst : s < t) by (destruct (Req_dec s t) as [->|]; [exfalso; tauto|lra]).
  assert (K : forall u v, Rabs (f (cl u) - f (cl v)) <= M * Rabs (u - v)).
  { intros u v. pose proof (Hcl u). pose proof (Hcl v). eapply Rle_trans; [apply HL; lra|]. apply Rmult_le_compat_l; auto. }
  assert (Hs : f (cl s) = f s) by (f_equal; apply Hid; lra).
  assert (Ht : f (cl t) = f t) by (f_equal; apply Hid; lra).
  destruct (Req_dec (f s) y) as [E|Es]; [exists s; split; [lra|exact E]|].
  destruct (Req_dec (f t) y) as [E|Et]; [exists t; split; [lra|exact E]|].
  destruct (Rlt_dec y (f s)) as [C|C], (Rlt_dec y (f t)) as [C'|C']; try tauto.
  - destruct (IVT (fun u => y - f (cl u)) s t) as (u & Hu & Eu).
    + apply G. intros u v. replace (y - f (cl u) - (y - f (cl v))) with (- (f (cl u) - f (cl v))) by ring. rewrite Rabs_Ropp. apply K.
    + exact Hst.
    + cbv beta. rewrite Hs. lra.
    + cbv beta. rewrite Ht. lra.
    + exists u. split; [exact Hu|]. rewrite <- (Hid u Hu). lra.
  - destruct (IVT (fun u => f (cl u) - y) s t) as (u & Hu & Eu).
    + apply G. intros u v. replace (f (cl u) - y - (f (cl v) - y)) with (f (cl u) - f (cl v)) by ring. apply K.
    + exact Hst.
    + cbv beta. rewrite Hs. lra.
    + cbv beta. rewrite Ht. lra.
    + exists u. split; [exact Hu|]. rewrite <- (Hid u Hu). lra.
Qed.
