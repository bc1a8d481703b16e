(** * Lemmas about arrays and the loop combinators (Hoare-style rules). *)
From Verif Require Import Base.

Lemma bind_ok {A B} (x : Res A) (f : A -> Res B) b :
  bind x f = Ok b <-> exists a, x = Ok a /\ f a = Ok b.
Proof.
  split.
  - destruct x; cbn; intros H; try discriminate. eauto.
  - intros (a & -> & H); exact H.
Qed.

Lemma usub_ok a b : b <= a -> usub a b = Ok (a - b).
Proof. intros H; unfold usub. rewrite (proj2 (Nat.leb_le b a) H). reflexivity. Qed.

Lemma usub_inv a b c : usub a b = Ok c -> b <= a /\ c = a - b.
Proof.
  unfold usub. destruct (Nat.leb_spec b a); intros E; inversion E; auto.
Qed.

Lemma get_ok {A} (l : list A) i d : i < length l -> get l i = Ok (nth i l d).
Proof. intros H; unfold get. now rewrite (nth_error_nth' l d H). Qed.

Lemma get_inv {A} (l : list A) i a : get l i = Ok a -> i < length l /\ forall d, a = nth i l d.
Proof.
  unfold get. destruct (nth_error l i) eqn:E; intros H; inversion H; subst.
  split; [apply nth_error_Some; congruence|].
  intros d. symmetry. now apply nth_error_nth.
Qed.

Lemma upd_length {A} (l : list A) i v : length (upd l i v) = length l.
Proof. revert i; induction l as [|h t IH]; intros [|i]; simpl; auto. Qed.

Lemma nth_upd {A} (l : list A) i j v d :
  nth j (upd l i v) d = if (j =? i) && (i <? length l) then v else nth j l d.
Proof.
  revert i j; induction l as [|h t IH]; intros i j.
  - simpl. destruct i, j; simpl; rewrite ?andb_false_r; reflexivity.
  - destruct i, j; simpl; auto.
    rewrite IH. reflexivity.
Qed.

Lemma nth_upd_same {A} (l : list A) i v d : i < length l -> nth i (upd l i v) d = v.
Proof. intros H. rewrite nth_upd, Nat.eqb_refl, (proj2 (Nat.ltb_lt _ _) H). reflexivity. Qed.

Lemma nth_upd_other {A} (l : list A) i j v d : j <> i -> nth j (upd l i v) d = nth j l d.
Proof. intros H. rewrite nth_upd, (proj2 (Nat.eqb_neq _ _) H). reflexivity. Qed.

Lemma set_ok {A} (l : list A) i v : i < length l -> set_ l i v = Ok (upd l i v).
Proof. intros H; unfold set_. now rewrite (proj2 (Nat.ltb_lt _ _) H). Qed.

Lemma set_inv {A} (l l' : list A) i v : set_ l i v = Ok l' -> i < length l /\ l' = upd l i v.
Proof.
  unfold set_. destruct (Nat.ltb_spec i (length l)); intros E; inversion E; auto.
Qed.

Lemma slice_ok {A} (l : list A) a b :
  a <= b -> b <= length l -> slice l a b = Ok (firstn (b - a) (skipn a l)).
Proof.
  intros H1 H2; unfold slice.
  now rewrite (proj2 (Nat.leb_le _ _) H1), (proj2 (Nat.leb_le _ _) H2).
Qed.

Lemma slice_inv {A} (l l' : list A) a b :
  slice l a b = Ok l' -> a <= b /\ b <= length l /\ l' = firstn (b - a) (skipn a l).
Proof.
  unfold slice. destruct (Nat.leb_spec a b), (Nat.leb_spec b (length l)); cbn;
    intros E; inversion E; auto.
Qed.

Lemma slice_length {A} (l : list A) a b :
  a <= b -> b <= length l -> length (firstn (b - a) (skipn a l)) = b - a.
Proof. intros H1 H2. rewrite firstn_length, skipn_length. lia. Qed.

Lemma nth_firstn {A} (l : list A) n i d : i < n -> nth i (firstn n l) d = nth i l d.
Proof.
  revert l i; induction n as [|n IH]; intros l i H; [lia|].
  destruct l as [|h t], i; simpl; auto. apply IH; lia.
Qed.

Lemma nth_skipn {A} (l : list A) n i d : nth i (skipn n l) d = nth (n + i) l d.
Proof.
  revert l; induction n as [|n IH]; intros l; simpl; auto.
  destruct l as [|h t]; simpl; [now destruct i|apply IH].
Qed.

Lemma nth_slice {A} (l : list A) a b i d :
  i < b - a -> nth i (firstn (b - a) (skipn a l)) d = nth (a + i) l d.
Proof. intros H. now rewrite nth_firstn, nth_skipn. Qed.

(** ** Loop rules *)
Lemma for_rule {St} (I : nat -> St -> Prop) n lo (f : nat -> St -> Res St) s :
  I lo s ->
  (forall i s, lo <= i < lo + n -> I i s -> exists s', f i s = Ok s' /\ I (S i) s') ->
  exists s', for_ n lo f s = Ok s' /\ I (lo + n) s'.
Proof.
  revert lo s; induction n as [|n IH]; intros lo s H0 Hstep; simpl.
  - exists s. rewrite Nat.add_0_r. auto.
  - destruct (Hstep lo s) as (s1 & E1 & H1); [lia|exact H0|].
    rewrite E1; cbn.
    destruct (IH (S lo) s1 H1) as (s2 & E2 & H2).
    + intros i s' Hi. apply Hstep. lia.
    + exists s2. split; [exact E2|]. replace (lo + S n) with (S lo + n) by lia. exact H2.
Qed.

Lemma for_range_rule {St} (I : nat -> St -> Prop) lo hi (f : nat -> St -> Res St) s :
  lo <= hi ->
  I lo s ->
  (forall i s, lo <= i < hi -> I i s -> exists s', f i s = Ok s' /\ I (S i) s') ->
  exists s', for_range lo hi f s = Ok s' /\ I hi s'.
Proof.
  intros Hle H0 Hs. unfold for_range.
  destruct (for_rule I (hi - lo) lo f s H0) as (s' & E & H).
  - intros i s1 Hi; apply Hs; lia.
  - exists s'; split; auto. replace hi with (lo + (hi - lo)) by lia. exact H.
Qed.

Lemma for_incl_rule {St} (I : nat -> St -> Prop) lo hi (f : nat -> St -> Res St) s :
  lo <= S hi ->
  I lo s ->
  (forall i s, lo <= i <= hi -> I i s -> exists s', f i s = Ok s' /\ I (S i) s') ->
  exists s', for_incl lo hi f s = Ok s' /\ I (S hi) s'.
Proof.
  intros Hle H0 Hs. unfold for_incl.
  destruct (for_rule I (S hi - lo) lo f s H0) as (s' & E & H).
  - intros i s1 Hi; apply Hs; lia.
  - exists s'; split; auto. replace (S hi) with (lo + (S hi - lo)) by lia. exact H.
Qed.

Lemma for_rev_rule {St} (I : nat -> St -> Prop) n lo (f : nat -> St -> Res St) s :
  I (lo + n) s ->
  (forall i s, lo <= i < lo + n -> I (S i) s -> exists s', f i s = Ok s' /\ I i s') ->
  exists s', for_rev n lo f s = Ok s' /\ I lo s'.
Proof.
  revert s; induction n as [|n IH]; intros s H0 Hs; simpl.
  - exists s. rewrite Nat.add_0_r in H0. auto.
  - destruct (Hs (lo + n) s) as (s1 & E1 & H1); [lia| |].
    + replace (S (lo + n)) with (lo + S n) by lia. exact H0.
    + rewrite E1; cbn. apply IH; [exact H1|].
      intros i s2 Hi. apply Hs. lia.
Qed.

(** partial-correctness version *)
Lemma for_partial {St} (I : nat -> St -> Prop) n lo (f : nat -> St -> Res St) s s' :
  I lo s ->
  (forall i s s', lo <= i < lo + n -> I i s -> f i s = Ok s' -> I (S i) s') ->
  for_ n lo f s = Ok s' -> I (lo + n) s'.
Proof.
  revert lo s; induction n as [|n IH]; intros lo s H0 Hstep; simpl.
  - intros E; inversion E; subst. now rewrite Nat.add_0_r.
  - intros E. apply bind_ok in E. destruct E as (s1 & E1 & E2).
    replace (lo + S n) with (S lo + n) by lia.
    apply (IH (S lo) s1); auto.
    + apply (Hstep lo s); auto; lia.
    + intros i a b Hi. apply Hstep. lia.
Qed.

(** Loop with a decreasing measure: total correctness. *)
Lemma loop_rule {St A} (I : St -> Prop) (Q : A -> Prop) (m : St -> nat) fuel
      (step : St -> Res (St + A)) s :
  I s -> m s < fuel ->
  (forall s, I s -> exists r, step s = Ok r /\
      match r with inl s' => I s' /\ m s' < m s | inr a => Q a end) ->
  exists a, loop_ fuel step s = Ok a /\ Q a.
Proof.
  revert s; induction fuel as [|fuel IH]; intros s HI Hm Hs; [lia|].
  cbn. destruct (Hs s HI) as (r & E & H). rewrite E; cbn.
  destruct r as [s'|a].
  - destruct H as [H1 H2]. apply IH; auto. lia.
  - eauto.
Qed.

Lemma while_rule {St} (I : St -> Prop) (Q : St -> Prop) (m : St -> nat) fuel
      (cond : St -> Res bool) (body : St -> Res St) s :
  I s -> m s < fuel ->
  (forall s, I s ->
      (cond s = Ok false /\ Q s) \/
      (cond s = Ok true /\ exists s', body s = Ok s' /\ I s' /\ m s' < m s)) ->
  exists s', while_ fuel cond body s = Ok s' /\ Q s'.
Proof.
  intros HI Hm Hs. unfold while_. apply (loop_rule I Q m); auto.
  intros s0 H0. destruct (Hs s0 H0) as [[E HQ]|(E & s1 & E1 & H1 & H2)]; rewrite E; cbn.
  - exists (inr s0). auto.
  - rewrite E1; cbn. exists (inl s1). auto.
Qed.

(** ** mapM / foldM *)
Lemma mapM_ok {A B} (f : A -> Res B) (g : A -> B) l :
  (forall x, In x l -> f x = Ok (g x)) -> mapM f l = Ok (map g l).
Proof.
  induction l as [|h t IH]; intros H; simpl; auto.
  rewrite (H h) by (simpl; auto). cbn. rewrite IH; cbn; auto.
  intros x Hx; apply H; simpl; auto.
Qed.

Lemma mapM_inv {A B} (f : A -> Res B) l l' :
  mapM f l = Ok l' -> Forall2 (fun x y => f x = Ok y) l l'.
Proof.
  revert l'; induction l as [|h t IH]; intros l' H; simpl in H.
  - inversion H; constructor.
  - apply bind_ok in H. destruct H as (y & E1 & H).
    apply bind_ok in H. destruct H as (ys & E2 & H). inversion H; subst.
    constructor; auto.
Qed.

Lemma Forall2_len {A B} (R : A -> B -> Prop) l l' : Forall2 R l l' -> length l = length l'.
Proof. induction 1; simpl; auto. Qed.

Lemma mapM_length {A B} (f : A -> Res B) l l' : mapM f l = Ok l' -> length l' = length l.
Proof. intros H. apply mapM_inv in H. symmetry. now apply Forall2_len in H. Qed.

Lemma foldM_rule {A St} (I : list A -> St -> Prop) (f : St -> A -> Res St) l s :
  I [] s ->
  (forall pre x post s, l = pre ++ x :: post -> I pre s ->
       exists s', f s x = Ok s' /\ I (pre ++ [x]) s') ->
  exists s', foldM f l s = Ok s' /\ I l s'.
Proof.
  intros H0 Hs.
  enough (G : forall suf pre s, l = pre ++ suf -> I pre s ->
              exists s', foldM f suf s = Ok s' /\ I l s') by (apply (G l [] s); auto).
  induction suf as [|x suf IH]; intros pre s1 El HI; simpl.
  - rewrite app_nil_r in El; subst. eauto.
  - destruct (Hs pre x suf s1 El HI) as (s2 & E2 & H2). rewrite E2; cbn.
    apply (IH (pre ++ [x])); auto. now rewrite <- app_assoc.
Qed.

(** ** position / rposition *)
Lemma rposition_some {A} (f : A -> bool) l i d :
  rposition f l = Some i ->
  i < length l /\ f (nth i l d) = true /\
  forall j, i < j -> j < length l -> f (nth j l d) = false.
Proof.
  revert i; induction l as [|h t IH]; intros i H; simpl in H; [discriminate|].
  destruct (rposition f t) as [k|] eqn:E.
  - inversion H; subst. destruct (IH k eq_refl) as (H1 & H2 & H3). simpl.
    repeat split; [lia|exact H2|]. intros [|j] Hj Hl; [lia|]. apply H3; lia.
  - destruct (f h) eqn:Eh; inversion H; subst. simpl. repeat split; [lia|exact Eh|].
    intros [|j] Hj Hl; [lia|].
    clear - E Hl. revert j Hl. induction t as [|a t IH]; intros j Hl; simpl in *; [lia|].
    destruct (rposition f t) eqn:E1; [discriminate|].
    destruct (f a) eqn:Ea; [discriminate|].
    destruct j; auto. apply IH; [auto|lia].
Qed.

Lemma rposition_none {A} (f : A -> bool) l :
  rposition f l = None -> forall x, In x l -> f x = false.
Proof.
  induction l as [|h t IH]; intros H x Hx; simpl in *; [contradiction|].
  destruct (rposition f t); [discriminate|].
  destruct (f h) eqn:E; [discriminate|].
  destruct Hx as [<-|Hx]; auto.
Qed.

Lemma position_some {A} (f : A -> bool) l i d :
  position f l = Some i ->
  i < length l /\ f (nth i l d) = true /\ forall j, j < i -> f (nth j l d) = false.
Proof.
  revert i; induction l as [|h t IH]; intros i H; simpl in H; [discriminate|].
  destruct (f h) eqn:E.
  - inversion H; subst; simpl. repeat split; [lia|exact E|lia].
  - destruct (position f t) as [k|]; [|discriminate]. cbn in H. inversion H; subst.
    destruct (IH k eq_refl) as (H1 & H2 & H3). simpl.
    repeat split; [lia|exact H2|]. intros [|j] Hj; auto. apply H3; lia.
Qed.

Lemma position_none {A} (f : A -> bool) l :
  position f l = None -> forall x, In x l -> f x = false.
Proof.
  induction l as [|h t IH]; intros H x Hx; simpl in *; [contradiction|].
  destruct (f h) eqn:E; [discriminate|].
  destruct (position f t); [discriminate|].
  destruct Hx as [<-|Hx]; auto.
Qed.

(** list extensionality by [nth] *)
Lemma list_ext {A} (d : A) (l1 l2 : list A) :
  length l1 = length l2 -> (forall i, i < length l1 -> nth i l1 d = nth i l2 d) -> l1 = l2.
Proof.
  revert l2; induction l1 as [|h t IH]; intros [|h2 t2] Hl H; simpl in *; try lia; auto.
  f_equal; [apply (H 0); lia|].
  apply IH; [lia|]. intros i Hi. apply (H (S i)). lia.
Qed.

Lemma nth_repeat_lt {A} (a d : A) n i : i < n -> nth i (repeat a n) d = a.
Proof. revert i; induction n as [|n IH]; intros [|i] H; simpl; auto; try lia. apply IH; lia. Qed.

Lemma nth_map_lt {A B} (f : A -> B) l i d d' : i < length l -> nth i (map f l) d' = f (nth i l d).
Proof.
  revert i; induction l as [|h t IH]; intros [|i] H; simpl in *; try lia; auto. apply IH; lia.
Qed.
