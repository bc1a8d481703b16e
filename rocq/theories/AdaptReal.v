(** * The leaves partition the rectangle; polygons of the leaves *)
From Coq Require Import Reals Lra Lia List Sorted.
From Verif Require Import Base BaseFacts Scalar KnotFacts KnotModel MiscModel CurveModel SurfaceModel AdaptModel AdaptProofs AdaptForest.
Open Scope R_scope.

Definition Pt : Type := (R * R)%type.
(** a point of the half-open rectangle *)
Definition inside (r : Rect R) (p : Pt) : Prop := rl r <= fst p < rr r /\ rb r <= snd p < rt r.
Definition rect_ok (r : Rect R) : Prop := rl r < rr r /\ rb r < rt r.
Definition within (r' r : Rect R) : Prop := rl r <= rl r' /\ rr r' <= rr r /\ rb r <= rb r' /\ rt r' <= rt r.

(** ** Increasing lists *)
(** [asc b a l]: [l] starts with [a], increases, and stays below [b] *)
Inductive asc (b : R) : R -> list R -> Prop :=
| asc_one a : a < b -> asc b a [a]
| asc_cons a c l : a < c -> asc b c l -> asc b a (a :: l).
Lemma asc_lt b a l : asc b a l -> a < b.
Proof. induction 1; lra. Qed.
Lemma asc_range b a l : asc b a l -> forall x, In x l -> a <= x < b.
Proof.
  induction 1 as [a H|a c l H A IH]; intros x Hx.
  - destruct Hx as [<-|[]]. lra.
  - destruct Hx as [<-|Hx]; [apply asc_lt in A; lra|]. specialize (IH x Hx). lra.
Qed.
Lemma asc_app m b a l l' : asc m a l -> asc b m l' -> asc b a (l ++ l').
Proof.
  intros H H'. induction H as [a H|a c l H A IH]; cbn [app].
  - now apply (asc_cons b a m).
  - apply (asc_cons b a c); auto.
Qed.
Lemma asc_sorted b a l : asc b a l -> StronglySorted Rlt l.
Proof.
  induction 1 as [a H|a c l H A IH]; constructor; auto; [constructor|].
  apply Forall_forall. intros x Hx. apply (asc_range _ _ _ A) in Hx. lra.
Qed.
Lemma sorted_app (l l' : list R) : StronglySorted Rlt l -> StronglySorted Rlt l' -> (forall x y, In x l -> In y l' -> x < y) ->
  StronglySorted Rlt (l ++ l').
Proof.
  induction l as [|a l IH]; intros H H' C; [exact H'|]. inversion H; subst. cbn [app]. constructor.
  - apply IH; auto. intros x y Hx Hy. apply C; [now right|exact Hy].
  - apply Forall_app. split; [assumption|]. apply Forall_forall. intros y Hy. apply C; [now left|exact Hy].
Qed.
Lemma sorted_filter {A} (g : A -> R) f l : StronglySorted Rlt (map g l) -> StronglySorted Rlt (map g (filter f l)).
Proof.
  induction l as [|a l IH]; intros H; [exact H|]. cbn [map] in H. inversion H as [|? ? H1 H2]; subst. cbn [filter].
  destruct (f a); [|auto]. cbn [map]. constructor; [auto|]. apply Forall_forall. intros x Hx. apply in_map_iff in Hx.
  destruct Hx as (y & <- & Hy). apply filter_In in Hy. rewrite Forall_forall in H2. apply H2. apply in_map. tauto.
Qed.
Lemma sorted_rev_opp {A} (g : A -> R) l : StronglySorted Rlt (map g l) -> StronglySorted Rlt (map (fun x => - g x) (rev l)).
Proof.
  induction l as [|a l IH]; intros H; [constructor|]. cbn [map] in H. inversion H as [|? ? H1 H2]; subst. cbn [rev]. rewrite map_app.
  apply sorted_app; [auto|cbn; repeat constructor|]. intros x y Hx Hy. apply in_map_iff in Hx. destruct Hx as (z & <- & Hz). apply in_rev in Hz.
  destruct Hy as [<-|[]]. rewrite Forall_forall in H2. specialize (H2 (g z) (in_map g _ _ Hz)). lra.
Qed.

(** ** Edges *)
(** position along an edge, counted in the order of the corners; the coordinate that is constant on it *)
Definition pos (e : Edge) (p : Pt) : R := match e with South => fst p | East => snd p | North => - fst p | West => - snd p end.
Definition off (e : Edge) (p : Pt) : R := match e with South | North => snd p | East | West => fst p end.
Definition e_lo (e : Edge) (r : Rect R) : R := match e with South => rl r | East => rb r | North => - rr r | West => - rt r end.
Definition e_hi (e : Edge) (r : Rect R) : R := match e with South => rr r | East => rt r | North => - rl r | West => - rb r end.
Definition e_off (e : Edge) (r : Rect R) : R := match e with South => rb r | East => rr r | North => rt r | West => rl r end.
Definition corner_of (e : Edge) (r : Rect R) : Pt :=
  match e with South => (rl r, rb r) | East => (rr r, rb r) | North => (rr r, rt r) | West => (rl r, rt r) end.
Lemma pos_opp e p : pos (opp_edge e) p = - pos e p.
Proof. destruct e; cbn; lra. Qed.
Lemma off_opp e p : off (opp_edge e) p = off e p.
Proof. destruct e; reflexivity. Qed.
Lemma pos_corner e r : pos e (corner_of e r) = e_lo e r.
Proof. destruct e; reflexivity. Qed.
Lemma e_lt e r : rect_ok r -> e_lo e r < e_hi e r.
Proof. intros (H1 & H2). destruct e; cbn; lra. Qed.

(** the vertices of a polygon along one edge: the corner, then points further along *)
Definition side (e : Edge) (r : Rect R) (l : list Pt) : Prop :=
  exists xs, l = corner_of e r :: xs /\ StronglySorted Rlt (map (pos e) xs) /\
    Forall (fun p => e_lo e r < pos e p < e_hi e r /\ off e p = e_off e r) xs.

Section Real.
  Variables eps maxv : R.
  Local Hint Extern 0 (Scalar R) => exact (ROps eps maxv) : typeclass_instances.
  Local Notation half_u := (@half_u R (ROps eps maxv)).
  Local Notation half_v := (@half_v R (ROps eps maxv)).
  Local Notation lower := (@lower R (ROps eps maxv)).
  Local Notation upper := (@upper R (ROps eps maxv)).
  Local Notation tree := (@tree R (ROps eps maxv)).
  Local Notation node_ok := (@node_ok R (ROps eps maxv)).

  Lemma half_u_R r : half_u r = (rl r + rr r) / 2.
  Proof. unfold AdaptProofs.half_u, slit. rs. change (sofz 1) with 1. change (sofz 2) with 2. unfold sadd, smul, sdiv. cbn. lra. Qed.
  Lemma half_v_R r : half_v r = (rb r + rt r) / 2.
  Proof. unfold AdaptProofs.half_v, slit. rs. change (sofz 1) with 1. change (sofz 2) with 2. unfold sadd, smul, sdiv. cbn. lra. Qed.

  Lemma lower_ok d r : rect_ok r -> rect_ok (lower d r).
  Proof. intros (H1 & H2). destruct d; split; cbn [AdaptProofs.lower rl rr rb rt]; rewrite ?half_u_R, ?half_v_R; lra. Qed.
  Lemma upper_ok d r : rect_ok r -> rect_ok (upper d r).
  Proof. intros (H1 & H2). destruct d; split; cbn [AdaptProofs.upper rl rr rb rt]; rewrite ?half_u_R, ?half_v_R; lra. Qed.
  Lemma lower_within d r : rect_ok r -> within (lower d r) r.
  Proof. intros (H1 & H2). destruct d; unfold within; cbn [AdaptProofs.lower rl rr rb rt]; rewrite ?half_u_R, ?half_v_R; lra. Qed.
  Lemma upper_within d r : rect_ok r -> within (upper d r) r.
  Proof. intros (H1 & H2). destruct d; unfold within; cbn [AdaptProofs.upper rl rr rb rt]; rewrite ?half_u_R, ?half_v_R; lra. Qed.
  Lemma within_trans a b c : within a b -> within b c -> within a c.
  Proof. unfold within. lra. Qed.
  Lemma halves_split d r p : rect_ok r -> (inside r p <-> inside (lower d r) p \/ inside (upper d r) p).
  Proof.
    intros (H1 & H2). unfold inside. destruct d; cbn [AdaptProofs.lower AdaptProofs.upper rl rr rb rt]; rewrite ?half_u_R, ?half_v_R.
    - destruct (Rlt_le_dec (snd p) ((rb r + rt r) / 2)); lra.
    - destruct (Rlt_le_dec (fst p) ((rl r + rr r) / 2)); lra.
  Qed.
  Lemma halves_disjoint d r p : inside (lower d r) p -> inside (upper d r) p -> False.
  Proof. unfold inside. destruct d; cbn [AdaptProofs.lower AdaptProofs.upper rl rr rb rt]; lra. Qed.

  (** the leaf number [j] of the store, with its rectangle *)
  Definition leaf_rect (nodes : list (ANode R)) (j : nat) (r : Rect R) : Prop :=
    exists n, nth_error nodes j = Some n /\ an_children n = None /\ shaped (an_corners n) r.
  Lemma shaped_fun (c : Four (SPoint R)) r r' : shaped c r -> shaped c r' -> r = r'.
  Proof.
    intros (A0 & _ & A2 & _) (B0 & _ & B2 & _). rewrite A0 in B0. rewrite A2 in B2. injection B0 as X1 X2. injection B2 as X3 X4.
    destruct r, r'; cbn in *; congruence.
  Qed.
  Lemma leaf_rect_fun nodes j r r' : leaf_rect nodes j r -> leaf_rect nodes j r' -> r = r'.
  Proof. intros (n & E & _ & H) (n' & E' & _ & H'). rewrite E in E'. injection E' as <-. eapply shaped_fun; eauto. Qed.

  Lemma tree_leaves nodes h id lo hi r nb : tree nodes h id lo hi r nb -> rect_ok r -> forall j r',
    (j = id \/ lo <= j < hi)%nat -> leaf_rect nodes j r' -> rect_ok r' /\ within r' r.
  Proof.
    induction 1 as [h id lo r nb n E1 E2 E3|h id lo m hi r nb n d En Ec Ed Hn T0 IH0 T1 IH1]; intros Hr j r' Hj L.
    - assert (j = id) as -> by lia. assert (r' = r) as ->; [|split; [exact Hr|unfold within; lra]].
      eapply leaf_rect_fun; [exact L|]. exists n. destruct E3 as (S & _). auto.
    - pose proof (tree_le _ _ _ _ _ _ _ T0). pose proof (tree_le _ _ _ _ _ _ _ T1).
      assert (C : j = id \/ (j = lo \/ S (S lo) <= j < m)%nat \/ (j = S lo \/ m <= j < hi)%nat) by lia.
      destruct C as [->|[C|C]].
      + destruct L as (n' & E' & C' & _). rewrite En in E'. injection E' as <-. congruence.
      + destruct (IH0 (lower_ok d r Hr) j r' C L) as (X & Y). split; [exact X|]. eapply within_trans; [exact Y|now apply lower_within].
      + destruct (IH1 (upper_ok d r Hr) j r' C L) as (X & Y). split; [exact X|]. eapply within_trans; [exact Y|now apply upper_within].
  Qed.
  Lemma inside_within r r' p : within r' r -> inside r' p -> inside r p.
  Proof. unfold within, inside. lra. Qed.

  Lemma tree_cover nodes h id lo hi r nb : tree nodes h id lo hi r nb -> rect_ok r -> forall p, inside r p ->
    exists j r', (j = id \/ lo <= j < hi)%nat /\ leaf_rect nodes j r' /\ inside r' p.
  Proof.
    induction 1 as [h id lo r nb n E1 E2 E3|h id lo m hi r nb n d En Ec Ed Hn T0 IH0 T1 IH1]; intros Hr p Hp.
    - exists id, r. split; [auto|]. split; [|exact Hp]. exists n. destruct E3 as (S & _). auto.
    - pose proof (tree_le _ _ _ _ _ _ _ T0). pose proof (tree_le _ _ _ _ _ _ _ T1).
      apply (halves_split d r p Hr) in Hp. destruct Hp as [Hp|Hp].
      + destruct (IH0 (lower_ok d r Hr) p Hp) as (j & r' & Hj & X). exists j, r'. split; [lia|exact X].
      + destruct (IH1 (upper_ok d r Hr) p Hp) as (j & r' & Hj & X). exists j, r'. split; [lia|exact X].
  Qed.
  Lemma tree_disjoint nodes h id lo hi r nb : tree nodes h id lo hi r nb -> rect_ok r -> forall p j j' rj rj',
    (j = id \/ lo <= j < hi)%nat -> (j' = id \/ lo <= j' < hi)%nat ->
    leaf_rect nodes j rj -> leaf_rect nodes j' rj' -> inside rj p -> inside rj' p -> j = j'.
  Proof.
    induction 1 as [h id lo r nb n E1 E2 E3|h id lo m hi r nb n d En Ec Ed Hn T0 IH0 T1 IH1]; intros Hr p j j' rj rj' Hj Hj' L L' I I'; [lia|].
    pose proof (tree_le _ _ _ _ _ _ _ T0). pose proof (tree_le _ _ _ _ _ _ _ T1).
    assert (Nid : forall x rx, leaf_rect nodes x rx -> x <> id).
    { intros x rx (n' & E' & C' & _) ->. rewrite En in E'. injection E' as <-. congruence. }
    pose proof (Nid _ _ L). pose proof (Nid _ _ L').
    assert (C : ((j = lo \/ S (S lo) <= j < m) \/ (j = S lo \/ m <= j < hi))%nat) by lia.
    assert (C' : ((j' = lo \/ S (S lo) <= j' < m) \/ (j' = S lo \/ m <= j' < hi))%nat) by lia.
    destruct C as [C|C], C' as [C'|C'].
    - apply (IH0 (lower_ok d r Hr) p j j' rj rj'); auto.
    - exfalso. destruct (tree_leaves _ _ _ _ _ _ _ T0 (lower_ok d r Hr) j rj C L) as (_ & W).
      destruct (tree_leaves _ _ _ _ _ _ _ T1 (upper_ok d r Hr) j' rj' C' L') as (_ & W').
      apply (halves_disjoint d r p); [eapply inside_within; [exact W|exact I]|eapply inside_within; [exact W'|exact I']].
    - exfalso. destruct (tree_leaves _ _ _ _ _ _ _ T1 (upper_ok d r Hr) j rj C L) as (_ & W).
      destruct (tree_leaves _ _ _ _ _ _ _ T0 (lower_ok d r Hr) j' rj' C' L') as (_ & W').
      apply (halves_disjoint d r p); [eapply inside_within; [exact W'|exact I']|eapply inside_within; [exact W|exact I]].
    - apply (IH1 (upper_ok d r Hr) p j j' rj rj'); auto.
  Qed.

  (** ** The cells of an increasing grid *)
  Definition increasing (l : list R) : Prop := forall i, (S i < length l)%nat -> nth i l 0 < nth (S i) l 0.
  Lemma increasing_le l i j : increasing l -> (i <= j < length l)%nat -> nth i l 0 <= nth j l 0.
  Proof.
    intros H (Hij & Hj). induction Hij as [|j Hij IH]; [lra|]. specialize (IH ltac:(lia)). specialize (H j Hj). lra.
  Qed.
  Lemma increasing_lt l i j : increasing l -> (i < j < length l)%nat -> nth i l 0 < nth j l 0.
  Proof. intros H Hij. pose proof (H i ltac:(lia)). pose proof (increasing_le l (S i) j H ltac:(lia)). lra. Qed.
  Lemma increasing_find l x : increasing l -> forall n, (length l = S n)%nat -> nth 0 l 0 <= x < nth n l 0 ->
    exists i, (i < n)%nat /\ nth i l 0 <= x < nth (S i) l 0.
  Proof.
    intros H n L Hx.
    assert (G : forall k, (k <= n)%nat -> x < nth k l 0 -> exists i, (i < k)%nat /\ nth i l 0 <= x < nth (S i) l 0).
    { induction k as [|k IH]; intros Hk Hl; [lra|]. destruct (Rlt_le_dec x (nth k l 0)) as [C|C].
      - destruct (IH ltac:(lia) C) as (i & Hi & Y). exists i. split; [lia|exact Y].
      - exists k. split; [lia|lra]. }
    apply G; [lia|tauto].
  Qed.
  Lemma increasing_unique l x i j : increasing l -> (S i < length l)%nat -> (S j < length l)%nat ->
    nth i l 0 <= x < nth (S i) l 0 -> nth j l 0 <= x < nth (S j) l 0 -> i = j.
  Proof.
    intros H Li Lj Hi Hj. destruct (Nat.lt_trichotomy i j) as [C|[C|C]]; [|exact C|]; exfalso.
    - pose proof (increasing_le l (S i) j H ltac:(lia)). lra.
    - pose proof (increasing_le l (S j) i H ltac:(lia)). lra.
  Qed.

  Section Grid.
    Variables (us vs : list R) (du dv : nat).
    Hypotheses (Lu : length us = S du) (Lv : length vs = S dv) (Iu : increasing us) (Iv : increasing vs).
    Local Notation cell := (@cell_rect R (ROps eps maxv) us vs du dv).

    Definition whole : Rect R := MkRect (nth 0 us 0) (nth 0 vs 0) (nth du us 0) (nth dv vs 0).

    Lemma cell_bounds i : (i < dv * du)%nat -> (i / du < dv)%nat /\ (i mod du < du)%nat /\ (0 < du)%nat.
    Proof.
      intros Hi. assert (0 < du)%nat by (destruct du; lia). split; [apply Nat.div_lt_upper_bound; lia|]. split; [apply Nat.mod_upper_bound; lia|assumption].
    Qed.
    Lemma cell_ok i : (i < dv * du)%nat -> rect_ok (cell i).
    Proof.
      intros Hi. destruct (cell_bounds i Hi) as (H1 & H2 & H3). unfold cell_rect, rect_ok. cbn [rl rr rb rt].
      change (@szero R (ROps eps maxv)) with 0. split; [apply Iu; lia|].
      replace (dv - i / du)%nat with (S (dv - i / du - 1)) at 2 by lia. apply Iv. lia.
    Qed.
    Lemma cell_within i : (i < dv * du)%nat -> within (cell i) whole.
    Proof.
      intros Hi. destruct (cell_bounds i Hi) as (H1 & H2 & H3). unfold within, cell_rect, whole. cbn [rl rr rb rt].
      change (@szero R (ROps eps maxv)) with 0.
      split; [apply increasing_le; [exact Iu|lia]|]. split; [apply increasing_le; [exact Iu|lia]|].
      split; [apply increasing_le; [exact Iv|lia]|apply increasing_le; [exact Iv|lia]].
    Qed.
    Lemma cell_cover p : inside whole p -> exists i, (i < dv * du)%nat /\ inside (cell i) p.
    Proof.
      intros (Hx & Hy). cbn [whole rl rr rb rt] in Hx, Hy.
      destruct (increasing_find us (fst p) Iu du Lu Hx) as (a & Ha & Xa).
      destruct (increasing_find vs (snd p) Iv dv Lv Hy) as (c & Hc & Xc).
      exists ((dv - 1 - c) * du + a)%nat.
      assert (Q : (((dv - 1 - c) * du + a) / du = dv - 1 - c)%nat) by (rewrite Nat.div_add_l by lia; rewrite Nat.div_small by lia; lia).
      assert (M : (((dv - 1 - c) * du + a) mod du = a)%nat) by (rewrite Nat.add_comm, Nat.mod_add by lia; now apply Nat.mod_small).
      split.
      - assert ((dv - 1 - c) * du + du <= dv * du)%nat; [|lia]. replace ((dv - 1 - c) * du + du)%nat with ((dv - c) * du)%nat by (replace (dv - c)%nat with (S (dv - 1 - c)) by lia; cbn [Nat.mul]; lia).
        apply Nat.mul_le_mono_r. lia.
      - unfold inside, cell_rect. cbn [rl rr rb rt]. rewrite Q, M. change (@szero R (ROps eps maxv)) with 0.
        replace (dv - (dv - 1 - c) - 1)%nat with c by lia. replace (dv - (dv - 1 - c))%nat with (S c) by lia. auto.
    Qed.
    Lemma cell_unique p i j : (i < dv * du)%nat -> (j < dv * du)%nat -> inside (cell i) p -> inside (cell j) p -> i = j.
    Proof.
      intros Hi Hj (A1 & A2) (B1 & B2). destruct (cell_bounds i Hi) as (H1 & H2 & H3). destruct (cell_bounds j Hj) as (H4 & H5 & _).
      unfold cell_rect in *. cbn [rl rr rb rt] in *. change (@szero R (ROps eps maxv)) with 0 in *.
      assert (E1 : (i mod du = j mod du)%nat) by (apply (increasing_unique us (fst p)); auto; lia).
      assert (E2 : (dv - i / du - 1 = dv - j / du - 1)%nat).
      { replace (dv - i / du)%nat with (S (dv - i / du - 1)) in A2 at 2 by lia. replace (dv - j / du)%nat with (S (dv - j / du - 1)) in B2 at 2 by lia.
        apply (increasing_unique vs (snd p)); auto; lia. }
      rewrite (Nat.div_mod i du), (Nat.div_mod j du) by lia. replace (i / du)%nat with (j / du)%nat by lia. lia.
    Qed.

    (** every point of the rectangle lies in exactly one leaf *)
    Theorem forest_partition nodes h nb b : forest nodes h (dv * du) cell nb b ->
      (forall j r, leaf_rect nodes j r -> rect_ok r /\ within r whole) /\
      (forall p, inside whole p -> exists j r, leaf_rect nodes j r /\ inside r p) /\
      (forall p j j' r r', leaf_rect nodes j r -> leaf_rect nodes j' r' -> inside r p -> inside r' p -> j = j').
    Proof.
      intros F.
      assert (LOC : forall j r, leaf_rect nodes j r -> exists i, (i < dv * du)%nat /\ (j = i \/ b i <= j < b (S i))%nat).
      { intros j r (n & E & _). apply (forest_locate _ _ _ _ _ _ F). apply nth_error_Some. congruence. }
      assert (TR := F). destruct TR as (_ & _ & TR).
      assert (WI : forall i j r, (i < dv * du)%nat -> (j = i \/ b i <= j < b (S i))%nat -> leaf_rect nodes j r -> rect_ok r /\ within r (cell i)).
      { intros i j r Hi Hj L. destruct (TR i Hi) as (_ & Ti). apply (tree_leaves _ _ _ _ _ _ _ Ti (cell_ok i Hi) j r Hj L). }
      split; [|split].
      - intros j r L. destruct (LOC j r L) as (i & Hi & Hj). destruct (WI i j r Hi Hj L) as (X & Y). split; [exact X|].
        eapply within_trans; [exact Y|now apply cell_within].
      - intros p Hp. destruct (cell_cover p Hp) as (i & Hi & Ip). destruct (TR i Hi) as (_ & Ti).
        destruct (tree_cover _ _ _ _ _ _ _ Ti (cell_ok i Hi) p Ip) as (j & r & _ & X). eauto.
      - intros p j j' r r' L L' I I'. destruct (LOC j r L) as (i & Hi & Hj). destruct (LOC j' r' L') as (i' & Hi' & Hj').
        assert (i' = i) as ->.
        { apply (cell_unique p); auto; [eapply inside_within; [apply (WI i' j' r'); auto|exact I']|eapply inside_within; [apply (WI i j r); auto|exact I]]. }
        destruct (TR i Hi) as (_ & Ti). exact (tree_disjoint _ _ _ _ _ _ _ Ti (cell_ok i Hi) p j j' r r' Hj Hj' L L' I I').
    Qed.
  End Grid.
End Real.
