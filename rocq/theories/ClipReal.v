(** * Clipping over the reals: the crossings are taken in the order of their parameters *)
From Coq Require Import Permutation ZArith Reals Lra Sorting.Sorted.
From Verif Require Import Base BaseFacts Scalar KnotSpec KnotFacts ClipModel ClipSpec ClipProofs
  ClipBuild ClipMain.
Local Open Scope R_scope.

Section Real.
  Variables eps maxv : R.
  Local Hint Extern 0 (Scalar R) => exact (ROps eps maxv) : typeclass_instances.

  Definition key_le (x y : nat * R) : Prop := snd x <= snd y.

  Lemma insert_key_sorted x l : StronglySorted key_le l -> StronglySorted key_le (insert_key x l).
  Proof.
    induction 1 as [|y l HS IH HF]; cbn [insert_key]; [repeat constructor|].
    rs. destruct (Rltb_spec (snd x) (snd y)) as [Hl|Hl].
    - constructor; [now constructor|]. constructor; [unfold key_le; lra|].
      rewrite Forall_forall in *. intros z Hz. pose proof (HF z Hz). unfold key_le in *. lra.
    - constructor; [exact IH|]. rewrite Forall_forall in *. intros z Hz.
      apply (Permutation_in _ (insert_key_perm x l)) in Hz. destruct Hz as [<-|Hz].
      + unfold key_le. lra.
      + now apply HF.
  Qed.
  Lemma sort_fold_sorted (l acc : list (nat * R)) : StronglySorted key_le acc ->
    StronglySorted key_le (fold_left (fun acc x => insert_key x acc) l acc).
  Proof.
    revert acc. induction l as [|x l IH]; intros acc H; [exact H|]. cbn. apply IH.
    now apply insert_key_sorted.
  Qed.
  Lemma sorted_nth (l : list (nat * R)) i j d : StronglySorted key_le l -> (i < j)%nat ->
    (j < length l)%nat -> key_le (nth i l d) (nth j l d).
  Proof.
    intros H. revert i j. induction H as [|x l HS IH HF]; intros i j Hij Hj; [cbn in Hj; lia|].
    destruct j as [|j]; [lia|]. destruct i as [|i]; cbn [nth].
    - rewrite Forall_forall in HF. apply HF. apply nth_In. cbn in Hj. lia.
    - apply IH; cbn in Hj; lia.
  Qed.

  (** consecutive crossings have ascending parameters *)
  Lemma order_of_sorted (f : R * R -> R) (sel : list (R * R)) d i j : (i < j)%nat ->
    (j < length sel)%nat ->
    f (nth (nth i (order_of f sel) 0%nat) sel d) <= f (nth (nth j (order_of f sel) 0%nat) sel d).
  Proof.
    intros Hij Hj. unfold order_of.
    set (s := fold_left (fun acc x => insert_key x acc) (keyed f sel) []).
    assert (HP : Permutation s (keyed f sel)).
    { unfold s. rewrite sort_fold_perm, app_nil_r. reflexivity. }
    assert (HS : StronglySorted key_le s).
    { apply sort_fold_sorted. constructor. }
    assert (HL : length s = length sel).
    { rewrite (Permutation_length HP). unfold keyed. rewrite combine_length, seq_length, map_length.
      lia. }
    assert (G : forall k, (k < length sel)%nat ->
      f (nth (nth k (map fst s) 0%nat) sel d) = snd (nth k s (0%nat, 0))).
    { intros k Hk. rewrite (nth_map_lt fst s k (0%nat, 0)) by lia.
      assert (In (nth k s (0%nat, 0)) (keyed f sel)) as Hin.
      { apply (Permutation_in _ HP). apply nth_In. lia. }
      destruct (nth k s (0%nat, 0)) as [c t]. apply (keyed_in _ _ d) in Hin. cbn. symmetry. tauto. }
    rewrite !G by lia. apply (sorted_nth s i j (0%nat, 0)); auto. lia.
  Qed.

  Context {C CC : Type}.
  Variable trim : bool -> R -> R -> Res (list C).
  Variable mk_compound : list C -> Res CC.

  Theorem clip_walk_ordered subject clip_ op ca cb (l : list ((R * R) * Degeneracy R)) sel :
    clip_select l = Ok sel -> sel <> [] ->
    exists oa ob loops,
      let par := fun s k => crossing_param sel (0, 0) s (crossing oa ob s k) in
      Permutation oa (seq 0 (length sel)) /\ Permutation ob (seq 0 (length sel)) /\
      (forall s i j, (i < j < length sel)%nat -> par s i <= par s j) /\
      Forall (closed_loop (length sel) oa ob) loops /\
      Permutation (map (fun s => (sgside s, sgpos s)) (concat loops))
        (kept_segments (length sel) op true ca ++ kept_segments (length sel) op false cb) /\
      clip trim mk_compound subject clip_ op (Ok ca) (Ok cb) l
        = assemble (length sel) par trim mk_compound loops [].
  Proof.
    intros Hs Hne.
    assert (Hc : comparable sel).
    { intros x _. rs. destruct (Reqb_spec (fst x) (fst x)), (Reqb_spec (snd x) (snd x));
        try congruence; now split. }
    destruct (clip_walk_at trim mk_compound subject clip_ op ca cb l sel (0, 0) Hs Hne Hc)
      as (loops & H1 & H2 & H3).
    exists (order_of fst sel), (order_of snd sel), loops. cbv zeta.
    split; [exact H1|]. split; [exact H2|]. split; [|exact H3].
    intros s i j [Hij Hj]. unfold crossing_param, crossing. destruct s.
    - exact (order_of_sorted fst sel (0, 0) i j Hij Hj).
    - exact (order_of_sorted snd sel (0, 0) i j Hij Hj).
  Qed.

  (** ** An odd number of transversal crossings: the most nearly parallel degenerate crossing is added *)
  Lemma deg_fold {X} (t : list (X * Degeneracy R)) : (forall y, In y t -> exists b, snd y = DAngle b) -> forall m a, snd m = DAngle a ->
    exists a', snd (fold_left (fun m y => if deg_gt (snd m) (snd y) then m else y) t m) = DAngle a' /\ a <= a' /\
      forall y b, In y t -> snd y = DAngle b -> b <= a'.
  Proof.
    induction t as [|y t IH]; intros HA m a Hm; cbn [fold_left].
    - exists a. split; [exact Hm|]. split; [lra|]. intros y b [].
    - destruct (HA y (or_introl eq_refl)) as (b & Hb). assert (HA' : forall y, In y t -> exists b, snd y = DAngle b) by (intros z Hz; apply HA; now right).
      rewrite Hm, Hb. cbn [deg_gt]. rs. destruct (Rltb_spec b a) as [Hl|Hl].
      + destruct (IH HA' m a Hm) as (a' & E & L & M). exists a'. split; [exact E|]. split; [exact L|].
        intros z e [<-|Hz] He; [rewrite Hb in He; injection He as <-; lra|now apply (M z)].
      + destruct (IH HA' y b Hb) as (a' & E & L & M). exists a'. split; [exact E|]. split; [lra|].
        intros z e [<-|Hz] He; [rewrite Hb in He; injection He as <-; lra|now apply (M z)].
  Qed.
  Theorem clip_select_extra {X} (l : list (X * Degeneracy R)) : Nat.odd (length (filter is_regular l)) = true ->
    (exists x, In x l /\ is_regular x = false) -> (forall x d, In (x, d) l -> d = DNone \/ exists a, d = DAngle a) ->
    exists m a, clip_select l = Ok (map fst (filter is_regular l) ++ [m]) /\ In (m, DAngle a) l /\
      forall x b, In (x, DAngle b) l -> b <= a.
  Proof.
    intros HO (x0 & I0 & R0) HD. assert (HE : Nat.even (length (map fst (filter is_regular l))) = false) by (rewrite map_length, <- Nat.negb_odd, HO; reflexivity).
    unfold clip_select. cbv zeta. rewrite HE.
    set (deg := filter (fun x => negb (is_regular x)) l).
    assert (DA : forall y, In y deg -> exists b, snd y = DAngle b).
    { intros [y d] Hy. apply filter_In in Hy. destruct Hy as (Hy & Hr). destruct (HD _ _ Hy) as [-> |(b & ->)]; [discriminate|exists b; reflexivity]. }
    assert (I1 : In x0 deg) by (apply filter_In; rewrite R0; auto).
    destruct (deg_max deg) as [[m d]|] eqn:Em; [|destruct deg; [destruct I1|discriminate]].
    assert (Hm : In (m, d) l) by (apply deg_max_in in Em; apply filter_In in Em; apply Em).
    destruct deg as [|y t] eqn:Ed; [destruct I1|]. cbn [deg_max] in Em. injection Em as Em.
    destruct (DA y (or_introl eq_refl)) as (b & Hb).
    destruct (deg_fold t (fun z Hz => DA z (or_intror Hz)) y b Hb) as (a & E & L & M). rewrite Em in E. cbn [snd] in E. subst d.
    exists m, a. split.
    - rewrite app_length, map_length. cbn [length]. rewrite Nat.add_1_r, Nat.even_succ, HO. reflexivity.
    - split; [exact Hm|]. intros x e Hx. assert (In (x, DAngle e) deg) as Hx' by (apply filter_In; auto). unfold deg in Ed. fold deg in Ed. rewrite Ed in Hx'.
      destruct Hx' as [->|Hx']; [cbn [snd] in Hb; injection Hb as <-; exact L|]. now apply (M (x, DAngle e)).
  Qed.
End Real.
