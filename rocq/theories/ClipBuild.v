(** * The clip algorithm builds correct links and therefore correct loops *)
From Coq Require Import Permutation ZArith.
From Verif Require Import Base BaseFacts Scalar ClipModel ClipSpec ClipProofs.

Section Any.
  Context {T : Type} {SO : Scalar T}.

  Lemma insert_key_perm (x : nat * T) l : Permutation (insert_key x l) (x :: l).
  Proof.
    induction l as [|y l IH]; cbn; [reflexivity|].
    destruct (sltb (snd x) (snd y)); [reflexivity|].
    rewrite IH. apply perm_swap.
  Qed.
  Lemma sort_fold_perm (l acc : list (nat * T)) :
    Permutation (fold_left (fun acc x => insert_key x acc) l acc) (l ++ acc).
  Proof.
    revert acc. induction l as [|x l IH]; intros acc; cbn; [reflexivity|].
    rewrite IH, insert_key_perm. symmetry. apply Permutation_middle.
  Qed.
  Lemma sort_keys_ok (l : list (nat * T)) : (forall x, In x l -> seqb (snd x) (snd x) = true) ->
    sort_keys l = Ok (fold_left (fun acc x => insert_key x acc) l []).
  Proof.
    intros H. unfold sort_keys.
    replace (existsb _ l) with false; [now rewrite andb_false_r|].
    symmetry. apply not_true_is_false. intros HE. apply existsb_exists in HE.
    destruct HE as (x & Hx & HE). rewrite H in HE by assumption. discriminate.
  Qed.

  Lemma sort_keys_inv (l r : list (nat * T)) : sort_keys l = Ok r ->
    r = fold_left (fun acc x => insert_key x acc) l [].
  Proof. unfold sort_keys. destruct (_ && _); intros H; inversion H; reflexivity. Qed.

  (** ids and parameters along one side *)
  Definition keyed (f : T * T -> T) (xs : list (T * T)) : list (nat * T) :=
    combine (seq 0 (length xs)) (map f xs).

  Lemma keyed_map (f : T * T -> T) xs :
    map (fun x => (fst x, f (snd x))) (combine (seq 0 (length xs)) xs) = keyed f xs.
  Proof.
    unfold keyed. generalize 0. induction xs as [|x xs IH]; intros k; cbn; [reflexivity|].
    now rewrite IH.
  Qed.
  Lemma keyed_in f xs d i t : In (i, t) (keyed f xs) -> i < length xs /\ t = f (nth i xs d).
  Proof.
    unfold keyed.
    assert (G : forall k, In (i, t) (combine (seq k (length xs)) (map f xs)) ->
      k <= i < k + length xs /\ t = f (nth (i - k) xs d)).
    { induction xs as [|x xs IH]; intros k H; [destruct H|].
      destruct H as [H|H].
      - inversion H; subst. rewrite Nat.sub_diag. cbn. split; [lia|reflexivity].
      - apply IH in H. destruct H as [H1 H2]. cbn [length]. split; [lia|].
        rewrite H2. replace (i - k) with (S (i - S k)) by lia. reflexivity. }
    intros H. apply G in H. rewrite Nat.sub_0_r in H. split; [lia|tauto].
  Qed.
  Lemma keyed_fst f xs : map fst (keyed f xs) = seq 0 (length xs).
  Proof.
    unfold keyed. generalize 0. induction xs as [|x xs IH]; intros k; cbn; [reflexivity|].
    now rewrite IH.
  Qed.

  Lemma set_flags_nth flag (l : list (Node T)) k d : k < length l ->
    nth k (set_flags flag l) d = set_status (if xorb flag (Nat.odd k) then Enter else Exit) (nth k l d).
  Proof.
    revert flag k. induction l as [|v l IH]; intros flag k H; [cbn in H; lia|].
    destruct k as [|k]; cbn [set_flags nth].
    - cbn. now rewrite xorb_false_r.
    - rewrite IH by (cbn in H; lia). rewrite Nat.odd_succ, <- Nat.negb_odd.
      do 2 f_equal. now destruct flag, (Nat.odd k).
  Qed.
  Lemma set_flags_length flag (l : list (Node T)) : length (set_flags flag l) = length l.
  Proof. revert flag. induction l; intros; cbn; auto. Qed.

  Lemma link_side_length s off noff n (own other : list (nat * T)) : length own = n ->
    length (link_side s off noff n own other) = n.
  Proof.
    intros H. unfold link_side. rewrite map_length, combine_length, seq_length. lia.
  Qed.
  Lemma link_side_nth s off noff n (own other : list (nat * T)) k d i t : length own = n -> k < n ->
    nth k own (i, t) = (i, t) ->
    nth k (link_side s off noff n own other) d =
      MkNode s t (Some (off + (k + n - 1) mod n)) (Some (off + (k + 1) mod n))
        (option_map (fun j => noff + j) (find_index i other)) StNone.
  Proof.
    intros HL Hk Hn. unfold link_side.
    rewrite nth_map_lt with (d := (0, (i, t))) by (rewrite combine_length, seq_length; lia).
    rewrite combine_nth by (now rewrite seq_length). rewrite seq_nth by assumption.
    rewrite Hn. reflexivity.
  Qed.

  Lemma mod_next n k : k < n -> (k + 1) mod n = next_pos n k.
  Proof.
    intros H. unfold next_pos. destruct (Nat.eqb_spec (S k) n) as [E|E].
    - replace (k + 1) with n by lia. apply Nat.mod_same. lia.
    - rewrite Nat.mod_small by lia. lia.
  Qed.
  Lemma mod_prev n k : k < n -> (k + n - 1) mod n = prev_pos n k.
  Proof.
    intros H. destruct k; cbn [prev_pos].
    - apply Nat.mod_small. lia.
    - replace (S k + n - 1) with (k + 1 * n) by lia. rewrite Nat.mod_add by lia.
      apply Nat.mod_small. lia.
  Qed.

  (** positions of a crossing *)
  Lemma find_index_spec i (l : list (nat * T)) d : In i (map fst l) ->
    exists j, find_index i l = Some j /\ j < length l /\ fst (nth j l d) = i.
  Proof.
    intros H. unfold find_index. destruct (position _ l) as [j|] eqn:Ep.
    - exists j. pose proof (position_some _ _ _ d Ep) as (H1 & H2 & _).
      split; [reflexivity|]. split; [assumption|]. now apply Nat.eqb_eq.
    - exfalso. apply in_map_iff in H. destruct H as (x & <- & Hx).
      pose proof (position_none _ _ Ep x Hx) as K. cbv beta in K. rewrite Nat.eqb_refl in K. discriminate.
  Qed.

  Definition side_par (xs : list (T * T)) (o : list nat) (s : bool) (d : T * T) (k : nat) : T :=
    let x := nth (nth k o 0) xs d in if s then fst x else snd x.

  Section Nodes.
    Variable xs : list (T * T).
    Let n := length xs.
    Variable a b : list (nat * T).
    Hypothesis Ha : Permutation a (keyed fst xs).
    Hypothesis Hb : Permutation b (keyed snd xs).
    Hypothesis n_pos : 0 < n.
    Hypothesis n_even : Nat.even n = true.
    Variable d : T * T.

    Let sd (s : bool) : list (nat * T) := if s then a else b.
    Lemma sd_perm s : Permutation (map fst (sd s)) (seq 0 n).
    Proof.
      destruct s; cbn; [rewrite Ha|rewrite Hb]; now rewrite keyed_fst.
    Qed.
    Lemma sd_length s : length (sd s) = n.
    Proof. rewrite <- (map_length fst), (sd_perm s). apply seq_length. Qed.
    Lemma sd_nodup s : NoDup (map fst (sd s)).
    Proof. apply (Permutation_NoDup (Permutation_sym (sd_perm s))). apply seq_NoDup. Qed.
    Lemma sd_val s k x : k < n -> 
      fst (nth k (sd s) x) < n /\
      snd (nth k (sd s) x) = (if s then fst else snd) (nth (fst (nth k (sd s) x)) xs d).
    Proof.
      intros Hk. assert (In (nth k (sd s) x) (keyed (if s then fst else snd) xs)) as H.
      { destruct s; [apply (Permutation_in _ Ha)|apply (Permutation_in _ Hb)]; apply nth_In;
          [exact (eq_ind_r (lt k) Hk (sd_length true))|exact (eq_ind_r (lt k) Hk (sd_length false))]. }
      destruct (nth k (sd s) x) as [i t]. apply (keyed_in _ _ d) in H. cbn. tauto.
    Qed.

    Definition bnbp (s : bool) (k : nat) : nat :=
      match find_index (fst (nth k (sd s) (0, fst d))) (sd (negb s)) with Some j => j | None => 0 end.

    Lemma bnbp_find s k : k < n ->
      find_index (fst (nth k (sd s) (0, fst d))) (sd (negb s)) = Some (bnbp s k) /\
      bnbp s k < n /\
      fst (nth (bnbp s k) (sd (negb s)) (0, fst d)) = fst (nth k (sd s) (0, fst d)).
    Proof.
      intros Hk. pose proof (sd_val s k (0, fst d) Hk) as [Hi _].
      destruct (find_index_spec (fst (nth k (sd s) (0, fst d))) (sd (negb s)) (0, fst d)) as (j & E1 & E2 & E3).
      - apply (Permutation_in _ (Permutation_sym (sd_perm (negb s)))). apply in_seq. lia.
      - unfold bnbp. rewrite E1. rewrite sd_length in E2. auto.
    Qed.

    Lemma bnbp_inv s k : k < n -> bnbp (negb s) (bnbp s k) = k.
    Proof.
      intros Hk. destruct (bnbp_find s k Hk) as (_ & H1 & H2).
      destruct (bnbp_find (negb s) (bnbp s k) H1) as (_ & H3 & H4).
      rewrite negb_involutive in H4. rewrite H2 in H4.
      assert (G : forall j, j < n -> fst (nth j (sd s) (0, fst d)) = nth j (map fst (sd s)) 0).
      { intros j Hj. symmetry. apply nth_map_lt. now rewrite sd_length. }
      rewrite !G in H4 by assumption.
      apply (proj1 (NoDup_nth _ 0) (sd_nodup s)) in H4; rewrite ?map_length, ?sd_length; assumption.
    Qed.

    Lemma kept_alt op s c k : k < n ->
      segment_kept op s (segment_inside c (next_pos n k)) = negb (segment_kept op s (segment_inside c k)).
    Proof.
      intros Hk. assert (segment_inside c (next_pos n k) = negb (segment_inside c k)) as ->.
      { unfold segment_inside, next_pos. destruct (Nat.eqb_spec (S k) n) as [Ek|Ek].
        - rewrite Ek. rewrite <- (Nat.negb_even n), n_even. cbn. now destruct c.
        - rewrite (Nat.odd_succ (S k)), <- Nat.negb_odd.
          now destruct c, (Nat.odd (S k)). }
      destruct op, s; cbn; now rewrite ?negb_involutive.
    Qed.

    (** one side of the built list *)
    Definition side_list (op : BooleanOperation) (s c : bool) : list (Node T) :=
      let l := set_flags (negb c)
        (link_side s (if s then 0 else n) (if s then n else 0) n (sd s) (sd (negb s))) in
      match op, s with
      | Union, _ | Difference, true => invert_side l
      | _, _ => l
      end.
    Definition bpar (s : bool) (k : nat) : T := snd (nth k (sd s) (0, fst d)).
    Definition bent (op : BooleanOperation) (ca cb s : bool) (k : nat) : bool :=
      segment_kept op s (segment_inside (if s then ca else cb) k).

    Lemma side_list_length op s c : length (side_list op s c) = n.
    Proof.
      unfold side_list. destruct op, s; cbn; unfold invert_side; rewrite ?map_length,
        ?set_flags_length; apply link_side_length; [apply (sd_length true)|apply (sd_length false)|
        apply (sd_length true)|apply (sd_length false)|apply (sd_length true)|apply (sd_length false)].
    Qed.
    Lemma side_list_nth op ca cb s k v : k < n ->
      nth k (side_list op s (if s then ca else cb)) v
        = node_of n bpar bnbp (bent op ca cb) (s, k).
    Proof.
      intros Hk.
      assert (HL := link_side_length s (if s then 0 else n) (if s then n else 0) n (sd s) (sd (negb s))
                     (sd_length s)).
      destruct (bnbp_find s k Hk) as (HF & HB1 & HB2).
      assert (Hlink : nth k (link_side s (if s then 0 else n) (if s then n else 0) n (sd s) (sd (negb s))) v
        = MkNode s (bpar s k) (Some (idx n (s, prev_pos n k))) (Some (idx n (s, next_pos n k)))
            (Some (idx n (negb s, bnbp s k))) StNone).
      { destruct (nth k (sd s) (0, fst d)) as [i t] eqn:En.
        rewrite link_side_nth with (i := i) (t := t).
        - rewrite mod_next, mod_prev by assumption. cbn [fst] in HF. rewrite HF.
          unfold bpar. rewrite En. unfold idx; cbn [fst snd option_map].
          destruct s; reflexivity.
        - apply sd_length.
        - assumption.
        - rewrite <- En. apply nth_indep. now rewrite sd_length. }
      assert (Hflag : forall c, nth k (set_flags (negb c) (link_side s (if s then 0 else n)
          (if s then n else 0) n (sd s) (sd (negb s)))) v
        = MkNode s (bpar s k) (Some (idx n (s, prev_pos n k))) (Some (idx n (s, next_pos n k)))
            (Some (idx n (negb s, bnbp s k))) (if segment_inside c k then Enter else Exit)).
      { intros c. rewrite set_flags_nth by lia. rewrite Hlink. unfold set_status. cbn.
        f_equal. unfold segment_inside. rewrite Nat.odd_succ, <- Nat.negb_odd.
        now destruct c, (Nat.odd k). }
      unfold side_list. unfold invert_side.
      assert (Hinv : forall (l : list (Node T)) w, k < length l -> nth k l v = w ->
        nth k (map (fun v => set_status (st_invert (nstatus v)) v) l) v
          = set_status (st_invert (nstatus w)) w).
      { intros l w Hl <-. now rewrite nth_map_lt with (d := v). }
      destruct op; [|rewrite Hflag; unfold node_of, bent; now destruct s|].
      - erewrite Hinv; [|rewrite set_flags_length; lia|apply Hflag].
        unfold node_of, bent, set_status; cbn. f_equal.
        destruct s; now destruct (segment_inside _ _).
      - destruct s.
        + erewrite Hinv; [|rewrite set_flags_length; lia|apply Hflag].
          unfold node_of, bent, set_status; cbn. f_equal. now destruct (segment_inside _ _).
        + rewrite Hflag. unfold node_of, bent. reflexivity.
    Qed.
  End Nodes.

  (** ** The walk of a clip with at least one crossing *)
  Context {C CC : Type}.
  Variable trim : bool -> T -> T -> Res (list C).
  Variable mk_compound : list C -> Res CC.

  Definition comparable (xs : list (T * T)) : Prop :=
    forall x, In x xs -> seqb (fst x) (fst x) = true /\ seqb (snd x) (snd x) = true.

  Lemma clip_loops_aux xs op ca cb d : xs <> [] -> Nat.even (length xs) = true ->
    comparable xs ->
    let a := fold_left (fun acc x => insert_key x acc) (keyed fst xs) [] in
    let b := fold_left (fun acc x => insert_key x acc) (keyed snd xs) [] in
    exists nodes loops,
      build_nodes xs op ca cb = Ok nodes /\
      Forall (closed_loop (length xs) (map fst a) (map fst b)) loops /\
      Permutation (map (fun s => (sgside s, sgpos s)) (concat loops))
        (kept_segments (length xs) op true ca ++ kept_segments (length xs) op false cb) /\
      forall regions, walks trim mk_compound (S (length nodes)) nodes
          (repeat false (length nodes)) regions
        = assemble (length xs)
            (fun s k => side_par xs (if s then map fst a else map fst b) s d k)
            trim mk_compound loops regions.
  Proof.
    intros Hne Hev Hcmp a b.
    assert (Hpos : 0 < length xs) by (destruct xs; [congruence|cbn; lia]).
    assert (Hpa : Permutation a (keyed fst xs)).
    { unfold a. rewrite sort_fold_perm, app_nil_r. reflexivity. }
    assert (Hpb : Permutation b (keyed snd xs)).
    { unfold b. rewrite sort_fold_perm, app_nil_r. reflexivity. }
    set (nodes := side_list xs a b op true ca ++ side_list xs a b op false cb).
    assert (HLa := side_list_length xs a b Hpa Hpb op true ca).
    assert (HLb := side_list_length xs a b Hpa Hpb op false cb).
    assert (Hlen : length nodes = length xs + length xs).
    { unfold nodes. rewrite app_length, HLa, HLb. reflexivity. }
    assert (Hget : forall p, snd p < length xs ->
      get nodes (idx (length xs) p)
        = Ok (node_of (length xs) (bpar a b d) (bnbp a b d) (bent op ca cb) p)).
    { intros [s k] Hk. cbn in Hk. set (v := node_of (length xs) (bpar a b d) (bnbp a b d)
        (bent op ca cb) (s, k)).
      rewrite get_ok with (d := v) by (rewrite Hlen; unfold idx; destruct s; cbn; lia).
      f_equal. unfold v, nodes, idx; cbn [fst snd]. destruct s.
      - rewrite app_nth1 by (rewrite HLa; lia).
        exact (side_list_nth xs a b Hpa Hpb Hpos d op ca cb true k _ Hk).
      - rewrite app_nth2 by (rewrite HLa; lia).
        rewrite HLa. replace (length xs + k - length xs) with k by lia.
        exact (side_list_nth xs a b Hpa Hpb Hpos d op ca cb false k _ Hk). }
    assert (Hcross : forall s k, k < length xs ->
       crossing (map fst a) (map fst b) s k = fst (nth k (if s then a else b) (0, fst d))).
    { intros s k Hk. unfold crossing.
      destruct s; apply nth_map_lt.
      - now rewrite (sd_length xs a b Hpa Hpb true).
      - now rewrite (sd_length xs a b Hpa Hpb false). }
    destruct (walks_loops (length xs) Hpos (bpar a b d) (bnbp a b d) (bent op ca cb))
      with (nodes := nodes) (trim := trim) (mk_compound := mk_compound)
           (oa := map fst a) (ob := map fst b) as (loops & H1 & H2 & H3).
    - intros s k Hk. apply (bnbp_find xs a b Hpa Hpb Hpos d s k Hk).
    - intros s k Hk. apply (bnbp_inv xs a b Hpa Hpb Hpos d s k Hk).
    - intros s k Hk. unfold bent. apply (kept_alt xs Hev); assumption.
    - assumption.
    - assumption.
    - intros s k Hk. pose proof (bnbp_find xs a b Hpa Hpb Hpos d s k Hk) as (_ & HB1 & HB2).
      rewrite !Hcross by assumption. exact HB2.
    - exists nodes, loops. split; [|split; [|split]].
      + unfold build_nodes. rewrite !keyed_map.
        rewrite !sort_keys_ok.
        * cbn [bind]. fold a b. unfold nodes, side_list. destruct op; reflexivity.
        * intros [i t] Hx. apply (keyed_in _ _ d) in Hx. destruct Hx as [Hi ->]. cbn.
          apply Hcmp. now apply nth_In.
        * intros [i t] Hx. apply (keyed_in _ _ d) in Hx. destruct Hx as [Hi ->]. cbn.
          apply Hcmp. now apply nth_In.
      + exact H1.
      + exact H2.
      + intros regions. rewrite H3.
        assert (Hpar : forall s k, k < length xs -> bpar a b d s k =
          side_par xs (if s then map fst a else map fst b) s d k).
        { intros s k Hk. unfold bpar, side_par.
          pose proof (sd_val xs a b Hpa Hpb d s k (0, fst d) Hk) as [_ HV]. rewrite HV.
          destruct s; cbn.
          - rewrite (nth_map_lt fst a k (0, fst d) 0); [reflexivity|].
            now rewrite (sd_length xs a b Hpa Hpb true).
          - rewrite (nth_map_lt fst b k (0, fst d) 0); [reflexivity|].
            now rewrite (sd_length xs a b Hpa Hpb false). }
        assert (Hin : forall s, In s (concat loops) -> sgpos s < length xs).
        { intros s Hs. apply (in_map (fun s => (sgside s, sgpos s))) in Hs.
          apply (Permutation_in _ H2) in Hs. apply in_app_or in Hs.
          destruct Hs as [Hs|Hs]; apply in_map_iff in Hs; destruct Hs as (k & Ek & Hk);
            inversion Ek; apply filter_In in Hk; destruct Hk as [Hk _]; apply in_seq in Hk; lia. }
        clear H1 H2 H3. revert regions. induction loops as [|l loops IH]; intros regions;
          [reflexivity|].
        cbn [assemble].
        assert (HLs : loop_spans (length xs) (bpar a b d) trim l = loop_spans (length xs)
            (fun s k => side_par xs (if s then map fst a else map fst b) s d k) trim l).
        { assert (Hl : forall s, In s l -> sgpos s < length xs).
          { intros s Hs. apply Hin. cbn. apply in_or_app. now left. }
          clear IH Hin. induction l as [|s l IHl]; [reflexivity|]. cbn [loop_spans].
          assert (Hs : sgpos s < length xs) by (apply Hl; now left).
          assert (Hs' : next_pos (length xs) (sgpos s) < length xs).
          { unfold next_pos. destruct (Nat.eqb_spec (S (sgpos s)) (length xs)); lia. }
          rewrite (Hpar _ _ Hs), (Hpar _ _ Hs').
          rewrite IHl by (intros x Hx; apply Hl; now right). reflexivity. }
        rewrite HLs. 
        assert (IH' := IH ltac:(intros s Hs; apply Hin; cbn; apply in_or_app; now right)).
        match goal with |- bind ?x _ = _ => destruct x as [sp| | |] end;
          cbn [bind]; try reflexivity.
        destruct sp; [apply IH'|].
        match goal with |- bind ?x _ = _ => destruct x end; cbn [bind]; try reflexivity.
        apply IH'.
  Qed.
End Any.
