(** * Proofs about the boundary walk of the boolean operations *)
From Coq Require Import Permutation.
From Verif Require Import Base BaseFacts Scalar ClipModel ClipSpec.

Lemma nodup_snoc {A} (l : list A) x : NoDup l -> ~ In x l -> NoDup (l ++ [x]).
Proof.
  intros HN Hx. apply NoDup_Add with (a := x) (l := l); [|now split].
  rewrite <- (app_nil_r l) at 1. apply Add_app.
Qed.

(** ** The walk over abstract links *)
Section Walk.
  Context {T : Type} {SO : Scalar T}.
  Variable n : nat.
  Hypothesis n_pos : 0 < n.
  (** parameter, position of the neighbour on the other side, status at a position *)
  Variable par : bool -> nat -> T.
  Variable nbp : bool -> nat -> nat.
  Variable ent : bool -> nat -> bool.
  Hypothesis nbp_lt : forall s k, k < n -> nbp s k < n.
  Hypothesis nbp_inv : forall s k, k < n -> nbp (negb s) (nbp s k) = k.
  Hypothesis ent_alt : forall s k, k < n -> ent s (next_pos n k) = negb (ent s k).

  Definition prev_pos (k : nat) : nat := match k with 0 => n - 1 | S j => j end.
  Definition idx (p : bool * nat) : nat := (if fst p then 0 else n) + snd p.
  Definition node_of (p : bool * nat) : Node T :=
    let '(s, k) := p in
    MkNode s (par s k) (Some (idx (s, prev_pos k))) (Some (idx (s, next_pos n k)))
      (Some (idx (negb s, nbp s k))) (if ent s k then Enter else Exit).

  Variable nodes : list (Node T).
  Hypothesis nodes_len : length nodes = n + n.
  Hypothesis nodes_get : forall p, snd p < n -> get nodes (idx p) = Ok (node_of p).

  Definition okp (p : bool * nat) : Prop := snd p < n.
  Definition M (p : bool * nat) : bool * nat :=
    (fst p, if ent (fst p) (snd p) then next_pos n (snd p) else prev_pos (snd p)).
  Definition N (p : bool * nat) : bool * nat := (negb (fst p), nbp (fst p) (snd p)).

  Lemma next_lt k : k < n -> next_pos n k < n.
  Proof. unfold next_pos. destruct (Nat.eqb_spec (S k) n); lia. Qed.
  Lemma prev_lt k : k < n -> prev_pos k < n.
  Proof. destruct k; cbn; lia. Qed.
  Lemma next_prev k : k < n -> next_pos n (prev_pos k) = k.
  Proof.
    destruct k; cbn; intros H; unfold next_pos.
    - destruct (Nat.eqb_spec (S (n - 1)) n); lia.
    - destruct (Nat.eqb_spec (S k) n); lia.
  Qed.
  Lemma prev_next k : k < n -> prev_pos (next_pos n k) = k.
  Proof.
    intros H. unfold next_pos. destruct (Nat.eqb_spec (S k) n); cbn; lia.
  Qed.
  Lemma ent_prev s k : k < n -> ent s (prev_pos k) = negb (ent s k).
  Proof.
    intros H. rewrite <- (next_prev k H) at 2. rewrite ent_alt by now apply prev_lt.
    now rewrite negb_involutive.
  Qed.

  Lemma M_ok p : okp p -> okp (M p).
  Proof.
    unfold okp, M; cbn. intros H. destruct (ent _ _); [now apply next_lt|now apply prev_lt].
  Qed.
  Lemma M_ent p : okp p -> ent (fst (M p)) (snd (M p)) = negb (ent (fst p) (snd p)).
  Proof.
    unfold okp, M; cbn. intros H. destruct (ent (fst p) (snd p)) eqn:E.
    - rewrite ent_alt by assumption. now rewrite E.
    - rewrite ent_prev by assumption. now rewrite E.
  Qed.
  Lemma M_inv p : okp p -> M (M p) = p.
  Proof.
    intros H. pose proof (M_ent p H) as HE. unfold M at 1. rewrite HE.
    destruct p as [s k]. unfold okp in H; cbn in H. unfold M; cbn.
    destruct (ent s k) eqn:E; cbn; f_equal; [now apply prev_next|now apply next_prev].
  Qed.
  Lemma M_neq p : okp p -> M p <> p.
  Proof.
    intros H E. pose proof (M_ent p H) as HE. rewrite E in HE.
    destruct (ent (fst p) (snd p)); discriminate.
  Qed.
  Lemma N_ok p : okp p -> okp (N p).
  Proof. unfold okp, N; cbn. apply nbp_lt. Qed.
  Lemma N_inv p : okp p -> N (N p) = p.
  Proof.
    destruct p as [s k]. unfold okp, N; cbn. intros H. rewrite negb_involutive.
    now rewrite nbp_inv.
  Qed.
  Lemma N_neq p : N p <> p.
  Proof. destruct p as [s k]; unfold N; cbn. intros E. destruct s; discriminate. Qed.

  Lemma idx_lt p : okp p -> idx p < n + n.
  Proof. unfold okp, idx. destruct (fst p); lia. Qed.
  Lemma idx_inj p q : okp p -> okp q -> idx p = idx q -> p = q.
  Proof.
    destruct p as [s k], q as [s' k']; unfold okp, idx; cbn.
    destruct s, s'; intros; f_equal; lia.
  Qed.
  Lemma idx_surj i : i < n + n -> exists p, okp p /\ idx p = i.
  Proof.
    intros H. destruct (Nat.ltb_spec i n).
    - exists (true, i). unfold okp, idx; cbn. lia.
    - exists (false, i - n). unfold okp, idx; cbn. lia.
  Qed.

  (** visited flags and the set they describe *)
  Definition marks (vis : list bool) (V : bool * nat -> Prop) : Prop :=
    length vis = n + n /\ forall p, okp p -> (nth (idx p) vis false = true <-> V p).

  Lemma marks_set vis V p : marks vis V -> okp p ->
    marks (upd vis (idx p) true) (fun q => q = p \/ V q).
  Proof.
    intros [HL HV] Hp. split; [now rewrite upd_length|]. intros q Hq.
    rewrite nth_upd. destruct (Nat.eqb_spec (idx q) (idx p)) as [E|E]; cbn [andb].
    - apply idx_inj in E; auto. subst q.
      assert (idx p < length vis) as H by (rewrite HL; now apply idx_lt).
      rewrite (proj2 (Nat.ltb_lt _ _) H). tauto.
    - rewrite HV by assumption. split; [tauto|]. intros [->|H]; [congruence|assumption].
  Qed.
  Lemma marks_ext vis V V' : marks vis V -> (forall p, okp p -> (V p <-> V' p)) -> marks vis V'.
  Proof.
    intros [HL HV] H. split; [assumption|]. intros p Hp. rewrite HV by assumption. now apply H.
  Qed.
  Lemma marks_get vis V p : marks vis V -> okp p -> get vis (idx p) = Ok (nth (idx p) vis false).
  Proof. intros [HL _] Hp. apply get_ok. rewrite HL. now apply idx_lt. Qed.

  (** the visited nodes of a walk: [cs] are the nodes at which it enters a segment *)
  Definition both (cs : list (bool * nat)) : list (bool * nat) :=
    flat_map (fun c => [c; M c]) cs.
  Definition linked (cs : list (bool * nat)) : Prop :=
    forall i, S i < length cs -> nth (S i) cs (true, 0) = N (M (nth i cs (true, 0))).

  Record chain (V0 : bool * nat -> Prop) (cs : list (bool * nat)) : Prop := {
    ch_ok : forall c, In c cs -> okp c;
    ch_nodup : NoDup cs;
    ch_M : forall c, In c cs -> ~ In (M c) cs;
    ch_V : forall c, In c cs -> ~ V0 c;
    ch_link : linked cs }.

  Definition closed_set (V : bool * nat -> Prop) : Prop :=
    forall p, okp p -> V p -> V (M p) /\ V (N p).

  Lemma closed_M V p : closed_set V -> okp p -> V (M p) -> V p.
  Proof. intros HC Hp H. rewrite <- (M_inv p Hp). apply HC; [now apply M_ok|assumption]. Qed.
  Lemma closed_N V p : closed_set V -> okp p -> V (N p) -> V p.
  Proof. intros HC Hp H. rewrite <- (N_inv p Hp). apply HC; [now apply N_ok|assumption]. Qed.

  Lemma in_both p cs : In p (both cs) <-> In p cs \/ exists c, In c cs /\ p = M c.
  Proof.
    unfold both. rewrite in_flat_map. split.
    - intros (c & Hc & [H|[H|[]]]); [left; now subst|right; exists c; auto].
    - intros [H|(c & Hc & ->)]; [exists p; cbn; auto|exists c; cbn; auto].
  Qed.

  Lemma chain_length V0 cs : chain V0 cs -> length cs <= n + n.
  Proof.
    intros HC. rewrite <- (map_length idx cs).
    rewrite <- (seq_length (n + n) 0). apply NoDup_incl_length.
    - pose proof (ch_nodup _ _ HC) as HN. pose proof (ch_ok _ _ HC) as HO.
      clear HC. induction cs as [|c cs IH]; cbn; constructor.
      + rewrite in_map_iff. intros (q & E & Hq). inversion HN; subst.
        apply idx_inj in E; [|apply HO; now right|apply HO; now left]. now subst.
      + apply IH; [now inversion HN|]. intros q Hq. apply HO. now right.
    - intros i Hi. rewrite in_map_iff in Hi. destruct Hi as (c & <- & Hc).
      apply in_seq. pose proof (idx_lt c (ch_ok _ _ HC c Hc)). lia.
  Qed.

  Lemma last_nth {A} (l : list A) d : last l d = nth (length l - 1) l d.
  Proof.
    induction l as [|x l IH]; [reflexivity|]. destruct l as [|y l]; [reflexivity|].
    change (last (x :: y :: l) d) with (last (y :: l) d). rewrite IH.
    cbn [length]. now replace (S (S (length l)) - 1) with (S (S (length l) - 1)) by lia.
  Qed.

  (** extending a chain *)
  Lemma chain_snoc V0 cs cur : closed_set V0 -> chain V0 cs ->
    okp cur -> ~ V0 cur -> ~ In cur (both cs) ->
    (cs <> [] -> cur = N (M (last cs (true, 0)))) ->
    chain V0 (cs ++ [cur]).
  Proof.
    intros HV HC Hok HnV Hnin Hlast. constructor.
    - intros c Hc. apply in_app_or in Hc. destruct Hc as [Hc|[<-|[]]]; auto.
      now apply (ch_ok _ _ HC).
    - apply nodup_snoc; [apply (ch_nodup _ _ HC)|].
      intros Hc. apply Hnin. apply in_both. now left.
    - intros c Hc Hm. apply in_app_or in Hc. apply in_app_or in Hm.
      destruct Hc as [Hc|[<-|[]]], Hm as [Hm|[Hm|[]]].
      + now apply (ch_M _ _ HC c).
      + apply Hnin. apply in_both. right. now exists c.
      + apply Hnin. apply in_both. right. exists (M cur). split; [assumption|].
        symmetry. now apply M_inv.
      + symmetry in Hm. now apply (M_neq cur).
    - intros c Hc. apply in_app_or in Hc. destruct Hc as [Hc|[<-|[]]]; auto.
      now apply (ch_V _ _ HC).
    - intros i Hi. rewrite app_length in Hi. cbn in Hi.
      destruct (Nat.eq_dec (S i) (length cs)) as [E|E].
      + rewrite app_nth2 by lia. rewrite E, Nat.sub_diag. cbn [nth].
        rewrite app_nth1 by lia. rewrite Hlast.
        * rewrite last_nth. now replace (length cs - 1) with i by lia.
        * intros ->. cbn in E. lia.
      + rewrite !app_nth1 by lia. apply (ch_link _ _ HC). lia.
  Qed.

  (** when the walk runs into a visited node, that node is its start *)
  Lemma chain_closes V0 cs : closed_set V0 -> chain V0 cs -> cs <> [] ->
    let cur := N (M (last cs (true, 0))) in
    V0 cur \/ In cur (both cs) -> cur = hd (true, 0) cs.
  Proof.
    intros HV HC Hne cur Hvis. unfold cur in *. clear cur.
    assert (0 < length cs) as Hlen by (destruct cs; [congruence|cbn; lia]).
    rewrite last_nth in *. set (m := length cs - 1) in *.
    assert (Hin : forall i, i < length cs -> In (nth i cs (true, 0)) cs) by
      (intros; now apply nth_In).
    set (c := fun i => nth i cs (true, 0)). fold (c m) in Hvis |- *.
    assert (Hm : In (c m) cs) by (apply Hin; unfold m; lia).
    assert (Hokm := ch_ok _ _ HC _ Hm).
    destruct Hvis as [H|H].
    - exfalso. apply closed_N in H; [|assumption|now apply M_ok].
      apply closed_M in H; [|assumption|assumption]. now apply (ch_V _ _ HC (c m)).
    - apply in_both in H. destruct H as [H|(x & Hx & H)].
      + destruct (In_nth _ _ (true, 0) H) as (i & Hi & Ei). fold (c i) in Ei.
        destruct i as [|i].
        * rewrite <- Ei. unfold c. now destruct cs.
        * exfalso. pose proof (ch_link _ _ HC i Hi) as HL. fold (c (S i)) (c i) in HL.
          assert (Hci : In (c i) cs) by (apply Hin; lia).
          assert (Hoki := ch_ok _ _ HC _ Hci).
          rewrite Ei in HL. apply (f_equal N) in HL.
          rewrite !N_inv in HL by now apply M_ok. apply (f_equal M) in HL.
          rewrite !M_inv in HL by assumption. unfold c in HL.
          apply (proj1 (NoDup_nth cs (true, 0)) (ch_nodup _ _ HC)) in HL; lia.
      + exfalso. destruct (In_nth _ _ (true, 0) Hx) as (i & Hi & Ei). fold (c i) in Ei. subst x.
        assert (Hoki := ch_ok _ _ HC _ Hx).
        destruct (Nat.eq_dec i m) as [->|Hne2]; [now apply (N_neq (M (c m)))|].
        assert (Hsi : S i < length cs) by lia.
        pose proof (ch_link _ _ HC i Hsi) as HL. fold (c (S i)) (c i) in HL.
        rewrite <- H in HL. rewrite N_inv in HL by now apply M_ok.
        apply (ch_M _ _ HC (c m) Hm). rewrite <- HL. now apply Hin.
  Qed.

  Lemma get_node p : okp p -> get nodes (idx p) = Ok (node_of p).
  Proof. apply nodes_get. Qed.

  (** what one walk returns *)
  Definition loop_of (V0 : bool * nat -> Prop) (s : bool * nat) (cs : list (bool * nat)) : Prop :=
    chain V0 cs /\ cs <> [] /\ hd (true, 0) cs = s /\ N (M (last cs (true, 0))) = s.

  Lemma walk_rule V0 s : closed_set V0 ->
    forall fuel vis cur cs,
      chain V0 cs -> marks vis (fun q => V0 q \/ In q (both cs)) -> okp cur ->
      (cs = [] -> cur = s /\ ~ V0 s) ->
      (cs <> [] -> hd (true, 0) cs = s /\ cur = N (M (last cs (true, 0)))) ->
      n + n < fuel + length cs ->
      exists vis' cs', walk fuel nodes vis (idx cur) (map idx (both cs))
          = Ok (vis', map idx (both cs')) /\ loop_of V0 s cs' /\
        marks vis' (fun q => V0 q \/ In q (both cs')).
  Proof.
    intros HV. induction fuel as [|fuel IH]; intros vis cur cs HC HM Hok Hnil Hcons Hf.
    { pose proof (chain_length _ _ HC). lia. }
    cbn [walk]. rewrite (marks_get _ _ cur HM Hok). cbn [bind].
    destruct (nth (idx cur) vis false) eqn:Ev.
    - apply (proj2 HM) in Ev; [|assumption].
      assert (Hne : cs <> []).
      { intros ->. destruct (Hnil eq_refl) as [-> H]. cbn in Ev. tauto. }
      destruct (Hcons Hne) as [Hh Hc].
      exists vis, cs. split; [reflexivity|]. split; [|assumption].
      split; [assumption|]. split; [assumption|]. split; [assumption|].
      rewrite <- Hh. rewrite Hc in Ev. exact (chain_closes V0 cs HV HC Hne Ev).
    - assert (Hnv : ~ V0 cur /\ ~ In cur (both cs)).
      { split; intros H; assert (nth (idx cur) vis false = true) by
          (apply (proj2 HM); [assumption|tauto]); congruence. }
      destruct Hnv as [HnV HnI].
      rewrite set_ok by (rewrite (proj1 HM); now apply idx_lt). cbn [bind].
      rewrite get_node by assumption. cbn [bind].
      assert (Hlink : (match (if ent (fst cur) (snd cur) then Enter else Exit) with
                       | Enter => nnext (node_of cur) | _ => nprev (node_of cur) end)
                      = Some (idx (M cur))).
      { destruct cur as [c k]. unfold M; cbn. destruct (ent c k); reflexivity. }
      assert (Hst : nstatus (node_of cur) = if ent (fst cur) (snd cur) then Enter else Exit)
        by (destruct cur; reflexivity).
      rewrite Hst.
      assert (HC' : chain V0 (cs ++ [cur])).
      { apply chain_snoc; auto. intros Hne. now apply Hcons. }
      assert (Hb : both (cs ++ [cur]) = both cs ++ [cur; M cur]).
      { unfold both. now rewrite flat_map_app. }
      pose proof (M_ok cur Hok) as HokM.
      pose proof (marks_set _ _ cur HM Hok) as HM1.
      pose proof (marks_set _ _ (M cur) HM1 HokM) as HM2.
      assert (Hgoal : exists vis' cs',
        walk fuel nodes (upd (upd vis (idx cur) true) (idx (M cur)) true) (idx (N (M cur)))
             (map idx (both (cs ++ [cur]))) = Ok (vis', map idx (both cs')) /\
        loop_of V0 s cs' /\ marks vis' (fun q => V0 q \/ In q (both cs'))).
      { apply IH.
        - assumption.
        - eapply marks_ext; [exact HM2|]. intros p Hp. rewrite Hb, in_app_iff. cbn.
          intuition congruence.
        - now apply N_ok.
        - intros E. destruct cs; discriminate.
        - intros _. split.
          + destruct cs as [|c0 cs]; [cbn; now apply Hnil|].
            cbn. apply Hcons. discriminate.
          + now rewrite last_last.
        - rewrite app_length; cbn. lia. }
      destruct Hgoal as (vis' & cs' & Hw & Hrest).
      exists vis', cs'. split; [|exact Hrest]. rewrite <- Hw.
      rewrite Hb, map_app. cbn [map].
      destruct (ent (fst cur) (snd cur)); rewrite Hlink;
        rewrite set_ok by (rewrite upd_length, (proj1 HM); now apply idx_lt); cbn [bind];
        rewrite get_node by assumption; cbn [bind];
        (replace (nneighbor (node_of (M cur))) with (Some (idx (N (M cur))))
          by (destruct (M cur); reflexivity));
        rewrite <- app_assoc; reflexivity.
  Qed.

  Lemma walk_spec V0 vis s : closed_set V0 -> marks vis V0 -> okp s -> ~ V0 s ->
    exists vis' cs, walk (S (length nodes)) nodes vis (idx s) [] = Ok (vis', map idx (both cs)) /\
      loop_of V0 s cs /\ marks vis' (fun q => V0 q \/ In q (both cs)).
  Proof.
    intros HV HM Hs HnV.
    destruct (walk_rule V0 s HV (S (length nodes)) vis s []) as (vis' & cs & H).
    - constructor; cbn; try tauto; [constructor|]. intros i Hi. cbn in Hi. lia.
    - eapply marks_ext; [exact HM|]. cbn. tauto.
    - assumption.
    - auto.
    - congruence.
    - cbn. lia.
    - exists vis', cs. exact H.
  Qed.

  (** a finished loop leaves the visited set closed *)
  Lemma loop_closed V0 s cs : closed_set V0 -> loop_of V0 s cs ->
    closed_set (fun q => V0 q \/ In q (both cs)).
  Proof.
    intros HV (HC & Hne & Hh & Hl) p Hp [H|H].
    - destruct (HV p Hp H). tauto.
    - split; right.
      + apply in_both in H. apply in_both. destruct H as [H|(c & Hc & ->)].
        * right. now exists p.
        * left. rewrite M_inv; [assumption|]. now apply (ch_ok _ _ HC).
      + assert (Hin : forall i, i < length cs -> In (nth i cs (true, 0)) cs) by
          (intros; now apply nth_In).
        apply in_both in H. apply in_both. destruct H as [H|(c & Hc & ->)].
        * right. destruct (In_nth _ _ (true, 0) H) as (i & Hi & <-). destruct i as [|i].
          -- exists (last cs (true, 0)). split.
             ++ rewrite last_nth. apply Hin. lia.
             ++ replace (nth 0 cs (true, 0)) with s by (rewrite <- Hh; now destruct cs).
                rewrite <- Hl. apply N_inv. apply M_ok. apply (ch_ok _ _ HC).
                rewrite last_nth. apply Hin. lia.
          -- exists (nth i cs (true, 0)). split; [apply Hin; lia|].
             rewrite (ch_link _ _ HC i Hi). apply N_inv. apply M_ok, (ch_ok _ _ HC), Hin. lia.
        * left. destruct (In_nth _ _ (true, 0) Hc) as (i & Hi & <-).
          destruct (Nat.eq_dec (S i) (length cs)) as [E|E].
          -- replace (nth i cs (true, 0)) with (last cs (true, 0)).
             ++ rewrite Hl, <- Hh. destruct cs; [congruence|]. now left.
             ++ rewrite last_nth. f_equal. lia.
          -- rewrite <- (ch_link _ _ HC i) by lia. apply Hin. lia.
  Qed.

  (** ** [non_visited] *)
  Lemma non_visited_loop_rule V vis :
    marks vis V -> V (true, 0) -> forall fuel k, k < n -> n <= fuel + k ->
    (forall j, j <= k -> V (true, j)) ->
    exists r, non_visited_loop fuel nodes vis 0 k = Ok (Some (idx (true, r))) /\ r < n /\
      ((r = 0 /\ forall j, j < n -> V (true, j)) \/ ~ V (true, r)).
  Proof.
    intros HM H0. induction fuel as [|fuel IH]; intros k Hk Hf HV; [lia|].
    cbn [non_visited_loop].
    change k with (idx (true, k)) at 1. rewrite get_node by exact Hk. cbn [bind].
    cbn [nnext node_of].
    assert (Hok : okp (true, next_pos n k)) by now apply next_lt.
    rewrite (marks_get _ _ _ HM Hok). cbn [bind].
    assert (Hidx : idx (true, next_pos n k) = next_pos n k) by reflexivity.
    rewrite Hidx. unfold next_pos in *. destruct (Nat.eqb_spec (S k) n) as [E|E].
    - cbn. exists 0. split; [reflexivity|]. split; [assumption|]. left. split; [reflexivity|].
      intros j Hj. apply HV. lia.
    - cbn [Nat.eqb orb]. destruct (nth (S k) vis false) eqn:Ev; cbn [negb].
      + apply IH; [lia|lia|]. intros j Hj. destruct (Nat.eq_dec j (S k)) as [->|]; [|apply HV; lia].
        apply (proj2 HM); assumption.
      + exists (S k). split; [reflexivity|]. split; [lia|]. right. intros H.
        apply (proj2 HM) in H; [|assumption]. rewrite Hidx in H. congruence.
  Qed.

  Lemma non_visited_spec V vis : marks vis V -> 
    (non_visited nodes vis 0 = Ok None /\ forall j, j < n -> V (true, j)) \/
    (exists r, r < n /\ non_visited nodes vis 0 = Ok (Some (idx (true, r))) /\ ~ V (true, r)).
  Proof.
    intros HM. unfold non_visited. assert (Hok : okp (true, 0)) by exact n_pos.
    pose proof (marks_get _ _ _ HM Hok) as HG. change (idx (true, 0)) with 0 in HG.
    rewrite HG. cbn [bind]. clear HG.
    destruct (nth 0 vis false) eqn:Ev; cbn [negb].
    - apply (proj2 HM (true, 0)) in Ev; [|assumption].
      destruct (non_visited_loop_rule V vis HM Ev (length nodes) 0 n_pos) as (r & Hr & Hrn & Hcase).
      + lia.
      + intros j Hj. now replace j with 0 by lia.
      + rewrite Hr. cbn [bind]. assert (Hokr : okp (true, r)) by exact Hrn.
        rewrite (marks_get _ _ _ HM Hokr). cbn [bind].
        destruct (nth (idx (true, r)) vis false) eqn:Er.
        * left. split; [reflexivity|]. destruct Hcase as [[_ H]|H]; [exact H|].
          exfalso. apply H. now apply (proj2 HM).
        * right. exists r. split; [assumption|]. split; [reflexivity|]. intros H.
          apply (proj2 HM) in H; [congruence|assumption].
    - right. exists 0. split; [assumption|]. split; [reflexivity|]. intros H.
      apply (proj2 HM) in H; [|assumption]. change (idx (true, 0)) with 0 in H. congruence.
  Qed.

  (** ** All walks *)
  Definition seg_of (p : bool * nat) : Seg :=
    if ent (fst p) (snd p) then MkSeg (fst p) (snd p) true
    else MkSeg (fst p) (prev_pos (snd p)) false.

  Lemma nodup_app {A} (l l' : list A) : NoDup l -> NoDup l' -> (forall x, In x l -> ~ In x l') ->
    NoDup (l ++ l').
  Proof.
    induction l as [|a l IH]; cbn; intros H H' HD; [assumption|].
    inversion H; subst. constructor.
    - rewrite in_app_iff. intros [Hx|Hx]; [contradiction|]. now apply (HD a); [left|].
    - apply IH; auto.
  Qed.

  Lemma both_nodup V0 cs : chain V0 cs -> NoDup (both cs).
  Proof.
    intros HC. pose proof (ch_nodup _ _ HC) as H1. pose proof (ch_M _ _ HC) as H2.
    pose proof (ch_ok _ _ HC) as H3. clear HC. induction cs as [|c cs IH]; [constructor|].
    inversion H1; subst.
    assert (Hrest : NoDup (both cs)).
    { apply IH; [assumption| |].
      - intros x Hx Hm. apply (H2 x); now right.
      - intros x Hx. apply H3. now right. }
    assert (Hc : okp c) by (apply H3; now left).
    change (both (c :: cs)) with (c :: M c :: both cs).
    assert (K1 : ~ In c (both cs)).
    { rewrite in_both. intros [Hx|(x & Hx & E)]; [contradiction|].
      apply (H2 x); [now right|]. left. exact E. }
    assert (K2 : ~ In (M c) (both cs)).
    { rewrite in_both. intros [Hx|(x & Hx & E)].
      - apply (H2 c); [now left|now right].
      - apply (f_equal M) in E. rewrite !M_inv in E; [|apply H3; now right|assumption].
        now subst. }
    constructor; [|constructor; assumption].
    intros [E|H]; [now apply (M_neq c)|contradiction].
  Qed.

  Lemma both_ok V0 cs p : chain V0 cs -> In p (both cs) -> okp p.
  Proof.
    intros HC H. apply in_both in H. destruct H as [H|(c & H & ->)].
    - now apply (ch_ok _ _ HC).
    - apply M_ok. now apply (ch_ok _ _ HC).
  Qed.

  Context {C CC : Type}.
  Variable trim : bool -> T -> T -> Res (list C).
  Variable mk_compound : list C -> Res CC.

  Lemma walk_spans_spec cs : (forall c, In c cs -> okp c) ->
    walk_spans trim nodes (map idx (both cs)) = loop_spans n par trim (map seg_of cs).
  Proof.
    induction cs as [|c cs IH]; intros H; [reflexivity|].
    change (both (c :: cs)) with (c :: M c :: both cs). cbn [map walk_spans loop_spans].
    assert (Hc : okp c) by (apply H; now left).
    rewrite (get_node c Hc). cbn [bind]. rewrite (get_node (M c)) by now apply M_ok. cbn [bind].
    rewrite IH by (intros x Hx; apply H; now right).
    pose proof (M_ent c Hc) as HE.
    destruct c as [s k]. unfold okp in Hc; cbn in Hc.
    assert (HEs : nstatus (node_of (M (s, k))) = if ent s k then Exit else Enter).
    { destruct (M (s, k)) as [s' k']. cbn in HE |- *. rewrite HE. now destruct (ent s k). }
    rewrite HEs. unfold seg_of. cbn [fst snd node_of nstatus nsubject nparam].
    unfold M; cbn [fst snd node_of nstatus nsubject nparam].
    destruct (ent s k); cbn [bind fst snd sgside sgpos].
    - rewrite Bool.eqb_reflx. reflexivity.
    - rewrite Bool.eqb_reflx. cbn [ensure bind]. rewrite next_prev by assumption. reflexivity.
  Qed.

  Lemma walks_rule : forall fuel D vis,
    marks vis (fun p => In p D) -> NoDup D -> (forall p, In p D -> okp p) ->
    closed_set (fun p => In p D) -> n + n < fuel + length D ->
    exists css, NoDup (D ++ concat (map both css)) /\
      (forall p, okp p <-> In p (D ++ concat (map both css))) /\
      (forall cs, In cs css -> exists V0 s, loop_of V0 s cs) /\
      forall regions, walks trim mk_compound fuel nodes vis regions
        = assemble n par trim mk_compound (map (map seg_of) css) regions.
  Proof.
    induction fuel as [|fuel IH]; intros D vis HM HND HDok HDc Hf.
    { assert (length D <= n + n); [|lia].
      rewrite <- (map_length idx D), <- (seq_length (n + n) 0). apply NoDup_incl_length.
      - clear HM HDc Hf. induction D as [|c D IHD]; cbn; constructor.
        + rewrite in_map_iff. intros (q & E & Hq). inversion HND; subst.
          apply idx_inj in E; [|apply HDok; now right|apply HDok; now left]. now subst.
        + apply IHD; [now inversion HND|]. intros q Hq. apply HDok. now right.
      - intros i Hi. rewrite in_map_iff in Hi. destruct Hi as (c & <- & Hc).
        apply in_seq. pose proof (idx_lt c (HDok c Hc)). lia. }
    destruct (non_visited_spec _ _ HM) as [[Hnv Hall]|(r & Hr & Hnv & Hnr)].
    - exists []. cbn. rewrite app_nil_r. split; [assumption|]. split.
      + intros p. split; [|now apply HDok]. intros Hp. destruct p as [[|] k].
        * now apply Hall.
        * rewrite <- (N_inv (false, k) Hp). apply HDc; [now apply N_ok|].
          apply Hall. apply (N_ok _ Hp).
      + split; [tauto|]. intros regions. rewrite Hnv. reflexivity.
    - assert (Hok : okp (true, r)) by exact Hr.
      destruct (walk_spec _ vis (true, r) HDc HM Hok Hnr) as (vis' & cs & Hw & Hloop & HM').
      pose proof Hloop as (HC & Hne & Hhd & Hlast).
      destruct (IH (D ++ both cs) vis') as (css & H1 & H2 & H3 & H4).
      + eapply marks_ext; [exact HM'|]. intros p _. rewrite in_app_iff. tauto.
      + apply nodup_app; [assumption|eapply both_nodup; eauto|].
        intros x Hx Hb. apply in_both in Hb. destruct Hb as [Hb|(c & Hc & ->)].
        * now apply (ch_V _ _ HC x).
        * apply (ch_V _ _ HC c Hc). apply (closed_M _ c HDc); [|assumption].
          now apply (ch_ok _ _ HC).
      + intros p Hp. apply in_app_or in Hp. destruct Hp; [now apply HDok|].
        eapply both_ok; eauto.
      + pose proof (loop_closed _ _ _ HDc Hloop) as HCl. intros p Hp Hin.
        rewrite !in_app_iff in *. now apply HCl.
      + rewrite app_length. assert (0 < length (both cs)); [|lia].
        destruct cs; [congruence|cbn; lia].
      + exists (cs :: css). cbn [map concat]. rewrite app_assoc.
        split; [assumption|]. split; [assumption|]. split.
        * intros cs' [<-|Hin]; [|now apply H3]. exists (fun p => In p D), (true, r). exact Hloop.
        * intros regions. cbn [walks]. rewrite Hnv. cbn [bind]. rewrite Hw. cbn [bind].
          rewrite walk_spans_spec by apply (ch_ok _ _ HC).
          cbn [assemble map]. destruct (loop_spans n par trim (map seg_of cs)) as [sp| | |];
            cbn [bind]; try reflexivity.
          destruct sp; [apply H4|].
          destruct (mk_compound (c :: sp)); cbn [bind]; try reflexivity. apply H4.
  Qed.

  (** ** From walks to loops of segments *)
  Variables oa ob : list nat.
  Hypothesis crossing_nbp : forall s k, k < n ->
    crossing oa ob (negb s) (nbp s k) = crossing oa ob s k.

  Lemma seg_of_from p : okp p -> seg_from n oa ob (seg_of p) = crossing oa ob (fst p) (snd p).
  Proof.
    intros H. unfold seg_of, seg_from. destruct (ent (fst p) (snd p)); cbn; [reflexivity|].
    now rewrite next_prev.
  Qed.
  Lemma seg_of_to p : okp p -> seg_to n oa ob (seg_of p) = crossing oa ob (fst (M p)) (snd (M p)).
  Proof.
    intros H. unfold seg_of, seg_to, M. destruct (ent (fst p) (snd p)); cbn; reflexivity.
  Qed.
  Lemma seg_of_side p : sgside (seg_of p) = fst p.
  Proof. unfold seg_of. now destruct (ent _ _). Qed.

  Lemma seg_of_joined p q : okp p -> q = N (M p) -> seg_joined n oa ob (seg_of p) (seg_of q).
  Proof.
    intros Hp ->. pose proof (M_ok p Hp) as HM. split.
    - rewrite seg_of_to, seg_of_from by (try apply N_ok; assumption).
      unfold N; cbn [fst snd]. now rewrite crossing_nbp.
    - rewrite !seg_of_side. reflexivity.
  Qed.

  Lemma linked_tail c cs : linked (c :: cs) -> linked cs.
  Proof. intros H i Hi. apply (H (S i)). cbn. lia. Qed.

  Lemma linked_path c cs : (forall x, In x (c :: cs) -> okp x) -> linked (c :: cs) ->
    seg_path n oa ob (seg_of c) (map seg_of cs).
  Proof.
    revert c. induction cs as [|d cs IH]; intros c Hok HL; [exact I|].
    cbn [map seg_path]. split.
    - apply seg_of_joined; [apply Hok; now left|]. apply (HL 0). cbn. lia.
    - apply IH; [|now apply linked_tail in HL]. intros x Hx. apply Hok. now right.
  Qed.

  Lemma last_map {A B} (f : A -> B) l d : last (map f l) (f d) = f (last l d).
  Proof.
    induction l as [|x l IH]; [reflexivity|]. destruct l; [reflexivity|].
    cbn [map] in *. change (last (f x :: f a :: map f l) (f d)) with (last (f a :: map f l) (f d)).
    now rewrite IH.
  Qed.
  Lemma last_cons {A} (c : A) l d : last (c :: l) d = last l c.
  Proof.
    revert c d. induction l as [|x l IH]; intros c d; [reflexivity|].
    change (last (c :: x :: l) d) with (last (x :: l) d). now rewrite !IH.
  Qed.

  Lemma loop_of_closed V0 s cs : loop_of V0 s cs -> closed_loop n oa ob (map seg_of cs).
  Proof.
    intros (HC & Hne & Hh & Hl). destruct cs as [|c cs]; [congruence|]. cbn [map closed_loop].
    cbn in Hh. subst s. split.
    - apply linked_path; [apply (ch_ok _ _ HC)|apply (ch_link _ _ HC)].
    - rewrite last_map. rewrite last_cons in Hl. apply seg_of_joined; [|now symmetry].
      apply (ch_ok _ _ HC). rewrite <- (last_cons c cs (true, 0)).
      rewrite last_nth. apply nth_In. cbn. lia.
  Qed.

  Definition E (p : bool * nat) : bool * nat := (sgside (seg_of p), sgpos (seg_of p)).
  Lemma E_cases p : E p = if ent (fst p) (snd p) then p else M p.
  Proof.
    unfold E, seg_of, M. destruct (ent (fst p) (snd p)); cbn; [now destruct p|reflexivity].
  Qed.
  Lemma E_both p l : In p l -> In (E p) (both l).
  Proof.
    intros H. apply in_both. rewrite E_cases. destruct (ent _ _); [now left|right; eauto].
  Qed.
  Lemma E_nodup l : NoDup (both l) -> NoDup (map E l).
  Proof.
    induction l as [|c l IH]; intros H; [constructor|].
    change (both (c :: l)) with (c :: M c :: both l) in H. inversion H as [|? ? H1 H2]; subst.
    inversion H2 as [|? ? H3 H4]; subst. cbn. constructor; [|now apply IH].
    rewrite in_map_iff. intros (x & Ex & Hx). apply E_both in Hx. rewrite Ex in Hx.
    rewrite E_cases in Hx. destruct (ent _ _); [|contradiction]. apply H1. now right.
  Qed.
  Lemma E_in l p : (forall c, In c l -> okp c) -> (In p (map E l) <->
    ent (fst p) (snd p) = true /\ In p (both l)).
  Proof.
    intros Hok. rewrite in_map_iff. split.
    - intros (x & <- & Hx). split; [|now apply E_both].
      pose proof (M_ent x (Hok x Hx)) as HM. rewrite E_cases.
      destruct (ent (fst x) (snd x)) eqn:Ee; [assumption|]. rewrite HM. reflexivity.
    - intros [He Hb]. apply in_both in Hb. destruct Hb as [H|(c & Hc & ->)].
      + exists p. split; [|assumption]. rewrite E_cases. now rewrite He.
      + exists c. split; [|assumption]. rewrite E_cases.
        rewrite M_ent in He by now apply Hok. destruct (ent (fst c) (snd c)); [discriminate|].
        reflexivity.
  Qed.
  Lemma concat_both css : concat (map both css) = both (concat css).
  Proof.
    induction css as [|cs css IH]; [reflexivity|]. cbn. rewrite IH. unfold both.
    now rewrite flat_map_app.
  Qed.

  Theorem walks_loops :
    exists loops,
      Forall (closed_loop n oa ob) loops /\
      Permutation (map (fun s => (sgside s, sgpos s)) (concat loops))
        (map (pair true) (filter (ent true) (seq 0 n)) ++
         map (pair false) (filter (ent false) (seq 0 n))) /\
      forall regions, walks trim mk_compound (S (length nodes)) nodes
          (repeat false (length nodes)) regions
        = assemble n par trim mk_compound loops regions.
  Proof.
    destruct (walks_rule (S (length nodes)) [] (repeat false (length nodes)))
      as (css & H1 & H2 & H3 & H4).
    - split; [rewrite repeat_length; assumption|]. intros p Hp. rewrite nth_repeat. easy.
    - constructor.
    - cbn; tauto.
    - intros p _ [].
    - cbn. lia.
    - cbn [app] in H1, H2. rewrite concat_both in H1, H2.
      exists (map (map seg_of) css). split; [|split; [|exact H4]].
      + apply Forall_forall. intros l Hl. apply in_map_iff in Hl. destruct Hl as (cs & <- & Hcs).
        destruct (H3 cs Hcs) as (V0 & s & HL). eapply loop_of_closed; eauto.
      + rewrite <- concat_map, map_map. change (fun x => (sgside (seg_of x), sgpos (seg_of x)))
          with E.
        assert (Hok : forall c, In c (concat css) -> okp c).
        { intros c Hc. apply H2. apply in_both. now left. }
        apply NoDup_Permutation.
        * now apply E_nodup.
        * apply nodup_app.
          -- apply FinFun.Injective_map_NoDup; [intros x y Ex; now inversion Ex|].
             apply NoDup_filter, seq_NoDup.
          -- apply FinFun.Injective_map_NoDup; [intros x y Ex; now inversion Ex|].
             apply NoDup_filter, seq_NoDup.
          -- intros x Hx Hx'. apply in_map_iff in Hx, Hx'.
             destruct Hx as (a & <- & _), Hx' as (b & Eb & _). discriminate.
        * intros [s k]. rewrite E_in by assumption. rewrite <- H2. cbn [fst snd].
          rewrite in_app_iff, !in_map_iff. unfold okp; cbn [snd]. split.
          -- intros [He Hk]. destruct s; [left|right]; exists k;
               (split; [reflexivity|]); apply filter_In; (split; [apply in_seq; lia|assumption]).
          -- intros [(x & Ex & Hx)|(x & Ex & Hx)]; inversion Ex; subst; apply filter_In in Hx;
               destruct Hx as [Hx He]; apply in_seq in Hx; split; try assumption; lia.
  Qed.
End Walk.
