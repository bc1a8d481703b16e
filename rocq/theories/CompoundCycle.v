(** * Compound curves from the pieces of a closed curve, in any order and orientation (C91) *)
From Coq Require Import Reals Lra Lia List Sorted Permutation.
From Verif Require Import Base BaseFacts Scalar RSum BSplineSpec BSpline KnotModel KnotSpec
  KnotFacts KnotProofs VecFacts MiscModel CurveModel CurveKnotModel CurveSpec CurveProofs CurveGeom CurveGeom2
  KnotMisc Boehm Refine SplitModel SplitProofs Decompose CompoundModel CompoundProofs.
Import ListNotations.
Open Scope R_scope.

Section Real.
  Variables eps maxv : R.
  Local Hint Extern 0 (Scalar R) => exact (ROps eps maxv) : typeclass_instances.
  Local Notation span_good := (span_good eps).

  (** ** End points *)
  Definition point_or (c : Curve R) (u : R) : list R := match point_at c u with Ok p => p | _ => [] end.
  Definition st (c : Curve R) : list R := point_or c (dom0 c).
  Definition en (c : Curve R) : list R := point_or c (dom1 c).

  Lemma mirrored_piece c c' i s u : curve_ok c -> mirrored c c' -> (cdeg c <= s <= clast c)%nat ->
    in_span (cknots c) (clast c) s u -> in_span (cknots c') (clast c') (length (cknots c) - 2 - s) (mirror_c c - u) ->
    hcoord c' i (mirror_c c - u) = hcoord c i u.
  Proof.
    intros Hc Hmi Hs Hin Hin'. pose proof (mirrored_ok c c' Hc Hmi) as Hc'.
    pose proof (curve_len c Hc) as Hl. pose proof (curve_len c' Hc') as Hl'. pose proof (clast_S c Hc) as Hn. pose proof (clast_S c' Hc') as Hn'.
    destruct Hmi as (E1 & E2 & E3 & E4 & E5). assert (Elen : length (cpts c') = length (cpts c)) by (rewrite E3; apply rev_length).
    rewrite <- (piece_hcoord c s i u Hc Hin) by lia. rewrite <- (piece_hcoord c' _ i _ Hc' Hin') by lia.
    set (L := (length (cknots c) - 1)%nat) in *. assert (HL : L = (length (cpts c) + cdeg c)%nat) by (unfold L; lia).
    fold (mirror_c c) in E5. replace (length (cknots c) - 2 - s)%nat with (L - 1 - s)%nat by lia.
    unfold piece. rewrite Elen, E2. rewrite rsum_rev. apply rsum_ext. intros j Hj.
    assert (Ec : cpc c' i (length (cpts c) - 1 - j) = cpc c i j) by (unfold cpc; rewrite E3, rev_nth by lia; do 2 f_equal; lia).
    rewrite Ec. f_equal. replace (length (cpts c) - 1 - j)%nat with (L - 1 - cdeg c - j)%nat by lia.
    apply (bs_reflect (kf (cknots c)) (kf (cknots c')) (mirror_c c) L s (cdeg c) j u); try lia. intros l Hll. rewrite E5 by lia. reflexivity.
  Qed.

  Lemma invert_ends c : span_good c -> exists c', invert c = Ok c' /\ invert c' = Ok c /\ span_good c' /\ cdim c' = cdim c /\ st c' = en c /\ en c' = st c.
  Proof.
    intros Hg. pose proof Hg as (Hc & He & Hw). destruct (invert_mirrored eps maxv c Hc) as (c' & E & M). destruct (invert_good eps maxv c Hg) as (c2 & E2 & G & Dm & _).
    rewrite E in E2. injection E2 as <-. destruct (invert_involutive eps maxv c Hc) as (c3 & E3 & E4). rewrite E in E3. injection E3 as <-.
    pose proof (mirrored_dom c c' Hc M) as (D0 & D1). pose proof (dom_le c Hc) as Hd.
    exists c'. split; [exact E|]. split; [exact E4|]. split; [exact G|]. split; [exact Dm|].
    pose proof (curve_len c Hc) as Hl. pose proof (clast_S c Hc) as Hn. pose proof (mirrored_ok c c' Hc M) as Hc'. pose proof (clast_S c' Hc') as Hn'.
    pose proof (co_knots c Hc) as [K1 K2 K3 K4 K5]. pose proof (co_knots c' Hc') as [K1' K2' K3' K4' K5'].
    destruct M as (M1 & M2 & M3 & M4 & M5). assert (Elen : length (cpts c') = length (cpts c)) by (rewrite M3; apply rev_length).
    assert (M : mirrored c c') by (split; [|split; [|split; [|split]]]; auto).
    split.
    - unfold st, en, point_or. rewrite D0. rewrite (point_at_transfer eps maxv c c' (dom1 c) (mirror_c c - dom1 c)); auto; try apply He; try apply G; try lra.
      intros i. apply (mirrored_piece c c' i (clast c)); auto.
      + unfold in_span. rewrite Nat.add_1_r in K5. split; [exact K5|]. unfold dom1. rewrite <- Hn. split; [lra|]. right. auto.
      + replace (length (cknots c) - 2 - clast c)%nat with (cdeg c') by (rewrite M2; lia). unfold in_span. rewrite Nat.add_1_r in K4'. rewrite <- D0. unfold dom0. split; [exact K4'|]. split; [lra|]. now left.
    - unfold st, en, point_or. rewrite D1. rewrite (point_at_transfer eps maxv c c' (dom0 c) (mirror_c c - dom0 c)); auto; try apply He; try apply G; try lra.
      intros i. apply (mirrored_piece c c' i (cdeg c)); auto.
      + unfold in_span. rewrite Nat.add_1_r in K4. split; [exact K4|]. unfold dom0. split; [lra|]. now left.
      + replace (length (cknots c) - 2 - cdeg c)%nat with (clast c') by (rewrite Elen in Hn'; lia). unfold in_span. rewrite Nat.add_1_r in K5'. rewrite <- D1. unfold dom1. rewrite <- Hn'. split; [exact K5'|]. split; [lra|]. right. auto.
  Qed.

  Lemma good_st c : span_good c -> span_ends c = Ok (st c, en c) /\ point_at c (dom0 c) = Ok (st c) /\ point_at c (dom1 c) = Ok (en c).
  Proof. intros H. destruct (good_ends eps maxv c H) as (p0 & p1 & E & E0 & E1 & _). unfold st, en, point_or. rewrite E0, E1. auto. Qed.

  (** points further apart than the connection tolerance *)
  Definition far (p q : list R) : Prop := 1 / 10000 <= vnorm (vsub p q) /\ 1 / 10000 <= vnorm (vsub q p).
  Lemma far_sym p q : far p q -> far q p.
  Proof. unfold far. tauto. Qed.

  (** the direction found between two spans, from the four distances of their ends *)
  Lemma direction_spec a b : span_good a -> span_good b ->
    (en a = st b -> curve_direction a b connect_eps = Ok (Some Forward)) /\
    (far (en a) (st b) -> st a = en b -> far (en a) (en b) -> far (st a) (st b) -> curve_direction a b connect_eps = Ok (Some Backward)) /\
    (far (en a) (st b) -> far (st a) (en b) -> en a = en b -> curve_direction a b connect_eps = Ok (Some Facing)) /\
    (far (en a) (st b) -> far (st a) (en b) -> far (en a) (en b) -> st a = st b -> curve_direction a b connect_eps = Ok (Some Opposite)) /\
    (far (en a) (st b) -> far (st a) (en b) -> far (en a) (en b) -> far (st a) (st b) -> curve_direction a b connect_eps = Ok None).
  Proof.
    intros Ha Hb. destruct (good_st a Ha) as (Ea & _). destruct (good_st b Hb) as (Eb & _).
    unfold curve_direction. rewrite Ea, Eb. cbn [bind min_by fold_left].
    set (d1 := vnorm (vsub (en a) (st b))). set (d2 := vnorm (vsub (st a) (en b))). set (d3 := vnorm (vsub (en a) (en b))). set (d4 := vnorm (vsub (st a) (st b))).
    assert (P : 0 <= d1 /\ 0 <= d2 /\ 0 <= d3 /\ 0 <= d4) by (repeat split; apply vnorm_nonneg). destruct P as (P1 & P2 & P3 & P4).
    assert (Z : (en a = st b -> d1 = 0) /\ (st a = en b -> d2 = 0) /\ (en a = en b -> d3 = 0) /\ (st a = st b -> d4 = 0)).
    { unfold d1, d2, d3, d4. repeat split; intros ->; apply vnorm_self. } destruct Z as (Z1 & Z2 & Z3 & Z4).
    assert (F : (far (en a) (st b) -> 1 / 10000 <= d1) /\ (far (st a) (en b) -> 1 / 10000 <= d2) /\ (far (en a) (en b) -> 1 / 10000 <= d3) /\ (far (st a) (st b) -> 1 / 10000 <= d4)).
    { unfold d1, d2, d3, d4, far. tauto. } destruct F as (F1 & F2 & F3 & F4).
    clearbody d1 d2 d3 d4. unfold pick_min, connect_eps. cbn [fst]. rs.
    repeat split; intros; repeat match goal with H : _ = _ -> _ = 0, E : _ = _ |- _ => specialize (H E) | H : far _ _ -> _, E : far _ _ |- _ => specialize (H E) end; subst;
      repeat (cbn [fst snd]; match goal with |- context [Rltb ?x ?y] => lazymatch x with context [Rltb _ _] => fail | _ => lazymatch y with context [Rltb _ _] => fail | _ => destruct (Rltb_spec x y) end end end); cbn [fst snd] in *; try reflexivity; lra.
  Qed.

  (** ** Closed chains *)
  (** the spans of [l] lead from the point [p] to the point [q] *)
  Fixpoint run (p : list R) (l : list (Curve R)) (q : list R) : Prop :=
    match l with [] => p = q | c :: t => st c = p /\ run (en c) t q end.
  Lemma run_app p l1 l2 q : run p (l1 ++ l2) q <-> exists m, run p l1 m /\ run m l2 q.
  Proof.
    revert p. induction l1 as [|c l1 IH]; intros p; cbn [app run].
    - split; [intros H; now exists p|]. intros (m & -> & H). exact H.
    - rewrite IH. split; [intros (E & m & H1 & H2); exists m; auto|intros (m & (E & H1) & H2); split; [auto|now exists m]].
  Qed.
  Lemma run_fun p l q q' : run p l q -> run p l q' -> q = q'.
  Proof. revert p. induction l as [|c l IH]; intros p; cbn [run]; [congruence|]. intros (_ & H1) (_ & H2). eauto. Qed.

  (** the spans of a closed curve, in order; no two of them start at the same point *)
  Definition cycle (l : list (Curve R)) : Prop :=
    Forall span_good l /\ (exists p, run p l p) /\ ForallOrdPairs (fun a b => far (st a) (st b)) l.

  Lemma pairs_app {A} (Q : A -> A -> Prop) l1 l2 : ForallOrdPairs Q (l1 ++ l2) <-> ForallOrdPairs Q l1 /\ ForallOrdPairs Q l2 /\ Forall (fun a => Forall (Q a) l2) l1.
  Proof.
    induction l1 as [|a l1 IH]; cbn [app].
    - split; [intros H; repeat split; auto; constructor|tauto].
    - split.
      + intros H. inversion H as [|? ? H1 H2]; subst. apply Forall_app in H1 as (H1 & H3). apply IH in H2 as (A1 & A2 & A3).
        split; [constructor; auto|]. split; [auto|]. constructor; auto.
      + intros (H1 & H2 & H3). inversion H1; subst. inversion H3; subst. constructor; [apply Forall_app; auto|]. apply IH. auto.
  Qed.
  Lemma pairs_swap {A} (Q : A -> A -> Prop) l1 l2 : (forall a b, Q a b -> Q b a) -> ForallOrdPairs Q (l1 ++ l2) -> ForallOrdPairs Q (l2 ++ l1).
  Proof.
    intros Hs H. apply pairs_app in H as (H1 & H2 & H3). apply pairs_app. split; [auto|]. split; [auto|].
    apply Forall_forall. intros b Hb. apply Forall_forall. intros a Ha. apply Hs. rewrite Forall_forall in H3. specialize (H3 a Ha).
    rewrite Forall_forall in H3. auto.
  Qed.
  Lemma pairs_mid {A} (Q : A -> A -> Prop) l1 y l2 z : (forall a b, Q a b -> Q b a) -> ForallOrdPairs Q (l1 ++ y :: l2) -> In z (l1 ++ l2) -> Q y z.
  Proof.
    intros Hs H Hz. apply pairs_app in H as (_ & H2 & H3). inversion H2 as [|? ? H4 _]; subst. apply in_app_or in Hz as [Hz|Hz].
    - rewrite Forall_forall in H3. specialize (H3 z Hz). inversion H3; subst. auto.
    - rewrite Forall_forall in H4. auto.
  Qed.
  Lemma cycle_rotate l1 l2 : cycle (l1 ++ l2) -> cycle (l2 ++ l1).
  Proof.
    intros (H1 & (p & H2) & H3). split; [|split].
    - apply Forall_app in H1 as (? & ?). apply Forall_app; auto.
    - apply run_app in H2 as (m & A & B). exists m. apply run_app. exists p. auto.
    - apply pairs_swap; [|exact H3]. intros a b. apply far_sym.
  Qed.
  (** the end of a span is the start of the next one *)
  Lemma cycle_next a x b : cycle (a ++ x :: b) -> en x = st (hd x (b ++ a)).
  Proof.
    intros H. change (x :: b) with ([x] ++ b) in H. rewrite app_assoc in H. apply cycle_rotate in H. rewrite app_assoc in H.
    destruct H as (_ & (p & H) & _). apply run_app in H as (m & A & B). cbn [run] in B. destruct B as (B & C).
    destruct (b ++ a) as [|h t]; cbn [hd run] in *; [congruence|]. destruct A as (A & _). congruence.
  Qed.

  Lemma cycle_facts pre x r1 r r2 : cycle (pre ++ x :: r1 ++ r :: r2) ->
    far (st x) (st r) /\ far (en x) (en r) /\
    ((r1 = [] /\ en x = st r) \/ (r1 <> [] /\ far (en x) (st r))) /\
    ((r2 = [] /\ pre = [] /\ st x = en r) \/ ((r2 <> [] \/ pre <> []) /\ far (st x) (en r))).
  Proof.
    intros H. pose proof (cycle_next pre x (r1 ++ r :: r2) H) as Nx.
    assert (H' : cycle ((pre ++ x :: r1) ++ r :: r2)) by (rewrite <- app_assoc; exact H).
    pose proof (cycle_next _ r r2 H') as Nr. destruct H as (_ & _ & H). destruct H' as (_ & _ & H').
    assert (Sy : forall a b : Curve R, far (st a) (st b) -> far (st b) (st a)) by (intros; now apply far_sym).
    pose proof (fun z => pairs_mid _ pre x (r1 ++ r :: r2) z Sy H) as Px.
    pose proof (fun z => pairs_mid _ (pre ++ x :: r1) r r2 z Sy H') as Pr.
    split; [apply Px; rewrite !in_app_iff; cbn; tauto|].
    destruct r1 as [|y r1]; cbn [app hd] in Nx.
    - rewrite Nx, Nr. split; [|split; [left; auto|]].
      + destruct r2 as [|z r2]; cbn [app hd]; [destruct pre as [|z pre]; cbn [app hd]|]; apply Pr; cbn; rewrite ?in_app_iff; cbn; tauto.
      + destruct r2 as [|z r2]; cbn [app hd]; [destruct pre as [|z pre]; cbn [app hd]|].
        * left. auto.
        * right. split; [right; discriminate|]. apply Px. cbn; tauto.
        * right. split; [left; discriminate|]. apply Px. rewrite in_app_iff. cbn; tauto.
    - assert (H2 : ForallOrdPairs (fun a b => far (st a) (st b)) ((pre ++ [x]) ++ y :: r1 ++ r :: r2)) by (rewrite <- app_assoc; exact H).
      pose proof (fun z => pairs_mid _ (pre ++ [x]) y (r1 ++ r :: r2) z Sy H2) as Py. rewrite Nx, Nr.
      split; [|split; [right; split; [discriminate|]; apply Py; rewrite !in_app_iff; cbn; tauto|]].
      + destruct r2 as [|z r2]; cbn [app hd]; [destruct pre as [|z pre]; cbn [app hd]|]; apply Py; cbn; rewrite ?in_app_iff; cbn; tauto.
      + destruct r2 as [|z r2]; cbn [app hd]; [destruct pre as [|z pre]; cbn [app hd]|].
        * left. auto.
        * right. split; [right; discriminate|]. apply Px. cbn; tauto.
        * right. split; [left; discriminate|]. apply Px. rewrite !in_app_iff. cbn. rewrite ?in_app_iff. cbn. tauto.
  Qed.

  (** ** The connecting loop on a shuffled closed chain *)
  Lemma find_next_first x l c0 : span_good x -> Forall span_good l -> In c0 l -> (exists d, curve_direction x c0 connect_eps = Ok (Some d)) ->
    exists d c r, find_next x connect_eps l = Ok (Some (d, c, r)) /\ curve_direction x c connect_eps = Ok (Some d).
  Proof.
    intros Hx H. induction H as [|a l Ha _ IH]; intros Hin Hd; [destruct Hin|]. cbn [find_next].
    destruct (good_direction eps maxv x a connect_eps Hx Ha) as ([d|] & E); rewrite E; cbn [bind]; [eauto 6|].
    destruct Hin as [->|Hin]; [destruct Hd as (d & Hd); congruence|].
    destruct (IH Hin Hd) as (d & c & r & E1 & E2). rewrite E1. cbn [bind]. eauto 6.
  Qed.

  Lemma oriented_ends c r : span_good c -> oriented c r -> (c = r) \/ (invert c = Ok r /\ st c = en r /\ en c = st r).
  Proof.
    intros Hc [->|E]; [auto|]. right. destruct (invert_ends c Hc) as (c' & E1 & _ & _ & _ & E2 & E3).
    assert (c' = r) by congruence. subst c'. auto.
  Qed.

  (** one candidate: the direction is found exactly for the next span and, while only the first span is placed, the last one *)
  Lemma candidate pre x r1 r r2 c : cycle (pre ++ x :: r1 ++ r :: r2) -> span_good c -> oriented c r ->
    (r1 = [] /\ ((curve_direction x c connect_eps = Ok (Some Forward) /\ c = r) \/ (curve_direction x c connect_eps = Ok (Some Facing) /\ invert c = Ok r))) \/
    (r2 = [] /\ pre = [] /\ ((curve_direction x c connect_eps = Ok (Some Backward) /\ c = r) \/ (curve_direction x c connect_eps = Ok (Some Opposite) /\ invert c = Ok r))) \/
    (r1 <> [] /\ curve_direction x c connect_eps = Ok None).
  Proof.
    intros H Hc Ho. pose proof (cycle_facts _ _ _ _ _ H) as (F1 & F2 & F3 & F4).
    destruct H as (Hg & _). apply Forall_app in Hg as (_ & Hg). inversion Hg as [|? ? Gx _]; subst.
    destruct (direction_spec x c Gx Hc) as (D1 & D2 & D3 & D4 & D5).
    destruct (oriented_ends c r Hc Ho) as [->|(E & E1 & E2)].
    - destruct F3 as [(-> & F3)|(N & F3)]; [left; split; [auto|left; auto]|]. destruct F4 as [(-> & -> & F4)|(_ & F4)]; right; [left|right]; auto.
      split; [auto|]. split; [auto|]. left. auto.
    - rewrite E1, E2 in *. destruct F3 as [(-> & F3)|(N & F3)]; [left; split; [auto|right; auto]|].
      destruct F4 as [(-> & -> & F4)|(_ & F4)]; right; [left|right]; auto. split; [auto|]. split; [auto|]. right. auto.
  Qed.

  Lemma connect_cycle fuel : forall curves pre x rest keep, (length curves <= fuel)%nat -> Forall span_good curves ->
    cycle (pre ++ x :: rest) -> Permutation curves keep -> Forall2 oriented keep rest ->
    exists ch, connect fuel connect_eps curves (pre ++ [x]) = Ok ch /\
      (ch = pre ++ x :: rest \/ exists r1 r, pre = [] /\ rest = r1 ++ [r] /\ ch = r :: x :: r1).
  Proof.
    induction fuel as [|fuel IH]; intros curves pre x rest keep Hl Hg Hcy Hp Ho.
    { destruct curves; [|cbn in Hl; lia]. apply Permutation_nil in Hp. subst keep. inversion Ho; subst. cbn [connect]. exists (pre ++ [x]). auto. }
    destruct curves as [|c1 cs] eqn:Ecs.
    { apply Permutation_nil in Hp. subst keep. inversion Ho; subst. cbn [connect]. exists (pre ++ [x]). auto. }
    rewrite <- Ecs in *. assert (Ne : exists c0 k0 h t, keep = c0 :: k0 /\ rest = h :: t /\ oriented c0 h).
    { destruct keep as [|c0 k0]; [apply Permutation_length in Hp; rewrite Ecs in Hp; discriminate|]. inversion Ho; subst. eauto 8. }
    destruct Ne as (c0 & k0 & h & t & Ek & Er & Oh).
    assert (Hk : forall c, In c keep -> span_good c).
    { intros c Hc. rewrite Forall_forall in Hg. apply Hg. eapply Permutation_in; [symmetry; exact Hp|exact Hc]. }
    assert (Gx : span_good x). { destruct Hcy as (G & _). apply Forall_app in G as (_ & G). now inversion G. }
    destruct (find_next_first x curves c0) as (d & c & r' & Ef & Ed); auto.
    { eapply Permutation_in; [symmetry; exact Hp|]. subst keep. now left. }
    { subst rest. destruct (candidate pre x [] h t c0) as [(_ & [(E & _)|(E & _)])|[(_ & _ & [(E & _)|(E & _)])|(E & _)]]; eauto; [|now destruct E].
      apply Hk. subst keep. now left. }
    pose proof (find_next_perm _ _ _ _ _ _ Ef) as Pf.
    assert (Hc : In c keep). { eapply Permutation_in; [exact Hp|]. eapply Permutation_in; [symmetry; exact Pf|]. now left. }
    pose proof (Hk c Hc) as Gc. apply in_split in Hc as (k1 & k2 & Es).
    assert (Pr : Permutation r' (k1 ++ k2)). { apply (Permutation_cons_app_inv k1 k2 (a := c)). rewrite <- Es, <- Pf. exact Hp. }
    rewrite Es in Ho. apply Forall2_app_inv_l in Ho as (r1 & r2' & O1 & O2 & Err). inversion O2 as [|? r ? r2 Or O3]; subst r2'. subst k2.
    assert (Ll : (length r' <= fuel)%nat). { apply Permutation_length in Pf. cbn in Pf. lia. }
    assert (Gr : Forall span_good r'). { rewrite Forall_forall in *. intros z Hz. apply Hg. eapply Permutation_in; [symmetry; exact Pf|]. now right. }
    assert (Okr : Forall2 oriented (k1 ++ l) (r1 ++ r2)) by (apply Forall2_app; auto).
    rewrite Err in Hcy. destruct (candidate pre x r1 r r2 c Hcy Gc Or) as [(-> & Hd)|[(-> & -> & Hd)|(_ & Hd)]]; [| |congruence].
    - (* the next span of the chain is appended *)
      assert (Estep : connect (S fuel) connect_eps curves (pre ++ [x]) = connect fuel connect_eps r' ((pre ++ [x]) ++ [r])).
      { rewrite Ecs at 1. cbn [connect]. rewrite <- Ecs. rewrite app_length. cbn [length]. rewrite usub_ok by lia. cbn [bind].
        rewrite (get_ok _ _ x) by (rewrite app_length; cbn; lia). cbn [bind]. replace (length pre + 1 - 1)%nat with (length pre) by lia.
        rewrite nth_middle, Ef. cbn [bind]. destruct Hd as [(Hd & ->)|(Hd & Hi)]; rewrite Ed in Hd; injection Hd as ->; [reflexivity|].
        rewrite Hi. reflexivity. }
      rewrite Estep. cbn [app] in *. destruct (IH r' (pre ++ [x]) r r2 (k1 ++ l)) as (ch & E & Hch); auto.
      { rewrite <- app_assoc. exact Hcy. }
      exists ch. split; [exact E|]. left. subst rest. destruct Hch as [->|(a & b & N & _)]; [now rewrite <- app_assoc|]. destruct pre; discriminate.
    - (* the last span of the chain goes in front of the first one *)
      assert (Estep : connect (S fuel) connect_eps curves ([] ++ [x]) = connect fuel connect_eps r' ([r] ++ [x])).
      { rewrite Ecs at 1. cbn [connect app]. rewrite <- Ecs. cbn [length]. rewrite usub_ok by lia. cbn [bind]. assert (E0 : get [x] (1 - 1) = Ok x) by reflexivity. rewrite E0. cbn [bind]. rewrite Ef. cbn [bind].
        destruct Hd as [(Hd & Hi)|(Hd & Hi)]; rewrite Ed in Hd; injection Hd as ->.
        - subst r. reflexivity.
        - cbn [Nat.eqb Nat.sub]. rewrite Hi. reflexivity. }
      rewrite Estep. cbn [app] in Hcy. rewrite app_nil_r in Okr.
      destruct (IH r' [r] x r1 (k1 ++ l)) as (ch & E & Hch); auto.
      { change (x :: r1 ++ [r]) with ((x :: r1) ++ [r]) in Hcy. apply cycle_rotate in Hcy. exact Hcy. }
      exists ch. split; [exact E|]. right. destruct Hch as [->|(a & b & N & _)]; [|discriminate]. exists r1, r. auto.
  Qed.

  (** ** Reversal of a closed chain *)
  Lemma run_reverse l : forall l' p q, Forall2 (fun a b => st b = en a /\ en b = st a) l l' -> run p l q -> run q (rev l') p.
  Proof.
    induction l as [|a l IH]; intros l' p q H Hr; inversion H as [|? b ? l2 (H1 & H2) H3]; subst; cbn [run rev] in *; [auto|].
    destruct Hr as (<- & Hr). apply run_app. exists (en a). split; [eapply IH; eauto|]. cbn [run]. auto.
  Qed.
  Lemma pairs_rev {A} (Q : A -> A -> Prop) l : (forall a b, Q a b -> Q b a) -> ForallOrdPairs Q l -> ForallOrdPairs Q (rev l).
  Proof.
    intros Hs H. induction H as [|a l H1 H2 IH]; [constructor|]. cbn [rev]. apply pairs_app. split; [auto|]. split; [repeat constructor|].
    apply Forall_rev. eapply Forall_impl; [|exact H1]. intros b Hb. constructor; [auto|constructor].
  Qed.
  Lemma cycle_reverse l : cycle l -> exists l', Forall2 (fun a b => invert a = Ok b /\ invert b = Ok a) l l' /\ cycle (rev l').
  Proof.
    intros (Hg & (p & Hr) & Hp).
    assert (G : exists l', Forall2 (fun a b => invert a = Ok b /\ invert b = Ok a) l l' /\ Forall span_good l' /\
      Forall2 (fun a b => st b = en a /\ en b = st a) l l').
    { clear -Hg. induction Hg as [|a l Ha _ (l' & I1 & I2 & I3)]; [exists []; repeat split; constructor|].
      destruct (invert_ends a Ha) as (b & E1 & E2 & E3 & _ & E4 & E5). exists (b :: l'). repeat split; constructor; auto. }
    destruct G as (l' & G1 & G2 & G3). exists l'. split; [exact G1|]. split; [now apply Forall_rev|].
    split; [exists p; eapply run_reverse; eauto|]. apply pairs_rev; [intros a b; apply far_sym|].
    (* the starts of the reversed spans are the ends, which are the starts of the successors *)
    assert (He : ForallOrdPairs (fun a b => far (en a) (en b)) l).
    { assert (K : forall a x b y c, l = a ++ x :: b ++ y :: c -> far (en x) (en y)).
      { intros a x b y c ->. apply (cycle_facts a x b y c). split; [auto|split; [now exists p|auto]]. }
      clear -K. assert (G : forall pre, (forall a x b y c, pre ++ l = a ++ x :: b ++ y :: c -> far (en x) (en y)) -> ForallOrdPairs (fun a b => far (en a) (en b)) l).
      { clear K. induction l as [|z l IH]; intros pre K; constructor.
        - apply Forall_forall. intros y Hy. apply in_split in Hy as (b & c & ->). now apply (K pre z b y c).
        - apply (IH (pre ++ [z])). rewrite <- app_assoc. exact K. }
      apply (G []). exact K. }
    clear -He G3. revert He. induction G3 as [|a b l l' (E1 & E2) H IH]; intros He; [constructor|]. inversion He as [|? ? H1 H2]; subst. constructor; [|auto].
    clear -H1 H E1. induction H as [|c d l l' (E3 & E4) H IH]; constructor; inversion H1; subst; [rewrite E1, E3; auto|auto].
  Qed.

  (** ** The whole constructor *)
  Theorem compound_new_cycle spans keep l : spans <> [] -> Forall span_good spans -> cycle l -> Permutation spans keep -> Forall2 oriented keep l ->
    exists keep' ch, compound_new spans = Ok (aligned 0 ch) /\ Permutation spans keep' /\ Forall2 oriented keep' ch /\ cycle ch /\
      forall first rest, spans = first :: rest -> In first ch.
  Proof.
    intros Hne Hg Hcy Hp Ho. destruct spans as [|first curves]; [congruence|]. clear Hne.
    inversion Hg as [|? ? Gf Gc]; subst.
    (* a closed chain with the first span in its given orientation *)
    assert (G : exists k l1 l2, Permutation curves k /\ Forall2 oriented k (l2 ++ l1) /\ cycle (l1 ++ first :: l2)).
    { assert (Hin : In first keep) by (eapply Permutation_in; [exact Hp|now left]). apply in_split in Hin as (k1 & k2 & ->).
      assert (P1 : Permutation curves (k1 ++ k2)) by (apply (Permutation_cons_app_inv k1 k2 (a := first)); exact Hp).
      apply Forall2_app_inv_l in Ho as (l1 & l2' & O1 & O2 & ->). inversion O2 as [|? y ? l2 Oy O3]; subst.
      destruct Oy as [->|Ey].
      - exists (k2 ++ k1), l1, l2. split; [rewrite P1; apply Permutation_app_comm|]. split; [now apply Forall2_app|exact Hcy].
      - destruct (cycle_reverse _ Hcy) as (l' & R1 & R2). apply Forall2_app_inv_l in R1 as (m1 & m2' & A1 & A2 & ->).
        inversion A2 as [|? f ? m2 (B1 & B2) A3]; subst. destruct (invert_ends first Gf) as (y' & I1 & I2 & _). assert (y' = y) by congruence. subst y'.
        assert (f = first) by congruence. subst f. rewrite rev_app_distr in R2. cbn [rev] in R2. rewrite <- app_assoc in R2. cbn [app] in R2.
        assert (Om : forall k m m', Forall span_good k -> Forall2 oriented k m -> Forall2 (fun a b => invert a = Ok b /\ invert b = Ok a) m m' -> Forall2 oriented k m').
        { clear. intros k m m' Hk H. revert m' Hk. induction H as [|a b k m Hab _ IH]; intros m' Hk Hm; inversion Hm as [|? b' ? m2 (E1 & E2) E3]; subst; constructor.
          - inversion Hk as [|? ? Ha _]; subst. destruct Hab as [->|E]; [now right|]. left. destruct (invert_ends a Ha) as (a' & J1 & J2 & _).
            assert (a' = b) by congruence. subst a'. congruence.
          - apply IH; auto. now inversion Hk. }
        assert (Gk : Forall span_good (k1 ++ k2)). { rewrite Forall_forall in *. intros z Hz. apply Gc. eapply Permutation_in; [symmetry; exact P1|exact Hz]. }
        apply Forall_app in Gk as (Gk1 & Gk2). exists (rev k1 ++ rev k2), (rev m2), (rev m1).
        split; [rewrite P1; rewrite <- !Permutation_rev; reflexivity|]. split; [|exact R2].
        assert (Fr : forall a b, Forall2 (oriented (T := R)) a b -> Forall2 oriented (rev a) (rev b)).
        { clear. intros a b H. induction H; cbn [rev]; [constructor|]. apply Forall2_app; auto. }
        apply Forall2_app; apply Fr; eapply Om; eauto. }
    destruct G as (k & l1 & l2 & P & O & C). apply cycle_rotate in C. cbn [app] in C.
    destruct (connect_cycle (length curves) curves [] first (l2 ++ l1) k) as (ch & E & Hch); auto.
    assert (Cc : cycle ch /\ In first ch /\ exists keep', Permutation (first :: curves) keep' /\ Forall2 oriented keep' ch).
    { cbn [app] in Hch. destruct Hch as [->|(r1 & r & _ & Er & ->)].
      - split; [exact C|]. split; [now left|]. exists (first :: k). split; [now constructor|]. constructor; [now left|exact O].
      - rewrite Er in *. split; [exact (cycle_rotate (first :: r1) [r] C)|]. split; [right; now left|].
        apply Forall2_app_inv_r in O as (ka & kb & O1 & O2 & ->). inversion O2 as [|kr ? ? ? Or O3]; subst. inversion O3; subst.
        exists (kr :: first :: ka). split; [|constructor; [auto|constructor; [now left|auto]]].
        rewrite P. rewrite (Permutation_app_comm ka [kr]). cbn [app]. apply perm_swap. }
    destruct Cc as (C1 & C2 & keep' & C3 & C4). exists keep', ch. cbn [compound_new]. cbn [app] in E. rewrite E. cbn [bind].
    split; [apply align_ok, (good_oks eps), C1|]. split; [exact C3|]. split; [exact C4|]. split; [exact C1|].
    intros f rest [= <- <-]. exact C2.
  Qed.

  (** ** What the constructed curve traces *)
  Definition on (c : Curve R) (p : list R) : Prop := exists u, dom0 c <= u <= dom1 c /\ point_at c u = Ok p.

  Lemma oriented_on c c' p : span_good c -> curve_cont c -> oriented c c' -> (on c' p <-> on c p).
  Proof.
    intros Hg Hc [->|E]; [tauto|]. destruct (invert_spec eps maxv c (proj1 Hg) (proj1 (proj2 Hg)) Hc) as (c2 & E2 & Ho & Hd & Hp).
    assert (c2 = c') by congruence. subst c2. rewrite knots_domain_ok in Hd by auto. injection Hd as D0 D1. unfold on. rewrite D0, D1. split.
    - intros (u & Hu & Eu). exists (mirror_c c - u). split; [lra|]. rewrite <- (Hp (mirror_c c - u)) by lra. replace (mirror_c c - (mirror_c c - u)) with u by lra. exact Eu.
    - intros (u & Hu & Eu). exists (mirror_c c - u). split; [lra|]. now rewrite Hp.
  Qed.

  Lemma run_joined l : forall p q, Forall span_good l -> run p l q -> all_joined eps maxv l.
  Proof.
    induction l as [|c l IH]; intros p q Hg Hr; [exact I|]. inversion Hg as [|? ? Gc Gl]; subst. cbn [run] in Hr. destruct Hr as (_ & Hr). cbn [all_joined]. split; [|eauto].
    destruct l as [|d l]; [exact I|]. cbn [run] in Hr. destruct Hr as (E & _). inversion Gl; subst. exists (en c). split; [apply good_st; auto|]. rewrite <- E. apply good_st; auto.
  Qed.

  Lemma aligned_trace l p : forall off, Forall span_good l -> (exists t, compound_point_at (aligned off l) t = Ok (Some p)) -> exists c, In c l /\ on c p.
  Proof.
    induction l as [|c l IH]; intros off Hg (t & E); [discriminate|]. inversion Hg as [|? ? Gc Gl]; subst. cbn [aligned compound_point_at] in E.
    pose proof (reparam_good eps (off - first_knot c) c Gc) as Hg'. destruct (reparam_dom 1 (off - first_knot c) c (proj1 Gc)) as (D0 & D1).
    rewrite knots_domain_ok in E by apply Hg'. cbn [bind] in E. rewrite D0, D1 in E. rs.
    destruct (_ && _) eqn:Eb.
    - apply andb_true_iff in Eb as (B1 & B2). apply Rleb_true in B1. apply Rleb_true in B2. destruct (point_at (reparam _ _ c) t) as [q| | |] eqn:Eq; try discriminate.
      cbn [bind] in E. injection E as ->. exists c. split; [now left|]. exists (t - (off - first_knot c)). split; [lra|].
      rewrite <- (shift_point eps maxv (off - first_knot c) c) by (auto; lra). replace (t - (off - first_knot c) + (off - first_knot c)) with t by lra. exact Eq.
    - destruct (IH (off + last_knot c - first_knot c) Gl) as (d & Hd & Hon); [now exists t|]. exists d. split; [now right|exact Hon].
  Qed.

  Lemma last_any {A} (u : A) v d d' : last (u :: v) d = last (u :: v) d'.
  Proof. revert u. induction v as [|w v IH]; intros u; [reflexivity|]. apply (IH w). Qed.

  (** The pieces of a closed curve, handed over in any order and each in either direction, give a closed compound curve through all of them *)
  Theorem compound_new_shuffled spans keep l : 0 < eps -> spans <> [] -> Forall span_good spans -> Forall clamped spans -> Forall curve_cont spans ->
    cycle l -> Permutation spans keep -> Forall2 oriented keep l ->
    exists cc, compound_new spans = Ok cc /\ length cc = length spans /\ compound_is_closed cc = Ok true /\
      forall p, (exists t, compound_point_at cc t = Ok (Some p)) <-> exists c, In c spans /\ on c p.
  Proof.
    intros Heps Hne Hg Hcl Hct Hcy Hp Ho. destruct (compound_new_cycle spans keep l Hne Hg Hcy Hp Ho) as (keep' & ch & E & P & O & C & _).
    exists (aligned 0 ch). pose proof C as (G & (q & Hr) & _).
    assert (Ll : length ch = length spans) by (rewrite (Permutation_length P); clear -O; induction O; cbn; congruence).
    assert (Cch : Forall clamped ch).
    { assert (Hk : Forall span_good keep' /\ Forall clamped keep').
      { rewrite !Forall_forall in *. split; intros z Hz; [apply Hg|apply Hcl]; (eapply Permutation_in; [symmetry; exact P|exact Hz]). }
      clear -Hk O. destruct Hk as (K1 & K2). induction O as [|a b k m Hab _ IH]; [constructor|]. inversion K1; inversion K2; subst. constructor; [|auto].
      destruct Hab as [->|E]; [auto|]. destruct (invert_good eps maxv a) as (b' & E' & _ & _ & Hc); auto. assert (b' = b) by congruence. subst. auto. }
    pose proof (run_joined ch q q G Hr) as J.
    split; [exact E|]. split; [now rewrite aligned_len|].
    assert (Nc : ch <> []) by (intros ->; destruct spans; [congruence|discriminate]).
    split.
    - destruct ch as [|c ch]; [congruence|]. cbn [aligned compound_is_closed].
      set (a := reparam 1 (0 - first_knot c) c). set (tl := aligned (0 + last_knot c - first_knot c) ch).
      assert (Gc : span_good c) by now inversion G. pose proof (dom_le c (proj1 Gc)) as Hd.
      pose proof (reparam_good eps (0 - first_knot c) c Gc) as Ga. fold a in Ga. rewrite knots_domain_ok by apply Ga. cbn [bind].
      destruct (reparam_dom 1 (0 - first_knot c) c (proj1 Gc)) as (D0 & D1). fold a in D0, D1.
      assert (Ea : point_at a (dom0 a) = Ok (st c)).
      { replace (dom0 a) with (dom0 c + (0 - first_knot c)) by lra. unfold a. rewrite (shift_point eps maxv) by (auto; lra). apply good_st; auto. }
      rewrite Ea. cbn [bind].
      assert (El : forall off c m, span_good c -> Forall span_good m -> exists b, last (aligned off (c :: m)) (reparam 1 (off - first_knot c) c) = b /\ span_good b /\
        point_at b (dom1 b) = Ok (en (last (c :: m) c))).
      { clear. intros off c m. revert off c. induction m as [|d m IH]; intros off c Gc Gm.
        - exists (reparam 1 (off - first_knot c) c). split; [reflexivity|]. pose proof (reparam_good eps (off - first_knot c) c Gc) as Ga. split; [auto|].
          pose proof (dom_le c (proj1 Gc)). destruct (reparam_dom 1 (off - first_knot c) c (proj1 Gc)) as (D0 & D1).
          replace (dom1 (reparam 1 (off - first_knot c) c)) with (dom1 c + (off - first_knot c)) by lra. rewrite (shift_point eps maxv) by (auto; lra). apply good_st; auto.
        - inversion Gm; subst. destruct (IH (off + last_knot c - first_knot c) d) as (b & B1 & B2 & B3); auto. exists b. split; [|split; auto].
          + rewrite <- B1. cbn [aligned]. set (u := reparam 1 (off + last_knot c - first_knot c - first_knot d) d). set (v := aligned _ m).
            change (last (reparam 1 (off - first_knot c) c :: u :: v) (reparam 1 (off - first_knot c) c)) with (last (u :: v) (reparam 1 (off - first_knot c) c)).
            apply last_any.
          + rewrite B3. do 2 f_equal. change (last (c :: d :: m) c) with (last (d :: m) c). apply last_any. }
      destruct (El 0 c ch Gc ltac:(now inversion G)) as (b & B1 & B2 & B3). cbn [aligned] in B1. fold a tl in B1. rewrite B1.
      rewrite knots_domain_ok by apply B2. cbn [bind]. rewrite B3. cbn [bind].
      assert (Een : en (last (c :: ch) c) = st c).
      { clear -Hr. assert (K : forall m p c, run p (c :: m) q -> en (last (c :: m) c) = q).
        { induction m as [|d m IH]; intros p x (_ & H); [exact H|]. specialize (IH (en x) d H). rewrite <- IH. change (last (x :: d :: m) x) with (last (d :: m) x).
          f_equal. apply last_any. }
        rewrite (K ch q c Hr). destruct Hr as (-> & _). reflexivity. }
      rewrite Een, vnorm_self. rs. destruct (Rltb_spec 0 (eps * IZR 10)); [reflexivity|lra].
    - intros p. split.
      + intros Ht. destruct (aligned_trace ch p 0 G Ht) as (c & Hc & Hon).
        assert (K : exists k, In k keep' /\ oriented k c).
        { clear -O Hc. induction O as [|a b k m Hab _ IH]; [destruct Hc|]. destruct Hc as [->|Hc]; [exists a; split; [now left|auto]|].
          destruct (IH Hc) as (z & Hz & Hz2). exists z. split; [now right|auto]. }
        destruct K as (k & Hk & Hor). assert (Hs : In k spans) by (eapply Permutation_in; [symmetry; exact P|exact Hk]).
        exists k. split; [exact Hs|]. rewrite Forall_forall in Hg, Hct. exact (proj1 (oriented_on k c p (Hg k Hs) (Hct k Hs) Hor) Hon).
      + intros (c & Hc & Hon).
        assert (K : exists j, (j < length ch)%nat /\ oriented c (nth j ch (MkCurve 0 0 [] []))).
        { assert (Hk : In c keep') by (eapply Permutation_in; eauto). clear -O Hk. induction O as [|a b k m Hab _ IH]; [destruct Hk|].
          destruct Hk as [->|Hk]; [exists 0%nat; cbn; split; [lia|auto]|]. destruct (IH Hk) as (j & Hj & Hj2). exists (S j). cbn. split; [lia|auto]. }
        destruct K as (j & Hj & Hor). rewrite Forall_forall in Hg, Hct.
        apply (proj2 (oriented_on c _ p (Hg c Hc) (Hct c Hc) Hor)) in Hon. destruct Hon as (u & Hu & Eu).
        destruct (aligned_eval eps maxv ch j u G Cch J Hj Hu 0) as (q' & Q1 & Q2). assert (q' = p) by congruence. subst q'. eexists. exact Q2.
  Qed.
End Real.
