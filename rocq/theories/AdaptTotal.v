(** * Adaptive tessellation of well-formed surfaces *)
From Coq Require Import Reals Lra Lia List Sorted.
From Verif Require Import Base BaseFacts Scalar RSum KnotFacts KnotSpec KnotModel KnotProofs MiscModel CurveModel SurfaceModel SurfaceSpec SurfaceProofs SurfaceRational AdaptModel AdaptProofs AdaptForest AdaptReal AdaptEdges AdaptPoly AdaptMesh AdaptTiling AdaptSurface.
Import ListNotations.
Open Scope R_scope.

Section Real.
  Variables eps maxv : R.
  Local Hint Extern 0 (Scalar R) => exact (ROps eps maxv) : typeclass_instances.
  Local Notation lower := (@lower R (ROps eps maxv)).
  Local Notation upper := (@upper R (ROps eps maxv)).
  Local Notation tree := (@tree R (ROps eps maxv)).
  Local Notation node_ok := (@node_ok R (ROps eps maxv)).
  Variable s : Surf R.
  Hypotheses (Hs : surf_ok s) (Hse : surf_eps eps s).
  Definition dom_rect : Rect R := MkRect (u0 s) (v0 s) (u1 s) (v1 s).

  Lemma derivs_ok u v : in_rect dom_rect (u, v) -> exists ds, surf_rational_derivatives s u v 1 = Ok ds /\ is_ok (get2 ds 0 0) /\ is_ok (get2 ds 1 0) /\ is_ok (get2 ds 0 1).
  Proof.
    intros (Hu & Hv). cbn [dom_rect rl rr rb rt fst snd] in *. destruct Hse as (E1 & E2).
    destruct (span_exists eps maxv (suk s) (sdu s) (nrow s - 1) u (so_uk s Hs) E1) as (su & Hsu & Iu).
    { unfold u0, u1 in Hu. replace (S (nrow s - 1)) with (nrow s) by (pose proof (so_u s Hs); lia). exact Hu. }
    destruct (span_exists eps maxv (svk s) (sdv s) (ncol s - 1) v (so_vk s Hs) E2) as (sv & Hsv & Iv).
    { unfold v0, v1 in Hv. replace (S (ncol s - 1)) with (ncol s) by (pose proof (so_v s Hs); lia). exact Hv. }
    destruct (surf_rational_piece eps maxv s u v 1 su sv Hs Hse Hsu Hsv Iu Iv) as (ds & E & L & V).
    destruct (V 0%nat ltac:(lia)) as (L0 & _). destruct (V 1%nat ltac:(lia)) as (L1 & _).
    exists ds. split; [exact E|]. split; [|split]; (eexists; apply get2_ent; lia).
  Qed.
  Lemma evaluate_ok uv : in_rect dom_rect uv -> is_ok (evaluate_surface s uv).
  Proof.
    intros H. rewrite (surjective_pairing uv) in H. destruct (derivs_ok _ _ H) as (ds & E & (a & Ea) & (b & Eb) & (c & Ec)).
    unfold evaluate_surface. rewrite E. cbn [bind]. rewrite Ea. cbn [bind]. rewrite Eb. cbn [bind]. rewrite Ec. cbn [bind]. eexists. reflexivity.
  Qed.
  Lemma split_ok n d id0 id1 r nb : node_ok n r nb -> rect_ok r -> within r dom_rect -> is_ok (split_node s n d id0 id1).
  Proof.
    intros ((H0 & H1 & H2 & H3) & _ & Hc) Hr W. unfold split_node, evaluate_mid_point, mid_uv. rewrite H0, H1, H2, Hc. cbn [fst snd].
    rewrite half_u_R, half_v_R. destruct Hr as (R1 & R2). unfold within in W.
    assert (G : forall x y, rl r <= x <= rr r -> rb r <= y <= rt r -> is_ok (evaluate_surface s (x, y))).
    { intros x y Hx Hy. apply evaluate_ok. unfold in_rect. cbn [fst snd]. lra. }
    destruct d.
    - destruct (G (rr r) ((rb r + rt r) / 2)) as (p & Ep); [lra|lra|]. destruct (G (rl r) ((rb r + rt r) / 2)) as (q & Eq); [lra|lra|].
      rewrite Ep. cbn [bind]. rewrite Eq. cbn [bind]. eexists. reflexivity.
    - destruct (G ((rl r + rr r) / 2) (rb r)) as (p & Ep); [lra|lra|]. destruct (G ((rl r + rr r) / 2) (rt r)) as (q & Eq); [lra|lra|].
      rewrite Ep. cbn [bind]. rewrite Eq. cbn [bind]. eexists. reflexivity.
  Qed.
  Lemma within_trans r1 r2 r3 : within r1 r2 -> within r2 r3 -> within r1 r3.
  Proof. unfold within. lra. Qed.

  Lemma iterate_total o : forall fuel nodes id depth dir n r nb,
    (depth <= Nat.max (ao_min_depth o) (ao_max_depth o) < fuel + depth)%nat ->
    nth_error nodes id = Some n -> an_children n = None -> node_ok n r nb -> rect_ok r -> within r dom_rect ->
    is_ok (iterate fuel s o nodes id depth dir).
  Proof.
    induction fuel as [|fuel IH]; intros nodes id depth dir n r nb Hf En Cn Hn Hr W; [lia|]. cbn [iterate].
    rewrite (proj2 (nth_error_get _ _ _) En). cbn [bind]. destruct (should_divide o depth n) as [n' d'] eqn:Es.
    destruct (should_divide_ok _ _ _ _ _ _ _ Hn Es) as (Hn' & Cn' & Hd).
    assert (Li : (id < length nodes)%nat) by (apply nth_error_Some; congruence).
    destruct d' as [dv|]; [|eexists; now apply set_ok].
    assert (Hd' : (depth < Nat.max (ao_min_depth o) (ao_max_depth o))%nat).
    { destruct (Nat.lt_ge_cases depth (Nat.max (ao_min_depth o) (ao_max_depth o))) as [C|C]; [exact C|]. specialize (Hd C). discriminate. }
    set (d := match dv with DivBoth => dir | DivU => DirU | DivV => DirV end).
    destruct (split_ok n' d (length nodes) (S (length nodes)) r nb Hn' Hr W) as ((c0, c1) & Esp). rewrite Esp. cbn [bind].
    rewrite set_ok by exact Li. cbn [bind].
    destruct (split_node_ok _ _ _ _ _ _ _ _ Hn' Esp) as ((N0 & K0) & (N1 & K1)).
    set (nodes1 := upd nodes id _ ++ [c0; c1]).
    assert (L1 : length (upd nodes id (MkANode (Some (length nodes, S (length nodes))) (an_corners n') (an_nb n') d (an_center n'))) = length nodes) by apply upd_length.
    assert (E0 : nth_error nodes1 (length nodes) = Some c0).
    { unfold nodes1. rewrite nth_error_app2 by lia. rewrite L1, Nat.sub_diag. reflexivity. }
    assert (E1 : nth_error nodes1 (S (length nodes)) = Some c1).
    { unfold nodes1. rewrite nth_error_app2 by lia. rewrite L1. replace (S (length nodes) - length nodes)%nat with 1%nat by lia. reflexivity. }
    destruct (IH nodes1 (length nodes) (S depth) (uv_opposite dir) c0 _ _ ltac:(lia) E0 K0 N0 (lower_ok eps maxv d r Hr) (within_trans _ _ _ (lower_within eps maxv d r Hr) W)) as (nodes2 & E2).
    rewrite E2. cbn [bind].
    destruct (iterate_tree _ _ _ _ _ _ _ _ _ _ _ E2 E0 K0 N0) as (_ & Fr).
    apply (IH nodes2 (S (length nodes)) (S depth) (uv_opposite dir) c1 _ _ ltac:(lia)) with (2 := K1) (3 := N1); [|now apply upper_ok|].
    - rewrite Fr; [exact E1|lia|]. unfold nodes1. rewrite app_length, L1. cbn [length]. lia.
    - eapply within_trans; [now apply upper_within|exact W].
  Qed.

  Section Grid.
    Variables (us vs : list R) (du dv : nat).
    Hypotheses (Lu : length us = S du) (Lv : length vs = S dv) (Iu : increasing us) (Iv : increasing vs) (Pu : (0 < du)%nat) (Pv : (0 < dv)%nat).
    Hypothesis (W : within (whole us vs du dv) dom_rect).
    Local Notation cell := (@cell_rect R (ROps eps maxv) us vs du dv).

    Lemma mapM_total {A B} (f : A -> Res B) : forall l, (forall x, In x l -> is_ok (f x)) -> is_ok (mapM f l).
    Proof.
      induction l as [|x l IH]; intros H; [eexists; reflexivity|]. cbn [mapM]. destruct (H x (or_introl eq_refl)) as (y & Ey). rewrite Ey. cbn [bind].
      destruct IH as (t & Et); [intros z Hz; apply H; now right|]. rewrite Et. cbn [bind]. eexists. reflexivity.
    Qed.
    Lemma in_combine_nth {A} (l : list A) i x d : In (i, x) (combine (seq 0 (length l)) l) -> (i < length l)%nat /\ x = nth i l d.
    Proof.
      intros H. apply (In_nth _ _ (0%nat, d)) in H. destruct H as (k & Lk & E). rewrite combine_length, seq_length, Nat.min_id in Lk.
      rewrite combine_nth in E by (now rewrite seq_length). rewrite seq_nth in E by exact Lk. injection E as <- <-. cbn [Nat.add]. auto.
    Qed.
    Lemma grid_points_total bc : is_ok (grid_points s bc us vs du dv).
    Proof.
      apply mapM_total. intros (iv, v) Hv. apply (in_combine_nth _ _ _ 0) in Hv. destruct Hv as (Lv' & ->).
      apply mapM_total. intros (iu, u) Hu. apply (in_combine_nth _ _ _ 0) in Hu. destruct Hu as (Lu' & ->).
      unfold grid_point. rewrite (usub_ok dv 1) by lia. cbn [bind].
      assert (H : in_rect dom_rect (nth iu us 0, nth iv vs 0)).
      { unfold within, whole in W. cbn [rl rr rb rt] in W. unfold in_rect. cbn [fst snd].
        pose proof (increasing_le us 0 iu Iu ltac:(lia)). pose proof (increasing_le us iu du Iu ltac:(lia)).
        pose proof (increasing_le vs 0 iv Iv ltac:(lia)). pose proof (increasing_le vs iv dv Iv ltac:(lia)). lra. }
      destruct (derivs_ok _ _ H) as (ds & E & (a & Ea) & (b & Eb) & (c & Ec)). rewrite E. cbn [bind]. rewrite Ea. cbn [bind]. rewrite Eb. cbn [bind]. rewrite Ec. cbn [bind].
      rewrite (usub_ok du 1) by lia. cbn [bind]. eexists. reflexivity.
    Qed.
    Lemma grid_cells_total bc pts : grid_points s bc us vs du dv = Ok pts -> is_ok (mapM (grid_cell pts du dv) (seq 0 (dv * du))).
    Proof.
      intros E. apply mapM_total. intros i Hi. apply in_seq in Hi. destruct (cell_bounds us vs du dv Lu Lv i ltac:(lia)) as (H1 & H2 & H3).
      unfold grid_cell. rewrite (usub_ok dv (i / du)) by lia. cbn [bind]. rewrite (usub_ok (dv - i / du) 1) by lia. cbn [bind].
      assert (G : forall a b, (a <= dv)%nat -> (b <= du)%nat -> is_ok (get2 pts a b)).
      { intros a b Ha Hb. apply mapM_inv in E.
        assert (LP : length pts = length vs) by (rewrite <- (Forall2_len _ _ _ E), combine_length, seq_length; lia).
        unfold get2. rewrite (get_ok pts a []) by lia. cbn [bind].
        assert (LR : length (nth a pts []) = length us).
        { destruct (nth_error pts a) as [row|] eqn:Er; [|apply nth_error_None in Er; lia].
          destruct (Forall2_nth_error _ _ _ _ _ E Er) as ([iv v] & _ & Hrow). cbv beta iota in Hrow. apply mapM_inv in Hrow.
          rewrite (nth_error_nth _ _ [] Er). rewrite <- (Forall2_len _ _ _ Hrow), combine_length, seq_length. lia. }
        eexists. apply (get_ok _ b (sp_new (0, 0) [] [] false)). lia. }
      destruct (G (dv - i / du - 1)%nat (i mod du) ltac:(lia) ltac:(lia)) as (p1 & E1). rewrite E1. cbn [bind].
      destruct (G (dv - i / du - 1)%nat (i mod du + 1)%nat ltac:(lia) ltac:(lia)) as (p2 & E2). rewrite E2. cbn [bind].
      destruct (G (dv - i / du)%nat (i mod du + 1)%nat ltac:(lia) ltac:(lia)) as (p3 & E3). rewrite E3. cbn [bind].
      destruct (G (dv - i / du)%nat (i mod du) ltac:(lia) ltac:(lia)) as (p4 & E4). rewrite E4. cbn [bind].
      unfold cell_south, cell_east, cell_north, cell_west. rewrite (usub_ok dv 1) by lia. cbn [bind]. rewrite (usub_ok du 1) by lia. cbn [bind].
      destruct (Nat.eqb_spec (i / du) 0) as [Z|Z]; cbn [bind]; [eexists; reflexivity|].
      assert (du <= i)%nat. { destruct (Nat.lt_ge_cases i du) as [C|C]; [|exact C]. now rewrite Nat.div_small in Z by exact C. }
      rewrite (usub_ok i du) by lia. cbn [bind]. rewrite (usub_ok i 1) by lia. cbn [bind]. eexists. reflexivity.
    Qed.

    Lemma divide_total o rect nb N : (forall i, (i < N)%nat -> rect_ok (rect i) /\ within (rect i) dom_rect) -> forall k j cells, (j + k = N)%nat ->
      (forall i, (j <= i < N)%nat -> exists n, nth_error cells i = Some n /\ node_ok n (rect i) (nb i) /\ an_children n = None) ->
      is_ok (foldM (divide s o) (seq j k) cells).
    Proof.
      intros HR. induction k as [|k IH]; intros j cells Hj HC; [eexists; reflexivity|]. cbn [seq foldM].
      destruct (HC j ltac:(lia)) as (n & En & Hn & Cn). destruct (HR j ltac:(lia)) as (R1 & R2).
      destruct (iterate_total o (adapt_fuel o) cells j 0 (if (1 <? sdu s)%nat then DirU else DirV) n (rect j) (nb j)) as (cells1 & E1); auto.
      { unfold adapt_fuel. lia. }
      unfold divide at 1. rewrite E1. cbn [bind]. apply IH; [lia|]. intros i Hi. destruct (HC i ltac:(lia)) as (n' & En' & X). exists n'. split; [|exact X].
      destruct (iterate_tree _ _ _ _ _ _ _ _ _ _ _ E1 En Cn Hn) as (_ & Fr). rewrite Fr; [exact En'|lia|]. apply nth_error_Some. congruence.
    Qed.

    Lemma cell_in i : (i < dv * du)%nat -> within (cell i) dom_rect.
    Proof. intros Hi. eapply within_trans; [apply (cell_within eps maxv us vs du dv Lu Lv Iu Iv i Hi)|exact W]. Qed.
    Lemma nodes_total bc opts : adaptive_grid s bc (match opts with Some o => o | None => ao_default end) = Ok (us, vs) -> is_ok (adaptive_nodes s bc opts).
    Proof.
      intros EG. unfold adaptive_nodes. rewrite EG. cbn [bind]. rewrite Lu, Lv. rewrite !usub_ok by lia. cbn [bind].
      replace (S du - 1)%nat with du by lia. replace (S dv - 1)%nat with dv by lia.
      destruct (grid_points_total bc) as (pts & Ep). rewrite Ep. cbn [bind]. destruct (grid_cells_total bc pts Ep) as (cells & Ec). rewrite Ec. cbn [bind].
      destruct opts as [o|]; [|eexists; reflexivity].
      apply (divide_total o cell (cell_nb du dv) (dv * du)); [|lia|].
      - intros i Hi. split; [now apply (cell_ok eps maxv us vs du dv Lu Lv Iu Iv)|now apply cell_in].
      - intros i Hi. assert (LC : length cells = (dv * du)%nat) by (erewrite <- (Forall2_len _ _ _ (mapM_inv _ _ _ Ec)); apply seq_length).
        destruct (nth_error cells i) as [n|] eqn:En; [|apply nth_error_None in En; lia].
        exists n. split; [reflexivity|]. destruct (mapM_nth_error _ _ _ _ _ Ec En) as (i' & Ei & Eb).
        assert (i' = i) as -> by (apply (nth_error_nth _ _ 0%nat) in Ei; rewrite seq_nth in Ei by lia; lia).
        apply (grid_cell_ok s bc us vs du dv pts i n Ep); [|exact Eb]. exact Pu.
    Qed.
    Lemma triangulate_total nodes h b be : 0 < eps -> forest nodes h (dv * du) cell (cell_nb du dv) b -> (forall b', be = Some b' -> forall p, is_ok (snap b' p)) ->
      is_ok (foldM (triangulate s nodes be) nodes (MkTess [] [] [] [])).
    Proof.
      intros He F HB.
      assert (G : forall l m, (forall n, In n l -> In n nodes) -> is_ok (foldM (triangulate s nodes be) l m)).
      { induction l as [|n l IH]; intros m Hl; [eexists; reflexivity|]. cbn [foldM].
        assert (K : is_ok (triangulate s nodes be m n)); [|destruct K as (m1 & E1); rewrite E1; cbn [bind]; apply IH; intros n' Hn'; apply Hl; now right].
        unfold triangulate. destruct (an_children n) eqn:Cn; [eexists; reflexivity|].
        destruct (In_nth_error _ _ (Hl n (or_introl eq_refl))) as (j & Ej).
        destruct (forest_locate _ _ _ _ _ _ F j) as (i & Hi & Hj); [apply nth_error_Some; congruence|].
        pose proof (forest_mono _ _ _ _ _ _ (S i) (dv * du) F ltac:(lia)) as M.
        assert (F' := F). destruct F' as (B0 & BN & B). destruct (B i Hi) as (_ & Ti).
        destruct (tree_leaf_nb eps maxv _ _ _ _ _ _ _ Ti (cell_ok eps maxv us vs du dv Lu Lv Iu Iv i Hi) ltac:(lia)
          (fun e => cell_nb_ok eps maxv us vs du dv Lu Lv Iu Iv nodes h b i e F Hi) j n Hj Ej Cn) as (r & Hn & Hr & HN).
        assert (Wr : within r dom_rect).
        { destruct (tree_leaves eps maxv _ _ _ _ _ _ _ Ti (cell_ok eps maxv us vs du dv Lu Lv Iu Iv i Hi) j r Hj) as (_ & Wr).
          - exists n. split; [exact Ej|]. split; [exact Cn|apply Hn].
          - eapply within_trans; [exact Wr|now apply cell_in]. }
        assert (GC : forall e, exists l, get_all_corners nodes n e = Ok l /\ side e r (map sp_uv l)).
        { intros e. assert (X : is_ok (get_all_corners nodes n e)).
          { unfold get_all_corners. specialize (HN e). destruct (four (an_nb n) e) as [q|]; [|eexists; reflexivity].
            destruct HN as (h' & lo & hi & rn & nbn & Tn & Hl' & _). destruct (edge_corners_ok _ _ _ _ _ _ _ Tn (S (length nodes)) (opp_edge e) ltac:(lia)) as (cs & Ecs).
            rewrite Ecs. cbn [bind]. eexists. reflexivity. }
          destruct X as (l0 & El). exists l0. split; [exact El|]. apply (all_corners_side eps maxv nodes n r e l0 He Hn Hr (HN e) El). }
        destruct (GC South) as (cS & ES & _), (GC East) as (cE & EE & _), (GC North) as (cN & EN & _), (GC West) as (cW & EW & SW).
        unfold leaf_polygon, edges. cbn [mapM]. rewrite ES. cbn [bind]. rewrite EE. cbn [bind]. rewrite EN. cbn [bind]. rewrite EW. cbn [bind].
        set (cs := [cS; cE; cN; cW]). set (sid := match position _ cs with Some i => S i | None => 0%nat end).
        assert (Hsid : (sid < 5)%nat).
        { unfold sid. destruct (position _ cs) as [k|] eqn:Ek; [|lia]. apply (position_some _ _ _ cS) in Ek. cbn [length cs] in Ek. lia. }
        assert (HQ : exists pts, (match be with Some b => mapM (snap b) (concat cs) | None => Ok (concat cs) end) = Ok pts /\ length pts = length (concat cs)).
        { destruct be as [b'|]; [|eauto]. destruct (mapM_total (snap b') (concat cs)) as (pts & Ep); [intros x _; now apply HB|].
          exists pts. split; [exact Ep|]. symmetry. exact (Forall2_len _ _ _ (mapM_inv _ _ _ Ep)). }
        destruct HQ as (pts & EQ & LQ). cbv zeta. rewrite EQ. cbn [bind].
        destruct (Nat.eqb_spec (length pts) 4) as [K4|K4]; [eexists; reflexivity|]. destruct (Nat.eqb_spec (length pts) 5) as [K5|K5].
        - rewrite (get_ok _ sid 0%nat); [cbn [bind]; eexists; reflexivity|]. rewrite map_length, seq_length. lia.
        - destruct (evaluate_ok (an_center n)) as (c & Ec).
          { destruct Hn as (_ & _ & Ce). rewrite half_u_R, half_v_R in Ce. rewrite Ce. destruct Hr. unfold within in Wr. unfold in_rect. cbn [fst snd]. lra. }
          rewrite Ec. cbn [bind]. rewrite usub_ok; [cbn [bind]; eexists; reflexivity|].
          destruct SW as (xs & Exs & _). rewrite LQ. unfold cs. cbn [concat]. rewrite !app_length. destruct cW; [discriminate|]. cbn [length]. lia. }
      apply G. auto.
    Qed.
    Lemma tess_total nodes h b : 0 < eps -> forest nodes h (dv * du) cell (cell_nb du dv) b -> is_ok (tess_new s nodes None).
    Proof. intros He F. unfold tess_new. cbn [bind]. apply (triangulate_total nodes h b None He F). discriminate. Qed.
  End Grid.
End Real.
