(** * The closest point search on a surface: never farther than any point of the grid it starts from *)
From Coq Require Import Reals Lra Lia List Sorted.
From Verif Require Import Base BaseFacts Scalar RSum BSpline KnotFacts KnotSpec KnotModel KnotProofs VecFacts MiscModel CurveModel SurfaceModel SurfaceSpec SurfaceProofs SurfaceSample SurfaceDeriv SurfaceRational
  AdaptModel AdaptProofs AdaptForest AdaptReal AdaptEdges AdaptPoly AdaptMesh AdaptTiling AdaptSurface AdaptTotal AdaptMain CurveShapes TraversalModel TraversalSurface ClosestModel NewtonSurf GradientProofs TrimModel.
Import ListNotations.

Section Any.
  Context {T : Type} {SO : Scalar T}.
  Local Open Scope nat_scope.

  (** ** The corners of the leaves are vertices of the mesh *)
  Lemma leaf_corner_in nodes (n : ANode T) sid pts e : leaf_polygon nodes None n = Ok (sid, pts) -> In (four (an_corners n) e) pts.
  Proof.
    unfold leaf_polygon. intros E. apply bind_ok in E. destruct E as (cs & Ecs & E). cbn [bind] in E. injection E as _ <-.
    assert (G : forall es cs, mapM (get_all_corners nodes n) es = Ok cs -> In e es -> In (four (an_corners n) e) (concat cs)).
    { clear. induction es as [|e' es IH]; intros cs E I; [destruct I|]. cbn [mapM] in E. apply bind_ok in E. destruct E as (l & El & E).
      apply bind_ok in E. destruct E as (ls & Els & E). injection E as <-. cbn [concat]. apply in_or_app. destruct I as [->|I]; [|right; now apply IH].
      left. unfold get_all_corners in El. destruct (four (an_nb n) e) as [nb|]; [|injection El as <-; now left].
      apply bind_ok in El. destruct El as (c & _ & El). injection El as <-. now left. }
    apply (G edges cs Ecs). destruct e; cbn; auto.
  Qed.
  Lemma triangulate_keeps s nodes b m n m' : triangulate (SO := SO) s nodes b m n = Ok m' -> exists ws, tuvs m' = tuvs m ++ ws.
  Proof.
    intros E. unfold triangulate in E. destruct (an_children n); [injection E as <-; exists []; now rewrite app_nil_r|].
    apply bind_ok in E. destruct E as ([sid pts] & _ & E). cbv zeta in E. destruct (length pts =? 4); [|destruct (length pts =? 5)].
    - injection E as <-. cbn [tuvs]. eauto.
    - apply bind_ok in E. destruct E as (a & _ & E). injection E as <-. cbn [tuvs]. eauto.
    - apply bind_ok in E. destruct E as (c & _ & E). apply bind_ok in E. destruct E as (l & _ & E). injection E as <-. cbn [tuvs]. rewrite <- app_assoc. eauto.
  Qed.
  Lemma triangulate_corner s nodes m n m' e : triangulate (SO := SO) s nodes None m n = Ok m' -> an_children n = None -> In (sp_uv (four (an_corners n) e)) (tuvs m').
  Proof.
    intros E C. unfold triangulate in E. rewrite C in E. apply bind_ok in E. destruct E as ([sid pts] & EL & E).
    pose proof (in_map sp_uv _ _ (leaf_corner_in _ _ _ _ e EL)) as I. cbv zeta in E. destruct (length pts =? 4); [|destruct (length pts =? 5)].
    - injection E as <-. cbn [tuvs]. apply in_or_app. now right.
    - apply bind_ok in E. destruct E as (a & _ & E). injection E as <-. cbn [tuvs]. apply in_or_app. now right.
    - apply bind_ok in E. destruct E as (c & _ & E). apply bind_ok in E. destruct E as (l & _ & E). injection E as <-. cbn [tuvs].
      apply in_or_app. left. apply in_or_app. now right.
  Qed.
  Lemma tess_corner s nodes m n e : tess_new s nodes None = Ok m -> In n nodes -> an_children n = None -> In (sp_uv (four (an_corners n) e)) (tuvs m).
  Proof.
    unfold tess_new. cbn [bind]. intros E I C.
    assert (K : forall l m0 m1 x, foldM (triangulate s nodes None) l m0 = Ok m1 -> In x (tuvs m0) -> In x (tuvs m1)).
    { clear. induction l as [|a l IH]; intros m0 m1 x E I; cbn [foldM] in E; [injection E as <-; exact I|]. apply bind_ok in E. destruct E as (m2 & E2 & E).
      apply (IH m2); [exact E|]. destruct (triangulate_keeps _ _ _ _ _ _ E2) as (ws & ->). apply in_or_app. now left. }
    assert (G : forall l m0, In n l -> foldM (triangulate s nodes None) l m0 = Ok m -> In (sp_uv (four (an_corners n) e)) (tuvs m)).
    { induction l as [|a l IH]; intros m0 Il El; [destruct Il|]. cbn [foldM] in El. apply bind_ok in El. destruct El as (m2 & E2 & El).
      destruct Il as [->|Il]; [|now apply (IH m2)]. apply (K l m2 m _ El). eapply triangulate_corner; eauto. }
    now apply (G nodes _ I E).
  Qed.
  Definition rcorner (r : Rect T) (e : Edge) : T * T :=
    match e with South => (rl r, rb r) | East => (rr r, rb r) | North => (rr r, rt r) | West => (rl r, rt r) end.
  Lemma shaped_corner c r e : shaped (T := T) c r -> sp_uv (four c e) = rcorner r e.
  Proof. intros (H0 & H1 & H2 & H3). destruct e; assumption. Qed.
  (** the corners of a divided cell are corners of its leaves *)
  Lemma tree_corner nodes h id lo hi r nb e : tree nodes h id lo hi r nb ->
    exists n, In n nodes /\ an_children n = None /\ sp_uv (four (an_corners n) e) = rcorner r e.
  Proof.
    induction 1 as [h id lo r nb n E1 E2 E3|h id lo m hi r nb n d En Ec Ed Hn T0 IH0 T1 IH1].
    - exists n. split; [eapply nth_error_In; eauto|]. split; [exact E2|]. apply shaped_corner. exact (proj1 E3).
    - destruct d, e; first [exact IH0|exact IH1].
  Qed.
  (** the corners of every cell of the grid are vertices of the mesh *)
  Lemma grid_corner s nodes m h N rect nb b i e : forest nodes h N rect nb b -> i < N -> tess_new s nodes None = Ok m -> In (rcorner (rect i) e) (tuvs m).
  Proof.
    intros (_ & _ & F) Hi E. destruct (F i Hi) as (_ & Tr). destruct (tree_corner _ _ _ _ _ _ _ e Tr) as (n & I & C & Eq). rewrite <- Eq. now apply (tess_corner s nodes).
  Qed.
  Lemma grid_vertex s nodes m h us vs du dv nb b iu iv : forest nodes h (dv * du) (cell_rect us vs du dv) nb b -> tess_new s nodes None = Ok m ->
    0 < du -> 0 < dv -> iu <= du -> iv <= dv -> In (nth iu us szero, nth iv vs szero) (tuvs m).
  Proof.
    intros F E Pu Pv Hu Hv.
    assert (CA : forall a c, a < du -> c < dv -> (dv - 1 - c) * du + a < dv * du /\
      cell_rect us vs du dv ((dv - 1 - c) * du + a) = MkRect (nth a us szero) (nth c vs szero) (nth (S a) us szero) (nth (S c) vs szero)).
    { intros a c Ha Hc. split; [nia|]. unfold cell_rect.
      assert (Q : ((dv - 1 - c) * du + a) / du = dv - 1 - c) by (rewrite Nat.div_add_l by lia; rewrite Nat.div_small by lia; lia).
      assert (M : ((dv - 1 - c) * du + a) mod du = a) by (rewrite Nat.add_comm, Nat.mod_add by lia; now apply Nat.mod_small).
      rewrite Q, M. f_equal; f_equal; lia. }
    set (a := Nat.min iu (du - 1)). set (c := Nat.min iv (dv - 1)). destruct (CA a c) as (Lt & Eq); [unfold a; lia|unfold c; lia|].
    assert (G : forall e, In (rcorner (cell_rect us vs du dv ((dv - 1 - c) * du + a)) e) (tuvs m)) by (intros e; now apply (grid_corner s nodes m h (dv * du) _ nb b)).
    rewrite Eq in G. destruct (Nat.eq_dec iu du) as [->|Nu], (Nat.eq_dec iv dv) as [->|Nv].
    - specialize (G North). cbn [rcorner rr rt] in G. replace (S a) with du in G by (unfold a; lia). replace (S c) with dv in G by (unfold c; lia). exact G.
    - specialize (G East). cbn [rcorner rr rb] in G. replace (S a) with du in G by (unfold a; lia). replace c with iv in G by (unfold c; lia). exact G.
    - specialize (G West). cbn [rcorner rl rt] in G. replace a with iu in G by (unfold a; lia). replace (S c) with dv in G by (unfold c; lia). exact G.
    - specialize (G South). cbn [rcorner rl rb] in G. replace a with iu in G by (unfold a; lia). replace c with iv in G by (unfold c; lia). exact G.
  Qed.
End Any.

Open Scope R_scope.
Section Real.
  Variables eps maxv : R.
  Local Hint Extern 0 (Scalar R) => exact (ROps eps maxv) : typeclass_instances.

  (** the grid lines in one direction with [n] control points: the knots for degree one, otherwise two equal parts per control span *)
  Definition grid_line (k : list R) (p n : nat) (lo hi x : R) : Prop :=
    if (p <=? 1)%nat then exists i, (1 <= i <= n)%nat /\ x = kf k i
    else exists i, (i <= 2 * (n - 1))%nat /\ x = lo + (hi - lo) * (INR i / INR (2 * (n - 1))).

  Lemma grid_params_lines k p n l : knots_ok p n k -> (1 <= p)%nat -> grid_params k p (S n) (n * 2) 2 = Ok l ->
    forall x, grid_line k p (S n) (kf k p) (kf k (S n)) x -> exists i, (i < length l)%nat /\ x = nth i l 0.
  Proof.
    intros H Hp E x. unfold grid_params in E. unfold grid_line. pose proof (ko_len _ _ _ H) as L. pose proof (ko_pn _ _ _ H) as Hpn.
    destruct (Nat.leb_spec p 1) as [C|C].
    - assert (p = 1%nat) as -> by lia. rewrite usub_ok in E by lia. cbn [bind] in E. assert (EL : l = firstn (length k - 2) (skipn 1 k)) by congruence. rewrite EL. clear E EL. intros (i & Hi & ->). exists (i - 1)%nat.
      rewrite firstn_length, skipn_length. split; [lia|]. rewrite nth_firstn by lia. rewrite nth_skipn. rewrite (kf_nth k i 0) by lia. f_equal. lia.
    - rewrite usub_ok in E by lia. cbn [bind] in E. rewrite (domain_ok k p n H) in E. cbn [bind] in E. match type of E with Ok ?y = _ => assert (EL : l = y) by congruence end. rewrite EL. clear E EL. intros (i & Hi & ->). exists i.
      rewrite map_length, seq_length. replace (Nat.max (n * 2) ((S n - 1) * 2)) with (2 * (S n - 1))%nat by lia. split; [lia|].
      rewrite (nth_map_lt _ _ _ 0%nat) by (rewrite seq_length; lia). rewrite seq_nth by lia. cbn [Nat.add]. rewrite !(AdaptMain.sofnat_INR eps maxv). rs.
      assert (0 < INR (2 * (S n - 1))) by (apply lt_0_INR; lia). set (N := INR _) in *. field. lra.
  Qed.

  Theorem surf_closest_grid solve2 s p u v : surf_ok s -> surf_eps eps s -> spos s -> sdim s = 4%nat -> (1 <= sdu s)%nat -> (1 <= sdv s)%nat ->
    simple1 (sdu s) (nrow s - 1) (suk s) -> simple1 (sdv s) (ncol s - 1) (svk s) -> length p = 3%nat ->
    surf_closest solve2 s p = Ok (u, v) ->
    exists q, surf_point_at s u v = Ok q /\
      forall a b r, grid_line (suk s) (sdu s) (nrow s) (u0 s) (u1 s) a -> grid_line (svk s) (sdv s) (ncol s) (v0 s) (v1 s) b ->
        surf_point_at s a b = Ok r -> rdist q p <= rdist r p.
  Proof.
    intros Hs Hse Hsp HD Hdu Hdv Su Sv Lp E. assert (He : 0 < eps) by (destruct Hse as ((H & _) & _); exact H).
    pose proof (so_u s Hs) as Nr. pose proof (so_v s Hs) as Nc.
    unfold surf_closest in E. change (length (snet s)) with (nrow s) in E. rewrite usub_ok in E by lia. cbn [bind] in E.
    assert (G0 : get (snet s) 0 = Ok (nth 0 (snet s) [])) by (apply get_ok; unfold nrow in Nr; lia). rewrite G0 in E. cbn [bind] in E.
    assert (LR : length (nth 0 (snet s) []) = ncol s).
    { pose proof (so_rect s Hs) as FR. rewrite Forall_forall in FR. apply FR. apply nth_In. unfold nrow in Nr; lia. }
    rewrite LR in E. rewrite usub_ok in E by lia. cbn [bind] in E. cbv zeta in E. apply bind_ok in E. destruct E as (m & Em & E).
    set (o := MkAOpts (ao_tol ao_default) ((nrow s - 1) * 2) ((ncol s - 1) * 2) (ao_min_depth ao_default) (ao_max_depth ao_default)) in *.
    destruct (adaptive_mesh eps maxv s (Some o) Hs Hse HD Hdu Hdv Su Sv) as (m' & Em' & _ & F). rewrite Em in Em'. injection Em' as <-.
    pose proof (adaptive_on_surface s None (Some o) m Em) as FO.
    assert (HV : forall x q, In (x, q) (combine (tuvs m) (tpts m)) -> in_dom s (fst x) (snd x) /\ surf_point_at s (fst x) (snd x) = Ok q).
    { assert (G : forall us ps, Forall2 (fun uv p => in_rect (dom_rect s) uv /\ forall i, (i < 3)%nat -> rc i p = snurbs s i (fst uv) (snd uv)) us ps -> Forall2 (point_of s) us ps ->
        forall x q, In (x, q) (combine us ps) -> in_dom s (fst x) (snd x) /\ surf_point_at s (fst x) (snd x) = Ok q).
      { clear - Hs Hse Hsp HD. induction 1 as [|x q us ps (H1 & H2) F IH]; intros FO y r I; [destruct I|]. inversion FO; subst. destruct I as [[= <- <-]|I]; [|now apply IH].
        assert (Dx : in_dom s (fst x) (snd x)) by exact H1. split; [exact Dx|].
        destruct (surf_point_at_spec eps maxv s _ _ Hs Hse Dx) as (r & Er & Lr & Vr); [apply Rgt_not_eq, (swfun_pos eps maxv); auto|].
        rewrite Er. f_equal. match goal with P : point_of s x q |- _ => destruct (point_of_spec eps maxv s x q Hs Hse H1 P) as (Lq & Vq) end.
        apply (vec_ext _ _ (sdim s - 1)); auto. intros i Hi. now rewrite Vr, Vq. }
      exact (G _ _ F FO). }
    destruct (surf_closest_no_worse eps maxv solve2 s (combine (tuvs m) (tpts m)) p (u, v) Hs ltac:(lia) (fun x q I => proj2 (HV x q I)) E) as (d & (q & Eq & ->) & M).
    cbn [fst snd] in Eq. exists q. split; [exact Eq|]. intros a b r Ga Gb Er.
    unfold adaptive_tessellate in Em. apply bind_ok in Em. destruct Em as (nodes & EN & Em).
    destruct (adaptive_forest s None (Some o) nodes EN) as (us & vs & du & dv & bb & FX). cbv zeta in FX. destruct FX as (EG & Lu & Lv & FF).
    unfold adaptive_grid in EG. cbv zeta in EG. apply bind_ok in EG. destruct EG as (us' & Eu & EG). apply bind_ok in EG. destruct EG as (row & Erow & EG).
    apply bind_ok in EG. destruct EG as (vs' & Ev & EG). injection EG as -> ->. change (length (snet s)) with (nrow s) in Eu. cbn [ao_divs_u ao_divs_v o] in Eu, Ev.
    assert (Ev' : grid_params (svk s) (sdv s) (ncol s) ((ncol s - 1) * 2) 2 = Ok vs).
    { destruct (Nat.leb_spec (sdv s) 1) as [C|C].
      - unfold grid_params in *. rewrite (proj2 (Nat.leb_le _ _) C) in *. exact Ev.
      - rewrite G0 in Erow. injection Erow as <-. rewrite LR in Ev. exact Ev. }
    assert (SR : S (nrow s - 1) = nrow s) by lia. assert (SC : S (ncol s - 1) = ncol s) by lia.
    rewrite <- SR in Eu at 1. rewrite <- SC in Ev' at 1.
    destruct (grid_params_lines (suk s) (sdu s) (nrow s - 1) us (so_uk s Hs) Hdu Eu a) as (iu & Hiu & ->). { rewrite SR. exact Ga. }
    destruct (grid_params_lines (svk s) (sdv s) (ncol s - 1) vs (so_vk s Hs) Hdv Ev' b) as (iv & Hiv & ->). { rewrite SC. exact Gb. }
    destruct (AdaptMain.grid_params_spec eps maxv (suk s) (sdu s) (nrow s - 1) ((nrow s - 1) * 2) 2 (so_uk s Hs) Hdu ltac:(lia) Su) as (l1 & d1 & El1 & Ll1 & Pd1 & _). rewrite Eu in El1. injection El1 as <-.
    destruct (AdaptMain.grid_params_spec eps maxv (svk s) (sdv s) (ncol s - 1) ((ncol s - 1) * 2) 2 (so_vk s Hs) Hdv ltac:(lia) Sv) as (l2 & d2 & El2 & Ll2 & Pd2 & _). rewrite Ev' in El2. injection El2 as <-.
    pose proof (grid_vertex s nodes m _ us vs du dv _ bb iu iv FF Em ltac:(lia) ltac:(lia) ltac:(lia) ltac:(lia)) as I. cbn [szero ROps] in I.
    assert (I2 : exists r', In ((nth iu us 0, nth iv vs 0), r') (combine (tuvs m) (tpts m))).
    { clear - I F. revert I. induction F as [|x y l l' _ F IH]; intros I; [destruct I|]. destruct I as [<-|I]; [exists y; now left|]. destruct (IH I) as (r' & I'). exists r'. now right. }
    destruct I2 as (r' & I2). pose proof (proj2 (HV _ _ I2)) as Er'. cbn [fst snd] in Er'. rewrite Er in Er'. injection Er' as <-. exact (M _ _ I2).
  Qed.

  (** ** The search on an open net always answers, unless a Newton system is singular *)
  Section Search.
    Variables (solve2 : R -> R -> R -> R * R -> option (R * R)).
    Definition solved {A} (P : A -> Prop) (r : Res A) : Prop := (exists a, r = Ok a /\ P a) \/ (r = Err "Failed to solve" /\ exists a b c g, solve2 a b c g = None).
    Lemma solved_bind {A B} (P : A -> Prop) (Q : B -> Prop) r f : solved P r -> (forall a, P a -> solved Q (f a)) -> solved Q (bind r f).
    Proof. intros [(a & -> & H)|( -> & H)] G; [now apply G|right; auto]. Qed.
    Lemma solved_ok {A} (P : A -> Prop) a : P a -> solved P (Ok a).
    Proof. left. now exists a. Qed.

    Variables (s : Surf R) (p : list R).
    Hypotheses (Hs : surf_ok s) (Hse : surf_eps eps s) (Hsp : spos s) (Wu : eps <= u1 s - u0 s) (Wv : eps <= v1 s - v0 s).
    Local Notation box := (in_box (u0 s, u1 s) (v0 s, v1 s)).

    Lemma box_point x : box x -> exists q, surf_point_at s (fst x) (snd x) = Ok q.
    Proof.
      intros B. destruct (surf_point_at_spec eps maxv s _ _ Hs Hse B) as (r & Er & _); [apply Rgt_not_eq, (swfun_pos eps maxv); auto|eauto].
    Qed.
    Lemma box_cost x : box x -> exists c, surf_cost s p x = Ok c.
    Proof. intros B. destruct (box_point x B) as (q & E). unfold surf_cost. rewrite E. cbn [bind]. eauto. Qed.
    Lemma box_move x : box x -> solved (fun _ => True) (surf_move solve2 s p x).
    Proof.
      intros B. destruct (box_point x B) as (q & E). unfold surf_move. rewrite E. cbn [bind]. destruct x as (u, v). cbn [fst snd] in *.
      destruct B as (Hu & Hv). cbn [fst snd] in Hu, Hv. assert (Hse' := Hse). destruct Hse' as (E1 & E2).
      destruct (span_exists eps maxv (suk s) (sdu s) (nrow s - 1) u (so_uk s Hs) E1) as (su & Hsu & Iu).
      { unfold u0, u1 in Hu. replace (S (nrow s - 1)) with (nrow s) by (pose proof (so_u s Hs); lia). exact Hu. }
      destruct (span_exists eps maxv (svk s) (sdv s) (ncol s - 1) v (so_vk s Hs) E2) as (sv & Hsv & Iv).
      { unfold v0, v1 in Hv. replace (S (ncol s - 1)) with (ncol s) by (pose proof (so_v s Hs); lia). exact Hv. }
      destruct (surf_rational_piece eps maxv s u v 2 su sv Hs Hse Hsu Hsv Iu Iv) as (ds & Eds & L & V).
      destruct (V 0%nat ltac:(lia)) as (L0 & _). destruct (V 1%nat ltac:(lia)) as (L1 & _). destruct (V 2%nat ltac:(lia)) as (L2 & _).
      rewrite Eds. cbn [bind]. rewrite !get2_ent by lia. cbn [bind]. unfold surf_newton_move.
      destruct (sltb (vnorm _) _); [now apply solved_ok|]. cbv zeta. destruct (sltb _ seps), (sltb _ seps); try now apply solved_ok.
      destruct (solve2 _ _ _ _) as [(a, b)|] eqn:E2'; [now apply solved_ok|right; split; [reflexivity|eauto 6]].
    Qed.
    Definition sn_good (c0 : R) (st : SNState) : Prop :=
      sn_inv (surf_cost s p) c0 st /\ box (sn_x st) /\ forall b c, sn_best st = Some (b, c) -> box b.
    Lemma next_solved c0 st : 0 <= eps -> sn_good c0 st ->
      solved (sn_good c0) (surf_newton_next (u0 s, u1 s) (v0 s, v1 s) (false, false) (surf_cost s p) (surf_move solve2 s p) st).
    Proof.
      intros He (I & B & C).
      assert (G : solved (fun _ => True) (surf_newton_next (u0 s, u1 s) (v0 s, v1 s) (false, false) (surf_cost s p) (surf_move solve2 s p) st)).
      { unfold surf_newton_next. eapply solved_bind; [apply box_move, B|]. intros [(u, v)|] _; [|now apply solved_ok].
        assert (B' : box (surf_constrain (u0 s, u1 s) (fst (false, false)) u, surf_constrain (v0 s, v1 s) (snd (false, false)) v)).
        { split; cbn [fst snd]; apply (constrain_in eps maxv (_, _)); auto. }
        destruct (box_cost _ B') as (c & ->). cbn [bind]. destruct (sltb _ _); now apply solved_ok. }
      destruct G as [(st' & E & _)|G]; [|now right]. left. exists st'. split; [exact E|]. split.
      - exact (sn_next_inv eps maxv _ _ _ _ _ _ _ _ I E).
      - exact (sn_box eps maxv (u0 s, u1 s) (v0 s, v1 s) _ _ _ _ He Wu Wv (conj B C) E).
    Qed.
    Lemma run_solved c0 : 0 <= eps -> forall n st, sn_good c0 st ->
      solved (sn_good c0) (surf_newton_run n (surf_newton_next (u0 s, u1 s) (v0 s, v1 s) (false, false) (surf_cost s p) (surf_move solve2 s p)) st).
    Proof.
      intros He. induction n as [|n IH]; intros st G; cbn [surf_newton_run]; [now apply solved_ok|].
      apply (solved_bind (sn_good c0)); [now apply next_solved|]. intros st' G'. destruct (sltb _ _); [now apply solved_ok|now apply IH].
    Qed.
    Lemma search_solved verts pts : 0 <= eps -> mapM (mapM (fun q => unwrap (dehomogenize (sdim s) q))) (snet s) = Ok pts -> close_rows pts = Ok (false, false) ->
      (forall x q, In (x, q) verts -> box x) -> solved (fun x => in_dom s (fst x) (snd x)) (surf_find_closest_parameter solve2 s verts p).
    Proof.
      intros He Ep Ec Hv. unfold surf_find_closest_parameter. rewrite surf_domain_ok by auto. cbn [bind]. rewrite Ep. cbn [bind]. rewrite Ec. cbn [bind fst snd].
      set (uv := best_vertex p verts None (u0 s, v0 s)).
      assert (B : box uv).
      { destruct (best_vertex_in eps maxv p verts None (u0 s, v0 s)) as [E|(x & q & I & E)]; fold uv in E; rewrite E; [split; cbn [fst snd]; destruct (surf_dom_lt s Hs); lra|].
        exact (Hv _ _ I). }
      destruct (box_cost uv B) as (c0 & E0). rewrite E0. cbn [bind].
      eapply solved_bind.
      - apply (run_solved c0 He). split; [|split; [exact B|]].
        + split; [exact E0|]. cbn [sn_best sn_cost sn_x]. exists uv, c0. unfold best_update. rs. destruct (Reqb_spec c0 c0); [|congruence].
          split; [reflexivity|]. split; [exact E0|]. lra.
        + cbn [sn_best]. unfold best_update. intros b c. destruct (seqb _ _); [intros [= <- <-]; exact B|discriminate].
      - intros st ((_ & b & bc & Eb & _) & _ & HB). rewrite Eb. destruct b as (u, v). pose proof (HB _ _ Eb) as Bb.
        assert (SF : forall x : R, sfinite x = true) by (intros x; unfold sfinite; rs; destruct (Reqb_spec (x - x) 0) as [|N]; [reflexivity|exfalso; apply N; ring]).
        rewrite !SF. cbn [andb]. apply solved_ok. exact Bb.
    Qed.
  End Search.

  Lemma surf_closest_rows solve2 s p pts : surf_ok s -> surf_eps eps s -> spos s -> sdim s = 4%nat -> (1 <= sdu s)%nat -> (1 <= sdv s)%nat ->
    simple1 (sdu s) (nrow s - 1) (suk s) -> simple1 (sdv s) (ncol s - 1) (svk s) -> eps <= u1 s - u0 s -> eps <= v1 s - v0 s ->
    mapM (mapM (fun q => unwrap (dehomogenize (sdim s) q))) (snet s) = Ok pts -> close_rows pts = Ok (false, false) ->
    (exists u v, surf_closest solve2 s p = Ok (u, v) /\ in_dom s u v) \/
    (surf_closest solve2 s p = Err "Failed to solve" /\ exists a b c g, solve2 a b c g = None).
  Proof.
    intros Hs Hse Hsp HD Hdu Hdv Su Sv Wu Wv Ep Ec. assert (He : 0 < eps) by (destruct Hse as ((H & _) & _); exact H).
    pose proof (so_u s Hs) as Nr. pose proof (so_v s Hs) as Nc.
    unfold surf_closest. change (length (snet s)) with (nrow s). rewrite usub_ok by lia. cbn [bind].
    assert (G0 : get (snet s) 0 = Ok (nth 0 (snet s) [])) by (apply get_ok; unfold nrow in Nr; lia). rewrite G0. cbn [bind].
    assert (LR : length (nth 0 (snet s) []) = ncol s).
    { pose proof (so_rect s Hs) as FR. rewrite Forall_forall in FR. apply FR. apply nth_In. unfold nrow in Nr; lia. }
    rewrite LR. rewrite usub_ok by lia. cbn [bind]. cbv zeta.
    set (o := MkAOpts (ao_tol ao_default) ((nrow s - 1) * 2) ((ncol s - 1) * 2) (ao_min_depth ao_default) (ao_max_depth ao_default)).
    destruct (adaptive_mesh eps maxv s (Some o) Hs Hse HD Hdu Hdv Su Sv) as (m & Em & _ & F). rewrite Em. cbn [bind].
    destruct (search_solved solve2 s p Hs Hse Hsp Wu Wv (combine (tuvs m) (tpts m)) pts (Rlt_le _ _ He) Ep Ec) as [((u, v) & E & D)|E].
    - clear - F. induction F as [|x y l l' (H & _) F IH]; intros a b I; [destruct I|]. destruct I as [[= <- <-]|I]; [exact H|now apply (IH a b)].
    - left. exists u, v. split; [exact E|exact D].
    - right. exact E.
  Qed.

  (** *** An open net: in both directions two opposite control points differ by ten epsilon in some coordinate *)
  Definition sctl (s : Surf R) (i a b : nat) : R := spc s i a b / spc s (sdim s - 1) a b.
  Definition open_net (s : Surf R) : Prop :=
    (exists b i, (b < ncol s)%nat /\ (i < sdim s - 1)%nat /\ 10 * eps <= Rabs (sctl s i 0 b - sctl s i (nrow s - 1) b)) /\
    (exists a i, (a < nrow s)%nat /\ (i < sdim s - 1)%nat /\ 10 * eps <= Rabs (sctl s i a 0 - sctl s i a (ncol s - 1))).

  Lemma coord_norm (v : list R) i : Rabs (rc i v) <= vnorm v.
  Proof.
    unfold vnorm. rs. rewrite <- sqrt_Rsqr_abs. destruct (Nat.lt_ge_cases i (length v)) as [H|H].
    - apply sqrt_le_1_alt. unfold vnorm2. rewrite (vdot_rsum eps maxv) by auto.
      replace (length v) with (i + S (length v - i - 1))%nat by lia. rewrite rsum_split, rsum_S_l, Nat.add_0_r. unfold Rsqr.
      assert (0 <= rsum i (fun j => rc j v * rc j v)) by (apply rsum_nonneg; intros; nra).
      assert (0 <= rsum (length v - i - 1) (fun j => rc (i + S j) v * rc (i + S j) v)) by (apply rsum_nonneg; intros; nra).
      lra.
    - unfold rc at 1. rewrite nth_overflow by lia. rewrite Rsqr_0, sqrt_0. apply sqrt_pos.
  Qed.
  Lemma open_rows s : surf_ok s -> spos s -> open_net s ->
    exists pts, mapM (mapM (fun q => unwrap (dehomogenize (sdim s) q))) (snet s) = Ok pts /\ close_rows pts = Ok (false, false).
  Proof.
    intros Hs Hp ((b & i & Hb & Hi & Db) & (a & j & Ha & Hj & Da)). pose proof (so_u s Hs) as Nr. pose proof (so_v s Hs) as Nc.
    pose proof (so_rect s Hs) as FR. rewrite Forall_forall in FR.
    set (f := fun q : list R => vdivs (firstn (sdim s - 1) q) (rc (sdim s - 1) q)).
    assert (Q : forall q row, In row (snet s) -> In q row -> unwrap (dehomogenize (sdim s) q) = Ok (f q)).
    { intros q row Hr Hq. apply (In_nth _ _ []) in Hr. destruct Hr as (x & Hx & <-). assert (Lx : length (nth x (snet s) []) = ncol s) by (apply FR, nth_In, Hx).
      apply (In_nth _ _ []) in Hq. destruct Hq as (y & Hy & <-). rewrite Lx in Hy. pose proof (Hp x y Hx Hy) as W. unfold spc in W.
      unfold dehomogenize. rewrite coord_rc. rs. set (q := nth y (nth x (snet s) []) []) in *.
      destruct (Reqb_spec (rc (sdim s - 1) q) 0) as [Z|_]; [lra|]. reflexivity. }
    assert (E : mapM (mapM (fun q => unwrap (dehomogenize (sdim s) q))) (snet s) = Ok (map (map f) (snet s))).
    { apply mapM_ok. intros row Hr. apply mapM_ok. intros q Hq. now apply (Q q row). }
    exists (map (map f) (snet s)). split; [exact E|].
    destruct (close_rows_spec eps maxv (map (map f) (snet s)) (nrow s) (ncol s)) as (cu & cv & Ec & Hu & Hv); [lia|lia|apply map_length| |].
    { apply Forall_forall. intros r Hr. apply in_map_iff in Hr. destruct Hr as (r' & <- & Hr'). rewrite map_length. now apply FR. }
    cbv zeta in Hu, Hv.
    assert (AT : forall x y, (x < nrow s)%nat -> (y < ncol s)%nat -> nth y (nth x (map (map f) (snet s)) []) [] = f (nth y (nth x (snet s) []) [])).
    { intros x y Hx Hy. rewrite (nth_map_lt (map f) (snet s) x []) by exact Hx. rewrite (nth_map_lt f _ y []); [reflexivity|]. rewrite FR by (apply nth_In, Hx). exact Hy. }
    assert (LF : forall x y, (x < nrow s)%nat -> (y < ncol s)%nat -> length (f (nth y (nth x (snet s) []) [])) = (sdim s - 1)%nat).
    { intros x y Hx Hy. unfold f, vdivs. rewrite map_length, firstn_length. pose proof (so_pts s Hs) as PL. rewrite Forall_forall in PL. specialize (PL _ (nth_In _ [] Hx)). rewrite Forall_forall in PL.
      rewrite PL; [lia|]. apply nth_In. rewrite FR by (apply nth_In, Hx). exact Hy. }
    assert (RF : forall x y k, (x < nrow s)%nat -> (y < ncol s)%nat -> (k < sdim s - 1)%nat -> rc k (f (nth y (nth x (snet s) []) [])) = sctl s k x y).
    { intros x y k Hx Hy Hk. unfold f. rewrite (rc_vdivs eps maxv). unfold sctl, spc, rc. now rewrite nth_firstn by lia. }
    assert (NB : forall p q k, length p = (sdim s - 1)%nat -> length q = (sdim s - 1)%nat -> (k < sdim s - 1)%nat -> Rabs (rc k p - rc k q) <= vnorm (vsub p q)).
    { intros p q k Lp Lq Hk. rewrite <- (rc_vsub eps maxv) by lia. apply coord_norm. }
    rewrite Ec. do 2 f_equal.
    - destruct cu; [|reflexivity]. exfalso. pose proof (proj1 Hu eq_refl b Hb) as X. rewrite !AT in X by lia.
      pose proof (NB (f (nth b (nth 0 (snet s) []) [])) (f (nth b (nth (nrow s - 1) (snet s) []) [])) i ltac:(apply LF; lia) ltac:(apply LF; lia) Hi) as Y. rewrite !RF in Y by lia. lra.
    - destruct cv; [|reflexivity]. exfalso. pose proof (proj1 Hv eq_refl a Ha) as X. rewrite !AT in X by lia.
      pose proof (NB (f (nth 0 (nth a (snet s) []) [])) (f (nth (ncol s - 1) (nth a (snet s) []) [])) j ltac:(apply LF; lia) ltac:(apply LF; lia) Hj) as Y. rewrite !RF in Y by lia. lra.
  Qed.

  (** *** From the surface to the answer *)
  Theorem surf_closest_total solve2 s p : surf_ok s -> surf_eps eps s -> spos s -> sdim s = 4%nat -> (1 <= sdu s)%nat -> (1 <= sdv s)%nat ->
    simple1 (sdu s) (nrow s - 1) (suk s) -> simple1 (sdv s) (ncol s - 1) (svk s) -> eps <= u1 s - u0 s -> eps <= v1 s - v0 s ->
    open_net s -> length p = 3%nat -> (forall a b c g, solve2 a b c g <> None) ->
    exists u v q, surf_closest solve2 s p = Ok (u, v) /\ in_dom s u v /\ surf_point_at s u v = Ok q /\
      forall a b r, grid_line (suk s) (sdu s) (nrow s) (u0 s) (u1 s) a -> grid_line (svk s) (sdv s) (ncol s) (v0 s) (v1 s) b ->
        surf_point_at s a b = Ok r -> rdist q p <= rdist r p.
  Proof.
    intros Hs Hse Hp HD Hdu Hdv Su Sv Wu Wv Ho Lp HS. destruct (open_rows s Hs Hp Ho) as (pts & Ep & Ec).
    destruct (surf_closest_rows solve2 s p pts Hs Hse Hp HD Hdu Hdv Su Sv Wu Wv Ep Ec) as [(u & v & E & D)|(_ & a & b & c & g & N)]; [|destruct (HS _ _ _ _ N)].
    destruct (surf_closest_grid solve2 s p u v Hs Hse Hp HD Hdu Hdv Su Sv Lp E) as (q & Eq & G). exists u, v, q. auto.
  Qed.
  (** whatever the solver does, the search answers in the domain or reports that it failed to solve *)
  Theorem surf_closest_answers solve2 s p : surf_ok s -> surf_eps eps s -> spos s -> sdim s = 4%nat -> (1 <= sdu s)%nat -> (1 <= sdv s)%nat ->
    simple1 (sdu s) (nrow s - 1) (suk s) -> simple1 (sdv s) (ncol s - 1) (svk s) -> eps <= u1 s - u0 s -> eps <= v1 s - v0 s -> open_net s ->
    (exists u v, surf_closest solve2 s p = Ok (u, v) /\ in_dom s u v) \/
    (errs (surf_closest solve2 s p) /\ exists a b c g, solve2 a b c g = None).
  Proof.
    intros Hs Hse Hp HD Hdu Hdv Su Sv Wu Wv Ho. destruct (open_rows s Hs Hp Ho) as (pts & Ep & Ec).
    destruct (surf_closest_rows solve2 s p pts Hs Hse Hp HD Hdu Hdv Su Sv Wu Wv Ep Ec) as [H|(E & H)]; [now left|right]. split; [|exact H]. rewrite E. eexists. reflexivity.
  Qed.
End Real.
