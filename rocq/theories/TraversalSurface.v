(** * The bounding box traversal of a surface and a curve, over the reals *)
From Coq Require Import Reals Lra Lia ZArith Sorted Permutation.
From Verif Require Import Base BaseFacts Scalar RSum BSpline KnotModel KnotSpec KnotFacts KnotMisc KnotProofs
     VecFacts MiscModel CurveModel CurveKnotModel CurveSpec CurveProofs CurveGeom CurveGeom2 Boehm Refine
     SplitModel SplitProofs BBoxModel BBoxProofs SurfaceModel SurfaceSpec SurfaceProofs SurfaceSample
     SurfaceRefine SurfaceSplit SurfaceBoxModel SurfaceShapes TraversalModel TraversalProofs TraversalCurve.
Local Open Scope R_scope.

(** every point of the net *)
Definition net_all (Q : list R -> Prop) (net : list (list (list R))) : Prop := Forall (Forall Q) net.

Lemma push_row_all Q cols row r : net_all Q cols -> Forall Q row -> push_row cols row = Ok r -> net_all Q r.
Proof.
  revert cols r. induction row as [|x row IH]; intros cols r Hc Hr E.
  - destruct cols; injection E as <-; exact Hc.
  - destruct cols as [|c cols]; cbn in E; [discriminate|]. inversion Hc; inversion Hr; subst.
    apply bind_ok in E. destruct E as (r' & E1 & E). injection E as <-. constructor.
    + apply Forall_app. split; auto.
    + eapply IH; eauto.
Qed.

Lemma transpose_all Q net r : net_all Q net -> transpose net = Ok r -> net_all Q r.
Proof.
  intros H E. unfold transpose in E. apply bind_ok in E. destruct E as (f & _ & E).
  assert (G : forall l cols, net_all Q l -> net_all Q cols -> foldM push_row l cols = Ok r -> net_all Q r).
  { induction l as [|x l IH]; intros cols Hl Hc F; cbn in F.
    - injection F as <-. exact Hc.
    - apply bind_ok in F. destruct F as (c' & F1 & F). inversion Hl; subst.
      apply (IH c'); auto. now apply (push_row_all Q cols x). }
  apply (G net (repeat [] (length f))); auto. apply Forall_forall. intros x Hx. apply repeat_spec in Hx. subst x. constructor.
Qed.

Section Real.
  Variables eps maxv : R.
  Local Hint Extern 0 (Scalar R) => exact (ROps eps maxv) : typeclass_instances.

  Lemma lines_convex Q D p k t sp lines cs parts :
    convex_set eps maxv D Q -> 0 < eps -> net_all Q lines ->
    (forall line, In line lines -> curve_ok (lcurve D p k line) /\ curve_eps eps (lcurve D p k line) /\
       dom0 (lcurve D p k line) <= t <= dom1 (lcurve D p k line)) ->
    (forall y, In y k -> eps <= Rabs (y - t)) ->
    mapM (refine_row D p k (repeat t (p + 1))) lines = Ok cs ->
    mapM (fun c : Curve R => p0 <- slice (cpts c) 0 (sp + 1) ;;
            p1 <- slice (cpts c) (sp + 1) (length (cpts c)) ;; Ok (p0, p1)) cs = Ok parts ->
    net_all Q (map fst parts) /\ net_all Q (map snd parts).
  Proof.
    intros Qc He Hl Ho Hk Ec Ep. apply mapM_inv in Ec. apply mapM_inv in Ep.
    assert (Qcs : Forall (fun c : Curve R => Forall Q (cpts c)) cs).
    { clear Ep. unfold net_all in Hl. induction Ec as [|x y l l' E Ec IH]; [constructor|].
      inversion Hl; subst. constructor.
      - destruct (Ho x) as (O1 & O2 & O3); [now left|].
        unfold refine_row in E. rewrite try_new_sorted in E.
        + cbn [bind] in E. change (MkCurve D p x k) with (lcurve D p k x) in E.
          apply (refine_convex eps maxv _ _ _ Q O1 O2) in E; auto.
          apply sep_refine; auto. intros y' Hy. right. apply Hk. exact Hy.
        + apply (co_len _ O1).
        + apply (curve_len _ O1).
        + apply (ko_sorted _ _ _ (co_knots _ O1)).
      - apply IH; auto. intros line Hin. apply Ho. now right. }
    assert (F : forall (x : list (list R)) i j y, Forall Q x -> slice x i j = Ok y -> Forall Q y).
    { intros x i j y Fx E. apply slice_inv in E. destruct E as (_ & _ & ->).
      apply Forall_forall. intros q Hq. rewrite Forall_forall in Fx. apply Fx.
      rewrite <- (firstn_skipn i x). apply in_or_app. right.
      rewrite <- (firstn_skipn (j - i) (skipn i x)). apply in_or_app. now left. }
    clear Ec Hl Ho. induction Ep as [|x y l l' E Ep IH]; [split; constructor|].
    inversion Qcs; subst. apply bind_ok in E. destruct E as (p0 & E0 & E). apply bind_ok in E.
    destruct E as (p1 & E1 & E). injection E as <-. destruct (IH H2) as (I1 & I2). cbn [map fst snd].
    split; constructor; eauto.
  Qed.

  Lemma surf_split_convex s t d s0 s1 Q : surf_ok s -> surf_eps eps s ->
    convex_set eps maxv (sdim s) Q -> net_all Q (snet s) ->
    match d with
    | DirU => u0 s <= t <= u1 s /\ forall y, In y (suk s) -> eps <= Rabs (y - t)
    | DirV => v0 s <= t <= v1 s /\ forall y, In y (svk s) -> eps <= Rabs (y - t)
    end ->
    surf_split s t d = Ok (s0, s1) ->
    sdim s0 = sdim s /\ sdim s1 = sdim s /\ net_all Q (snet s0) /\ net_all Q (snet s1).
  Proof.
    intros H He Qc Qn Hd E. assert (Hp : 0 < eps) by apply (proj1 He). unfold surf_split in E. destruct d.
    - destruct Hd as (Hd & Hk). destruct (net_cols s H) as (cols & Ecols & Lc & Vc).
      rewrite Ecols in E. cbn [bind] in E. pose proof (transpose_all Q _ _ Qn Ecols) as Qcols.
      apply bind_ok in E. destruct E as (n & _ & E). apply bind_ok in E. destruct E as (sp & _ & E).
      apply bind_ok in E. destruct E as (cs & Ecs & E). apply bind_ok in E. destruct E as (parts & Eparts & E).
      destruct (lines_convex Q (sdim s) (sdu s) (suk s) t sp cols cs parts) as (A1 & A2); auto.
      { intros line Hin. apply (In_nth _ _ []) in Hin. destruct Hin as (b & Hb & <-). rewrite Lc in Hb.
        destruct (Vc b Hb) as (_ & ->). destruct (ucol_dom s b) as (D1 & D2). rewrite D1, D2.
        split; [now apply ucol_ok|]. split; [now apply ucol_eps|exact Hd]. }
      apply bind_ok in E. destruct E as (lc & _ & E). apply bind_ok in E. destruct E as (k0 & _ & E).
      apply bind_ok in E. destruct E as (k1 & _ & E). apply bind_ok in E. destruct E as (n0 & N0 & E).
      apply bind_ok in E. destruct E as (n1 & N1 & E). injection E as <- <-. cbn [sdim snet].
      split; [reflexivity|]. split; [reflexivity|]. split; [apply (transpose_all Q _ _ A1 N0)|apply (transpose_all Q _ _ A2 N1)].
    - destruct Hd as (Hd & Hk). cbn [bind] in E.
      apply bind_ok in E. destruct E as (n & _ & E). apply bind_ok in E. destruct E as (sp & _ & E).
      apply bind_ok in E. destruct E as (cs & Ecs & E). apply bind_ok in E. destruct E as (parts & Eparts & E).
      destruct (lines_convex Q (sdim s) (sdv s) (svk s) t sp (snet s) cs parts) as (A1 & A2); auto.
      { intros line Hin. apply (In_nth _ _ []) in Hin. destruct Hin as (a & Ha & <-). fold (nrow s) in Ha.
        destruct (vrow_dom s a H Ha) as (D1 & D2). change (lcurve (sdim s) (sdv s) (svk s) (nth a (snet s) [])) with (vrow s a).
        rewrite D1, D2. split; [now apply vrow_ok|]. split; [now apply vrow_eps|exact Hd]. }
      apply bind_ok in E. destruct E as (lc & _ & E). apply bind_ok in E. destruct E as (k0 & _ & E).
      apply bind_ok in E. destruct E as (k1 & _ & E). injection E as <- <-. cbn [sdim snet]. auto.
  Qed.

  (** ** Nodes of the tree of a surface *)
  Record box_surf (s : Surf R) : Prop := {
    bs_ok : surf_ok s; bs_eps : surf_eps eps s; bs_pos : spos s
  }.

  Definition posw (D : nat) (q : list R) : Prop := 0 < rc (D - 1) q.

  Lemma posw_convex D : convex_set eps maxv D (posw D).
  Proof.
    intros p q t Lp Lq Ht P1 Q1. unfold posw in *. rewrite (rc_vlerp eps maxv) by congruence.
    destruct (Req_dec t 0) as [->|]; [lra|]. assert (0 < t) by lra.
    assert (0 < rc (D - 1) q * t) by (apply Rmult_lt_0_compat; auto).
    assert (0 <= rc (D - 1) p * (1 - t)) by (apply Rmult_le_pos; lra). lra.
  Qed.

  Lemma spos_all s : surf_ok s -> spos s <-> net_all (posw (sdim s)) (snet s).
  Proof.
    intros H. split.
    - intros Hs. apply Forall_forall. intros row Hr. apply Forall_forall. intros q Hq.
      apply (In_nth _ _ []) in Hr. destruct Hr as (a & Ha & <-). fold (nrow s) in Ha.
      apply (In_nth _ _ []) in Hq. destruct Hq as (b & Hb & <-). rewrite row_len in Hb by auto.
      apply (Hs a b Ha Hb).
    - intros Hn a b Ha Hb. unfold net_all in Hn. rewrite Forall_forall in Hn.
      pose proof (Hn (nth a (snet s) []) ltac:(apply nth_In; exact Ha)) as Hr.
      rewrite Forall_forall in Hr. apply Hr. apply nth_In. now rewrite row_len.
  Qed.

  (** the middle of the domain in the current direction *)
  Definition div_mid (t : STree R) : R :=
    match st_dir t with
    | DirU => (u0 (st_surf t) + u1 (st_surf t)) / 2
    | DirV => (v0 (st_surf t) + v1 (st_surf t)) / 2
    end.

  Definition mid_off (t : STree R) : Prop :=
    forall y, In y (match st_dir t with DirU => suk (st_surf t) | DirV => svk (st_surf t) end) ->
      eps <= Rabs (y - div_mid t).

  Definition surf_divisions_off_knots (s : Surf R) (utol vtol : R) (d : UV) : Prop :=
    forall rng t, descends st_ops rng (MkSTree s utol vtol d) t -> tdividable st_ops t = Ok true -> mid_off t.

  Definition surf_covers (t : STree R) (uv : R * R) : Prop := in_dom (st_surf t) (fst uv) (snd uv).

  Record snode_of (s0 : Surf R) (utol vtol : R) (t : STree R) : Prop := {
    sn_box : box_surf (st_surf t);
    sn_dim : sdim (st_surf t) = sdim s0;
    sn_utol : st_utol t = utol;
    sn_vtol : st_vtol t = vtol;
    sn_u : u0 s0 <= u0 (st_surf t) /\ u1 (st_surf t) <= u1 s0;
    sn_v : v0 s0 <= v0 (st_surf t) /\ v1 (st_surf t) <= v1 s0;
    sn_same : forall u v, in_dom (st_surf t) u v ->
      surf_point_at (st_surf t) u v = surf_point_at s0 u v
  }.

  Lemma surf_dom_lt s : surf_ok s -> u0 s < u1 s /\ v0 s < v1 s.
  Proof.
    intros H.
    assert (G : forall p n k, knots_ok p n k -> (p <= n)%nat -> kf k p < kf k (S n)).
    { intros p n k Hk Hp. pose proof (ko_first _ _ _ Hk) as K1. pose proof (sorted_mono _ (ko_sorted _ _ _ Hk)) as Km.
      pose proof (mono_le _ (S p) (S n) Km ltac:(lia)). rewrite Nat.add_1_r in K1. lra. }
    pose proof (so_u s H). pose proof (so_v s H).
    pose proof (G _ _ _ (so_uk s H) ltac:(lia)). pose proof (G _ _ _ (so_vk s H) ltac:(lia)).
    unfold u0, u1, v0, v1. replace (S (nrow s - 1)) with (nrow s) in * by lia.
    replace (S (ncol s - 1)) with (ncol s) in * by lia. auto.
  Qed.

  Lemma surf_domain_ok s : surf_ok s -> surf_domain s = Ok ((u0 s, u1 s), (v0 s, v1 s)).
  Proof.
    intros H. unfold surf_domain. pose proof (so_u s H). pose proof (so_v s H).
    rewrite (domain_ok _ _ _ (so_uk s H)), (domain_ok _ _ _ (so_vk s H)). cbn [bind].
    unfold u0, u1, v0, v1. replace (S (nrow s - 1)) with (nrow s) by lia.
    replace (S (ncol s - 1)) with (ncol s) by lia. reflexivity.
  Qed.

  Definition ulen (t : STree R) : R := u1 (st_surf t) - u0 (st_surf t).
  Definition vlen (t : STree R) : R := v1 (st_surf t) - v0 (st_surf t).

  Lemma st_dividable_ok t : surf_ok (st_surf t) -> exists d, st_dividable t = Ok d /\
    (d = true -> st_utol t < ulen t \/ st_vtol t < vlen t) /\
    (d = false -> ulen t <= st_utol t /\ vlen t <= st_vtol t).
  Proof.
    intros H. unfold st_dividable, surf_interval. rewrite surf_domain_ok by auto. cbn [bind]. rs.
    fold (ulen t) (vlen t). eexists. split; [reflexivity|].
    destruct (Rltb_spec (st_utol t) (ulen t)), (Rltb_spec (st_vtol t) (vlen t)); cbn [orb]; split;
      intros; try discriminate; auto; try (right; lra); lra.
  Qed.

  Lemma snode_split s0 utol vtol t r : snode_of s0 utol vtol t -> mid_off t ->
    exists t0 t1, st_split t r = Ok (t0, t1) /\ snode_of s0 utol vtol t0 /\ snode_of s0 utol vtol t1 /\
      match st_dir t with
      | DirU => st_dir t0 = DirV /\ st_dir t1 = DirV /\ vlen t0 = vlen t /\ vlen t1 = vlen t /\
                ulen t0 = ulen t / 2 /\ ulen t1 = ulen t / 2
      | DirV => st_dir t0 = DirU /\ st_dir t1 = DirU /\ ulen t0 = ulen t /\ ulen t1 = ulen t /\
                vlen t0 = vlen t / 2 /\ vlen t1 = vlen t / 2
      end /\ forall uv, surf_covers t uv -> surf_covers t0 uv \/ surf_covers t1 uv.
  Proof.
    intros [[O1 O2 O3] N2 N3 N4 N5 N6 N7] Hm. destruct (surf_dom_lt _ O1) as (Lu & Lv).
    assert (Em : surf_split (st_surf t) (div_mid t) (st_dir t) = surf_split (st_surf t) (div_mid t) (st_dir t)) by reflexivity.
    unfold st_split. rewrite surf_domain_ok by auto. cbn [bind].
    unfold mid_off, div_mid, ulen, vlen in *. destruct t as [s ut vt d]. cbn [st_surf st_dir st_utol st_vtol] in *.
    subst ut vt.
    destruct d.
    - set (m := (u0 s + u1 s) / 2) in *.
      replace ((u0 s + u1 s) * (sone / sofnat 2))%S with m by (rs; change (sofnat 2) with 2; unfold m; lra).
      destruct (surf_split_u eps maxv s m O1 O2) as (l & rr & E & A1 & A2 & A3 & A4 & _ & _ & _ & _ & B0 & B1);
        [unfold m; lra|exact Hm|].
      destruct (surf_split_convex s m DirU l rr (posw (sdim s)) O1 O2 (posw_convex _)) as (S0 & S1 & P0 & P1); auto.
      { now apply spos_all. } { split; [unfold m; lra|exact Hm]. }
      rewrite E. cbn [bind]. eexists _, _. split; [reflexivity|].
      destruct B0 as (C1 & C2 & C3 & C4 & C5). destruct B1 as (F1 & F2 & F3 & F4 & F5).
      unfold in_dom in *. cbn [st_surf st_dir] in *.
      split; [|split; [|split]].
      + constructor; cbn [st_surf st_utol st_vtol]; try lra; try congruence.
        * constructor; auto. apply spos_all; auto. now rewrite S0.
        * rewrite C1, C2. unfold m in *; lra.
        * intros u v (Hu & Hv). rewrite C1, C2 in Hu. rewrite C3, C4 in Hv. rewrite C5 by auto. apply N7.
          split; [unfold m in *; lra|lra].
      + constructor; cbn [st_surf st_utol st_vtol]; try lra; try congruence.
        * constructor; auto. apply spos_all; auto. now rewrite S1.
        * rewrite F1, F2. unfold m in *; lra.
        * intros u v (Hu & Hv). rewrite F1, F2 in Hu. rewrite F3, F4 in Hv. rewrite F5 by auto. apply N7.
          split; [unfold m in *; lra|lra].
      + rewrite C1, C2, C3, C4, F1, F2, F3, F4. repeat split; auto; unfold m; lra.
      + intros [u v] (Hu & Hv). unfold surf_covers, in_dom. cbn [fst snd st_surf] in *.
        rewrite C1, C2, C3, C4, F1, F2, F3, F4.
        destruct (Rle_dec u m); [left|right]; split; auto; lra.
    - set (m := (v0 s + v1 s) / 2) in *.
      replace ((v0 s + v1 s) * (sone / sofnat 2))%S with m by (rs; change (sofnat 2) with 2; unfold m; lra).
      destruct (surf_split_v eps maxv s m O1 O2) as (l & rr & E & A1 & A2 & A3 & A4 & _ & _ & _ & _ & B0 & B1);
        [unfold m; lra|exact Hm|].
      destruct (surf_split_convex s m DirV l rr (posw (sdim s)) O1 O2 (posw_convex _)) as (S0 & S1 & P0 & P1); auto.
      { now apply spos_all. } { split; [unfold m; lra|exact Hm]. }
      rewrite E. cbn [bind]. eexists _, _. split; [reflexivity|].
      destruct B0 as (C1 & C2 & C3 & C4 & C5). destruct B1 as (F1 & F2 & F3 & F4 & F5).
      unfold in_dom in *. cbn [st_surf st_dir] in *.
      split; [|split; [|split]].
      + constructor; cbn [st_surf st_utol st_vtol]; try lra; try congruence.
        * constructor; auto. apply spos_all; auto. now rewrite S0.
        * rewrite C3, C4. unfold m in *; lra.
        * intros u v (Hu & Hv). rewrite C1, C2 in Hu. rewrite C3, C4 in Hv. rewrite C5 by auto. apply N7.
          split; [lra|unfold m in *; lra].
      + constructor; cbn [st_surf st_utol st_vtol]; try lra; try congruence.
        * constructor; auto. apply spos_all; auto. now rewrite S1.
        * rewrite F3, F4. unfold m in *; lra.
        * intros u v (Hu & Hv). rewrite F1, F2 in Hu. rewrite F3, F4 in Hv. rewrite F5 by auto. apply N7.
          split; [lra|unfold m in *; lra].
      + rewrite C1, C2, C3, C4, F1, F2, F3, F4. repeat split; auto; unfold m; lra.
      + intros [u v] (Hu & Hv). unfold surf_covers, in_dom. cbn [fst snd st_surf] in *.
        rewrite C1, C2, C3, C4, F1, F2, F3, F4.
        destruct (Rle_dec v m); [left|right]; split; auto; lra.
  Qed.

  (** halvings needed to get below the tolerance (an upper bound) *)
  Definition halvings (tol x : R) : nat :=
    if Rle_dec x tol then 0%nat else S (Z.to_nat (up (x / (tol / 2)))).

  Lemma halvings_zero tol x : x <= tol -> halvings tol x = 0%nat.
  Proof. intros H. unfold halvings. destruct (Rle_dec x tol); [reflexivity|lra]. Qed.
  Lemma halvings_pos tol x : tol < x -> (0 < halvings tol x)%nat.
  Proof. intros H. unfold halvings. destruct (Rle_dec x tol); [lra|lia]. Qed.
  Lemma halvings_half tol x : 0 < tol -> 0 <= x -> (halvings tol (x / 2) <= halvings tol x - 1)%nat.
  Proof.
    intros Ht Hx. unfold halvings.
    destruct (Rle_dec (x / 2) tol); [lia|]. destruct (Rle_dec x tol); [lra|].
    assert (Z.to_nat (up (x / 2 / (tol / 2))) < Z.to_nat (up (x / (tol / 2))))%nat; [|lia].
    assert (Hq : 0 < tol / 2) by lra. assert (0 < / (tol / 2)) by now apply Rinv_0_lt_compat.
    apply up_drop.
    - apply Rmult_le_pos; lra.
    - apply Rmult_le_reg_r with (tol / 2); [exact Hq|].
      replace (x / 2 / (tol / 2) * (tol / 2)) with (x / 2) by (field; lra).
      replace ((x / (tol / 2) - 1) * (tol / 2)) with (x - tol / 2) by (field; lra). lra.
  Qed.

  Definition snode_height (utol vtol : R) (t : STree R) : nat :=
    match st_dir t with
    | DirU => Nat.max (2 * halvings utol (ulen t) - 1) (2 * halvings vtol (vlen t))
    | DirV => Nat.max (2 * halvings utol (ulen t)) (2 * halvings vtol (vlen t) - 1)
    end.

  Section Tree.
    Variable rng : nat -> R.
    Variable s0 : Surf R.
    Variables utol vtol : R.
    Variable d0 : UV.
    Hypothesis Hut : 0 < utol.
    Hypothesis Hvt : 0 < vtol.
    Hypothesis Hoff : surf_divisions_off_knots s0 utol vtol d0.

    Definition stree_inv (t : STree R) : Prop :=
      snode_of s0 utol vtol t /\ descends st_ops rng (MkSTree s0 utol vtol d0) t.

    Lemma surf_tree_spec : tree_spec rng st_ops stree_inv surf_covers (snode_height utol vtol).
    Proof.
      constructor.
      - intros t (H & _). pose proof (sn_box _ _ _ _ H) as [O1 O2 O3].
        destruct (surf_dom_lt _ O1) as (Lu & Lv).
        destruct (surf_box eps maxv (st_surf t) (u0 (st_surf t)) (v0 (st_surf t)) O1 O2 O3) as (b & _ & E & _).
        + split; lra.
        + exists b. exact E.
      - intros t (H & _). destruct (st_dividable_ok t) as (d & E & _).
        + apply (sn_box _ _ _ _ H).
        + exists d. exact E.
      - intros t k (H & Hd) E.
        destruct (snode_split s0 utol vtol t (rng k) H (Hoff rng t Hd E)) as (t0 & t1 & Es & M0 & M1 & Hsz & Hc).
        exists t0, t1. split; [exact Es|].
        split; [split; [exact M0|exact (desc_left _ _ _ t k t0 t1 Hd E Es)]|].
        split; [split; [exact M1|exact (desc_right _ _ _ t k t0 t1 Hd E Es)]|].
        pose proof (sn_box _ _ _ _ H) as [O1 _ _]. destruct (surf_dom_lt _ O1) as (Lu & Lv).
        assert (U0 : 0 <= ulen t) by (unfold ulen; lra). assert (V0 : 0 <= vlen t) by (unfold vlen; lra).
        pose proof (halvings_half utol (ulen t) Hut U0) as HU.
        pose proof (halvings_half vtol (vlen t) Hvt V0) as HV.
        assert (P : (0 < halvings utol (ulen t) \/ 0 < halvings vtol (vlen t))%nat).
        { destruct (st_dividable_ok t O1) as (d & Ed & Dt & _).
          change (st_dividable t = Ok true) in E. rewrite E in Ed. injection Ed as <-.
          rewrite (sn_utol _ _ _ _ H), (sn_vtol _ _ _ _ H) in Dt.
          destruct (Dt eq_refl); [left|right]; now apply halvings_pos. }
        assert (G : (snode_height utol vtol t0 < snode_height utol vtol t /\
                     snode_height utol vtol t1 < snode_height utol vtol t)%nat).
        { unfold snode_height. destruct (st_dir t).
          - destruct Hsz as (E1 & E2 & E3 & E4 & E5 & E6). rewrite E1, E2, E3, E4, E5, E6. lia.
          - destruct Hsz as (E1 & E2 & E3 & E4 & E5 & E6). rewrite E1, E2, E3, E4, E5, E6. lia. }
        destruct G. auto.
    Qed.
  End Tree.

  Lemma snode_root s ut vt d : box_surf s -> snode_of s ut vt (MkSTree s ut vt d).
  Proof. intros H. constructor; cbn [st_surf st_utol st_vtol]; auto; lra. Qed.

  (** what a reported node of the surface is: a part of it, no larger than the tolerances *)
  Record sleaf_of (s : Surf R) (utol vtol : R) (t : STree R) : Prop := {
    sl_u : u0 s <= u0 (st_surf t) /\ u0 (st_surf t) <= u1 (st_surf t) /\ u1 (st_surf t) <= u1 s;
    sl_v : v0 s <= v0 (st_surf t) /\ v0 (st_surf t) <= v1 (st_surf t) /\ v1 (st_surf t) <= v1 s;
    sl_size : u1 (st_surf t) - u0 (st_surf t) <= utol /\ v1 (st_surf t) - v0 (st_surf t) <= vtol;
    sl_same : forall u v, in_dom (st_surf t) u v ->
      surf_point_at (st_surf t) u v = surf_point_at s u v
  }.

  Definition sboxes_meet (D : nat) (a : STree R) (b : CTree R) : Prop :=
    exists ba bb p, bb_of_surf (st_surf a) = Ok ba /\ bb_of_curve (ct_curve b) = Ok bb /\
      in_box D ba p /\ in_box D bb p.

  Theorem traverse_surface_curve rng s c utol vtol tol d :
    (forall k, 0 <= rng k <= 1) -> box_surf s -> box_curve eps maxv c -> sdim s = cdim c ->
    0 < utol -> 0 < vtol -> 0 < tol ->
    surf_divisions_off_knots s utol vtol d -> divisions_off_knots eps maxv rng c tol ->
    exists fuel0 pairs,
      (forall fuel, (fuel0 <= fuel)%nat ->
         traverse st_ops ct_ops (sdim s - 1) rng fuel (MkSTree s utol vtol d) (MkCTree c tol) = Ok pairs) /\
      (forall a b, In (a, b) pairs ->
         sleaf_of s utol vtol a /\ leaf_of eps maxv c tol b /\ sboxes_meet (sdim s - 1) a b) /\
      (forall u v w, in_dom s u v -> dom0 c <= w <= dom1 c ->
         surf_point_at s u v = point_at c w ->
         exists a b, In (a, b) pairs /\ in_dom (st_surf a) u v /\
                     dom0 (ct_curve b) <= w <= dom1 (ct_curve b)).
  Proof.
    intros Hr Bs Bc Hdim Tu Tv Tc Os Oc.
    pose proof (surf_tree_spec rng s utol vtol d Tu Tv Os) as SA.
    pose proof (curve_tree_spec eps maxv rng c tol Hr Tc Oc) as SB.
    assert (NA : forall a ba uv, stree_inv rng s utol vtol d a -> bb_of_surf (st_surf a) = Ok ba -> surf_covers a uv ->
              exists p, surf_point_at s (fst uv) (snd uv) = Ok p /\ in_box (sdim s - 1) ba p).
    { intros a ba [u v] (N & _) Eb Hu. cbn [fst snd]. pose proof (sn_box _ _ _ _ N) as [O1 O2 O3].
      destruct (surf_box eps maxv (st_surf a) u v O1 O2 O3 Hu) as (b & p & E1 & E2 & E3).
      rewrite Eb in E1. injection E1 as <-. exists p.
      rewrite <- (sn_same _ _ _ _ N u v Hu). split; [exact E2|].
      rewrite <- (sn_dim _ _ _ _ N). now apply (bb_contains_iff eps maxv). }
    assert (NB : forall b bb w, tree_inv eps maxv rng c tol b -> bb_of_curve (ct_curve b) = Ok bb -> tree_cov b w ->
              exists p, point_at c w = Ok p /\ in_box (sdim s - 1) bb p).
    { intros b bb w (N & _) Eb Hw.
      destruct (node_box eps maxv (ct_curve b) w (no_box _ _ _ _ _ N) Hw) as (b' & p & E1 & E2 & E3).
      rewrite Eb in E1. injection E1 as <-. exists p.
      rewrite <- (no_same _ _ _ _ _ N w Hw). split; [exact E2|].
      now rewrite Hdim, <- (no_dim _ _ _ _ _ N). }
    assert (VB : forall D (b : BBox R) p, in_box D b p -> valid_box D b).
    { intros D b p H i Hi. specialize (H i Hi). lra. }
    set (fuel0 := S (5 ^ (snode_height utol vtol (MkSTree s utol vtol d) + node_height tol (MkCTree c tol)))).
    destruct (traverse_complete st_ops ct_ops (sdim s - 1) rng (stree_inv rng s utol vtol d) surf_covers
                (snode_height utol vtol) (tree_inv eps maxv rng c tol) tree_cov (node_height tol) SA SB
                (fun uv w => surf_point_at s (fst uv) (snd uv) = point_at c w))
                with (ta := MkSTree s utol vtol d) (tb := MkCTree c tol) (fuel := fuel0) as (pairs & E & Inv & Cov).
    - intros a b u v ba bb Ia Ib Ca Cb Hm Ea Eb.
      destruct (NA a ba u Ia Ea Ca) as (p & P1 & P2). destruct (NB b bb v Ib Eb Cb) as (q & Q1 & Q2).
      rewrite Hm, Q1 in P1. injection P1 as <-.
      change (@szero R (ROps eps maxv)) with 0. apply (bb_intersects_zero eps maxv); eauto.
    - split; [now apply snode_root|constructor].
    - split; [now apply node_root|constructor].
    - unfold fuel0. lia.
    - exists fuel0, pairs. split; [|split].
      + intros fuel Hf. unfold traverse in *. eapply loop_mono; eauto.
      + intros a b Hin. destruct (Inv a b Hin) as (Ia & Ib).
        pose proof (traverse_sound st_ops ct_ops _ rng _ _ _ _ E) as Snd.
        rewrite Forall_forall in Snd. specialize (Snd _ Hin).
        destruct Snd as (_ & _ & La & Lb & ba & bb & E1 & E2 & E3). cbn [fst snd] in *.
        pose proof (sn_box _ _ _ _ (proj1 Ia)) as [OA _ _]. destruct (surf_dom_lt _ OA) as (Lu & Lv).
        pose proof (bc_ok _ _ _ (no_box _ _ _ _ _ (proj1 Ib))) as OB. pose proof (dom_le _ OB) as Lw.
        split.
        { destruct (st_dividable_ok a OA) as (x & Ex & _ & Df).
          change (st_dividable a = Ok false) in La. rewrite La in Ex. injection Ex as <-.
          specialize (Df eq_refl). destruct (proj1 Ia) as [A1 A2 A3 A4 A5 A6 A7].
          rewrite A3, A4 in Df. constructor; auto; lra. }
        split.
        { destruct (dividable_ok eps maxv b OB) as (x & Ex & _ & _ & Df).
          change (ct_dividable b = Ok false) in Lb. rewrite Lb in Ex. injection Ex as <-.
          specialize (Df eq_refl). destruct (proj1 Ib) as [A1 A2 A3 A4 A5 A6].
          rewrite A3 in Df. constructor; auto; lra. }
        destruct (NA a ba (u0 (st_surf a), v0 (st_surf a)) Ia E1) as (p & _ & P2).
        { unfold surf_covers, in_dom; cbn [fst snd]; split; lra. }
        destruct (NB b bb (dom0 (ct_curve b)) Ib E2) as (q & _ & Q2).
        { unfold tree_cov. lra. }
        change (@szero R (ROps eps maxv)) with 0 in E3.
        apply (bb_intersects_zero eps maxv) in E3; eauto. destruct E3 as (x & X1 & X2).
        exists ba, bb, x. auto.
      + intros u v w Huv Hw Hm. destruct (Cov (u, v) w Huv Hw Hm) as (a & b & Hin & Ca & Cb). exists a, b. auto.
  Qed.

  (** ** Single-span surfaces with the default tolerance *)
  Definition no_inner (k : list R) (a b : R) : Prop := forall y, In y k -> y <= a \/ b <= y.
  Definition single_span (s : Surf R) : Prop :=
    no_inner (suk s) (u0 s) (u1 s) /\ no_inner (svk s) (v0 s) (v1 s).

  Lemma rows_knots D p k t lines cs lc (H : 0 < eps) :
    (forall line, In line lines -> curve_ok (lcurve D p k line) /\ curve_eps eps (lcurve D p k line) /\
       dom0 (lcurve D p k line) <= t <= dom1 (lcurve D p k line)) ->
    (forall y, In y k -> eps <= Rabs (y - t)) ->
    mapM (refine_row D p k (repeat t (p + 1))) lines = Ok cs ->
    last (map Some cs) None = Some lc ->
    forall y, In y (cknots lc) -> In y k \/ y = t.
  Proof.
    intros Ho Hk Ec El y Hy. apply mapM_inv in Ec.
    assert (Hin : In lc cs).
    { destruct cs as [|c0 cs'] using rev_ind; [discriminate|]. rewrite map_app in El. cbn [map] in El.
      rewrite last_last in El. injection El as ->. apply in_or_app. right. now left. }
    clear El. induction Ec as [|x z l l' E Ec IH]; [destruct Hin|].
    destruct Hin as [->|Hin].
    - destruct (Ho x) as (O1 & O2 & O3); [now left|]. unfold refine_row in E. rewrite try_new_sorted in E.
      + cbn [bind] in E. change (MkCurve D p x k) with (lcurve D p k x) in E.
        destruct (refine_spec eps maxv (lcurve D p k x) (repeat t (p + 1)) O1 O2) as (c' & E' & _ & _ & Pm & _).
        { apply sep_refine; auto. intros y' Hy'. right. apply Hk. exact Hy'. }
        rewrite E in E'. injection E' as <-. eapply Permutation_in in Hy; [|exact Pm].
        apply in_app_or in Hy. destruct Hy as [Hy|Hy]; [now left|]. apply repeat_spec in Hy. now right.
      + apply (co_len _ O1).
      + apply (curve_len _ O1).
      + apply (ko_sorted _ _ _ (co_knots _ O1)).
    - apply IH; auto. intros line Hl. apply Ho. now right.
  Qed.

  Lemma surf_split_knots s t d s0 s1 : surf_ok s -> surf_eps eps s ->
    match d with
    | DirU => u0 s <= t <= u1 s /\ forall y, In y (suk s) -> eps <= Rabs (y - t)
    | DirV => v0 s <= t <= v1 s /\ forall y, In y (svk s) -> eps <= Rabs (y - t)
    end ->
    surf_split s t d = Ok (s0, s1) ->
    match d with
    | DirU => svk s0 = svk s /\ svk s1 = svk s /\
              (forall y, In y (suk s0) -> In y (suk s) \/ y = t) /\
              (forall y, In y (suk s1) -> In y (suk s) \/ y = t)
    | DirV => suk s0 = suk s /\ suk s1 = suk s /\
              (forall y, In y (svk s0) -> In y (svk s) \/ y = t) /\
              (forall y, In y (svk s1) -> In y (svk s) \/ y = t)
    end.
  Proof.
    intros H He Hd E. assert (Hp : 0 < eps) by apply (proj1 He). unfold surf_split in E.
    assert (F : forall (x : list R) i j y z, slice x i j = Ok y -> In z y -> In z x).
    { intros x i j y z E' Hz. apply slice_inv in E'. destruct E' as (_ & _ & ->).
      rewrite <- (firstn_skipn i x). apply in_or_app. right.
      rewrite <- (firstn_skipn (j - i) (skipn i x)). apply in_or_app. now left. }
    destruct d.
    - destruct Hd as (Hd & Hk). destruct (net_cols s H) as (cols & Ecols & Lc & Vc).
      rewrite Ecols in E. cbn [bind] in E.
      apply bind_ok in E. destruct E as (n & _ & E). apply bind_ok in E. destruct E as (sp & _ & E).
      apply bind_ok in E. destruct E as (cs & Ecs & E). apply bind_ok in E. destruct E as (parts & Eparts & E).
      apply bind_ok in E. destruct E as (lc & El & E). apply bind_ok in E. destruct E as (k0 & K0 & E).
      apply bind_ok in E. destruct E as (k1 & K1 & E). apply bind_ok in E. destruct E as (n0 & N0 & E).
      apply bind_ok in E. destruct E as (n1 & N1 & E). injection E as <- <-. cbn [suk svk].
      destruct (last (map Some cs) None) as [c|] eqn:El'; [|discriminate]. injection El as ->.
      pose proof (rows_knots (sdim s) (sdu s) (suk s) t cols cs lc Hp) as G.
      split; [reflexivity|]. split; [reflexivity|].
      assert (G' : forall y, In y (cknots lc) -> In y (suk s) \/ y = t).
      { apply G; auto. intros line Hin. apply (In_nth _ _ []) in Hin. destruct Hin as (b & Hb & <-). rewrite Lc in Hb.
        destruct (Vc b Hb) as (_ & ->). destruct (ucol_dom s b) as (D1 & D2). rewrite D1, D2.
        split; [now apply ucol_ok|]. split; [now apply ucol_eps|exact Hd]. }
      split; intros y Hy; apply G'; [eapply (F _ _ _ _ _ K0); exact Hy|eapply (F _ _ _ _ _ K1); exact Hy].
    - destruct Hd as (Hd & Hk). cbn [bind] in E.
      apply bind_ok in E. destruct E as (n & _ & E). apply bind_ok in E. destruct E as (sp & _ & E).
      apply bind_ok in E. destruct E as (cs & Ecs & E). apply bind_ok in E. destruct E as (parts & Eparts & E).
      apply bind_ok in E. destruct E as (lc & El & E). apply bind_ok in E. destruct E as (k0 & K0 & E).
      apply bind_ok in E. destruct E as (k1 & K1 & E). injection E as <- <-. cbn [suk svk].
      destruct (last (map Some cs) None) as [c|] eqn:El'; [|discriminate]. injection El as ->.
      pose proof (rows_knots (sdim s) (sdv s) (svk s) t (snet s) cs lc Hp) as G.
      split; [reflexivity|]. split; [reflexivity|].
      assert (G' : forall y, In y (cknots lc) -> In y (svk s) \/ y = t).
      { apply G; auto. intros line Hin. apply (In_nth _ _ []) in Hin. destruct Hin as (a & Ha & <-). fold (nrow s) in Ha.
        destruct (vrow_dom s a H Ha) as (D1 & D2).
        change (lcurve (sdim s) (sdv s) (svk s) (nth a (snet s) [])) with (vrow s a).
        rewrite D1, D2. split; [now apply vrow_ok|]. split; [now apply vrow_eps|exact Hd]. }
      split; intros y Hy; apply G'; [eapply (F _ _ _ _ _ K0); exact Hy|eapply (F _ _ _ _ _ K1); exact Hy].
  Qed.

  Definition dir_eqb (a b : UV) : bool :=
    match a, b with DirU, DirU | DirV, DirV => true | _, _ => false end.

  (** how many times the two domains have been halved *)
  Definition halved (s : Surf R) (d0 : UV) (t : STree R) (i j : nat) : Prop :=
    ulen t = (u1 s - u0 s) / 2 ^ i /\ vlen t = (v1 s - v0 s) / 2 ^ j /\
    match d0, st_dir t with
    | DirU, DirU | DirV, DirV => i = j
    | DirU, DirV => i = S j
    | DirV, DirU => j = S i
    end.

  Lemma pow2_pos n : 0 < 2 ^ n.
  Proof. apply Rfunctions.pow_lt. lra. Qed.

  Lemma pow2_le i j : (i <= j)%nat -> 2 ^ i <= 2 ^ j.
  Proof. intros H. apply Rle_pow; [lra|exact H]. Qed.

  Lemma halved_small x i : 0 < x -> x / 64 < x / 2 ^ i -> (i <= 5)%nat.
  Proof.
    intros Hx H. destruct (Nat.le_gt_cases i 5) as [|C]; auto. exfalso.
    pose proof (pow2_le 6 i C) as P. replace (2 ^ 6) with 64 in P by (cbn [pow]; lra).
    pose proof (pow2_pos i). assert (/ 2 ^ i <= / 64) by (apply Rinv_le_contravar; lra).
    assert (x / 2 ^ i <= x / 64) by (unfold Rdiv; apply Rmult_le_compat_l; lra). lra.
  Qed.

  Lemma halved_large x i : 0 < x -> (i <= 5)%nat -> x / 32 <= x / 2 ^ i.
  Proof.
    intros Hx H. pose proof (pow2_le i 5 H) as P. replace (2 ^ 5) with 32 in P by (cbn [pow]; lra).
    pose proof (pow2_pos i). unfold Rdiv. apply Rmult_le_compat_l; [lra|]. apply Rinv_le_contravar; lra.
  Qed.

  Lemma single_span_divisions s d : box_surf s -> single_span s ->
    64 * eps <= u1 s - u0 s -> 64 * eps <= v1 s - v0 s ->
    surf_divisions_off_knots s ((u1 s - u0 s) / 64) ((v1 s - v0 s) / 64) d.
  Proof.
    intros Hb Hs Eu Ev rng. destruct (surf_dom_lt _ (bs_ok _ Hb)) as (Lu & Lv).
    set (ut := (u1 s - u0 s) / 64). set (vt := (v1 s - v0 s) / 64).
    assert (Hut : 0 < ut) by (unfold ut; lra). assert (Hvt : 0 < vt) by (unfold vt; lra).
    assert (Off : forall t i j, snode_of s ut vt t -> single_span (st_surf t) -> halved s d t i j ->
              st_dividable t = Ok true -> mid_off t).
    { intros t i j N (S1 & S2) (U & V & Hd) E. destruct (st_dividable_ok t) as (b & Eb & Dt & _).
      { apply (sn_box _ _ _ _ N). }
      rewrite E in Eb. injection Eb as <-. specialize (Dt eq_refl).
      rewrite (sn_utol _ _ _ _ N), (sn_vtol _ _ _ _ N), U, V in Dt.
      assert (P : (i <= 5)%nat \/ (j <= 5)%nat).
      { destruct Dt as [Dt|Dt]; [left|right]; eapply halved_small; try exact Dt; lra. }
      intros y Hy. unfold div_mid. destruct (surf_dom_lt _ (bs_ok _ (sn_box _ _ _ _ N))) as (Ltu & Ltv).
      destruct (st_dir t).
      - assert (i <= 5)%nat by (destruct d; lia).
        pose proof (halved_large (u1 s - u0 s) i ltac:(lra) ltac:(auto)). rewrite <- U in *. unfold ulen in *.
        destruct (S1 y Hy); [rewrite Rabs_left1 by lra|rewrite Rabs_right by lra]; lra.
      - assert (j <= 5)%nat by (destruct d; lia).
        pose proof (halved_large (v1 s - v0 s) j ltac:(lra) ltac:(auto)). rewrite <- V in *. unfold vlen in *.
        destruct (S2 y Hy); [rewrite Rabs_left1 by lra|rewrite Rabs_right by lra]; lra. }
    assert (Inv : forall t, descends st_ops rng (MkSTree s ut vt d) t ->
              snode_of s ut vt t /\ single_span (st_surf t) /\ exists i j, halved s d t i j).
    { assert (St : forall x k x0 x1, snode_of s ut vt x /\ single_span (st_surf x) /\ (exists i j, halved s d x i j) ->
                tdividable st_ops x = Ok true -> tsplit st_ops x (rng k) = Ok (x0, x1) ->
                (snode_of s ut vt x0 /\ single_span (st_surf x0) /\ (exists i j, halved s d x0 i j)) /\
                (snode_of s ut vt x1 /\ single_span (st_surf x1) /\ (exists i j, halved s d x1 i j))).
      { intros x k x0 x1 (N & (S1 & S2) & i & j & Hh) Hd Es. change (st_dividable x = Ok true) in Hd.
        change (st_split x (rng k) = Ok (x0, x1)) in Es.
        pose proof (Off x i j N (conj S1 S2) Hh Hd) as Ho.
        destruct (snode_split s ut vt x (rng k) N Ho) as (y0 & y1 & Es' & N0 & N1 & Hsz & _).
        rewrite Es in Es'. injection Es' as <- <-.
        destruct Hh as (U & V & Hij).
        assert (Half : forall z n, z / 2 ^ n / 2 = z / 2 ^ S n).
        { intros z n. cbn [pow]. field. pose proof (pow2_pos n). lra. }
        assert (HH : (exists i j, halved s d x0 i j) /\ (exists i j, halved s d x1 i j)).
        { unfold halved. destruct (st_dir x).
          - destruct Hsz as (E1 & E2 & E3 & E4 & E5 & E6). rewrite E1, E2, E3, E4, E5, E6.
            split; exists (S i), j; rewrite U, Half; (split; [reflexivity|]; split; [exact V|]; destruct d; lia).
          - destruct Hsz as (E1 & E2 & E3 & E4 & E5 & E6). rewrite E1, E2, E3, E4, E5, E6.
            split; exists i, (S j); rewrite V, Half; (split; [exact U|]; split; [reflexivity|]; destruct d; lia). }
        destruct HH as (H0 & H1).
        assert (SS : single_span (st_surf x0) /\ single_span (st_surf x1)).
        { pose proof (bs_ok _ (sn_box _ _ _ _ N)) as O1. pose proof (bs_eps _ (sn_box _ _ _ _ N)) as O2.
          destruct (surf_dom_lt _ O1) as (Lxu & Lxv).
          unfold st_split in Es. rewrite surf_domain_ok in Es by auto. cbn [bind] in Es.
          unfold mid_off, div_mid in Ho. destruct x as [sx utx vtx dx]. cbn [st_surf st_dir st_utol st_vtol] in *.
          destruct dx.
          - set (m := (u0 sx + u1 sx) / 2) in *.
            replace ((u0 sx + u1 sx) * (sone / sofnat 2))%S with m in Es by (rs; change (sofnat 2) with 2; unfold m; lra).
            apply bind_ok in Es. destruct Es as ([l r] & E & Ex). injection Ex as <- <-. cbn [st_surf].
            destruct (surf_split_u eps maxv sx m O1 O2) as (l' & r' & E' & _ & _ & _ & _ & _ & _ & _ & _ & B0 & B1);
              [unfold m; lra|exact Ho|]. rewrite E in E'. injection E' as <- <-.
            destruct (surf_split_knots sx m DirU l r O1 O2) as (K1 & K2 & K3 & K4); auto.
            { split; [unfold m; lra|exact Ho]. }
            destruct B0 as (C1 & C2 & C3 & C4 & _). destruct B1 as (F1 & F2 & F3 & F4 & _).
            unfold single_span, no_inner. rewrite C1, C2, C3, C4, F1, F2, F3, F4, K1, K2.
            split; split; auto; intros y Hy.
            + destruct (K3 y Hy) as [Hy'| ->]; [|right; lra]. destruct (S1 y Hy'); [left; lra|right; unfold m; lra].
            + destruct (K4 y Hy) as [Hy'| ->]; [|left; lra]. destruct (S1 y Hy'); [left; unfold m; lra|right; lra].
          - set (m := (v0 sx + v1 sx) / 2) in *.
            replace ((v0 sx + v1 sx) * (sone / sofnat 2))%S with m in Es by (rs; change (sofnat 2) with 2; unfold m; lra).
            apply bind_ok in Es. destruct Es as ([l r] & E & Ex). injection Ex as <- <-. cbn [st_surf].
            destruct (surf_split_v eps maxv sx m O1 O2) as (l' & r' & E' & _ & _ & _ & _ & _ & _ & _ & _ & B0 & B1);
              [unfold m; lra|exact Ho|]. rewrite E in E'. injection E' as <- <-.
            destruct (surf_split_knots sx m DirV l r O1 O2) as (K1 & K2 & K3 & K4); auto.
            { split; [unfold m; lra|exact Ho]. }
            destruct B0 as (C1 & C2 & C3 & C4 & _). destruct B1 as (F1 & F2 & F3 & F4 & _).
            unfold single_span, no_inner. rewrite C1, C2, C3, C4, F1, F2, F3, F4, K1, K2.
            split; split; auto; intros y Hy.
            + destruct (K3 y Hy) as [Hy'| ->]; [|right; lra]. destruct (S2 y Hy'); [left; lra|right; unfold m; lra].
            + destruct (K4 y Hy) as [Hy'| ->]; [|left; lra]. destruct (S2 y Hy'); [left; unfold m; lra|right; lra]. }
        destruct SS. auto. }
      intros t H. induction H as [|x k x0 x1 H IH Hd Es|x k x0 x1 H IH Hd Es].
      - split; [now apply snode_root|]. split; [exact Hs|]. exists 0%nat, 0%nat.
        unfold halved, ulen, vlen. cbn [st_surf st_dir pow]. repeat split; try lra. destruct d; reflexivity.
      - apply (St x k x0 x1); auto.
      - apply (St x k x0 x1); auto. }
    intros t Hd Hdiv. destruct (Inv t Hd) as (N & S1 & i & j & Hh). now apply (Off t i j).
  Qed.

  (** A single-span surface with the default tolerances against a single-span curve: no further
      assumption. *)
  Theorem traverse_patch_bezier rng s c d tol :
    (forall k, 0 <= rng k <= 1) -> box_surf s -> box_curve eps maxv c -> sdim s = cdim c ->
    single_span s -> bezier_knots c ->
    64 * eps <= u1 s - u0 s -> 64 * eps <= v1 s - v0 s -> 20 / 9 * eps <= tol ->
    exists t fuel0 pairs, st_new s d None = Ok t /\
      (forall fuel, (fuel0 <= fuel)%nat ->
         traverse st_ops ct_ops (sdim s - 1) rng fuel t (MkCTree c tol) = Ok pairs) /\
      (forall a b, In (a, b) pairs ->
         sleaf_of s ((u1 s - u0 s) / 64) ((v1 s - v0 s) / 64) a /\ leaf_of eps maxv c tol b /\
         sboxes_meet (sdim s - 1) a b) /\
      (forall u v w, in_dom s u v -> dom0 c <= w <= dom1 c ->
         surf_point_at s u v = point_at c w ->
         exists a b, In (a, b) pairs /\ in_dom (st_surf a) u v /\
                     dom0 (ct_curve b) <= w <= dom1 (ct_curve b)).
  Proof.
    intros Hr Bs Bc Hd Ss Bz Eu Ev Et. assert (He : 0 < eps) by apply (bs_eps _ Bs).
    destruct (surf_dom_lt _ (bs_ok _ Bs)) as (Lu & Lv).
    destruct (traverse_surface_curve rng s c ((u1 s - u0 s) / 64) ((v1 s - v0 s) / 64) tol d)
      as (fuel0 & pairs & H1 & H2 & H3); auto; try lra.
    { now apply single_span_divisions. } { now apply bezier_divisions. }
    exists (MkSTree s ((u1 s - u0 s) / 64) ((v1 s - v0 s) / 64) d), fuel0, pairs.
    split; [|auto]. unfold st_new, surf_interval. rewrite surf_domain_ok by apply Bs. cbn [bind]. reflexivity.
  Qed.
End Real.
