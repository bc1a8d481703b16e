(** * The bounding box traversal of two curves, over the reals *)
From Coq Require Import Reals Lra Lia ZArith Sorted Permutation.
From Verif Require Import Base BaseFacts Scalar RSum BSpline KnotModel KnotSpec KnotFacts KnotProofs
     VecFacts CurveModel CurveKnotModel CurveSpec CurveProofs CurveGeom CurveGeom2 Boehm Refine
     SplitModel SplitProofs BBoxModel BBoxProofs TraversalModel TraversalProofs.
Local Open Scope R_scope.

Lemma loop_mono {St A} fuel fuel' (step : St -> Res (St + A)) s r :
  loop_ fuel step s = Ok r -> (fuel <= fuel')%nat -> loop_ fuel' step s = Ok r.
Proof.
  revert fuel' s. induction fuel as [|fuel IH]; intros fuel' s E H; [discriminate|].
  destruct fuel' as [|fuel']; [lia|]. cbn in *. destruct (step s) as [[s'|a]| | |]; cbn in *; auto.
  apply IH; auto. lia.
Qed.

Section Real.
  Variables eps maxv : R.
  Local Hint Extern 0 (Scalar R) => exact (ROps eps maxv) : typeclass_instances.

  (** a curve whose boxes can be computed: positive weights, affine control points at most [maxv] *)
  Record box_curve (c : Curve R) : Prop := {
    bc_ok : curve_ok c;
    bc_eps : curve_eps eps c;
    bc_pos : pos_weights c;
    bc_max : forall i j, (i < cdim c - 1)%nat -> (j < length (cpts c))%nat ->
      Rabs (cpc c i j / cpc c (cdim c - 1) j) <= maxv
  }.

  (** the parameter at which a node is divided *)
  Definition div_param (c : Curve R) (r : R) : R :=
    (dom0 c + dom1 c) / 2 + (dom1 c - dom0 c) / 10 * (r - 1 / 2).

  (** no division of a descendant hits a knot *)
  Definition divisions_off_knots (rng : nat -> R) (c : Curve R) (tol : R) : Prop :=
    forall t k, descends ct_ops rng (MkCTree c tol) t -> tdividable ct_ops t = Ok true ->
      off_knots eps (ct_curve t) (div_param (ct_curve t) (rng k)).

  (** the part of [c] over its own domain *)
  Record node_of (c0 : Curve R) (tol : R) (t : CTree R) : Prop := {
    no_box : box_curve (ct_curve t);
    no_dim : cdim (ct_curve t) = cdim c0;
    no_tol : ct_tol t = tol;
    no_lo : dom0 c0 <= dom0 (ct_curve t);
    no_hi : dom1 (ct_curve t) <= dom1 c0;
    no_same : forall u, dom0 (ct_curve t) <= u <= dom1 (ct_curve t) ->
      point_at (ct_curve t) u = point_at c0 u
  }.

  Lemma node_root c tol : box_curve c -> node_of c tol (MkCTree c tol).
  Proof. intros H. constructor; cbn [ct_curve ct_tol]; auto; lra. Qed.

  (** the set of control points used to describe the boxes *)
  Definition bset (D : nat) (q : list R) : Prop :=
    0 < rc (D - 1) q /\ forall i, (i < D - 1)%nat ->
      - maxv * rc (D - 1) q <= rc i q <= maxv * rc (D - 1) q.

  Lemma bset_convex D : (1 <= D)%nat -> convex_set eps maxv D (bset D).
  Proof.
    intros HD p q t Lp Lq Ht (P1 & P2) (Q1 & Q2).
    unfold bset. rewrite !(rc_vlerp eps maxv) by congruence. split.
    - destruct (Req_dec t 0) as [->|]; [lra|]. assert (0 < t) by lra.
      assert (0 < rc (D - 1) q * t) by (apply Rmult_lt_0_compat; auto).
      assert (0 <= rc (D - 1) p * (1 - t)) by (apply Rmult_le_pos; lra). lra.
    - intros i Hi. rewrite (rc_vlerp eps maxv) by congruence. specialize (P2 i Hi). specialize (Q2 i Hi).
      assert (A1 : - maxv * rc (D - 1) p * (1 - t) <= rc i p * (1 - t)) by (apply Rmult_le_compat_r; lra).
      assert (A2 : - maxv * rc (D - 1) q * t <= rc i q * t) by (apply Rmult_le_compat_r; lra).
      assert (A3 : rc i p * (1 - t) <= maxv * rc (D - 1) p * (1 - t)) by (apply Rmult_le_compat_r; lra).
      assert (A4 : rc i q * t <= maxv * rc (D - 1) q * t) by (apply Rmult_le_compat_r; lra).
      lra.
  Qed.

  Lemma bset_of c : box_curve c -> Forall (bset (cdim c)) (cpts c).
  Proof.
    intros [H1 _ H2 H3]. apply Forall_forall. intros q Hq. apply (In_nth _ _ []) in Hq.
    destruct Hq as (j & Hj & <-). pose proof (H2 j Hj) as Hw. unfold cpc in Hw.
    split; [exact Hw|]. intros i Hi. specialize (H3 i j Hi Hj). unfold cpc in H3.
    set (w := rc (cdim c - 1) (nth j (cpts c) [])) in *. set (x := rc i (nth j (cpts c) [])) in *.
    assert (E : x = x / w * w) by (field; lra).
    assert (- maxv <= x / w <= maxv) by (unfold Rabs in H3; destruct (Rcase_abs _); lra).
    assert (G : - maxv * w <= x / w * w <= maxv * w) by (split; apply Rmult_le_compat_r; lra).
    rewrite <- E in G. exact G.
  Qed.

  Lemma bset_box c : curve_ok c -> curve_eps eps c -> Forall (bset (cdim c)) (cpts c) -> box_curve c.
  Proof.
    intros H1 H2 H3. rewrite Forall_forall in H3. constructor; auto.
    - intros j Hj. apply (H3 (nth j (cpts c) [])). now apply nth_In.
    - intros i j Hi Hj. destruct (H3 (nth j (cpts c) [])) as (Hw & Hb); [now apply nth_In|].
      specialize (Hb i Hi). unfold cpc.
      set (w := rc (cdim c - 1) (nth j (cpts c) [])) in *. set (x := rc i (nth j (cpts c) [])) in *.
      assert (0 < / w) by now apply Rinv_0_lt_compat.
      assert (E : x = x / w * w) by (field; lra).
      apply Rabs_le. split; apply Rmult_le_reg_r with w; auto; lra.
  Qed.

  (** the box of a node contains the points of the node *)
  Lemma node_box c u : box_curve c -> dom0 c <= u <= dom1 c ->
    exists b p, bb_of_curve c = Ok b /\ point_at c u = Ok p /\ in_box (cdim c - 1) b p.
  Proof.
    intros H Hu. pose proof H as [H1 H2 H3 H4].
    destruct (bb_curve_contains eps maxv c u H1 H2 H3 Hu) as (b & p & E1 & E2 & E3).
    - apply Forall_forall. intros q Hq. apply (In_nth _ _ []) in Hq. destruct Hq as (j & Hj & <-).
      intros i Hi. pose proof (co_pts c H1) as Hp. rewrite Forall_forall in Hp.
      pose proof (Hp (nth j (cpts c) []) ltac:(now apply nth_In)).
      unfold rc at 1 3. rewrite (nth_map_lt _ (nth j (cpts c) []) i 0 0) by lia.
      specialize (H4 i j Hi Hj). unfold cpc in H4. fold (rc i (nth j (cpts c) [])).
      unfold Rabs in H4; destruct (Rcase_abs _); lra.
    - exists b, p. split; [exact E1|]. split; [exact E2|]. now apply (bb_contains_iff eps maxv).
  Qed.

  Lemma interval_ok c : curve_ok c -> knots_domain_interval c = Ok (dom1 c - dom0 c).
  Proof.
    intros H. unfold knots_domain_interval. rewrite (knots_domain_ok c H). cbn [bind]. rs. reflexivity.
  Qed.

  Definition div_size (tol : R) : R := Rmin tol (1 / 10000).

  Lemma dividable_ok t : curve_ok (ct_curve t) -> exists d, ct_dividable t = Ok d /\
    (d = true -> div_size (ct_tol t) <= dom1 (ct_curve t) - dom0 (ct_curve t)) /\
    (d = true -> ct_tol t < dom1 (ct_curve t) - dom0 (ct_curve t) \/
                 (cdeg (ct_curve t) = 1%nat /\ (3 <= length (cpts (ct_curve t)))%nat)) /\
    (d = false -> dom1 (ct_curve t) - dom0 (ct_curve t) <= ct_tol t).
  Proof.
    intros H. unfold ct_dividable. rewrite interval_ok by auto. cbn [bind]. rs.
    unfold div_size.
    destruct (Rltb_spec (ct_tol t) (dom1 (ct_curve t) - dom0 (ct_curve t))) as [C|C].
    - eexists. split; [reflexivity|]. split; [|split; [auto|discriminate]]. intros _.
      pose proof (Rmin_l (ct_tol t) (1 / 10000)). lra.
    - destruct (Nat.eqb_spec (cdeg (ct_curve t)) 1) as [C1|C1].
      + eexists. split; [reflexivity|].
        destruct (Rleb_spec (1 / 10000) (dom1 (ct_curve t) - dom0 (ct_curve t))) as [C2|C2].
        * destruct (Nat.leb_spec 3 (length (cpts (ct_curve t)))) as [C3|C3]; cbn [andb].
          -- split; [|split; [auto|discriminate]]. intros _.
             pose proof (Rmin_r (ct_tol t) (1 / 10000)). lra.
          -- split; [discriminate|]. split; [discriminate|]. intros _. lra.
        * cbn [andb]. split; [discriminate|]. split; [discriminate|]. intros _. lra.
      + eexists. split; [reflexivity|]. split; [discriminate|]. split; [discriminate|]. intros _. lra.
  Qed.

  Lemma div_param_ok c r : curve_ok c -> ct_param c r = Ok (div_param c r).
  Proof.
    intros H. unfold ct_param. rewrite (knots_domain_ok c H). cbn [bind]. rs.
    unfold div_param. f_equal. change (sofnat 2) with 2. lra.
  Qed.

  Lemma div_param_range c r : dom0 c <= dom1 c -> 0 <= r <= 1 ->
    dom0 c + 9 / 20 * (dom1 c - dom0 c) <= div_param c r <= dom0 c + 11 / 20 * (dom1 c - dom0 c).
  Proof. intros H Hr. unfold div_param. nra. Qed.

  (** dividing a node *)
  Lemma node_split c0 tol t r : 0 < tol -> 0 <= r <= 1 -> node_of c0 tol t ->
    ct_dividable t = Ok true -> off_knots eps (ct_curve t) (div_param (ct_curve t) r) ->
    exists t0 t1, ct_split t r = Ok (t0, t1) /\ node_of c0 tol t0 /\ node_of c0 tol t1 /\
      dom0 (ct_curve t0) = dom0 (ct_curve t) /\ dom1 (ct_curve t0) = div_param (ct_curve t) r /\
      dom0 (ct_curve t1) = div_param (ct_curve t) r /\ dom1 (ct_curve t1) = dom1 (ct_curve t).
  Proof.
    intros Ht Hr [N1 N2 N3 N4 N5 N6] Hd Ho. pose proof N1 as [O1 O2 O3 O4].
    destruct (dividable_ok t O1) as (d & Ed & Dd & _). rewrite Hd in Ed. injection Ed as <-.
    specialize (Dd eq_refl). rewrite N3 in Dd.
    assert (Hs : 0 < div_size tol) by (unfold div_size; apply Rmin_glb_lt; lra).
    pose proof (div_param_range (ct_curve t) r ltac:(lra) Hr) as Hp.
    set (u := div_param (ct_curve t) r) in *.
    destruct (split_preserves eps maxv (ct_curve t) u O1 O2 ltac:(lra) Ho)
      as (l & rr & E & L1 & L2 & R1 & R2 & G1 & G2 & D1 & D2 & D3 & D4 & V1 & V2).
    exists (MkCTree l tol), (MkCTree rr tol). cbn [ct_curve].
    assert (Dl : cdim l = cdim (ct_curve t) /\ cdim rr = cdim (ct_curve t)).
    { destruct (split_parts eps maxv (ct_curve t) u O1 O2 ltac:(lra) (off_sep _ _ _ Ho))
        as (l' & r' & s & E' & _ & _ & Pl & Pr & _). rewrite E in E'. injection E' as <- <-.
      split; [apply Pl|apply Pr]. }
    destruct Dl as (Dl & Dr).
    destruct (split_convex eps maxv (ct_curve t) u l rr (bset (cdim (ct_curve t))) O1 O2 ltac:(lra)
                (off_sep _ _ _ Ho) E) as (B1 & B2).
    { apply bset_convex. apply O1. }
    { now apply bset_of. }
    split.
    { unfold ct_split. rewrite div_param_ok by auto. cbn [bind]. fold u. rewrite E. cbn [bind].
      now rewrite N3. }
    split; [|split; [|auto]]; constructor; cbn [ct_curve ct_tol]; try lra; try congruence.
    - apply bset_box; auto. now rewrite Dl.
    - intros v Hv. rewrite V1 by lra. apply N6. lra.
    - apply bset_box; auto. now rewrite Dr.
    - intros v Hv. rewrite V2 by lra. apply N6. lra.
  Qed.

  (** height of a node: how many times an interval can lose 9/20 of the division size *)
  Definition node_height (tol : R) (t : CTree R) : nat :=
    Z.to_nat (up ((dom1 (ct_curve t) - dom0 (ct_curve t)) / (9 / 20 * div_size tol))).

  Lemma up_drop x y : 0 <= y -> y <= x - 1 -> (Z.to_nat (up y) < Z.to_nat (up x))%nat.
  Proof.
    intros H0 H. destruct (archimed x) as (X1 & X2). destruct (archimed y) as (Y1 & Y2).
    assert (IZR (up y) < IZR (up x + 0)) as L.
    { destruct (Z_lt_le_dec (up y) (up x)) as [C|C]; [rewrite Z.add_0_r; now apply IZR_lt|].
      exfalso. apply IZR_le in C. assert (up y - 1 < up x)%Z.
      { apply lt_IZR. rewrite minus_IZR. lra. }
      assert (Zc : (up y = up x)%Z) by (apply le_IZR in C; lia). 
      rewrite Zc in *. lra. }
    rewrite Z.add_0_r in L. apply lt_IZR in L.
    assert (0 < up y)%Z by (apply lt_IZR; lra). lia.
  Qed.

  Section Tree.
    Variable rng : nat -> R.
    Variable c0 : Curve R.
    Variable tol : R.
    Hypothesis Hrng : forall k, 0 <= rng k <= 1.
    Hypothesis Hbox : box_curve c0.
    Hypothesis Htol : 0 < tol.
    Hypothesis Hoff : divisions_off_knots rng c0 tol.

    Definition tree_inv (t : CTree R) : Prop :=
      node_of c0 tol t /\ descends ct_ops rng (MkCTree c0 tol) t.
    Definition tree_cov (t : CTree R) (u : R) : Prop := dom0 (ct_curve t) <= u <= dom1 (ct_curve t).

    Lemma curve_tree_spec : tree_spec rng ct_ops tree_inv tree_cov (node_height tol).
    Proof.
      constructor.
      - intros t (H & _). destruct (node_box (ct_curve t) (dom0 (ct_curve t))) as (b & _ & E & _).
        + apply H.
        + pose proof (dom_le _ (bc_ok _ (no_box _ _ _ H))). lra.
        + exists b. exact E.
      - intros t (H & _). destruct (dividable_ok t (bc_ok _ (no_box _ _ _ H))) as (d & E & _).
        exists d. exact E.
      - intros t k (H & Hd) E.
        destruct (node_split c0 tol t (rng k) Htol (Hrng k) H E (Hoff t k Hd E))
          as (t0 & t1 & Es & N0 & N1 & D1 & D2 & D3 & D4).
        exists t0, t1. split; [exact Es|].
        split; [split; [exact N0|eapply desc_left; eauto]|].
        split; [split; [exact N1|eapply desc_right; eauto]|].
        destruct (dividable_ok t (bc_ok _ (no_box _ _ _ H))) as (d & Ed & Dd & _).
        change (ct_dividable t = Ok true) in E. rewrite E in Ed. injection Ed as <-.
        specialize (Dd eq_refl). rewrite (no_tol _ _ _ H) in Dd.
        assert (Hs : 0 < div_size tol) by (unfold div_size; apply Rmin_glb_lt; lra).
        pose proof (div_param_range (ct_curve t) (rng k) ltac:(lra) (Hrng k)) as Hp.
        set (L := dom1 (ct_curve t) - dom0 (ct_curve t)) in *.
        assert (G : forall x, 0 <= x <= 11 / 20 * L ->
          (Z.to_nat (up (x / (9 / 20 * div_size tol))) < Z.to_nat (up (L / (9 / 20 * div_size tol))))%nat).
        { intros x Hx. set (q := 9 / 20 * div_size tol) in *. assert (Hq : 0 < q) by (unfold q; lra).
          assert (Hi : 0 < / q) by now apply Rinv_0_lt_compat.
          apply up_drop.
          - apply Rmult_le_pos; lra.
          - apply Rmult_le_reg_r with q; [exact Hq|]. unfold Rdiv.
            rewrite Rmult_minus_distr_r, !Rmult_assoc, Rinv_l by lra. unfold q. lra. }
        split; [|split].
        + unfold node_height at 1. rewrite D1, D2. apply G. lra.
        + unfold node_height at 1. rewrite D3, D4. apply G. unfold L in *. lra.
        + unfold tree_cov. intros u Hu. rewrite D1, D2, D3, D4.
          destruct (Rle_dec u (div_param (ct_curve t) (rng k))); [left|right]; lra.
    Qed.
  End Tree.

  (** what a reported node is: a part of the curve, no longer than the tolerance *)
  Record leaf_of (c : Curve R) (tol : R) (t : CTree R) : Prop := {
    lf_dom : dom0 c <= dom0 (ct_curve t) /\ dom0 (ct_curve t) <= dom1 (ct_curve t) /\
             dom1 (ct_curve t) <= dom1 c;
    lf_size : dom1 (ct_curve t) - dom0 (ct_curve t) <= tol;
    lf_same : forall u, dom0 (ct_curve t) <= u <= dom1 (ct_curve t) ->
      point_at (ct_curve t) u = point_at c u
  }.

  (** the boxes of two nodes share a point *)
  Definition boxes_meet (D : nat) (a b : CTree R) : Prop :=
    exists ba bb p, bb_of_curve (ct_curve a) = Ok ba /\ bb_of_curve (ct_curve b) = Ok bb /\
      in_box D ba p /\ in_box D bb p.

  Theorem traverse_curves rng ca cb tola tolb :
    (forall k, 0 <= rng k <= 1) -> box_curve ca -> box_curve cb -> cdim ca = cdim cb ->
    0 < tola -> 0 < tolb ->
    divisions_off_knots rng ca tola -> divisions_off_knots rng cb tolb ->
    exists fuel0 pairs,
      (forall fuel, (fuel0 <= fuel)%nat ->
         traverse ct_ops ct_ops (cdim ca - 1) rng fuel (MkCTree ca tola) (MkCTree cb tolb) = Ok pairs) /\
      (forall a b, In (a, b) pairs ->
         leaf_of ca tola a /\ leaf_of cb tolb b /\ boxes_meet (cdim ca - 1) a b) /\
      (forall u v, dom0 ca <= u <= dom1 ca -> dom0 cb <= v <= dom1 cb ->
         point_at ca u = point_at cb v ->
         exists a b, In (a, b) pairs /\ dom0 (ct_curve a) <= u <= dom1 (ct_curve a) /\
                     dom0 (ct_curve b) <= v <= dom1 (ct_curve b)).
  Proof.
    intros Hr Ba Bb Hdim Ta Tb Oa Ob.
    pose proof (curve_tree_spec rng ca tola Hr Ta Oa) as SA.
    pose proof (curve_tree_spec rng cb tolb Hr Tb Ob) as SB.
    assert (NB : forall c0 tol a ba, tree_inv rng c0 tol a -> cdim c0 = cdim ca ->
              bb_of_curve (ct_curve a) = Ok ba ->
              forall u, tree_cov a u -> exists p, point_at c0 u = Ok p /\ in_box (cdim ca - 1) ba p).
    { intros c0 tol a ba (N & _) Hd Eb u Hu.
      destruct (node_box (ct_curve a) u (no_box _ _ _ N) Hu) as (b & p & E1 & E2 & E3).
      rewrite Eb in E1. injection E1 as <-. exists p.
      rewrite <- (no_same _ _ _ N u Hu). split; [exact E2|].
      now rewrite <- Hd, <- (no_dim _ _ _ N). }
    assert (VB : forall D (b : BBox R) p, in_box D b p -> valid_box D b).
    { intros D b p H i Hi. specialize (H i Hi). lra. }
    set (fuel0 := S (5 ^ (node_height tola (MkCTree ca tola) + node_height tolb (MkCTree cb tolb)))).
    destruct (traverse_complete ct_ops ct_ops (cdim ca - 1) rng (tree_inv rng ca tola) tree_cov
                (node_height tola) (tree_inv rng cb tolb) tree_cov (node_height tolb) SA SB
                (fun u v => point_at ca u = point_at cb v)) with (ta := MkCTree ca tola)
                (tb := MkCTree cb tolb) (fuel := fuel0) as (pairs & E & Inv & Cov).
    - intros a b u v ba bb Ia Ib Ca Cb Hm Ea Eb.
      destruct (NB ca tola a ba Ia eq_refl Ea u Ca) as (p & P1 & P2).
      destruct (NB cb tolb b bb Ib (eq_sym Hdim) Eb v Cb) as (q & Q1 & Q2).
      rewrite Hm, Q1 in P1. injection P1 as <-.
      change (@szero R (ROps eps maxv)) with 0. apply (bb_intersects_zero eps maxv); eauto.
    - split; [now apply node_root|constructor].
    - split; [now apply node_root|constructor].
    - unfold fuel0. lia.
    - exists fuel0, pairs. split; [|split].
      + intros fuel Hf. unfold traverse in *. eapply loop_mono; eauto.
      + intros a b Hin. destruct (Inv a b Hin) as (Ia & Ib).
        pose proof (traverse_sound ct_ops ct_ops _ rng _ _ _ _ E) as Snd.
        rewrite Forall_forall in Snd. specialize (Snd _ Hin).
        destruct Snd as (_ & _ & La & Lb & ba & bb & E1 & E2 & E3). cbn [fst snd] in *.
        assert (Lf : forall c tol t, tree_inv rng c tol t -> tdividable ct_ops t = Ok false -> leaf_of c tol t).
        { intros c tol t (N & _) Hd. pose proof (bc_ok _ (no_box _ _ _ N)) as Ok1.
          destruct (dividable_ok t Ok1) as (d & Ed & _ & _ & Df).
          change (ct_dividable t = Ok false) in Hd. rewrite Hd in Ed. injection Ed as <-.
          specialize (Df eq_refl). rewrite (no_tol _ _ _ N) in Df. pose proof (dom_le _ Ok1).
          destruct N. constructor; auto; lra. }
        split; [now apply Lf|]. split; [now apply Lf|].
        destruct (NB ca tola a ba Ia eq_refl E1 (dom0 (ct_curve a))) as (p & _ & P2).
        { unfold tree_cov. pose proof (dom_le _ (bc_ok _ (no_box _ _ _ (proj1 Ia)))). lra. }
        destruct (NB cb tolb b bb Ib (eq_sym Hdim) E2 (dom0 (ct_curve b))) as (q & _ & Q2).
        { unfold tree_cov. pose proof (dom_le _ (bc_ok _ (no_box _ _ _ (proj1 Ib)))). lra. }
        change (@szero R (ROps eps maxv)) with 0 in E3.
        apply (bb_intersects_zero eps maxv) in E3; eauto. destruct E3 as (x & X1 & X2).
        exists ba, bb, x. auto.
      + intros u v Hu Hv Hm. destruct (Cov u v Hu Hv Hm) as (a & b & Hin & Ca & Cb). exists a, b. auto.
  Qed.

  (** ** Single-span (Bezier) curves never hit a knot *)
  Definition bezier_knots (c : Curve R) : Prop :=
    cknots c = repeat (dom0 c) (cdeg c + 1) ++ repeat (dom1 c) (cdeg c + 1) /\
    length (cpts c) = (cdeg c + 1)%nat.

  Lemma bezier_off c r tol : bezier_knots c -> 0 < eps -> 0 <= r <= 1 ->
    20 / 9 * eps <= tol -> tol < dom1 c - dom0 c -> off_knots eps c (div_param c r).
  Proof.
    intros (E & _) He Hr Ht Hl y Hy. rewrite E in Hy.
    pose proof (div_param_range c r ltac:(lra) Hr).
    apply in_app_or in Hy. destruct Hy as [Hy|Hy]; apply repeat_spec in Hy; subst y.
    - rewrite Rabs_left1 by lra. lra.
    - rewrite Rabs_right by lra. lra.
  Qed.

  Lemma bezier_split c u l r : curve_ok c -> curve_eps eps c -> bezier_knots c ->
    dom0 c < u < dom1 c -> off_knots eps c u -> try_split c u = Ok (l, r) ->
    bezier_knots l /\ bezier_knots r.
  Proof.
    intros Hc He (E & Ln) Hu Ho Es.
    destruct (split_preserves eps maxv c u Hc He Hu Ho)
      as (l' & r' & Es1 & L1 & _ & R1 & _ & G1 & G2 & D1 & D2 & D3 & D4 & _).
    rewrite Es in Es1. injection Es1 as <- <-.
    destruct (split_parts eps maxv c u Hc He ltac:(lra) (off_sep _ _ _ Ho))
      as (l' & r' & s & E' & Hs & _ & _ & _ & Kl & Kr). rewrite Es in E'. injection E' as <- <-.
    pose proof (clast_S c Hc). assert (s = cdeg c) by lia. subst s.
    assert (F : firstn (S (cdeg c)) (cknots c) = repeat (dom0 c) (cdeg c + 1)).
    { rewrite E, firstn_app, repeat_length. replace (S (cdeg c) - (cdeg c + 1))%nat with 0%nat by lia.
      rewrite firstn_O, app_nil_r. apply firstn_all2. rewrite repeat_length. lia. }
    assert (G : skipn (S (cdeg c)) (cknots c) = repeat (dom1 c) (cdeg c + 1)).
    { rewrite E, skipn_app, repeat_length. replace (S (cdeg c) - (cdeg c + 1))%nat with 0%nat by lia.
      rewrite skipn_O. rewrite skipn_all2 by (rewrite repeat_length; lia). reflexivity. }
    rewrite F in Kl. rewrite G in Kr.
    split.
    - unfold bezier_knots. rewrite D1, D2, G1. split; [exact Kl|].
      pose proof (curve_len l L1) as K. rewrite Kl, app_length, !repeat_length, G1 in K. lia.
    - unfold bezier_knots. rewrite D3, D4, G2. split; [exact Kr|].
      pose proof (curve_len r R1) as K. rewrite Kr, app_length, !repeat_length, G2 in K. lia.
  Qed.

  Lemma bezier_divisions rng c tol : (forall k, 0 <= rng k <= 1) -> box_curve c -> bezier_knots c ->
    20 / 9 * eps <= tol -> divisions_off_knots rng c tol.
  Proof.
    intros Hr Hb Hz Ht. assert (He : 0 < eps) by apply (bc_eps _ Hb).
    assert (Htol : 0 < tol) by lra.
    assert (Off : forall t k, node_of c tol t -> bezier_knots (ct_curve t) -> ct_dividable t = Ok true ->
              tol < dom1 (ct_curve t) - dom0 (ct_curve t) /\
              off_knots eps (ct_curve t) (div_param (ct_curve t) (rng k))).
    { intros t k N Z Hd. pose proof (bc_ok _ (no_box _ _ _ N)) as Ok1.
      destruct (dividable_ok t Ok1) as (d & Ed & _ & Dd & _). rewrite Hd in Ed. injection Ed as <-.
      rewrite (no_tol _ _ _ N) in Dd. destruct (Dd eq_refl) as [Dl|(D1 & D2)].
      - split; [exact Dl|]. now apply (bezier_off _ _ tol).
      - destruct Z as (_ & Z). lia. }
    assert (Inv : forall t, descends ct_ops rng (MkCTree c tol) t ->
              node_of c tol t /\ bezier_knots (ct_curve t)).
    { assert (St : forall x k x0 x1, node_of c tol x /\ bezier_knots (ct_curve x) ->
                tdividable ct_ops x = Ok true -> tsplit ct_ops x (rng k) = Ok (x0, x1) ->
                (node_of c tol x0 /\ bezier_knots (ct_curve x0)) /\
                (node_of c tol x1 /\ bezier_knots (ct_curve x1))).
      { intros x k x0 x1 (N & Z) Hd Es. change (ct_dividable x = Ok true) in Hd.
        change (ct_split x (rng k) = Ok (x0, x1)) in Es. destruct (Off x k N Z Hd) as (Hl & Ho).
        destruct (node_split c tol x (rng k) Htol (Hr k) N Hd Ho) as (y0 & y1 & Es' & N0 & N1 & _).
        rewrite Es in Es'. injection Es' as <- <-.
        pose proof (bc_ok _ (no_box _ _ _ N)) as Ok1.
        unfold ct_split in Es. rewrite div_param_ok in Es by auto. cbn [bind] in Es.
        apply bind_ok in Es. destruct Es as ([l r] & Es & E2). injection E2 as <- <-.
        pose proof (div_param_range (ct_curve x) (rng k) ltac:(lra) (Hr k)).
        destruct (bezier_split (ct_curve x) (div_param (ct_curve x) (rng k)) l r Ok1
                    (bc_eps _ (no_box _ _ _ N)) Z ltac:(lra) Ho Es); auto. }
      intros t H. induction H as [|x k x0 x1 H IH Hd Es|x k x0 x1 H IH Hd Es].
      - split; [now apply node_root|exact Hz].
      - apply (St x k x0 x1); auto.
      - apply (St x k x0 x1); auto. }
    intros t k Hd Hdiv. destruct (Inv t Hd) as (N & Z). now apply Off.
  Qed.

  (** For single-span curves the traversal always succeeds, whatever the random numbers. *)
  Theorem traverse_bezier rng ca cb tola tolb :
    (forall k, 0 <= rng k <= 1) -> box_curve ca -> box_curve cb -> cdim ca = cdim cb ->
    bezier_knots ca -> bezier_knots cb -> 20 / 9 * eps <= tola -> 20 / 9 * eps <= tolb ->
    exists fuel0 pairs,
      (forall fuel, (fuel0 <= fuel)%nat ->
         traverse ct_ops ct_ops (cdim ca - 1) rng fuel (MkCTree ca tola) (MkCTree cb tolb) = Ok pairs) /\
      (forall a b, In (a, b) pairs ->
         leaf_of ca tola a /\ leaf_of cb tolb b /\ boxes_meet (cdim ca - 1) a b) /\
      (forall u v, dom0 ca <= u <= dom1 ca -> dom0 cb <= v <= dom1 cb ->
         point_at ca u = point_at cb v ->
         exists a b, In (a, b) pairs /\ dom0 (ct_curve a) <= u <= dom1 (ct_curve a) /\
                     dom0 (ct_curve b) <= v <= dom1 (ct_curve b)).
  Proof.
    intros Hr Ba Bb Hd Za Zb Ta Tb. pose proof (proj1 (bc_eps _ Ba)) as He.
    apply traverse_curves; auto; try lra; now apply bezier_divisions.
  Qed.
End Real.
