(** * Containment by ray casting: the answer is the parity of the crossings *)
From Coq Require Import Reals Lra Lia ZArith List Sorted Permutation Classical.
From Verif Require Import Base BaseFacts Scalar RSum BSpline KnotModel KnotSpec KnotFacts KnotProofs
     VecFacts CurveModel CurveKnotModel CurveSpec CurveProofs CurveGeom CurveGeom2 Boehm Refine
     SplitModel SplitProofs BBoxModel BBoxProofs TraversalModel TraversalProofs TraversalCurve CurveShapes
     CompoundModel IntersectModel IntersectProofs ClosestModel ContainsModel CrossingSpec CrossingProofs ContainsProofs.
Import ListNotations.
Local Open Scope R_scope.

(** ** What is asked of the curve near the level of the point (specification) *)
Section Clear.
  Variable c : Curve R.
  Variables px py md M : R.
  Let X := nurbs c 0.
  Let Y := nurbs c 1.

  (** a piece no longer than [tol] that meets the level lies on one side of the point *)
  Definition one_sided (tol : R) : Prop := forall s t u, dom0 c <= s -> s <= u <= t -> t <= dom1 c -> t - s <= tol -> Y u = py ->
    (forall v, s <= v <= t -> px <= X v) \/ (forall v, s <= v <= t -> X v < px).

  (** two crossings are at least [md] apart *)
  Definition crossings_apart (tol : R) : Prop := forall s t s' t' u v,
    dom0 c <= s -> s <= u <= t -> t <= s' -> s' <= v <= t' -> t' <= dom1 c -> t - s <= tol -> t' - s' <= tol ->
    ~ (above Y py s <-> above Y py t) -> ~ (above Y py s' <-> above Y py t') ->
    Rabs (Y u - py) < md -> Rabs (Y v - py) < md -> px <= X u -> px <= X v ->
    md <= sqrt ((X u - X v) * (X u - X v) + (Y u - Y v) * (Y u - Y v)).

  (** the height changes at most [M] times as fast as the parameter *)
  Definition height_lipschitz : Prop := forall u v, dom0 c <= u <= dom1 c -> dom0 c <= v <= dom1 c ->
    Rabs (Y u - Y v) <= M * Rabs (u - v).
End Clear.

Section Real.
  Variables eps maxv : R.
  Local Hint Extern 0 (Scalar R) => exact (ROps eps maxv) : typeclass_instances.
  Local Notation node_of := (node_of eps maxv).
  Local Notation box_curve := (box_curve eps maxv).
  Local Notation tree_inv := (tree_inv eps maxv).

  Section Leaf.
    Variable c : Curve R.
    Hypothesis Hbox : box_curve c.
    Hypothesis Hdim : cdim c = 3%nat.
    Variable tol : R.
    Variable p : list R.
    Variable o : @Options R.
    Variable M : R.
    Let px := rc 0 p.
    Let py := rc 1 p.
    Let X := nurbs c 0.
    Let Y := nurbs c 1.
    Hypothesis HM : height_lipschitz c M.

    Lemma node_point t u : node_of c tol t -> dom0 (ct_curve t) <= u <= dom1 (ct_curve t) ->
      exists q, point_at (ct_curve t) u = Ok q /\ point_at c u = Ok q /\ length q = 2%nat /\ rc 0 q = X u /\ rc 1 q = Y u.
    Proof.
      intros N Hu. pose proof (no_lo _ _ _ _ _ N). pose proof (no_hi _ _ _ _ _ N).
      destruct (point_at_spec eps maxv c u) as (q & E & L & G).
      - apply Hbox.
      - apply Hbox.
      - lra.
      - apply Rgt_not_eq, (wfun_pos eps maxv); try apply Hbox. lra.
      - exists q. rewrite (no_same _ _ _ _ _ N) by auto. rewrite Hdim in *. repeat split; auto; apply G; lia.
    Qed.

    (** the bisection *)
    Lemma search_spec t n forward : node_of c tol t -> forall mn mx,
      dom0 (ct_curve t) <= mn -> mn <= mx -> mx <= dom1 (ct_curve t) ->
      (if forward : bool then Y mn <= py /\ py < Y mx else py < Y mn /\ Y mx <= py) ->
      exists r, level_search n (ct_curve t) py (op_min o) forward mn mx = Ok r /\
        (forall q u, r = Some (q, u) -> mn <= u <= mx /\ point_at c u = Ok q /\ length q = 2%nat /\ rc 0 q = X u /\ rc 1 q = Y u /\
                                        Rabs (Y u - py) < op_min o) /\
        (r = None -> n = 0%nat \/ op_min o <= M * (mx - mn) / 2 ^ n).
    Proof.
      intros N. induction n as [|n IH]; intros mn mx H1 H2 H3 Hs; cbn [level_search].
      { eexists. split; [reflexivity|]. split; [discriminate|auto]. }
      unfold stwo. rs. set (u := (mn + mx) / 2).
      assert (Hu : mn <= u <= mx) by (unfold u; lra).
      destruct (node_point t u N ltac:(lra)) as (q & E & Ec & L & Q0 & Q1). rewrite E. cbn [bind].
      rewrite (coord_rc eps maxv 1 q), Q1.
      assert (Lip : Rabs (Y u - py) <= M * (mx - mn) / 2).
      { pose proof (no_lo _ _ _ _ _ N). pose proof (no_hi _ _ _ _ _ N).
        pose proof (HM u mn ltac:(lra) ltac:(lra)) as A1. pose proof (HM mx u ltac:(lra) ltac:(lra)) as A2.
        fold Y in A1, A2. rewrite (Rabs_pos_eq (u - mn)) in A1 by lra. rewrite (Rabs_pos_eq (mx - u)) in A2 by lra.
        replace (u - mn) with ((mx - mn) / 2) in A1 by (unfold u; field).
        replace (mx - u) with ((mx - mn) / 2) in A2 by (unfold u; field).
        unfold Rabs in *. destruct forward; destruct Hs; repeat destruct (Rcase_abs _); lra. }
      destruct (Rltb_spec (Rabs (Y u - py)) (op_min o)) as [Hlt|Hge].
      { eexists. split; [reflexivity|]. split; [|discriminate]. intros q' u' Eq. injection Eq as <- <-. auto 10. }
      assert (Hp : 0 < 2 ^ n) by (apply Rfunctions.pow_lt; lra).
      assert (Fin : forall mn' mx', mn <= mn' -> mn' <= mx' -> mx' <= mx -> mx' - mn' = (mx - mn) / 2 ->
        (if forward : bool then Y mn' <= py /\ py < Y mx' else py < Y mn' /\ Y mx' <= py) ->
        exists r, level_search n (ct_curve t) py (op_min o) forward mn' mx' = Ok r /\
        (forall q u, r = Some (q, u) -> mn <= u <= mx /\ point_at c u = Ok q /\ length q = 2%nat /\ rc 0 q = X u /\ rc 1 q = Y u /\
                                        Rabs (Y u - py) < op_min o) /\
        (r = None -> S n = 0%nat \/ op_min o <= M * (mx - mn) / 2 ^ S n)).
      { intros mn' mx' B1 B2 B3 B4 Hs'. destruct (IH mn' mx' ltac:(lra) ltac:(lra) ltac:(lra) Hs') as (r & Er & S1 & S2).
        exists r. split; [exact Er|]. split.
        - intros q' u' Eq. destruct (S1 q' u' Eq) as (K & K'). split; [lra|exact K'].
        - intros Eq. right. destruct (S2 Eq) as [->|S3]; [cbn; lra|].
          rewrite B4 in S3. replace (M * (mx - mn) / 2 ^ S n) with (M * ((mx - mn) / 2) / 2 ^ n); [exact S3|].
          cbn [pow]. field. lra. }
      destruct (Rltb_spec 0 (Y u - py)) as [Hov|Hun]; destruct forward; cbn [negb]; apply Fin; try lra; try (unfold u; lra).
    Qed.

    Let crosses := crosses X Y px py.

    (** the outcome for one leaf *)
    Definition outcome (t : CTree R) (r : option (list R * R)) : Prop :=
      match r with
      | Some (q, u) => fst (iv t) <= u <= snd (iv t) /\ point_at c u = Ok q /\ length q = 2%nat /\ rc 0 q = X u /\ rc 1 q = Y u /\
          Rabs (Y u - py) < op_min o /\ ~ (above Y py (fst (iv t)) <-> above Y py (snd (iv t)))
      | None => (above Y py (fst (iv t)) <-> above Y py (snd (iv t))) \/
                (X (fst (iv t)) < px /\ X (snd (iv t)) < px)
      end.

    Lemma leaf_outcome t : node_of c tol t -> dom1 (ct_curve t) - dom0 (ct_curve t) <= tol -> 0 <= M ->
      M * tol / 2 ^ op_iters o < op_min o -> (0 < op_iters o)%nat ->
      exists r, leaf_crossing (ct_curve t) p o = Ok r /\ outcome t r.
    Proof.
      intros N Ht HM0 Hmin Hit. unfold leaf_crossing.
      pose proof (bc_ok _ _ _ (no_box _ _ _ _ _ N)) as Hok. rewrite (knots_domain_ok _ Hok). cbn [bind].
      pose proof (dom_le _ Hok) as Hdom.
      destruct (node_point t (dom0 (ct_curve t)) N ltac:(lra)) as (ps & Es & Esc & Ls & S0 & S1). rewrite Es. cbn [bind].
      destruct (node_point t (dom1 (ct_curve t)) N ltac:(lra)) as (pe & Ee & Eec & Le & E0 & E1). rewrite Ee. cbn [bind].
      rewrite (coord_rc eps maxv 0 ps), (coord_rc eps maxv 0 pe), (coord_rc eps maxv 0 p), (coord_rc eps maxv 1 ps), (coord_rc eps maxv 1 pe), (coord_rc eps maxv 1 p), S0, S1, E0, E1. fold px py. rs.
      set (s := dom0 (ct_curve t)) in *. set (e := dom1 (ct_curve t)) in *.
      destruct (Rltb_spec (X s) px) as [C0|C0]; [destruct (Rltb_spec (X e) px) as [C1|C1]|]; cbn [andb].
      1:{ eexists. split; [reflexivity|]. cbn [outcome iv fst snd]. right. auto. }
      all: assert (Fin : forall forward, (if forward : bool then Y s <= py /\ py < Y e else py < Y s /\ Y e <= py) ->
             exists r, level_search (op_iters o) (ct_curve t) py (op_min o) forward s e = Ok r /\ outcome t r);
        [intros forward Hs; destruct (search_spec t (op_iters o) forward N s e (Rle_refl _) (Rlt_le _ _ Hdom) (Rle_refl _) Hs) as (r & Er & R1 & R2);
         exists r; split; [exact Er|]; destruct r as [[q u]|]; cbn [outcome iv fst snd];
         [destruct (R1 q u eq_refl) as (K1 & K2 & K3 & K4 & K5 & K6); fold s e; repeat split; auto; try lra;
          unfold above; destruct forward; lra
         |exfalso; destruct (R2 eq_refl) as [Z|Z]; [lia|];
          assert (M * (e - s) / 2 ^ op_iters o <= M * tol / 2 ^ op_iters o);
          [assert (Hp : 0 < 2 ^ op_iters o) by (apply Rfunctions.pow_lt; lra);
           unfold Rdiv; apply Rmult_le_compat_r; [left; now apply Rinv_0_lt_compat|]; apply Rmult_le_compat_l; lra
          |lra]]
        |].
      all: destruct (Rltb_spec py (Y s)) as [A|A], (Rltb_spec py (Y e)) as [A'|A']; try (apply Fin; lra);
        (eexists; split; [reflexivity|]); cbn [outcome iv fst snd]; left; fold s e; unfold above; lra.
    Qed.
  End Leaf.

  (** ** The ray *)
  Definition ray (px py L : R) : Curve R := MkCurve 3 1 [[px; py; 1]; [px + L; py; 1]] [0; 0; 1; 1].

  Lemma ray_polyline px py L : 0 < L ->
    polyline 3 [[px; py]; vadd [px; py] (vscale [sone; szero] L)] true = Ok (ray px py L).
  Proof.
    intros HL. unfold vadd, vscale. cbn [map map2]. rs.
    rewrite (polyline_eq eps maxv) by (cbn [length]; try lia; repeat constructor).
    unfold poly_knots. cbn [length]. change (2 - 1)%nat with 1%nat. cbn [seq map app].
    assert (E0 : chord [[px; py]; [px + 1 * L; py + 0 * L]] 0 = 0) by reflexivity.
    assert (E1 : chord [[px; py]; [px + 1 * L; py + 0 * L]] 1 = L).
    { unfold chord. cbn [rsum nth]. unfold rdist. cbn [length rsum]. unfold rc. cbn [nth].
      replace (0 + sqrt (0 + (px - (px + 1 * L)) * (px - (px + 1 * L)) + (py - (py + 0 * L)) * (py - (py + 0 * L))))
        with (sqrt (L * L)) by (rewrite Rplus_0_l; f_equal; ring).
      apply sqrt_square. lra. }
    rewrite E0, E1. unfold ray, to_homogeneous. cbn [app]. rs.
    replace (0 / L) with 0 by (field; lra). replace (L / L) with 1 by (field; lra).
    replace (px + 1 * L) with (px + L) by ring. replace (py + 0 * L) with py by ring. reflexivity.
  Qed.

  Lemma ray_interval px py L : knots_domain_interval (ray px py L) = Ok 1.
  Proof.
    unfold knots_domain_interval, knots_domain, domain. cbn. rs. f_equal. ring.
  Qed.

  Lemma ray_leaf px py L : tdividable ct_ops (MkCTree (ray px py L) 1) = Ok false.
  Proof.
    change (ct_dividable (MkCTree (ray px py L) 1) = Ok false). unfold ct_dividable. cbn [ct_curve ct_tol].
    rewrite ray_interval. cbn [bind]. rs. rewrite (proj2 (Rltb_false _ _)) by lra.
    cbn [cdeg ray Nat.eqb cpts length]. replace (3 <=? 2)%nat with false by reflexivity. now rewrite Bool.andb_false_r.
  Qed.

  Lemma ray_box px py L : 0 < L -> Rabs px <= maxv -> Rabs py <= maxv -> Rabs (px + L) <= maxv ->
    exists b, tbox ct_ops (MkCTree (ray px py L) 1) = Ok b /\ valid_box 2 b /\
      forall q, px <= rc 0 q <= px + L -> rc 1 q = py -> in_box 2 b q.
  Proof.
    intros HL B1 B2 B3. cbn [tbox ct_ops ct_curve]. unfold bb_of_curve, dehomogenized_control_points.
    cbn [cpts ray cdim mapM]. unfold dehomogenize, coord. cbn [nth Nat.sub]. rs.
    rewrite (proj2 (Reqb_false 1 0)) by lra. cbn [unwrap bind firstn]. unfold vdivs. cbn [map]. rs.
    eexists. split; [reflexivity|].
    set (pts := [[px / 1; py / 1]; [(px + L) / 1; py / 1]]).
    assert (Hb : Forall (bounded maxv 2) pts).
    { unfold pts. repeat (apply Forall_cons); [| |constructor]; intros i Hi; destruct i as [|[|i]]; try lia; unfold rc; cbn [nth];
        unfold Rabs in *; repeat destruct (Rcase_abs _); lra. }
    destruct (bb_points_tight eps maxv 2 pts ltac:(discriminate) Hb) as (T1 & _).
    inversion T1 as [|? ? Ta Tr]; subst. inversion Tr as [|? ? Tb _]; subst. split.
    - intros i Hi. specialize (Ta i Hi). lra.
    - intros q Q0 Q1 i Hi. specialize (Ta i Hi). specialize (Tb i Hi).
      destruct i as [|[|i]]; try lia; unfold rc in Ta, Tb; cbn [nth] in Ta, Tb; unfold rc in *; lra.
  Qed.

  (** ** Counting *)
  Lemma hits_fop {A} (ts : list A) (found : list (option (list R * R))) (Rel : A -> option (list R * R) -> Prop)
    (P : A -> A -> Prop) keep (Q : list R * R -> list R * R -> Prop) :
    Forall2 Rel ts found -> ForallOrdPairs P ts ->
    (forall t1 t2 h1 h2, P t1 t2 -> Rel t1 (Some h1) -> Rel t2 (Some h2) -> keep h1 = true -> keep h2 = true -> Q h1 h2) ->
    ForallOrdPairs Q (filter keep (somes found)).
  Proof.
    intros F. induction F as [|t r ts found Hr F IH]; intros G H; [constructor|].
    inversion G as [|? ? G1 G2]; subst. specialize (IH G2 H). destruct r as [h|]; cbn [somes]; [|exact IH].
    cbn [filter]. destruct (keep h) eqn:K; [|exact IH]. constructor; [|exact IH].
    clear IH G2 G. induction F as [|t' r' ts found Hr' F IH]; [constructor|].
    inversion G1 as [|? ? G1a G1b]; subst. specialize (IH G1b). destruct r' as [h'|]; cbn [somes]; [|exact IH].
    cbn [filter]. destruct (keep h') eqn:K'; [|exact IH]. constructor; [|exact IH]. eapply H; eauto.
  Qed.
  Lemma fop_map {A B} (f : A -> B) (P : B -> B -> Prop) l : ForallOrdPairs P (map f l) -> ForallOrdPairs (fun x y => P (f x) (f y)) l.
  Proof.
    induction l as [|x l IH]; cbn; intros H; [constructor|]. inversion H as [|? ? G F]; subst. constructor; [|auto].
    clear - G. induction l; [constructor|]. inversion G; subst. constructor; auto.
  Qed.

  Section Count.
    Variable c : Curve R.
    Hypothesis Hbox : box_curve c.
    Hypothesis Hdim : cdim c = 3%nat.
    Variables px py : R.
    Variable o : @Options R.
    Variable M : R.
    Let tol := (dom1 c - dom0 c) / INR (op_div o).
    Let X := nurbs c 0.
    Let Y := nurbs c 1.
    Hypothesis HM : height_lipschitz c M.
    Hypothesis Hdiv : (0 < op_div o)%nat.
    Hypothesis Hit : (0 < op_iters o)%nat.
    Hypothesis Hmin : M * tol / 2 ^ op_iters o < op_min o.
    Hypothesis Hside : one_sided c px py tol.
    Hypothesis Hapart : crossings_apart c px py (op_min o) tol.
    Variable L : R.
    Hypothesis HL : 0 < L.
    Hypothesis Hreach : forall u, dom0 c <= u <= dom1 c -> X u <= px + L.
    Hypothesis Hb1 : Rabs px <= maxv.
    Hypothesis Hb2 : Rabs py <= maxv.
    Hypothesis Hb3 : Rabs (px + L) <= maxv.
    Variable rng : nat -> R.
    Hypothesis Hrng : forall k, 0 <= rng k <= 1.
    Hypothesis Hoff : divisions_off_knots eps maxv rng c tol.
    Let crosses := crosses X Y px py.

    Lemma tol_pos : 0 < tol.
    Proof.
      unfold tol. pose proof (dom_le _ (bc_ok _ _ _ Hbox)). apply Rdiv_lt_0_compat; [lra|]. now apply lt_0_INR.
    Qed.
    Lemma M_pos : 0 <= M.
    Proof.
      pose proof (dom_le _ (bc_ok _ _ _ Hbox)). pose proof (HM (dom1 c) (dom0 c) ltac:(lra) ltac:(lra)) as K.
      pose proof (Rabs_pos (nurbs c 1 (dom1 c) - nurbs c 1 (dom0 c))). rewrite (Rabs_pos_eq (dom1 c - dom0 c)) in K by lra.
      apply Rmult_le_reg_r with (dom1 c - dom0 c); lra.
    Qed.

    Lemma level_between s t : dom0 c <= s -> s <= t -> t <= dom1 c -> ~ (above Y py s <-> above Y py t) ->
      exists u, s <= u <= t /\ Y u = py.
    Proof. intros H1 H2 H3 Hc. exact (lipschitz_ivt Y M (dom0 c) (dom1 c) py HM s t H1 H2 H3 Hc). Qed.

    Lemma kept_counts t r : kept eps maxv rng c tol t -> outcome c [px; py] o t r ->
      (crosses (iv t) <-> match r with Some (q, u) => px <= rc 0 q | None => False end) /\
      (level_right X Y px py (fst (iv t)) (snd (iv t)) \/ level_left X Y px py (fst (iv t)) (snd (iv t))).
    Proof.
      intros ((N & _) & Hd) Ho. pose proof (bc_ok _ _ _ (no_box _ _ _ _ _ N)) as Hok.
      pose proof (dom_le _ Hok) as Hlt. pose proof (no_lo _ _ _ _ _ N) as H0. pose proof (no_hi _ _ _ _ _ N) as H1.
      destruct (dividable_ok eps maxv t Hok) as (d & Ed & _ & _ & Dd). rewrite Hd in Ed. injection Ed as <-.
      specialize (Dd eq_refl). rewrite (no_tol _ _ _ _ _ N) in Dd.
      unfold iv in *. cbn [fst snd] in *. set (s := dom0 (ct_curve t)) in *. set (e := dom1 (ct_curve t)) in *.
      assert (One : forall u, s <= u <= e -> Y u = py -> (forall v, s <= v <= e -> px <= X v) \/ (forall v, s <= v <= e -> X v < px)).
      { intros u Hu Eu. apply (Hside s e u); auto; lra. }
      split.
      - unfold crosses, CrossingSpec.crosses, level_right. cbn [fst snd]. split.
        + intros (Hc & Hr). destruct (level_between s e ltac:(lra) ltac:(lra) ltac:(lra) Hc) as (u & Hu & Eu).
          pose proof (Hr u Hu Eu) as Hx. destruct (One u Hu Eu) as [Ri|Le]; [|specialize (Le u Hu); lra].
          destruct r as [[q w]|]; cbn [outcome iv fst snd] in Ho; fold s e in Ho.
          * destruct Ho as (Hw & _ & _ & E0 & _). rewrite E0. apply Ri. exact Hw.
          * destruct Ho as [Ho|(Ho & _)]; [contradiction|]. pose proof (Ri s ltac:(lra)). unfold rc in Ho. cbn [nth] in Ho.
            change (nurbs c 0 s) with (X s) in Ho. lra.
        + destruct r as [[q w]|]; [|tauto]. cbn [outcome iv fst snd] in Ho. fold s e in Ho.
          destruct Ho as (Hw & _ & _ & E0 & E1 & _ & Hc). intros Hx. split; [exact Hc|].
          destruct (level_between s e ltac:(lra) ltac:(lra) ltac:(lra) Hc) as (u & Hu & Eu).
          destruct (One u Hu Eu) as [Ri|Le]; [intros v Hv _; now apply Ri|].
          specialize (Le w Hw). rewrite E0 in Hx. change (nurbs c 0 w) with (X w) in Hx. lra.
      - destruct (classic (exists u, s <= u <= e /\ Y u = py)) as [(u & Hu & Eu)|No].
        + destruct (One u Hu Eu) as [Ri|Le]; [left; intros v Hv _; now apply Ri|right; intros v Hv _; now apply Le].
        + right. intros v Hv Ev. exfalso. apply No. exists v. auto.
    Qed.

    Lemma missed_left bb t : missed eps maxv rng c tol bb 2 t -> valid_box 2 bb ->
      (forall q, px <= rc 0 q <= px + L -> rc 1 q = py -> in_box 2 bb q) ->
      level_left X Y px py (fst (iv t)) (snd (iv t)).
    Proof.
      intros ((N & _) & ba & Eb & Ei) Hv Hq u Hu Eu. apply Rnot_le_lt. intros Hx.
      unfold iv in Hu. cbn [fst snd] in Hu. pose proof (no_lo _ _ _ _ _ N) as H0. pose proof (no_hi _ _ _ _ _ N) as H1.
      destruct (node_box eps maxv (ct_curve t) u (no_box _ _ _ _ _ N) Hu) as (b & q & E1 & E2 & E3).
      rewrite Eb in E1. injection E1 as <-.
      destruct (node_point c Hbox Hdim tol t u N Hu) as (q' & E2' & _ & _ & Q0 & Q1). rewrite E2 in E2'. injection E2' as <-.
      rewrite (no_dim _ _ _ _ _ N), Hdim in E3. change (3 - 1)%nat with 2%nat in E3.
      enough (bb_intersects 2 ba bb (Some 0) = true) by congruence.
      apply (bb_intersects_zero eps maxv); auto.
      - intros i Hi. specialize (E3 i Hi). lra.
      - exists q. split; [exact E3|]. apply Hq.
        + rewrite Q0. split; [exact Hx|]. apply Hreach. lra.
        + rewrite Q1. exact Eu.
    Qed.

    Theorem ray_parity opt : options_or_default opt = o ->
      exists fuel0 its,
        (forall fuel, (fuel0 <= fuel)%nat -> x_ray_intersection rng fuel c [px; py] L opt = Ok its) /\
        crossing_parity X Y px py (dom0 c) (dom1 c) (Nat.odd (length its)) /\
        forall q, In q its -> exists u, dom0 c <= u <= dom1 c /\ point_at c u = Ok q /\ Rabs (rc 1 q - py) < op_min o /\ px <= rc 0 q.
    Proof.
      intros Eo. pose proof tol_pos as Htol. pose proof M_pos as HM0.
      destruct (ray_box px py L HL Hb1 Hb2 Hb3) as (bb & Ebb & Vbb & Hbb).
      pose proof (ray_leaf px py L) as Hdivb.
      set (tb := MkCTree (ray px py L) 1) in *.
      pose proof (curve_tree_spec eps maxv rng c tol Hrng Htol Hoff) as SA.
      assert (SB : tree_spec rng (@ct_ops R (ROps eps maxv)) (fun t => t = tb) (fun (_ : CTree R) (_ : unit) => True) (fun _ => 0%nat)).
      { constructor.
        - intros x ->. eauto.
        - intros x ->. eauto.
        - intros x k -> E. rewrite Hdivb in E. discriminate. }
      destruct (traverse_complete ct_ops ct_ops 2 rng _ _ _ _ _ _ SA SB (fun _ _ => False) (fun _ _ _ _ _ _ _ _ _ _ f _ _ => False_ind _ f)
                 (MkCTree c tol) tb (S (5 ^ (node_height tol (MkCTree c tol) + 0)))) as (pairs & Ep & _).
      { split; [now apply node_root|constructor]. }
      { reflexivity. }
      { lia. }
      destruct (traverse_pieces eps maxv rng c tol Hrng Hbox Htol Hoff _ ct_ops tb bb Hdivb Ebb 2 _ _ Ep)
        as (dead & l & P & Pm & Hdead & Hkept).
      set (h := fun r : option (list R * R) => r).
      assert (Out : exists found, mapM (fun pr => leaf_crossing (ct_curve (fst pr)) [px; py] o) pairs = Ok found /\
                Forall2 (fun pr r => outcome c [px; py] o (fst pr) r) pairs found).
      { clear - Hkept Hbox Hdim HM Hmin HM0 Hit. rewrite Forall_map in Hkept.
        induction Hkept as [|pr pairs Hk _ (found & E & F)]; [exists []; split; [reflexivity|constructor]|].
        destruct Hk as ((N & De) & Hd). pose proof (bc_ok _ _ _ (no_box _ _ _ _ _ N)) as Hok.
        destruct (dividable_ok eps maxv (fst pr) Hok) as (d & Ed & _ & _ & Dd). rewrite Hd in Ed. injection Ed as <-.
        specialize (Dd eq_refl). rewrite (no_tol _ _ _ _ _ N) in Dd.
        destruct (leaf_outcome c Hbox Hdim tol [px; py] o M HM (fst pr) N Dd HM0 Hmin Hit) as (r & Er & Or).
        exists (r :: found). cbn [mapM]. rewrite Er. cbn [bind]. rewrite E. cbn [bind]. split; [reflexivity|]. now constructor. }
      destruct Out as (found & Ef & Ff).
      set (keep := fun h : list R * R => Rleb px (rc 0 (fst h))).
      set (hits := filter keep (somes found)).
      assert (Tk : tally crosses (map iv (map fst pairs)) (length hits)).
      { unfold hits. clear - Ff Hkept Hbox Hdim HM Hside. rewrite Forall_map in Hkept.
        induction Ff as [|pr r pairs found Or F IH]; [constructor|].
        inversion Hkept as [|? ? K1 K2]; subst. specialize (IH K2). cbn [map].
        destruct (kept_counts (fst pr) r K1 Or) as (C & _). destruct r as [[q u]|]; cbn [somes filter].
        - unfold keep at 1. cbn [fst]. destruct (Rleb_spec px (rc 0 q)).
          + cbn [length]. constructor; [now apply C|exact IH].
          + constructor; [|exact IH]. intros K. apply C in K. lra.
        - constructor; [|exact IH]. tauto. }
      assert (Td : tally crosses (map iv dead) 0).
      { apply tally_none. intros st Hin. apply in_map_iff in Hin. destruct Hin as (t & <- & Hin).
        rewrite Forall_forall in Hdead. pose proof (Hdead t Hin) as Hm.
        pose proof (missed_left bb t Hm Vbb Hbb) as Hl. intros (Hc & Hr).
        destruct Hm as ((N & _) & _). pose proof (dom_le _ (bc_ok _ _ _ (no_box _ _ _ _ _ N))).
        pose proof (no_lo _ _ _ _ _ N). pose proof (no_hi _ _ _ _ _ N).
        unfold iv in *. cbn [fst snd] in *.
        destruct (level_between (dom0 (ct_curve t)) (dom1 (ct_curve t)) ltac:(lra) ltac:(lra) ltac:(lra) Hc) as (u & Hu & Eu).
        specialize (Hl u Hu Eu). specialize (Hr u Hu Eu). lra. }
      pose proof (tally_app _ _ _ _ _ Tk Td) as Tl. rewrite Nat.add_0_r in Tl.
      apply (tally_perm _ _ _ _ Pm) in Tl.
      (* the crossings are kept *)
      set (near := fun x y : list R * R => Rltb (sqrt (vnorm2 (vsub (fst x) (fst y)))) (op_min o)).
      assert (Fo : ForallOrdPairs (fun x y => near x y = false /\ near y x = false) hits).
      { pose proof (pieces_ordered _ _ _ P) as F1.
        apply (fop_impl _ (fun x y : R * R => snd x <= fst y \/ snd y <= fst x)) in F1; [|tauto].
        apply (fop_perm (fun x y : R * R => snd x <= fst y \/ snd y <= fst x) _ _ (fun x y => proj1 (or_comm (snd x <= fst y) (snd y <= fst x))) (Permutation_sym Pm)) in F1.
        apply fop_app_l in F1. rewrite map_map in F1. apply fop_map in F1.
        refine (hits_fop _ _ (fun pr r => outcome c [px; py] o (fst pr) r /\ kept eps maxv rng c tol (fst pr)) _ keep _ _ F1 _).
        { clear - Ff Hkept. rewrite Forall_map in Hkept. induction Ff; constructor; inversion Hkept; subst; auto. }
        intros pr1 pr2 [q1 v1] [q2 v2] Hord (O1 & K1) (O2 & K2) Ke1 Ke2.
        unfold keep in Ke1, Ke2. cbn [fst] in Ke1, Ke2. apply Rleb_true in Ke1, Ke2.
        assert (Sz : forall t, kept eps maxv rng c tol t -> dom0 c <= fst (iv t) /\ snd (iv t) <= dom1 c /\ snd (iv t) - fst (iv t) <= tol).
        { intros t ((N & _) & Hd). pose proof (bc_ok _ _ _ (no_box _ _ _ _ _ N)) as Hok.
          destruct (dividable_ok eps maxv t Hok) as (d & Ed & _ & _ & Dd). rewrite Hd in Ed. injection Ed as <-.
          specialize (Dd eq_refl). rewrite (no_tol _ _ _ _ _ N) in Dd.
          pose proof (no_lo _ _ _ _ _ N). pose proof (no_hi _ _ _ _ _ N). unfold iv. cbn [fst snd]. auto. }
        destruct (Sz _ K1) as (A1 & A2 & A3). destruct (Sz _ K2) as (B1 & B2 & B3).
        cbn [outcome] in O1, O2. destruct O1 as (U1 & _ & L1 & X1 & Y1 & D1 & C1). destruct O2 as (U2 & _ & L2 & X2 & Y2 & D2 & C2).
        change (rc 1 [px; py]) with py in *.
        assert (Far : op_min o <= sqrt ((rc 0 q1 - rc 0 q2) * (rc 0 q1 - rc 0 q2) + (rc 1 q1 - rc 1 q2) * (rc 1 q1 - rc 1 q2))).
        { rewrite X1, X2, Y1, Y2. rewrite X1 in Ke1. rewrite X2 in Ke2. destruct Hord as [Hord|Hord].
          - eapply (Hapart (fst (iv (fst pr1))) (snd (iv (fst pr1))) (fst (iv (fst pr2))) (snd (iv (fst pr2)))); eauto.
          - replace ((nurbs c 0 v1 - nurbs c 0 v2) * (nurbs c 0 v1 - nurbs c 0 v2) + (nurbs c 1 v1 - nurbs c 1 v2) * (nurbs c 1 v1 - nurbs c 1 v2))
              with ((nurbs c 0 v2 - nurbs c 0 v1) * (nurbs c 0 v2 - nurbs c 0 v1) + (nurbs c 1 v2 - nurbs c 1 v1) * (nurbs c 1 v2 - nurbs c 1 v1)) by ring.
            eapply (Hapart (fst (iv (fst pr2))) (snd (iv (fst pr2))) (fst (iv (fst pr1))) (snd (iv (fst pr1)))); eauto. }
        assert (Nn : forall a b : list R, length a = 2%nat -> length b = 2%nat ->
          vnorm2 (vsub a b) = (rc 0 a - rc 0 b) * (rc 0 a - rc 0 b) + (rc 1 a - rc 1 b) * (rc 1 a - rc 1 b)).
        { clear. intros [|a0 [|a1 [|]]] [|b0 [|b1 [|]]]; cbn [length]; try lia. intros _ _.
          unfold vnorm2, vdot, vsub, ssum, rc. cbn. rs. ring. }
        unfold near. cbn [fst]. rewrite !Nn by assumption. split; apply Rltb_false; [exact Far|].
        eapply Rle_trans; [exact Far|]. right. f_equal. ring. }
      assert (Sid : merge_close near (sort_by snd hits) = sort_by snd hits).
      { apply merge_close_id.
        eapply fop_impl; [|refine (fop_perm _ _ _ _ (Permutation_sym (sort_by_perm snd hits)) Fo)]; cbv beta; tauto. }
      exists (S (5 ^ (node_height tol (MkCTree c tol) + 0))), (map fst (sort_by snd hits)). split; [|split].
      - intros fuel Hf. unfold x_ray_intersection. rewrite Eo.
        change (@sone R (ROps eps maxv)) with 1. rewrite ray_polyline by exact HL. cbn [bind].
        rewrite interval_ok by apply Hbox. cbn [bind ct_new]. rewrite ray_interval. cbn [bind].
        assert (Et : @sdiv R (ROps eps maxv) (dom1 c - dom0 c) (sofnat (op_div o)) = tol).
        { unfold tol. rewrite (sofnat_INR eps maxv). reflexivity. }
        rewrite Et. assert (Et1 : @sdiv R (ROps eps maxv) 1 (sofnat 1) = 1).
        { rewrite (sofnat_INR eps maxv). cbn. field. }
        rewrite Et1. fold tb.
        assert (Tr : traverse ct_ops ct_ops 2 rng fuel (MkCTree c tol) tb = Ok pairs).
        { unfold traverse in *. eapply loop_mono; [exact Ep|exact Hf]. }
        rewrite Tr. cbn [bind]. rewrite Ef. cbn [bind]. f_equal.
        assert (Eh : filter (fun h0 : list R * R => (@sleb R (ROps eps maxv) (coord 0 [px; py]) (coord 0 (fst h0)))) (somes found) = hits).
        { unfold hits. apply filter_ext. intros x. unfold keep. rewrite (coord_rc eps maxv 0 (fst x)). reflexivity. }
        rewrite Eh. f_equal. etransitivity; [|exact Sid]. reflexivity.
      - exists l, (length hits). split; [exact P|]. split.
        { intros s t Hin. apply (Permutation_in _ (Permutation_sym Pm)) in Hin. apply in_app_or in Hin.
          destruct Hin as [Hin|Hin].
          - rewrite map_map in Hin. apply in_map_iff in Hin. destruct Hin as (pr & Epr & Hin).
            destruct (In_nth _ _ pr Hin) as (i & Hi & En).
            assert (Hr : exists r, outcome c [px; py] o (fst pr) r).
            { clear - Ff Hin. induction Ff as [|x y ? ? O F IH]; [destruct Hin|]. destruct Hin as [->|Hin]; eauto. }
            destruct Hr as (r & Or). rewrite Forall_forall in Hkept.
            destruct (kept_counts (fst pr) r (Hkept _ (in_map fst _ _ Hin)) Or) as (_ & K). rewrite Epr in K. exact K.
          - apply in_map_iff in Hin. destruct Hin as (t' & Et & Hin). right.
            rewrite Forall_forall in Hdead. pose proof (missed_left bb t' (Hdead _ Hin) Vbb Hbb) as K. rewrite Et in K. exact K. }
        split; [exact Tl|]. rewrite map_length. f_equal. apply Permutation_length, sort_by_perm.
      - intros q Hq. apply in_map_iff in Hq. destruct Hq as ([q' u] & <- & Hq). cbn [fst].
        apply (Permutation_in _ (sort_by_perm snd hits)) in Hq. unfold hits in Hq. apply filter_In in Hq. destruct Hq as (Hq & Kq).
        apply somes_in in Hq. unfold keep in Kq. cbn [fst] in Kq. apply Rleb_true in Kq.
        assert (Hr : exists t, kept eps maxv rng c tol t /\ outcome c [px; py] o t (Some (q', u))).
        { clear - Ff Hkept Hq. rewrite Forall_map in Hkept. induction Ff as [|x y ? ? O F IH]; [destruct Hq|].
          inversion Hkept; subst. destruct Hq as [->|Hq]; eauto. }
        destruct Hr as (t & ((N & _) & _) & O). cbn [outcome] in O. destruct O as (U & E & Lq & X1 & Y1 & D1 & _).
        pose proof (no_lo _ _ _ _ _ N). pose proof (no_hi _ _ _ _ _ N). unfold iv in U. cbn [fst snd] in U.
        exists u. split; [lra|]. split; [exact E|]. split; [|exact Kq]. rewrite Y1. exact D1.
    Qed.
  End Count.
End Real.
