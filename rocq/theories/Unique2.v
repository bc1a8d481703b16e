(** * C87: inserting knots in any order gives the same curve; knot insertion commutes with reversal and with affine maps *)
From Coq Require Import Reals Lra Lia Sorted Permutation.
From Verif Require Import Base BaseFacts Scalar KnotModel RSum BSplineSpec BSpline BSplineInsert KnotSpec KnotFacts KnotProofs VecFacts
  CurveModel CurveKnotModel CurveSpec CurveProofs KnotMisc Boehm Refine AddKnot SplitProofs CurveGeom CurveGeom2 Unique.
Import ListNotations.
Open Scope R_scope.

(** no parameter strictly inside the domain occurs more than [degree + 1] times among the knots and the new knots *)
Definition few (c : Curve R) (zs : list R) : Prop :=
  forall x, dom0 c < x < dom1 c -> (count_occ Req_EM_T (cknots c ++ zs) x <= S (cdeg c))%nat.

Lemma count_perm (l l' : list R) x : Permutation l l' -> count_occ Req_EM_T l x = count_occ Req_EM_T l' x.
Proof. intros H. exact (proj1 (Permutation_count_occ Req_EM_T l l') H x). Qed.

(** two refinements of one curve with the same knots are equal *)
Lemma same_unique c c1 c2 : curve_ok c -> curve_ok c1 -> curve_ok c2 -> same_curve c c1 -> same_curve c c2 ->
  cknots c2 = cknots c1 -> low_mult c1 -> c2 = c1.
Proof.
  intros Hc H1 H2 S1 S2 Ek Hl. apply control_points_unique; auto.
  - now rewrite (sc_dim _ _ S1), (sc_dim _ _ S2).
  - now rewrite (sc_deg _ _ S1), (sc_deg _ _ S2).
  - intros i u Hi Hu _. rewrite (sc_dom0 _ _ S1), (sc_dom1 _ _ S1) in Hu.
    rewrite (same_hcoord c c1 i u), (same_hcoord c c2 i u); auto.
Qed.

Lemma sorted_same (c1 c2 : Curve R) l : curve_ok c1 -> curve_ok c2 -> Permutation (cknots c1) l -> Permutation (cknots c2) l -> cknots c2 = cknots c1.
Proof.
  intros H1 H2 P1 P2. apply sorted_perm_eq; [apply (ko_sorted _ _ _ (co_knots c2 H2))|apply (ko_sorted _ _ _ (co_knots c1 H1))|].
  etransitivity; [exact P2|]. now symmetry.
Qed.

Section Real.
  Variables eps maxv : R.
  Local Hint Extern 0 (Scalar R) => exact (ROps eps maxv) : typeclass_instances.
  Local Notation refine_ok := (refine_ok eps).

  (** what the steps below need of a list of new knots *)
  Definition insertable (c : Curve R) (zs : list R) : Prop := refine_ok c zs /\ inside c zs /\ few c zs.

  Lemma insertable_sub c zs xs : insertable c zs -> Sorted Rle xs -> (exists ys, Permutation zs (xs ++ ys)) -> insertable c xs.
  Proof.
    intros ([_ D S] & I & F) Hs (ys & P).
    assert (In1 : forall x, In x xs -> In x zs) by (intros x Hx; apply (Permutation_in x (Permutation_sym P)), in_or_app; now left).
    split; [|split].
    - constructor; [exact Hs| |].
      + rewrite Forall_forall in *. auto.
      + intros x y Hx Hy. apply S; [auto|]. apply in_app_iff in Hy. apply in_app_iff. destruct Hy; auto.
    - unfold inside in *. rewrite Forall_forall in *. auto.
    - intros x Hx. specialize (F x Hx). rewrite count_occ_app in *. rewrite (count_perm zs _ x P), count_occ_app in F. lia.
  Qed.

  Lemma refine_ok' c zs : curve_ok c -> curve_eps eps c -> insertable c zs ->
    exists c', try_refine_knot c zs = Ok c' /\ same_curve c c' /\ curve_ok c' /\ curve_eps eps c' /\ Permutation (cknots c') (cknots c ++ zs) /\ low_mult c'.
  Proof.
    intros Hc He (R & I & F). destruct (refine_spec eps maxv c zs Hc He R) as (c' & E & S & H & P & _). destruct (H I) as (H1 & H2).
    exists c'. split; [exact E|]. split; [exact S|]. split; [exact H1|]. split; [exact H2|]. split; [exact P|].
    intros x Hx. rewrite (sc_dom0 _ _ S), (sc_dom1 _ _ S) in Hx. rewrite (sc_deg _ _ S), (count_perm _ _ x P). now apply F.
  Qed.

  Lemma insertable_after c c1 zs xs ys : insertable c zs -> Permutation zs (xs ++ ys) -> Sorted Rle ys ->
    same_curve c c1 -> Permutation (cknots c1) (cknots c ++ xs) -> insertable c1 ys.
  Proof.
    intros ([_ D S] & I & F) P Hs S1 P1.
    assert (In1 : forall x, In x ys -> In x zs) by (intros x Hx; apply (Permutation_in x (Permutation_sym P)), in_or_app; now right).
    assert (PP : Permutation (cknots c1 ++ ys) (cknots c ++ zs)).
    { rewrite P1, <- app_assoc. now apply Permutation_app_head, Permutation_sym. }
    split; [|split].
    - constructor; [exact Hs| |].
      + rewrite Forall_forall in *. rewrite (sc_dom0 _ _ S1), (sc_dom1 _ _ S1). auto.
      + intros x y Hx Hy. apply S; [auto|]. now apply (Permutation_in y PP).
    - unfold inside in *. rewrite Forall_forall in *. rewrite (sc_dom0 _ _ S1), (sc_dom1 _ _ S1). auto.
    - intros x Hx. rewrite (sc_dom0 _ _ S1), (sc_dom1 _ _ S1) in Hx. rewrite (count_perm _ _ x PP), (sc_deg _ _ S1). now apply F.
  Qed.

  (** ** Refining with all the knots at once, or with some first and the rest later *)
  Lemma refine_twice c zs xs ys : curve_ok c -> curve_eps eps c -> insertable c zs ->
    Permutation zs (xs ++ ys) -> Sorted Rle xs -> Sorted Rle ys ->
    exists c1 c', try_refine_knot c xs = Ok c1 /\ try_refine_knot c1 ys = Ok c' /\ try_refine_knot c zs = Ok c' /\
      curve_ok c1 /\ curve_eps eps c1 /\ insertable c1 ys /\ same_curve c c1.
  Proof.
    intros Hc He Hz P Sx Sy.
    pose proof (insertable_sub c zs xs Hz Sx (ex_intro _ ys P)) as Hx.
    destruct (refine_ok' c zs Hc He Hz) as (c' & E' & S' & O' & Ep' & P' & L').
    destruct (refine_ok' c xs Hc He Hx) as (c1 & E1 & S1 & O1 & Ep1 & P1 & _).
    pose proof (insertable_after c c1 zs xs ys Hz P Sy S1 P1) as Hy.
    destruct (refine_ok' c1 ys O1 Ep1 Hy) as (c2 & E2 & S2 & O2 & _ & P2 & _).
    exists c1, c'. split; [exact E1|]. split; [|auto 10].
    rewrite E2. f_equal. apply (same_unique c c' c2 Hc O' O2 S'); auto.
    - eapply same_curve_trans; eauto.
    - apply (sorted_same c' c2 (cknots c ++ zs)); auto. rewrite P2, P1, <- app_assoc. now apply Permutation_app_head, Permutation_sym.
  Qed.

  Theorem refine_in_steps c zs xs ys : curve_ok c -> curve_eps eps c -> insertable c zs ->
    Permutation zs (xs ++ ys) -> Sorted Rle xs -> Sorted Rle ys ->
    exists c1 c', try_refine_knot c xs = Ok c1 /\ try_refine_knot c1 ys = Ok c' /\ try_refine_knot c zs = Ok c'.
  Proof. intros Hc He Hz P Sx Sy. destruct (refine_twice c zs xs ys Hc He Hz P Sx Sy) as (c1 & c' & A & B & C & _). eauto. Qed.

  (** one knot at a time, in any order *)
  Theorem refine_any_order l : forall c zs, curve_ok c -> curve_eps eps c -> insertable c zs -> Permutation zs l ->
    exists c', try_refine_knot c zs = Ok c' /\ foldM (fun d x => try_refine_knot d [x]) l c = Ok c'.
  Proof.
    induction l as [|x l IH]; intros c zs Hc He Hz P.
    - apply Permutation_sym, Permutation_nil in P. subst zs. exists c. now split.
    - destruct (refine_twice c zs [x] (ksort l)) as (c1 & c' & E1 & E2 & E3 & O1 & Ep1 & Hy & _); auto.
      + rewrite P. cbn. constructor. apply Permutation_sym, ksort_perm.
      + apply (ksort_sorted eps maxv).
      + exists c'. split; [exact E3|]. cbn [foldM]. rewrite E1. cbn [bind].
        destruct (IH c1 (ksort l) O1 Ep1 Hy (ksort_perm l)) as (c2 & A & B). rewrite A in E2. injection E2 as <-. exact B.
  Qed.

  (** ** [try_add_knot] *)
  Lemma add_knot_same c x : curve_ok c -> curve_eps eps c -> uniform_weights c -> dom0 c < x < dom1 c -> refine_ok c [x] ->
    exists c', try_add_knot c x = Ok c' /\ same_curve c c' /\ curve_ok c' /\ uniform_weights c' /\ Permutation (cknots c') (x :: cknots c).
  Proof.
    intros Hc He (w & Hw) Hx Hr.
    destruct (add_knot_effect eps maxv c x Hc ltac:(lra)) as (c' & j & E & Hj & Hk & I1 & I2 & I3 & I4 & I5 & I6 & I7 & I8).
    assert (Hi : is_insert c j x c').
    { constructor; auto. intros i t H1 H2 H3. rewrite I7 by auto.
      destruct (Nat.eq_dec i (cdim c - 1)) as [->|Hne]; [|now apply addk_blend].
      unfold addk. rewrite Nat.eqb_refl. pose proof (clast_S c Hc). pose proof (co_len c Hc). rewrite !Hw by lia. lra. }
    destruct (insert_same c j x c' (ok_wf c Hc) Hj ltac:(lra) Hi) as (Hs & Hok).
    exists c'. split; [exact E|]. split; [exact Hs|]. split; [now apply Hok|]. split; [|rewrite I3; apply ins_knots_perm].
    destruct (add_knot_preserves eps maxv c x Hc He (ex_intro _ w Hw) Hx Hr) as (c2 & E2 & _ & _ & _ & _ & _ & _ & U & _).
    rewrite E in E2. injection E2 as <-. exact U.
  Qed.

  Lemma add_knot_step c x : curve_ok c -> curve_eps eps c -> uniform_weights c -> insertable c [x] ->
    try_add_knot c x = try_refine_knot c [x] /\ exists c', try_add_knot c x = Ok c' /\ uniform_weights c'.
  Proof.
    intros Hc He Hw Hz. destruct (refine_ok' c [x] Hc He Hz) as (c' & E & S & O & _ & P & L).
    destruct Hz as (R & I & F). assert (Hx : dom0 c < x < dom1 c) by now inversion I.
    destruct (add_knot_same c x Hc He Hw Hx R) as (c2 & E2 & S2 & O2 & U & P2).
    assert (Eq : c2 = c').
    { apply (same_unique c c' c2); auto. apply (sorted_same c' c2 (cknots c ++ [x])); auto. rewrite P2. apply Permutation_cons_append. }
    subst c2. rewrite E2, E. split; [reflexivity|]. eauto.
  Qed.

  Theorem add_knot_is_refine c x : curve_ok c -> curve_eps eps c -> uniform_weights c -> insertable c [x] ->
    exists c', try_add_knot c x = Ok c' /\ try_refine_knot c [x] = Ok c'.
  Proof. intros Hc He Hw Hz. destruct (add_knot_step c x Hc He Hw Hz) as (A & c' & B & _). exists c'. split; congruence. Qed.

  (** adding knots one at a time in any order *)
  Theorem add_knots_any_order l : forall c zs, curve_ok c -> curve_eps eps c -> uniform_weights c -> insertable c zs -> Permutation zs l ->
    exists c', try_refine_knot c zs = Ok c' /\ foldM try_add_knot l c = Ok c'.
  Proof.
    induction l as [|x l IH]; intros c zs Hc He Hw Hz P.
    - apply Permutation_sym, Permutation_nil in P. subst zs. exists c. now split.
    - assert (P' : Permutation zs ([x] ++ ksort l)) by (rewrite P; cbn; constructor; apply Permutation_sym, ksort_perm).
      destruct (refine_twice c zs [x] (ksort l)) as (c1 & c' & E1 & E2 & E3 & O1 & Ep1 & Hy & _); auto.
      { apply (ksort_sorted eps maxv). }
      assert (Hx : insertable c [x]) by (apply (insertable_sub c zs [x] Hz); [auto|eauto]).
      destruct (add_knot_step c x Hc He Hw Hx) as (A & c2 & B & U). rewrite B, E1 in A. injection A as ->.
      exists c'. split; [exact E3|]. cbn [foldM]. rewrite B. cbn [bind].
      destruct (IH c1 (ksort l) O1 Ep1 U Hy (ksort_perm l)) as (c3 & A3 & B3). rewrite A3 in E2. injection E2 as <-. exact B3.
  Qed.

  (** ** Reversal *)
  Lemma kf_mirror_In c c' y : curve_ok c -> mirrored c c' -> In y (cknots c') <-> In (mirror_c c - y) (cknots c).
  Proof.
    intros Hc (_ & _ & _ & L & K). fold (mirror_c c) in K.
    split; intros H; destruct (In_nth _ _ 0 H) as (i & Hi & E).
    - rewrite <- (kf_nth _ _ 0) in E by auto. rewrite K in E by lia.
      replace (mirror_c c - y) with (kf (cknots c) (length (cknots c) - 1 - i)) by lra. rewrite (kf_nth _ _ 0) by lia. apply nth_In. lia.
    - rewrite <- (kf_nth _ _ 0) in E by auto.
      replace y with (kf (cknots c') (length (cknots c) - 1 - i)).
      + rewrite (kf_nth _ _ 0) by lia. apply nth_In. lia.
      + rewrite K by lia. replace (length (cknots c) - 1 - (length (cknots c) - 1 - i))%nat with i by lia. lra.
  Qed.

  Lemma mirror_knots c c' : curve_ok c -> mirrored c c' -> Permutation (cknots c') (map (fun y => mirror_c c - y) (cknots c)).
  Proof.
    intros Hc (_ & _ & _ & L & K). fold (mirror_c c) in K.
    replace (cknots c') with (rev (map (fun y => mirror_c c - y) (cknots c))); [apply Permutation_sym, Permutation_rev|].
    apply (list_ext 0); [rewrite rev_length, map_length; auto|]. intros i Hi. rewrite rev_length, map_length in Hi.
    rewrite rev_nth, map_length by (rewrite map_length; auto). rewrite (nth_map_lt _ _ _ 0 0) by lia.
    rewrite <- (kf_nth (cknots c') i 0) by lia. rewrite K by auto. rewrite (kf_nth _ _ 0) by lia. do 2 f_equal. lia.
  Qed.

  Lemma map_mirror m (l : list R) : map (fun y => m - y) (map (fun y => m - y) l) = l.
  Proof. rewrite map_map. rewrite <- (map_id l) at 2. apply map_ext. intros; lra. Qed.

  Lemma count_mirror m (l : list R) x : count_occ Req_EM_T (map (fun y => m - y) l) x = count_occ Req_EM_T l (m - x).
  Proof.
    induction l as [|y l IH]; [reflexivity|]. cbn [map count_occ]. rewrite IH.
    destruct (Req_EM_T (m - y) x), (Req_EM_T y (m - x)); auto; exfalso; lra.
  Qed.

  Lemma sorted_mirror m (l : list R) : Sorted Rle l -> Sorted Rle (rev (map (fun y => m - y) l)).
  Proof.
    intros H. apply mono_sorted. intros i Hi. rewrite rev_length, map_length in Hi.
    rewrite !rev_nth, map_length by (rewrite map_length; lia). rewrite !(nth_map_lt _ _ _ 0 0) by lia.
    apply Sorted_StronglySorted in H; [|intros a b d; lra].
    assert (G : forall (l : list R) i j, StronglySorted Rle l -> (i <= j < length l)%nat -> nth i l 0 <= nth j l 0).
    { clear. induction l as [|y l IH]; intros i j Hs Hij; [cbn in Hij; lia|]. inversion Hs; subst. cbn [length] in Hij.
      destruct i as [|i], j as [|j]; cbn [nth]; try lia; try lra.
      - rewrite Forall_forall in H2. apply H2, nth_In. lia.
      - apply IH; auto. lia. }
    pose proof (G l (length l - S (S i))%nat (length l - S i)%nat H ltac:(lia)). lra.
  Qed.


  Lemma mirrored_off c c' i u : curve_ok c -> mirrored c c' -> dom0 c <= u <= dom1 c -> ~ In u (cknots c) ->
    hcoord c' i (mirror_c c - u) = hcoord c i u.
  Proof.
    intros Hc Hmi Hu Hn0.
    pose proof (mirrored_ok c c' Hc Hmi) as Hc'.
    pose proof (curve_len c Hc) as Hl. pose proof (curve_len c' Hc') as Hl'.
    pose proof (clast_S c Hc) as Hn. pose proof (clast_S c' Hc') as Hn'.
    destruct (domain_span c u Hc Hu) as (s & Hs & Hin).
    pose proof (in_span_le _ _ _ _ Hin) as Hle.
    rewrite <- (piece_hcoord c s i u Hc Hin) by lia.
    destruct Hmi as (E1 & E2 & E3 & E4 & E5).
    assert (Elen : length (cpts c') = length (cpts c)) by (rewrite E3; apply rev_length).
    set (L := (length (cknots c) - 1)%nat) in *.
    assert (HL : L = (length (cpts c) + cdeg c)%nat) by (unfold L; lia).
    fold (mirror_c c) in E5.
    destruct Hin as (N & _ & _).
    assert (Ns : kf (cknots c) s <> u) by (intros <-; apply Hn0; rewrite (kf_nth _ _ 0) by lia; apply nth_In; lia).
    assert (Ns' : kf (cknots c) (S s) <> u) by (intros <-; apply Hn0; rewrite (kf_nth _ _ 0) by lia; apply nth_In; lia).
    assert (A1 : kf (cknots c') (L - 1 - s) = mirror_c c - kf (cknots c) (S s)) by (rewrite E5 by lia; do 2 f_equal; lia).
    assert (A2 : kf (cknots c') (S (L - 1 - s)) = mirror_c c - kf (cknots c) s) by (rewrite E5 by lia; do 2 f_equal; lia).
    rewrite <- (piece_hcoord c' (L - 1 - s)%nat i).
    - unfold piece. rewrite Elen, E2.
      rewrite rsum_rev. apply rsum_ext. intros j Hj.
      assert (Ec : cpc c' i (length (cpts c) - 1 - j) = cpc c i j).
      { unfold cpc. rewrite E3, rev_nth by lia. do 2 f_equal. lia. }
      rewrite Ec. f_equal.
      replace (length (cpts c) - 1 - j)%nat with (L - 1 - cdeg c - j)%nat by lia.
      apply (bs_reflect (kf (cknots c)) (kf (cknots c')) (mirror_c c) L s (cdeg c) j u); try lia.
      intros l Hll. rewrite E5 by lia. reflexivity.
    - exact Hc'.
    - split; [rewrite A1, A2; lra|]. rewrite A1, A2. split; [lra|left; lra].
    - lia.
  Qed.

  (** the first and the last knot stay *)
  Lemma mirror_same c c' zs : curve_ok c -> curve_ok c' -> inside c zs -> Permutation (cknots c') (cknots c ++ zs) -> mirror_c c' = mirror_c c.
  Proof.
    intros Hc Hc' Hi P. pose proof (curve_mono c Hc) as Hm. pose proof (curve_mono c' Hc') as Hm'.
    pose proof (curve_len c Hc) as Hl. pose proof (curve_len c' Hc') as Hl'. pose proof (co_len c Hc) as Hcl. pose proof (clast_S c Hc) as Hn.
    unfold inside in Hi. rewrite Forall_forall in Hi.
    assert (B : forall y, In y (cknots c ++ zs) -> kf (cknots c) 0 <= y <= kf (cknots c) (length (cknots c) - 1)).
    { intros y Hy. apply in_app_iff in Hy. destruct Hy as [Hy|Hy].
      - destruct (In_nth _ _ 0 Hy) as (q & Hq & <-). rewrite <- (kf_nth _ _ 0) by auto. split; apply mono_le; auto; lia.
      - specialize (Hi y Hy). unfold dom0, dom1 in Hi.
        pose proof (mono_le _ 0 (cdeg c) Hm ltac:(lia)). pose proof (mono_le _ (length (cpts c)) (length (cknots c) - 1) Hm ltac:(lia)). lra. }
    assert (B' : forall y, In y (cknots c') -> kf (cknots c') 0 <= y <= kf (cknots c') (length (cknots c') - 1)).
    { intros y Hy. destruct (In_nth _ _ 0 Hy) as (q & Hq & <-). rewrite <- (kf_nth _ _ 0) by auto. split; apply mono_le; auto; lia. }
    assert (I : forall (k : list R) i, (i < length k)%nat -> In (kf k i) k) by (intros k i Hk; rewrite (kf_nth _ _ 0) by auto; now apply nth_In).
    assert (X0 : In (kf (cknots c) 0) (cknots c')) by (apply (Permutation_in _ (Permutation_sym P)), in_or_app; left; apply I; lia).
    assert (X1 : In (kf (cknots c) (length (cknots c) - 1)) (cknots c')) by (apply (Permutation_in _ (Permutation_sym P)), in_or_app; left; apply I; lia).
    pose proof (B' _ X0). pose proof (B' _ X1).
    pose proof (B _ (Permutation_in _ P (I (cknots c') 0%nat ltac:(lia)))).
    pose proof (B _ (Permutation_in _ P (I (cknots c') (length (cknots c') - 1)%nat ltac:(lia)))).
    unfold mirror_c. lra.
  Qed.

  Theorem refine_invert c zs : curve_ok c -> curve_eps eps c -> insertable c zs ->
    exists c1 d c', try_refine_knot c zs = Ok c1 /\ invert c1 = Ok c' /\
      invert c = Ok d /\ try_refine_knot d (rev (map (fun z => mirror_c c - z) zs)) = Ok c'.
  Proof.
    intros Hc He Hz. destruct (refine_ok' c zs Hc He Hz) as (c1 & E1 & S1 & O1 & Ep1 & P1 & L1).
    destruct (invert_mirrored eps maxv c1 O1) as (c' & E' & M'). destruct (invert_mirrored eps maxv c Hc) as (d & Ed & Md).
    pose proof (mirrored_ok c d Hc Md) as Od. pose proof (mirrored_eps eps c d Hc Md He) as Epd.
    pose proof (mirrored_ok c1 c' O1 M') as O'.
    destruct (mirrored_dom c d Hc Md) as (D0 & D1). destruct (mirrored_dom c1 c' O1 M') as (D0' & D1').
    destruct Hz as ([Sz Dz Spz] & Iz & Fz).
    pose proof (mirror_same c c1 zs Hc O1 Iz P1) as Em. rewrite Em in *.
    set (m := mirror_c c) in *. set (zs' := rev (map (fun z => m - z) zs)).
    assert (Z : forall x, In x zs' <-> In (m - x) zs).
    { intros x. unfold zs'. rewrite <- in_rev, in_map_iff. split; [intros (y & <- & H); replace (m - (m - y)) with y by lra; exact H|].
      intros H. exists (m - x). split; [lra|exact H]. }
    pose proof (mirror_knots c d Hc Md) as Pd. pose proof (mirror_knots c1 c' O1 M') as P'. rewrite Em in P'. fold m in Pd, P'.
    assert (PP : Permutation (cknots d ++ zs') (map (fun z => m - z) (cknots c ++ zs))).
    { rewrite map_app. apply Permutation_app; [exact Pd|]. apply Permutation_sym, Permutation_rev. }
    assert (Ey : forall y, In y (cknots d ++ zs') -> In (m - y) (cknots c ++ zs)).
    { intros y Hy. apply (Permutation_in _ PP), in_map_iff in Hy. destruct Hy as (t & <- & Ht). replace (m - (m - t)) with t by lra. exact Ht. }
    assert (Ed1 : cdeg d = cdeg c) by apply Md.
    assert (Hi : insertable d zs').
    { split; [|split].
      - constructor.
        + now apply sorted_mirror.
        + rewrite Forall_forall in *. intros x Hx. apply Z in Hx. specialize (Dz _ Hx). rewrite D0, D1. fold m. lra.
        + intros x y Hx Hy. apply Z in Hx. apply Ey in Hy. destruct (Spz _ _ Hx Hy) as [H|H]; [left; lra|right].
          replace (y - x) with (- ((m - y) - (m - x))) by lra. now rewrite Rabs_Ropp.
      - unfold inside in *. rewrite Forall_forall in *. intros x Hx. apply Z in Hx. specialize (Iz _ Hx). rewrite D0, D1. fold m. lra.
      - intros x Hx. rewrite D0, D1 in Hx. fold m in Hx. rewrite (count_perm _ _ x PP), count_mirror, Ed1. apply Fz. lra. }
    destruct (refine_ok' d zs' Od Epd Hi) as (c2 & E2 & S2 & O2 & Ep2 & P2 & L2).
    exists c1, d, c'. split; [exact E1|]. split; [exact E'|]. split; [exact Ed|]. rewrite E2. f_equal.
    assert (Ek : cknots c' = cknots c2).
    { apply (sorted_same c2 c' (cknots d ++ zs')); auto. rewrite P', PP. now apply Permutation_map. }
    symmetry. apply control_points_unique; auto.
    - rewrite (sc_dim _ _ S2). destruct Md as (-> & _). destruct M' as (-> & _). apply S1.
    - rewrite (sc_deg _ _ S2), Ed1. destruct M' as (_ & -> & _). apply S1.
    - intros i u Hi0 Hu Hn. rewrite (sc_dom0 _ _ S2), (sc_dom1 _ _ S2), D0, D1 in Hu. fold m in Hu.
      rewrite (same_hcoord d c2 i u Od O2 S2) by (rewrite D0, D1; exact Hu).
      assert (N1 : ~ In (m - u) (cknots c1)).
      { intros H. apply Hn. rewrite <- Ek. apply (Permutation_in _ (Permutation_sym P')), in_map_iff. exists (m - u). split; [lra|exact H]. }
      assert (N : ~ In (m - u) (cknots c)).
      { intros H. apply N1. apply (Permutation_in _ (Permutation_sym P1)), in_or_app. now left. }
      pose proof (mirrored_off c1 c' i (m - u) O1 M') as A1. rewrite Em, (sc_dom0 _ _ S1), (sc_dom1 _ _ S1) in A1.
      pose proof (mirrored_off c d i (m - u) Hc Md ltac:(lra) N) as A2. fold m in A1, A2.
      specialize (A1 ltac:(lra) N1). replace (m - (m - u)) with u in A1, A2 by lra.
      rewrite A1, A2. apply (same_hcoord c c1); auto. lra.
  Qed.

  (** ** Affine maps *)
  Lemma transform_hcoord c m i u : curve_ok c -> affine_matrix (cdim c) m -> pos_weights c -> (i < cdim c)%nat ->
    hcoord (transform m c) i u =
      if Nat.eqb i (cdim c - 1) then hcoord c (cdim c - 1) u
      else rsum (cdim c - 1) (fun l => rc l (nth i m []) * hcoord c l u) + rc (cdim c - 1) (nth i m []) * hcoord c (cdim c - 1) u.
  Proof.
    intros Hc Hm Hw Hi.
    assert (Ed : dom1 (transform m c) = dom1 c) by (unfold dom1; cbn; now rewrite map_length).
    unfold hcoord at 1. rewrite Ed. cbn [cpts cdeg cknots transform].
    rewrite map_length.
    set (N := fun j => cox_closed (kf (cknots c)) (dom1 c) (cdeg c) j u).
    rewrite (rsum_ext _ _ (fun j => N j * (if Nat.eqb i (cdim c - 1) then cpc c (cdim c - 1) j
        else rsum (cdim c - 1) (fun l => rc l (nth i m []) * cpc c l j)
           + rc (cdim c - 1) (nth i m []) * cpc c (cdim c - 1) j))).
    2:{ intros j Hj. fold (N j). f_equal. apply transform_cpc; auto. specialize (Hw j Hj). lra. }
    destruct (Nat.eqb i (cdim c - 1)); [reflexivity|].
    rewrite (rsum_ext _ _ (fun j =>
        rsum (cdim c - 1) (fun l => rc l (nth i m []) * (N j * cpc c l j))
        + rc (cdim c - 1) (nth i m []) * (N j * cpc c (cdim c - 1) j))).
    2:{ intros j Hj. rewrite Rmult_plus_distr_l, <- rsum_scal. f_equal; [apply rsum_ext; intros; lra|lra]. }
    rewrite rsum_plus, rsum_swap, rsum_scal. f_equal. apply rsum_ext. intros l Hl. rewrite rsum_scal. reflexivity.
  Qed.

  Lemma refine_pos c zs c' : curve_ok c -> curve_eps eps c -> refine_ok c zs -> try_refine_knot c zs = Ok c' -> same_curve c c' -> pos_weights c -> pos_weights c'.
  Proof.
    intros Hc He Hr E S Hw. pose proof (co_dim c Hc) as HD.
    assert (F : Forall (fun p => 0 < rc (cdim c - 1) p) (cpts c')).
    { apply (refine_convex eps maxv c zs c' _ Hc He Hr E).
      - intros p q t Lp Lq Ht Hp Hq. rewrite (rc_vlerp eps maxv) by lia.
        destruct (Rle_lt_dec t (1 / 2)); nra.
      - apply Forall_forall. intros p Hp. destruct (In_nth _ _ [] Hp) as (j & Hj & <-). now apply Hw. }
    intros j Hj. rewrite (sc_dim _ _ S). rewrite Forall_forall in F. apply F. now apply nth_In.
  Qed.

  Theorem refine_transform c zs m : curve_ok c -> curve_eps eps c -> pos_weights c -> insertable c zs -> affine_matrix (cdim c) m ->
    exists c1, try_refine_knot c zs = Ok c1 /\ try_refine_knot (transform m c) zs = Ok (transform m c1).
  Proof.
    intros Hc He Hw Hz Hm. destruct (refine_ok' c zs Hc He Hz) as (c1 & E1 & S1 & O1 & Ep1 & P1 & L1). exists c1. split; [exact E1|].
    pose proof (refine_pos c zs c1 Hc He (proj1 Hz) E1 S1 Hw) as Hw1.
    pose proof (transform_ok eps maxv c m Hc Hm) as Ot.
    assert (Et : curve_eps eps (transform m c)) by (unfold curve_eps, clast in *; cbn; now rewrite map_length).
    assert (Ed : dom1 (transform m c) = dom1 c) by (unfold dom1; cbn; now rewrite map_length).
    assert (Ed1 : dom1 (transform m c1) = dom1 c1) by (unfold dom1; cbn; now rewrite map_length).
    assert (Hm1 : affine_matrix (cdim c1) m) by (rewrite (sc_dim _ _ S1); exact Hm).
    pose proof (transform_ok eps maxv c1 m O1 Hm1) as Ot1.
    assert (Hi : insertable (transform m c) zs).
    { destruct Hz as ([A B C] & D & F). split; [|split].
      - constructor; [exact A| |exact C]. rewrite Ed. exact B.
      - unfold inside in *. rewrite Ed. exact D.
      - intros x Hx. rewrite Ed in Hx. exact (F x Hx). }
    destruct (refine_ok' (transform m c) zs Ot Et Hi) as (c2 & E2 & S2 & O2 & Ep2 & P2 & L2).
    rewrite E2. f_equal.
    assert (Ek : cknots (transform m c1) = cknots c2) by (apply (sorted_same c2 (transform m c1) (cknots c ++ zs)); auto).
    symmetry. apply control_points_unique; auto.
    - rewrite (sc_dim _ _ S2). apply S1.
    - rewrite (sc_deg _ _ S2). apply S1.
    - intros i u Hi0 Hu _. rewrite (sc_dom0 _ _ S2), (sc_dom1 _ _ S2), Ed in Hu. rewrite (sc_dim _ _ S2) in Hi0.
      change (dom0 c <= u <= dom1 c) in Hu. change (cdim (transform m c)) with (cdim c) in Hi0.
      rewrite (same_hcoord _ c2 i u Ot O2 S2) by (rewrite Ed; exact Hu).
      rewrite (transform_hcoord c m i u) by auto. rewrite (transform_hcoord c1 m i u) by (auto; rewrite (sc_dim _ _ S1); auto).
      rewrite (sc_dim _ _ S1). rewrite !(same_hcoord c c1 _ u Hc O1 S1 Hu).
      destruct (Nat.eqb i (cdim c - 1)); [reflexivity|]. f_equal. apply rsum_ext. intros l _. now rewrite (same_hcoord c c1 _ u Hc O1 S1 Hu).
  Qed.

  (** ** Non-rational curves are determined by their points *)
  Definition weight_one (c : Curve R) : Prop := Forall (fun p => rc (cdim c - 1) p = 1) (cpts c).

  Lemma weight_one_wfun c u : curve_ok c -> weight_one c -> dom0 c <= u <= dom1 c -> wfun c u = 1.
  Proof.
    intros Hc Hw Hu. unfold wfun. destruct (domain_span c u Hc Hu) as (s & Hs & Hin). pose proof (in_span_le _ _ _ _ Hin) as Hle.
    rewrite <- (piece_hcoord c s _ u Hc Hin) by lia. pose proof (clast_S c Hc) as Hn. rewrite piece_window by lia.
    rewrite (rsum_ext _ _ (fun r => bs (kf (cknots c)) s (cdeg c) (s - cdeg c + r) u)).
    - pose proof (bs_sum (kf (cknots c)) s (curve_mono c Hc)) as B. destruct Hin as (N & _).
      rewrite <- (bs_sum (kf (cknots c)) s (curve_mono c Hc) N (cdeg c) (length (cpts c)) u) by lia.
      symmetry. apply (rsum_window _ (s - cdeg c) (S (cdeg c)) (fun i => bs (kf (cknots c)) s (cdeg c) i u)); try lia. intros j Hj1 Hj2. apply bs_support. lia.
    - intros r Hr. assert (E : cpc c (cdim c - 1) (s - cdeg c + r) = 1); [|rewrite E; ring].
      unfold weight_one in Hw. rewrite Forall_forall in Hw. apply Hw, nth_In. lia.
  Qed.

  Theorem points_determine_curve c c' : curve_ok c -> curve_eps eps c -> curve_ok c' -> weight_one c -> weight_one c' -> low_mult c ->
    cdim c' = cdim c -> cdeg c' = cdeg c -> cknots c' = cknots c ->
    (forall u, dom0 c <= u <= dom1 c -> point_at c' u = point_at c u) -> c' = c.
  Proof.
    intros Hc He Hc' Hw Hw' Hl Ed Ep Ek H.
    assert (El : length (cpts c') = length (cpts c)) by (pose proof (curve_len c Hc); pose proof (curve_len c' Hc'); rewrite Ek, Ep in *; lia).
    assert (D0 : dom0 c' = dom0 c) by (unfold dom0; now rewrite Ek, Ep). assert (D1 : dom1 c' = dom1 c) by (unfold dom1; now rewrite Ek, El).
    assert (He' : curve_eps eps c') by (unfold curve_eps, clast in *; now rewrite Ek, Ep, El).
    apply control_points_unique; auto. intros i u Hi Hu _.
    pose proof (weight_one_wfun c u Hc Hw Hu) as W. pose proof (weight_one_wfun c' u Hc' Hw' ltac:(lra)) as W'.
    pose proof (co_dim c Hc) as HD.
    destruct (Nat.eq_dec i (cdim c - 1)) as [->|Ni].
    - unfold wfun in W, W'. rewrite Ed in W'. congruence.
    - destruct (point_at_spec eps maxv c u Hc He Hu ltac:(lra)) as (q & Eq & Lq & Hq).
      destruct (point_at_spec eps maxv c' u Hc' He' ltac:(lra) ltac:(lra)) as (q' & Eq' & Lq' & Hq').
      rewrite (H u Hu), Eq in Eq'. injection Eq' as <-. specialize (Hq i ltac:(lia)). specialize (Hq' i ltac:(lia)).
      unfold nurbs in Hq, Hq'. rewrite W in Hq. rewrite W' in Hq'. lra.
  Qed.
End Real.
