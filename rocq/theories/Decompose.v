(** * Decomposition into Bezier segments *)
From Coq Require Import Reals Lra Sorted Permutation Floats.
From Verif Require Import Base BaseFacts Scalar RSum BSplineSpec BSpline BSplineInsert KnotModel
  KnotSpec KnotFacts KnotProofs VecFacts CurveModel CurveKnotModel CurveSpec CurveProofs CurveGeom
  CurveGeom2 KnotMisc Boehm Refine SplitModel SplitProofs.
Open Scope R_scope.

(** both ends of the knot vector are ends of the domain *)
Definition clamped (c : Curve R) : Prop :=
  kf (cknots c) 0 = dom0 c /\ kf (cknots c) (length (cknots c) - 1) = dom1 c.

(** position of a run in a sorted list *)
Lemma run_at pre v m post i :
  StronglySorted Rlt (run_keys (pre ++ (v, m) :: post)) ->
  (i < length (expand (pre ++ (v, m) :: post)))%nat ->
  let a := length (expand pre) in
  let x := nth i (expand (pre ++ (v, m) :: post)) 0 in
  ((i < a)%nat /\ x < v) \/ ((a <= i < a + m)%nat /\ x = v) \/ ((a + m <= i)%nat /\ v < x).
Proof.
  intros HS Hi a x. unfold run_keys in HS. rewrite map_app in HS. cbn [map fst] in HS.
  assert (Hpre : forall y, In y (map fst pre) -> y < v).
  { clear - HS. induction pre as [|h t IH]; cbn in *; [easy|].
    inversion HS as [|? ? H1 H2]; subst. intros y [<-|Hy]; [|now apply IH].
    rewrite Forall_forall in H2. apply H2. apply in_or_app. right. now left. }
  assert (Hpost : forall y, In y (map fst post) -> v < y).
  { clear - HS. induction pre as [|h t IH]; cbn in *.
    - inversion HS as [|? ? H1 H2]; subst. rewrite Forall_forall in H2. auto.
    - inversion HS; subst. auto. }
  assert (Ex : expand (pre ++ (v, m) :: post) = expand pre ++ repeat v m ++ expand post).
  { change ((v, m) :: post) with ([(v, m)] ++ post). now rewrite !expand_app, expand_single. }
  rewrite Ex, !app_length, repeat_length in Hi.
  destruct (Nat.lt_ge_cases i a) as [C|C].
  - left. split; [exact C|]. unfold x. rewrite Ex. rewrite app_nth1 by exact C.
    apply Hpre. apply in_expand. now apply nth_In.
  - right. unfold x. rewrite Ex. rewrite app_nth2 by exact C. fold a.
    destruct (Nat.lt_ge_cases (i - a) m) as [C'|C'].
    + left. split; [lia|]. rewrite app_nth1 by (rewrite repeat_length; lia).
      now apply nth_repeat_lt.
    + right. split; [lia|]. rewrite app_nth2 by (rewrite repeat_length; lia).
      rewrite repeat_length. apply Hpost. apply in_expand. apply nth_In. fold a in Hi. lia.
Qed.

Lemma expand_const (m : list (R * nat)) q : Forall (fun e => snd e = q) m ->
  expand m = concat (map (fun v => repeat v q) (run_keys m)).
Proof.
  unfold expand, run_keys. induction 1 as [|[v c] m H _ IH]; cbn in *; [reflexivity|].
  subst c. now rewrite IH.
Qed.

Lemma concat_repeat_length {A} (vs : list A) q :
  length (concat (map (fun v => repeat v q) vs)) = (q * length vs)%nat.
Proof.
  induction vs as [|v vs IH]; cbn; [lia|]. rewrite app_length, repeat_length, IH. lia.
Qed.

Lemma concat_repeat_slice {A} (vs : list A) q i d : (S i < length vs)%nat ->
  firstn (q * 2) (skipn (i * q) (concat (map (fun v => repeat v q) vs)))
  = repeat (nth i vs d) q ++ repeat (nth (S i) vs d) q.
Proof.
  revert i; induction vs as [|v vs IH]; intros i Hi; cbn [length] in Hi; [lia|].
  cbn [map concat]. destruct i as [|i].
  - cbn [Nat.mul skipn]. destruct vs as [|w vs]; [cbn in Hi; lia|]. cbn [map concat nth].
    rewrite app_assoc. rewrite firstn_app, app_length, !repeat_length.
    replace (q * 2 - (q + q))%nat with 0%nat by lia. rewrite firstn_O, app_nil_r.
    apply firstn_all2. rewrite app_length, !repeat_length. lia.
  - rewrite skipn_app, repeat_length. replace (S i * q - q)%nat with (i * q)%nat by lia.
    rewrite skipn_all2 by (rewrite repeat_length; lia). cbn [app nth]. apply IH. lia.
Qed.

Section Real.
  Variables eps maxv : R.
  Local Hint Extern 0 (Scalar R) => exact (ROps eps maxv) : typeclass_instances.

  Definition fill (q : nat) (e : R * nat) : R * nat := (fst e, Nat.max (snd e) q).

  Lemma fill_keys q m : run_keys (map (fill q) m) = run_keys m.
  Proof. unfold run_keys. rewrite map_map. reflexivity. Qed.

  Lemma key_in_expand m v : Forall (fun e => (1 <= snd e)%nat) m -> In v (run_keys m) ->
    In v (expand m).
  Proof.
    unfold run_keys, expand. induction 1 as [|[x c] m H _ IH]; cbn in *; [easy|].
    intros [->|Hv]; apply in_or_app; auto. left. destruct c; [lia|now left].
  Qed.

  (** the runs of the knots of a clamped continuous curve *)
  Lemma clamped_runs c m :
    curve_ok c -> curve_cont c -> clamped c -> 0 < eps ->
    expand m = cknots c -> StronglySorted Rlt (run_keys m) ->
    forall pre v q post, m = pre ++ (v, q) :: post ->
      (q <= cdeg c + 1)%nat /\ ((q < cdeg c + 1)%nat -> (1 <= q)%nat -> dom0 c < v < dom1 c).
  Proof.
    intros Hc Hcc (C0 & C1) He Ek HS pre v q post Em.
    pose proof (curve_len c Hc) as Hl. pose proof (clast_S c Hc) as Hn.
    pose proof (curve_mono c Hc) as Hm. pose proof (co_len c Hc) as Hcl.
    pose proof (co_knots c Hc) as [_ _ _ Kf Kl].
    rewrite Nat.add_1_r in Kf, Kl.
    set (a := length (expand pre)).
    assert (Hex : (a + q <= length (cknots c))%nat).
    { rewrite <- Ek, Em. change ((v, q) :: post) with ([(v, q)] ++ post).
      rewrite !expand_app, expand_single, !app_length, repeat_length. fold a. lia. }
    assert (RA : forall i, (i < length (cknots c))%nat ->
      ((i < a)%nat /\ kf (cknots c) i < v) \/ ((a <= i < a + q)%nat /\ kf (cknots c) i = v)
      \/ ((a + q <= i)%nat /\ v < kf (cknots c) i)).
    { intros i Hi. rewrite (kf_nth _ _ 0) by auto. rewrite <- Ek, Em in *. now apply run_at. }
    set (k := kf (cknots c)) in *. set (p := cdeg c) in *.
    assert (D0 : dom0 c = k p) by reflexivity.
    assert (D1 : dom1 c = k (length (cpts c))) by reflexivity.
    assert (Lo : forall i, (i <= p)%nat -> k i = dom0 c).
    { intros i Hi. pose proof (mono_le k 0 i Hm ltac:(lia)). pose proof (mono_le k i p Hm Hi). lra. }
    assert (Hi' : forall i, (length (cpts c) <= i < length (cknots c))%nat -> k i = dom1 c).
    { intros i Hi. pose proof (mono_le k i (length (cknots c) - 1) Hm ltac:(lia)).
      pose proof (mono_le k (length (cpts c)) i Hm ltac:(lia)). lra. }
    split.
    - destruct (Nat.le_gt_cases q (p + 1)) as [|C]; auto. exfalso.
      assert (Ea : k a = v).
      { destruct (RA a) as [[H _]|[[_ H]|[H _]]]; try lia; auto. }
      assert (Eb : k (a + p + 1)%nat = v).
      { destruct (RA (a + p + 1)%nat) as [[H _]|[[_ H]|[H _]]]; try lia; auto. }
      destruct (Nat.le_gt_cases a p) as [D|D].
      + pose proof (Lo a D). pose proof (mono_le k (S p) (a + p + 1) Hm ltac:(lia)). lra.
      + destruct (Nat.le_gt_cases a (clast c)) as [D'|D']; [|lia].
        pose proof (Hcc a D D') as Q. fold k in Q.
        pose proof (mono_le k (a + p) (a + p + 1) Hm ltac:(lia)). fold p in Q. lra.
    - intros Hq Hq1.
      assert (Ea : k a = v).
      { destruct (RA a) as [[H _]|[[_ H]|[H _]]]; try lia; auto. }
      assert (dom0 c <= v <= dom1 c).
      { pose proof (mono_le k 0 a Hm ltac:(lia)).
        pose proof (mono_le k a (length (cknots c) - 1) Hm ltac:(lia)). lra. }
      assert (v <> dom0 c).
      { intros ->. pose proof (Lo p ltac:(lia)). pose proof (Lo 0%nat ltac:(lia)).
        destruct (RA 0%nat) as [[_ H0']|[[H0' _]|[_ H0']]]; try lia; try lra.
        destruct (RA p) as [[_ H']|[[H' _]|[_ H']]]; try lia; try lra. }
      assert (v <> dom1 c).
      { intros ->. pose proof (Hi' (length (cpts c)) ltac:(lia)).
        pose proof (Hi' (length (cknots c) - 1)%nat ltac:(lia)).
        destruct (RA (length (cpts c))) as [[_ H']|[[H' _]|[_ H']]]; try lia; try lra.
        destruct (RA (length (cknots c) - 1)%nat) as [[_ H'']|[[H'' _]|[_ H'']]]; try lia; try lra. }
      lra.
  Qed.

  Lemma decompose_spec_full c :
    curve_ok c -> curve_eps eps c -> curve_cont c -> clamped c -> separated eps (cknots c) ->
    exists vs segs, try_decompose_bezier_segments c = Ok segs /\
      StronglySorted Rlt vs /\ (forall x, In x vs <-> In x (cknots c)) /\
      S (length segs) = length vs /\
      forall i, (i < length segs)%nat ->
        let s := nth i segs c in
        curve_ok s /\ curve_eps eps s /\ cdim s = cdim c /\ cdeg s = cdeg c /\
        length (cpts s) = S (cdeg c) /\
        cknots s = repeat (nth i vs 0) (cdeg c + 1) ++ repeat (nth (S i) vs 0) (cdeg c + 1) /\
        dom0 s = nth i vs 0 /\ dom1 s = nth (S i) vs 0 /\
        (forall u, nth i vs 0 <= u <= nth (S i) vs 0 -> point_at s u = point_at c u) /\
        part_of c s (nth i vs 0) (nth (S i) vs 0) /\
        forall Q, convex_set eps maxv (cdim c) Q -> Forall Q (cpts c) -> Forall Q (cpts s).
  Proof.
    intros Hc He Hcc Hcl Hsep. pose proof He as (He0 & _).
    pose proof (curve_len c Hc) as Hl. pose proof (clast_S c Hc) as Hn.
    pose proof (curve_mono c Hc) as Hm. pose proof (co_len c Hc) as Hcl'.
    pose proof (co_knots c Hc) as [_ _ Ks _ _].
    (* clamped *)
    destruct (is_clamped_iff eps maxv (cknots c) (cdeg c) ltac:(lra) Ks Hsep ltac:(lia))
      as (b & Eb & Hb).
    assert (b = true) as ->.
    { apply Hb. destruct Hcl as (C0 & C1). split; intros j Hj.
      - rewrite <- !(kf_nth _ _ 0) by lia.
        pose proof (mono_le _ 0 j Hm ltac:(lia)). pose proof (mono_le _ j (cdeg c) Hm Hj).
        unfold dom0 in *. lra.
      - rewrite <- !(kf_nth _ _ 0) by lia.
        pose proof (mono_le _ (length (cknots c) - 1 - j) (length (cknots c) - 1) Hm ltac:(lia)).
        pose proof (mono_le _ (length (cpts c)) (length (cknots c) - 1 - j) Hm ltac:(lia)).
        unfold dom1 in *. lra. }
    unfold try_decompose_bezier_segments, curve_is_clamped. rewrite Eb. cbn [bind].
    destruct (@multiplicity_total R (ROps eps maxv) (cknots c)) as (m & Em & _); [intros E; rewrite E in Hl; cbn in Hl; lia|].
    rewrite Em. cbn [bind].
    destruct (multiplicity_exact eps maxv (cknots c) m ltac:(lra) Ks Hsep Em) as (Ek & HS & Hpos).
    pose proof (clamped_runs c m Hc Hcc Hcl He0 Ek HS) as Runs.
    set (q := (cdeg c + 1)%nat) in *.
    destruct (foldM_rule (fun pre cc => same_curve c cc /\ curve_ok cc /\ curve_eps eps cc /\
        (forall Q, convex_set eps maxv (cdim c) Q -> Forall Q (cpts c) -> Forall Q (cpts cc)) /\
        forall post, m = pre ++ post ->
          Permutation (cknots cc) (expand (map (fill q) pre ++ post)))
      (fun cc (e : R * nat) => if (snd e <? q)%nat
                then try_refine_knot cc (repeat (fst e) (q - snd e)%nat) else Ok cc) m c)
      as (c' & Ef & Sc & Ok' & Eps' & Cv & Pm).
    { split; [now apply same_curve_refl, ok_wf|]. split; [auto|]. split; [auto|]. split; [auto|].
      intros post Ep. cbn [map app] in *. rewrite <- Ep, Ek. reflexivity. }
    { intros pre [v r] post cc Ed (Sc & Okc & Epc & Cv & Pm). cbn [fst snd].
      specialize (Pm _ Ed). destruct (Runs _ _ _ _ Ed) as (R1 & R2).
      assert (P1 : (1 <= r)%nat).
      { rewrite Ed in Hpos. apply Forall_app in Hpos. destruct Hpos as [_ H].
        inversion H as [|? ? H' _]; subst. exact H'. }
      destruct (Nat.ltb_spec r q) as [C|C].
      - pose proof (R2 C P1) as Hv.
        assert (Hdv : dom0 cc < v < dom1 cc)
          by (rewrite (sc_dom0 _ _ Sc), (sc_dom1 _ _ Sc); exact Hv).
        assert (Hin : forall y, In y (cknots cc) -> In y (cknots c)).
        { intros y Hy. assert (Hy' : In y (expand (map (fill q) pre ++ (v, r) :: post))).
          { eapply Permutation_in; [exact Pm|exact Hy]. }
          apply in_expand in Hy'. rewrite <- Ek. apply key_in_expand; [exact Hpos|].
          rewrite Ed. unfold run_keys in *. rewrite map_app in *.
          apply in_app_or in Hy'. apply in_or_app. destruct Hy' as [Hy'|Hy']; auto. left.
          rewrite map_map in Hy'. exact Hy'. }
        assert (Hvin : In v (cknots c)).
        { rewrite <- Ek. apply key_in_expand; auto. rewrite Ed. unfold run_keys.
          rewrite map_app. apply in_or_app. right. now left. }
        assert (Hsv : sep_from eps cc v).
        { intros y Hy. destruct (Hsep y v (Hin y Hy) Hvin); [now left|right; lra]. }
        pose proof (sep_refine eps cc v (q - r) He0 ltac:(lra) Hsv) as Hr.
        destruct (refine_spec eps maxv cc _ Okc Epc Hr) as (c2 & E2 & Sc2 & In2 & Pm2 & Ln2).
        destruct In2 as (Ok2 & Ep2).
        { unfold inside. apply Forall_forall. intros x Hx. apply repeat_spec in Hx. now subst. }
        exists c2. split; [exact E2|]. split; [eapply same_curve_trans; eauto|].
        split; [auto|]. split; [auto|]. split.
        { intros Q HQ Hall. apply (refine_convex eps maxv cc _ c2 Q Okc Epc Hr E2); auto.
          now rewrite (sc_dim _ _ Sc). }
        intros post' Ed'.
        assert (post' = post).
        { rewrite Ed in Ed'. rewrite <- app_assoc in Ed'. apply app_inv_head in Ed'.
          cbn in Ed'. now inversion Ed'. }
        subst post'. eapply Permutation_trans; [exact Pm2|].
        rewrite map_app. cbn [map]. unfold fill at 2. cbn [fst snd]. rewrite Nat.max_r by lia.
        rewrite <- app_assoc. cbn [app].
        change ((v, q) :: post) with ([(v, q)] ++ post).
        change ((v, r) :: post) with ([(v, r)] ++ post) in Pm.
        rewrite !expand_app, expand_single in *.
        assert (Er : repeat v q = repeat v r ++ repeat v (q - r)).
        { rewrite <- repeat_app. f_equal. lia. }
        rewrite Er.
        eapply Permutation_trans; [apply Permutation_app_tail; exact Pm|].
        rewrite <- !app_assoc. do 2 apply Permutation_app_head. apply Permutation_app_comm.
      - exists cc. split; [reflexivity|]. split; [auto|]. split; [auto|]. split; [auto|]. split; [auto|].
        intros post' Ed'.
        assert (post' = post).
        { rewrite Ed in Ed'. rewrite <- app_assoc in Ed'. apply app_inv_head in Ed'.
          cbn in Ed'. now inversion Ed'. }
        subst post'. rewrite map_app. cbn [map]. unfold fill at 2. cbn [fst snd].
        rewrite Nat.max_l by lia. rewrite <- app_assoc. exact Pm. }
    change (cdeg c + 1)%nat with q. rewrite Ef. cbn [bind].
    specialize (Pm [] (eq_sym (app_nil_r m))). rewrite app_nil_r in Pm.
    assert (Hq : Forall (fun e => snd e = q) (map (fill q) m)).
    { apply Forall_map, Forall_forall. intros [v r] Hin. cbn [fill fst snd].
      apply in_split in Hin. destruct Hin as (pre & post & Ed).
      destruct (Runs _ _ _ _ Ed) as (R1 & _). lia. }
    set (vs := run_keys m).
    assert (EK : cknots c' = concat (map (fun v => repeat v q) vs)).
    { apply sorted_perm_eq.
      - apply (co_knots c' Ok').
      - unfold vs. rewrite <- (fill_keys q m). rewrite <- expand_const by auto.
        assert (S2 : StronglySorted Rlt (run_keys (map (fill q) m))) by now rewrite fill_keys.
        clear - S2. set (l := map (fill q) m) in *. clearbody l. apply StronglySorted_Sorted.
        unfold expand, run_keys in *. induction l as [|[v r] l IH]; cbn in *; [constructor|].
        inversion S2 as [|? ? S3 F]; subst. specialize (IH S3). rewrite Forall_forall in F.
        induction r as [|r IHr]; cbn; [exact IH|]. constructor; [exact IHr|].
        apply Forall_forall. intros x Hx. apply in_app_or in Hx. destruct Hx as [Hx|Hx].
        + apply repeat_spec in Hx. subst; lra.
        + apply Rlt_le, F. apply (in_expand x l). exact Hx.
      - unfold vs. rewrite <- (fill_keys q m). rewrite <- expand_const by auto. exact Pm. }
    assert (LK : length (cknots c') = (q * length vs)%nat)
      by (rewrite EK; apply concat_repeat_length).
    pose proof (curve_len c' Ok') as Hl'. pose proof (sc_deg _ _ Sc) as Ed'.
    pose proof (co_len c' Ok') as Hcl2. rewrite Ed' in Hl', Hcl2.
    assert (Hvs : (2 <= length vs)%nat).
    { assert (q * length vs >= 2 * q)%nat by lia. nia. }
    assert (Lp : length (cpts c') = (q * (length vs - 1))%nat) by nia.
    set (seg := fun i => MkCurve (cdim c) (cdeg c) (firstn q (skipn (i * q) (cpts c')))
                                 (firstn (q * 2) (skipn (i * q) (cknots c')))).
    assert (Ediv : (length (cknots c') / q)%nat = length vs).
    { rewrite LK, Nat.mul_comm. apply Nat.div_mul. lia. }
    rewrite Ediv. rewrite usub_ok by lia. cbn [bind].
    rewrite (mapM_ok _ seg).
    2:{ intros i Hi. apply in_seq in Hi. unfold slice.
        destruct (Nat.leb_spec (i * q) (i * q + q * 2)); [|lia].
        destruct (Nat.leb_spec (i * q + q * 2) (length (cknots c'))); [|nia].
        destruct (Nat.leb_spec (i * q) (i * q + q)); [|lia].
        destruct (Nat.leb_spec (i * q + q) (length (cpts c'))); [|nia].
        cbn [andb bind]. unfold seg.
        replace (i * q + q * 2 - i * q)%nat with (q * 2)%nat by lia.
        replace (i * q + q - i * q)%nat with q by lia. reflexivity. }
    cbn [bind]. rewrite map_length, seq_length.
    exists vs, (map seg (seq 0 (length vs - 1))).
    split.
    { destruct (Nat.leb_spec (length vs - 1) 1) as [C|C]; [|reflexivity].
      replace (length vs - 1)%nat with 1%nat by lia. cbn [seq map].
      unfold seg. cbn [Nat.mul skipn]. do 2 f_equal.
      rewrite !firstn_all2 by nia. destruct c' as [D' d' P' K']. cbn [cdim cdeg cpts cknots] in *.
      rewrite Ed'. pose proof (sc_dim _ _ Sc) as Q. cbn [cdim] in Q. now rewrite Q. }
    split; [exact HS|]. split.
    { intros x. rewrite <- Ek. split; [apply key_in_expand; exact Hpos|apply in_expand]. }
    rewrite map_length, seq_length. split; [lia|].
    intros i Hi. cbv zeta.
    rewrite (nth_map_lt _ _ i 0%nat) by (rewrite seq_length; lia). rewrite seq_nth by lia.
    cbn [Nat.add].
    assert (EKs : cknots (seg i) = repeat (nth i vs 0) q ++ repeat (nth (S i) vs 0) q).
    { unfold seg. cbn [cknots]. rewrite EK. apply concat_repeat_slice. lia. }
    assert (Lps : length (cpts (seg i)) = q).
    { unfold seg. cbn [cpts]. rewrite firstn_length, skipn_length. nia. }
    assert (Kv : forall t, (t < q)%nat -> kf (cknots (seg i)) t = nth i vs 0).
    { intros t Ht. rewrite EKs. rewrite (kf_nth _ _ 0) by (rewrite app_length, !repeat_length; lia).
      rewrite app_nth1 by (rewrite repeat_length; lia). now apply nth_repeat_lt. }
    assert (Kw : kf (cknots (seg i)) q = nth (S i) vs 0).
    { rewrite EKs. rewrite (kf_nth _ _ 0) by (rewrite app_length, !repeat_length; lia).
      rewrite app_nth2 by (rewrite repeat_length; lia). rewrite repeat_length, Nat.sub_diag.
      apply nth_repeat_lt. lia. }
    assert (Hlt : nth i vs 0 < nth (S i) vs 0).
    { clear - HS Hi Hvs. fold vs in HS. revert i Hi. clearbody vs. clear Hvs.
      induction HS as [|v vs HS IH F]; intros i Hi; cbn [length] in Hi; [lia|].
      destruct i as [|i]; cbn [nth].
      - destruct vs as [|w vs]; [cbn in Hi; lia|]. inversion F; subst; auto.
      - apply (IH i). lia. }
    assert (Hin : forall j, (j < length vs)%nat -> In (nth j vs 0) (cknots c)).
    { intros j Hj. rewrite <- Ek. apply key_in_expand; auto. fold vs. now apply nth_In. }
    assert (Hle : eps <= nth (S i) vs 0 - nth i vs 0).
    { destruct (Hsep (nth (S i) vs 0) (nth i vs 0)) as [E|E]; try (apply Hin; lia); [lra|].
      rewrite Rabs_right in E by lra. lra. }
    (* a segment is a part of the refined curve *)
    pose proof (part_tail c' (i * q) (ok_wf _ Ok')) as Pt.
    pose proof (clast_S c' Ok') as Hn'.
    specialize (Pt ltac:(rewrite Ed'; nia)).
    pose proof (po_wf _ _ _ _ Pt) as Wt.
    set (tl := MkCurve (cdim c') (cdeg c') (skipn (i * q) (cpts c')) (skipn (i * q) (cknots c'))) in *.
    pose proof (part_head tl (cdeg c) Wt) as Ph.
    assert (Lt : clast tl = (length (cpts c') - i * q - 1)%nat).
    { unfold clast, tl. cbn [cpts]. now rewrite skipn_length. }
    specialize (Ph ltac:(rewrite Lt; cbn [cdeg tl]; rewrite Ed'; nia)).
    assert (Eseg : MkCurve (cdim tl) (cdeg tl) (firstn (S (cdeg c)) (cpts tl))
                     (firstn (cdeg c + cdeg tl + 2) (cknots tl)) = seg i).
    { unfold seg, tl. cbn [cdim cdeg cpts cknots]. rewrite Ed', (sc_dim _ _ Sc).
      replace (S (cdeg c)) with q by (unfold q; lia).
      replace (cdeg c + cdeg c + 2)%nat with (q * 2)%nat by (unfold q; lia). reflexivity. }
    rewrite Eseg in Ph.
    pose proof (part_trans _ _ _ _ _ _ _ (part_same _ _ Sc)
                  (part_trans _ _ _ _ _ _ _ Pt Ph)) as Pf.
    assert (D0 : dom0 (seg i) = nth i vs 0) by (unfold dom0; apply Kv; cbn [cdeg seg]; lia).
    assert (D1 : dom1 (seg i) = nth (S i) vs 0) by (unfold dom1; rewrite Lps; exact Kw).
    assert (Hcs : clast (seg i) = cdeg c) by (unfold clast; rewrite Lps; lia).
    assert (Oks : curve_ok (seg i)).
    { apply wf_ok; [apply Pf| |]; rewrite ?Hcs; cbn [cdeg seg];
        change (S (cdeg c)) with (1 + cdeg c)%nat; rewrite (Nat.add_comm 1); fold q;
        rewrite Kw, Kv by lia; exact Hlt. }
    assert (Epss : curve_eps eps (seg i)).
    { unfold curve_eps, eps_ok. rewrite Hcs. cbn [cdeg seg]. fold q.
      rewrite Kw, !Kv by lia. auto. }
    split; [exact Oks|]. split; [exact Epss|]. split; [reflexivity|]. split; [reflexivity|].
    split; [rewrite Lps; unfold q; lia|]. split; [exact EKs|]. split; [exact D0|].
    split; [exact D1|].
    assert (Pf' : part_of c (seg i) (nth i vs 0) (nth (S i) vs 0)) by (constructor; try apply Pf; auto).
    split; [|split; [exact Pf'|]].
    2:{ intros Q HQ Hall. unfold seg. cbn [cpts]. specialize (Cv Q HQ Hall). rewrite Forall_forall in *.
        intros x Hx. apply Cv. rewrite <- (firstn_skipn (i * q) (cpts c')). apply in_or_app. right.
        rewrite <- (firstn_skipn q (skipn (i * q) (cpts c'))). apply in_or_app. now left. }
    intros u Hu.
    apply (part_point_at eps maxv c (seg i) (nth i vs 0) (nth (S i) vs 0)); auto.
    - left. exact Hcc.
    - destruct Hcl as (C0 & _). rewrite <- C0.
      destruct (In_nth _ _ 0 (Hin i ltac:(lia))) as (j & Hj & <-).
      rewrite <- (kf_nth _ j 0) by lia. apply mono_le; auto. lia.
    - destruct Hcl as (_ & C1). rewrite <- C1.
      destruct (In_nth _ _ 0 (Hin (S i) ltac:(lia))) as (j & Hj & <-).
      rewrite <- (kf_nth _ j 0) by lia. apply mono_le; auto. lia.
  Qed.

  Theorem decompose_spec c :
    curve_ok c -> curve_eps eps c -> curve_cont c -> clamped c -> separated eps (cknots c) ->
    exists vs segs, try_decompose_bezier_segments c = Ok segs /\
      StronglySorted Rlt vs /\ (forall x, In x vs <-> In x (cknots c)) /\
      S (length segs) = length vs /\
      forall i, (i < length segs)%nat ->
        let s := nth i segs c in
        curve_ok s /\ curve_eps eps s /\ cdim s = cdim c /\ cdeg s = cdeg c /\
        length (cpts s) = S (cdeg c) /\
        cknots s = repeat (nth i vs 0) (cdeg c + 1) ++ repeat (nth (S i) vs 0) (cdeg c + 1) /\
        dom0 s = nth i vs 0 /\ dom1 s = nth (S i) vs 0 /\
        forall u, nth i vs 0 <= u <= nth (S i) vs 0 -> point_at s u = point_at c u.
  Proof.
    intros Hc He Hcc Hcl Hsep. destruct (decompose_spec_full c Hc He Hcc Hcl Hsep) as (vs & segs & A & B & C & D & E).
    exists vs, segs. split; [exact A|]. split; [exact B|]. split; [exact C|]. split; [exact D|].
    intros i Hi. cbv zeta. destruct (E i Hi) as (E1 & E2 & E3 & E4 & E5 & E6 & E7 & E8 & E9 & _).
    repeat (split; [assumption|]). exact E9.
  Qed.
End Real.

(** ** Unclamped curves: the decomposition also covers parameters outside the domain *)
Section Float.
  Local Existing Instance FOps.
  Open Scope float_scope.
  (** uniform knots, domain [1,3] *)
  Definition unclamped_line : Curve float :=
    MkCurve 2 1 [[0; 1]; [6; 1]; [10; 1]] [0; 1; 2; 3; 4].

  Theorem decompose_unclamped_refuted :
    exists (c : Curve float) (segs : list (Curve float)),
      curve_is_clamped c = Ok false /\ knots_domain c = Ok (1, 3) /\
      try_decompose_bezier_segments c = Ok segs /\ length segs = 4%nat /\
      mapM knots_domain segs = Ok [(0, 1); (1, 2); (2, 3); (3, 4)].
  Proof.
    exists unclamped_line. eexists. split; [vm_compute; reflexivity|].
    split; [vm_compute; reflexivity|]. split; [vm_compute; reflexivity|].
    split; vm_compute; reflexivity.
  Qed.
End Float.
