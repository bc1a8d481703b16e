(** * Knot vectors: construction of curves, sorted insertion, multiplicities, totality *)
From Coq Require Import Reals Lra ZArith Sorted Permutation.
From Verif Require Import Base BaseFacts Scalar RSum BSplineSpec BSpline KnotModel KnotSpec
  KnotFacts KnotProofs VecFacts MiscModel CurveModel.
Open Scope R_scope.

(** ** Any scalar type *)
Section AnyScalar.
  Context {T : Type} {SO : Scalar T}.

  (** lengths and dimensions of a curve as [try_new] checks them *)
  Record shape_ok (c : Curve T) : Prop := {
    sh_pts : Forall (fun p => length p = cdim c) (cpts c);
    sh_deg : (cdeg c < length (cpts c))%nat;
    sh_len : length (cknots c) = (length (cpts c) + cdeg c + 1)%nat
  }.

  Lemma insert_sorted_perm x (l : list T) : Permutation (insert_sorted x l) (x :: l).
  Proof.
    induction l as [|h t IH]; cbn; [auto|].
    destruct (sltb x h); [auto|].
    eapply perm_trans; [apply perm_skip, IH|apply perm_swap].
  Qed.

  Lemma ksort_perm (l : list T) : Permutation (ksort l) l.
  Proof.
    unfold ksort.
    assert (G : forall l acc, Permutation
               (fold_left (fun acc x => insert_sorted x acc) l acc) (acc ++ l)).
    { clear l. induction l as [|h t IH]; intros acc; cbn.
      - now rewrite app_nil_r.
      - eapply perm_trans; [apply IH|].
        eapply perm_trans; [apply Permutation_app_tail, insert_sorted_perm|].
        apply Permutation_cons_app. apply Permutation_refl. }
    apply (G l []).
  Qed.

  (** exact characterisation of success, error and panic of [try_new] *)
  Definition has_nan (k : list T) : Prop := exists x, In x k /\ seqb x x = false.

  Theorem try_new_spec D p pts (k : list T) :
    (forall c, try_new D p pts k = Ok c ->
       (p < length pts)%nat /\ length k = (length pts + p + 1)%nat /\
       cdim c = D /\ cdeg c = p /\ cpts c = pts /\ Permutation (cknots c) k) /\
    ((p < length pts)%nat -> length k = (length pts + p + 1)%nat -> ~ has_nan k ->
       exists c, try_new D p pts k = Ok c) /\
    ((length pts <= p)%nat \/ length k <> (length pts + p + 1)%nat ->
       errs (try_new D p pts k)) /\
    (panics (try_new D p pts k) -> has_nan k).
  Proof.
    unfold try_new, ensure, sort_knots.
    destruct (Nat.ltb_spec p (length pts)) as [H1|H1]; cbn [bind].
    2:{ repeat split; try (intros; discriminate); try (intros; lia).
        - intros _. eexists; reflexivity.
        - intros [m Hm]. discriminate. }
    destruct (Nat.eqb_spec (length k) (length pts + p + 1)) as [H2|H2]; cbn [bind].
    2:{ repeat split; try (intros; discriminate); try (intros; lia).
        - intros _. eexists; reflexivity.
        - intros [m Hm]. discriminate. }
    destruct (Nat.leb_spec 2 (length k)) as [H3|H3]; cbn [andb].
    - destruct (existsb _ k) eqn:E; cbn [bind].
      + apply existsb_exists in E. destruct E as (x & Hx & Ex).
        assert (N : has_nan k) by (exists x; split; [auto|now destruct (seqb x x)]).
        split; [intros; discriminate|]. split; [intros _ _ C; contradiction|].
        split; [intros; exfalso; destruct H; [lia|contradiction]|auto].
      + split.
        { intros c Ec. inversion Ec; subst; cbn. repeat split; auto. apply ksort_perm. }
        split; [eexists; reflexivity|].
        split; [intros; exfalso; destruct H; [lia|contradiction]|].
        intros [m Hm]; discriminate.
    - split.
      { intros c Ec. inversion Ec; subst; cbn. repeat split; auto. apply ksort_perm. }
      split; [eexists; reflexivity|].
      split; [intros; exfalso; destruct H; [lia|contradiction]|].
      intros [m Hm]; discriminate.
  Qed.

  Lemma try_new_shape D p pts (k : list T) c :
    Forall (fun q => length q = D) pts -> try_new D p pts k = Ok c -> shape_ok c.
  Proof.
    intros HD E. destruct (try_new_spec D p pts k) as [H _].
    destruct (H c E) as (H1 & H2 & H3 & H4 & H5 & H6).
    constructor; rewrite ?H3, ?H4, ?H5; auto. rewrite (Permutation_length H6). exact H2.
  Qed.

  (** totality of the basis evaluation *)
  Theorem basis_functions_total (k : list T) s u p :
    (p <= s)%nat -> (s + p < length k)%nat ->
    exists b, basis_functions k s u p = Ok b /\ length b = (p + 1)%nat.
  Proof.
    intros H1 H2. unfold basis_functions.
    assert (Lz : length (repeat szero (p + 1)) = (p + 1)%nat) by apply repeat_length.
    set (z := repeat szero (p + 1)) in *.
    rewrite set_ok by lia. cbn [bind].
    destruct (for_incl_rule
      (fun j (st : list T * list T * list T) => let '(b, l, r) := st in
          length b = (p + 1)%nat /\ length l = (p + 1)%nat /\ length r = (p + 1)%nat)
      1 p (basis_outer k s u) (upd z 0 sone, z, z)) as ([[b l] r] & E & Lb & _).
    - lia.
    - rewrite upd_length. auto.
    - intros j [[b l] r] Hj (L1 & L2 & L3). unfold basis_outer.
      rewrite usub_ok by lia. cbn [bind]. rewrite (get_ok k _ szero) by lia. cbn [bind].
      rewrite set_ok by lia. cbn [bind]. rewrite (get_ok k _ szero) by lia. cbn [bind].
      rewrite set_ok by lia. cbn [bind].
      match goal with |- context [basis_inner ?a ?b' j] => set (l' := a); set (r' := b') end.
      assert (Ll : length l' = (p + 1)%nat) by (unfold l'; rewrite upd_length; lia).
      assert (Lr : length r' = (p + 1)%nat) by (unfold r'; rewrite upd_length; lia).
      destruct (for_range_rule (fun _ (st : list T * T) => length (fst st) = (p + 1)%nat)
                  0 j (basis_inner l' r' j) (b, szero)) as ([b2 sv] & E & L); auto.
      + lia.
      + intros q [b2 sv] Hq L. cbn in L. unfold basis_inner.
        rewrite (get_ok b2 _ szero) by lia. cbn [bind].
        rewrite (get_ok r' _ szero) by lia. cbn [bind].
        rewrite usub_ok by lia. cbn [bind].
        rewrite (get_ok l' _ szero) by lia. cbn [bind].
        rewrite set_ok by lia. cbn [bind]. eexists. split; [reflexivity|].
        cbn. now rewrite upd_length.
      + rewrite E. cbn [bind]. cbn in L. rewrite set_ok by lia. cbn [bind].
        eexists. split; [reflexivity|]. cbn. rewrite upd_length. auto.
    - rewrite E. cbn [bind]. eauto.
  Qed.

  Lemma last_index_total (c : Curve T) : shape_ok c -> last_index c = Ok (length (cpts c) - 1)%nat.
  Proof.
    intros [H1 H2 H3]. unfold last_index. rewrite usub_ok by lia. cbn [bind].
    rewrite usub_ok by lia. f_equal. lia.
  Qed.

  (** evaluation of a curve of the right shape always yields a homogeneous point *)
  Theorem point_total (c : Curve T) u :
    shape_ok c -> exists p, point c u = Ok p /\ length p = cdim c.
  Proof.
    intros Hc. unfold point. rewrite last_index_total by auto. cbn [bind].
    destruct Hc as [H1 H2 H3].
    destruct (find_span_total (cknots c) (length (cpts c) - 1) (cdeg c) u) as (s & Es & Hs);
      try lia.
    rewrite Es. cbn [bind].
    destruct (basis_functions_total (cknots c) s u (cdeg c)) as (b & Eb & Lb); try lia.
    rewrite Eb. cbn [bind].
    match goal with |- context [for_incl 0 (cdeg c) ?g _] => set (f := g) end.
    destruct (for_incl_rule (fun _ pos => length pos = cdim c) 0 (cdeg c) f (vzero (cdim c)))
      as (p & Ep & Lp); [lia|apply vzero_length| |eauto].
    intros i pos Hi L. unfold f. rewrite usub_ok by lia. cbn [bind].
    rewrite (get_ok (cpts c) _ []) by lia. cbn [bind].
    rewrite (get_ok b _ szero) by lia. cbn [bind].
    eexists. split; [reflexivity|]. apply vadd_length; [exact L|]. apply vscale_length.
    rewrite Forall_forall in H1. apply H1, nth_In. lia.
  Qed.

  (** the only way [point_at] can fail is a weight coordinate equal to zero *)
  Theorem point_at_total (c : Curve T) u :
    shape_ok c ->
    exists p, point c u = Ok p /\
      point_at c u = (if seqb (coord (cdim c - 1) p) szero then Panic "unwrap on None"
                      else Ok (vdivs (firstn (cdim c - 1) p) (coord (cdim c - 1) p))).
  Proof.
    intros Hc. destruct (point_total c u Hc) as (p & E & L). exists p. split; [exact E|].
    unfold point_at. rewrite E. cbn [bind]. unfold dehomogenize.
    destruct (seqb _ szero); reflexivity.
  Qed.

  (** ** Multiplicities: lengths *)
  Definition runs_total (m : list (T * nat)) : nat := fold_right (fun e a => snd e + a)%nat 0%nat m.

  Lemma runs_total_app a b : runs_total (a ++ b) = (runs_total a + runs_total b)%nat.
  Proof.
    unfold runs_total. induction a as [|[x c] a IH]; [reflexivity|].
    cbn [app fold_right snd]. rewrite IH. lia.
  Qed.

  Lemma mult_fold k : forall done cur c,
    runs_total (let '(d, e) := fold_left mult_step k (done, (cur, c)) in d ++ [e])
    = (runs_total done + c + length k)%nat.
  Proof.
    induction k as [|x k IH]; intros done cur c; cbn [fold_left].
    - rewrite runs_total_app. cbn. lia.
    - cbn [mult_step]. destruct (sltb seps (sabs (ssub x cur))).
      + rewrite IH, runs_total_app. cbn. lia.
      + rewrite IH. cbn. lia.
  Qed.

  Theorem multiplicity_total (k : list T) :
    k <> [] -> exists m, multiplicity k = Ok m /\ runs_total m = length k /\ m <> [].
  Proof.
    intros Hk. destruct k as [|a k]; [contradiction|]. unfold multiplicity. cbn [get nth_error bind].
    pose proof (mult_fold (a :: k) [] a 0) as H.
    destruct (fold_left mult_step (a :: k) ([], (a, 0%nat))) as [d e].
    eexists. split; [reflexivity|]. split; [rewrite H; cbn; lia|]. now destruct d.
  Qed.

  Theorem multiplicity_empty : panics (multiplicity (@nil T)).
  Proof. eexists. reflexivity. Qed.

  (** ** Adding a knot: any scalar *)
  Theorem kadd_total (k : list T) x :
    exists idx, (idx <= length k)%nat /\ kadd k x = Ok (firstn idx k ++ x :: skipn idx k, idx).
  Proof.
    unfold kadd, kfloor. destruct (rposition _ k) as [i|] eqn:E.
    - destruct (rposition_some _ _ _ x E) as (H1 & _ & _).
      exists (i + 1)%nat. split; [lia|]. unfold insert_at.
      rewrite (proj2 (Nat.leb_le _ _)) by lia. reflexivity.
    - exists 0%nat. split; [lia|]. reflexivity.
  Qed.
End AnyScalar.

Section Real.
  Variables eps maxv : R.
  Local Hint Extern 0 (Scalar R) => exact (ROps eps maxv) : typeclass_instances.

  (** ** Sorting *)
  Lemma insert_sorted_sorted x (l : list R) : Sorted Rle l -> Sorted Rle (insert_sorted x l).
  Proof.
    induction 1 as [|h t Hs IH Hh]; cbn; [repeat constructor|]. rs.
    destruct (Rltb_spec x h) as [C|C].
    - constructor; [constructor; auto|constructor; lra].
    - constructor; [exact IH|].
      destruct t as [|h2 t]; cbn; [constructor; lra|]. rs.
      destruct (Rltb x h2); constructor; try lra. inversion Hh; auto.
  Qed.

  Lemma ksort_sorted (l : list R) : Sorted Rle (ksort l).
  Proof.
    unfold ksort.
    assert (G : forall l acc, Sorted Rle acc ->
       Sorted Rle (fold_left (fun acc x => insert_sorted x acc) l acc)).
    { clear l. induction l as [|h t IH]; intros acc H; cbn; auto.
      apply IH. now apply insert_sorted_sorted. }
    apply G. constructor.
  Qed.

  Lemma no_nan_real (k : list R) : ~ has_nan k.
  Proof. intros (x & _ & H). cbn in H. apply Reqb_false in H. now apply H. Qed.

  Theorem try_new_real D p pts (k : list R) :
    (exists c, try_new D p pts k = Ok c /\ cdim c = D /\ cdeg c = p /\ cpts c = pts /\
        Permutation (cknots c) k /\ Sorted Rle (cknots c))
    /\ (p < length pts)%nat /\ length k = (length pts + p + 1)%nat
    \/ errs (try_new D p pts k) /\
       ((length pts <= p)%nat \/ length k <> (length pts + p + 1)%nat).
  Proof.
    destruct (try_new_spec D p pts k) as (H1 & H2 & H3 & H4).
    destruct (Nat.lt_ge_cases p (length pts)) as [C1|C1].
    2:{ right. split; [apply H3|]; auto. }
    destruct (Nat.eq_dec (length k) (length pts + p + 1)) as [C2|C2].
    2:{ right. split; [apply H3|]; auto. }
    left. destruct (H2 C1 C2 (no_nan_real k)) as (c & E).
    destruct (H1 c E) as (_ & _ & A & B & C & D').
    split; [|auto]. exists c. repeat split; auto.
    unfold try_new, ensure, sort_knots in E.
    destruct (p <? length pts)%nat; cbn [bind] in E; [|discriminate].
    destruct (length k =? length pts + p + 1)%nat; cbn [bind] in E; [|discriminate].
    destruct (_ && _); cbn [bind] in E; [discriminate|].
    inversion E; subst; cbn. apply ksort_sorted.
  Qed.

  (** sorting a sorted list changes nothing *)
  Lemma insert_sorted_last x (l : list R) :
    (forall y, In y l -> y <= x) -> insert_sorted x l = l ++ [x].
  Proof.
    induction l as [|h t IH]; intros H; cbn; auto. rs.
    destruct (Rltb_spec x h) as [C|C].
    - pose proof (H h (or_introl eq_refl)). lra.
    - f_equal. apply IH. intros y Hy. apply H. now right.
  Qed.

  Lemma ksort_id (l : list R) : Sorted Rle l -> ksort l = l.
  Proof.
    intros Hs. apply Sorted_StronglySorted in Hs; [|intros a b c; lra].
    unfold ksort.
    assert (G : forall l acc, (forall a b, In a acc -> In b l -> a <= b) ->
       StronglySorted Rle l ->
       fold_left (fun acc x => insert_sorted x acc) l acc = acc ++ l).
    { clear l Hs. induction l as [|h t IH]; intros acc H Hs; cbn; [now rewrite app_nil_r|].
      inversion Hs as [|? ? Hs' Hall]; subst. rewrite Forall_forall in Hall.
      rewrite insert_sorted_last by (intros y Hy; apply H; cbn; auto).
      rewrite IH; auto.
      - now rewrite <- app_assoc.
      - intros a b Ha Hb. apply in_app_or in Ha. destruct Ha as [Ha|[<-|[]]].
        + apply H; cbn; auto.
        + now apply Hall. }
    apply (G l []); auto. intros a b [].
  Qed.

  Lemma try_new_sorted D p pts (k : list R) :
    (p < length pts)%nat -> length k = (length pts + p + 1)%nat -> Sorted Rle k ->
    try_new D p pts k = Ok (MkCurve D p pts k).
  Proof.
    intros H1 H2 H3. unfold try_new, ensure, sort_knots.
    rewrite (proj2 (Nat.ltb_lt _ _) H1). cbn [bind].
    rewrite (proj2 (Nat.eqb_eq _ _) H2). cbn [bind].
    assert (E : existsb (fun x : R => negb (seqb x x)) k = false).
    { destruct (existsb _ k) eqn:E; auto. apply existsb_exists in E.
      destruct E as (x & Hx & Ex). exfalso. apply (no_nan_real k). exists x. split; auto.
      now destruct (seqb x x). }
    rewrite E, andb_false_r. cbn [bind]. now rewrite ksort_id.
  Qed.

  (** ** Adding a knot *)
  Theorem kadd_real (k : list R) x :
    Sorted Rle k ->
    exists k' idx, kadd k x = Ok (k', idx) /\ (idx <= length k)%nat /\
      k' = firstn idx k ++ x :: skipn idx k /\
      Sorted Rle k' /\ nth idx k' 0 = x /\
      (forall y, In y (firstn idx k) -> y <= x) /\ (forall y, In y (skipn idx k) -> x < y).
  Proof.
    intros Hs.
    assert (Hidx : exists idx, (idx <= length k)%nat /\
       kadd k x = Ok (firstn idx k ++ x :: skipn idx k, idx) /\
       (forall j, (j < idx)%nat -> nth j k 0 <= x) /\
       (forall j, (idx <= j < length k)%nat -> x < nth j k 0)).
    { unfold kadd, kfloor. destruct (rposition _ k) as [i|] eqn:E.
      - destruct (rposition_some _ _ _ 0 E) as (H1 & H2 & H3).
        cbn in H2. apply Rleb_true in H2.
        exists (i + 1)%nat. split; [lia|]. split.
        { unfold insert_at. rewrite (proj2 (Nat.leb_le _ _)) by lia. reflexivity. }
        split.
        + intros j Hj. pose proof (mono_le _ j i (sorted_mono k Hs) ltac:(lia)) as G.
          rewrite !(kf_nth k _ 0) in G by lia. lra.
        + intros j Hj. specialize (H3 j ltac:(lia) ltac:(lia)). cbn in H3.
          now apply Rleb_false in H3.
      - exists 0%nat. split; [lia|]. split; [reflexivity|]. split; [intros; lia|].
        intros j Hj. pose proof (rposition_none _ _ E (nth j k 0)) as G. cbn in G.
        apply Rleb_false. apply G. apply nth_In. lia. }
    destruct Hidx as (idx & Hi & E & Hlo & Hhi).
    exists (firstn idx k ++ x :: skipn idx k), idx.
    assert (Lf : length (firstn idx k) = idx) by (rewrite firstn_length; lia).
    split; [exact E|]. split; [exact Hi|]. split; [reflexivity|]. split; [|split; [|split]].
    - apply mono_sorted. intros i Hil. rewrite app_length, Lf in Hil. cbn in Hil.
      rewrite skipn_length in Hil.
      assert (N : forall j, nth j (firstn idx k ++ x :: skipn idx k) 0 =
         if (j <? idx)%nat then nth j k 0 else if (j =? idx)%nat then x else nth (j - 1) k 0).
      { intros j. destruct (Nat.ltb_spec j idx).
        - rewrite app_nth1 by lia. now apply nth_firstn.
        - rewrite app_nth2 by lia. rewrite Lf.
          destruct (Nat.eqb_spec j idx) as [->|Hne]; [now rewrite Nat.sub_diag|].
          destruct (j - idx)%nat as [|m] eqn:Em; [lia|]. cbn [nth].
          rewrite nth_skipn. f_equal. lia. }
      rewrite !N.
      assert (M : forall a, (S a < length k)%nat -> nth a k 0 <= nth (S a) k 0)
        by (intros; now apply sorted_nth_le).
      destruct (Nat.ltb_spec i idx), (Nat.ltb_spec (S i) idx); try lia.
      + apply M. lia.
      + destruct (Nat.eqb_spec (S i) idx); [|lia]. apply Hlo. lia.
      + destruct (Nat.eqb_spec i idx), (Nat.eqb_spec (S i) idx); try lia.
        * rewrite Nat.sub_succ, Nat.sub_0_r. apply Rlt_le, Hhi. lia.
        * replace (S i - 1)%nat with (S (i - 1))%nat by lia. apply M. lia.
    - rewrite app_nth2 by lia. now rewrite Lf, Nat.sub_diag.
    - intros y Hy. apply (In_nth _ _ 0) in Hy. destruct Hy as (j & Hj & <-).
      rewrite Lf in Hj. rewrite nth_firstn by lia. now apply Hlo.
    - intros y Hy. apply (In_nth _ _ 0) in Hy. destruct Hy as (j & Hj & <-).
      rewrite skipn_length in Hj. rewrite nth_skipn. apply Hhi. lia.
  Qed.

  (** ** Multiplicity *)
  Definition expand (m : list (R * nat)) : list R :=
    concat (map (fun e => repeat (fst e) (snd e)) m).

  Lemma expand_app a b : expand (a ++ b) = expand a ++ expand b.
  Proof. unfold expand. now rewrite map_app, concat_app. Qed.

  Lemma expand_single x c : expand [(x, c)] = repeat x c.
  Proof. unfold expand. cbn. apply app_nil_r. Qed.

  Lemma repeat_snoc {A} (x : A) c : repeat x (S c) = repeat x c ++ [x].
  Proof. induction c as [|c IH]; cbn in *; [auto|now rewrite <- IH]. Qed.

  (** every knot is within epsilon of the representative of its run *)
  Theorem multiplicity_close (k : list R) m :
    0 <= eps -> multiplicity k = Ok m ->
    length (expand m) = length k /\
    forall i, (i < length k)%nat -> Rabs (nth i k 0 - nth i (expand m) 0) <= eps.
  Proof.
    intros He H. unfold multiplicity in H. destruct k as [|a k]; [discriminate|].
    cbn [get nth_error bind] in H.
    assert (G : forall k pre done cur c,
      length (expand done ++ repeat cur c) = length pre ->
      (forall i, (i < length pre)%nat ->
          Rabs (nth i pre 0 - nth i (expand done ++ repeat cur c) 0) <= eps) ->
      let '(d, e) := fold_left mult_step k (done, (cur, c)) in
      length (expand (d ++ [e])) = length (pre ++ k) /\
      forall i, (i < length (pre ++ k))%nat ->
          Rabs (nth i (pre ++ k) 0 - nth i (expand (d ++ [e])) 0) <= eps).
    { clear m H k a. induction k as [|x k IH]; intros pre done cur c HL H; cbn [fold_left].
      - rewrite app_nil_r, expand_app, expand_single. auto.
      - cbn [mult_step]. rs. destruct (Rltb_spec eps (Rabs (x - cur))) as [C|C].
        + specialize (IH (pre ++ [x]) (done ++ [(cur, c)]) x 1%nat).
          destruct (fold_left mult_step k (done ++ [(cur, c)], (x, 1%nat))) as [d e].
          rewrite <- app_assoc in IH. cbn [app] in IH. apply IH.
          * rewrite expand_app, expand_single, !app_length in *. cbn in *. lia.
          * intros i Hi. rewrite app_length in Hi. cbn in Hi.
            rewrite expand_app, expand_single. destruct (Nat.eq_dec i (length pre)) as [->|Hne].
            -- rewrite !app_nth2 by lia. rewrite HL, !Nat.sub_diag. cbn.
               unfold Rminus. rewrite Rplus_opp_r, Rabs_R0. exact He.
            -- rewrite (app_nth1 pre) by lia. rewrite app_nth1 by lia. apply H. lia.
        + specialize (IH (pre ++ [x]) done cur (S c)).
          destruct (fold_left mult_step k (done, (cur, S c))) as [d e].
          rewrite <- app_assoc in IH. cbn [app] in IH. apply IH.
          * rewrite repeat_snoc, app_assoc, !app_length in *. cbn. lia.
          * intros i Hi. rewrite app_length in Hi. cbn in Hi.
            rewrite repeat_snoc, app_assoc.
            destruct (Nat.eq_dec i (length pre)) as [->|Hne].
            -- rewrite !app_nth2 by lia. rewrite HL, !Nat.sub_diag. cbn. exact C.
            -- rewrite (app_nth1 pre) by lia. rewrite app_nth1 by lia. apply H. lia. }
    specialize (G (a :: k) [] [] a 0%nat eq_refl).
    destruct (fold_left mult_step (a :: k) ([], (a, 0%nat))) as [d e].
    inversion H; subst. apply G. intros i Hi. cbn in Hi. lia.
  Qed.

  (** knots that are equal or more than epsilon apart *)
  Definition separated (k : list R) : Prop :=
    forall a b, In a k -> In b k -> a = b \/ eps < Rabs (a - b).

  (** strictly increasing knots of the runs *)
  Definition run_keys (m : list (R * nat)) : list R := map fst m.

  Theorem multiplicity_exact (k : list R) m :
    0 <= eps -> Sorted Rle k -> separated k -> multiplicity k = Ok m ->
    expand m = k /\ StronglySorted Rlt (run_keys m) /\ Forall (fun e => (1 <= snd e)%nat) m.
  Proof.
    intros He Hs Hsep H. unfold multiplicity in H. destruct k as [|a k]; [discriminate|].
    cbn [get nth_error bind] in H.
    apply Sorted_StronglySorted in Hs; [|intros x y z; lra].
    assert (G : forall k done cur c,
      (forall x, In x k -> cur <= x) -> StronglySorted Rle k ->
      (forall x, In x k -> x = cur \/ eps < Rabs (x - cur)) ->
      (forall x y, In x k -> In y k -> x = y \/ eps < Rabs (x - y)) ->
      StronglySorted Rlt (run_keys done) -> (forall x, In x (run_keys done) -> x < cur) ->
      Forall (fun e => (1 <= snd e)%nat) done -> (1 <= c)%nat ->
      let '(d, e) := fold_left mult_step k (done, (cur, c)) in
      expand (d ++ [e]) = expand done ++ repeat cur c ++ k /\
      StronglySorted Rlt (run_keys (d ++ [e])) /\ Forall (fun e => (1 <= snd e)%nat) (d ++ [e])).
    { clear - He. assert (SS : forall l x, StronglySorted Rlt l -> (forall y, In y l -> y < x) ->
                        StronglySorted Rlt (l ++ [x])).
      { induction l as [|h t IH]; intros x Hl Hx; cbn; [repeat constructor|].
        inversion Hl; subst. constructor.
        - apply IH; auto. intros y Hy. apply Hx. now right.
        - apply Forall_app. split; auto. constructor; auto. apply Hx. now left. }
      induction k as [|x k IH]; intros done cur c H1 H2 H3 H3' H4 H5 H6 H7; cbn [fold_left].
      - rewrite expand_app, expand_single, app_nil_r. split; [reflexivity|]. split.
        + unfold run_keys in *. rewrite map_app. cbn. now apply SS.
        + apply Forall_app. split; auto.
      - inversion H2 as [|? ? H2' H2a]; subst. rewrite Forall_forall in H2a.
        cbn [mult_step]. rs. destruct (Rltb_spec eps (Rabs (x - cur))) as [C|C].
        + specialize (IH (done ++ [(cur, c)]) x 1%nat).
          destruct (fold_left mult_step k (done ++ [(cur, c)], (x, 1%nat))) as [d e].
          destruct IH as (I1 & I2 & I3).
          * intros y Hy. now apply H2a.
          * exact H2'.
          * intros y Hy. apply H3'; [now right|now left].
          * intros y z Hy Hz. apply H3'; now right.
          * unfold run_keys in *. rewrite map_app. now apply SS.
          * assert (cur <> x).
            { intros ->. unfold Rminus in C. rewrite Rplus_opp_r, Rabs_R0 in C. lra. }
            pose proof (H1 x (or_introl eq_refl)).
            unfold run_keys in *. rewrite map_app. intros y Hy. apply in_app_or in Hy.
            destruct Hy as [Hy|[<-|[]]]; cbn; [|lra]. pose proof (H5 y Hy). lra.
          * apply Forall_app. split; auto.
          * lia.
          * split; [|auto]. rewrite I1, expand_app, expand_single, <- app_assoc. reflexivity.
        + assert (x = cur) as ->.
          { destruct (H3 x (or_introl eq_refl)); [auto|lra]. }
          specialize (IH done cur (S c)).
          destruct (fold_left mult_step k (done, (cur, S c))) as [d e].
          destruct IH as (I1 & I2 & I3); auto.
          * intros y Hy. apply H3. now right.
          * intros y z Hy Hz. apply H3'; now right.
          * split; [|auto]. rewrite I1. rewrite repeat_snoc, <- app_assoc. reflexivity. }
    cbn [fold_left mult_step] in H. rs.
    replace (a - a) with 0 in H by lra. rewrite Rabs_R0 in H.
    destruct (Rltb_spec eps 0) as [C|_]; [lra|].
    inversion Hs as [|? ? Hs' Hall]; subst. rewrite Forall_forall in Hall.
    specialize (G k [] a 1%nat).
    destruct (fold_left mult_step k ([], (a, 1%nat))) as [d e].
    inversion H; subst. destruct G as (G1 & G2 & G3).
    - exact Hall.
    - exact Hs'.
    - intros x Hx. destruct (Hsep x a (or_intror Hx) (or_introl eq_refl)); auto.
    - intros x y Hx Hy. apply Hsep; now right.
    - constructor.
    - intros x [].
    - constructor.
    - lia.
    - auto.
  Qed.

  (** ** [is_clamped]: the first and last [p + 1] knots coincide *)
  Lemma in_expand y m : In y (expand m) -> In y (run_keys m).
  Proof.
    unfold expand, run_keys. induction m as [|[x c] m IH]; cbn; [auto|].
    intros H. apply in_app_or in H. destruct H as [H|H]; auto.
    left. symmetry. now apply repeat_spec in H.
  Qed.

  Lemma last_map_some {A} (m : list A) e : last (map Some (m ++ [e])) None = Some e.
  Proof.
    rewrite map_app. cbn [map]. induction (map Some m) as [|a l IH]; [reflexivity|].
    cbn [app]. destruct (l ++ [Some e]) eqn:E; [now destruct l|]. exact IH.
  Qed.

  Theorem is_clamped_iff (k : list R) p :
    0 <= eps -> Sorted Rle k -> separated k -> (p < length k)%nat ->
    exists b, is_clamped k p = Ok b /\
      (b = true <->
       (forall j, (j <= p)%nat -> nth j k 0 = nth 0 k 0) /\
       (forall j, (j <= p)%nat -> nth (length k - 1 - j) k 0 = nth (length k - 1) k 0)).
  Proof.
    intros He Hs Hsep Hp.
    assert (Hne : k <> []) by (intros ->; cbn in Hp; lia).
    destruct (multiplicity_total k Hne) as (m & Em & Lm & Nm).
    destruct (multiplicity_exact k m He Hs Hsep Em) as (X & S & P).
    unfold is_clamped. rewrite Em. cbn [bind].
    destruct m as [|[x c] rest] eqn:Ed; [contradiction|]. rewrite <- Ed in *.
    destruct (exists_last Nm) as (init & [y d] & El).
    assert (Hh : head m = Some (x, c)) by (rewrite Ed; reflexivity).
    assert (Hl : last (map Some m) None = Some (y, d)) by (rewrite El; apply last_map_some).
    rewrite Hh, Hl. cbn [snd]. eexists. split; [reflexivity|].
    assert (Pc : (1 <= c)%nat) by (rewrite Ed in P; inversion P; auto).
    assert (Pd : (1 <= d)%nat).
    { rewrite El in P. apply Forall_app in P. destruct P as [_ P]. inversion P; auto. }
    (* first run *)
    assert (F : (p < c)%nat <-> (forall j, (j <= p)%nat -> nth j k 0 = nth 0 k 0)).
    { assert (Ek : k = repeat x c ++ expand rest) by (rewrite <- X, Ed; reflexivity).
      assert (E0 : nth 0 k 0 = x).
      { rewrite Ek, app_nth1 by (rewrite repeat_length; lia). apply nth_repeat_lt. lia. }
      split.
      - intros H j Hj. rewrite E0, Ek, app_nth1 by (rewrite repeat_length; lia).
        apply nth_repeat_lt. lia.
      - intros H. destruct (Nat.lt_ge_cases p c) as [|C]; auto. exfalso.
        specialize (H c C). rewrite E0 in H.
        assert (Lk : length k = (c + length (expand rest))%nat)
          by (rewrite Ek, app_length, repeat_length; lia).
        assert (In (nth c k 0) (expand rest)).
        { rewrite Ek at 1. rewrite app_nth2 by (rewrite repeat_length; lia).
          apply nth_In. rewrite repeat_length. lia. }
        apply in_expand in H0. rewrite Ed in S. cbn in S. inversion S as [|? ? _ A]; subst.
        rewrite Forall_forall in A. specialize (A _ H0). lra. }
    assert (G : (p < d)%nat <-> (forall j, (j <= p)%nat ->
                   nth (length k - 1 - j) k 0 = nth (length k - 1) k 0)).
    { assert (Ek : k = expand init ++ repeat y d)
        by (rewrite <- X, El, expand_app, expand_single; reflexivity).
      assert (Lk : length k = (length (expand init) + d)%nat)
        by (rewrite Ek, app_length, repeat_length; lia).
      assert (E0 : nth (length k - 1) k 0 = y).
      { rewrite Ek at 2. rewrite app_nth2 by lia. apply nth_repeat_lt. lia. }
      split.
      - intros H j Hj. rewrite E0. rewrite Ek at 2. rewrite app_nth2 by lia.
        apply nth_repeat_lt. lia.
      - intros H. destruct (Nat.lt_ge_cases p d) as [|C]; auto. exfalso.
        specialize (H d C). rewrite E0 in H.
        assert (In (nth (length k - 1 - d) k 0) (expand init)).
        { rewrite Ek at 2. rewrite app_nth1 by lia. apply nth_In. lia. }
        apply in_expand in H0. rewrite El in S. unfold run_keys in S, H0.
        rewrite map_app in S. cbn [map fst] in S.
        assert (A : forall l z, StronglySorted Rlt (l ++ [z]) -> forall w, In w l -> w < z).
        { clear. induction l as [|h t IH]; intros z Hs w Hw; [contradiction|].
          cbn in Hs. inversion Hs as [|? ? Hs' Hall]; subst.
          destruct Hw as [<-|Hw]; [|now apply IH].
          rewrite Forall_forall in Hall. apply Hall. apply in_or_app. right. now left. }
        specialize (A _ _ S _ H0). lra. }
    rewrite andb_true_iff, !Nat.ltb_lt. tauto.
  Qed.

  (** ** Clamping a parameter to the domain *)
  Theorem kclamp_spec (k : list R) p u lo hi :
    domain k p = Ok (lo, hi) -> lo <= hi ->
    exists v, kclamp k p u = Ok v /\ lo <= v <= hi /\ (lo <= u <= hi -> v = u) /\
      kclamp k p v = Ok v /\ (forall w, lo <= w <= hi -> Rabs (v - u) <= Rabs (w - u)).
  Proof.
    intros E Hle. unfold kclamp. rewrite E. cbn [bind]. unfold sclamp. rs.
    exists (if Rltb u lo then lo else if Rltb hi u then hi else u).
    split; [reflexivity|].
    destruct (Rltb_spec u lo) as [A|A]; [|destruct (Rltb_spec hi u) as [B|B]].
    - split; [lra|]. split; [lra|]. split.
      + destruct (Rltb_spec lo lo); [lra|]. destruct (Rltb_spec hi lo); [lra|reflexivity].
      + intros w Hw. rewrite !Rabs_pos_eq by lra. lra.
    - split; [lra|]. split; [lra|]. split.
      + destruct (Rltb_spec hi lo); [lra|]. destruct (Rltb_spec hi hi); [lra|reflexivity].
      + intros w Hw. rewrite !Rabs_left1 by lra. lra.
    - split; [lra|]. split; [auto|]. split.
      + destruct (Rltb_spec u lo); [lra|]. destruct (Rltb_spec hi u); [lra|reflexivity].
      + intros w Hw. unfold Rminus at 1. rewrite Rplus_opp_r, Rabs_R0. apply Rabs_pos.
  Qed.
End Real.
