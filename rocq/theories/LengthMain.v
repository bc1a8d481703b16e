(** * Searching a parameter by length and dividing a curve by length *)
From Coq Require Import Reals Lra Lia Psatz Sorted ZArith.
From Verif Require Import Base BaseFacts Scalar RSum BSplineSpec BSpline BSplineDeriv KnotModel KnotSpec KnotFacts
  VecFacts CurveModel CurveKnotModel CurveSpec CurveProofs CurveGeom CurveGeom2 KnotMisc CurveShapes
  Boehm Refine SplitModel SplitProofs Decompose CurveDeriv BBoxModel BBoxProofs TraversalProofs LengthModel LengthProofs.
Open Scope R_scope.

Section Real.
  Variables eps maxv : R.
  Local Hint Extern 0 (Scalar R) => exact (ROps eps maxv) : typeclass_instances.

  Lemma psum_S ls i : psum ls (S i) = psum ls i + nth i ls 0.
  Proof. reflexivity. Qed.

  Lemma psum_mono ls : Forall (fun l => 0 <= l) ls -> forall i j, (i <= j)%nat -> psum ls i <= psum ls j.
  Proof.
    intros H i j Hij. induction Hij as [|j Hij IH]; [lra|]. rewrite psum_S.
    assert (0 <= nth j ls 0); [|lra]. destruct (Nat.lt_ge_cases j (length ls)) as [C|C].
    - rewrite Forall_forall in H. apply H. now apply nth_In.
    - rewrite nth_overflow by auto. lra.
  Qed.

  Lemma psum_skip ls i l r : skipn i ls = l :: r -> psum ls (S i) = psum ls i + l /\ skipn (S i) ls = r /\ nth i ls 0 = l.
  Proof.
    intros E. assert (N : nth i ls 0 = l).
    { replace i with (i + 0)%nat at 1 by lia. rewrite <- nth_skipn, E. reflexivity. }
    rewrite psum_S, N. repeat split. revert ls E N. induction i as [|i IH]; intros ls E N.
    - cbn in *. now subst ls.
    - destruct ls as [|x ls]; [discriminate|]. cbn [skipn] in *. cbn [nth] in N. apply IH; auto.
  Qed.

  (** ** The parameter at a length *)

  (** the answer [p] for the length [len] on segment [i] of a curve cut into [segs] of lengths [ls]:
      in the segment, at its end if the length reaches it, otherwise bracketed within the tolerance *)
  Definition located (rule : list (R * R)) (c : Curve R) (segs : list (Curve R)) (ls : list R) (i : nat)
      (len tol p : R) : Prop :=
    let s := nth i segs c in
    dom0 c <= dom0 s /\ dom1 s <= dom1 c /\ dom0 s <= p <= dom1 s /\
    (psum ls (S i) <= len -> p = dom1 s) /\
    (len < psum ls (S i) -> bracket eps maxv rule s (len - psum ls i) tol p).

  Lemma cut_inside c vs segs i : cut eps maxv c vs segs -> 0 < eps -> (i < length segs)%nat ->
    dom0 c <= dom0 (nth i segs c) /\ dom1 (nth i segs c) <= dom1 c.
  Proof.
    intros H He Hi. destruct (ct_dom _ _ _ _ _ H i Hi) as (-> & ->).
    rewrite <- (ct_first _ _ _ _ _ H), <- (ct_last _ _ _ _ _ H).
    split; apply (cut_mono eps maxv c vs segs H He); lia.
  Qed.

  Lemma seg_located fuel rule c vs segs ls i len tol total p : cut eps maxv c vs segs -> 0 < eps -> (i < length segs)%nat ->
    seg_length rule (nth i segs c) (dom1 (nth i segs c)) = Ok total -> psum ls (S i) = psum ls i + total ->
    0 < len - psum ls i -> seg_parameter fuel rule (nth i segs c) (len - psum ls i) tol total = Ok p ->
    located rule c segs ls i len tol p.
  Proof.
    intros H He Hi Et Ep Hl E. destruct (cut_inside c vs segs i H He Hi) as (D0 & D1).
    destruct (seg_parameter_bracket eps maxv fuel rule _ _ tol total p (ct_seg _ _ _ _ _ H i Hi) Et E) as (B1 & B2 & B3 & B4).
    unfold located. rewrite Ep. split; [exact D0|]. split; [exact D1|]. split; [exact B1|]. split; intros C.
    - apply B3; lra.
    - apply B4. lra.
  Qed.

  (** *** C34: searching the parameter at a length *)
  Theorem parameter_at_length_spec gauss fuel c len tolerance p : length_curve eps c -> rule_ok (gauss (16 + cdeg c)%nat) ->
    try_parameter_at_length gauss fuel c len tolerance = Ok p ->
    dom0 c <= p <= dom1 c /\ (len < eps -> p = dom0 c) /\
    (eps <= len ->
      let rule := gauss (16 + cdeg c)%nat in
      let tol := match tolerance with Some t => t | None => 1 / 10000 end in
      exists segs ls i, try_decompose_bezier_segments c = Ok segs /\
        mapM (fun s => seg_length rule s (dom1 s)) segs = Ok ls /\ (i < length segs)%nat /\
        psum ls i < len <= psum ls (S i) + eps /\ located rule c segs ls i len tol p).
  Proof.
    intros H Hr E. assert (He : 0 < eps) by apply (lc_eps _ _ H).
    assert (Dlt : dom0 c <= dom1 c) by (left; apply dom_le; apply H).
    unfold try_parameter_at_length in E. rs. destruct (Rltb_spec len eps) as [C|C].
    { rewrite knots_domain_ok in E by apply H. cbn [bind] in E. injection E as <-. repeat split; intros; lra. }
    destruct (try_length_spec eps maxv gauss c H Hr) as (vs & segs & ls & Es & Hcut & Els & Pos & _).
    rewrite Es in E. cbn [bind] in E. set (rule := gauss (16 + cdeg c)%nat) in *.
    set (tol := match tolerance with Some t => t | None => 1 / IZR 10000 end) in *.
    assert (Lls : length ls = length segs) by now apply mapM_length in Els.
    assert (G : forall rest rls i, skipn i segs = rest -> skipn i ls = rls -> psum ls i < len ->
              parameter_loop fuel rule len tol rest (psum ls i) = Ok p ->
              exists j, (j < length segs)%nat /\ psum ls j < len <= psum ls (S j) + eps /\ located rule c segs ls j len tol p).
    { induction rest as [|s rest IH]; intros rls i E1 E2 Hlt Ep; cbn [parameter_loop] in Ep; [discriminate|].
      assert (Hi : (i < length segs)%nat).
      { destruct (Nat.lt_ge_cases i (length segs)); auto. rewrite skipn_all2 in E1 by auto. discriminate. }
      assert (N : nth i segs c = s).
      { replace i with (i + 0)%nat at 1 by lia. rewrite <- nth_skipn, E1. reflexivity. }
      assert (E1' : skipn (S i) segs = rest).
      { clear - E1. revert segs E1. induction i as [|i IHi]; intros [|x segs] E1; cbn in *; try discriminate; [now injection E1|auto]. }
      destruct rls as [|l rls]; [exfalso; assert (X : length (skipn i ls) = 0%nat) by (rewrite E2; reflexivity); rewrite skipn_length in X; lia|].
      destruct (psum_skip ls i l rls E2) as (P1 & P2 & P3).
      rewrite knots_domain_ok in Ep by (rewrite <- N; apply (ct_seg _ _ _ _ _ Hcut i Hi)). cbn [bind] in Ep.
      assert (Sl : seg_length rule s (dom1 s) = Ok l).
      { apply mapM_inv in Els. rewrite <- N, <- P3. clear - Els Hi. revert i Hi. induction Els as [|x y l l' Hxy Els IH]; intros i Hi; cbn in Hi; [lia|].
        destruct i as [|i]; cbn [nth]; [exact Hxy|]. apply IH. lia. }
      rewrite Sl in Ep. cbn [bind] in Ep. rs. rewrite <- P1 in Ep.
      destruct (Rleb_spec len (psum ls (S i) + eps)) as [C'|C'].
      - exists i. split; [exact Hi|]. split; [lra|]. apply (seg_located fuel rule c vs segs ls i len tol l p); auto; try lra; now rewrite N.
      - apply (IH rls (S i)); auto. lra. }
    destruct (G segs ls 0%nat eq_refl eq_refl) as (i & Hi & Hb & Hloc).
    { unfold psum. cbn. lra. } { exact E. }
    destruct Hloc as (L1 & L2 & L3 & L4 & L5). split; [lra|]. split; [intros; lra|]. intros _. cbv zeta.
    exists segs, ls, i. repeat split; auto; lra.
  Qed.

  (** the search needs only finitely many steps, and fails exactly when the length exceeds the measured length *)
  Theorem parameter_at_length_total gauss c len tolerance : length_curve eps c -> rule_ok (gauss (16 + cdeg c)%nat) ->
    let rule := gauss (16 + cdeg c)%nat in
    let tol := match tolerance with Some t => t | None => 1 / 10000 end in
    0 < tol -> (forall segs s, try_decompose_bezier_segments c = Ok segs -> In s segs -> head_length eps rule s < tol) ->
    exists total, try_length gauss c = Ok total /\
      (len <= total + eps -> exists fuel0, forall fuel, (fuel0 <= fuel)%nat ->
         exists p, try_parameter_at_length gauss fuel c len tolerance = Ok p) /\
      (total + eps < len -> forall fuel, errs (try_parameter_at_length gauss fuel c len tolerance)).
  Proof.
    intros H Hr rule tol Ht Hh. assert (He : 0 < eps) by apply (lc_eps _ _ H).
    destruct (try_length_spec eps maxv gauss c H Hr) as (vs & segs & ls & Es & Hcut & Els & Pos & Et).
    exists (psum ls (length ls)). split; [exact Et|]. fold rule in Els.
    assert (Lls : length ls = length segs) by now apply mapM_length in Els.
    assert (Bz : forall s, In s segs -> bezier_seg eps s).
    { intros s Hs. apply (In_nth _ _ c) in Hs. destruct Hs as (i & Hi & <-). now apply (ct_seg _ _ _ _ _ Hcut). }
    assert (Tot : 0 <= psum ls (length ls)).
    { replace 0 with (psum ls 0) by reflexivity. apply psum_mono; auto. lia. }
    assert (Step : forall fuel rest rls i, skipn i segs = rest -> skipn i ls = rls -> forall s rest', rest = s :: rest' ->
              (i < length segs)%nat /\ In s segs /\ skipn (S i) segs = rest' /\ skipn (S i) ls = tl rls /\
              seg_length rule s (dom1 s) = Ok (nth i ls 0) /\
              parameter_loop fuel rule len tol rest (psum ls i) =
              (if Rleb len (psum ls (S i) + eps) then seg_parameter fuel rule s (len - psum ls i) tol (nth i ls 0)
               else parameter_loop fuel rule len tol rest' (psum ls (S i)))).
    { intros fuel rest rls i E1 E2 s rest' ->.
      assert (Hi : (i < length segs)%nat).
      { destruct (Nat.lt_ge_cases i (length segs)); auto. rewrite skipn_all2 in E1 by auto. discriminate. }
      assert (N : nth i segs c = s).
      { replace i with (i + 0)%nat at 1 by lia. rewrite <- nth_skipn, E1. reflexivity. }
      assert (E1' : skipn (S i) segs = rest').
      { clear - E1. revert segs E1. induction i as [|i IHi]; intros [|x segs] E1; cbn in *; try discriminate; [now injection E1|auto]. }
      destruct rls as [|l rls]; [exfalso; assert (X : length (skipn i ls) = 0%nat) by (rewrite E2; reflexivity); rewrite skipn_length in X; lia|].
      destruct (psum_skip ls i l rls E2) as (P1 & P2 & P3).
      assert (Sl : seg_length rule s (dom1 s) = Ok (nth i ls 0)).
      { apply mapM_inv in Els. rewrite <- N. clear - Els Hi. revert i Hi. induction Els as [|x y l l' Hxy Els IH]; intros i Hi; cbn in Hi; [lia|].
        destruct i as [|i]; cbn [nth]; [exact Hxy|]. apply IH. lia. }
      split; [exact Hi|]. split; [rewrite <- N; now apply nth_In|]. split; [exact E1'|]. split; [exact P2|]. split; [exact Sl|].
      cbn [parameter_loop]. rewrite knots_domain_ok by (rewrite <- N; apply (ct_seg _ _ _ _ _ Hcut i Hi)). cbn [bind].
      rewrite Sl. cbn [bind]. rs. rewrite <- psum_S. reflexivity. }
    unfold try_parameter_at_length. rs. fold rule. fold tol. split.
    - intros Hl. destruct (Rltb_spec len eps) as [C|C].
      { exists 0%nat. intros fuel _. rewrite knots_domain_ok by apply H. cbn [bind]. eauto. }
      rewrite Es. cbn [bind].
      (* enough fuel for every segment *)
      assert (F : exists fuel0, forall fuel, (fuel0 <= fuel)%nat -> forall s, In s segs -> forall l total,
                seg_length rule s (dom1 s) = Ok total -> exists p, seg_parameter fuel rule s l tol total = Ok p).
      { assert (Hh' : forall s, In s segs -> head_length eps rule s < tol) by (intros; now apply (Hh segs)).
        clear - Bz Hh' Hr Ht. induction segs as [|s segs IH].
        - exists 0%nat. intros fuel _ s [].
        - destruct IH as (f1 & H1); [intros; apply Bz; now right|intros; apply Hh'; now right|].
          destruct (seg_parameter_terminates eps maxv rule s tol) as (f2 & H2); auto; [apply Bz; now left|apply Hh'; now left|].
          exists (Nat.max f1 f2). intros fuel Hf s' [<-|Hs] l total E; [apply (H2 fuel ltac:(lia) l total E)|apply (H1 fuel ltac:(lia) s' Hs l total E)]. }
      destruct F as (fuel0 & F). exists fuel0. intros fuel Hf.
      assert (G : forall rest i, skipn i segs = rest -> (i <= length segs)%nat -> psum ls i + eps < len \/ i = 0%nat ->
                exists p, parameter_loop fuel rule len tol rest (psum ls i) = Ok p).
      { induction rest as [|s rest IH]; intros i E1 Hi Hlt.
        - exfalso. assert (X : length (skipn i segs) = 0%nat) by (rewrite E1; reflexivity). rewrite skipn_length in X.
          replace i with (length ls) in Hlt by lia. destruct Hlt as [Hlt|Hlt]; [lra|]. pose proof (ct_ne _ _ _ _ _ Hcut). lia.
        - destruct (Step fuel (s :: rest) (skipn i ls) i E1 eq_refl s rest eq_refl) as (S1 & S2 & S3 & S4 & S5 & ->).
          destruct (Rleb_spec len (psum ls (S i) + eps)) as [C'|C']; [now apply (F fuel Hf s S2)|].
          apply IH; auto. }
      apply (G segs 0%nat); auto. lia.
    - intros Hl fuel. destruct (Rltb_spec len eps) as [C|C]; [lra|]. rewrite Es. cbn [bind].
      assert (G : forall rest i, skipn i segs = rest -> errs (parameter_loop fuel rule len tol rest (psum ls i))).
      { induction rest as [|s rest IH]; intros i E1; [cbn [parameter_loop]; eexists; reflexivity|].
        destruct (Step fuel (s :: rest) (skipn i ls) i E1 eq_refl s rest eq_refl) as (S1 & S2 & S3 & S4 & S5 & ->).
        destruct (Rleb_spec len (psum ls (S i) + eps)) as [C'|C']; [|now apply IH].
        exfalso. pose proof (psum_mono ls Pos (S i) (length ls) ltac:(lia)). lra. }
      apply (G segs 0%nat). reflexivity.
  Qed.

  (** ** Dividing by length *)
  Definition deps : R := 1 / 1000000.
  Definition dtol : R := 25 / 10000.

  (** sample [k] of a division into pieces of length [len], found on segment [i] *)
  Definition sample_on (rule : list (R * R)) (c : Curve R) (segs : list (Curve R)) (ls : list R) (i : nat) (len_k p : R) : Prop :=
    (i < length segs)%nat /\ (i = 0%nat \/ psum ls i + deps <= len_k) /\ len_k < psum ls (S i) + deps /\
    located rule c segs ls i len_k dtol p.

  Lemma divide_inner fuel rule s cur acc prev len : 0 < len ->
    (forall l, exists u, seg_parameter fuel rule s l dtol cur = Ok u) ->
    forall n fuel' samples lc, (n < fuel')%nat -> acc + deps <= lc + INR n * len ->
    exists us, while_ fuel'
      (fun '(_, lc) => Ok (sltb lc (sadd acc divide_eps)))
      (fun '(samples, lc) => u <- seg_parameter fuel rule s (ssub lc prev) divide_tol cur ;; Ok (samples ++ [(u, lc)], sadd lc len))
      (samples, lc) = Ok (samples ++ us, lc + INR (length us) * len) /\
      acc + deps <= lc + INR (length us) * len /\
      forall j, (j < length us)%nat -> snd (nth j us (0, 0)) = lc + INR j * len /\ lc + INR j * len < acc + deps /\
        seg_parameter fuel rule s (lc + INR j * len - prev) dtol cur = Ok (fst (nth j us (0, 0))).
  Proof.
    intros Hlen Hp. induction n as [|n IH]; intros fuel' samples lc Hf Hn; (destruct fuel' as [|fuel']; [lia|]);
      unfold while_; cbn [loop_ bind]; rs; change divide_eps with deps; change divide_tol with dtol;
      (destruct (Rltb_spec lc (acc + deps)) as [C|C];
       [|exists []; cbn [length INR bind]; rewrite app_nil_r, Rmult_0_l, Rplus_0_r; split; [reflexivity|]; split; [lra|]; intros j Hj; cbn in Hj; lia]).
    - cbn [INR] in Hn. lra.
    - destruct (Hp (lc - prev)) as (u & Eu). rewrite Eu. cbn [bind].
      destruct (IH fuel' (samples ++ [(u, lc)]) (lc + len)) as (us & E & H1 & H2); [lia| |].
      { rewrite S_INR in Hn. lra. }
      exists ((u, lc) :: us). unfold while_ in E. rs. change divide_eps with deps in E. change divide_tol with dtol in E. rewrite E.
      rewrite <- app_assoc. cbn [app length]. rewrite S_INR. split; [f_equal; f_equal; ring|]. split; [lra|].
      intros j Hj. destruct j as [|j]; cbn [nth fst snd].
      + cbn [INR]. rewrite Rmult_0_l, Rplus_0_r. auto.
      + rewrite S_INR. destruct (H2 j ltac:(lia)) as (H3 & H4 & H5).
        replace (lc + (INR j + 1) * len) with (lc + len + INR j * len) by ring. auto.
  Qed.

  (** *** C35: dividing a curve by a length *)
  Theorem divide_by_length_spec gauss c len : length_curve eps c -> rule_ok (gauss (16 + cdeg c)%nat) ->
    let rule := gauss (16 + cdeg c)%nat in
    (forall segs s, try_decompose_bezier_segments c = Ok segs -> In s segs -> head_length eps rule s < dtol) ->
    exists total segs ls, try_length gauss c = Ok total /\ try_decompose_bezier_segments c = Ok segs /\
      mapM (fun s => seg_length rule s (dom1 s)) segs = Ok ls /\ psum ls (length ls) = total /\
      (len <= 0 \/ total <= len -> forall fuel, errs (try_divide_by_length gauss fuel c len)) /\
      (0 < len < total -> exists fuel0, forall fuel, (fuel0 <= fuel)%nat ->
         exists samples idx, try_divide_by_length gauss fuel c len = Ok samples /\
           (* recorded lengths 0, L, 2L, ... up to the total *)
           (2 <= length samples)%nat /\
           (forall k, (k < length samples)%nat -> snd (nth k samples (0, 0)) = INR k * len) /\
           INR (length samples - 1) * len < total + deps <= INR (length samples) * len /\
           (* the first one at the start, the others where the measured length says *)
           fst (nth 0 samples (0, 0)) = dom0 c /\
           (forall k, (1 <= k < length samples)%nat ->
              sample_on rule c segs ls (idx k) (INR k * len) (fst (nth k samples (0, 0)))) /\
           (* in the order of the segments *)
           (forall k k', (1 <= k <= k')%nat -> (k' < length samples)%nat ->
              idx k = idx k' \/ fst (nth k samples (0, 0)) <= fst (nth k' samples (0, 0)))).
  Proof.
    intros H Hr rule Hh. assert (He : 0 < eps) by apply (lc_eps _ _ H).
    destruct (try_length_spec eps maxv gauss c H Hr) as (vs & segs & ls & Es & Hcut & Els & Pos & Et). fold rule in Els.
    exists (psum ls (length ls)), segs, ls. split; [exact Et|]. split; [exact Es|]. split; [exact Els|]. split; [reflexivity|].
    assert (Lls : length ls = length segs) by now apply mapM_length in Els.
    assert (Bz : forall s, In s segs -> bezier_seg eps s).
    { intros s Hs. apply (In_nth _ _ c) in Hs. destruct Hs as (i & Hi & <-). now apply (ct_seg _ _ _ _ _ Hcut). }
    assert (Sl : forall i, (i < length segs)%nat -> seg_length rule (nth i segs c) (dom1 (nth i segs c)) = Ok (nth i ls 0)).
    { intros i Hi. apply mapM_inv in Els. clear - Els Hi. revert i Hi. induction Els as [|x y l l' Hxy Els IH]; intros i Hi; cbn in Hi; [lia|].
      destruct i as [|i]; cbn [nth]; [exact Hxy|]. apply IH. lia. }
    (* the lengths of the segments as computed by [try_length] *)
    assert (Els' : mapM (try_length gauss) segs = Ok ls).
    { assert (Eq : ls = map (fun s => mlen eps rule s (dom1 s)) segs).
      { rewrite (mapM_ok _ (fun s => mlen eps rule s (dom1 s))) in Els; [now injection Els|]. intros s Hs. apply seg_length_value; auto. }
      rewrite Eq. apply mapM_ok. intros s Hs. apply (In_nth _ _ c) in Hs. destruct Hs as (i & Hi & <-).
      destruct (ct_deg _ _ _ _ _ Hcut i Hi) as (Hdim & Hdeg).
      pose proof (try_length_single eps maxv gauss (nth i segs c) (nth i vs 0) (nth (S i) vs 0)) as G. rewrite Hdeg in G. fold rule in G.
      apply G; auto; [now apply (ct_seg _ _ _ _ _ Hcut)|now apply (ct_knots _ _ _ _ _ Hcut)|now apply (ct_step _ _ _ _ _ Hcut)]. }
    assert (K0 : get (cknots c) 0 = Ok (dom0 c)).
    { pose proof (curve_len c (lc_ok _ _ H)). rewrite get_kf by lia. now rewrite (proj1 (lc_clamped _ _ H)). }
    unfold try_divide_by_length. rs. split.
    - intros [C|C] fuel.
      + destruct (Rltb_spec 0 len); [lra|]. cbn [ensure bind]. eexists. reflexivity.
      + destruct (Rltb_spec 0 len); [|cbn [ensure bind]; eexists; reflexivity]. cbn [ensure bind]. rewrite Es. cbn [bind]. rewrite Els'. cbn [bind].
        rewrite fold_add_psum. destruct (Rltb_spec len (0 + psum ls (length ls))); [lra|]. cbn [ensure bind]. eexists. reflexivity.
    - intros Hlen. set (total := psum ls (length ls)) in *.
      assert (F : exists fuel0, forall fuel, (fuel0 <= fuel)%nat -> forall s, In s segs -> forall l total,
                seg_length rule s (dom1 s) = Ok total -> exists p, seg_parameter fuel rule s l dtol total = Ok p).
      { assert (Hh' : forall s, In s segs -> head_length eps rule s < dtol) by (intros; now apply (Hh segs)).
        clear - Bz Hh' Hr. induction segs as [|s segs IH].
        - exists 0%nat. intros fuel _ s [].
        - destruct IH as (f1 & H1); [intros; apply Bz; now right|intros; apply Hh'; now right|].
          destruct (seg_parameter_terminates eps maxv rule s dtol) as (f2 & H2); auto; [apply Bz; now left|unfold dtol; lra|apply Hh'; now left|].
          exists (Nat.max f1 f2). intros fuel Hf s' [<-|Hs] l total E; [apply (H2 fuel ltac:(lia) l total E)|apply (H1 fuel ltac:(lia) s' Hs l total E)]. }
      destruct F as (f1 & F).
      assert (N : exists n, total + deps <= INR n * len).
      { destruct (archimed ((total + deps) / len)) as (A & _). exists (Z.to_nat (up ((total + deps) / len))).
        assert (0 < (total + deps) / len) by (apply Rdiv_lt_0_compat; unfold deps; lra).
        assert (0 <= up ((total + deps) / len))%Z by (apply le_IZR; lra).
        rewrite INR_IZR_INZ, Z2Nat.id by auto.
        apply Rmult_le_reg_r with (/ len); [apply Rinv_0_lt_compat; lra|]. rewrite Rmult_assoc, Rinv_r by lra. unfold Rdiv in A. lra. }
      destruct N as (n & Hn). exists (Nat.max f1 (S n)). intros fuel Hf.
      destruct (Rltb_spec 0 len); [|lra]. cbn [ensure bind]. rewrite Es. cbn [bind]. rewrite Els'. cbn [bind].
      rewrite fold_add_psum. destruct (Rltb_spec len (0 + psum ls (length ls))); [|unfold total in *; lra]. cbn [ensure bind].
      rewrite K0. cbn [bind]. fold rule.
      (* the outer loop *)
      assert (G : forall rest i samples, skipn i segs = rest -> (i <= length segs)%nat -> (1 <= length samples)%nat ->
                (i = 0%nat \/ psum ls i + deps <= INR (length samples) * len) ->
                (forall k, (k < length samples)%nat -> snd (nth k samples (0, 0)) = INR k * len) ->
                fst (nth 0 samples (0, 0)) = dom0 c ->
                (forall k, (1 <= k < length samples)%nat -> exists j, sample_on rule c segs ls j (INR k * len) (fst (nth k samples (0, 0)))) ->
                exists samples', divide_loop fuel rule len (combine rest (skipn i ls)) (psum ls i) (psum ls i)
                     (samples, INR (length samples) * len) = Ok samples' /\
                  (1 <= length samples')%nat /\ total + deps <= INR (length samples') * len /\
                  (forall k, (k < length samples')%nat -> snd (nth k samples' (0, 0)) = INR k * len) /\
                  fst (nth 0 samples' (0, 0)) = dom0 c /\
                  (forall k, (1 <= k < length samples')%nat -> exists j, sample_on rule c segs ls j (INR k * len) (fst (nth k samples' (0, 0))))).
      { induction rest as [|s rest IH]; intros i samples E1 Hi Hs1 Hlo Hsn Hs0 Hgood.
        - assert (i = length segs).
          { assert (X : length (skipn i segs) = 0%nat) by (rewrite E1; reflexivity). rewrite skipn_length in X. lia. }
          cbn [combine divide_loop fst]. exists samples. split; [reflexivity|]. split; [auto|]. split; [|auto].
          destruct Hlo as [Hlo|Hlo]; [pose proof (ct_ne _ _ _ _ _ Hcut); lia|]. unfold total. rewrite Lls. now subst i.
        - assert (Hi' : (i < length segs)%nat).
          { destruct (Nat.lt_ge_cases i (length segs)); auto. rewrite skipn_all2 in E1 by auto. discriminate. }
          assert (Ns : nth i segs c = s).
          { replace i with (i + 0)%nat at 1 by lia. rewrite <- nth_skipn, E1. reflexivity. }
          assert (E1' : skipn (S i) segs = rest).
          { clear - E1. revert segs E1. induction i as [|i IHi]; intros [|x segs] E1; cbn in *; try discriminate; [now injection E1|auto]. }
          destruct (skipn i ls) as [|l rls] eqn:E2.
          { exfalso. assert (X : length (skipn i ls) = 0%nat) by (rewrite E2; reflexivity). rewrite skipn_length in X. lia. }
          destruct (psum_skip ls i l rls E2) as (P1 & P2 & P3).
          cbn [combine divide_loop]. rs. rewrite <- P1. unfold divide_segment.
          pose proof (Sl i Hi') as Sli. rewrite Ns, P3 in Sli.
          destruct (divide_inner fuel rule s l (psum ls (S i)) (psum ls i) len ltac:(lra)) with (n := n) (fuel' := fuel)
            (samples := samples) (lc := INR (length samples) * len) as (us & E & B1 & B2).
          { intros l0. apply (F fuel ltac:(lia) s); [rewrite <- Ns; now apply nth_In|exact Sli]. }
          { lia. }
          { pose proof (psum_mono ls Pos (S i) (length ls) ltac:(lia)) as Pm. change (psum ls (length ls)) with total in Pm.
            pose proof (pos_INR (length samples)). assert (0 <= INR (length samples) * len) by (apply Rmult_le_pos; lra). lra. }
          rs. rewrite E. cbn [bind].
          replace (INR (length samples) * len + INR (length us) * len) with (INR (length (samples ++ us)) * len)
            in * by (rewrite app_length, plus_INR; ring).
          rewrite <- P2. apply (IH (S i) (samples ++ us)); auto.
          + rewrite app_length. lia.
          + intros k Hk. rewrite app_length in Hk. destruct (Nat.lt_ge_cases k (length samples)) as [C|C].
            * rewrite app_nth1 by auto. now apply Hsn.
            * rewrite app_nth2 by auto. destruct (B2 (k - length samples)%nat ltac:(lia)) as (Q1 & _). rewrite Q1.
              rewrite minus_INR by auto. ring.
          + rewrite app_nth1 by lia. exact Hs0.
          + intros k Hk. rewrite app_length in Hk. destruct (Nat.lt_ge_cases k (length samples)) as [C|C].
            * rewrite app_nth1 by auto. apply Hgood. lia.
            * rewrite app_nth2 by auto. destruct (B2 (k - length samples)%nat ltac:(lia)) as (_ & Q2 & Q3).
              replace (INR (length samples) * len + INR (k - length samples) * len) with (INR k * len) in *
                by (rewrite minus_INR by auto; ring).
              assert (Lk : INR (length samples) * len <= INR k * len).
              { apply Rmult_le_compat_r; [lra|]. apply le_INR. lia. }
              exists i. split; [exact Hi'|]. split; [destruct Hlo; [now left|right; lra]|]. split; [exact Q2|].
              apply (seg_located fuel rule c vs segs ls i (INR k * len) dtol l); auto; try now rewrite Ns.
              assert (1 <= INR k) by (change 1 with (INR 1); apply le_INR; lia).
              destruct Hlo as [->|Hlo]; [|unfold deps in Hlo; lra]. unfold psum. cbn [rsum]. nra. }
      destruct (G segs 0%nat [(dom0 c, 0)]) as (samples & E & L1 & Lt & Sn & S0 & Good).
      + reflexivity.
      + lia.
      + cbn. lia.
      + now left.
      + intros k Hk. cbn [length] in Hk. replace k with 0%nat by lia. cbn. lra.
      + reflexivity.
      + intros k Hk. cbn [length] in Hk. lia.
      + cbn [length INR] in E. rewrite Rmult_1_l in E. cbn [skipn] in E. unfold psum in E. cbn [rsum] in E.
        (* choose the segments *)
        assert (Ch : exists idx, forall k, (1 <= k < length samples)%nat -> sample_on rule c segs ls (idx k) (INR k * len) (fst (nth k samples (0, 0)))).
        { clear - Good. assert (X : forall m, exists idx : nat -> nat, forall k, (1 <= k < Nat.min m (length samples))%nat -> sample_on rule c segs ls (idx k) (INR k * len) (fst (nth k samples (0, 0)))).
          { induction m as [|m (idx & IH)]; [exists (fun _ => 0%nat); intros k Hk; lia|].
            destruct (Nat.lt_ge_cases m (length samples)) as [C|C].
            - destruct m as [|m]; [exists idx; intros k Hk; lia|].
              destruct (Good (S m)) as (j & Hj); [lia|]. exists (fun k => if Nat.eq_dec k (S m) then j else idx k).
              intros k Hk. destruct (Nat.eq_dec k (S m)) as [->|]; [exact Hj|apply IH; lia].
            - exists idx. intros k Hk. apply IH. lia. }
          destruct (X (length samples)) as (idx & Hx). exists idx. intros k Hk. apply Hx. lia. }
        destruct Ch as (idx & Hidx). exists samples, idx. split; [exact E|].
        assert (L2 : (2 <= length samples)%nat).
        { destruct samples as [|x [|y l]]; cbn [length] in *; try lia. cbn [INR] in Lt. unfold deps in Lt. lra. }
        split; [exact L2|]. split; [exact Sn|]. split; [split; [|exact Lt]|].
        { destruct (Hidx (length samples - 1)%nat ltac:(lia)) as (Q1 & _ & Q3 & _).
          pose proof (psum_mono ls Pos (S (idx (length samples - 1)%nat)) (length ls) ltac:(lia)) as Q. fold total in Q. lra. }
        split; [exact S0|]. split; [exact Hidx|]. intros k k' Hk Hk'.
        destruct (Hidx k ltac:(lia)) as (Q1 & Q2 & Q3 & Q4). destruct (Hidx k' ltac:(lia)) as (Q1' & Q2' & Q3' & Q4').
        destruct (Nat.lt_trichotomy (idx k) (idx k')) as [C|[C|C]]; [right|now left|exfalso].
        * destruct Q4 as (_ & _ & Q4 & _). destruct Q4' as (_ & _ & Q4' & _).
          destruct (ct_dom _ _ _ _ _ Hcut (idx k) Q1) as (_ & D1). destruct (ct_dom _ _ _ _ _ Hcut (idx k') Q1') as (D0 & _).
          pose proof (cut_mono eps maxv c vs segs Hcut He (S (idx k)) (idx k') ltac:(lia)). lra.
        * destruct Q2 as [Q2|Q2]; [lia|]. pose proof (psum_mono ls Pos (S (idx k')) (idx k) ltac:(lia)).
          assert (INR k * len <= INR k' * len) by (apply Rmult_le_compat_r; [lra|apply le_INR; lia]). lra.
  Qed.

  (** *** Dividing into a number of parts *)
  Theorem divide_by_count_spec gauss c n : length_curve eps c -> rule_ok (gauss (16 + cdeg c)%nat) ->
    let rule := gauss (16 + cdeg c)%nat in
    (forall segs s, try_decompose_bezier_segments c = Ok segs -> In s segs -> head_length eps rule s < dtol) ->
    exists total, try_length gauss c = Ok total /\
      (n = 1%nat -> forall fuel, errs (try_divide_by_count gauss fuel c n)) /\
      ((2 <= n)%nat -> deps <= total / INR n -> exists fuel0, forall fuel, (fuel0 <= fuel)%nat ->
         exists samples, try_divide_by_count gauss fuel c n = Ok samples /\ length samples = S n /\
           forall k, (k <= n)%nat -> snd (nth k samples (0, 0)) = INR k * (total / INR n)).
  Proof.
    intros H Hr rule Hh. destruct (divide_by_length_spec gauss c (let t := match try_length gauss c with Ok t => t | _ => 0 end in t / INR n) H Hr Hh)
      as (total & segs & ls & Et & _ & _ & _ & Hbad & Hgood).
    exists total. split; [exact Et|]. rewrite Et in Hbad, Hgood. cbv zeta in Hbad, Hgood.
    assert (Sn : sofnat n = INR n).
    { unfold sofnat. rs. symmetry. apply INR_IZR_INZ. }
    unfold try_divide_by_count. rewrite Et. cbn [bind]. rs. rewrite Sn. split.
    - intros ->. apply Hbad. right. cbn [INR]. lra.
    - intros Hn Hd. assert (P : 2 <= INR n) by (change 2 with (INR 2); now apply le_INR).
      set (len := total / INR n) in *. assert (El : INR n * len = total) by (unfold len; field; lra).
      assert (Hl : 0 < len < total) by (unfold deps in Hd; split; [lra|nra]).
      destruct (Hgood Hl) as (fuel0 & G). exists fuel0. intros fuel Hf.
      destruct (G fuel Hf) as (samples & idx & E & L2 & Sk & Ln & _). exists samples. split; [exact E|].
      assert (L : length samples = S n).
      { destruct Ln as (A & B). rewrite minus_INR in A by lia. cbn [INR] in A.
        assert (U : INR (length samples) < INR (S (S n))).
        { rewrite !S_INR. apply Rmult_lt_reg_r with len; [lra|]. unfold deps in *. nra. }
        assert (Lw : INR n < INR (length samples)).
        { apply Rmult_lt_reg_r with len; [lra|]. unfold deps in *. nra. }
        apply INR_lt in U, Lw. lia. }
      split; [exact L|]. intros k Hk. apply Sk. lia.
  Qed.
End Real.
