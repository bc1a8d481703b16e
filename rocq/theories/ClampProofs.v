(** * Adding a knot anywhere in the knot vector, and clamping an unclamped curve *)
From Coq Require Import Reals Lra Lia List Sorted Permutation.
From Verif Require Import Base BaseFacts Scalar KnotModel RSum BSplineSpec BSpline BSplineInsert
  KnotSpec KnotFacts KnotProofs VecFacts CurveModel CurveKnotModel CurveSpec CurveProofs KnotMisc
  Boehm Refine AddKnot CurveGeom CurveGeom2 CurveMore SplitProofs.
Import ListNotations.
Local Open Scope R_scope.

Lemma ins_knots_last k x : k <> [] -> ins_knots k (length k - 1) x = k ++ [x].
Proof.
  intros H. unfold ins_knots. destruct k as [|a k]; [contradiction|]. replace (S (length (a :: k) - 1)) with (length (a :: k)) by (cbn; lia).
  now rewrite firstn_all, skipn_all.
Qed.
Lemma last_app_one {A} (l : list A) x d : last (l ++ [x]) d = x.
Proof. induction l as [|a l IH]; [reflexivity|]. cbn [app last]. destruct (l ++ [x]) eqn:E; [destruct l; discriminate|exact IH]. Qed.
Lemma ins_knots_any k j x m : (j < length k)%nat -> kf k j <= x <= kf k (S j) ->
  kf (ins_knots k j x) m = kins (kf k) j x m.
Proof.
  intros Hj Hx. destruct (Nat.eq_dec (S j) (length k)) as [E|N]; [|apply ins_knots_kf; lia].
  assert (NE : k <> []) by (intros ->; cbn in Hj; lia). replace j with (length k - 1)%nat at 1 by lia. rewrite ins_knots_last by auto.
  assert (Ex : x = last k 0). { rewrite (kf_ge k (S j)) in Hx by lia. rewrite (kf_nth k j 0) in Hx by lia. rewrite (last_nth k) in Hx by auto. replace (length k - 1)%nat with j in Hx by lia. rewrite (last_nth k) by auto. replace (length k - 1)%nat with j by lia. lra. }
  unfold kf at 1. rewrite last_app_one. destruct (Nat.lt_ge_cases m (length k)) as [C|C].
  - rewrite app_nth1 by lia. rewrite kins_lo by lia. unfold kf. now apply nth_indep.
  - destruct (Nat.eq_dec m (length k)) as [->|N].
    + rewrite app_nth2, Nat.sub_diag by lia. now rewrite kins_at by lia.
    + rewrite nth_overflow by (rewrite app_length; cbn; lia). rewrite (kins_hi _ _ _ m (m - 1)) by lia. now rewrite kf_ge by lia.
Qed.

Section Real.
  Variables eps maxv : R.
  Local Hint Extern 0 (Scalar R) => exact (ROps eps maxv) : typeclass_instances.

  (** the exact effect of [try_add_knot] for every knot value it accepts *)
  Theorem add_knot_anywhere c x : curve_wf c -> kf (cknots c) 0 <= x <= last (cknots c) 0 ->
    exists c' j, try_add_knot c x = Ok c' /\ (j < length (cknots c))%nat /\
      kf (cknots c) j <= x <= kf (cknots c) (S j) /\ ((S j < length (cknots c))%nat -> x < kf (cknots c) (S j)) /\
      cdim c' = cdim c /\ cdeg c' = cdeg c /\ cknots c' = ins_knots (cknots c) j x /\
      length (cpts c') = S (length (cpts c)) /\
      Forall (fun p => length p = cdim c) (cpts c') /\
      (forall i t, (t + cdeg c <= j)%nat -> (t < length (cpts c))%nat -> cpc c' i t = cpc c i t) /\
      (forall i t, (j < t + cdeg c)%nat -> (t <= j)%nat -> (1 <= t < length (cpts c))%nat -> cpc c' i t = addk c j x i t) /\
      (forall i t, (j < t <= length (cpts c))%nat -> cpc c' i t = cpc c i (t - 1)) /\
      (forall t, (t <= length (cpts c))%nat -> cpc c' (cdim c - 1) t = cpc c (cdim c - 1) (if (t <=? j)%nat && (t <? length (cpts c))%nat then t else t - 1)).
  Proof.
    intros Hc Hx. pose proof (wf_klen c Hc) as Hl. pose proof (wf_clast c Hc) as Hn.
    pose proof (wf_mono c Hc) as Hm. pose proof (wf_len c Hc) as Hcl.
    pose proof (wf_pts c Hc) as Hpt. pose proof (wf_dim c Hc) as Hd. pose proof (wf_sorted c Hc) as Hs.
    destruct (kadd_real eps maxv (cknots c) x Hs) as (k' & idx & E & Hidx & Ek & _ & _ & Hlo & Hhi).
    set (k := kf (cknots c)) in *. set (p := cdeg c) in *. set (n := clast c) in *.
    assert (NE : cknots c <> []) by (intros Z; rewrite Z in Hl; cbn in Hl; lia).
    assert (Hgt : (0 < idx)%nat).
    { destruct idx; [|lia]. exfalso. assert (Hin : In (k 0%nat) (skipn 0 (cknots c))).
      { cbn [skipn]. unfold k. rewrite (kf_nth _ _ 0) by lia. apply nth_In. lia. }
      specialize (Hhi _ Hin). lra. }
    destruct idx as [|j]; [lia|].
    assert (Kj : k j <= x).
    { apply Hlo. unfold k. rewrite (kf_nth _ _ 0) by lia. rewrite <- (nth_firstn _ (S j)) by lia.
      apply nth_In. rewrite firstn_length. lia. }
    assert (KSj : (S j < length (cknots c))%nat -> x < k (S j)).
    { intros Hj. apply Hhi. unfold k. rewrite (kf_nth _ _ 0) by lia. replace (S j) with (S j + 0)%nat at 1 by lia.
      rewrite <- nth_skipn. apply nth_In. rewrite skipn_length. lia. }
    assert (Hxj : k j <= x <= k (S j)).
    { split; [exact Kj|]. destruct (Nat.lt_ge_cases (S j) (length (cknots c))) as [C|C]; [specialize (KSj C); lra|]. unfold k. rewrite kf_ge by lia. lra. }
    assert (Ek' : k' = ins_knots (cknots c) j x) by exact Ek.
    assert (Lk' : length k' = S (length (cknots c))) by (rewrite Ek'; apply ins_knots_length).
    assert (K' : forall m, (m <= length (cknots c))%nat -> nth m k' 0 = kins k j x m).
    { intros m Hmm. rewrite <- (kf_nth k' m 0) by lia. rewrite Ek'. apply ins_knots_any; [lia|exact Hxj]. }
    set (e := if (S n <? S j)%nat then S (S n) else S j).
    set (ps := if (S n <? S j)%nat then cpts c ++ [nth n (cpts c) []] else firstn j (cpts c) ++ nth j (cpts c) [] :: skipn j (cpts c)).
    assert (He : (S j - p <= e <= S (S n))%nat /\ (e <= S j)%nat) by (unfold e; destruct (Nat.ltb_spec (S n) (S j)); lia).
    assert (Lps : length ps = S (S n)).
    { unfold ps. destruct (Nat.ltb_spec (S n) (S j)); rewrite app_length; cbn [length]; [lia|]. rewrite firstn_length, skipn_length. lia. }
    assert (Nps : forall t, (t <= S n)%nat -> nth t ps [] = nth (if (t <=? j)%nat && (t <? S n)%nat then t else t - 1) (cpts c) []).
    { intros t Ht. unfold ps. destruct (Nat.ltb_spec (S n) (S j)) as [C|C].
      - destruct (Nat.ltb_spec t (S n)) as [G|G].
        + rewrite app_nth1 by lia. destruct (Nat.leb_spec t j); [reflexivity|lia].
        + rewrite app_nth2 by lia. replace (t - length (cpts c))%nat with 0%nat by lia. cbn [nth]. rewrite Bool.andb_false_r. f_equal. lia.
      - assert (Lf : length (firstn j (cpts c)) = j) by (rewrite firstn_length; lia).
        destruct (Nat.leb_spec t j) as [G|G]; cbn [andb].
        + destruct (Nat.ltb_spec t (S n)); [|lia]. destruct (Nat.eq_dec t j) as [->|G'].
          * rewrite app_nth2 by lia. rewrite Lf, Nat.sub_diag. reflexivity.
          * rewrite app_nth1 by lia. apply nth_firstn. lia.
        + rewrite app_nth2 by lia. rewrite Lf. destruct (t - j)%nat as [|m] eqn:Em; [lia|].
          cbn [nth]. rewrite nth_skipn. f_equal. lia. }
    assert (Fps : Forall (fun q => length q = cdim c) ps).
    { unfold ps. destruct (Nat.ltb_spec (S n) (S j)) as [C|C].
      - apply Forall_app. split; [exact Hpt|]. constructor; [|constructor]. apply nth_len; auto. lia.
      - apply Forall_app. split; [|constructor].
        + rewrite Forall_forall in *. intros q Hq. apply Hpt. eapply firstn_In; eauto.
        + apply nth_len; auto. lia.
        + rewrite Forall_forall in *. intros q Hq. apply Hpt. eapply skipn_In; eauto. }
    unfold try_add_knot.
    rewrite (get_kf (cknots c) 0) by lia. cbn [bind]. rs.
    rewrite (proj2 (Rleb_true _ _)) by (fold k; lra).
    cbn [ensure bind]. rewrite usub_ok by lia. cbn [bind].
    rewrite (get_ok (cknots c) (length (cknots c) - 1) 0) by lia. cbn [bind]. rs.
    rewrite (proj2 (Rleb_true _ _)).
    2:{ rewrite <- last_nth by auto. lra. }
    cbn [ensure bind]. rewrite E. cbn [bind]. fold p.
    assert (Eps : (if (length (cpts c) <? S j)%nat
                   then l <- unwrap (last (map Some (cpts c)) None);; Ok (cpts c ++ [l], (length (cpts c) + 1)%nat)
                   else im <- usub (S j) 1;; p0 <- get (cpts c) im;; ps0 <- insert_at (cpts c) im p0;; Ok (ps0, S j)) = Ok (ps, e)).
    { unfold ps, e. rewrite <- Hn. destruct (Nat.ltb_spec (S n) (S j)) as [C|C].
      - assert (NP : cpts c <> []) by (intros Z; rewrite Z in Hcl; cbn in Hcl; lia).
        rewrite (last_nth (map Some (cpts c))) by (destruct (cpts c); [contradiction|discriminate]). rewrite map_length.
        rewrite (nth_indep _ None (Some [])) by (rewrite map_length; lia). rewrite map_nth. cbn [unwrap bind]. replace (length (cpts c) - 1)%nat with n by lia. now rewrite Nat.add_1_r.
      - rewrite usub_ok by lia. cbn [bind]. replace (S j - 1)%nat with j by lia. rewrite (get_ok (cpts c) j []) by lia. cbn [bind]. unfold insert_at.
        rewrite (proj2 (Nat.leb_le _ _)) by lia. reflexivity. }
    rewrite Eps. cbn [bind]. clear Eps.
    destruct (for_range_rule (fun i (q : list (list R)) =>
        length q = S (S n) /\ Forall (fun v => length v = cdim c) q /\
        (forall t, (t + i < e + (S j - p) \/ e <= t)%nat -> nth t q [] = nth t ps []) /\
        (forall a t, (e + (S j - p) <= t + i)%nat -> (t < e)%nat -> (1 <= t < S n)%nat -> rc a (nth t q []) = addk c j x a t) /\
        (forall t, (t <= S n)%nat -> rc (cdim c - 1) (nth t q []) = rc (cdim c - 1) (nth t ps [])))
      (S j - p) e (add_knot_step (cdim c) k' p (S j) (S j - p) e) ps) as (q & Eq & Lq & Fq & Hq1 & Hq2 & Hq3).
    - lia.
    - split; [exact Lps|]. split; [exact Fps|]. split; [auto|]. split; [intros; lia|auto].
    - intros i q Hi (Lq & Fq & Q1 & Q2 & Q3).
      set (i0 := (e + (S j - p) - i - 1)%nat).
      assert (Hi0 : (S j - p <= i0 < e)%nat) by (unfold i0; lia).
      unfold add_knot_step. rewrite usub_ok by lia. cbn [bind]. rewrite usub_ok by lia. cbn [bind]. fold i0.
      rewrite (get_ok k' (i0 + p + 1) 0) by lia. cbn [bind].
      rewrite (get_ok k' i0 0) by lia. cbn [bind].
      rewrite (get_ok k' (S j) 0) by lia. cbn [bind].
      set (a := smul _ _).
      assert (B : nth i0 q [] = nth i0 ps []) by (apply Q1; left; unfold i0; lia).
      assert (L0 : length (nth i0 q []) = cdim c) by (apply nth_len; auto; lia).
      assert (Edp : exists dp, (if (i0 =? 0)%nat then get q i0
           else if (i0 =? length q)%nat then p <- get q (i0 - 1)%nat ;; Ok (vopp p)
           else p <- get q i0 ;; q' <- get q (i0 - 1)%nat ;; Ok (vsub p q')) = Ok dp /\ length dp = cdim c /\
           ((1 <= i0)%nat -> dp = vsub (nth i0 q []) (nth (i0 - 1) q []))).
      { destruct (Nat.eqb_spec i0 0) as [Z|Z].
        - rewrite (get_ok q i0 []) by lia. eexists. split; [reflexivity|]. split; [exact L0|]. intros; lia.
        - destruct (Nat.eqb_spec i0 (length q)) as [?|_]; [lia|]. rewrite (get_ok q i0 []) by lia. cbn [bind]. rewrite (get_ok q (i0 - 1) []) by lia. cbn [bind].
          eexists. split; [reflexivity|]. split; [|auto]. apply vsub_length; [exact L0|apply nth_len; auto; lia]. }
      destruct Edp as (dp & -> & Ldp & Hdp). cbn [bind].
      rewrite set_ok by (rewrite (vscale_length _ _ (cdim c)) by auto; lia). cbn [bind]. rewrite (get_ok q i0 []) by lia. cbn [bind].
      rewrite set_ok by lia. eexists. split; [reflexivity|].
      set (dq := upd (vscale dp (ssub sone a)) (cdim c - 1) szero).
      assert (Ldq : length dq = cdim c) by (unfold dq; rewrite upd_length; now apply vscale_length).
      split; [now rewrite upd_length|]. split; [apply Forall_upd; auto; now apply vsub_length|]. split; [|split].
      + intros t Ht. rewrite nth_upd_other; [apply Q1; lia|unfold i0; lia].
      + intros b t Ht1 Ht2 Ht3. destruct (Nat.eq_dec t i0) as [->|Hne].
        2:{ rewrite nth_upd_other by auto. apply Q2; auto. unfold i0 in Hne; lia. }
        rewrite nth_upd_same by lia. rewrite rc_vsub by lia.
        assert (B0 : nth i0 q [] = nth i0 (cpts c) []).
        { rewrite B, Nps by lia. destruct (Nat.leb_spec i0 j); [|lia]. destruct (Nat.ltb_spec i0 (S n)); [reflexivity|lia]. }
        assert (B1 : nth (i0 - 1) q [] = nth (i0 - 1) (cpts c) []).
        { rewrite Q1 by (left; unfold i0; lia). rewrite Nps by lia. destruct (Nat.leb_spec (i0 - 1) j); [|lia]. destruct (Nat.ltb_spec (i0 - 1) (S n)); [reflexivity|lia]. }
        unfold addk. fold k p. unfold cpc. rewrite B0.
        destruct (Nat.eqb_spec b (cdim c - 1)) as [->|Hb].
        * unfold rc at 2, dq. rewrite nth_upd_same by (rewrite (vscale_length _ _ (cdim c)) by auto; lia). rs. lra.
        * unfold rc at 2, dq. rewrite nth_upd_other by auto. change (nth b (vscale dp (ssub sone a)) 0) with (rc b (vscale dp (ssub sone a))).
          rewrite rc_vscale, (Hdp ltac:(lia)), B0, B1.
          rewrite rc_vsub by (rewrite (nth_len (cpts c) (cdim c) i0), (nth_len (cpts c) (cdim c) (i0 - 1)); auto; lia).
          rs. f_equal. f_equal. f_equal. unfold a. rewrite !K' by lia. rewrite (kins_hi k j x (i0 + p + 1) (i0 + p)) by lia. rewrite (kins_at k j x (S j)), (kins_lo k j x i0) by lia. rs.
          destruct (Req_EM_T (k (i0 + p)%nat - k i0) 0) as [Z|Z].
          -- rewrite (proj2 (Reqb_true _ _) Z). ring.
          -- rewrite (proj2 (Reqb_false _ _) Z). reflexivity.
      + intros t Ht. destruct (Nat.eq_dec t i0) as [->|Hne].
        2:{ rewrite nth_upd_other by auto. now apply Q3. }
        rewrite nth_upd_same by lia. rewrite rc_vsub by lia. unfold rc at 2, dq. rewrite nth_upd_same by (rewrite (vscale_length _ _ (cdim c)) by auto; lia). rs. rewrite B. lra.
    - rewrite Eq. cbn [bind]. eexists. exists j. split; [reflexivity|]. cbn [cdim cdeg cpts cknots].
      split; [lia|]. split; [exact Hxj|]. split; [exact KSj|]. split; [auto|]. split; [auto|]. split; [exact Ek|].
      split; [lia|]. split; [exact Fq|]. rewrite <- Hn. split; [|split; [|split]].
      + intros i t Ht Ht2. unfold cpc. cbn [cpts]. rewrite Hq1 by lia. rewrite Nps by lia.
        destruct (Nat.leb_spec t j); [|lia]. destruct (Nat.ltb_spec t (S n)); [reflexivity|lia].
      + intros i t H1 H2 H3. unfold cpc at 1. cbn [cpts]. apply Hq2; [lia| |lia]. unfold e. destruct (Nat.ltb_spec (S n) (S j)); lia.
      + intros i t Ht. unfold cpc. cbn [cpts]. rewrite Hq1. 2:{ right. unfold e. destruct (Nat.ltb_spec (S n) (S j)); lia. } rewrite Nps by lia.
        destruct (Nat.leb_spec t j); [lia|reflexivity].
      + intros t Ht. unfold cpc. cbn [cpts]. rewrite Hq3 by lia. now rewrite Nps by lia.
  Qed.

  (** [c'] runs through the points of [c] on the domain of [c] (half open), and possibly beyond *)
  Record extends (c c' : Curve R) : Prop := {
    ex_wf : curve_wf c';
    ex_dim : cdim c' = cdim c;
    ex_deg : cdeg c' = cdeg c;
    ex_dom0 : dom0 c' <= dom0 c;
    ex_dom1 : dom1 c <= dom1 c';
    ex_pts : forall i u, dom0 c <= u < dom1 c -> hcoord c' i u = hcoord c i u
  }.
  Lemma extends_refl c : curve_wf c -> extends c c.
  Proof. intros H. constructor; auto; lra. Qed.
  Lemma extends_trans a b c : extends a b -> extends b c -> extends a c.
  Proof.
    intros [A1 A2 A3 A4 A5 A6] [B1 B2 B3 B4 B5 B6]. constructor; auto; try congruence; try lra.
    intros i u Hu. rewrite B6 by lra. now apply A6.
  Qed.

  Lemma wf_piece c s i u : curve_wf c -> (s <= clast c)%nat -> kf (cknots c) s <= u < kf (cknots c) (S s) ->
    piece (kf (cknots c)) (cdeg c) (length (cpts c)) (cpc c i) s u = hcoord c i u.
  Proof.
    intros Hc Hs Hu. unfold piece, hcoord. apply rsum_ext. intros j Hj. f_equal. symmetry. apply (cox_closed_bs _ _ (clast c)); auto; try lra.
    - now apply wf_mono.
    - unfold dom1. now rewrite wf_clast.
  Qed.
  Lemma wf_span c u : curve_wf c -> dom0 c <= u < dom1 c ->
    exists s, (cdeg c <= s <= clast c)%nat /\ kf (cknots c) s <= u < kf (cknots c) (S s).
  Proof.
    intros Hc Hu. pose proof (wf_clast c Hc) as Hn. pose proof (wf_len c Hc) as Hl. unfold dom0, dom1 in Hu. rewrite <- Hn in Hu.
    assert (G : forall d b, (cdeg c + d = b)%nat -> u < kf (cknots c) (S b) -> exists s, (cdeg c <= s <= b)%nat /\ kf (cknots c) s <= u < kf (cknots c) (S s)).
    { induction d as [|d IH]; intros b Hb H2.
      - exists b. replace b with (cdeg c) in * by lia. split; [lia|lra].
      - destruct (Rlt_le_dec u (kf (cknots c) b)) as [C|C].
        + destruct (IH (b - 1)%nat) as (s & S1 & S2); [lia|replace (S (b - 1)) with b by lia; exact C|]. exists s; split; [lia|exact S2].
        + exists b. split; [lia|lra]. }
    apply (G (clast c - cdeg c)%nat); [lia|lra].
  Qed.

  Definition weights (c : Curve R) (w : R) : Prop := forall t, (t < length (cpts c))%nat -> cpc c (cdim c - 1) t = w.

  (** with equal weights, adding a knot anywhere changes no point on the old domain *)
  Theorem add_knot_extends c x w : curve_wf c -> weights c w -> kf (cknots c) 0 <= x <= last (cknots c) 0 ->
    exists c', try_add_knot c x = Ok c' /\ extends c c' /\ weights c' w /\ Permutation (cknots c') (x :: cknots c).
  Proof.
    intros Hc Hw Hx. destruct (add_knot_anywhere c x Hc Hx) as (c' & j & E & Hj & Hxj & _ & I1 & I2 & I3 & I4 & I5 & I6 & I7 & I8 & I9).
    pose proof (wf_clast c Hc) as Hn. pose proof (wf_len c Hc) as Hcl. pose proof (wf_mono c Hc) as Hm. pose proof (wf_klen c Hc) as Hl.
    set (k := kf (cknots c)) in *. set (p := cdeg c) in *. set (n := clast c) in *.
    assert (K : forall m, kf (cknots c') m = kins k j x m) by (intros m; rewrite I3; now apply ins_knots_any).
    assert (Hm' : mono (kins k j x)) by now apply kins_mono.
    assert (Hn' : clast c' = S n) by (unfold clast; lia).
    assert (Hc' : curve_wf c').
    { constructor.
      - rewrite I1. apply (wf_dim c Hc).
      - rewrite I1. exact I5.
      - rewrite I2, I4. lia.
      - rewrite I2, I3, I4, ins_knots_length. fold p. lia.
      - apply mono_sorted. intros i Hi. rewrite <- !(kf_nth (cknots c') _ 0) by lia. rewrite !K. apply Hm'. }
    exists c'. split; [exact E|]. split; [|split].
    - constructor; auto.
      + unfold dom0. rewrite I2, K. fold p k. destruct (Nat.le_gt_cases p j); [rewrite kins_lo by lia; lra|]. destruct (Nat.eq_dec p (S j)) as [->|Hne].
        * rewrite kins_at by lia. lra.
        * rewrite (kins_hi k j x p (p - 1)) by lia. apply mono_le; [auto|lia].
      + unfold dom1. rewrite I4, K, <- Hn. fold k. destruct (Nat.le_gt_cases (S (S n)) j); [rewrite kins_lo by lia; apply mono_le; [auto|lia]|]. destruct (Nat.eq_dec (S (S n)) (S j)) as [Hq|Hne].
        * rewrite kins_at by lia. replace j with (S n) in Hxj by lia. lra.
        * rewrite (kins_hi k j x (S (S n)) (S n)) by lia. lra.
      + intros i u Hu. destruct (wf_span c u Hc Hu) as (s & Hs & Hsu). fold k p n in Hs, Hsu.
        assert (G : exists s', span_rel j s s' /\ kins k j x s' <= u < kins k j x (S s')).
        { destruct (Nat.lt_trichotomy s j) as [C|[->|C]].
          - exists s. split; [left; lia|]. rewrite !kins_lo by lia. exact Hsu.
          - destruct (Rlt_le_dec u x) as [D|D].
            + exists j. split; [left; lia|]. rewrite kins_lo, kins_at by lia. lra.
            + exists (S j). split; [right; lia|]. rewrite kins_at, (kins_hi k j x (S (S j)) (S j)) by lia. lra.
          - exists (S s). split; [right; lia|]. rewrite (kins_hi k j x (S s) s), (kins_hi k j x (S (S s)) (S s)) by lia. exact Hsu. }
        destruct G as (s' & Hrel & Hu'). assert (Hs' : (p <= s' <= S n)%nat) by (destruct Hrel; lia).
        rewrite <- (wf_piece c s i u Hc) by (auto; lia). rewrite <- (wf_piece c' s' i u Hc') by (rewrite ?K; auto; lia).
        rewrite I2, I4. fold p k.
        transitivity (piece (kins k j x) p (S (length (cpts c))) (cpc c' i) s' u).
        { unfold piece. apply rsum_ext. intros t Ht. f_equal. apply bs_ext. intros; apply K. }
        apply (piece_insert k j x Hm Hxj s s' Hrel ltac:(lra)); try lia.
        intros t Ht1 Ht2 Ht3.
        destruct (Nat.le_gt_cases (t + p) j) as [C|C].
        { rewrite al_lo by lia. destruct (Nat.eq_dec t (S n)); [destruct Hrel; lia|]. rewrite (I6 i t C) by lia. lra. }
        destruct (Nat.le_gt_cases t j) as [C'|C'].
        * destruct (Nat.eq_dec t (S n)); [destruct Hrel; lia|]. destruct (Nat.eq_dec t 0) as [->|Hz]; [destruct Hrel; lia|].
          rewrite al_mid by lia. rewrite (I7 i t C C') by lia.
          destruct (Nat.eq_dec i (cdim c - 1)) as [->|Hi].
          -- unfold addk. rewrite Nat.eqb_refl. rewrite !Hw by lia. lra.
          -- rewrite addk_blend; [reflexivity|exact Hi|]. fold k p.
             assert (H : kins k j x t < kins k j x (S (t + p))).
             { assert (kins k j x t <= kins k j x s') by (apply mono_le; auto).
               assert (kins k j x (S s') <= kins k j x (S (t + p))) by (apply mono_le; auto; lia). lra. }
             rewrite kins_lo in H by lia. rewrite (kins_hi k j x (S (t + p)) (t + p)) in H by lia. exact H.
        * rewrite al_hi by lia. rewrite (I8 i t) by lia. lra.
    - intros t Ht. rewrite I1, I9 by lia. apply Hw. destruct (Nat.leb_spec t j), (Nat.ltb_spec t (length (cpts c))); cbn [andb]; lia.
    - rewrite I3. apply ins_knots_perm.
  Qed.

  Lemma sorted_cons_all (l : list R) x : Sorted Rle l -> (forall y, In y l -> x <= y) -> Sorted Rle (x :: l).
  Proof. intros H F. constructor; [exact H|]. destruct l as [|y l]; constructor. apply F. now left. Qed.
  Lemma sorted_snoc (l : list R) x : Sorted Rle l -> (forall y, In y l -> y <= x) -> Sorted Rle (l ++ [x]).
  Proof.
    induction l as [|a l IH]; intros H F; [repeat constructor|]. cbn [app]. inversion H as [|? ? H1 H2]; subst. constructor.
    - apply IH; auto. intros y Hy. apply F. now right.
    - destruct l as [|b l]; cbn [app]; constructor; [apply F; now left|]. now inversion H2.
  Qed.
  Lemma wf_range c y : curve_wf c -> In y (cknots c) -> kf (cknots c) 0 <= y <= last (cknots c) 0.
  Proof.
    intros Hc Hy. apply (In_nth _ _ 0) in Hy. destruct Hy as (i & Hi & <-). rewrite <- (kf_nth _ _ 0) by lia. pose proof (wf_mono c Hc) as Hm. split.
    - apply mono_le; [auto|lia].
    - rewrite <- (kf_ge (cknots c) (length (cknots c))) by lia. apply mono_le; [auto|lia].
  Qed.

  (** adding the first knot and the last knot again and again *)
  Lemma add_first c w m s : curve_wf c -> weights c w ->
    exists c', for_ m s (fun _ c0 => try_add_knot c0 (kf (cknots c) 0)) c = Ok c' /\ extends c c' /\ weights c' w /\
      cknots c' = repeat (kf (cknots c) 0) m ++ cknots c.
  Proof.
    revert c s. induction m as [|m IH]; intros c s Hc Hw; cbn [for_].
    - exists c. split; [reflexivity|]. split; [now apply extends_refl|]. split; [exact Hw|reflexivity].
    - pose proof (wf_range c (kf (cknots c) 0) Hc) as Hr. pose proof (wf_klen c Hc) as Hl.
      assert (Hin : In (kf (cknots c) 0) (cknots c)) by (rewrite (kf_nth _ _ 0) by lia; apply nth_In; lia).
      destruct (add_knot_extends c (kf (cknots c) 0) w Hc Hw (Hr Hin)) as (c1 & E & X & W & P).
      assert (K1 : cknots c1 = kf (cknots c) 0 :: cknots c).
      { apply sorted_perm_eq; [apply (wf_sorted _ (ex_wf _ _ X))| |exact P]. apply sorted_cons_all; [apply (wf_sorted c Hc)|]. intros y Hy. now apply (wf_range c y Hc). }
      assert (K0 : kf (cknots c1) 0 = kf (cknots c) 0) by (rewrite K1; reflexivity).
      rewrite E. cbn [bind]. destruct (IH c1 (S s) (ex_wf _ _ X) W) as (c2 & E2 & X2 & W2 & K2). rewrite K0 in E2, K2. exists c2. split; [exact E2|].
      split; [eapply extends_trans; eauto|]. split; [exact W2|]. rewrite K2, K1. cbn [repeat]. change (kf (cknots c) 0 :: cknots c) with ([kf (cknots c) 0] ++ cknots c).
      rewrite app_assoc. change [kf (cknots c) 0] with (repeat (kf (cknots c) 0) 1). rewrite <- repeat_app, Nat.add_1_r. reflexivity.
  Qed.
  Lemma add_last c w m s : curve_wf c -> weights c w ->
    exists c', for_ m s (fun _ c0 => try_add_knot c0 (last (cknots c) 0)) c = Ok c' /\ extends c c' /\ weights c' w /\
      cknots c' = cknots c ++ repeat (last (cknots c) 0) m.
  Proof.
    revert c s. induction m as [|m IH]; intros c s Hc Hw; cbn [for_].
    - exists c. split; [reflexivity|]. split; [now apply extends_refl|]. split; [exact Hw|]. now rewrite app_nil_r.
    - pose proof (wf_range c (last (cknots c) 0) Hc) as Hr. pose proof (wf_klen c Hc) as Hl. assert (NE : cknots c <> []) by (intros Z; rewrite Z in Hl; cbn in Hl; lia).
      assert (Hin : In (last (cknots c) 0) (cknots c)) by (rewrite last_nth by auto; apply nth_In; lia).
      destruct (add_knot_extends c (last (cknots c) 0) w Hc Hw (Hr Hin)) as (c1 & E & X & W & P).
      assert (K1 : cknots c1 = cknots c ++ [last (cknots c) 0]).
      { apply sorted_perm_eq; [apply (wf_sorted _ (ex_wf _ _ X))| |].
        - apply sorted_snoc; [apply (wf_sorted c Hc)|]. intros y Hy. now apply (wf_range c y Hc).
        - rewrite P. apply Permutation_cons_append. }
      assert (K0 : last (cknots c1) 0 = last (cknots c) 0) by (rewrite K1; apply last_app_one).
      rewrite E. cbn [bind]. destruct (IH c1 (S s) (ex_wf _ _ X) W) as (c2 & E2 & X2 & W2 & K2). rewrite K0 in E2, K2. exists c2. split; [exact E2|].
      split; [eapply extends_trans; eauto|]. split; [exact W2|]. rewrite K2, K1. rewrite <- app_assoc. reflexivity.
  Qed.

  Lemma ss_last_lt (l : list R) z y : StronglySorted Rlt (l ++ [y]) -> In z l -> z < y.
  Proof.
    induction l as [|a l IH]; intros H Hz; [destruct Hz|]. cbn [app] in H. inversion H as [|? ? H1 H2]; subst. rewrite Forall_forall in H2.
    destruct Hz as [<-|Hz]; [apply H2, in_or_app; right; now left|now apply IH].
  Qed.

  (** clamping adds copies of the first and of the last knot, and keeps the points on the old domain *)
  Theorem try_clamp_extends c w : 0 < eps -> curve_ok c -> separated eps (cknots c) -> weights c w ->
    exists c' a b, try_clamp c = Ok c' /\
      cknots c' = repeat (kf (cknots c) 0) a ++ cknots c ++ repeat (last (cknots c) 0) b /\
      curve_ok c' /\ cdim c' = cdim c /\ cdeg c' = cdeg c /\ weights c' w /\
      (forall j, (j <= cdeg c)%nat -> kf (cknots c') j = kf (cknots c) 0) /\
      (forall j, (length (cpts c') <= j)%nat -> kf (cknots c') j = last (cknots c) 0) /\
      dom0 c' <= dom0 c /\ dom1 c <= dom1 c' /\
      forall u, dom0 c <= u < dom1 c -> point_at c' u = point_at c u.
  Proof.
    intros He Hc Hs Hw. pose proof (curve_len c Hc) as Hk. pose proof (co_len c Hc) as Hl. pose proof (clast_S c Hc) as Hn. pose proof (ko_sorted _ _ _ (co_knots c Hc)) as Hso.
    pose proof (ko_first _ _ _ (co_knots c Hc)) as Kf. pose proof (ko_last _ _ _ (co_knots c Hc)) as Kl.
    destruct (is_clamped_iff eps maxv (cknots c) (cdeg c) ltac:(lra) Hso Hs ltac:(lia)) as (b0 & Eb & _).
    unfold is_clamped in Eb. apply bind_ok in Eb. destruct Eb as (m & Em & _).
    destruct (multiplicity_exact eps maxv (cknots c) m ltac:(lra) Hso Hs Em) as (X & St & P).
    assert (NE : cknots c <> []) by (intros Z; rewrite Z in Hk; cbn in Hk; lia).
    destruct m as [|(x, n) m']; [cbn in X; congruence|]. set (m := (x, n) :: m') in *.
    assert (Ly : exists l y n', m = l ++ [(y, n')]).
    { destruct (exists_last (l := m) ltac:(discriminate)) as (l & (y, n') & E). eauto. }
    destruct Ly as (l & y & n' & Ly).
    assert (Ix : In (x, n) m) by (now left). assert (Iy : In (y, n') m) by (rewrite Ly; apply in_or_app; right; now left).
    assert (P1 : (1 <= n)%nat) by (rewrite Forall_forall in P; exact (P _ Ix)). assert (P2 : (1 <= n')%nat) by (rewrite Forall_forall in P; exact (P _ Iy)).
    assert (X1 : cknots c = repeat x n ++ expand m') by (rewrite <- X; unfold m; change ((x, n) :: m') with ([(x, n)] ++ m'); rewrite expand_app, expand_single; reflexivity).
    assert (X2 : cknots c = expand l ++ repeat y n') by (rewrite <- X, Ly, expand_app, expand_single; reflexivity).
    assert (Gt : forall z, In z (expand m') -> x < z).
    { intros z Hz. apply in_expand in Hz. unfold m in St. cbn [run_keys map fst] in St. inversion St as [|? ? _ F]; subst. rewrite Forall_forall in F. now apply F. }
    assert (Lt : forall z, In z (expand l) -> z < y).
    { intros z Hz. apply in_expand in Hz. rewrite Ly in St. unfold run_keys in St, Hz. rewrite map_app in St. cbn [map fst] in St. eapply ss_last_lt; eauto. }
    assert (Ex : kf (cknots c) 0 = x). { rewrite (kf_nth _ _ 0) by lia. rewrite X1. destruct n; [lia|]. reflexivity. }
    assert (Ey : last (cknots c) 0 = y). { rewrite last_nth by exact NE. rewrite X2 at 2. rewrite app_nth2; rewrite X2, app_length, repeat_length; [|lia]. apply nth_repeat_lt. lia. }
    assert (L1 : length (cknots c) = (n + length (expand m'))%nat) by (rewrite X1, app_length, repeat_length; reflexivity).
    assert (L2 : length (cknots c) = (length (expand l) + n')%nat) by (rewrite X2, app_length, repeat_length; reflexivity).
    assert (Bn : (n <= S (cdeg c))%nat).
    { destruct (Nat.le_gt_cases n (S (cdeg c))) as [?|C]; [auto|]. exfalso. rewrite !(kf_nth _ _ 0) in Kf by lia. rewrite X1 in Kf. rewrite !app_nth1 in Kf by (rewrite repeat_length; lia). rewrite !nth_repeat_lt in Kf by lia. lra. }
    assert (Bn' : (n' <= S (cdeg c))%nat).
    { destruct (Nat.le_gt_cases n' (S (cdeg c))) as [?|C]; [auto|]. exfalso. rewrite !(kf_nth _ _ 0) in Kl by lia. rewrite X2 in Kl. rewrite !app_nth2 in Kl by lia. rewrite !nth_repeat_lt in Kl by lia. lra. }
    assert (Hxy : x < y).
    { pose proof (curve_mono c Hc) as Hm. pose proof (mono_le _ 0 (cdeg c) Hm ltac:(lia)). pose proof (mono_le _ (cdeg c + 1) (length (cknots c)) Hm ltac:(lia)) as Q.
      rewrite (kf_ge _ (length (cknots c))), Ey in Q by lia. lra. }
    set (a := (S (cdeg c) - n)%nat). set (b := (S (cdeg c) - n')%nat).
    destruct (add_first c w a n (ok_wf c Hc) Hw) as (c1 & E1 & Y1 & W1 & K1). rewrite Ex in E1, K1.
    assert (Ey1 : last (cknots c1) 0 = y).
    { rewrite K1. rewrite <- Ey. clear -NE. induction (repeat x a) as [|z r IH]; [reflexivity|]. cbn [app last]. destruct (r ++ cknots c) eqn:E; [destruct r; [contradiction|discriminate]|exact IH]. }
    destruct (add_last c1 w b n' (ex_wf _ _ Y1) W1) as (c2 & E2 & Y2 & W2 & K2). rewrite Ey1 in E2, K2. pose proof (extends_trans _ _ _ Y1 Y2) as Y.
    rewrite Ex, Ey. exists c2, a, b.
    assert (Kall : cknots c2 = repeat x a ++ cknots c ++ repeat y b) by (rewrite K2, K1, <- app_assoc; reflexivity).
    assert (KA : cknots c2 = repeat x (S (cdeg c)) ++ expand m' ++ repeat y b).
    { rewrite Kall, X1. rewrite <- !app_assoc. rewrite app_assoc, <- repeat_app. do 2 f_equal. unfold a. lia. }
    assert (KB : cknots c2 = (repeat x a ++ expand l) ++ repeat y (S (cdeg c))).
    { rewrite Kall, X2. rewrite <- !app_assoc. rewrite <- repeat_app. do 3 f_equal. unfold b. lia. }
    pose proof (ex_wf _ _ Y) as Wf. pose proof (wf_klen c2 Wf) as Lk2. pose proof (ex_deg _ _ Y) as Ed. pose proof (wf_len c2 Wf) as Lp2. pose proof (wf_clast c2 Wf) as Hn2. rewrite Ed in Lk2, Lp2.
    assert (LB : length (repeat x a ++ expand l) = length (cpts c2)).
    { apply (f_equal (@length R)) in KB. rewrite app_length, (repeat_length y) in KB. lia. }
    assert (C0 : forall j, (j <= cdeg c)%nat -> kf (cknots c2) j = x).
    { intros j Hj. rewrite (kf_nth _ _ 0) by lia. rewrite KA, app_nth1 by (rewrite repeat_length; lia). apply nth_repeat_lt. lia. }
    assert (C1 : forall j, (length (cpts c2) <= j)%nat -> kf (cknots c2) j = y).
    { intros j Hj. destruct (Nat.lt_ge_cases j (length (cknots c2))) as [C|C].
      - rewrite (kf_nth _ _ 0) by lia. rewrite KB, app_nth2 by lia. apply nth_repeat_lt. lia.
      - rewrite kf_ge by lia. rewrite last_nth by (intros Z; rewrite Z in Lk2; cbn in Lk2; lia). rewrite KB at 2. rewrite app_nth2 by lia. apply nth_repeat_lt. lia. }
    assert (N0 : In (kf (cknots c2) (S (cdeg c))) (cknots c) /\ x < kf (cknots c2) (S (cdeg c))).
    { assert (Q : In (kf (cknots c2) (S (cdeg c))) (expand m' ++ repeat y b)).
      { rewrite (kf_nth _ _ 0) by lia. rewrite KA, app_nth2 by (rewrite repeat_length; lia). rewrite repeat_length, Nat.sub_diag. apply nth_In.
        apply (f_equal (@length R)) in KA. rewrite app_length, repeat_length in KA. lia. }
      apply in_app_or in Q. destruct Q as [Q|Q].
      - split; [rewrite X1; apply in_or_app; now right|now apply Gt].
      - apply repeat_spec in Q. rewrite Q. split; [|exact Hxy]. rewrite X2. apply in_or_app. right. destruct n'; [lia|now left]. }
    assert (N1 : In (kf (cknots c2) (clast c2)) (cknots c) /\ kf (cknots c2) (clast c2) < y).
    { assert (Q : In (kf (cknots c2) (clast c2)) (repeat x a ++ expand l)).
      { rewrite (kf_nth _ _ 0) by lia. rewrite KB, app_nth1 by lia. apply nth_In. lia. }
      apply in_app_or in Q. destruct Q as [Q|Q].
      - apply repeat_spec in Q. rewrite Q. split; [|exact Hxy]. rewrite X1. apply in_or_app. left. destruct n; [lia|now left].
      - split; [rewrite X2; apply in_or_app; now left|now apply Lt]. }
    assert (Ok2 : curve_ok c2).
    { apply wf_ok; auto; [rewrite Ed, C0 by lia; apply N0|]. rewrite Hn2, (C1 (length (cpts c2))) by lia. apply N1. }
    assert (Ixk : In x (cknots c)) by (rewrite X1; apply in_or_app; left; destruct n; [lia|now left]).
    assert (Iyk : In y (cknots c)) by (rewrite X2; apply in_or_app; right; destruct n'; [lia|now left]).
    assert (Ee2 : curve_eps eps c2).
    { unfold curve_eps, eps_ok. rewrite !Nat.add_1_r, Ed, Hn2, (C0 (cdeg c)), (C1 (length (cpts c2))) by lia. split; [lra|]. destruct N0 as (N0a & N0b), N1 as (N1a & N1b). split.
      - destruct (Hs _ _ N0a Ixk) as [Z|Z]; [lra|]. rewrite Rabs_pos_eq in Z by lra. lra.
      - destruct (Hs _ _ Iyk N1a) as [Z|Z]; [lra|]. rewrite Rabs_pos_eq in Z by lra. lra. }
    assert (Ee : curve_eps eps c).
    { unfold curve_eps, eps_ok. pose proof (fun i (H : (i < length (cknots c))%nat) => eq_ind_r (fun z => In z (cknots c)) (nth_In (cknots c) 0 H) (kf_nth (cknots c) i 0 H)) as Q. split; [lra|]. split.
      - destruct (Hs _ _ (Q (cdeg c + 1)%nat ltac:(lia)) (Q (cdeg c) ltac:(lia))) as [Z|Z]; [lra|]. rewrite Rabs_pos_eq in Z by lra. lra.
      - destruct (Hs _ _ (Q (clast c + 1)%nat ltac:(lia)) (Q (clast c) ltac:(lia))) as [Z|Z]; [lra|]. rewrite Rabs_pos_eq in Z by lra. lra. }
    split; [|split; [exact Kall|]].
    - unfold try_clamp. assert (F1 : kfirst (cknots c) = Ok x) by (unfold kfirst; rewrite (get_kf (cknots c) 0) by lia; now rewrite Ex).
      assert (F2 : klast (cknots c) = Ok y) by (unfold klast; rewrite usub_ok by lia; cbn [bind]; rewrite (get_ok _ _ 0) by lia; now rewrite <- last_nth, Ey by auto).
      rewrite F1, F2. cbn [bind]. rewrite Em. cbn [bind]. unfold knot_count. rewrite (find_first eps maxv m x n St Ix), (find_first eps maxv m y n' St Iy). cbn [option_map ok_or bind snd].
      unfold for_incl. fold a. fold b. rewrite E1. cbn [bind]. rewrite (ex_deg _ _ Y1). fold b. exact E2.
    - split; [exact Ok2|]. split; [apply (ex_dim _ _ Y)|]. split; [exact Ed|]. split; [exact W2|]. split; [exact C0|]. split; [exact C1|]. split; [apply Y|]. split; [apply Y|].
      intros u Hu. pose proof (ex_dom0 _ _ Y). pose proof (ex_dom1 _ _ Y). apply (point_at_transfer eps maxv); auto; try lra; [apply (ex_dim _ _ Y)|]. intros i. now apply (ex_pts _ _ Y).
  Qed.
End Real.
