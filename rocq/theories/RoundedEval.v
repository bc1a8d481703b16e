(** * Rounding errors of evaluation (C81) *)
From Coq Require Import Reals Lra Lia ZArith Bool List Sorted.
From Verif Require Import Base BaseFacts Scalar RSum BSplineSpec BSpline KnotModel KnotSpec KnotFacts KnotProofs
  VecFacts MiscModel CurveModel CurveSpec CurveProofs CurveGeom Rounding.
Import ListNotations.
Open Scope R_scope.

Ltac fs := cbn [szero sone sadd ssub smul sdiv sopp sabs ssqrt sltb sleb seqb seps smax_value sofz FlOps] in *.

Section Rounded.
  Variables (mu : R) (rnd : R -> R) (eps maxv : R).
  Hypothesis Hr : rounding mu rnd.
  Local Hint Extern 0 (Scalar R) => exact (FlOps rnd eps maxv) : typeclass_instances.
  Notation ap := (ap mu).
  Notation near := (near mu).

  (** the knots are machine numbers *)
  Definition machine (k : list R) : Prop := forall i, rnd (kf k i) = kf k i.

  (** ** The span search *)
  Theorem find_span_rounded k p n u :
    knots_ok p n k -> eps_ok eps p n k -> machine k -> kf k p <= u <= kf k (n + 1) ->
    exists s, find_span k n p u = Ok s /\ (p <= s <= n)%nat /\ in_span k n s u.
  Proof.
    intros [Hl Hpn Hso Hf Hla] (He & He1 & He2) Hk Hu. unfold find_span.
    rewrite get_kf by lia. cbn [bind]. fs.
    destruct (Rltb_spec (rnd (kf k (n + 1) - eps)) u) as [H1|H1].
    { exists n. split; [reflexivity|]. split; [lia|]. rewrite Nat.add_1_r in *. split; [exact Hla|].
      split.
      - rewrite <- (Hk n). apply Rle_trans with (rnd (kf k (S n) - eps)); [|lra]. apply (rd_mono _ _ Hr). lra.
      - destruct (Rle_lt_or_eq_dec u (kf k (S n))) as [G|G]; [lra|left; exact G|right; auto]. }
    rewrite get_kf by lia. cbn [bind].
    destruct (Rltb_spec u (rnd (kf k p + eps))) as [H2|H2].
    { exists p. split; [reflexivity|]. split; [lia|]. rewrite (Nat.add_1_r p) in *. split; [exact Hf|].
      split; [lra|]. left. rewrite <- (Hk (S p)). apply Rlt_le_trans with (rnd (kf k p + eps)); [exact H2|].
      apply (rd_mono _ _ Hr). lra. }
    destruct (loop_rule
                (fun st => let '(low, high, mid) := st in
                   span_inv p n st /\ (low < high)%nat /\ kf k low <= u /\ (u < kf k high \/ high = (n + 1)%nat))
                (fun s => (p <= s <= n)%nat /\ in_span k n s u)
                (fun st => let '(low, high, mid) := st in (high - low)%nat)
                (n + 3) (@span_step R (FlOps rnd eps maxv) k u)
                (p, (n + 1)%nat, ((p + (n + 1)) / 2)%nat)) as (s & Es & Hs).
    - split; [|split; [lia|split; [lra|right; reflexivity]]]. unfold span_inv. pose proof (half_bounds p (n + 1) ltac:(lia)).
      pose proof (half_lt p (n + 1) ltac:(lia)). repeat split; lia.
    - lia.
    - intros [[low high] mid] [(I1 & I2 & I3 & I4) (Hlh & K1 & K2)].
      pose proof (half_bounds low high ltac:(lia)) as Hb.
      pose proof (half_lt low high Hlh).
      unfold span_step. rewrite get_kf by lia. cbn [bind]. fs.
      destruct (Rltb_spec u (kf k mid)) as [C|C].
      + cbn [bind]. assert (low <> mid) by (intros Eq; rewrite Eq in *; lra).
        pose proof (half_lt low mid ltac:(lia)). pose proof (half_bounds low mid ltac:(lia)).
        destruct (Nat.eqb_spec mid ((low + mid) / 2)) as [Ee|Ee]; [lia|].
        eexists; split; [reflexivity|]. unfold span_inv. repeat split; try lia; try lra; left; exact C.
      + rewrite get_kf by lia. cbn [bind].
        destruct (Rleb_spec (kf k (mid + 1)) u) as [C1|C1].
        * destruct (Nat.eqb_spec mid ((mid + high) / 2)) as [Ee|Ee].
          -- assert (high = (mid + 1)%nat).
             { destruct (Nat.lt_ge_cases (mid + 1) high) as [Hmh|Hmh]; [|lia].
               assert (mid + 1 <= (mid + high) / 2)%nat by (apply Nat.div_le_lower_bound; lia). lia. }
             destruct K2 as [K2|K2]; [subst high; lra|].
             assert (mid = n) as -> by lia.
             exists (inr n). split; [reflexivity|]. split; [lia|]. rewrite Nat.add_1_r in *.
             split; [exact Hla|]. split; [lra|]. right. split; [reflexivity|]. lra.
          -- assert (mid <> high) by lia.
             assert (Hmh : (mid + 1 < high)%nat).
             { destruct (Nat.eq_dec (mid + 1) high) as [<-|]; [|lia]. exfalso. apply Ee.
               symmetry. apply Nat.le_antisymm; [|apply half_bounds; lia].
               pose proof (half_lt mid (mid + 1) ltac:(lia)). lia. }
             assert (Hge : (mid + 1 <= (mid + high) / 2)%nat) by (apply Nat.div_le_lower_bound; lia).
             pose proof (half_lt mid high ltac:(lia)).
             assert (low <> mid).
             { intros Eq. rewrite Eq in *. lia. }
             eexists; split; [reflexivity|]. unfold span_inv. repeat split; try lia; try lra; exact K2.
        * exists (inr mid). split; [reflexivity|]. rewrite Nat.add_1_r in C1.
          split; [lia|]. split; [lra|]. split; [lra|]. left; lra.
    - exists s. auto.
  Qed.

  (** ** Basis functions: relative error of 6 p operations *)
  Theorem basis_functions_rounded k s p u :
    mono (kf k) -> kf k s < kf k (S s) -> kf k s <= u <= kf k (S s) -> (p <= s)%nat -> (s + p < length k)%nat ->
    exists b, basis_functions k s u p = Ok b /\ length b = S p /\
      forall r, (r <= p)%nat -> ap (6 * p) (nth r b 0) (bs (kf k) s p (s - p + r) u).
  Proof.
    intros Hm Hs Hu Hp Hl. unfold basis_functions. fs.
    assert (NN : forall j i, 0 <= bs (kf k) s j i u) by (intros j i; now apply bs_nonneg).
    assert (KL : forall m, (1 <= m)%nat -> 0 <= u - kf k (s + 1 - m)).
    { intros m Hm1. pose proof (mono_le (kf k) (s + 1 - m) s Hm ltac:(lia)). lra. }
    assert (KR : forall m, (1 <= m)%nat -> 0 <= kf k (s + m) - u).
    { intros m Hm1. pose proof (mono_le (kf k) (S s) (s + m) Hm ltac:(lia)). lra. }
    set (z := repeat 0 (p + 1)).
    assert (Hz : length z = S p) by (unfold z; rewrite repeat_length; lia).
    rewrite set_ok by lia. cbn [bind].
    set (I := fun j (st : list R * list R * list R) =>
       let '(b, lft, rgt) := st in
       length b = S p /\ length lft = S p /\ length rgt = S p /\
       (forall r, (r < j)%nat -> ap (6 * (j - 1)) (nth r b 0) (bs (kf k) s (j - 1) (s - (j - 1) + r) u)) /\
       (forall m, (1 <= m < j)%nat -> nth m lft 0 = rnd (u - kf k (s + 1 - m))) /\
       (forall m, (1 <= m < j)%nat -> nth m rgt 0 = rnd (kf k (s + m) - u))).
    destruct (for_incl_rule I 1 p (@basis_outer R (FlOps rnd eps maxv) k s u)
                (upd z 0 1, z, z)) as ([[b lft] rgt] & E & HI).
    - lia.
    - cbn [I]. rewrite !upd_length. split; [exact Hz|]. split; [exact Hz|]. split; [exact Hz|].
      split; [|split; intros; lia].
      intros r H. replace r with 0%nat by lia. rewrite nth_upd_same by lia.
      replace (s - (1 - 1) + 0)%nat with s by lia. cbn [Nat.sub Nat.mul bs]. rewrite Nat.eqb_refl.
      apply ap_exact. lra.
    - intros j [[b lft] rgt] Hj (L1 & L2 & L3 & Hb & Hlf & Hrg).
      unfold basis_outer. rewrite usub_ok by lia. cbn [bind].
      rewrite get_kf by lia. cbn [bind]. rewrite set_ok by lia. cbn [bind].
      rewrite get_kf by lia. cbn [bind]. rewrite set_ok by lia. cbn [bind]. fs.
      set (lft' := upd lft j (rnd (u - kf k (s + 1 - j)))).
      set (rgt' := upd rgt j (rnd (kf k (s + j) - u))).
      assert (Hlf' : forall m, (1 <= m <= j)%nat -> nth m lft' 0 = rnd (u - kf k (s + 1 - m))).
      { intros m Hm1. unfold lft'. destruct (Nat.eq_dec m j) as [->|].
        - rewrite nth_upd_same by lia. reflexivity.
        - rewrite nth_upd_other by lia. apply Hlf. lia. }
      assert (Hrg' : forall m, (1 <= m <= j)%nat -> nth m rgt' 0 = rnd (kf k (s + m) - u)).
      { intros m Hm1. unfold rgt'. destruct (Nat.eq_dec m j) as [->|].
        - rewrite nth_upd_same by lia. reflexivity.
        - rewrite nth_upd_other by lia. apply Hrg. lia. }
      assert (Ll : length lft' = S p) by (unfold lft'; rewrite upd_length; lia).
      assert (Lr : length rgt' = S p) by (unfold rgt'; rewrite upd_length; lia).
      set (e := (6 * (j - 1))%nat) in *.
      set (J := fun r (st : list R * R) =>
         let '(b', saved) := st in
         length b' = S p /\
         (forall m, (m < r)%nat -> ap (e + 6) (nth m b' 0) (bs (kf k) s j (s - j + m) u)) /\
         (forall m, (r <= m < j)%nat -> ap e (nth m b' 0) (bs (kf k) s (j - 1) (s - (j - 1) + m) u)) /\
         ap (e + 5) saved (wl (kf k) j (s - j + r) u * bs (kf k) s (j - 1) (s - j + r) u)).
      destruct (for_range_rule J 0 j (@basis_inner R (FlOps rnd eps maxv) lft' rgt' j) (b, 0))
        as ([b' saved] & E' & (J1 & J2 & J3 & J4)).
      + lia.
      + cbn [J]. split; [exact L1|]. split; [intros; lia|]. split.
        * intros m Hm1. apply Hb. lia.
        * rewrite (bs_support _ s (j - 1)) by lia. rewrite Rmult_0_r.
          apply (ap_weak mu rnd Hr 0); [lia|]. apply ap_exact. lra.
      + intros r [b1 saved] Hrr (G1 & G2 & G3 & G4).
        unfold basis_inner. rewrite (get_ok b1 r 0) by lia. cbn [bind].
        rewrite (get_ok rgt' (r + 1) 0) by lia. cbn [bind].
        rewrite usub_ok by lia. cbn [bind].
        rewrite (get_ok lft' (j - r) 0) by lia. cbn [bind].
        rewrite set_ok by lia. cbn [bind]. fs.
        rewrite Hrg', Hlf' by lia. pose proof (G3 r ltac:(lia)) as Gr.
        pose proof (KR (r + 1)%nat ltac:(lia)) as PR. pose proof (KL (j - r)%nat ltac:(lia)) as PL.
        replace (s - (j - 1) + r)%nat with (s - j + r + 1)%nat in Gr by lia.
        replace (s + (r + 1))%nat with (s - j + r + j + 1)%nat in * by lia.
        replace (s + 1 - (j - r))%nat with (s - j + r + 1)%nat in * by lia.
        set (i := (s - j + r)%nat) in *.
        assert (D : 0 < kf k (i + j + 1) - kf k (i + 1))
          by (apply (den_pos (kf k) s Hm Hs); unfold i; lia).
        set (br := nth r b1 0) in *.
        pose proof (ap_rnd mu rnd Hr _ PR) as AR. pose proof (ap_rnd mu rnd Hr _ PL) as AL.
        assert (AD : ap 2 (rnd (rnd (kf k (i + j + 1) - u) + rnd (u - kf k (i + 1)))) (kf k (i + j + 1) - kf k (i + 1))).
        { replace (kf k (i + j + 1) - kf k (i + 1)) with ((kf k (i + j + 1) - u) + (u - kf k (i + 1))) by ring.
          apply ap_step; [exact Hr|]. now apply ap_add. }
        assert (AT : ap (e + 3) (rnd (br / rnd (rnd (kf k (i + j + 1) - u) + rnd (u - kf k (i + 1)))))
                       (bs (kf k) s (j - 1) (i + 1) u / (kf k (i + j + 1) - kf k (i + 1)))).
        { replace (e + 3)%nat with (S (e + 2)) by lia. apply ap_step; [exact Hr|]. now apply (ap_div mu rnd Hr e 2). }
        set (temp := rnd (br / _)) in *.
        assert (AW : ap (e + 5) (rnd (rnd (kf k (i + j + 1) - u) * temp)) (wr (kf k) j i u * bs (kf k) s (j - 1) (i + 1) u)).
        { replace (wr (kf k) j i u * bs (kf k) s (j - 1) (i + 1) u)
            with ((kf k (i + j + 1) - u) * (bs (kf k) s (j - 1) (i + 1) u / (kf k (i + j + 1) - kf k (i + 1)))).
          - replace (e + 5)%nat with (S (1 + (e + 3))) by lia. apply ap_step; [exact Hr|]. now apply (ap_mul mu rnd Hr).
          - unfold wr. rewrite quot0_nz by lra. field. lra. }
        assert (AV : ap (e + 5) (rnd (rnd (u - kf k (i + 1)) * temp)) (wl (kf k) j (i + 1) u * bs (kf k) s (j - 1) (i + 1) u)).
        { replace (wl (kf k) j (i + 1) u * bs (kf k) s (j - 1) (i + 1) u)
            with ((u - kf k (i + 1)) * (bs (kf k) s (j - 1) (i + 1) u / (kf k (i + j + 1) - kf k (i + 1)))).
          - replace (e + 5)%nat with (S (1 + (e + 3))) by lia. apply ap_step; [exact Hr|]. now apply (ap_mul mu rnd Hr).
          - unfold wl. replace (i + 1 + j)%nat with (i + j + 1)%nat by lia. rewrite quot0_nz by lra. field. lra. }
        eexists. split; [reflexivity|]. cbn [J].
        rewrite upd_length. split; [exact G1|]. split; [|split].
        * intros m Hm1. destruct (Nat.eq_dec m r) as [->|Hne].
          -- rewrite nth_upd_same by lia. fold i. rewrite (bs_step _ _ j) by lia.
             replace (e + 6)%nat with (S (e + 5)) by lia. apply ap_step; [exact Hr|]. now apply ap_add.
          -- rewrite nth_upd_other by lia. apply G2. lia.
        * intros m Hm1. rewrite nth_upd_other by lia. apply G3. lia.
        * replace (s - j + S r)%nat with (i + 1)%nat by (unfold i; lia). exact AV.
      + match goal with |- context [for_range 0 j ?f ?a] =>
          change (for_range 0 j f a) with
            (for_range 0 j (@basis_inner R (FlOps rnd eps maxv) lft' rgt' j) (b, 0)) end.
        rewrite E'. cbn [bind]. rewrite set_ok by lia. cbn [bind].
        eexists. split; [reflexivity|]. cbn [I].
        rewrite upd_length. repeat (split; [solve [auto]|]). split; [|split].
        * intros r Hrj. replace (S j - 1)%nat with j by lia. replace (6 * j)%nat with (e + 6)%nat by (unfold e; lia).
          destruct (Nat.eq_dec r j) as [->|Hne].
          -- rewrite nth_upd_same by lia. apply (ap_weak mu rnd Hr (e + 5)); [lia|].
             replace (s - j + j)%nat with s in * by lia. rewrite (bs_step _ _ j) by lia.
             rewrite (bs_support _ s (j - 1) (s + 1)) by lia. rewrite Rmult_0_r, Rplus_0_r. exact J4.
          -- rewrite nth_upd_other by lia. apply J2. lia.
        * intros m Hm1. apply Hlf'. lia.
        * intros m Hm1. apply Hrg'. lia.
    - match goal with |- context [for_incl 1 p ?f ?a] =>
        change (for_incl 1 p f a) with
          (for_incl 1 p (@basis_outer R (FlOps rnd eps maxv) k s u) (upd z 0 1, z, z)) end.
      rewrite E. cbn [bind]. destruct HI as (L1 & L2 & L3 & Hb & _).
      exists b. split; [reflexivity|]. split; [exact L1|].
      intros r Hrp. replace (6 * p)%nat with (6 * (S p - 1))%nat by lia.
      replace (bs (kf k) s p (s - p + r) u) with (bs (kf k) s (S p - 1) (s - (S p - 1) + r) u) by (f_equal; lia).
      apply Hb. lia.
  Qed.

  (** ** The homogeneous point *)
  Lemma rcf_vadd i a b : length a = length b -> rc i (vadd a b) = rnd (rc i a + rc i b).
  Proof.
    intros H. unfold rc, vadd. destruct (Nat.lt_ge_cases i (length a)) as [L|L].
    - rewrite (nth_map2 _ a b i 0 0 0) by lia. reflexivity.
    - rewrite !nth_overflow by (rewrite ?map2_length; lia). rewrite Rplus_0_r. symmetry. exact (fl_zero _ _ Hr).
  Qed.
  Lemma rcf_vscale i a x : rc i (vscale a x) = rnd (rc i a * x).
  Proof.
    unfold rc, vscale. destruct (Nat.lt_ge_cases i (length a)) as [L|L].
    - now rewrite (nth_map_lt _ a i 0 0).
    - rewrite !nth_overflow by (rewrite ?map_length; lia). rewrite Rmult_0_l. symmetry. exact (fl_zero _ _ Hr).
  Qed.
  Lemma rcf_vdivs i a x : (i < length a)%nat -> rc i (vdivs a x) = rnd (rc i a / x).
  Proof. intros L. unfold rc, vdivs. now rewrite (nth_map_lt _ a i 0 0). Qed.

  (** sum of the absolute contributions of the control points to coordinate [i] at [u] *)
  Definition habs (c : Curve R) (i : nat) (u : R) : R :=
    rsum (length (cpts c)) (fun j => cox_closed (kf (cknots c)) (dom1 c) (cdeg c) j u * Rabs (cpc c i j)).

  Theorem point_rounded c u :
    curve_ok c -> curve_eps eps c -> machine (cknots c) -> pos_weights c -> dom0 c <= u <= dom1 c ->
    exists p, point c u = Ok p /\ length p = cdim c /\
      (forall i, near (7 * cdeg c + 2) (rc i p) (hcoord c i u) (habs c i u)) /\
      ap (7 * cdeg c + 2) (rc (cdim c - 1) p) (wfun c u).
  Proof.
    intros Hc He Hk Hw Hu. pose proof (curve_mono c Hc) as Hm. pose proof (curve_len c Hc) as Hl.
    pose proof (clast_S c Hc) as Hn. pose proof (co_dim c Hc) as Hd.
    destruct (find_span_rounded (cknots c) (cdeg c) (clast c) u (co_knots c Hc) He Hk) as (s & Es & Hs & Hin).
    { unfold dom0, dom1 in Hu. rewrite Nat.add_1_r, Hn. exact Hu. }
    pose proof (in_span_le _ _ _ _ Hin) as Hle.
    assert (Hne : kf (cknots c) s < kf (cknots c) (S s)) by (destruct Hin; assumption).
    destruct (basis_functions_rounded (cknots c) s (cdeg c) u Hm Hne Hle ltac:(lia) ltac:(lia)) as (b & Eb & Lb & Hb).
    unfold point. rewrite last_index_ok by auto. cbn [bind]. rewrite Es. cbn [bind]. rewrite Eb. cbn [bind].
    match goal with |- context [for_incl 0 (cdeg c) ?g _] => set (f := g) end.
    set (p := cdeg c) in *.
    set (N := fun r => bs (kf (cknots c)) s p (s - p + r) u) in *.
    destruct (for_incl_rule
      (fun r pos => length pos = cdim c /\
         (forall i, near (6 * p + 1 + r) (rc i pos) (rsum r (fun r => N r * cpc c i (s - p + r)))
                      (rsum r (fun r => N r * Rabs (cpc c i (s - p + r))))) /\
         ap (6 * p + 1 + r) (rc (cdim c - 1) pos) (rsum r (fun r => N r * cpc c (cdim c - 1) (s - p + r))))
      0 p f (vzero (cdim c))) as (q & Eq & Lq & Hq & Hqw).
    - lia.
    - split; [apply vzero_length|]. assert (Z : forall i, rc i (vzero (cdim c)) = 0) by (intros i; apply (rc_vzero eps maxv)).
      split.
      + intros i. rewrite Z. cbn [rsum]. apply (near_weak mu rnd Hr 0); [lia|]. apply near_0.
      + rewrite Z. cbn [rsum]. apply (ap_weak mu rnd Hr 0); [lia|]. apply ap_exact. lra.
    - intros r pos Hrp (L & Hpos & Hpw). unfold f. rewrite usub_ok by lia. cbn [bind].
      rewrite (get_ok (cpts c) _ []) by lia. cbn [bind].
      rewrite (get_ok b r 0) by lia. cbn [bind].
      assert (Lp : length (nth (s - p + r) (cpts c) []) = cdim c) by (apply cpts_len; [exact Hc|lia]).
      eexists. split; [reflexivity|]. split; [apply vadd_length; [exact L|]; now apply vscale_length|].
      pose proof (Hb r ltac:(lia)) as Br. fold (N r) in Br.
      replace (6 * p + 1 + S r)%nat with (S (6 * p + 1 + r)) by lia.
      split.
      + intros i. rewrite rcf_vadd by (rewrite (vscale_length _ _ _ Lp); lia). rewrite rcf_vscale. cbn [rsum].
        apply near_step; [exact Hr|]. apply near_add; [apply Hpos|].
        apply (near_weak mu rnd Hr (S (6 * p))); [lia|]. apply near_step; [exact Hr|].
        fold (cpc c i (s - p + r)). rewrite (Rmult_comm (N r) (cpc c i _)), (Rmult_comm (N r) (Rabs _)).
        apply (near_scale mu rnd Hr 0 (6 * p)); [apply near_exact|exact Br].
      + rewrite rcf_vadd by (rewrite (vscale_length _ _ _ Lp); lia). rewrite rcf_vscale. cbn [rsum].
        apply ap_step; [exact Hr|]. apply ap_add; [exact Hpw|].
        apply (ap_weak mu rnd Hr (S (6 * p))); [lia|]. apply ap_step; [exact Hr|].
        fold (cpc c (cdim c - 1) (s - p + r)). rewrite (Rmult_comm (N r) (cpc c _ _)).
        apply (ap_mul mu rnd Hr 0 (6 * p)); [|exact Br]. apply ap_exact. apply Rlt_le, Hw. lia.
    - exists q. split; [exact Eq|]. split; [exact Lq|].
      assert (W : forall g, rsum (S p) (fun r => N r * g (s - p + r)%nat) =
                            rsum (length (cpts c)) (fun j => cox_closed (kf (cknots c)) (dom1 c) p j u * g j)).
      { intros g. transitivity (piece (kf (cknots c)) p (length (cpts c)) g s u); [symmetry; apply piece_window; lia|]. unfold piece.
        destruct Hin as (G1 & G2 & G3). apply rsum_ext. intros j Hj. f_equal. symmetry.
        apply (cox_closed_bs _ _ (clast c)); auto; [|lia]. unfold dom1. now rewrite Hn. }
      replace (6 * p + 1 + S p)%nat with (7 * p + 2)%nat in * by lia. split.
      + intros i. specialize (Hq i). rewrite (W (cpc c i)) in Hq. rewrite (W (fun j => Rabs (cpc c i j))) in Hq. exact Hq.
      + rewrite (W (cpc c (cdim c - 1))) in Hqw. exact Hqw.
  Qed.

  (** ** The point on the curve *)
  Theorem point_at_rounded c u :
    curve_ok c -> curve_eps eps c -> machine (cknots c) -> pos_weights c -> dom0 c <= u <= dom1 c ->
    exists p, point_at c u = Ok p /\ length p = (cdim c - 1)%nat /\
      forall i M, (i < cdim c - 1)%nat ->
        (forall j, (j < length (cpts c))%nat -> Rabs (cpc c i j / cpc c (cdim c - 1) j) <= M) ->
        Rabs (rc i p - nurbs c i u) <= gam mu (14 * cdeg c + 5) * M.
  Proof.
    intros Hc He Hk Hw Hu. destruct (point_rounded c u Hc He Hk Hw Hu) as (p & Ep & Lp & Hp & Hpw).
    pose proof (wfun_pos eps maxv c u Hc He Hw Hu) as W.
    pose proof (ap_pos mu rnd Hr _ _ _ Hpw W) as W'.
    unfold point_at. rewrite Ep. cbn [bind]. unfold dehomogenize.
    change (coord (cdim c - 1) p) with (rc (cdim c - 1) p). fs.
    destruct (Reqb_spec (rc (cdim c - 1) p) 0) as [Z|_]; [lra|].
    cbn [unwrap]. eexists. split; [reflexivity|].
    assert (LF : length (firstn (cdim c - 1) p) = (cdim c - 1)%nat) by (rewrite firstn_length; lia).
    split; [now apply vdivs_length|].
    intros i M Hi HM. rewrite rcf_vdivs by lia. rewrite rc_firstn by lia.
    assert (HN : near (14 * cdeg c + 5) (rnd (rc i p / rc (cdim c - 1) p)) (nurbs c i u) M); [|exact (proj2 HN)].
    apply (near_bound mu rnd Hr _ _ _ (habs c i u / wfun c u)).
    - apply Rmult_le_reg_r with (wfun c u); [exact W|]. unfold Rdiv. rewrite Rmult_assoc, Rinv_l, Rmult_1_r by lra.
      unfold wfun, hcoord, habs. rewrite <- rsum_scal. apply rsum_le. intros j Hj.
      pose proof (Hw j Hj) as Wj. specialize (HM j Hj).
      assert (NN : 0 <= cox_closed (kf (cknots c)) (dom1 c) (cdeg c) j u) by now apply cox_nonneg.
      assert (B : Rabs (cpc c i j) <= M * cpc c (cdim c - 1) j).
      { unfold Rdiv in HM. rewrite Rabs_mult, Rabs_inv, (Rabs_right (cpc c (cdim c - 1) j)) in HM by lra.
        apply Rmult_le_compat_r with (r := cpc c (cdim c - 1) j) in HM; [|lra].
        rewrite Rmult_assoc, Rinv_l, Rmult_1_r in HM by lra. exact HM. }
      apply Rle_trans with (cox_closed (kf (cknots c)) (dom1 c) (cdeg c) j u * (M * cpc c (cdim c - 1) j)); [|lra].
      now apply Rmult_le_compat_l.
    - replace (14 * cdeg c + 5)%nat with (S ((7 * cdeg c + 2) + (7 * cdeg c + 2))) by lia.
      apply near_step; [exact Hr|]. apply (near_div mu rnd Hr); [exact W|apply Hp|exact Hpw].
  Qed.

  (** the computed point leaves the box of the control points by no more than the error bound *)
  Theorem box_rounded c u :
    curve_ok c -> curve_eps eps c -> machine (cknots c) -> pos_weights c -> dom0 c <= u <= dom1 c ->
    exists p, point_at c u = Ok p /\
      forall i lo hi, (i < cdim c - 1)%nat ->
        (forall j, (j < length (cpts c))%nat -> lo <= cpc c i j / cpc c (cdim c - 1) j <= hi) ->
        lo - gam mu (14 * cdeg c + 5) * Rmax (Rabs lo) (Rabs hi) <= rc i p <=
        hi + gam mu (14 * cdeg c + 5) * Rmax (Rabs lo) (Rabs hi).
  Proof.
    intros Hc He Hk Hw Hu. destruct (point_at_rounded c u Hc He Hk Hw Hu) as (p & Ep & Lp & Hp).
    exists p. split; [exact Ep|]. intros i lo hi Hi Hb.
    assert (HM : forall j, (j < length (cpts c))%nat -> Rabs (cpc c i j / cpc c (cdim c - 1) j) <= Rmax (Rabs lo) (Rabs hi)).
    { intros j Hj. specialize (Hb j Hj). apply RmaxAbs; lra. }
    specialize (Hp i _ Hi HM).
    destruct (control_box eps maxv c u i lo hi Hc He Hw Hu Hi Hb) as (p' & Ep' & B).
    pose proof (wfun_pos eps maxv c u Hc He Hw Hu) as W.
    destruct (point_at_spec eps maxv c u Hc He Hu ltac:(lra)) as (p2 & Ep2 & _ & Hp2).
    rewrite Ep' in Ep2. injection Ep2 as <-. rewrite (Hp2 i Hi) in B.
    pose proof (Rle_abs (rc i p - nurbs c i u)). pose proof (Rle_abs (- (rc i p - nurbs c i u))) as A2.
    rewrite Rabs_Ropp in A2. lra.
  Qed.
End Rounded.
