(** * Iso-parametric curves (C48): nurbs_surface.rs [try_isocurve], [try_boundary_curves] *)
From Coq Require Import Reals Lra Lia ZArith Bool Sorted Permutation.
From Verif Require Import Base BaseFacts Scalar RSum BSplineSpec BSpline KnotModel KnotSpec KnotFacts KnotMisc
  KnotProofs VecFacts MiscModel MiscProofs CurveModel CurveKnotModel CurveSpec CurveProofs CurveGeom CurveGeom2 Boehm Refine
  SplitProofs SurfaceModel SurfaceSpec SurfaceProofs SurfaceSample SurfaceDeriv SurfaceRefine.
Open Scope R_scope.

(** how often a value occurs in a knot vector (specification of its multiplicity) *)
Definition mult_of (k : list R) (t : R) : nat := count_occ Req_EM_T k t.

Section Real.
  Variables eps maxv : R.
  Local Hint Extern 0 (Scalar R) => exact (ROps eps maxv) : typeclass_instances.

  (** ** Counting *)
  Lemma count_repeat x y n : count_occ Req_EM_T (repeat y n) x = if Req_EM_T y x then n else 0%nat.
  Proof.
    induction n as [|n IH]; cbn [repeat count_occ]; [now destruct (Req_EM_T y x)|].
    rewrite IH. now destruct (Req_EM_T y x).
  Qed.

  Lemma count_expand (m : list (R * nat)) x c : StronglySorted Rlt (run_keys m) -> In (x, c) m ->
    mult_of (expand m) x = c.
  Proof.
    unfold mult_of, expand, run_keys. induction m as [|[y d] m IH]; intros Hs Hin; [contradiction|].
    cbn [map concat fst snd] in *. rewrite count_occ_app, count_repeat. inversion Hs as [|? ? Hs' Hall]; subst.
    rewrite Forall_forall in Hall. destruct Hin as [E|Hin].
    - injection E as -> ->. destruct (Req_EM_T x x); [|lra].
      rewrite (proj1 (count_occ_not_In Req_EM_T _ x)); [lia|].
      intros C. apply in_concat in C as (l & Hl & Hx). apply in_map_iff in Hl as ([z e0] & <- & He).
      cbn [fst snd] in Hx. apply repeat_spec in Hx. subst z.
      assert (x < x); [|lra]. apply Hall. apply in_map_iff. exists (x, e0). auto.
    - assert (y < x).
      { apply Hall. apply in_map_iff. exists (x, c). auto. }
      destruct (Req_EM_T y x); [lra|]. cbn. now apply IH.
  Qed.

  Lemma iso_insertions_spec k p t m : 0 < eps -> Sorted Rle k -> separated eps k ->
    (forall y, In y k -> y = t \/ eps <= Rabs (t - y)) -> multiplicity k = Ok m ->
    iso_insertions m p t = if (mult_of k t <=? p + 1)%nat then (p + 1 - mult_of k t)%nat else (p + 1)%nat.
  Proof.
    intros He Hs Hsep Ht Em. destruct (multiplicity_exact eps maxv k m ltac:(lra) Hs Hsep Em) as (Ek & Sk & Pk).
    unfold iso_insertions. destruct (find (fun e => sabs (t - fst e) <? seps)%S m) as [[x c]|] eqn:Ef.
    - apply find_some in Ef as (Hin & Hlt). cbn [fst] in Hlt. rs. revert Hlt. rs.
      destruct (Rltb_spec (Rabs (t - x)) eps) as [Hlt|]; [intros _|discriminate].
      assert (Hx : In x k).
      { rewrite <- Ek. unfold expand. apply in_concat. exists (repeat x c). split.
        - apply in_map_iff. exists (x, c). auto.
        - rewrite Forall_forall in Pk. specialize (Pk _ Hin). cbn [snd] in Pk. destruct c; [lia|]. now left. }
      destruct (Ht x Hx) as [->|]; [|lra].
      replace (mult_of k t) with c; [reflexivity|]. rewrite <- Ek. symmetry. now apply count_expand.
    - assert (Hn : ~ In t k).
      { intros C. rewrite <- Ek in C. apply in_expand in C. unfold run_keys in C.
        apply in_map_iff in C as ([x c] & E & Hin). cbn [fst] in E. subst x.
        pose proof (find_none _ _ Ef _ Hin) as F. cbn [fst] in F. revert F. rs.
        rewrite Rminus_diag_eq, Rabs_R0 by auto. destruct (Rltb_spec 0 eps); [discriminate|lra]. }
      unfold mult_of. rewrite (proj1 (count_occ_not_In Req_EM_T k t) Hn). cbn [Nat.leb]. lia.
  Qed.

  (** ** The control point of the refined curve that is the curve point *)
  Lemma repeat_knots c c' u n s : curve_ok c -> (cdeg c <= s <= clast c)%nat -> in_span (cknots c) (clast c) s u ->
    Sorted Rle (cknots c') -> Permutation (cknots c') (cknots c ++ repeat u n) ->
    forall t, (t < length (cknots c) + n)%nat ->
      kf (cknots c') t = if (t <? S s)%nat then kf (cknots c) t
                         else if (t <? S s + n)%nat then u else kf (cknots c) (t - n).
  Proof.
    intros Hc S1 S2 Sk Pm. pose proof (curve_mono c Hc) as Hm. pose proof (clast_S c Hc) as Hn.
    pose proof (curve_len c Hc) as Hl.
    set (k2 := firstn (S s) (cknots c) ++ repeat u n ++ skipn (S s) (cknots c)).
    assert (L1 : length (firstn (S s) (cknots c)) = S s) by (rewrite firstn_length; lia).
    assert (L2 : length k2 = (length (cknots c) + n)%nat).
    { unfold k2. rewrite !app_length, L1, repeat_length, skipn_length. lia. }
    assert (G : forall i, (i < length (cknots c) + n)%nat ->
      nth i k2 0 = if (i <? S s)%nat then kf (cknots c) i
                   else if (i <? S s + n)%nat then u else kf (cknots c) (i - n)).
    { intros t Ht. unfold k2. destruct (Nat.ltb_spec t (S s)).
      - rewrite app_nth1 by lia. rewrite nth_firstn by lia. symmetry. apply kf_nth. lia.
      - rewrite app_nth2 by lia. rewrite L1. destruct (Nat.ltb_spec t (S s + n)).
        + rewrite app_nth1 by (rewrite repeat_length; lia). apply nth_repeat_lt. lia.
        + rewrite app_nth2 by (rewrite repeat_length; lia). rewrite repeat_length, nth_skipn.
          rewrite (kf_nth _ _ 0) by lia. f_equal. lia. }
    assert (EK : cknots c' = k2).
    { apply sorted_perm_eq; [exact Sk| |].
      - destruct S2 as (N & Lo & Hi). apply mono_sorted. intros i Hi'. rewrite L2 in Hi'.
        rewrite !G by lia.
        assert (Hi2 : u <= kf (cknots c) (S s)) by (destruct Hi as [Hi|[_ Hi]]; lra).
        destruct (Nat.ltb_spec i (S s)), (Nat.ltb_spec (S i) (S s)); try lia.
        + apply Hm.
        + destruct (Nat.ltb_spec (S i) (S s + n)).
          * pose proof (mono_le _ i s Hm ltac:(lia)). lra.
          * pose proof (mono_le _ i (S i - n) Hm ltac:(lia)). lra.
        + destruct (Nat.ltb_spec i (S s + n)), (Nat.ltb_spec (S i) (S s + n)); try lia.
          * lra.
          * pose proof (mono_le _ (S s) (S i - n) Hm ltac:(lia)). lra.
          * replace (S i - n)%nat with (S (i - n)) by lia. apply Hm.
      - eapply Permutation_trans; [exact Pm|].
        unfold k2. rewrite <- (firstn_skipn (S s) (cknots c)) at 1. rewrite <- app_assoc.
        apply Permutation_app_head. apply Permutation_app_comm. }
    intros t Ht. rewrite EK. rewrite (kf_nth _ _ 0) by lia. now apply G.
  Qed.

  (** parameter strictly inside a span: p+1 insertions *)
  Lemma iso_row_off c c' u s i : curve_ok c -> same_curve c c' -> (cdeg c <= s <= clast c)%nat ->
    kf (cknots c) s < u < kf (cknots c) (S s) ->
    Permutation (cknots c') (cknots c ++ repeat u (cdeg c + 1)) ->
    cpc c' i s = hcoord c i u.
  Proof.
    intros Hc Sc Hs Hu Pm. pose proof (curve_mono c Hc) as Hm. pose proof (clast_S c Hc) as Hn.
    pose proof (curve_len c Hc) as Hl. pose proof (sc_wf _ _ Sc) as Hw. pose proof (wf_mono c' Hw) as Hm'.
    pose proof (wf_klen c' Hw) as Hl'. pose proof (wf_clast c' Hw) as Hn'. rewrite (sc_deg _ _ Sc) in Hl'.
    assert (Lk : length (cknots c') = (length (cknots c) + (cdeg c + 1))%nat).
    { rewrite (Permutation_length Pm), app_length, repeat_length. lia. }
    assert (K : forall t, (t < length (cknots c) + (cdeg c + 1))%nat ->
      kf (cknots c') t = if (t <? S s)%nat then kf (cknots c) t
                         else if (t <? S s + (cdeg c + 1))%nat then u else kf (cknots c) (t - (cdeg c + 1))).
    { apply repeat_knots; auto; [|apply Hw]. unfold in_span. split; [lra|]. split; [lra|left; lra]. }
    assert (Ks : kf (cknots c') s = kf (cknots c) s).
    { rewrite K by lia. destruct (Nat.ltb_spec s (S s)); [reflexivity|lia]. }
    assert (Kj : forall j, (1 <= j <= cdeg c + 1)%nat -> kf (cknots c') (s + j) = u).
    { intros j Hj. rewrite K by lia. destruct (Nat.ltb_spec (s + j) (S s)); [lia|].
      destruct (Nat.ltb_spec (s + j) (S s + (cdeg c + 1))); [reflexivity|lia]. }
    assert (KS : kf (cknots c') (S s) = u) by (rewrite <- (Kj 1%nat) by lia; f_equal; lia).
    destruct (sc_piece _ _ Sc s ltac:(lia)) as (s0 & A1 & A2 & A3 & A4); [lra|].
    rewrite Ks in A2. rewrite KS in A3.
    assert (Iu : u < kf (cknots c) (S s0)).
    { destruct A3 as [|E]; [assumption|exfalso]. destruct (Nat.le_gt_cases (S s0) s).
      - pose proof (mono_le _ (S s0) s Hm ltac:(lia)). lra.
      - pose proof (mono_le _ (S s) (S s0) Hm ltac:(lia)). lra. }
    rewrite <- (piece_hcoord c s0 i u Hc).
    2:{ unfold in_span. split; [lra|]. split; [lra|left; lra]. } 2:{ lia. }
    rewrite <- A4. unfold piece.
    rewrite (rsum_ext _ _ (fun j => if (j =? s)%nat then cpc c' i j else 0)).
    2:{ intros j Hj. rewrite <- KS. rewrite bs_at_right_end; auto; [|lra|].
        - destruct (Nat.eqb_spec j s); ring.
        - intros l Hl2. rewrite KS. apply Kj. lia. }
    rewrite (rsum_single _ s); [now rewrite Nat.eqb_refl|lia|].
    intros j Hj Hne. destruct (Nat.eqb_spec j s); [contradiction|reflexivity].
  Qed.

  (** parameter equal to the first knot of its span: p insertions *)
  Lemma iso_row_knot c c' u s i : curve_ok c -> same_curve c c' -> (cdeg c <= s <= clast c)%nat ->
    kf (cknots c) s = u -> u < kf (cknots c) (S s) ->
    Permutation (cknots c') (cknots c ++ repeat u (cdeg c)) ->
    cpc c' i s = hcoord c i u.
  Proof.
    intros Hc Sc Hs Eu Hu Pm. pose proof (curve_mono c Hc) as Hm. pose proof (clast_S c Hc) as Hn.
    pose proof (curve_len c Hc) as Hl. pose proof (sc_wf _ _ Sc) as Hw. pose proof (wf_mono c' Hw) as Hm'.
    pose proof (wf_klen c' Hw) as Hl'. pose proof (wf_clast c' Hw) as Hn'. rewrite (sc_deg _ _ Sc) in Hl'.
    assert (Lk : length (cknots c') = (length (cknots c) + cdeg c)%nat).
    { rewrite (Permutation_length Pm), app_length, repeat_length. lia. }
    assert (K : forall t, (t < length (cknots c) + cdeg c)%nat ->
      kf (cknots c') t = if (t <? S s)%nat then kf (cknots c) t
                         else if (t <? S s + cdeg c)%nat then u else kf (cknots c) (t - cdeg c)).
    { apply repeat_knots; auto; [|apply Hw]. unfold in_span. split; [lra|]. split; [lra|left; lra]. }
    assert (Kj : forall j, (j <= cdeg c)%nat -> kf (cknots c') (s + j) = u).
    { intros j Hj. rewrite K by lia. destruct (Nat.ltb_spec (s + j) (S s)).
      - replace (s + j)%nat with s by lia. exact Eu.
      - destruct (Nat.ltb_spec (s + j) (S s + cdeg c)); [reflexivity|lia]. }
    assert (KS : kf (cknots c') (S (s + cdeg c)) = kf (cknots c) (S s)).
    { rewrite K by lia. destruct (Nat.ltb_spec (S (s + cdeg c)) (S s)); [lia|].
      destruct (Nat.ltb_spec (S (s + cdeg c)) (S s + cdeg c)); [lia|]. f_equal. lia. }
    pose proof (Kj (cdeg c) ltac:(lia)) as Kd.
    destruct (sc_piece _ _ Sc (s + cdeg c)%nat ltac:(lia)) as (s0 & A1 & A2 & A3 & A4); [lra|].
    rewrite Kd in A2. rewrite KS in A3.
    rewrite <- (piece_hcoord c s0 i u Hc).
    2:{ unfold in_span. split; [lra|]. split; [lra|left; lra]. } 2:{ lia. }
    rewrite <- A4. unfold piece.
    rewrite (rsum_ext _ _ (fun j => if (j =? s)%nat then cpc c' i j else 0)).
    2:{ intros j Hj. replace u with (kf (cknots c') (s + cdeg c)). rewrite bs_at_left_end; auto; [|lra|lia|].
        - replace (s + cdeg c - cdeg c)%nat with s by lia. destruct (Nat.eqb_spec j s); ring.
        - intros l Hl2. rewrite Kd. replace l with (s + (l - s))%nat by lia. apply Kj. lia. }
    rewrite (rsum_single _ s); [now rewrite Nat.eqb_refl|lia|].
    intros j Hj Hne. destruct (Nat.eqb_spec j s); [contradiction|reflexivity].
  Qed.

  (** ** The iso-curve *)
  Definition is_iso_u (s : Surf R) (t : R) (c : Curve R) : Prop :=
    cdim c = sdim s /\ cdeg c = sdv s /\ cknots c = svk s /\ curve_ok c /\ curve_eps eps c /\
    forall v, v0 s <= v <= v1 s -> point_at c v = surf_point_at s t v.
  Definition is_iso_v (s : Surf R) (t : R) (c : Curve R) : Prop :=
    cdim c = sdim s /\ cdeg c = sdu s /\ cknots c = suk s /\ curve_ok c /\ curve_eps eps c /\
    forall u, u0 s <= u <= u1 s -> point_at c u = surf_point_at s u t.

  Lemma same_curve_surf_point s c u v t : surf_ok s -> surf_eps eps s -> curve_ok c -> curve_eps eps c ->
    cdim c = sdim s -> in_dom s u v -> dom0 c <= t <= dom1 c ->
    (forall i, hcoord c i t = shcoord s i u v) -> point_at c t = surf_point_at s u v.
  Proof.
    intros H He Hc Hce ED Hd Hdc Hh.
    destruct (surf_point_spec eps maxv s u v H He Hd) as (p & E & L & V).
    destruct (point_spec eps maxv c t Hc Hce Hdc) as (p' & E' & L' & V').
    assert (p' = p) as ->.
    { apply (vec_ext p' p (sdim s)); auto; [lia|]. intros i Hi. now rewrite V, V', Hh. }
    unfold point_at, surf_point_at. now rewrite E, E', ED.
  Qed.

  Lemma iso_from_row s t row : surf_ok s -> surf_eps eps s -> u0 s <= t <= u1 s -> length row = ncol s ->
    Forall (fun q => length q = sdim s) row ->
    (forall i b, (b < ncol s)%nat -> rc i (nth b row []) = hcoord (ucol s b) i t) ->
    try_new (sdim s) (sdv s) row (svk s) = Ok (MkCurve (sdim s) (sdv s) row (svk s)) /\
    is_iso_u s t (MkCurve (sdim s) (sdv s) row (svk s)).
  Proof.
    intros H He Ht L F V. pose proof (so_v s H) as Hv. pose proof (so_vk s H) as Kv.
    pose proof (ko_len _ _ _ Kv) as Lk. split.
    { apply try_new_sorted; [lia|lia|apply Kv]. }
    set (c := MkCurve (sdim s) (sdv s) row (svk s)).
    assert (Oc : curve_ok c).
    { constructor; unfold clast; cbn [c cdim cpts cdeg cknots]; rewrite ?L; auto; apply H. }
    assert (Oe : curve_eps eps c).
    { unfold curve_eps, clast; cbn [c cdim cpts cdeg cknots]; rewrite L. apply He. }
    repeat (split; [first [reflexivity|assumption]|]).
    intros v Hv'. apply same_curve_surf_point; auto.
    - now split.
    - unfold dom0, dom1. cbn [c cpts cdeg cknots]. rewrite L. exact Hv'.
    - intros i. rewrite shcoord_cols by auto. unfold hcoord at 1, dom1. cbn [c cpts cdeg cknots]. rewrite L.
      apply rsum_ext. intros b Hb. unfold cpc. cbn [c cpts]. rewrite V by auto. unfold Nv, v1. ring.
  Qed.

  Lemma iso_from_col s t col : surf_ok s -> surf_eps eps s -> v0 s <= t <= v1 s -> length col = nrow s ->
    Forall (fun q => length q = sdim s) col ->
    (forall i a, (a < nrow s)%nat -> rc i (nth a col []) = hcoord (vrow s a) i t) ->
    try_new (sdim s) (sdu s) col (suk s) = Ok (MkCurve (sdim s) (sdu s) col (suk s)) /\
    is_iso_v s t (MkCurve (sdim s) (sdu s) col (suk s)).
  Proof.
    intros H He Ht L F V. pose proof (so_u s H) as Hu. pose proof (so_uk s H) as Ku.
    pose proof (ko_len _ _ _ Ku) as Lk. split.
    { apply try_new_sorted; [lia|lia|apply Ku]. }
    set (c := MkCurve (sdim s) (sdu s) col (suk s)).
    assert (Oc : curve_ok c).
    { constructor; unfold clast; cbn [c cdim cpts cdeg cknots]; rewrite ?L; auto; apply H. }
    assert (Oe : curve_eps eps c).
    { unfold curve_eps, clast; cbn [c cdim cpts cdeg cknots]; rewrite L. apply He. }
    repeat (split; [first [reflexivity|assumption]|]).
    intros v Hv'. apply same_curve_surf_point; auto.
    - now split.
    - unfold dom0, dom1. cbn [c cpts cdeg cknots]. rewrite L. exact Hv'.
    - intros i. rewrite shcoord_rows by auto. unfold hcoord at 1, dom1. cbn [c cpts cdeg cknots]. rewrite L.
      apply rsum_ext. intros b Hb. unfold cpc. cbn [c cpts]. rewrite V by auto. unfold Nu, u1. ring.
  Qed.

  (** what the iso-curve needs from the parameter: not closer than [eps] to a different knot *)
  Definition sep_param (k : list R) (t : R) : Prop := forall y, In y k -> y = t \/ eps <= Rabs (t - y).

  Lemma not_near k t y : 0 < eps -> sep_param k t -> In y k -> y <> t -> Rltb (Rabs (t - y)) eps = false.
  Proof.
    intros He Hs Hy Hne. destruct (Hs y Hy) as [|C]; [contradiction|].
    destruct (Rltb_spec (Rabs (t - y)) eps); [lra|reflexivity].
  Qed.

  Lemma sep_refine_ok c t n : 0 < eps -> sep_param (cknots c) t -> dom0 c <= t <= dom1 c ->
    refine_ok eps c (repeat t n).
  Proof.
    intros He Hs Ht. constructor.
    - apply repeat_sorted.
    - apply Forall_forall. intros x Hx. apply repeat_spec in Hx. now subst.
    - intros x y Hx Hy. apply repeat_spec in Hx. subst x. apply in_app_or in Hy. destruct Hy as [Hy|Hy].
      + destruct (Hs y Hy) as [|C]; [now left|]. right. now rewrite Rabs_minus_sym.
      + left. now apply repeat_spec in Hy.
  Qed.

  (** knots 0 and last, as the code reads them *)
  Lemma kfirst_klast k p n : knots_ok p n k ->
    kfirst k = Ok (kf k 0) /\ klast k = Ok (kf k (length k - 1)) /\ In (kf k 0) k /\ In (kf k (length k - 1)) k /\
    kf k 0 <= kf k p /\ kf k (S n) <= kf k (length k - 1).
  Proof.
    intros Hk. pose proof (ko_len _ _ _ Hk) as Hl. pose proof (sorted_mono _ (ko_sorted _ _ _ Hk)) as Hm.
    unfold kfirst, klast. rewrite usub_ok by lia. cbn [bind]. rewrite !(get_ok k _ 0) by lia.
    rewrite !(kf_nth _ _ 0) by lia. split; [reflexivity|]. split; [reflexivity|].
    split; [apply nth_In; lia|]. split; [apply nth_In; lia|].
    rewrite <- !(kf_nth _ _ 0) by lia. split; apply mono_le; auto; lia.
  Qed.

  (** the row of the refined lines that is the value at [t] *)
  Lemma iso_row c c' t s i : curve_ok c -> same_curve c c' -> (cdeg c <= s <= clast c)%nat ->
    in_span (cknots c) (clast c) s t -> t < dom1 c -> (mult_of (cknots c) t <= 1)%nat ->
    Permutation (cknots c') (cknots c ++ repeat t (cdeg c + 1 - mult_of (cknots c) t)) ->
    cpc c' i s = hcoord c i t.
  Proof.
    intros Hc Sc Hs (N & Lo & Hi) Ht Hm Pm. pose proof (clast_S c Hc) as Hn. pose proof (curve_len c Hc) as Hl.
    assert (Hi' : t < kf (cknots c) (S s)).
    { destruct Hi as [|[-> Hi]]; [assumption|]. unfold dom1 in Ht. rewrite <- Hn in Ht. lra. }
    destruct Lo as [Lo|Lo].
    - assert (Z : mult_of (cknots c) t = 0%nat).
      { apply count_occ_not_In. intros C. destruct (In_nth _ _ 0 C) as (j & Hj & E).
        rewrite <- (kf_nth _ _ 0) in E by lia. pose proof (curve_mono c Hc) as Hmo.
        destruct (Nat.le_gt_cases j s).
        - pose proof (mono_le _ j s Hmo ltac:(lia)). lra.
        - pose proof (mono_le _ (S s) j Hmo ltac:(lia)). lra. }
      rewrite Z, Nat.sub_0_r in Pm. apply (iso_row_off c c' t s i); auto.
    - assert (Z : mult_of (cknots c) t = 1%nat).
      { assert (In t (cknots c)).
        { rewrite <- Lo. rewrite (kf_nth _ _ 0) by lia. apply nth_In. lia. }
        apply (count_occ_In Req_EM_T) in H. unfold mult_of in *. lia. }
      rewrite Z in Pm. replace (cdeg c + 1 - 1)%nat with (cdeg c) in Pm by lia.
      apply (iso_row_knot c c' t s i); auto.
  Qed.

  Theorem isocurve_u_inside s t : surf_ok s -> surf_eps eps s -> separated eps (suk s) ->
    u0 s < t < u1 s -> sep_param (suk s) t -> (mult_of (suk s) t <= 1)%nat ->
    exists c, try_isocurve s t DirU = Ok c /\ is_iso_u s t c.
  Proof.
    intros H He Hsep Ht Hst Hm1. pose proof (so_u s H) as Hu. pose proof (so_v s H) as Hv.
    pose proof (proj1 (proj1 He)) as Pe. pose proof (so_uk s H) as Ku. pose proof (ko_len _ _ _ Ku) as Lk.
    unfold try_isocurve. destruct (multiplicity_total (suk s)) as (m & Em & _).
    { intros E. rewrite E in Lk. cbn in Lk. lia. }
    rewrite Em. cbn [bind].
    rewrite (iso_insertions_spec (suk s) (sdu s) t m Pe (ko_sorted _ _ _ Ku) Hsep Hst Em).
    destruct (Nat.leb_spec (mult_of (suk s) t) (sdu s + 1)); [|lia].
    set (n := (sdu s + 1 - mult_of (suk s) t)%nat).
    destruct (kfirst_klast _ _ _ Ku) as (E0 & E1 & I0 & I1 & M0 & M1).
    replace (S (nrow s - 1)) with (nrow s) in M1 by lia. unfold u0, u1 in Ht.
    assert (exists sp, (sdu s <= sp <= nrow s - 1)%nat /\ in_span (suk s) (nrow s - 1) sp t /\
      find_span (suk s) (nrow s - 1) (sdu s) t = Ok sp) as (sp & Hsp & Isp & Esp).
    { destruct (find_span_brackets eps maxv (suk s) (sdu s) (nrow s - 1) t Ku (proj1 He)) as (sp & A & B & C).
      - rewrite Nat.add_1_r. replace (S (nrow s - 1)) with (nrow s) by lia. lra.
      - eauto. }
    assert (exists s', (if (0 <? n)%nat then surf_refine s (repeat t n) DirU else Ok s) = Ok s' /\
      surf_ok s' /\ sdv s' = sdv s /\ svk s' = svk s /\ sdim s' = sdim s /\ ncol s' = ncol s /\ nrow s' = (nrow s + n)%nat /\
      Permutation (suk s') (suk s ++ repeat t n) /\ sdu s' = sdu s /\
      forall b, (b < ncol s)%nat -> same_curve (ucol s b) (ucol s' b)) as (s' & Er & O & Q1 & Q2 & Q3 & Q4 & Q5 & Q6 & Q7 & Q8).
    { destruct (Nat.ltb_spec 0 n) as [Hn|Hn].
      - destruct (surf_refine_u_lines eps maxv s (repeat t n) H He) as
          (s' & A1 & A2 & A3 & A4 & A5 & A6 & A7 & A8 & A9 & A10 & A11 & A12 & A13 & _).
        + apply sep_refine_ok; auto. destruct (ucol_dom s 0) as (-> & ->). unfold u0, u1. lra.
        + apply Forall_forall. intros x Hx. apply repeat_spec in Hx. subst x.
          destruct (ucol_dom s 0) as (-> & ->). unfold u0, u1. lra.
        + exists s'. rewrite repeat_length in A9. repeat (split; [assumption|]). exact A13.
      - exists s. assert (n = 0%nat) as -> by lia. cbn [repeat]. rewrite app_nil_r, Nat.add_0_r.
        repeat (split; [first [reflexivity|assumption|apply Permutation_refl]|]).
        intros b Hb. apply same_curve_refl, ok_wf. now apply ucol_ok. }
    rewrite Er. cbn [bind]. rewrite E0, E1. cbn [bind]. rs.
    rewrite (not_near (suk s) t (kf (suk s) 0)) by (auto; lra).
    rewrite (not_near (suk s) t (kf (suk s) (length (suk s) - 1))) by (auto; lra).
    rewrite (klast_index_ok _ _ _ Ku). cbn [bind]. rewrite Esp. cbn [bind].
    rewrite (get_ok (snet s') sp []) by (fold (nrow s'); lia). cbn [bind]. rewrite Q1, Q2.
    destruct (iso_from_row s t (nth sp (snet s') []) H He) as (En & Iso).
    { unfold u0, u1. lra. }
    { rewrite row_len by (auto; lia). exact Q4. }
    { rewrite <- Q3. apply (Forall_nth_lt _ _ _ [] (so_pts s' O)). fold (nrow s'). lia. }
    { intros i b Hb. change (rc i (nth b (nth sp (snet s') []) [])) with (spc s' i sp b).
      rewrite <- ucol_cpc by lia. apply (iso_row (ucol s b)); auto.
      - now apply ucol_ok.
      - unfold clast. cbn [ucol cdeg cpts]. rewrite map_length. exact Hsp.
      - unfold clast. cbn [ucol cpts cknots]. rewrite map_length. exact Isp.
      - rewrite (proj2 (ucol_dom s b)). unfold u1. lra. }
    eexists. split; [exact En|exact Iso].
  Qed.

  Theorem isocurve_v_inside s t : surf_ok s -> surf_eps eps s -> separated eps (svk s) ->
    v0 s < t < v1 s -> sep_param (svk s) t -> (mult_of (svk s) t <= 1)%nat ->
    exists c, try_isocurve s t DirV = Ok c /\ is_iso_v s t c.
  Proof.
    intros H He Hsep Ht Hst Hm1. pose proof (so_u s H) as Hu. pose proof (so_v s H) as Hv.
    pose proof (proj1 (proj1 He)) as Pe. pose proof (so_vk s H) as Kv. pose proof (ko_len _ _ _ Kv) as Lk.
    unfold try_isocurve. destruct (multiplicity_total (svk s)) as (m & Em & _).
    { intros E. rewrite E in Lk. cbn in Lk. lia. }
    rewrite Em. cbn [bind].
    rewrite (iso_insertions_spec (svk s) (sdv s) t m Pe (ko_sorted _ _ _ Kv) Hsep Hst Em).
    destruct (Nat.leb_spec (mult_of (svk s) t) (sdv s + 1)); [|lia].
    set (n := (sdv s + 1 - mult_of (svk s) t)%nat).
    destruct (kfirst_klast _ _ _ Kv) as (E0 & E1 & I0 & I1 & M0 & M1).
    replace (S (ncol s - 1)) with (ncol s) in M1 by lia. unfold v0, v1 in Ht.
    assert (exists sp, (sdv s <= sp <= ncol s - 1)%nat /\ in_span (svk s) (ncol s - 1) sp t /\
      find_span (svk s) (ncol s - 1) (sdv s) t = Ok sp) as (sp & Hsp & Isp & Esp).
    { destruct (find_span_brackets eps maxv (svk s) (sdv s) (ncol s - 1) t Kv (proj2 He)) as (sp & A & B & C).
      - rewrite Nat.add_1_r. replace (S (ncol s - 1)) with (ncol s) by lia. lra.
      - eauto. }
    assert (exists s', (if (0 <? n)%nat then surf_refine s (repeat t n) DirV else Ok s) = Ok s' /\
      surf_ok s' /\ sdu s' = sdu s /\ suk s' = suk s /\ sdim s' = sdim s /\ nrow s' = nrow s /\ ncol s' = (ncol s + n)%nat /\
      Permutation (svk s') (svk s ++ repeat t n) /\ sdv s' = sdv s /\
      forall a, (a < nrow s)%nat -> same_curve (vrow s a) (vrow s' a)) as (s' & Er & O & Q1 & Q2 & Q3 & Q4 & Q5 & Q6 & Q7 & Q8).
    { destruct (Nat.ltb_spec 0 n) as [Hn|Hn].
      - destruct (surf_refine_v_lines eps maxv s (repeat t n) H He) as
          (s' & A1 & A2 & A3 & A4 & A5 & A6 & A7 & A8 & A9 & A10 & A11 & A12 & A13 & _).
        + apply sep_refine_ok; auto. destruct (vrow_dom s 0 H ltac:(lia)) as (-> & ->). unfold v0, v1. lra.
        + apply Forall_forall. intros x Hx. apply repeat_spec in Hx. subst x.
          destruct (vrow_dom s 0 H ltac:(lia)) as (-> & ->). unfold v0, v1. lra.
        + exists s'. rewrite repeat_length in A10. repeat (split; [assumption|]). exact A13.
      - exists s. assert (n = 0%nat) as -> by lia. cbn [repeat]. rewrite app_nil_r, Nat.add_0_r.
        repeat (split; [first [reflexivity|assumption|apply Permutation_refl]|]).
        intros b Hb. apply same_curve_refl, ok_wf. now apply vrow_ok. }
    rewrite Er. cbn [bind]. rewrite E0, E1. cbn [bind]. rs.
    rewrite (not_near (svk s) t (kf (svk s) 0)) by (auto; lra).
    rewrite (not_near (svk s) t (kf (svk s) (length (svk s) - 1))) by (auto; lra).
    rewrite (klast_index_ok _ _ _ Kv). cbn [bind]. rewrite Esp. cbn [bind].
    destruct (mapM_nth (fun row : list (list R) => get row sp) (snet s') [] [] (fun a q => q = nth sp (nth a (snet s') []) []))
      as (col & Ec & Lc & Vc).
    { intros a Ha. rewrite (get_ok _ sp []) by (rewrite row_len by auto; lia). eauto. }
    fold (nrow s') in Lc, Vc. rewrite Ec. cbn [bind]. rewrite Q1, Q2.
    destruct (iso_from_col s t col H He) as (En & Iso).
    { unfold v0, v1. lra. }
    { lia. }
    { apply Forall_forall. intros q Hq. destruct (In_nth col q [] Hq) as (a & Ha & <-). rewrite Vc by lia.
      rewrite <- Q3. apply net_pt; auto; lia. }
    { intros i a Ha. rewrite Vc by lia. change (rc i (nth sp (nth a (snet s') []) [])) with (spc s' i a sp).
      rewrite <- vrow_cpc. apply (iso_row (vrow s a)); auto.
      - now apply vrow_ok.
      - unfold clast. cbn [vrow cdeg cpts]. rewrite row_len by auto. exact Hsp.
      - unfold clast. cbn [vrow cpts cknots]. rewrite row_len by auto. exact Isp.
      - rewrite (proj2 (vrow_dom s a H Ha)). unfold v1. lra. }
    eexists. split; [exact En|exact Iso].
  Qed.

  (** ** Boundary curves of clamped surfaces *)
  Definition clamped_k (k : list R) (p n : nat) : Prop :=
    (forall j, (j <= p)%nat -> kf k j = kf k 0) /\
    (forall j, (S n <= j <= S n + p)%nat -> kf k j = kf k (S n)).

  Lemma mult_start k p n : knots_ok p n k -> clamped_k k p n -> mult_of k (kf k p) = (p + 1)%nat.
  Proof.
    intros Hk (C0 & _). pose proof (ko_len _ _ _ Hk) as Hl. pose proof (ko_pn _ _ _ Hk) as Hpn.
    pose proof (sorted_mono _ (ko_sorted _ _ _ Hk)) as Hm. pose proof (ko_first _ _ _ Hk) as Hf. rewrite Nat.add_1_r in Hf.
    unfold mult_of. rewrite <- (firstn_skipn (S p) k) at 1. rewrite count_occ_app.
    assert (E : firstn (S p) k = repeat (kf k p) (S p)).
    { apply (list_ext 0); [rewrite firstn_length, repeat_length; lia|]. intros i Hi. rewrite firstn_length in Hi.
      rewrite nth_firstn by lia. rewrite nth_repeat_lt by lia. rewrite <- (kf_nth _ _ 0) by lia.
      rewrite (C0 i), (C0 p) by lia. reflexivity. }
    rewrite E, count_repeat. destruct (Req_EM_T (kf k p) (kf k p)); [|lra].
    rewrite (proj1 (count_occ_not_In Req_EM_T _ _)); [lia|].
    intros C. destruct (In_nth _ _ 0 C) as (j & Hj & Ej). rewrite skipn_length in Hj.
    rewrite nth_skipn, <- (kf_nth _ _ 0) in Ej by lia.
    pose proof (mono_le _ (S p) (S p + j) Hm ltac:(lia)). lra.
  Qed.

  Lemma mult_end k p n : knots_ok p n k -> clamped_k k p n -> mult_of k (kf k (S n)) = (p + 1)%nat.
  Proof.
    intros Hk (_ & C1). pose proof (ko_len _ _ _ Hk) as Hl. pose proof (ko_pn _ _ _ Hk) as Hpn.
    pose proof (sorted_mono _ (ko_sorted _ _ _ Hk)) as Hm. pose proof (ko_last _ _ _ Hk) as Hf. rewrite Nat.add_1_r in Hf.
    unfold mult_of. rewrite <- (firstn_skipn (S n) k) at 1. rewrite count_occ_app.
    assert (E : skipn (S n) k = repeat (kf k (S n)) (S p)).
    { apply (list_ext 0); [rewrite skipn_length, repeat_length; lia|]. intros i Hi. rewrite skipn_length in Hi.
      rewrite nth_skipn. rewrite nth_repeat_lt by lia. rewrite <- (kf_nth _ _ 0) by lia. apply C1. lia. }
    rewrite E, count_repeat. destruct (Req_EM_T (kf k (S n)) (kf k (S n))); [|lra].
    rewrite (proj1 (count_occ_not_In Req_EM_T _ _)); [lia|].
    intros C. destruct (In_nth _ _ 0 C) as (j & Hj & Ej). rewrite firstn_length in Hj.
    rewrite nth_firstn, <- (kf_nth _ _ 0) in Ej by lia.
    pose proof (mono_le _ j n Hm ltac:(lia)). lra.
  Qed.

  Lemma sep_in k t : 0 < eps -> separated eps k -> In t k -> sep_param k t.
  Proof.
    intros He Hs Ht y Hy. destruct (Hs t y Ht Hy) as [->|C]; [now left|right; lra].
  Qed.

  Lemma iso_no_insert k p n t m : 0 < eps -> knots_ok p n k -> separated eps k -> In t k ->
    mult_of k t = (p + 1)%nat -> multiplicity k = Ok m -> iso_insertions m p t = 0%nat.
  Proof.
    intros He Hk Hsep Ht Hm Em.
    rewrite (iso_insertions_spec k p t m He (ko_sorted _ _ _ Hk) Hsep (sep_in k t He Hsep Ht) Em).
    rewrite Hm, Nat.leb_refl. lia.
  Qed.

  Lemma near_self t : 0 < eps -> Rltb (Rabs (t - t)) eps = true.
  Proof. intros He. rewrite Rminus_diag_eq, Rabs_R0 by auto. destruct (Rltb_spec 0 eps); [reflexivity|lra]. Qed.

  Lemma kf_in k j : (j < length k)%nat -> In (kf k j) k.
  Proof. intros Hj. rewrite (kf_nth _ _ 0) by auto. now apply nth_In. Qed.

  Lemma ends_apart k p n : knots_ok p n k -> eps_ok eps p n k -> clamped_k k p n ->
    kf k 0 = kf k p /\ kf k (length k - 1) = kf k (S n) /\ Rltb (Rabs (kf k (S n) - kf k 0)) eps = false.
  Proof.
    intros Hk (He & He1 & _) (C0 & C1). pose proof (ko_len _ _ _ Hk) as Hl. pose proof (ko_pn _ _ _ Hk) as Hpn.
    pose proof (sorted_mono _ (ko_sorted _ _ _ Hk)) as Hm. rewrite Nat.add_1_r in He1.
    assert (E0 : kf k 0 = kf k p) by (symmetry; apply C0; lia).
    split; [exact E0|]. split; [apply C1; lia|]. rewrite E0.
    pose proof (mono_le _ (S p) (S n) Hm ltac:(lia)).
    rewrite Rabs_pos_eq by lra. destruct (Rltb_spec (kf k (S n) - kf k p) eps); [lra|reflexivity].
  Qed.

  Theorem isocurve_u_start s : surf_ok s -> surf_eps eps s -> separated eps (suk s) ->
    clamped_k (suk s) (sdu s) (nrow s - 1) ->
    exists c, try_isocurve s (u0 s) DirU = Ok c /\ is_iso_u s (u0 s) c.
  Proof.
    intros H He Hsep Hcl. pose proof (so_u s H) as Hu. pose proof (so_v s H) as Hv.
    pose proof (proj1 (proj1 He)) as Pe. pose proof (so_uk s H) as Ku. pose proof (ko_len _ _ _ Ku) as Lk.
    unfold try_isocurve. destruct (multiplicity_total (suk s)) as (m & Em & _).
    { intros E. rewrite E in Lk. cbn in Lk. lia. }
    rewrite Em. cbn [bind]. unfold u0.
    rewrite (iso_no_insert (suk s) (sdu s) (nrow s - 1) (kf (suk s) (sdu s)) m Pe Ku Hsep); auto.
    2:{ apply kf_in. lia. } 2:{ now apply (mult_start _ _ (nrow s - 1)). }
    cbn [Nat.ltb Nat.leb bind].
    destruct (kfirst_klast _ _ _ Ku) as (E0 & E1 & _). rewrite E0, E1. cbn [bind]. rs.
    destruct (ends_apart _ _ _ Ku (proj1 He) Hcl) as (A0 & A1 & A2). rewrite A0.
    rewrite near_self by auto. cbn [bind]. rewrite (get_ok (snet s) 0 []) by (fold (nrow s); lia). cbn [bind].
    destruct (iso_from_row s (u0 s) (nth 0 (snet s) []) H He) as (En & Iso).
    { pose proof (u01 s H). lra. }
    { apply row_len; auto; lia. }
    { apply (Forall_nth_lt _ _ _ [] (so_pts s H)). fold (nrow s). lia. }
    { intros i b Hb. rewrite <- (proj1 (ucol_dom s b)). rewrite hcoord_start.
      - rewrite ucol_cpc by lia. reflexivity.
      - now apply ucol_ok.
      - intros j Hj. cbn [ucol cknots cdeg] in *. now apply Hcl. }
    eexists. split; [exact En|exact Iso].
  Qed.

  Theorem isocurve_u_end s : surf_ok s -> surf_eps eps s -> separated eps (suk s) ->
    clamped_k (suk s) (sdu s) (nrow s - 1) ->
    exists c, try_isocurve s (u1 s) DirU = Ok c /\ is_iso_u s (u1 s) c.
  Proof.
    intros H He Hsep Hcl. pose proof (so_u s H) as Hu. pose proof (so_v s H) as Hv.
    pose proof (proj1 (proj1 He)) as Pe. pose proof (so_uk s H) as Ku. pose proof (ko_len _ _ _ Ku) as Lk.
    unfold try_isocurve. destruct (multiplicity_total (suk s)) as (m & Em & _).
    { intros E. rewrite E in Lk. cbn in Lk. lia. }
    rewrite Em. cbn [bind]. unfold u1. replace (nrow s) with (S (nrow s - 1)) by lia.
    rewrite (iso_no_insert (suk s) (sdu s) (nrow s - 1) (kf (suk s) (S (nrow s - 1))) m Pe Ku Hsep); auto.
    2:{ apply kf_in. lia. } 2:{ now apply (mult_end _ _ (nrow s - 1)). }
    cbn [Nat.ltb Nat.leb bind].
    destruct (kfirst_klast _ _ _ Ku) as (E0 & E1 & _). rewrite E0, E1. cbn [bind]. rs.
    destruct (ends_apart _ _ _ Ku (proj1 He) Hcl) as (A0 & A1 & A2). rewrite A1, A2.
    rewrite near_self by auto. rewrite usub_ok by (fold (nrow s); lia). cbn [bind].
    fold (nrow s). rewrite (get_ok (snet s) (nrow s - 1) []) by (fold (nrow s); lia). cbn [bind].
    destruct (iso_from_row s (u1 s) (nth (nrow s - 1) (snet s) []) H He) as (En & Iso).
    { pose proof (u01 s H). lra. }
    { apply row_len; auto; lia. }
    { apply (Forall_nth_lt _ _ _ [] (so_pts s H)). fold (nrow s). lia. }
    { intros i b Hb. rewrite <- (proj2 (ucol_dom s b)). rewrite hcoord_end.
      - rewrite ucol_cpc by (unfold clast; cbn [ucol cpts]; rewrite map_length; fold (nrow s); lia).
        unfold clast. cbn [ucol cpts]. rewrite map_length. reflexivity.
      - now apply ucol_ok.
      - intros j Hj. cbn [ucol cknots cdeg cpts] in *. rewrite map_length in *. fold (nrow s) in *.
        destruct Hcl as (_ & C1). replace (S (nrow s - 1)) with (nrow s) in C1 by lia. now apply C1. }
    eexists. split; [exact En|]. replace (S (nrow s - 1)) with (nrow s) by lia. exact Iso.
  Qed.

  Theorem isocurve_v_start s : surf_ok s -> surf_eps eps s -> separated eps (svk s) ->
    clamped_k (svk s) (sdv s) (ncol s - 1) ->
    exists c, try_isocurve s (v0 s) DirV = Ok c /\ is_iso_v s (v0 s) c.
  Proof.
    intros H He Hsep Hcl. pose proof (so_u s H) as Hu. pose proof (so_v s H) as Hv.
    pose proof (proj1 (proj1 He)) as Pe. pose proof (so_vk s H) as Kv. pose proof (ko_len _ _ _ Kv) as Lk.
    unfold try_isocurve. destruct (multiplicity_total (svk s)) as (m & Em & _).
    { intros E. rewrite E in Lk. cbn in Lk. lia. }
    rewrite Em. cbn [bind]. unfold v0.
    rewrite (iso_no_insert (svk s) (sdv s) (ncol s - 1) (kf (svk s) (sdv s)) m Pe Kv Hsep); auto.
    2:{ apply kf_in. lia. } 2:{ now apply (mult_start _ _ (ncol s - 1)). }
    cbn [Nat.ltb Nat.leb bind].
    destruct (kfirst_klast _ _ _ Kv) as (E0 & E1 & _). rewrite E0, E1. cbn [bind]. rs.
    destruct (ends_apart _ _ _ Kv (proj2 He) Hcl) as (A0 & A1 & A2). rewrite A0.
    rewrite near_self by auto. cbn [bind].
    destruct (mapM_nth (fun row : list (list R) => get row 0) (snet s) [] [] (fun a q => q = nth 0 (nth a (snet s) []) []))
      as (col & Ec & Lc & Vc).
    { intros a Ha. rewrite (get_ok _ 0 []) by (rewrite row_len by auto; lia). eauto. }
    fold (nrow s) in Lc, Vc. rewrite Ec. cbn [bind].
    destruct (iso_from_col s (v0 s) col H He) as (En & Iso).
    { pose proof (v01 s H). lra. }
    { lia. }
    { apply Forall_forall. intros q Hq. destruct (In_nth col q [] Hq) as (a & Ha & <-). rewrite Vc by lia.
      apply net_pt; auto; lia. }
    { intros i a Ha. rewrite Vc by lia. rewrite <- (proj1 (vrow_dom s a H Ha)). rewrite hcoord_start.
      - reflexivity.
      - now apply vrow_ok.
      - intros j Hj. cbn [vrow cknots cdeg] in *. now apply Hcl. }
    eexists. split; [exact En|exact Iso].
  Qed.

  Theorem isocurve_v_end s : surf_ok s -> surf_eps eps s -> separated eps (svk s) ->
    clamped_k (svk s) (sdv s) (ncol s - 1) ->
    exists c, try_isocurve s (v1 s) DirV = Ok c /\ is_iso_v s (v1 s) c.
  Proof.
    intros H He Hsep Hcl. pose proof (so_u s H) as Hu. pose proof (so_v s H) as Hv.
    pose proof (proj1 (proj1 He)) as Pe. pose proof (so_vk s H) as Kv. pose proof (ko_len _ _ _ Kv) as Lk.
    unfold try_isocurve. destruct (multiplicity_total (svk s)) as (m & Em & _).
    { intros E. rewrite E in Lk. cbn in Lk. lia. }
    rewrite Em. cbn [bind]. unfold v1. replace (ncol s) with (S (ncol s - 1)) by lia.
    rewrite (iso_no_insert (svk s) (sdv s) (ncol s - 1) (kf (svk s) (S (ncol s - 1))) m Pe Kv Hsep); auto.
    2:{ apply kf_in. lia. } 2:{ now apply (mult_end _ _ (ncol s - 1)). }
    cbn [Nat.ltb Nat.leb bind].
    destruct (kfirst_klast _ _ _ Kv) as (E0 & E1 & _). rewrite E0, E1. cbn [bind]. rs.
    destruct (ends_apart _ _ _ Kv (proj2 He) Hcl) as (A0 & A1 & A2). rewrite A1, A2.
    rewrite near_self by auto. rewrite (get_ok (snet s) 0 []) by (fold (nrow s); lia). cbn [bind].
    fold (ncol s). rewrite usub_ok by lia. cbn [bind].
    destruct (mapM_nth (fun row : list (list R) => get row (ncol s - 1)) (snet s) [] []
      (fun a q => q = nth (ncol s - 1) (nth a (snet s) []) [])) as (col & Ec & Lc & Vc).
    { intros a Ha. rewrite (get_ok _ (ncol s - 1) []) by (rewrite row_len by auto; lia). eauto. }
    fold (nrow s) in Lc, Vc. rewrite Ec. cbn [bind].
    destruct (iso_from_col s (v1 s) col H He) as (En & Iso).
    { pose proof (v01 s H). lra. }
    { lia. }
    { apply Forall_forall. intros q Hq. destruct (In_nth col q [] Hq) as (a & Ha & <-). rewrite Vc by lia.
      apply net_pt; auto; lia. }
    { intros i a Ha. rewrite Vc by lia. rewrite <- (proj2 (vrow_dom s a H Ha)). rewrite hcoord_end.
      - unfold clast. cbn [vrow cpts]. rewrite row_len by auto. reflexivity.
      - now apply vrow_ok.
      - intros j Hj. cbn [vrow cknots cdeg cpts] in *. rewrite row_len in * by auto.
        destruct Hcl as (_ & C1). replace (S (ncol s - 1)) with (ncol s) in C1 by lia. now apply C1. }
    eexists. split; [exact En|]. replace (S (ncol s - 1)) with (ncol s) by lia. exact Iso.
  Qed.

  Theorem boundary_curves_spec s : surf_ok s -> surf_eps eps s -> separated eps (suk s) -> separated eps (svk s) ->
    clamped_k (suk s) (sdu s) (nrow s - 1) -> clamped_k (svk s) (sdv s) (ncol s - 1) ->
    exists a b c d, try_boundary_curves s = Ok [a; b; c; d] /\
      is_iso_u s (u0 s) a /\ is_iso_v s (v0 s) b /\ is_iso_u s (u1 s) c /\ is_iso_v s (v1 s) d.
  Proof.
    intros H He Su Sv Cu Cv. pose proof (so_u s H) as Hu. pose proof (so_v s H) as Hv.
    unfold try_boundary_curves. rewrite (domain_ok _ _ _ (so_uk s H)). cbn [bind].
    rewrite (domain_ok _ _ _ (so_vk s H)). cbn [bind].
    replace (S (nrow s - 1)) with (nrow s) by lia. replace (S (ncol s - 1)) with (ncol s) by lia.
    fold (u0 s) (u1 s) (v0 s) (v1 s).
    destruct (isocurve_u_start s H He Su Cu) as (a & Ea & Ia). destruct (isocurve_v_start s H He Sv Cv) as (b & Eb & Ib).
    destruct (isocurve_u_end s H He Su Cu) as (c & Ec & Ic). destruct (isocurve_v_end s H He Sv Cv) as (d & Ed & Id).
    rewrite Ea. cbn [bind]. rewrite Eb. cbn [bind]. rewrite Ec. cbn [bind]. rewrite Ed. cbn [bind].
    exists a, b, c, d. auto.
  Qed.
End Real.
