(** * Regular samples, closedness and constrained parameters *)
From Coq Require Import Reals Lra Lia List Sorted.
From Verif Require Import Base BaseFacts Scalar RSum BSpline KnotModel KnotSpec KnotFacts KnotProofs KnotMisc VecFacts
  CurveModel CurveKnotModel CurveSpec CurveProofs CurveGeom CurveGeom2 MiscProofs NewtonProofs NewtonMain.
Import ListNotations.
Open Scope R_scope.

Section Real.
  Variables eps maxv : R.
  Local Hint Extern 0 (Scalar R) => exact (ROps eps maxv) : typeclass_instances.

  Theorem knots_constrain_spec c u : curve_ok c ->
    exists t, knots_constrain c u = Ok t /\ dom0 c <= t <= dom1 c /\ (dom0 c <= u <= dom1 c -> t = u) /\
      knots_constrain c t = Ok t /\ forall w, dom0 c <= w <= dom1 c -> Rabs (t - u) <= Rabs (w - u).
  Proof.
    intros Hc. pose proof (knots_domain_ok c Hc) as E. unfold knots_domain in E. pose proof (dom_le c Hc).
    exact (kclamp_spec eps maxv (cknots c) (cdeg c) u (dom0 c) (dom1 c) E ltac:(lra)).
  Qed.

  (** the [i]-th of [n] regular parameters between [a] and [b] *)
  Definition regular (a b : R) (n i : nat) : R := a + INR i * ((b - a) / (INR n - 1)).
  Lemma regular_first a b n : regular a b n 0 = a.
  Proof. unfold regular. cbn [INR]. lra. Qed.
  Lemma regular_last a b n : (2 <= n)%nat -> regular a b n (n - 1) = b.
  Proof.
    intros H. unfold regular. rewrite minus_INR by lia. change (INR 1) with 1.
    assert (1 < INR n) by (apply (lt_INR 1); lia). field. lra.
  Qed.
  Lemma regular_in a b n i : (2 <= n)%nat -> (i < n)%nat -> a <= b -> a <= regular a b n i <= b.
  Proof.
    intros H Hi Hab. unfold regular. assert (1 < INR n) by (apply (lt_INR 1); lia).
    assert (0 <= INR i <= INR n - 1).
    { split; [apply pos_INR|]. replace (INR n - 1) with (INR (n - 1)) by (rewrite minus_INR by lia; reflexivity). apply le_INR. lia. }
    replace (INR i * ((b - a) / (INR n - 1))) with ((INR i / (INR n - 1)) * (b - a)) by (field; lra).
    assert (0 <= INR i / (INR n - 1) <= 1).
    { split; [apply Rmult_le_pos; [lra|left; apply Rinv_0_lt_compat; lra]|].
      apply (Rmult_le_reg_r (INR n - 1)); [lra|]. unfold Rdiv. rewrite Rmult_assoc, Rinv_l by lra. lra. }
    nra.
  Qed.
  Lemma sofnat_R n : sofnat n = INR n.
  Proof. unfold sofnat. cbn. symmetry. apply INR_IZR_INZ. Qed.

  Theorem sample_regular_range_spec c a b n : curve_ok c -> curve_eps eps c -> pos_weights c ->
    dom0 c <= a -> a <= b -> b <= dom1 c -> (2 <= n)%nat ->
    exists ps, sample_regular_range c a b n = Ok ps /\ length ps = n /\
      forall j, (j < n)%nat -> length (nth j ps []) = (cdim c - 1)%nat /\
        forall i, (i < cdim c - 1)%nat -> rc i (nth j ps []) = nurbs c i (regular a b n j).
  Proof.
    intros Hc He Hw Ha Hab Hb Hn. unfold sample_regular_range.
    set (P := fun i => match point_at c (regular a b n i) with Ok p => p | _ => [] end).
    assert (PE : forall j, (j < n)%nat -> point_at c (regular a b n j) = Ok (P j) /\ length (P j) = (cdim c - 1)%nat /\
      forall i, (i < cdim c - 1)%nat -> rc i (P j) = nurbs c i (regular a b n j)).
    { intros j Hj. pose proof (regular_in a b n j Hn Hj Hab). unfold P.
      destruct (guess_points eps maxv c (regular a b n j)) as (q & -> & L & V); auto. lra. }
    exists (map P (seq 0 n)). split; [|split].
    - apply (mapM_ok _ P). intros i Hi. apply in_seq in Hi.
      replace (sadd a (smul (sofnat i) (sdiv (ssub b a) (ssub (sofnat n) sone)))) with (regular a b n i) by (rewrite !sofnat_R; reflexivity).
      apply PE. lia.
    - now rewrite map_length, seq_length.
    - intros j Hj. rewrite (nth_map_lt _ _ j 0%nat []) by (now rewrite seq_length). rewrite seq_nth by auto. cbn [Nat.add]. apply PE. exact Hj.
  Qed.
  Theorem sample_regular_range_with_parameter_spec c a b n : curve_ok c -> curve_eps eps c -> pos_weights c ->
    dom0 c <= a -> a <= b -> b <= dom1 c -> (2 <= n)%nat ->
    exists ps, sample_regular_range_with_parameter c a b n = Ok ps /\ length ps = n /\
      (forall j, (j < n)%nat -> fst (nth j ps (0, [])) = regular a b n j) /\
      exists qs, sample_regular_range c a b n = Ok qs /\ map snd ps = qs.
  Proof.
    intros Hc He Hw Ha Hab Hb Hn. destruct (sample_regular_range_spec c a b n) as (qs & E & L & _); auto.
    unfold sample_regular_range_with_parameter. revert E. unfold sample_regular_range.
    assert (V : forall j, sadd a (smul (sofnat j) (sdiv (ssub b a) (ssub (sofnat n) sone))) = regular a b n j) by (intros j; rewrite !sofnat_R; reflexivity).
    assert (G : forall l qs, mapM (fun i => point_at c (sadd a (smul (sofnat i) (sdiv (ssub b a) (ssub (sofnat n) sone))))) l = Ok qs ->
      mapM (fun i => let t := sadd a (smul (sofnat i) (sdiv (ssub b a) (ssub (sofnat n) sone))) in p <- point_at c t ;; Ok (t, p)) l = Ok (combine (map (regular a b n) l) qs)).
    { set (g := fun i : nat => let t := sadd a (smul (sofnat i) (sdiv (ssub b a) (ssub (sofnat n) sone))) in p <- point_at c t ;; Ok (t, p)).
      induction l as [|x l IH]; intros rs E; [injection E as <-; reflexivity|]. cbn [mapM] in E |- *. apply bind_ok in E. destruct E as (p & Ep & E).
      apply bind_ok in E. destruct E as (t & Et & E). injection E as <-. rewrite (IH t Et).
      unfold g. cbv zeta. rewrite Ep. cbn [bind map combine]. now rewrite V. }
    intros E. eexists. split; [exact (G _ _ E)|]. split; [rewrite combine_length, map_length, seq_length; lia|]. split.
    - intros j Hj. rewrite combine_nth by (rewrite map_length, seq_length; lia). cbn [fst].
      rewrite (nth_map_lt _ _ j 0%nat) by (rewrite seq_length; lia). rewrite seq_nth by lia. reflexivity.
    - exists qs. split; [exact E|].
      assert (S : forall (A B : Type) (x : list A) (y : list B), length x = length y -> map snd (combine x y) = y).
      { induction x as [|x0 x IH]; intros [|y0 y] H; try discriminate; [reflexivity|]. cbn. f_equal. apply IH. now injection H. }
      apply S. rewrite map_length, seq_length. lia.
  Qed.

  (** ** Closedness *)
  Theorem is_closed_spec c : 0 <= eps -> curve_ok c -> curve_eps eps c -> pos_weights c -> separated eps (cknots c) ->
    exists b p q, is_closed c = Ok b /\ point_at c (dom0 c) = Ok p /\ point_at c (dom1 c) = Ok q /\
      (b = true <-> sqrt (dist2 p q) < 10 * eps).
  Proof.
    intros He Hc Hce Hw Hs. pose proof (dom_le c Hc) as Hd. pose proof (co_len c Hc) as Hl. pose proof (curve_len c Hc) as Hk.
    destruct (guess_points eps maxv c (dom0 c)) as (p & Ep & Lp & _); auto; [lra|].
    destruct (guess_points eps maxv c (dom1 c)) as (q & Eq & Lq & _); auto; [lra|].
    assert (K : forall x y, length y = length x -> sltb (vnorm (vsub x y)) (smul seps (sofnat 10)) = true <-> sqrt (dist2 x y) < 10 * eps).
    { intros x y L. rewrite (vnorm_dist2 eps maxv) by auto. rewrite sofnat_R. replace (INR 10) with 10 by (cbn; lra). rs.
      destruct (Rltb_spec (sqrt (dist2 x y)) (eps * 10)); split; intros; try discriminate; try reflexivity; lra. }
    destruct (is_clamped_iff eps maxv (cknots c) (cdeg c) He (ko_sorted _ _ _ (co_knots c Hc)) Hs ltac:(lia)) as (cl & Ecl & Hcl).
    unfold is_closed, curve_is_clamped. rewrite Ecl. cbn [bind]. destruct cl.
    - destruct (proj1 Hcl eq_refl) as (C0 & C1).
      assert (A0 : first_point c = Ok (affine_point c 0)).
      { apply (clamped_start eps maxv); auto; [|apply Rgt_not_eq, Hw; lia]. intros j Hj. rewrite !(kf_nth _ _ 0) by lia. now apply C0. }
      assert (A1 : end_point c = Ok (affine_point c (clast c))).
      { apply (clamped_end eps maxv); auto; [|apply Rgt_not_eq, Hw; unfold clast; lia]. intros j Hj. rewrite !(kf_nth _ _ 0) by lia.
        replace j with (length (cknots c) - 1 - (length (cknots c) - 1 - j))%nat by lia.
        replace (length (cpts c)) with (length (cknots c) - 1 - cdeg c)%nat by lia.
        rewrite !C1 by lia. reflexivity. }
      unfold first_point in A0. unfold end_point in A1. rewrite knots_domain_ok in A0, A1 by auto. cbn [bind] in A0, A1.
      rewrite Ep in A0. rewrite Eq in A1. injection A0 as A0. injection A1 as A1.
      unfold dehomogenized_control_points.
      rewrite (mapM_ok _ (fun p => vdivs (firstn (cdim c - 1) p) (coord (cdim c - 1) p))).
      + cbn [bind]. rewrite (get_ok _ 0 []) by (rewrite map_length; lia). cbn [bind]. rewrite usub_ok by lia. cbn [bind].
        rewrite (get_ok _ (length (cpts c) - 1) []) by (rewrite map_length; lia). cbn [bind].
        rewrite !(nth_map_lt _ _ _ []) by lia.
        change (vdivs (firstn (cdim c - 1) (nth 0 (cpts c) [])) (coord (cdim c - 1) (nth 0 (cpts c) []))) with (affine_point c 0).
        change (vdivs (firstn (cdim c - 1) (nth (length (cpts c) - 1) (cpts c) [])) (coord (cdim c - 1) (nth (length (cpts c) - 1) (cpts c) []))) with (affine_point c (clast c)).
        rewrite <- A0, <- A1. eexists _, p, q. split; [reflexivity|]. split; [exact Ep|]. split; [exact Eq|]. apply K. lia.
      + intros r Hr. unfold dehomogenize. apply (In_nth _ _ []) in Hr. destruct Hr as (j & Hj & <-). specialize (Hw j Hj).
        rewrite coord_rc. rs. unfold cpc in Hw. destruct (Reqb_spec (rc (cdim c - 1) (nth j (cpts c) [])) 0); [lra|reflexivity].
    - rewrite knots_domain_ok by auto. cbn [bind]. rewrite Ep. cbn [bind]. rewrite Eq. cbn [bind].
      eexists _, p, q. split; [reflexivity|]. split; [reflexivity|]. split; [reflexivity|]. apply K. lia.
  Qed.

  (** ** Clamping a clamped curve changes nothing *)
  Lemma find_first (m : list (R * nat)) x n : StronglySorted Rlt (run_keys m) -> In (x, n) m ->
    find (fun e => seqb (fst e) x) m = Some (x, n).
  Proof.
    induction m as [|(y, k) m IH]; intros S I; [destruct I|]. cbn [find fst]. rs. cbn [run_keys map fst] in S. inversion S as [|? ? S' F]; subst.
    destruct I as [I|I]; [injection I as -> ->; destruct (Reqb_spec x x); [reflexivity|lra]|].
    destruct (Reqb_spec y x) as [->|]; [|now apply IH]. exfalso. rewrite Forall_forall in F. apply (in_map fst) in I. specialize (F x I). lra.
  Qed.
  Theorem try_clamp_id c : 0 <= eps -> curve_ok c -> separated eps (cknots c) ->
    (forall j, (j <= cdeg c)%nat -> kf (cknots c) j = kf (cknots c) 0) ->
    (forall j, (length (cpts c) <= j <= length (cpts c) + cdeg c)%nat -> kf (cknots c) j = kf (cknots c) (length (cpts c))) ->
    try_clamp c = Ok c.
  Proof.
    intros He Hc Hs C0 C1. pose proof (curve_len c Hc) as Hk. pose proof (co_len c Hc) as Hl. pose proof (ko_sorted _ _ _ (co_knots c Hc)) as Hso.
    destruct (is_clamped_iff eps maxv (cknots c) (cdeg c) He Hso Hs ltac:(lia)) as (b & Eb & Hb).
    assert (b = true) as ->.
    { apply Hb. split; intros j Hj; rewrite <- !(kf_nth _ _ 0) by lia; [now apply C0|]. rewrite (C1 (length (cknots c) - 1 - j)%nat), (C1 (length (cknots c) - 1)%nat) by lia. reflexivity. }
    unfold is_clamped in Eb. apply bind_ok in Eb. destruct Eb as (m & Em & Eb).
    destruct (head m) as [(x, n)|] eqn:Eh; [|discriminate]. destruct (last (map Some m) None) as [(y, n')|] eqn:El; [|discriminate].
    injection Eb as Eb. apply andb_prop in Eb. destruct Eb as (B1 & B2). apply Nat.ltb_lt in B1, B2. cbn [snd] in *.
    destruct (multiplicity_exact eps maxv (cknots c) m He Hso Hs Em) as (X & S & P).
    assert (Ix : In (x, n) m) by (destruct m; [discriminate|injection Eh as ->; now left]).
    assert (Ly : exists l, m = l ++ [(y, n')]).
    { destruct m as [|a m _] using rev_ind; [discriminate|]. rewrite map_app in El. cbn [map] in El. rewrite last_last in El. injection El as ->. eauto. }
    destruct Ly as (l & Ly). assert (Iy : In (y, n') m) by (rewrite Ly; apply in_or_app; right; now left).
    assert (Ex : kfirst (cknots c) = Ok x).
    { unfold kfirst. rewrite (get_ok _ _ 0) by lia. f_equal. rewrite <- X. destruct m as [|? m]; [discriminate|]. injection Eh as ->. destruct n; [lia|]. reflexivity. }
    assert (Ey : klast (cknots c) = Ok y).
    { unfold klast. rewrite usub_ok by lia. cbn [bind]. rewrite (get_ok _ _ 0) by lia. f_equal. rewrite <- X, Ly.
      assert (EA : expand (l ++ [(y, n')]) = expand l ++ repeat y n') by (now rewrite expand_app, expand_single).
      rewrite EA, app_length, repeat_length, app_nth2 by lia. apply nth_repeat_lt. lia. }
    unfold try_clamp. rewrite Ex, Ey. cbn [bind]. rewrite Em. cbn [bind]. unfold knot_count. rewrite (find_first m x n S Ix), (find_first m y n' S Iy).
    cbn [option_map ok_or bind snd]. unfold for_incl. replace (Datatypes.S (cdeg c) - n)%nat with 0%nat by lia. cbn [for_ bind].
    replace (Datatypes.S (cdeg c) - n')%nat with 0%nat by lia. reflexivity.
  Qed.
End Real.

(** ** Clamping an unclamped curve enlarges its domain *)
From Coq Require Import Floats.
Section Float.
  Local Existing Instance FOps.
  Open Scope float_scope.
  Definition uniform_quadratic : Curve float := MkCurve 3 2 [[0; 0; 1]; [1; 2; 1]; [3; 1; 1]; [4; 4; 1]; [6; 0; 1]] [0; 1; 2; 3; 4; 5; 6; 7].
  Theorem try_clamp_unclamped_refuted : exists (c c' : Curve float),
    knots_domain c = Ok (2, 5) /\ first_point c = Ok [0.5; 1] /\
    try_clamp c = Ok c' /\ knots_domain c' = Ok (0, 7) /\ first_point c' = Ok [0; 0].
  Proof. exists uniform_quadratic. eexists. repeat (split; [vm_compute; reflexivity|]). vm_compute. reflexivity. Qed.

  Theorem sample_once_refuted : exists (c : Curve float) p, curve_is_clamped c = Ok true /\ first_point c = Ok [0; 0] /\
    sample_regular_range c 0 2 1 = Ok [p] /\ (nth 0 p 0 =? nth 0 p 0) = false.
  Proof.
    exists (MkCurve 3 1 [[0; 0; 1]; [1; 2; 1]; [3; 1; 1]] [0; 0; 1; 2; 2]). eexists. repeat (split; [vm_compute; reflexivity|]). vm_compute. reflexivity.
  Qed.
End Float.
