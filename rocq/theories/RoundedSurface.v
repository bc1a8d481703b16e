(** * Rounding errors of surface evaluation (C81) *)
From Coq Require Import Reals Lra Lia ZArith Bool List Sorted.
From Verif Require Import Base BaseFacts Scalar RSum BSplineSpec BSpline KnotModel KnotSpec KnotFacts KnotProofs
  VecFacts MiscModel CurveModel CurveSpec CurveProofs CurveGeom SurfaceModel SurfaceSpec SurfaceProofs SurfaceShapes
  Rounding RoundedEval.
Import ListNotations.
Open Scope R_scope.

(** the window of one span is the whole sum *)
Lemma window_sum k p n s u g : knots_ok p n k -> (p <= s <= n)%nat -> in_span k n s u ->
  rsum (S p) (fun r => bs (kf k) s p (s - p + r) u * g (s - p + r)%nat) =
  rsum (S n) (fun j => cox_closed (kf k) (kf k (S n)) p j u * g j).
Proof.
  intros Hk Hs (G1 & G2 & G3). transitivity (piece (kf k) p (S n) g s u); [symmetry; apply piece_window; lia|]. unfold piece.
  apply rsum_ext. intros j Hj. f_equal. symmetry. apply (cox_closed_bs _ _ n); auto; [|lia].
  apply sorted_mono, (ko_sorted _ _ _ Hk).
Qed.

Section Rounded.
  Variables (mu : R) (rnd : R -> R) (eps maxv : R).
  Hypothesis Hr : rounding mu rnd.
  Local Hint Extern 0 (Scalar R) => exact (FlOps rnd eps maxv) : typeclass_instances.
  Notation ap := (ap mu).
  Notation near := (near mu).

  Definition shabs (s : Surf R) (i : nat) (u v : R) : R :=
    rsum (nrow s) (fun a => rsum (ncol s) (fun b => Nu s a u * Nv s b v * Rabs (spc s i a b))).

  Lemma window_sum2 s su sv u v g : surf_ok s ->
    (sdu s <= su <= nrow s - 1)%nat -> (sdv s <= sv <= ncol s - 1)%nat ->
    in_span (suk s) (nrow s - 1) su u -> in_span (svk s) (ncol s - 1) sv v ->
    rsum (S (sdv s)) (fun l => rsum (S (sdu s)) (fun k => bs (kf (suk s)) su (sdu s) (su - sdu s + k) u * g (su - sdu s + k)%nat (sv - sdv s + l)%nat)
                               * bs (kf (svk s)) sv (sdv s) (sv - sdv s + l) v)
    = rsum (nrow s) (fun a => rsum (ncol s) (fun b => Nu s a u * Nv s b v * g a b)).
  Proof.
    intros H Hsu Hsv Iu Iv. pose proof (so_u s H). pose proof (so_v s H).
    rewrite rsum_swap.
    transitivity (rsum (S (sdv s)) (fun l => bs (kf (svk s)) sv (sdv s) (sv - sdv s + l) v *
       (fun b => rsum (nrow s) (fun a => Nu s a u * g a b)) (sv - sdv s + l)%nat)).
    - apply rsum_ext. intros l Hl. rewrite Rmult_comm. f_equal.
      rewrite (window_sum _ _ _ _ _ (fun a => g a (sv - sdv s + l)%nat) (so_uk s H) Hsu Iu).
      replace (S (nrow s - 1)) with (nrow s) by lia. reflexivity.
    - rewrite (window_sum _ _ _ _ _ (fun b => rsum (nrow s) (fun a => Nu s a u * g a b)) (so_vk s H) Hsv Iv).
      replace (S (ncol s - 1)) with (ncol s) by lia. apply rsum_ext. intros b Hb. fold (v1 s). fold (Nv s b v).
      rewrite <- rsum_scal. apply rsum_ext. intros a Ha. ring.
  Qed.

  Lemma dir_rounded k p n u : knots_ok p n k -> eps_ok eps p n k -> machine rnd k -> kf k p <= u <= kf k (S n) ->
    exists sp b, find_span k n p u = Ok sp /\ (p <= sp <= n)%nat /\ in_span k n sp u /\
      basis_functions k sp u p = Ok b /\ length b = S p /\
      forall r, (r <= p)%nat -> ap (6 * p) (nth r b 0) (bs (kf k) sp p (sp - p + r) u).
  Proof.
    intros Hk He Hm Hu.
    destruct (find_span_rounded mu rnd eps maxv Hr k p n u Hk He Hm) as (sp & E & Hs & Hin).
    { now rewrite Nat.add_1_r. }
    destruct (basis_functions_rounded mu rnd eps maxv Hr k sp p u) as (b & Eb & Lb & Vb).
    - apply (sorted_mono k). apply Hk.
    - apply Hin.
    - apply (in_span_le _ _ _ _ Hin).
    - lia.
    - pose proof (ko_len _ _ _ Hk). lia.
    - exists sp, b. auto 10.
  Qed.

  Theorem surf_point_rounded s u v :
    surf_ok s -> surf_eps eps s -> machine rnd (suk s) -> machine rnd (svk s) -> spos s -> in_dom s u v ->
    exists p, surf_point s u v = Ok p /\ length p = sdim s /\
      (forall i, near (7 * sdu s + 7 * sdv s + 4) (rc i p) (shcoord s i u v) (shabs s i u v)) /\
      ap (7 * sdu s + 7 * sdv s + 4) (rc (sdim s - 1) p) (swfun s u v).
  Proof.
    intros H (Eu & Ev) Mu Mv Hw (Hu & Hv). pose proof (so_u s H). pose proof (so_v s H). pose proof (so_dim s H).
    unfold surf_point. rewrite (klast_index_ok _ _ _ (so_uk s H)). cbn [bind].
    rewrite (klast_index_ok _ _ _ (so_vk s H)). cbn [bind].
    destruct (dir_rounded (suk s) (sdu s) (nrow s - 1) u (so_uk s H) Eu Mu) as (su & bu & Es & Hs & Is & Eb & Lb & Vb).
    { unfold u0, u1 in Hu. replace (S (nrow s - 1)) with (nrow s) by lia. exact Hu. }
    destruct (dir_rounded (svk s) (sdv s) (ncol s - 1) v (so_vk s H) Ev Mv) as (sv & bv & Es' & Hs' & Is' & Eb' & Lb' & Vb').
    { unfold v0, v1 in Hv. replace (S (ncol s - 1)) with (ncol s) by lia. exact Hv. }
    rewrite Es. cbn [bind]. rewrite Es'. cbn [bind]. rewrite Eb. cbn [bind]. rewrite Eb'. cbn [bind].
    rewrite usub_ok by lia. cbn [bind]. rewrite usub_ok by lia. cbn [bind].
    unfold surf_combine.
    assert (Z : forall i, rc i (vzero (sdim s)) = 0) by (intros i; apply (rc_vzero eps maxv)).
    set (p := sdu s) in *. set (q := sdv s) in *. set (ui := (su - p)%nat). set (vi := (sv - q)%nat).
    set (B := fun k => bs (kf (suk s)) su p (ui + k) u). set (C := fun l => bs (kf (svk s)) sv q (vi + l) v).
    set (w := (sdim s - 1)%nat) in *.
    match goal with |- context [for_incl 0 q ?g _] => set (f := g) end.
    destruct (for_incl_rule
      (fun l pos => length pos = sdim s /\
        (forall i, near (7 * p + 6 * q + 3 + l) (rc i pos)
                     (rsum l (fun l => rsum (S p) (fun k => B k * spc s i (ui + k) (vi + l)) * C l))
                     (rsum l (fun l => rsum (S p) (fun k => B k * Rabs (spc s i (ui + k) (vi + l))) * C l))) /\
        ap (7 * p + 6 * q + 3 + l) (rc w pos) (rsum l (fun l => rsum (S p) (fun k => B k * spc s w (ui + k) (vi + l)) * C l)))
      0 q f (vzero (sdim s))) as (pt & Ep & Lp & Hp & Hpw).
    - lia.
    - split; [apply vzero_length|]. split.
      + intros i. rewrite Z. cbn [rsum]. apply (near_weak mu rnd Hr 0); [lia|]. apply near_0.
      + rewrite Z. cbn [rsum]. apply (ap_weak mu rnd Hr 0); [lia|]. apply ap_exact. lra.
    - intros l pos Hl (Lpos & Hpos & Hposw). unfold f.
      match goal with |- context [for_incl 0 p ?g _] => set (g' := g) end.
      destruct (for_incl_rule
        (fun k tmp => length tmp = sdim s /\
          (forall i, near (6 * p + 1 + k) (rc i tmp) (rsum k (fun k => B k * spc s i (ui + k) (vi + l)))
                       (rsum k (fun k => B k * Rabs (spc s i (ui + k) (vi + l))))) /\
          ap (6 * p + 1 + k) (rc w tmp) (rsum k (fun k => B k * spc s w (ui + k) (vi + l))))
        0 p g' (vzero (sdim s))) as (t & Et & Lt & Ht & Htw).
      + lia.
      + split; [apply vzero_length|]. split.
        * intros i. rewrite Z. cbn [rsum]. apply (near_weak mu rnd Hr 0); [lia|]. apply near_0.
        * rewrite Z. cbn [rsum]. apply (ap_weak mu rnd Hr 0); [lia|]. apply ap_exact. lra.
      + intros k tmp Hk (Lt & Ht & Htw). unfold g'.
        rewrite (get_ok (snet s) _ []) by (unfold nrow in *; lia). cbn [bind].
        rewrite (get_ok _ (vi + l) []) by (rewrite row_len by (auto; lia); lia). cbn [bind].
        rewrite (get_ok bu k 0) by lia. cbn [bind].
        assert (Lk : length (nth (vi + l) (nth (ui + k) (snet s) []) []) = sdim s) by (apply net_pt; auto; lia).
        eexists. split; [reflexivity|]. split; [apply vadd_length; [exact Lt|now apply vscale_length]|].
        pose proof (Vb k ltac:(lia)) as Bk. fold ui in Bk. fold (B k) in Bk.
        replace (6 * p + 1 + S k)%nat with (S (6 * p + 1 + k)) by lia. split.
        * intros i. rewrite (rcf_vadd mu rnd eps maxv Hr) by (rewrite (vscale_length _ _ _ Lk); lia). rewrite (rcf_vscale mu rnd eps maxv Hr). cbn [rsum].
          apply near_step; [exact Hr|]. apply near_add; [apply Ht|].
          apply (near_weak mu rnd Hr (S (6 * p))); [lia|]. apply near_step; [exact Hr|].
          fold (spc s i (ui + k) (vi + l)). rewrite (Rmult_comm (B k) (spc s i _ _)), (Rmult_comm (B k) (Rabs _)).
          apply (near_scale mu rnd Hr 0 (6 * p)); [apply near_exact|exact Bk].
        * rewrite (rcf_vadd mu rnd eps maxv Hr) by (rewrite (vscale_length _ _ _ Lk); lia). rewrite (rcf_vscale mu rnd eps maxv Hr). cbn [rsum].
          apply ap_step; [exact Hr|]. apply ap_add; [exact Htw|].
          apply (ap_weak mu rnd Hr (S (6 * p))); [lia|]. apply ap_step; [exact Hr|].
          fold (spc s w (ui + k) (vi + l)). rewrite (Rmult_comm (B k) (spc s w _ _)).
          apply (ap_mul mu rnd Hr 0 (6 * p)); [|exact Bk]. apply ap_exact. apply Rlt_le, Hw; lia.
      + rewrite Et. cbn [bind]. rewrite (get_ok bv l 0) by lia. cbn [bind].
        eexists. split; [reflexivity|]. split; [apply vadd_length; [exact Lpos|now apply vscale_length]|].
        pose proof (Vb' l ltac:(lia)) as Cl. fold vi in Cl. fold (C l) in Cl.
        replace (7 * p + 6 * q + 3 + S l)%nat with (S (7 * p + 6 * q + 3 + l)) by lia. split.
        * intros i. rewrite (rcf_vadd mu rnd eps maxv Hr) by (rewrite (vscale_length _ _ _ Lt); lia). rewrite (rcf_vscale mu rnd eps maxv Hr).
          cbn [rsum]. apply near_step; [exact Hr|]. apply near_add; [apply Hpos|].
          apply (near_weak mu rnd Hr (S ((6 * p + 1 + S p) + 6 * q))); [lia|]. apply near_step; [exact Hr|].
          apply (near_scale mu rnd Hr); [apply Ht|exact Cl].
        * rewrite (rcf_vadd mu rnd eps maxv Hr) by (rewrite (vscale_length _ _ _ Lt); lia). rewrite (rcf_vscale mu rnd eps maxv Hr).
          cbn [rsum]. apply ap_step; [exact Hr|]. apply ap_add; [exact Hposw|].
          apply (ap_weak mu rnd Hr (S ((6 * p + 1 + S p) + 6 * q))); [lia|]. apply ap_step; [exact Hr|].
          apply (ap_mul mu rnd Hr); [exact Htw|exact Cl].
    - exists pt. split; [exact Ep|]. split; [exact Lp|].
      replace (7 * p + 6 * q + 3 + S q)%nat with (7 * p + 7 * q + 4)%nat in * by lia.
      assert (W : forall g, rsum (S q) (fun l => rsum (S p) (fun k => B k * g (ui + k)%nat (vi + l)%nat) * C l) =
                  rsum (nrow s) (fun a => rsum (ncol s) (fun b => Nu s a u * Nv s b v * g a b)))
        by (intros g; now apply window_sum2).
      split.
      + intros i. specialize (Hp i). rewrite (W (spc s i)), (W (fun a b => Rabs (spc s i a b))) in Hp. exact Hp.
      + rewrite (W (spc s w)) in Hpw. exact Hpw.
  Qed.

  Theorem surf_point_at_rounded s u v :
    surf_ok s -> surf_eps eps s -> machine rnd (suk s) -> machine rnd (svk s) -> spos s -> in_dom s u v ->
    exists p, surf_point_at s u v = Ok p /\ length p = (sdim s - 1)%nat /\
      forall i M, (i < sdim s - 1)%nat ->
        (forall a b, (a < nrow s)%nat -> (b < ncol s)%nat -> Rabs (spc s i a b / spc s (sdim s - 1) a b) <= M) ->
        Rabs (rc i p - snurbs s i u v) <= gam mu (14 * (sdu s + sdv s) + 9) * M.
  Proof.
    intros H He Mu Mv Hw Hd. destruct (surf_point_rounded s u v H He Mu Mv Hw Hd) as (p & Ep & Lp & Hp & Hpw).
    pose proof (swfun_pos eps maxv s u v H He Hw Hd) as W.
    pose proof (ap_pos mu rnd Hr _ _ _ Hpw W) as W'. destruct Hd as (Hu & Hv).
    unfold surf_point_at. rewrite Ep. cbn [bind]. unfold dehomogenize.
    change (coord (sdim s - 1) p) with (rc (sdim s - 1) p). fs.
    destruct (Reqb_spec (rc (sdim s - 1) p) 0) as [Z|_]; [lra|].
    cbn [unwrap]. eexists. split; [reflexivity|].
    assert (LF : length (firstn (sdim s - 1) p) = (sdim s - 1)%nat) by (rewrite firstn_length; lia).
    split; [now apply vdivs_length|].
    intros i M Hi HM. rewrite (rcf_vdivs rnd eps maxv) by lia. rewrite rc_firstn by lia.
    assert (HN : near (14 * (sdu s + sdv s) + 9) (rnd (rc i p / rc (sdim s - 1) p)) (snurbs s i u v) M); [|exact (proj2 HN)].
    apply (near_bound mu rnd Hr _ _ _ (shabs s i u v / swfun s u v)).
    - apply Rmult_le_reg_r with (swfun s u v); [exact W|]. unfold Rdiv. rewrite Rmult_assoc, Rinv_l, Rmult_1_r by lra.
      unfold swfun, shcoord, shabs. rewrite <- rsum_scal. apply rsum_le. intros a Ha.
      rewrite <- rsum_scal. apply rsum_le. intros b Hb.
      pose proof (Hw a b Ha Hb) as Wj. specialize (HM a b Ha Hb).
      assert (NN : 0 <= Nu s a u * Nv s b v) by (apply Rmult_le_pos; [now apply Nu_nonneg|now apply Nv_nonneg]).
      assert (B : Rabs (spc s i a b) <= M * spc s (sdim s - 1) a b).
      { unfold Rdiv in HM. rewrite Rabs_mult, Rabs_inv, (Rabs_right (spc s (sdim s - 1) a b)) in HM by lra.
        apply Rmult_le_compat_r with (r := spc s (sdim s - 1) a b) in HM; [|lra].
        rewrite Rmult_assoc, Rinv_l, Rmult_1_r in HM by lra. exact HM. }
      apply Rle_trans with (Nu s a u * Nv s b v * (M * spc s (sdim s - 1) a b)); [|lra].
      now apply Rmult_le_compat_l.
    - replace (14 * (sdu s + sdv s) + 9)%nat with (S ((7 * sdu s + 7 * sdv s + 4) + (7 * sdu s + 7 * sdv s + 4))) by lia.
      apply near_step; [exact Hr|]. apply (near_div mu rnd Hr); [exact W|apply Hp|exact Hpw].
  Qed.
End Rounded.
