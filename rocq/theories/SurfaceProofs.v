(** * Evaluation of surfaces (C48) *)
From Coq Require Import Reals Lra Lia ZArith Bool.
From Verif Require Import Base BaseFacts Scalar RSum BSplineSpec BSpline KnotModel KnotSpec KnotFacts
  KnotProofs VecFacts MiscModel CurveModel CurveSpec CurveProofs CurveGeom SurfaceModel SurfaceSpec.
Open Scope R_scope.

Lemma row_len s a : surf_ok s -> (a < nrow s)%nat -> length (nth a (snet s) []) = ncol s.
Proof. intros H Ha. apply (Forall_nth (fun r => length r = ncol s)); [apply H|exact Ha]. Qed.
Lemma net_pt s a b : surf_ok s -> (a < nrow s)%nat -> (b < ncol s)%nat ->
  length (nth b (nth a (snet s) []) []) = sdim s.
Proof.
  intros H Ha Hb. apply (Forall_nth (fun p => length p = sdim s)).
  - apply (Forall_nth (Forall (fun p => length p = sdim s))); [apply H|exact Ha].
  - now rewrite row_len.
Qed.

Lemma vrow_ok s a : surf_ok s -> (a < nrow s)%nat -> curve_ok (vrow s a).
Proof.
  intros H Ha. constructor; cbn [vrow cdim cpts cdeg cknots]; unfold clast; cbn [vrow cpts].
  - apply H.
  - apply (Forall_nth (Forall (fun p => length p = sdim s))); [apply H|exact Ha].
  - rewrite row_len by auto. apply H.
  - rewrite row_len by auto. apply H.
Qed.
Lemma ucol_ok s b : surf_ok s -> (b < ncol s)%nat -> curve_ok (ucol s b).
Proof.
  intros H Hb. constructor; cbn [ucol cdim cpts cdeg cknots]; unfold clast; cbn [ucol cpts];
    rewrite ?map_length.
  - apply H.
  - apply Forall_map, Forall_forall. intros row Hin. apply (Forall_nth (fun p => length p = sdim s)).
    + pose proof (so_pts s H) as F. rewrite Forall_forall in F. now apply F.
    + pose proof (so_rect s H) as F. rewrite Forall_forall in F. now rewrite F.
  - apply H.
  - apply H.
Qed.

Lemma vrow_eps e s a : surf_ok s -> (a < nrow s)%nat -> surf_eps e s -> curve_eps e (vrow s a).
Proof.
  intros H Ha [_ He]. unfold curve_eps, clast. cbn [vrow cpts cdeg cknots]. now rewrite row_len.
Qed.
Lemma ucol_eps e s b : surf_eps e s -> curve_eps e (ucol s b).
Proof.
  intros [He _]. unfold curve_eps, clast. cbn [ucol cpts cdeg cknots]. now rewrite map_length.
Qed.

Lemma vrow_cpc s a i b : cpc (vrow s a) i b = spc s i a b.
Proof. reflexivity. Qed.
Lemma ucol_cpc s a i b : (a < nrow s)%nat -> cpc (ucol s b) i a = spc s i a b.
Proof.
  intros Ha. unfold cpc, spc. cbn [ucol cpts].
  rewrite (nth_map_lt (fun row => nth b row []) _ _ [] []) by exact Ha. reflexivity.
Qed.
Lemma vrow_dom s a : surf_ok s -> (a < nrow s)%nat -> dom0 (vrow s a) = v0 s /\ dom1 (vrow s a) = v1 s.
Proof.
  intros H Ha. unfold dom0, dom1, v0, v1. cbn [vrow cpts cdeg cknots]. now rewrite row_len.
Qed.
Lemma ucol_dom s b : dom0 (ucol s b) = u0 s /\ dom1 (ucol s b) = u1 s.
Proof.
  unfold dom0, dom1, u0, u1. cbn [ucol cpts cdeg cknots]. now rewrite map_length.
Qed.

(** a surface is a blend of its row curves, and of its column curves *)
Lemma shcoord_rows s i u v : surf_ok s ->
  shcoord s i u v = rsum (nrow s) (fun a => Nu s a u * hcoord (vrow s a) i v).
Proof.
  intros H. unfold shcoord. apply rsum_ext. intros a Ha. unfold hcoord.
  rewrite (proj2 (vrow_dom s a H Ha)). cbn [vrow cpts cdeg cknots]. rewrite row_len by auto.
  rewrite <- rsum_scal. apply rsum_ext. intros b Hb. rewrite vrow_cpc. unfold Nv. ring.
Qed.
Lemma shcoord_cols s i u v : surf_ok s ->
  shcoord s i u v = rsum (ncol s) (fun b => Nv s b v * hcoord (ucol s b) i u).
Proof.
  intros H. unfold shcoord. rewrite rsum_swap. apply rsum_ext. intros b Hb. unfold hcoord.
  rewrite (proj2 (ucol_dom s b)). cbn [ucol cpts cdeg cknots]. rewrite map_length.
  rewrite <- rsum_scal. apply rsum_ext. intros a Ha.
  change (MkCurve (sdim s) (sdu s) (map (fun row => nth b row []) (snet s)) (suk s)) with (ucol s b).
  rewrite ucol_cpc by auto. unfold Nu. ring.
Qed.

(** combination of a window of the net with arbitrary coefficients *)
Definition win2 (s : Surf R) (i ui vi : nat) (bu bv : nat -> R) : R :=
  rsum (S (sdv s)) (fun l => rsum (S (sdu s)) (fun k => bu k * spc s i (ui + k) (vi + l)) * bv l).

Section Real.
  Variables eps maxv : R.
  Local Hint Extern 0 (Scalar R) => exact (ROps eps maxv) : typeclass_instances.

  Lemma surf_combine_spec s ui vi (bu bv : list R) :
    surf_ok s -> (ui + sdu s < nrow s)%nat -> (vi + sdv s < ncol s)%nat ->
    length bu = S (sdu s) -> length bv = S (sdv s) ->
    exists p, surf_combine s ui vi bu bv = Ok p /\ length p = sdim s /\
      forall i, rc i p = win2 s i ui vi (fun k => nth k bu 0) (fun l => nth l bv 0).
  Proof.
    intros H Hu Hv Lu Lv. unfold surf_combine.
    match goal with |- context [for_incl 0 (sdv s) ?g _] => set (f := g) end.
    destruct (for_incl_rule
      (fun l pos => length pos = sdim s /\ forall i, rc i pos =
         rsum l (fun l => rsum (S (sdu s)) (fun k => nth k bu 0 * spc s i (ui + k) (vi + l)) * nth l bv 0))
      0 (sdv s) f (vzero (sdim s))) as (p & Ep & Lp & Hp).
    - lia.
    - split; [apply vzero_length|]. intros i. apply rc_vzero.
    - intros l pos Hl (Lpos & Hpos). unfold f.
      match goal with |- context [for_incl 0 (sdu s) ?g _] => set (g' := g) end.
      destruct (for_incl_rule
        (fun k tmp => length tmp = sdim s /\ forall i, rc i tmp =
           rsum k (fun k => nth k bu 0 * spc s i (ui + k) (vi + l)))
        0 (sdu s) g' (vzero (sdim s))) as (q & Eq & Lq & Hq).
      + lia.
      + split; [apply vzero_length|]. intros i. apply rc_vzero.
      + intros k tmp Hk (Lt & Ht). unfold g'.
        rewrite (get_ok (snet s) _ []) by (unfold nrow in Hu; lia). cbn [bind].
        rewrite (get_ok _ (vi + l) []) by (rewrite row_len by (auto; lia); lia). cbn [bind].
        rewrite (get_ok bu k 0) by lia. cbn [bind].
        assert (Lp : length (nth (vi + l) (nth (ui + k) (snet s) []) []) = sdim s)
          by (apply net_pt; auto; lia).
        eexists. split; [reflexivity|]. split.
        * apply vadd_length; [exact Lt|now apply vscale_length].
        * intros i. rewrite rc_vadd by (rewrite (vscale_length _ _ _ Lp); lia).
          rewrite rc_vscale, Ht. cbn [rsum]. unfold spc. lra.
      + rewrite Eq. cbn [bind]. rewrite (get_ok bv l 0) by lia. cbn [bind].
        eexists. split; [reflexivity|]. split.
        * apply vadd_length; [exact Lpos|now apply vscale_length].
        * intros i. rewrite rc_vadd by (rewrite (vscale_length _ _ _ Lq); lia).
          rewrite rc_vscale, Hpos, Hq. reflexivity.
    - exists p. split; [exact Ep|]. split; [exact Lp|]. intros i. apply Hp.
  Qed.

  (** the window of the basis functions of two spans is the whole tensor-product sum *)
  Lemma win2_full s i su sv u v : surf_ok s ->
    (sdu s <= su <= nrow s - 1)%nat -> (sdv s <= sv <= ncol s - 1)%nat ->
    in_span (suk s) (nrow s - 1) su u -> in_span (svk s) (ncol s - 1) sv v ->
    win2 s i (su - sdu s) (sv - sdv s)
      (fun k => bs (kf (suk s)) su (sdu s) (su - sdu s + k) u)
      (fun l => bs (kf (svk s)) sv (sdv s) (sv - sdv s + l) v) = shcoord s i u v.
  Proof.
    intros H Hsu Hsv Iu Iv. pose proof (so_u s H). pose proof (so_v s H).
    rewrite shcoord_cols by auto. unfold win2.
    rewrite (rsum_window (ncol s) (sv - sdv s) (S (sdv s))).
    - apply rsum_ext. intros l Hl.
      rewrite <- (piece_hcoord (ucol s (sv - sdv s + l)) su i u).
      2:{ apply ucol_ok; auto; lia. }
      2:{ unfold clast. cbn [ucol cpts cknots]. rewrite map_length. exact Iu. }
      2:{ unfold clast. cbn [ucol cpts]. rewrite map_length. apply Hsu. }
      cbn [ucol cpts cdeg cknots]. rewrite map_length.
      rewrite piece_window by (unfold nrow in *; lia).
      rewrite Rmult_comm. f_equal.
      + unfold Nv. symmetry. apply (cox_closed_bs _ _ (ncol s - 1)); try apply Iv; try lia.
        * apply (sorted_mono (svk s)). apply (so_vk s H).
        * unfold v1. replace (S (ncol s - 1)) with (ncol s) by lia. reflexivity.
      + apply rsum_ext. intros k Hk.
        change (MkCurve (sdim s) (sdu s) (map (fun row => nth (sv - sdv s + l) row []) (snet s)) (suk s))
          with (ucol s (sv - sdv s + l)).
        rewrite ucol_cpc by lia. reflexivity.
    - lia.
    - intros b Hb Hor. unfold Nv.
      rewrite (cox_closed_bs _ _ (ncol s - 1) sv); try apply Iv; try lia.
      + rewrite bs_support by lia. ring.
      + apply (sorted_mono (svk s)). apply (so_vk s H).
      + unfold v1. replace (S (ncol s - 1)) with (ncol s) by lia. reflexivity.
  Qed.

  Lemma klast_index_ok k p n : knots_ok p n k -> klast_index k p = Ok n.
  Proof.
    intros H. pose proof (ko_len _ _ _ H). unfold klast_index. rewrite usub_ok by lia. cbn [bind].
    rewrite usub_ok by lia. f_equal. lia.
  Qed.

  (** span search and basis functions of one direction *)
  Lemma dir_basis k p n u : knots_ok p n k -> eps_ok eps p n k -> kf k p <= u <= kf k (S n) ->
    exists sp b, find_span k n p u = Ok sp /\ (p <= sp <= n)%nat /\ in_span k n sp u /\
      basis_functions k sp u p = Ok b /\ length b = S p /\
      forall r, (r <= p)%nat -> nth r b 0 = bs (kf k) sp p (sp - p + r) u.
  Proof.
    intros Hk He Hu.
    destruct (find_span_brackets eps maxv k p n u Hk He) as (sp & E & Hs & Hin).
    { now rewrite Nat.add_1_r. }
    destruct (basis_functions_real eps maxv k sp p u) as (b & Eb & Lb & Vb).
    - apply (sorted_mono k). apply Hk.
    - apply Hin.
    - lia.
    - pose proof (ko_len _ _ _ Hk). lia.
    - exists sp, b. auto 10.
  Qed.

  Lemma win2_ext s i ui vi f f' g g' :
    (forall k, (k <= sdu s)%nat -> f k = f' k) -> (forall l, (l <= sdv s)%nat -> g l = g' l) ->
    win2 s i ui vi f g = win2 s i ui vi f' g'.
  Proof.
    intros Hf Hg. unfold win2. apply rsum_ext. intros l Hl. rewrite Hg by lia. f_equal.
    apply rsum_ext. intros k Hk. now rewrite Hf by lia.
  Qed.

  Theorem surf_point_spec s u v : surf_ok s -> surf_eps eps s -> in_dom s u v ->
    exists p, surf_point s u v = Ok p /\ length p = sdim s /\ forall i, rc i p = shcoord s i u v.
  Proof.
    intros H (Eu & Ev) (Hu & Hv). pose proof (so_u s H). pose proof (so_v s H).
    unfold surf_point. rewrite (klast_index_ok _ _ _ (so_uk s H)). cbn [bind].
    rewrite (klast_index_ok _ _ _ (so_vk s H)). cbn [bind].
    destruct (dir_basis (suk s) (sdu s) (nrow s - 1) u (so_uk s H) Eu)
      as (su & bu & Es & Hs & Is & Eb & Lb & Vb).
    { unfold u0, u1 in Hu. replace (S (nrow s - 1)) with (nrow s) by lia. exact Hu. }
    destruct (dir_basis (svk s) (sdv s) (ncol s - 1) v (so_vk s H) Ev)
      as (sv & bv & Es' & Hs' & Is' & Eb' & Lb' & Vb').
    { unfold v0, v1 in Hv. replace (S (ncol s - 1)) with (ncol s) by lia. exact Hv. }
    rewrite Es. cbn [bind]. rewrite Es'. cbn [bind]. rewrite Eb. cbn [bind]. rewrite Eb'. cbn [bind].
    rewrite usub_ok by lia. cbn [bind]. rewrite usub_ok by lia. cbn [bind].
    destruct (surf_combine_spec s (su - sdu s) (sv - sdv s) bu bv H) as (p & Ep & Lp & Hp); auto; try lia.
    exists p. split; [exact Ep|]. split; [exact Lp|]. intros i. rewrite Hp.
    rewrite <- (win2_full s i su sv u v) by auto. apply win2_ext; intros; [apply Vb|apply Vb']; lia.
  Qed.

  Lemma Nu_nonneg s a u : surf_ok s -> u0 s <= u <= u1 s -> 0 <= Nu s a u.
  Proof.
    intros H Hu. pose proof (so_v s H). pose proof (ucol_ok s 0 H ltac:(lia)) as Hc.
    pose proof (cox_nonneg (ucol s 0) a u Hc) as G. destruct (ucol_dom s 0) as (D0 & D1).
    rewrite D0, D1 in G. now apply G.
  Qed.
  Lemma Nu_sum s u : surf_ok s -> u0 s <= u <= u1 s -> rsum (nrow s) (fun a => Nu s a u) = 1.
  Proof.
    intros H Hu. pose proof (so_v s H). pose proof (ucol_ok s 0 H ltac:(lia)) as Hc.
    pose proof (cox_sum (ucol s 0) u Hc) as G. destruct (ucol_dom s 0) as (D0 & D1).
    rewrite D0, D1 in G. cbn [ucol cpts] in G. rewrite map_length in G. now apply G.
  Qed.
  Lemma Nv_nonneg s b v : surf_ok s -> v0 s <= v <= v1 s -> 0 <= Nv s b v.
  Proof.
    intros H Hv. pose proof (so_u s H). pose proof (vrow_ok s 0 H ltac:(lia)) as Hc.
    pose proof (cox_nonneg (vrow s 0) b v Hc) as G. destruct (vrow_dom s 0 H ltac:(lia)) as (D0 & D1).
    rewrite D0, D1 in G. now apply G.
  Qed.
  Lemma Nv_sum s v : surf_ok s -> v0 s <= v <= v1 s -> rsum (ncol s) (fun b => Nv s b v) = 1.
  Proof.
    intros H Hv. pose proof (so_u s H). pose proof (vrow_ok s 0 H ltac:(lia)) as Hc.
    pose proof (cox_sum (vrow s 0) v Hc) as G. destruct (vrow_dom s 0 H ltac:(lia)) as (D0 & D1).
    rewrite D0, D1 in G. cbn [vrow cpts] in G. rewrite row_len in G by (auto; lia). now apply G.
  Qed.

  Lemma rsum_exists_pos n f : 0 < rsum n f -> exists j, (j < n)%nat /\ 0 < f j.
  Proof.
    induction n as [|n IH]; cbn [rsum]; intros Hp; [lra|].
    destruct (Rle_lt_dec (f n) 0) as [C|C].
    - destruct IH as (j & J1 & J2); [lra|]. exists j; split; auto.
    - exists n; auto.
  Qed.

  Lemma swfun_pos s u v : surf_ok s -> surf_eps eps s -> spos s -> in_dom s u v -> 0 < swfun s u v.
  Proof.
    intros H He Hw (Hu & Hv). unfold swfun. rewrite shcoord_rows by auto.
    assert (Wr : forall a, (a < nrow s)%nat -> 0 < hcoord (vrow s a) (sdim s - 1) v).
    { intros a Ha. apply (wfun_pos eps maxv (vrow s a)).
      - now apply vrow_ok.
      - now apply vrow_eps.
      - intros b Hb. cbn [vrow cpts cdim] in *. rewrite vrow_cpc. apply Hw; auto.
        now rewrite row_len in Hb.
      - destruct (vrow_dom s a H Ha) as (-> & ->). exact Hv. }
    destruct (rsum_exists_pos (nrow s) (fun a => Nu s a u)) as (a & Ha & Pa).
    { rewrite Nu_sum by auto. lra. }
    apply (rsum_pos _ _ a); auto.
    - intros a' Ha'. apply Rmult_le_pos; [now apply Nu_nonneg|]. now apply Rlt_le, Wr.
    - apply Rmult_lt_0_compat; auto.
  Qed.

  Theorem surf_point_at_spec s u v : surf_ok s -> surf_eps eps s -> in_dom s u v -> swfun s u v <> 0 ->
    exists p, surf_point_at s u v = Ok p /\ length p = (sdim s - 1)%nat /\
      forall i, (i < sdim s - 1)%nat -> rc i p = snurbs s i u v.
  Proof.
    intros H He Hd Hw. destruct (surf_point_spec s u v H He Hd) as (p & Ep & Lp & Hp).
    unfold surf_point_at. rewrite Ep. cbn [bind]. unfold dehomogenize.
    assert (Ew : coord (sdim s - 1) p = swfun s u v) by (rewrite coord_rc; apply Hp).
    rewrite Ew. rs. destruct (Reqb_spec (swfun s u v) 0) as [|_]; [contradiction|].
    cbn [unwrap]. eexists. split; [reflexivity|]. split.
    - apply vdivs_length. rewrite firstn_length. lia.
    - intros i Hi. rewrite rc_vdivs, rc_firstn, Hp by lia. reflexivity.
  Qed.
End Real.
