(** * Bounding boxes, flips, transformations, planes and extrusions of surfaces (C48, C49) *)
From Coq Require Import Reals Lra Lia ZArith Bool Sorted Permutation.
From Verif Require Import Base BaseFacts Scalar RSum BSplineSpec BSpline KnotModel KnotSpec KnotFacts KnotMisc
  KnotProofs VecFacts MiscModel MiscProofs CurveModel CurveKnotModel CurveSpec CurveProofs CurveGeom CurveGeom2 Boehm Refine
  BBoxModel BBoxProofs SplitProofs SurfaceModel SurfaceSpec SurfaceProofs SurfaceSample SurfaceDeriv SurfaceRefine SurfaceBoxModel.
Open Scope R_scope.

Section Real.
  Variables eps maxv : R.
  Local Hint Extern 0 (Scalar R) => exact (ROps eps maxv) : typeclass_instances.

  (** ** Convex hull *)
  Theorem surf_hull s u v : surf_ok s -> surf_eps eps s -> spos s -> in_dom s u v ->
    exists lam : nat -> nat -> R,
      (forall a b, (a < nrow s)%nat -> (b < ncol s)%nat -> 0 <= lam a b) /\
      rsum (nrow s) (fun a => rsum (ncol s) (lam a)) = 1 /\
      exists p, surf_point_at s u v = Ok p /\ length p = (sdim s - 1)%nat /\
        forall i, (i < sdim s - 1)%nat -> rc i p =
          rsum (nrow s) (fun a => rsum (ncol s) (fun b => lam a b * (spc s i a b / spc s (sdim s - 1) a b))).
  Proof.
    intros H He Hw Hd. pose proof (swfun_pos eps maxv s u v H He Hw Hd) as Hp. destruct Hd as (Hu & Hv).
    exists (fun a b => Nu s a u * Nv s b v * spc s (sdim s - 1) a b / swfun s u v). split; [|split].
    - intros a b Ha Hb. pose proof (Hw a b Ha Hb). pose proof (Nu_nonneg s a u H Hu). pose proof (Nv_nonneg s b v H Hv).
      apply Rmult_le_pos; [|apply Rlt_le, Rinv_0_lt_compat; exact Hp].
      apply Rmult_le_pos; [|lra]. now apply Rmult_le_pos.
    - rewrite (rsum_ext _ _ (fun a => rsum (ncol s) (fun b => Nu s a u * Nv s b v * spc s (sdim s - 1) a b) * / swfun s u v)).
      2:{ intros a Ha. now rewrite <- rsum_scal_r. }
      rewrite rsum_scal_r. change (rsum _ _) with (swfun s u v). field. lra.
    - destruct (surf_point_at_spec eps maxv s u v H He (conj Hu Hv) ltac:(lra)) as (p & E & L & V).
      exists p. split; [exact E|]. split; [exact L|]. intros i Hi. rewrite V by auto. unfold snurbs, Rdiv, shcoord.
      rewrite <- rsum_scal_r. apply rsum_ext. intros a Ha. rewrite <- rsum_scal_r. apply rsum_ext. intros b Hb.
      pose proof (Hw a b Ha Hb). field. lra.
  Qed.

  Theorem surf_box s u v : surf_ok s -> surf_eps eps s -> spos s -> in_dom s u v ->
    exists b p, bb_of_surf s = Ok b /\ surf_point_at s u v = Ok p /\ bb_contains (sdim s - 1) b p = true.
  Proof.
    intros H He Hw Hd. destruct (surf_hull s u v H He Hw Hd) as (lam & L0 & L1 & p & Ep & Lp & Vp).
    set (aff := fun q : list R => vdivs (firstn (sdim s - 1) q) (rc (sdim s - 1) q)).
    assert (E : mapM (mapM (fun p => unwrap (dehomogenize (sdim s) p))) (snet s) = Ok (map (map aff) (snet s))).
    { assert (G : forall l, (forall q, In q l -> rc (sdim s - 1) q <> 0) ->
        mapM (fun p => unwrap (dehomogenize (sdim s) p)) l = Ok (map aff l)).
      { induction l as [|q l IH]; intros Hq; cbn [mapM map]; [reflexivity|].
        unfold dehomogenize at 1. change (coord (sdim s - 1) q) with (rc (sdim s - 1) q). rs.
        rewrite (proj2 (Reqb_false _ _)) by (apply Hq; now left).
        cbn [unwrap bind]. rewrite IH by (intros; apply Hq; now right). reflexivity. }
      assert (G2 : forall net, (forall row, In row net -> forall q, In q row -> rc (sdim s - 1) q <> 0) ->
        mapM (mapM (fun p => unwrap (dehomogenize (sdim s) p))) net = Ok (map (map aff) net)).
      { induction net as [|r net IH]; intros Hq; cbn [mapM map]; [reflexivity|].
        rewrite G by (apply Hq; now left). cbn [bind]. rewrite IH by (intros r' Hr'; apply Hq; now right). reflexivity. }
      apply G2. intros row Hr q Hq. destruct (In_nth _ _ [] Hr) as (a & Ha & <-). fold (nrow s) in Ha.
      destruct (In_nth _ _ [] Hq) as (b & Hb & <-). rewrite row_len in Hb by auto.
      pose proof (Hw a b Ha Hb) as P. unfold spc in P. lra. }
    exists (bb_points (sdim s - 1) (concat (map (map aff) (snet s)))), p.
    unfold bb_of_surf. rewrite E. cbn [bind]. split; [reflexivity|]. split; [exact Ep|].
    apply bb_contains_iff. intros i Hi. rewrite Vp by auto.
    set (B := bb_points (sdim s - 1) (concat (map (map aff) (snet s)))).
    assert (Bd : forall a b, (a < nrow s)%nat -> (b < ncol s)%nat ->
      rc i (bmin B) <= spc s i a b / spc s (sdim s - 1) a b <= rc i (bmax B)).
    { intros a b Ha Hb.
      destruct (bb_fold eps maxv (sdim s - 1) (concat (map (map aff) (snet s)))
        (MkBox (repeat maxv (sdim s - 1)) (repeat (- maxv) (sdim s - 1))) i Hi) as (_ & F & _).
      specialize (F (aff (nth b (nth a (snet s) []) []))). 
      assert (Ea : forall q, rc i (aff q) = rc i q / rc (sdim s - 1) q) by (intros q; unfold aff; now rewrite rc_vdivs, rc_firstn).
      rewrite Ea in F.
      apply F. apply in_concat. exists (map aff (nth a (snet s) [])). split; apply in_map; apply nth_In; auto.
      rewrite row_len by auto. exact Hb. }
    assert (E1 : forall c, rsum (nrow s) (fun a => rsum (ncol s) (fun b => lam a b * c)) = c).
    { intros c. rewrite (rsum_ext _ _ (fun a => rsum (ncol s) (lam a) * c)) by (intros; apply rsum_scal_r).
      rewrite rsum_scal_r, L1. lra. }
    rewrite <- (E1 (rc i (bmin B))) at 1. rewrite <- (E1 (rc i (bmax B))).
    split; apply rsum_le; intros a Ha; apply rsum_le; intros b Hb; (apply Rmult_le_compat_l; [auto|]; apply Bd; auto).
  Qed.

  (** ** Mirroring the parameters *)
  Definition umirror (s : Surf R) : R := kf (suk s) 0 + kf (suk s) (length (suk s) - 1).
  Definition vmirror (s : Surf R) : R := kf (svk s) 0 + kf (svk s) (length (svk s) - 1).

  (** continuity in both directions: no interior knot of full multiplicity *)
  Definition ucont (s : Surf R) : Prop := interior_cont (sdu s) (nrow s - 1) (kf (suk s)).
  Definition vcont (s : Surf R) : Prop := interior_cont (sdv s) (ncol s - 1) (kf (svk s)).

  Lemma kinvert_kf k : k <> [] -> exists k', kinvert k = Ok k' /\ length k' = length k /\
    forall i, (i < length k)%nat -> kf k' i = kf k 0 + kf k (length k - 1) - kf k (length k - 1 - i).
  Proof.
    intros Hk. destruct (kinvert_spec eps maxv k Hk) as (k' & E & L & V). exists k'. split; [exact E|]. split; [exact L|].
    assert (length k <> 0)%nat by (destruct k; [contradiction|discriminate]).
    intros i Hi. rewrite !(kf_nth _ _ 0) by lia. rewrite V by lia. rewrite (last_nth _ 0) by auto. reflexivity.
  Qed.

  Theorem flip_u_spec s : surf_ok s -> surf_eps eps s -> ucont s ->
    exists s', flip s FlipU = Ok s' /\ surf_ok s' /\ surf_eps eps s' /\ ucont s' /\ (vcont s -> vcont s') /\
      sdu s' = sdu s /\ sdv s' = sdv s /\ svk s' = svk s /\ nrow s' = nrow s /\ ncol s' = ncol s /\
      u0 s' = umirror s - u1 s /\ u1 s' = umirror s - u0 s /\ v0 s' = v0 s /\ v1 s' = v1 s /\
      forall u v, in_dom s u v -> surf_point_at s' (umirror s - u) v = surf_point_at s u v.
  Proof.
    intros H He Hc. pose proof (so_u s H) as Hu. pose proof (so_v s H) as Hv.
    assert (Hne : suk s <> []).
    { intros E. pose proof (ko_len _ _ _ (so_uk s H)) as Z. rewrite E in Z. cbn in Z. lia. }
    destruct (kinvert_kf (suk s) Hne) as (k' & Ek & Lk & Vk).
    unfold flip, flip_u. rewrite Ek. cbn [bind].
    set (s' := MkSurf (sdim s) (sdu s) (sdv s) k' (svk s) (rev (snet s))).
    assert (Nr : nrow s' = nrow s) by (unfold nrow, s'; cbn [snet]; apply rev_length).
    assert (Nc : ncol s' = ncol s).
    { unfold ncol at 1, s'. cbn [snet]. pose proof (so_rect s H) as F. rewrite Forall_forall in F. apply F.
      apply in_rev. apply nth_In. fold (nrow s) in *. rewrite rev_length. unfold nrow in Hu. lia. }
    assert (Mi : forall b, mirrored (ucol s b) (ucol s' b)).
    { intros b. unfold mirrored, ucol, s'. cbn [cdim cdeg cpts cknots sdim sdu suk snet]. rewrite map_rev.
      repeat split; auto. }
    pose proof (ucol_ok s 0 H ltac:(lia)) as O0.
    pose proof (mirrored_ok _ _ O0 (Mi 0%nat)) as O0'.
    pose proof (mirrored_eps eps _ _ O0 (Mi 0%nat) (ucol_eps eps s 0 He)) as E0'.
    assert (O : surf_ok s').
    { constructor.
      - apply (so_dim s H).
      - rewrite Nc. unfold s'. cbn [snet]. apply Forall_rev. apply H.
      - unfold s'. cbn [snet sdim]. apply Forall_rev. apply H.
      - rewrite Nr. exact Hu.
      - rewrite Nc. exact Hv.
      - pose proof (co_knots _ O0') as K. unfold clast in K. cbn [ucol cpts cdeg cknots] in K. rewrite map_length in K.
        exact K.
      - rewrite Nc. apply (so_vk s H). }
    assert (Oe : surf_eps eps s').
    { split.
      - unfold curve_eps, clast in E0'. cbn [ucol cpts cdeg cknots] in E0'. rewrite map_length in E0'. exact E0'.
      - rewrite Nc. apply He. }
    assert (Cc : forall b, curve_cont (ucol s b)).
    { intros b. unfold curve_cont, clast. cbn [ucol cpts cdeg cknots]. rewrite map_length. exact Hc. }
    exists s'. split; [reflexivity|]. split; [exact O|]. split; [exact Oe|].
    split.
    { pose proof (mirrored_cont _ _ O0 (Mi 0%nat) (Cc 0%nat)) as K. unfold curve_cont, clast in K.
      cbn [ucol cpts cdeg cknots] in K. rewrite map_length in K. exact K. }
    split; [unfold vcont; now rewrite Nc|].
    do 3 (split; [reflexivity|]). split; [exact Nr|]. split; [exact Nc|].
    destruct (mirrored_dom _ _ O0 (Mi 0%nat)) as (M1 & M2).
    destruct (ucol_dom s 0) as (D1 & D2). destruct (ucol_dom s' 0) as (D3 & D4). rewrite D1, D3, D2, D4 in *.
    change (mirror_c (ucol s 0)) with (umirror s) in *.
    split; [exact M1|]. split; [exact M2|].
    assert (V0 : v0 s' = v0 s) by reflexivity. assert (V1 : v1 s' = v1 s) by (unfold v1; now rewrite Nc).
    split; [exact V0|]. split; [exact V1|].
    intros u v (Du & Dv).
    destruct (surf_point_spec eps maxv s u v H He (conj Du Dv)) as (p & E & L & V).
    destruct (surf_point_spec eps maxv s' (umirror s - u) v O Oe) as (p' & E' & L' & V').
    { split; [rewrite M1, M2; lra|rewrite V0, V1; exact Dv]. }
    assert (p' = p) as ->.
    { apply (vec_ext p' p (sdim s)); auto. intros i Hi. rewrite V, V'. rewrite !shcoord_cols by auto.
      rewrite Nc. apply rsum_ext. intros b Hb. f_equal.
      - unfold Nv. rewrite V1. reflexivity.
      - change (umirror s) with (mirror_c (ucol s b)). apply mirrored_hcoord; auto; [now apply ucol_ok|].
        destruct (ucol_dom s b) as (-> & ->). exact Du. }
    unfold surf_point_at. rewrite E, E'. reflexivity.
  Qed.

  Theorem flip_v_spec s : surf_ok s -> surf_eps eps s -> vcont s ->
    exists s', flip s FlipV = Ok s' /\ surf_ok s' /\ surf_eps eps s' /\ vcont s' /\ (ucont s -> ucont s') /\
      sdu s' = sdu s /\ sdv s' = sdv s /\ suk s' = suk s /\ nrow s' = nrow s /\ ncol s' = ncol s /\
      v0 s' = vmirror s - v1 s /\ v1 s' = vmirror s - v0 s /\ u0 s' = u0 s /\ u1 s' = u1 s /\
      forall u v, in_dom s u v -> surf_point_at s' u (vmirror s - v) = surf_point_at s u v.
  Proof.
    intros H He Hc. pose proof (so_u s H) as Hu. pose proof (so_v s H) as Hv.
    assert (Hne : svk s <> []).
    { intros E. pose proof (ko_len _ _ _ (so_vk s H)) as Z. rewrite E in Z. cbn in Z. lia. }
    destruct (kinvert_kf (svk s) Hne) as (k' & Ek & Lk & Vk).
    unfold flip, flip_v. cbn [bind]. rewrite Ek. cbn [bind].
    set (s' := MkSurf (sdim s) (sdu s) (sdv s) (suk s) k' (map (@rev _) (snet s))).
    assert (Nr : nrow s' = nrow s) by (unfold nrow, s'; cbn [snet]; apply map_length).
    assert (Rw : forall a, (a < nrow s)%nat -> nth a (snet s') [] = rev (nth a (snet s) [])).
    { intros a Ha. unfold s'. cbn [snet]. now rewrite (nth_map_lt (@rev _) _ _ [] []) by auto. }
    assert (Nc : ncol s' = ncol s).
    { unfold ncol at 1. rewrite Rw by lia. rewrite rev_length. reflexivity. }
    assert (Mi : forall a, (a < nrow s)%nat -> mirrored (vrow s a) (vrow s' a)).
    { intros a Ha. unfold mirrored, vrow. rewrite Rw by auto. unfold s'. cbn [cdim cdeg cpts cknots sdim sdv svk].
      repeat split; auto. }
    pose proof (vrow_ok s 0 H ltac:(lia)) as O0.
    pose proof (mirrored_ok _ _ O0 (Mi 0%nat ltac:(lia))) as O0'.
    pose proof (mirrored_eps eps _ _ O0 (Mi 0%nat ltac:(lia)) (vrow_eps eps s 0 H ltac:(lia) He)) as E0'.
    assert (O : surf_ok s').
    { constructor.
      - apply (so_dim s H).
      - rewrite Nc. unfold s'. cbn [snet]. apply Forall_map. eapply Forall_impl; [|apply (so_rect s H)].
        intros r Hr. cbv beta. now rewrite rev_length.
      - unfold s'. cbn [snet sdim]. apply Forall_map. eapply Forall_impl; [|apply (so_pts s H)].
        intros r Hr. now apply Forall_rev.
      - rewrite Nr. exact Hu.
      - rewrite Nc. exact Hv.
      - rewrite Nr. apply (so_uk s H).
      - pose proof (co_knots _ O0') as K. unfold clast in K. cbn [vrow cpts cdeg cknots] in K. exact K. }
    assert (Oe : surf_eps eps s').
    { split.
      - rewrite Nr. apply He.
      - unfold curve_eps, clast in E0'. cbn [vrow cpts cdeg cknots] in E0'. exact E0'. }
    assert (Cc : forall a, (a < nrow s)%nat -> curve_cont (vrow s a)).
    { intros a Ha. unfold curve_cont, clast. cbn [vrow cpts cdeg cknots]. rewrite row_len by auto. exact Hc. }
    exists s'. split; [reflexivity|]. split; [exact O|]. split; [exact Oe|].
    split.
    { pose proof (mirrored_cont _ _ O0 (Mi 0%nat ltac:(lia)) (Cc 0%nat ltac:(lia))) as K. unfold curve_cont, clast in K.
      cbn [vrow cpts cdeg cknots] in K. exact K. }
    split; [unfold ucont; now rewrite Nr|].
    do 3 (split; [reflexivity|]). split; [exact Nr|]. split; [exact Nc|].
    destruct (mirrored_dom _ _ O0 (Mi 0%nat ltac:(lia))) as (M1 & M2).
    destruct (vrow_dom s 0 H ltac:(lia)) as (D1 & D2). destruct (vrow_dom s' 0 O ltac:(lia)) as (D3 & D4). rewrite D1, D3, D2, D4 in *.
    change (mirror_c (vrow s 0)) with (vmirror s) in *.
    split; [exact M1|]. split; [exact M2|].
    assert (V0 : u0 s' = u0 s) by reflexivity. assert (V1 : u1 s' = u1 s) by (unfold u1; now rewrite Nr).
    split; [exact V0|]. split; [exact V1|].
    intros u v (Du & Dv).
    destruct (surf_point_spec eps maxv s u v H He (conj Du Dv)) as (p & E & L & V).
    destruct (surf_point_spec eps maxv s' u (vmirror s - v) O Oe) as (p' & E' & L' & V').
    { split; [rewrite V0, V1; exact Du|rewrite M1, M2; lra]. }
    assert (p' = p) as ->.
    { apply (vec_ext p' p (sdim s)); auto. intros i Hi. rewrite V, V'. rewrite !shcoord_rows by auto.
      rewrite Nr. apply rsum_ext. intros a Ha. f_equal.
      - unfold Nu. rewrite V1. reflexivity.
      - change (vmirror s) with (mirror_c (vrow s a)). apply mirrored_hcoord; auto; [now apply vrow_ok|].
        destruct (vrow_dom s a H Ha) as (-> & ->). exact Dv. }
    unfold surf_point_at. rewrite E, E'. reflexivity.
  Qed.

  Theorem flip_uv_spec s : surf_ok s -> surf_eps eps s -> ucont s -> vcont s ->
    exists s', flip s FlipUV = Ok s' /\ surf_invert s = Ok s' /\ surf_ok s' /\ surf_eps eps s' /\
      u0 s' = umirror s - u1 s /\ u1 s' = umirror s - u0 s /\
      v0 s' = vmirror s - v1 s /\ v1 s' = vmirror s - v0 s /\
      forall u v, in_dom s u v -> surf_point_at s' (umirror s - u) (vmirror s - v) = surf_point_at s u v.
  Proof.
    intros H He Hcu Hcv.
    destruct (flip_u_spec s H He Hcu) as (s1 & A1 & A2 & A3 & A4 & A5 & A6 & A7 & A8 & A9 & A10 & A11 & A12 & A13 & A14 & A15).
    destruct (flip_v_spec s1 A2 A3 (A5 Hcv)) as (s2 & B1 & B2 & B3 & B4 & B5 & B6 & B7 & B8 & B9 & B10 & B11 & B12 & B13 & B14 & B15).
    assert (Ev : vmirror s1 = vmirror s) by (unfold vmirror; now rewrite A8).
    exists s2. unfold flip in *. destruct (flip_u s) as [x| | |] eqn:E1; try discriminate. cbn [bind] in *.
    injection A1 as ->. split; [exact B1|]. split.
    { unfold surf_invert. unfold flip_u in E1. destruct (kinvert (suk s)) as [ku| | |]; try discriminate. cbn [bind] in *.
      injection E1 as <-. unfold flip_v in B1. cbn [svk sdim sdu sdv suk snet] in B1.
      destruct (kinvert (svk s)) as [kv| | |]; try discriminate. cbn [bind] in *. injection B1 as <-. now rewrite map_rev. }
    split; [exact B2|]. split; [exact B3|]. split; [lra|]. split; [lra|]. rewrite <- Ev, <- A13, <- A14. split; [lra|]. split; [lra|].
    intros u v (Du & Dv). rewrite B15.
    - apply A15. split; auto.
    - split; [rewrite A11, A12; lra|rewrite A13, A14; exact Dv].
  Qed.

  (** ** Affine transformation *)
  Theorem surf_transform_affine s m u v p : surf_ok s -> surf_eps eps s -> affine_matrix (sdim s) m ->
    (forall a b, (a < nrow s)%nat -> (b < ncol s)%nat -> spc s (sdim s - 1) a b <> 0) ->
    in_dom s u v -> surf_point_at s u v = Ok p ->
    surf_point_at (surf_transform m s) u v = Ok (apply_affine (sdim s) m p).
  Proof.
    intros H He Hm Hw Hd Hp. pose proof (so_u s H) as Hu. pose proof (so_v s H) as Hv. pose proof (so_dim s H) as HD.
    set (s' := surf_transform m s).
    assert (Nr : nrow s' = nrow s) by (unfold nrow, s'; cbn [surf_transform snet]; apply map_length).
    assert (Rw : forall a, (a < nrow s)%nat -> nth a (snet s') [] = map (transform_point (sdim s) m) (nth a (snet s) [])).
    { intros a Ha. unfold s'. cbn [surf_transform snet]. now rewrite (nth_map_lt (map (transform_point (sdim s) m)) _ _ [] []) by auto. }
    assert (Nc : ncol s' = ncol s).
    { unfold ncol at 1. rewrite Rw by lia. rewrite map_length. reflexivity. }
    assert (O : surf_ok s').
    { constructor; rewrite ?Nr, ?Nc; try apply H.
      - unfold s'. cbn [surf_transform snet]. apply Forall_map. eapply Forall_impl; [|apply (so_rect s H)].
        intros r Hr. cbv beta. now rewrite map_length.
      - unfold s'. cbn [surf_transform snet sdim]. apply Forall_map. eapply Forall_impl; [|apply (so_pts s H)].
        intros r Hr. apply Forall_map, Forall_forall. intros q Hq. unfold transform_point.
        rewrite app_length, map_length, seq_length. cbn. lia. }
    assert (Oe : surf_eps eps s') by (split; rewrite ?Nr, ?Nc; apply He).
    assert (Hd' : in_dom s' u v).
    { unfold in_dom, u0, u1, v0, v1. rewrite Nr, Nc. exact Hd. }
    assert (Hh : forall i, (i < sdim s)%nat -> shcoord s' i u v =
       if Nat.eqb i (sdim s - 1) then shcoord s (sdim s - 1) u v
       else rsum (sdim s - 1) (fun l => rc l (nth i m []) * shcoord s l u v)
            + rc (sdim s - 1) (nth i m []) * shcoord s (sdim s - 1) u v).
    { intros i Hi.
      assert (Pc : forall a b, (a < nrow s)%nat -> (b < ncol s)%nat -> spc s' i a b =
        if Nat.eqb i (sdim s - 1) then spc s (sdim s - 1) a b
        else rsum (sdim s - 1) (fun j => rc j (nth i m []) * spc s j a b) + rc (sdim s - 1) (nth i m []) * spc s (sdim s - 1) a b).
      { intros a b Ha Hb. unfold spc. rewrite Rw by auto.
        rewrite (nth_map_lt _ _ b [] []) by (rewrite row_len by auto; exact Hb).
        apply transform_point_rc; auto; [now apply net_pt|]. now apply Hw. }
      unfold shcoord at 1. rewrite Nr, Nc.
      rewrite (rsum_ext _ _ (fun a => rsum (ncol s) (fun b => Nu s a u * Nv s b v *
        (if Nat.eqb i (sdim s - 1) then spc s (sdim s - 1) a b
        else rsum (sdim s - 1) (fun j => rc j (nth i m []) * spc s j a b) + rc (sdim s - 1) (nth i m []) * spc s (sdim s - 1) a b)))).
      2:{ intros a Ha. apply rsum_ext. intros b Hb. rewrite Pc by auto. unfold Nu, Nv, u1, v1. rewrite Nr, Nc. reflexivity. }
      destruct (Nat.eqb i (sdim s - 1)); [reflexivity|].
      rewrite (rsum_ext _ _ (fun a =>
        rsum (sdim s - 1) (fun l => rc l (nth i m []) * rsum (ncol s) (fun b => Nu s a u * Nv s b v * spc s l a b))
        + rc (sdim s - 1) (nth i m []) * rsum (ncol s) (fun b => Nu s a u * Nv s b v * spc s (sdim s - 1) a b))).
      2:{ intros a Ha.
          rewrite (rsum_ext _ _ (fun b => rsum (sdim s - 1) (fun l => rc l (nth i m []) * (Nu s a u * Nv s b v * spc s l a b))
            + rc (sdim s - 1) (nth i m []) * (Nu s a u * Nv s b v * spc s (sdim s - 1) a b))).
          2:{ intros b Hb. rewrite Rmult_plus_distr_l, <- rsum_scal. f_equal; [apply rsum_ext; intros; lra|lra]. }
          rewrite rsum_plus, rsum_swap, rsum_scal. f_equal. apply rsum_ext. intros l Hl. now rewrite rsum_scal. }
      rewrite rsum_plus, rsum_swap, rsum_scal. f_equal. apply rsum_ext. intros l Hl. rewrite rsum_scal. reflexivity. }
    assert (Hwn : swfun s u v <> 0).
    { intros E. unfold surf_point_at in Hp. destruct (surf_point_spec eps maxv s u v H He Hd) as (q & Eq & _ & Vq).
      rewrite Eq in Hp. cbn [bind] in Hp. unfold dehomogenize in Hp. rewrite coord_rc, Vq in Hp. fold (swfun s u v) in Hp.
      rewrite E in Hp. rs. destruct (Reqb_spec 0 0); [discriminate|contradiction]. }
    assert (Ew : swfun s' u v = swfun s u v).
    { unfold swfun at 1. change (sdim s') with (sdim s). rewrite Hh by lia. now rewrite Nat.eqb_refl. }
    destruct (surf_point_at_spec eps maxv s u v H He Hd Hwn) as (p' & E & L & V).
    rewrite E in Hp. inversion Hp; subst p'. clear Hp.
    destruct (surf_point_at_spec eps maxv s' u v O Oe Hd') as (q & Eq & Lq & Hq); [rewrite Ew; exact Hwn|].
    rewrite Eq. f_equal. change (sdim s') with (sdim s) in *.
    apply (vec_ext q _ (sdim s - 1)); [exact Lq| |].
    - unfold apply_affine. now rewrite map_length, seq_length.
    - intros i Hi. rewrite Hq by auto. unfold apply_affine. rewrite rc_map_seq by auto.
      unfold snurbs. rewrite Ew, Hh by lia.
      destruct (Nat.eqb_spec i (sdim s - 1)); [lia|].
      fold (swfun s u v).
      rewrite (rsum_ext _ (fun j => rc j (nth i m []) * rc j p)
                 (fun j => rc j (nth i m []) * shcoord s j u v * / swfun s u v)).
      2:{ intros j Hj. rewrite V by auto. unfold snurbs, Rdiv. lra. }
      rewrite rsum_scal_r. field. exact Hwn.
  Qed.

  (** ** Bernstein polynomials *)
  Lemma kf1 : kf [0; 0; 1; 1] 0 = 0 /\ kf [0; 0; 1; 1] 1 = 0 /\ kf [0; 0; 1; 1] 2 = 1 /\ kf [0; 0; 1; 1] 3 = 1 /\ mono (kf [0; 0; 1; 1]).
  Proof. repeat split; try reflexivity. apply sorted_mono. repeat constructor; lra. Qed.
  Lemma kf2 : kf [0; 0; 0; 1; 1; 1] 0 = 0 /\ kf [0; 0; 0; 1; 1; 1] 1 = 0 /\ kf [0; 0; 0; 1; 1; 1] 2 = 0 /\
    kf [0; 0; 0; 1; 1; 1] 3 = 1 /\ kf [0; 0; 0; 1; 1; 1] 4 = 1 /\ kf [0; 0; 0; 1; 1; 1] 5 = 1 /\ mono (kf [0; 0; 0; 1; 1; 1]).
  Proof. repeat split; try reflexivity. apply sorted_mono. repeat constructor; lra. Qed.

  Lemma quot0_1 a : quot0 a 1 = a.
  Proof. unfold quot0. destruct (Req_EM_T 1 0); lra. Qed.
  Lemma quot0_0 a : quot0 a 0 = 0.
  Proof. unfold quot0. destruct (Req_EM_T 0 0); [reflexivity|contradiction]. Qed.

  Lemma bern1 u : 0 <= u <= 1 ->
    cox_closed (kf [0; 0; 1; 1]) 1 1 0 u = 1 - u /\ cox_closed (kf [0; 0; 1; 1]) 1 1 1 u = u.
  Proof.
    intros Hu. destruct kf1 as (E0 & E1 & E2 & E3 & Hm).
    assert (C : forall a, cox_closed (kf [0; 0; 1; 1]) 1 1 a u = bs (kf [0; 0; 1; 1]) 1 1 a u).
    { intros a. apply (cox_closed_bs _ _ 1); rewrite ?E1, ?E2; try lra; auto.
      destruct (Rlt_le_dec u 1); [left; lra|right; split; [reflexivity|lra]]. }
    rewrite !C. cbn [bs]. unfold wl, wr. cbn [Nat.add Nat.eqb]. rewrite E0, E1, E2, E3.
    replace (1 - 0) with 1 by lra. rewrite !quot0_1. split; lra.
  Qed.

  Lemma bern2 u : 0 <= u <= 1 ->
    cox_closed (kf [0; 0; 0; 1; 1; 1]) 1 2 0 u = (1 - u) * (1 - u) /\
    cox_closed (kf [0; 0; 0; 1; 1; 1]) 1 2 1 u = 2 * u * (1 - u) /\
    cox_closed (kf [0; 0; 0; 1; 1; 1]) 1 2 2 u = u * u.
  Proof.
    intros Hu. destruct kf2 as (E0 & E1 & E2 & E3 & E4 & E5 & Hm).
    assert (C : forall a, cox_closed (kf [0; 0; 0; 1; 1; 1]) 1 2 a u = bs (kf [0; 0; 0; 1; 1; 1]) 2 2 a u).
    { intros a. apply (cox_closed_bs _ _ 2); rewrite ?E2, ?E3; try lra; auto.
      destruct (Rlt_le_dec u 1); [left; lra|right; split; [reflexivity|lra]]. }
    rewrite !C. cbn [bs]. unfold wl, wr. cbn [Nat.add Nat.eqb]. rewrite E0, E1, E2, E3, E4, E5.
    replace (1 - 0) with 1 by lra. rewrite !quot0_1. split; [ring|]. split; ring.
  Qed.

  Lemma kok1 : knots_ok 1 1 [0; 0; 1; 1].
  Proof.
    destruct kf1 as (E0 & E1 & E2 & E3 & Hm). constructor; cbn [Nat.add]; try lia; try reflexivity; try lra.
    repeat constructor; lra.
  Qed.
  Lemma kok2 : knots_ok 2 2 [0; 0; 0; 1; 1; 1].
  Proof.
    destruct kf2 as (E0 & E1 & E2 & E3 & E4 & E5 & Hm). constructor; cbn [Nat.add]; try lia; try reflexivity; try lra.
    repeat constructor; lra.
  Qed.

  (** ** A plane patch is bilinear and planar *)
  Theorem plane_spec D center x y u v : 0 < eps <= 1 -> (1 <= D)%nat ->
    length center = (D - 1)%nat -> length x = (D - 1)%nat -> length y = (D - 1)%nat ->
    0 <= u <= 1 -> 0 <= v <= 1 ->
    exists p, surf_point_at (plane D center x y) u v = Ok p /\ length p = (D - 1)%nat /\
      forall i, (i < D - 1)%nat -> rc i p = rc i center + (2 * u - 1) * rc i x + (2 * v - 1) * rc i y.
  Proof.
    intros He HD Lc Lx Ly Hu Hv. set (s := plane D center x y).
    destruct kf1 as (E0 & E1 & E2 & E3 & Hm).
    assert (La : forall a b : list R, length a = (D - 1)%nat -> length b = (D - 1)%nat -> length (vadd a b) = (D - 1)%nat /\ length (vsub a b) = (D - 1)%nat).
    { intros a b A B. split; [now apply vadd_length|now apply vsub_length]. }
    assert (Lh : forall a : list R, length a = (D - 1)%nat -> length (to_homogeneous a) = D).
    { intros a A. unfold to_homogeneous. rewrite app_length. cbn [length]. lia. }
    destruct (La center x Lc Lx) as (L1 & L2).
    destruct (La _ y L1 Ly) as (L3 & L4). destruct (La _ y L2 Ly) as (L5 & L6).
    assert (O : surf_ok s).
    { constructor; try (exact kok1); cbn; try lia; auto.
      - repeat constructor; auto. }
    assert (Oe : surf_eps eps s).
    { assert (K : eps_ok eps 1 1 [0; 0; 1; 1]).
      { unfold eps_ok. cbn [Nat.add]. rewrite E1, E2. lra. }
      split; exact K. }
    assert (Hc : forall i a b, spc s i a b = rc i (nth b (nth a (snet s) []) [])) by reflexivity.
    assert (Ha : forall i (q : list R), length q = (D - 1)%nat -> rc i (to_homogeneous q) = if Nat.eqb i (D - 1) then 1 else rc i q).
    { intros i q Lq. unfold to_homogeneous, rc. destruct (Nat.eqb_spec i (D - 1)) as [->|Hne].
      - rewrite app_nth2 by lia. rewrite Lq, Nat.sub_diag. reflexivity.
      - destruct (Nat.lt_ge_cases i (D - 1)).
        + rewrite app_nth1 by lia. reflexivity.
        + rewrite !nth_overflow by (rewrite ?app_length; cbn [length]; lia). reflexivity. }
    assert (Hs : forall i, shcoord s i u v =
      if Nat.eqb i (D - 1) then 1 else if (i <? D - 1)%nat then rc i center + (2 * u - 1) * rc i x + (2 * v - 1) * rc i y else 0).
    { intros i. unfold shcoord. change (nrow s) with 2%nat. change (ncol s) with 2%nat. cbn [rsum].
      destruct (bern1 u Hu) as (B0 & B1). destruct (bern1 v Hv) as (B2 & B3).
      unfold Nu, Nv. change (u1 s) with (kf [0; 0; 1; 1] 2). change (v1 s) with (kf [0; 0; 1; 1] 2). rewrite E2.
      change (suk s) with [0; 0; 1; 1]. change (svk s) with [0; 0; 1; 1]. change (sdu s) with 1%nat. change (sdv s) with 1%nat.
      rewrite B0, B1, B2, B3. unfold spc. unfold s at 1 2 3 4, plane. cbn [snet nth]. rewrite !Ha by auto.
      destruct (Nat.eqb_spec i (D - 1)); [ring|]. destruct (Nat.ltb_spec i (D - 1)).
      - repeat first [rewrite rc_vadd by lia | rewrite rc_vsub by lia]. ring.
      - unfold rc. rewrite !nth_overflow by lia. ring. }
    destruct (surf_point_at_spec eps maxv s u v O Oe) as (p & E & L & V).
    { unfold in_dom. change (u0 s) with (kf [0; 0; 1; 1] 1). change (v0 s) with (kf [0; 0; 1; 1] 1).
      change (u1 s) with (kf [0; 0; 1; 1] 2). change (v1 s) with (kf [0; 0; 1; 1] 2). rewrite E1, E2. lra. }
    { unfold swfun. change (sdim s) with D. rewrite Hs, Nat.eqb_refl. lra. }
    change (sdim s) with D in *. exists p. split; [exact E|]. split; [exact L|]. intros i Hi. rewrite V by auto.
    unfold snurbs, swfun. change (sdim s) with D. rewrite !Hs, Nat.eqb_refl.
    destruct (Nat.eqb_spec i (D - 1)); [lia|]. destruct (Nat.ltb_spec i (D - 1)); [|lia]. field.
  Qed.

  (** ** Extrusion *)
  Theorem extrude_spec c tr : curve_ok c -> curve_eps eps c -> 0 < eps <= 1 -> length tr = (cdim c - 1)%nat ->
    (forall j, (j < length (cpts c))%nat -> cpc c (cdim c - 1) j <> 0) ->
    exists s, extrude (1 / 2) c tr = Ok s /\ surf_ok s /\ surf_eps eps s /\
      u0 s = 0 /\ u1 s = 1 /\ v0 s = dom0 c /\ v1 s = dom1 c /\
      forall u v q, 0 <= u <= 1 -> dom0 c <= v <= dom1 c -> point_at c v = Ok q ->
        exists p, surf_point_at s u v = Ok p /\ length p = (cdim c - 1)%nat /\
          forall i, (i < cdim c - 1)%nat -> rc i p = rc i q + (1 - u) * rc i tr.
  Proof.
    intros Hc Hce He Lt Hw. pose proof (co_dim c Hc) as HD. pose proof (co_len c Hc) as Hl.
    set (aff := fun q : list R => vdivs (firstn (cdim c - 1) q) (rc (cdim c - 1) q)).
    assert (Wq : forall q, In q (cpts c) -> rc (cdim c - 1) q <> 0 /\ length q = cdim c).
    { intros q Hq. destruct (In_nth _ _ [] Hq) as (j & Hj & <-). split; [now apply Hw|now apply cpts_len]. }
    assert (Ed : dehomogenized_control_points c = Ok (map aff (cpts c))).
    { unfold dehomogenized_control_points.
      assert (G : forall l, (forall q, In q l -> rc (cdim c - 1) q <> 0) ->
        mapM (fun p => unwrap (dehomogenize (cdim c) p)) l = Ok (map aff l)).
      { induction l as [|q l IH]; intros Hq; cbn [mapM map]; [reflexivity|].
        unfold dehomogenize at 1. change (coord (cdim c - 1) q) with (rc (cdim c - 1) q). rs.
        rewrite (proj2 (Reqb_false _ _)) by (apply Hq; now left).
        cbn [unwrap bind]. rewrite IH by (intros; apply Hq; now right). reflexivity. }
      apply G. intros q Hq. now apply Wq. }
    unfold extrude. rewrite Ed. cbn [bind].
    set (row := fun off : list R -> list R => map (fun pw : list R * R => vscale (off (fst pw)) (snd pw) ++ [snd pw])
                  (combine (map aff (cpts c)) (weights c))).
    assert (Erow : forall off, row off = map (fun q => vscale (off (aff q)) (rc (cdim c - 1) q) ++ [rc (cdim c - 1) q]) (cpts c)).
    { intros off. unfold row, weights. generalize (cpts c). clear. intros l. induction l as [|q l IH]; [reflexivity|].
      cbn [map combine]. rewrite IH. reflexivity. }
    assert (Lrow : forall off, length (row off) = length (cpts c)) by (intros; rewrite Erow; apply map_length).
    assert (La : forall q, length q = cdim c -> length (aff q) = (cdim c - 1)%nat).
    { intros q Lq. unfold aff. apply vdivs_length. rewrite firstn_length. lia. }
    assert (Prow : forall off, (forall a : list R, length a = (cdim c - 1)%nat -> length (off a) = (cdim c - 1)%nat) ->
      Forall (fun p => length p = cdim c) (row off)).
    { intros off Ho. rewrite Erow. apply Forall_map, Forall_forall. intros q Hq. destruct (Wq q Hq) as (_ & Lq).
      rewrite app_length, (vscale_length _ _ (cdim c - 1)) by (apply Ho, La; exact Lq). cbn [length]. lia. }
    assert (Lh : length (vscale tr (1 / 2)) = (cdim c - 1)%nat) by (now apply vscale_length).
    pose (s := MkSurf (cdim c) 2 (cdeg c) [0; 0; 0; 1; 1; 1] (cknots c)
      [row (fun p => vadd p tr); row (fun p => vadd p (vscale tr (1 / 2))); row (fun p => p)]).
    destruct kf2 as (E0 & E1 & E2 & E3 & E4 & E5 & Hm).
    assert (Nr : nrow s = 3%nat) by reflexivity.
    assert (Nc : ncol s = length (cpts c)) by (unfold ncol, s; cbn [snet nth]; apply Lrow).
    assert (O : surf_ok s).
    { constructor; rewrite ?Nr, ?Nc; try (exact kok2); try (apply Hc); cbn [s sdim sdu sdv snet]; try lia.
      - repeat constructor; apply Lrow.
      - constructor; [|constructor; [|constructor; [|constructor]]]; apply Prow; intros a A; auto; now apply vadd_length. }
    assert (Oe : surf_eps eps s).
    { split; rewrite ?Nr, ?Nc; [|apply Hce]. unfold eps_ok. cbn [s sdu suk Nat.add Nat.sub].
      change (eps_ok eps 2 2 [0; 0; 0; 1; 1; 1]). unfold eps_ok. cbn [Nat.add]. rewrite E2, E3. lra. }
    assert (Hr : forall off i v, (forall q, length q = cdim c -> length (off (aff q)) = (cdim c - 1)%nat) ->
       forall a, nth a (snet s) [] = row off -> (a < 3)%nat ->
       hcoord (vrow s a) i v = rsum (length (cpts c)) (fun j => cox_closed (kf (cknots c)) (dom1 c) (cdeg c) j v *
         (if Nat.eqb i (cdim c - 1) then cpc c i j else if (i <? cdim c - 1)%nat then rc i (off (aff (nth j (cpts c) []))) * cpc c (cdim c - 1) j else 0))).
    { intros off i v Ho a Ea Ha. unfold hcoord. unfold dom1 at 1. cbn [vrow cpts cknots cdeg]. rewrite Ea, Lrow.
      apply rsum_ext. intros j Hj. f_equal. unfold cpc at 1. cbn [vrow cpts]. rewrite Ea, Erow.
      rewrite (nth_map_lt _ _ j [] []) by auto. pose proof (cpts_len c j Hc Hj) as Lj.
      pose proof (vscale_length (off (aff (nth j (cpts c) []))) (rc (cdim c - 1) (nth j (cpts c) [])) (cdim c - 1) (Ho _ Lj)) as Lv.
      unfold rc at 1. destruct (Nat.eqb_spec i (cdim c - 1)) as [->|Hne].
      - rewrite app_nth2 by lia. rewrite Lv, Nat.sub_diag. reflexivity.
      - destruct (Nat.ltb_spec i (cdim c - 1)).
        + rewrite app_nth1 by lia. change (nth i ?l 0) with (rc i l). rewrite rc_vscale. reflexivity.
        + rewrite nth_overflow by (rewrite app_length; cbn [length]; lia). reflexivity. }
    exists s. split; [reflexivity|]. split; [exact O|]. split; [exact Oe|].
    assert (U0 : u0 s = 0) by exact E2. assert (U1 : u1 s = 1) by exact E3.
    assert (V0 : v0 s = dom0 c) by reflexivity. assert (V1 : v1 s = dom1 c) by (unfold v1; rewrite Nc; reflexivity).
    do 4 (split; [assumption|]).
    intros u v q Hu Hv Eq.
    assert (Hwn : wfun c v <> 0).
    { intros E. destruct (point_at_zero_weight eps maxv c v Hc Hce Hv E) as [msg Em]. congruence. }
    destruct (point_at_spec eps maxv c v Hc Hce Hv Hwn) as (q' & Eq' & Lq & Vq). rewrite Eq in Eq'. injection Eq' as <-.
    assert (Hd : in_dom s u v) by (split; lra).
    assert (Sw : forall i, shcoord s i u v = (1 - u) * (1 - u) * hcoord (vrow s 0) i v + 2 * u * (1 - u) * hcoord (vrow s 1) i v
       + u * u * hcoord (vrow s 2) i v).
    { intros i. rewrite shcoord_rows by auto. rewrite Nr. cbn [rsum]. unfold Nu. rewrite U1.
      destruct (bern2 u Hu) as (B0 & B1 & B2). cbn [s suk sdu]. 
      change (szero : R) with 0. change (sone : R) with 1.
      rewrite B0, B1, B2. ring. }
    set (N := fun j => cox_closed (kf (cknots c)) (dom1 c) (cdeg c) j v).
    assert (H0 : forall i, hcoord (vrow s 0) i v = rsum (length (cpts c)) (fun j => N j *
         (if Nat.eqb i (cdim c - 1) then cpc c i j else if (i <? cdim c - 1)%nat then rc i (vadd (aff (nth j (cpts c) [])) tr) * cpc c (cdim c - 1) j else 0))).
    { intros i. apply (Hr (fun p => vadd p tr)); auto. intros; apply vadd_length; auto. }
    assert (H1 : forall i, hcoord (vrow s 1) i v = rsum (length (cpts c)) (fun j => N j *
         (if Nat.eqb i (cdim c - 1) then cpc c i j else if (i <? cdim c - 1)%nat then rc i (vadd (aff (nth j (cpts c) [])) (vscale tr (1 / 2))) * cpc c (cdim c - 1) j else 0))).
    { intros i. apply (Hr (fun p => vadd p (vscale tr (1 / 2)))); auto. intros; apply vadd_length; auto. }
    assert (H2 : forall i, hcoord (vrow s 2) i v = rsum (length (cpts c)) (fun j => N j *
         (if Nat.eqb i (cdim c - 1) then cpc c i j else if (i <? cdim c - 1)%nat then rc i (aff (nth j (cpts c) [])) * cpc c (cdim c - 1) j else 0))).
    { intros i. apply (Hr (fun p => p)); auto. }
    assert (Ew : swfun s u v = wfun c v).
    { unfold swfun. change (sdim s) with (cdim c). rewrite Sw, H0, H1, H2, Nat.eqb_refl. unfold wfun, hcoord. fold N.
      change (fun j => cox_closed (kf (cknots c)) (dom1 c) (cdeg c) j v * cpc c (cdim c - 1) j) with (fun j => N j * cpc c (cdim c - 1) j).
      ring. }
    destruct (surf_point_at_spec eps maxv s u v O Oe Hd) as (p & Ep & Lp & Vp); [rewrite Ew; exact Hwn|].
    change (sdim s) with (cdim c) in *. exists p. split; [exact Ep|]. split; [exact Lp|]. intros i Hi.
    rewrite Vp, Vq by auto. unfold snurbs, nurbs. rewrite Ew, Sw, H0, H1, H2.
    destruct (Nat.eqb_spec i (cdim c - 1)); [lia|]. destruct (Nat.ltb_spec i (cdim c - 1)); [|lia].
    assert (A : forall t, rsum (length (cpts c)) (fun j => N j * ((cpc c i j / cpc c (cdim c - 1) j + t) * cpc c (cdim c - 1) j))
      = hcoord c i v + t * wfun c v).
    { intros t. rewrite (rsum_ext _ _ (fun j => N j * cpc c i j + t * (N j * cpc c (cdim c - 1) j))).
      - rewrite rsum_plus, rsum_scal. reflexivity.
      - intros j Hj. pose proof (Hw j Hj). field. assumption. }
    assert (Af : forall j, (j < length (cpts c))%nat -> rc i (aff (nth j (cpts c) [])) = cpc c i j / cpc c (cdim c - 1) j).
    { intros j Hj. unfold aff. now rewrite rc_vdivs, rc_firstn by auto. }
    rewrite (rsum_ext _ _ (fun j => N j * ((cpc c i j / cpc c (cdim c - 1) j + rc i tr) * cpc c (cdim c - 1) j))).
    2:{ intros j Hj. rewrite rc_vadd, Af by (auto; rewrite ?Lt; auto; rewrite La; auto; now apply cpts_len). reflexivity. }
    rewrite A.
    rewrite (rsum_ext _ _ (fun j => N j * ((cpc c i j / cpc c (cdim c - 1) j + rc i tr / 2) * cpc c (cdim c - 1) j))).
    2:{ intros j Hj. rewrite rc_vadd, Af by (auto; rewrite ?Lh; auto; rewrite La; auto; now apply cpts_len).
        rewrite rc_vscale by (rewrite ?Lt; auto). f_equal. f_equal. f_equal. lra. }
    rewrite A.
    rewrite (rsum_ext _ _ (fun j => N j * ((cpc c i j / cpc c (cdim c - 1) j + 0) * cpc c (cdim c - 1) j))).
    2:{ intros j Hj. rewrite Af by auto. now rewrite Rplus_0_r. }
    rewrite A. field. exact Hwn.
  Qed.
End Real.
