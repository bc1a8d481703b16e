(** * Lofted surfaces: the columns interpolate, the surface passes through its sections *)
From Coq Require Import Reals Lra Sorted String.
From Verif Require Import Base BaseFacts Scalar RSum BSplineSpec BSpline KnotModel KnotSpec
  KnotFacts KnotProofs KnotMisc VecFacts MiscModel CurveModel CurveSpec CurveProofs CurveGeom CurveGeom2 CurveShapes InterpProofs
  Decompose MergeModel MergeProofs SurfaceModel SurfaceSpec SurfaceProofs SurfaceShapes LoftModel.
Open Scope list_scope. Open Scope R_scope.

Lemma Forall2_nth_lem {A B} (P : A -> B -> Prop) l l' k a b : Forall2 P l l' -> (k < length l)%nat -> P (nth k l a) (nth k l' b).
Proof.
  intros F. revert k. induction F as [|x y l l' H F IH]; intros k Hk; cbn [length] in Hk; [lia|].
  destruct k as [|k]; [exact H|]. apply IH. lia.
Qed.

Section Real.
  Variables eps maxv : R.
  Local Hint Extern 0 (Scalar R) => exact (ROps eps maxv) : typeclass_instances.

  (** the normalised chord-length parameters of the points are at least [eps] apart *)
  Definition spread (pts : list (list R)) : Prop :=
    distinct_steps pts /\ forall i, (S i < length pts)%nat -> eps <= iparam pts (S i) - iparam pts i.

  Lemma iparam_le pts i j : distinct_steps pts -> (i <= j < length pts)%nat -> iparam pts i <= iparam pts j.
  Proof.
    intros Hd H. destruct (Nat.eq_dec i j) as [->|]; [lra|]. left. apply iparam_lt; auto; lia.
  Qed.

  Lemma iknot_range pts p i a b : (1 <= p)%nat -> (forall j, (j < p)%nat -> a <= iparam pts (i + j) <= b) -> a <= iknot pts p i <= b.
  Proof.
    intros Hp H. assert (P : 0 < INR p) by (apply lt_0_INR; lia). unfold iknot.
    assert (E : forall x, x = INR p * x / INR p) by (intros; field; lra).
    rewrite (E a), (E b). unfold Rdiv. rewrite <- !rsum_const.
    split; (apply Rmult_le_compat_r; [left; now apply Rinv_0_lt_compat|]); apply rsum_le; intros j Hj; now apply H.
  Qed.

  Lemma iknots_eps pts p : 0 < eps -> spread pts -> (1 <= p)%nat -> (p + 1 <= length pts)%nat ->
    eps_ok eps p (length pts - 1) (iknots pts p).
  Proof.
    intros He (Hd & Hs) Hp Hn. split; [exact He|]. pose proof (iparam_0 pts) as Z. pose proof (iparam_1 pts Hd ltac:(lia)) as O.
    assert (A : eps <= iparam pts 1) by (pose proof (Hs 0%nat ltac:(lia)); lra).
    assert (B : eps <= 1 - iparam pts (length pts - 2)).
    { rewrite <- O. replace (length pts - 1)%nat with (S (length pts - 2)) by lia. apply Hs. lia. }
    assert (I : forall i, (1 <= i)%nat -> (i + p < length pts)%nat -> eps <= iknot pts p i <= 1 - eps).
    { intros i H1 H2. apply iknot_range; [exact Hp|]. intros j Hj.
      pose proof (iparam_le pts 1 (i + j) Hd ltac:(lia)). pose proof (iparam_le pts (i + j) (length pts - 2) Hd ltac:(lia)). lra. }
    assert (E1 : eps <= 1). { pose proof (iparam_le pts 1 (length pts - 1) Hd ltac:(lia)). lra. }
    rewrite !iknots_kf by exact Hn. rewrite Nat.leb_refl.
    destruct (Nat.leb_spec (p + 1) p); [lia|]. destruct (Nat.leb_spec (length pts - 1 + 1) p); [lia|].
    destruct (Nat.ltb_spec (length pts - 1 + 1) (length pts)); [lia|]. split.
    - destruct (Nat.ltb_spec (p + 1) (length pts)); [|lra]. pose proof (I (p + 1 - p)%nat ltac:(lia) ltac:(lia)). lra.
    - destruct (Nat.leb_spec (length pts - 1) p); [lra|]. destruct (Nat.ltb_spec (length pts - 1) (length pts)); [|lia].
      pose proof (I (length pts - 1 - p)%nat ltac:(lia) ltac:(lia)). lra.
  Qed.

  (** interpolating without appending a weight: every coordinate is interpolated *)
  Lemma column_passes solve d pts p cp k :
    exact_solver solve -> 0 < eps -> (1 <= d)%nat -> (1 <= p)%nat -> (p + 1 <= length pts)%nat ->
    Forall (fun q => length q = d) pts -> spread pts ->
    try_interpolate_control_points solve pts p false = Ok (cp, k) ->
    let c := MkCurve d p cp k in
    k = iknots pts p /\ length cp = length pts /\ curve_ok c /\ curve_eps eps c /\ dom0 c = 0 /\ dom1 c = 1 /\
    forall i l, (i < length pts)%nat -> (l < d)%nat -> hcoord c l (iparam pts i) = rc l (nth i pts []).
  Proof.
    intros Hs He Hd1 Hp Hn Hl Hsp E c. pose proof (proj1 Hsp) as Hd.
    assert (Ek : k = iknots pts p).
    { unfold try_interpolate_control_points in E. destruct (Nat.ltb_spec (length pts) (p + 1)); [lia|].
      rewrite (chord_params_eq eps maxv d) in E by (auto; lia). cbn [bind] in E.
      rewrite (averaged_knots_eq eps maxv) in E by (auto; lia). cbn [bind] in E. rewrite !usub_ok in E by lia. cbn [bind] in E.
      apply bind_ok in E. destruct E as (rows & _ & E). apply bind_ok in E. destruct E as (x & _ & E). now injection E as _ <-. }
    set (c1 := MkCurve (S d) p (map (fun q => q ++ [1]) cp) k).
    assert (E1 : try_interpolate solve (S d) pts p = Ok c1).
    { unfold try_interpolate, try_interpolate_control_points in *. destruct (Nat.ltb_spec (length pts) (p + 1)); [lia|].
      do 5 (apply bind_ok in E; let x := fresh "x" in let F := fresh "F" in destruct E as (x & F & E); rewrite F; cbn [bind]). apply bind_ok in E; destruct E as (x4 & E6 & E).
      unfold try_solve_interpolation in *. do 3 (apply bind_ok in E6; let x := fresh "x" in let F := fresh "F" in destruct E6 as (x & F & E6); rewrite F; cbn [bind]).
      injection E6 as <-. injection E as E Ek0. unfold c1. rewrite <- E, <- Ek0. rewrite map_id. reflexivity. }
    destruct (interpolate_passes eps maxv solve (S d) pts p Hs He ltac:(lia) Hp Hn) with (c := c1) as (Hc1 & _ & _ & D0 & D1 & Hpt); auto.
    { rewrite Nat.sub_succ, Nat.sub_0_r. exact Hl. }
    pose proof (co_pts c1 Hc1) as Hlen. cbn [c1 cpts cdim] in Hlen.
    assert (Lcp : length cp = length pts).
    { pose proof (ko_len _ _ _ (co_knots c1 Hc1)) as L. unfold clast in L. cbn [c1 cdeg cpts cknots] in L. rewrite map_length, Ek, iknots_len in L by exact Hn.
      pose proof (co_len c1 Hc1) as L2. cbn [c1 cdeg cpts] in L2. rewrite map_length in L2. lia. }
    assert (Hc : curve_ok c).
    { constructor; cbn [c cdim cdeg cpts cknots].
      - exact Hd1.
      - rewrite Forall_map in Hlen. eapply Forall_impl; [|exact Hlen]. intros q. cbv beta. rewrite app_length. cbn [length]. lia.
      - lia.
      - unfold clast. cbn [c cpts]. rewrite Lcp, Ek. now apply iknots_ok. }
    assert (Hce : curve_eps eps c).
    { unfold curve_eps, clast. cbn [c cdeg cpts cknots]. rewrite Lcp, Ek. now apply iknots_eps. }
    assert (Hce1 : curve_eps eps c1).
    { unfold curve_eps, clast. cbn [c1 cdeg cpts cknots]. rewrite map_length, Lcp, Ek. now apply iknots_eps. }
    split; [exact Ek|]. split; [exact Lcp|]. split; [exact Hc|]. split; [exact Hce|].
    assert (D0' : dom0 c = 0) by exact D0. assert (D1' : dom1 c = 1) by (unfold dom1 in *; cbn [c c1 cpts cknots] in *; now rewrite map_length in D1).
    split; [exact D0'|]. split; [exact D1'|].
    intros i l Hi Hll.
    assert (Hu : 0 <= iparam pts i <= 1).
    { pose proof (iparam_0 pts) as Z. pose proof (iparam_1 pts Hd ltac:(lia)) as O. pose proof (iparam_le pts 0 i Hd ltac:(lia)). pose proof (iparam_le pts i (length pts - 1) Hd ltac:(lia)). lra. }
    assert (W : wfun c1 (iparam pts i) = 1).
    { unfold wfun. rewrite <- (cox_sum c1 (iparam pts i) Hc1) by (rewrite D0, D1; exact Hu). unfold hcoord. apply rsum_ext. intros j Hj.
      replace (cpc c1 (cdim c1 - 1) j) with 1; [ring|]. cbn [c1 cdim cpts] in *. rewrite map_length in Hj. unfold cpc, rc. cbn [c1 cpts].
      rewrite (nth_map_lt _ _ j [] []) by exact Hj. pose proof (co_pts c Hc) as F. rewrite Forall_forall in F. specialize (F (nth j cp []) ltac:(now apply nth_In)).
      cbn [c cdim] in F. rewrite Nat.sub_succ, Nat.sub_0_r. rewrite app_nth2 by lia. now rewrite F, Nat.sub_diag. }
    destruct (point_at_spec eps maxv c1 (iparam pts i) Hc1 Hce1) as (q & Eq & Lq & Hq); [rewrite D0, D1; exact Hu|rewrite W; lra|].
    rewrite (Hpt i Hi) in Eq. injection Eq as Eq. rewrite Eq. rewrite Hq by (cbn [c1 cdim]; lia). unfold nurbs. rewrite W.
    transitivity (hcoord c1 l (iparam pts i)); [|field].
    unfold hcoord. cbn [c c1 cpts cdeg cknots]. rewrite map_length. unfold dom1 in *. cbn [c c1 cpts cknots] in *. rewrite map_length.
    apply rsum_ext. intros j Hj. f_equal. unfold cpc, rc. cbn [c c1 cpts]. rewrite (nth_map_lt _ _ j [] []) by exact Hj.
    pose proof (co_pts c Hc) as F. rewrite Forall_forall in F. specialize (F (nth j cp []) ltac:(now apply nth_In)). cbn [c cdim] in F. now rewrite app_nth1 by lia.
  Qed.

  (** the [i]-th control points of all the sections *)
  Definition column (us : list (Curve R)) (i : nat) : list (list R) := map (fun c => nth i (cpts c) []) us.
  (** sections that share degree, knots and dimension *)
  Definition unified (us : list (Curve R)) (D p : nat) (ks : list R) : Prop :=
    Forall (fun c => curve_ok c /\ cdim c = D /\ cdeg c = p /\ cknots c = ks) us.

  Lemma loft_surface solve us D p ks q s N :
    exact_solver solve -> 0 < eps -> unified us D p ks -> (2 <= length us)%nat -> (1 <= q <= length us - 1)%nat ->
    Forall (fun c => length (cpts c) = N) us -> eps_ok eps p (N - 1) ks ->
    (forall i, (i < N)%nat -> spread (column us i)) ->
    (columns <- mapM (loft_column solve D q us) (seq 0 N) ;; li <- usub (length columns) 1 ;; cl <- get columns li ;;
     Ok (MkSurf D p q ks (cknots cl) (map cpts columns))) = Ok s ->
    surf_ok s /\ surf_eps eps s /\ sdim s = D /\ sdu s = p /\ sdv s = q /\ suk s = ks /\ nrow s = N /\ ncol s = length us /\
    svk s = iknots (column us (N - 1)) q /\ v0 s = 0 /\ v1 s = 1 /\
    (forall k v, (k < length us)%nat ->
       (k = 0%nat /\ v = 0) \/ (k = (length us - 1)%nat /\ v = 1) \/
       ((forall i j, (i < N)%nat -> (j < length us)%nat -> iparam (column us i) j = iparam (column us 0) j) /\ v = iparam (column us 0) k) ->
       forall l u, (l < D)%nat -> shcoord s l u v = hcoord (nth k us (MkCurve 0 0 [] [])) l u).
  Proof.
    intros Hs He Hu Hn Hq HN Hek Hsp E. unfold unified in Hu. rewrite Forall_forall in Hu, HN.
    set (c0 := nth 0 us (MkCurve 0 0 [] [])).
    assert (I0 : In c0 us) by (apply nth_In; lia). destruct (Hu c0 I0) as (Ok0 & D0 & P0 & K0). pose proof (HN c0 I0) as N0.
    assert (HD : (1 <= D)%nat) by (rewrite <- D0; apply Ok0). assert (HpN : (p < N)%nat) by (rewrite <- P0, <- N0; apply Ok0).
    assert (Hkn : knots_ok p (N - 1) ks) by (rewrite <- P0, <- K0, <- N0; apply Ok0).
    apply bind_ok in E. destruct E as (cols & Ec & E). pose proof (mapM_length _ _ _ Ec) as Lc. rewrite seq_length in Lc.
    rewrite usub_ok in E by lia. cbn [bind] in E. apply bind_ok in E. destruct E as (cl & Ecl & E). injection E as <-.
    assert (Hc : forall i, (i < N)%nat -> let c := nth i cols (MkCurve 0 0 [] []) in
      cdim c = D /\ cdeg c = q /\ cknots c = iknots (column us i) q /\ length (cpts c) = length us /\ curve_ok c /\ curve_eps eps c /\ dom0 c = 0 /\ dom1 c = 1 /\
      forall k l, (k < length us)%nat -> (l < D)%nat -> hcoord c l (iparam (column us i) k) = cpc (nth k us (MkCurve 0 0 [] [])) l i).
    { intros i Hi c. pose proof (mapM_at _ _ _ i 0%nat (MkCurve 0 0 [] []) Ec ltac:(rewrite seq_length; lia)) as F. rewrite seq_nth in F by exact Hi. cbn [Nat.add] in F.
      unfold loft_column in F. rewrite (mapM_ok _ (fun c => nth i (cpts c) [])) in F.
      2:{ intros x Hx. apply get_ok. rewrite HN by exact Hx. exact Hi. }
      cbn [bind] in F. fold (column us i) in F. apply bind_ok in F. destruct F as ((cp & k) & F & F2).
      assert (Lcol : length (column us i) = length us) by apply map_length.
      assert (Hl : Forall (fun q => length q = D) (column us i)).
      { unfold column. rewrite Forall_map. apply Forall_forall. intros x Hx. destruct (Hu x Hx) as (Okx & Dx & _ & _).
        pose proof (co_pts x Okx) as G. rewrite Forall_forall in G. rewrite <- Dx. apply G, nth_In. rewrite HN by exact Hx. exact Hi. }
      destruct (column_passes solve D (column us i) q cp k Hs He HD ltac:(lia) ltac:(lia) Hl (Hsp i Hi) F) as (Ek & Lcp & Okc & Ekc & Dc0 & Dc1 & Hpass).
      rewrite (try_new_sorted eps maxv) in F2.
      2:{ lia. }
      2:{ rewrite Ek, iknots_len by lia. lia. }
      2:{ rewrite Ek. apply (iknots_ok _ _ (proj1 (Hsp i Hi))); lia. }
      injection F2 as F2. unfold c. rewrite <- F2. split; [reflexivity|]. split; [reflexivity|]. split; [exact Ek|]. split; [cbn [cpts]; lia|].
      split; [exact Okc|]. split; [exact Ekc|]. split; [exact Dc0|]. split; [exact Dc1|].
      intros k' l Hk' Hl'. rewrite Hpass by lia. unfold column. rewrite (nth_map_lt _ _ k' (MkCurve 0 0 [] []) []) by exact Hk'. reflexivity. }
    apply get_inv in Ecl. destruct Ecl as (_ & Ecl). specialize (Ecl (MkCurve 0 0 [] [])). rewrite Lc in Ecl.
    destruct (Hc (N - 1)%nat ltac:(lia)) as (_ & _ & Kl & Ll & Okl & El & Dl0 & Dl1 & _). rewrite <- Ecl in Kl, Ll, Okl, El, Dl0, Dl1.
    assert (Hnet : forall a, (a < N)%nat -> nth a (map cpts cols) [] = cpts (nth a cols (MkCurve 0 0 [] []))).
    { intros a Ha. apply nth_map_lt. lia. }
    set (s := MkSurf D p q ks (cknots cl) (map cpts cols)).
    assert (R : nrow s = N) by (unfold nrow; cbn [s snet]; rewrite map_length; lia).
    assert (C : ncol s = length us) by (unfold ncol; cbn [s snet]; rewrite Hnet by lia; apply (Hc 0%nat ltac:(lia))).
    assert (Hin : forall row, In row (snet s) -> exists a, (a < N)%nat /\ row = cpts (nth a cols (MkCurve 0 0 [] []))).
    { intros row Hr. cbn [s snet] in Hr. apply in_map_iff in Hr. destruct Hr as (x & <- & Hx). destruct (In_nth _ _ (MkCurve 0 0 [] []) Hx) as (a & Ha & <-). exists a. split; [lia|reflexivity]. }
    destruct (co_knots _ Okl) as [kl1 kl2 kl3 kl4 kl5]. 
    assert (Qc : cdeg cl = q) by (rewrite Ecl; apply (Hc (N - 1)%nat ltac:(lia))).
    assert (So : surf_ok s).
    { constructor; cbn [s sdim sdu sdv suk svk].
      - exact HD.
      - apply Forall_forall. intros row Hr. destruct (Hin row Hr) as (a & Ha & ->). rewrite C. apply (Hc a Ha).
      - apply Forall_forall. intros row Hr. destruct (Hin row Hr) as (a & Ha & ->). destruct (Hc a Ha) as (<- & _ & _ & _ & Okc & _). apply Okc.
      - fold s. rewrite R. exact HpN.
      - fold s. rewrite C. lia.
      - fold s. rewrite R. exact Hkn.
      - fold s. rewrite C. rewrite <- Qc, <- Ll. apply (co_knots cl Okl). }
    split; [exact So|]. split.
    { split; fold s; [rewrite R; exact Hek|]. rewrite C. cbn [s sdv svk]. rewrite <- Qc, <- Ll. exact El. }
    do 4 (split; [reflexivity|]). split; [exact R|]. split; [exact C|]. split; [exact Kl|].
    assert (V0 : v0 s = 0) by (unfold v0; cbn [s svk sdv]; rewrite <- Qc; exact Dl0).
    assert (V1 : v1 s = 1) by (unfold v1; rewrite C; cbn [s svk]; rewrite <- Ll; exact Dl1).
    split; [exact V0|]. split; [exact V1|].
    intros k v Hk Hv l u Hl.
    assert (Key : forall a, (a < N)%nat -> hcoord (vrow s a) l v = cpc (nth k us (MkCurve 0 0 [] [])) l a).
    { intros a Ha. destruct (Hc a Ha) as (Da & Qa & Ka & La & Oka & Ea & Da0 & Da1 & Pa). set (c := nth a cols (MkCurve 0 0 [] [])) in *.
      assert (Okv : curve_ok (vrow s a)) by (apply vrow_ok; [exact So|rewrite R; exact Ha]).
      assert (Cp : cpts (vrow s a) = cpts c) by (unfold vrow; cbn [cpts s snet]; now apply Hnet).
      assert (Hd : distinct_steps (column us a)) by apply (Hsp a Ha).
      assert (Lcol : forall b, length (column us b) = length us) by (intros; apply map_length).
      destruct Hv as [(-> & ->)|[(-> & ->)|(Hag & ->)]].
      - rewrite <- Pa by (assumption || lia). rewrite iparam_0.
        transitivity (cpc c l 0).
        + replace 0 with (dom0 (vrow s a)) by (rewrite (proj1 (vrow_dom s a So ltac:(lia))); exact V0).
          rewrite hcoord_start; [unfold cpc; now rewrite Cp|exact Okv|]. intros j Hj. cbn [vrow cdeg cknots s sdv svk] in *. rewrite Kl, !iknots_kf by (rewrite Lcol; lia).
          destruct (Nat.leb_spec j q); [reflexivity|lia].
        + replace 0 with (dom0 c) by exact Da0. rewrite hcoord_start; [reflexivity|exact Oka|]. intros j Hj. rewrite Ka, !iknots_kf by (rewrite Lcol; lia). rewrite Qa in Hj.
          destruct (Nat.leb_spec j q); [reflexivity|lia].
      - rewrite <- Pa by (assumption || lia). rewrite <- (Lcol a), iparam_1 by (assumption || (rewrite Lcol; lia)).
        transitivity (cpc c l (length us - 1)).
        + replace 1 with (dom1 (vrow s a)) by (rewrite (proj2 (vrow_dom s a So ltac:(lia))); exact V1).
          rewrite hcoord_end; [unfold cpc, clast; now rewrite Cp, La|exact Okv|]. intros j Hj. rewrite Cp, La in *. cbn [vrow cdeg cknots s sdv svk] in *.
          rewrite Kl, !iknots_kf by (rewrite Lcol; lia). rewrite !Lcol.
          destruct (Nat.leb_spec j q), (Nat.leb_spec (length us) q); try lia. destruct (Nat.ltb_spec j (length us)), (Nat.ltb_spec (length us) (length us)); try lia. reflexivity.
        + replace 1 with (dom1 c) by exact Da1. rewrite hcoord_end; [unfold cpc, clast; now rewrite La|exact Oka|]. intros j Hj. rewrite La, Qa in *.
          rewrite Ka, !iknots_kf by (rewrite Lcol; lia). rewrite !Lcol.
          destruct (Nat.leb_spec j q), (Nat.leb_spec (length us) q); try lia. destruct (Nat.ltb_spec j (length us)), (Nat.ltb_spec (length us) (length us)); try lia. reflexivity.
      - rewrite <- Pa by assumption. rewrite (Hag a k Ha Hk).
        assert (Ek : iknots (column us (N - 1)) q = iknots (column us a) q).
        { unfold iknots. rewrite !Lcol. f_equal. f_equal. apply map_ext_in. intros j Hj. apply in_seq in Hj. unfold iknot. f_equal. apply rsum_ext. intros m Hm.
          rewrite (Hag (N - 1)%nat), (Hag a) by lia. reflexivity. }
        assert (Ev : vrow s a = c); [|now rewrite Ev].
        unfold vrow. cbn [s sdim sdv snet svk]. rewrite Hnet by exact Ha. fold c. rewrite Kl, Ek, <- Ka, <- Da, <- Qa. now destruct c. }
    rewrite shcoord_rows by exact So. destruct (Hu (nth k us (MkCurve 0 0 [] [])) ltac:(now apply nth_In)) as (Okk & Dk & Pk & Kk). pose proof (HN (nth k us (MkCurve 0 0 [] [])) ltac:(now apply nth_In)) as Nk.
    unfold hcoord at 2. rewrite Nk, R. apply rsum_ext. intros a Ha. rewrite Key by exact Ha. f_equal. unfold Nu, u1, dom1. rewrite R, Nk, Pk, Kk. reflexivity.
  Qed.

  (** the [k]-th section lies at parameter [v]: the first at 0, the last at 1, and all of them at their chord
      parameters when these are the same for all columns of control points *)
  Definition section_at (us : list (Curve R)) (k : nat) (v : R) : Prop :=
    (k = 0%nat /\ v = 0) \/ (k = (length us - 1)%nat /\ v = 1) \/
    ((forall i j, (i < length (cpts (nth 0 us (MkCurve 0 0 [] []))))%nat -> (j < length us)%nat -> iparam (column us i) j = iparam (column us 0) j) /\
     v = iparam (column us 0) k).

  Lemma loft_core solve D p cs us dv s :
    exact_solver solve -> 0 < eps -> (2 <= length cs)%nat -> (1 <= p)%nat -> (forall d, dv = Some d -> (1 <= d)%nat) ->
    Forall (fun c => curve_ok c /\ curve_eps eps c /\ pos_weights c /\ clamped c /\ cdeg c = p /\ cdim c = D /\
                     curve_eps eps (on_span (max_span cs) c)) cs ->
    separated eps (concat (map (fun c => cknots (on_span (max_span cs) c)) cs)) ->
    unify_knots cs = Ok us -> (forall i, (i < length (cpts (nth 0 us (MkCurve 0 0 [] []))))%nat -> spread (column us i)) ->
    try_loft solve cs dv = Ok s ->
    surf_ok s /\ surf_eps eps s /\ sdim s = D /\ sdu s = p /\
    sdv s = Nat.min (match dv with Some d => d | None => p end) (length cs - 1) /\
    ncol s = length cs /\ length us = length cs /\ (0 < length (cpts (nth 0 us (MkCurve 0 0 [] []))))%nat /\
    svk s = iknots (column us (length (cpts (nth 0 us (MkCurve 0 0 [] []))) - 1)) (sdv s) /\
    u0 s = 0 /\ u1 s = max_span cs /\ 0 < max_span cs /\ v0 s = 0 /\ v1 s = 1 /\
    forall k, (k < length cs)%nat -> let c := nth k cs (MkCurve 0 0 [] []) in
      curve_ok c /\ curve_eps eps c /\ pos_weights c /\ cdim c = D /\
      forall v, section_at us k v -> forall l u, (l < D)%nat -> dom0 c <= u <= dom1 c ->
        shcoord s l ((u - dom0 c) * (max_span cs / (dom1 c - dom0 c))) v = hcoord c l u.
  Proof.
    intros Hs He Hn Hp Hdv Hcs Hsep Hun Hsp E.
    destruct (unify_spec eps maxv He p cs) as (us' & ks & Eu & Hks & Hcnt & F2).
    { eapply Forall_impl; [|exact Hcs]. intros c H. cbv beta in *. tauto. }
    { exact Hsep. }
    rewrite Hun in Eu. injection Eu as <-. pose proof (Forall2_len _ _ _ F2) as Lus.
    assert (At : forall k, (k < length cs)%nat -> let c := nth k cs (MkCurve 0 0 [] []) in let c' := nth k us (MkCurve 0 0 [] []) in
      (curve_ok c /\ curve_eps eps c /\ pos_weights c /\ cdim c = D) /\
      (cknots c' = ks /\ cdeg c' = p /\ cdim c' = D /\ curve_ok c' /\ dom0 c' = 0 /\ dom1 c' = max_span cs /\
       forall i u, dom0 c <= u <= dom1 c -> hcoord c' i ((u - dom0 c) * (max_span cs / (dom1 c - dom0 c))) = hcoord c i u)).
    { intros k Hk c c'. rewrite Forall_forall in Hcs. destruct (Hcs c ltac:(now apply nth_In)) as (H1 & H2 & H3 & _ & _ & H4 & _).
      split; [tauto|]. destruct (Forall2_nth_lem _ _ _ k (MkCurve 0 0 [] []) (MkCurve 0 0 [] []) F2 Hk) as (K1 & K2 & K3 & K4 & K5 & K6 & K7).
      fold c in K3, K7. fold c' in K1, K2, K3, K4, K5, K6, K7. repeat (split; [congruence || assumption|]). exact K7. }
    set (c0 := nth 0 us (MkCurve 0 0 [] [])) in *. set (N := length (cpts c0)) in *.
    destruct (At 0%nat ltac:(lia)) as (_ & K1 & K2 & K3 & K4 & K5 & K6 & _). fold c0 in K1, K2, K3, K4, K5, K6.
    assert (HpN : (p < N)%nat) by (rewrite <- K2; apply K4).
    assert (Hk0 : knots_ok p (N - 1) ks) by (rewrite <- K2, <- K1; apply K4).
    assert (Hun2 : forall c, In c us -> curve_ok c /\ cdim c = D /\ cdeg c = p /\ cknots c = ks).
    { intros c Hc. destruct (In_nth _ _ (MkCurve 0 0 [] []) Hc) as (k & Hk & <-). destruct (At k ltac:(lia)) as (_ & A1 & A2 & A3 & A4 & _). tauto. }
    assert (HNs : Forall (fun c => length (cpts c) = N) us).
    { apply Forall_forall. intros c Hc. destruct (Hun2 c Hc) as (Okc & _ & Pc & Kc). pose proof (ko_len _ _ _ (co_knots c Okc)) as L1. pose proof (ko_len _ _ _ Hk0) as L2.
      pose proof (co_len c Okc) as L3. rewrite Kc, Pc in L1. rewrite Pc in L3. unfold clast in L1. lia. }
    assert (Hmem : forall i, (i < length ks)%nat -> In (kf ks i) (concat (map (fun c => cknots (on_span (max_span cs) c)) cs))).
    { intros i Hi. assert (Hin : In (kf ks i) ks) by (rewrite (kf_nth _ _ 0) by exact Hi; now apply nth_In).
      destruct (proj1 (Hcnt (kf ks i) 1%nat)) as [Z|(c & Hc & Hge)]; [apply (count_occ_In Req_EM_T) in Hin; exact Hin|lia|].
      apply in_concat. exists (cknots (on_span (max_span cs) c)). split; [apply in_map_iff; eauto|]. apply (count_occ_In Req_EM_T). exact Hge. }
    assert (Hgap : forall i j, (i < length ks)%nat -> (j < length ks)%nat -> kf ks i < kf ks j -> eps <= kf ks j - kf ks i).
    { intros i j Hi Hj Hlt. destruct (Hsep _ _ (Hmem j Hj) (Hmem i Hi)) as [Q|Q]; [lra|]. rewrite Rabs_right in Q; lra. }
    destruct Hk0 as [kl1 kl2 kl3 kl4 kl5]. assert (Hk0 : knots_ok p (N - 1) ks) by (constructor; assumption).
    assert (Hek : eps_ok eps p (N - 1) ks).
    { split; [exact He|]. split; (apply Hgap; [lia|lia|assumption]). }
    unfold try_loft in E. rewrite Hun in E. cbn [bind] in E. rewrite (get_ok us 0 (MkCurve 0 0 [] [])) in E by lia. cbn [bind] in E. fold c0 in E.
    rewrite usub_ok in E by lia. cbn [bind] in E. fold N in E. rewrite K1, K2, K3 in E.
    set (q := Nat.min _ _) in E. assert (Hq : (1 <= q <= length us - 1)%nat).
    { unfold q. destruct dv as [d|]; [specialize (Hdv d eq_refl)|]; lia. }
    destruct (loft_surface solve us D p ks q s N Hs He) as (So & Se & Sd & Su & Sv & Sk & R & C & Svk & V0 & V1 & Hsec); try assumption; try lia.
    { apply Forall_forall. exact Hun2. }
    assert (U0 : u0 s = 0) by (unfold u0; rewrite Sk, Su, <- K1, <- K2; exact K5).
    assert (U1 : u1 s = max_span cs) by (unfold u1; rewrite Sk, R, <- K1; exact K6).
    assert (Hms : 0 < max_span cs) by (pose proof (dom_le c0 K4); lra).
    do 4 (split; [assumption|]). split; [rewrite Sv; unfold q; now rewrite Lus|]. split; [lia|]. split; [lia|]. split; [lia|].
    split; [rewrite Sv; assumption|]. do 5 (split; [assumption|]).
    intros k Hk c. destruct (At k Hk) as ((B1 & B2 & B3 & B4) & A1 & A2 & A3 & A4 & A5 & A6 & A7). fold c in B1, B2, B3, B4, A7.
    do 4 (split; [assumption|]). intros v Hv l u Hl Hdom. rewrite (Hsec k v ltac:(lia) Hv l _ Hl). now apply A7.
  Qed.

  (** the parameter of the surface for the parameter [u] of a section *)
  Definition loft_u (cs : list (Curve R)) (c : Curve R) (u : R) : R := (u - dom0 c) * (max_span cs / (dom1 c - dom0 c)).

  Lemma loft_u_range cs c u : curve_ok c -> 0 < max_span cs -> dom0 c <= u <= dom1 c -> 0 <= loft_u cs c u <= max_span cs.
  Proof.
    intros Hc Hms Hu. pose proof (dom_le c Hc). unfold loft_u. assert (0 <= (u - dom0 c) / (dom1 c - dom0 c) <= 1).
    { split; [apply Rmult_le_pos; [lra|left; apply Rinv_0_lt_compat; lra]|]. apply (Rmult_le_reg_r (dom1 c - dom0 c)); [lra|]. unfold Rdiv. rewrite Rmult_assoc, Rinv_l by lra. lra. }
    replace ((u - dom0 c) * (max_span cs / (dom1 c - dom0 c))) with ((u - dom0 c) / (dom1 c - dom0 c) * max_span cs) by (field; lra). nra.
  Qed.

  Theorem loft_sections solve D p cs us dv s :
    exact_solver solve -> 0 < eps -> (2 <= length cs)%nat -> (1 <= p)%nat -> (forall d, dv = Some d -> (1 <= d)%nat) ->
    Forall (fun c => curve_ok c /\ curve_eps eps c /\ pos_weights c /\ clamped c /\ cdeg c = p /\ cdim c = D /\
                     curve_eps eps (on_span (max_span cs) c)) cs ->
    separated eps (concat (map (fun c => cknots (on_span (max_span cs) c)) cs)) ->
    unify_knots cs = Ok us -> (forall i, (i < length (cpts (nth 0 us (MkCurve 0 0 [] []))))%nat -> spread (column us i)) ->
    try_loft solve cs dv = Ok s ->
    surf_ok s /\ surf_eps eps s /\ sdim s = D /\ sdu s = p /\
    sdv s = Nat.min (match dv with Some d => d | None => p end) (length cs - 1) /\ u0 s = 0 /\ u1 s = max_span cs /\ v0 s = 0 /\ v1 s = 1 /\
    forall k v, (k < length cs)%nat -> section_at us k v ->
      forall u, let c := nth k cs (MkCurve 0 0 [] []) in dom0 c <= u <= dom1 c ->
      exists q, point_at c u = Ok q /\ surf_point_at s (loft_u cs c u) v = Ok q.
  Proof.
    intros Hs He Hn Hp Hdv Hcs Hsep Hun Hsp E.
    destruct (loft_core solve D p cs us dv s) as (So & Se & Sd & Su & Sv & C & Lus & _ & _ & U0 & U1 & Hms & V0 & V1 & Hsec); try assumption.
    do 9 (split; [assumption|]). intros k v Hk Hv u c Hdom. destruct (Hsec k Hk) as (B1 & B2 & B3 & B4 & Hsh). fold c in B1, B2, B3, B4, Hsh.
    pose proof (loft_u_range cs c u B1 Hms Hdom) as Hu'. specialize (fun l Hl => Hsh v Hv l u Hl Hdom). fold (loft_u cs c u) in Hsh. set (u' := loft_u cs c u) in *.
    assert (Hw : swfun s u' v = wfun c u).
    { unfold swfun, wfun. rewrite Sd, B4. apply Hsh. pose proof (co_dim c B1). lia. }
    pose proof (wfun_pos eps maxv c u B1 B2 B3 Hdom) as Hwp.
    assert (Hv01 : 0 <= v <= 1).
    { destruct Hv as [(_ & ->)|[(_ & ->)|(_ & ->)]]; [lra|lra|].
      destruct (Nat.eq_dec (length (cpts (nth 0 us (MkCurve 0 0 [] [])))) 0) as [Z0|Z0].
      - exfalso. destruct (loft_core solve D p cs us dv s) as (_ & _ & _ & _ & _ & _ & _ & Hpos & _); try assumption. lia.
      - assert (Hd : distinct_steps (column us 0)) by (apply Hsp; lia). assert (Lcol : length (column us 0) = length us) by apply map_length.
      pose proof (iparam_0 (column us 0)) as Z. pose proof (iparam_1 (column us 0) Hd ltac:(lia)) as O.
      pose proof (iparam_le (column us 0) 0 k Hd ltac:(lia)). pose proof (iparam_le (column us 0) k (length (column us 0) - 1) Hd ltac:(lia)). lra. }
    destruct (point_at_spec eps maxv c u B1 B2 Hdom ltac:(lra)) as (x & Ex & Lx & Hx).
    destruct (surf_point_at_spec eps maxv s u' v So Se) as (y & Ey & Ly & Hy).
    { unfold in_dom. rewrite U0, U1, V0, V1. split; assumption. }
    { rewrite Hw. lra. }
    exists x. split; [exact Ex|]. rewrite Ey. f_equal. apply (vec_ext _ _ (D - 1)); [now rewrite <- Sd|now rewrite <- B4|].
    intros l Hl. rewrite Hy by (rewrite Sd; exact Hl). rewrite Hx by (rewrite B4; exact Hl). unfold snurbs, nurbs. now rewrite Hw, Hsh by lia.
  Qed.

  (** two sections: the ruled surface between them *)
  Theorem loft_ruled solve D p c0 c1 us dv s :
    exact_solver solve -> 0 < eps -> (1 <= p)%nat -> (forall d, dv = Some d -> (1 <= d)%nat) ->
    Forall (fun c => curve_ok c /\ curve_eps eps c /\ pos_weights c /\ clamped c /\ cdeg c = p /\ cdim c = D /\
                     curve_eps eps (on_span (max_span [c0; c1]) c)) [c0; c1] ->
    separated eps (concat (map (fun c => cknots (on_span (max_span [c0; c1]) c)) [c0; c1])) ->
    unify_knots [c0; c1] = Ok us -> (forall i, (i < length (cpts (nth 0 us (MkCurve 0 0 [] []))))%nat -> spread (column us i)) ->
    try_loft solve [c0; c1] dv = Ok s ->
    forall t v, 0 <= t <= 1 -> 0 <= v <= 1 ->
      let a := dom0 c0 + t * (dom1 c0 - dom0 c0) in let b := dom0 c1 + t * (dom1 c1 - dom0 c1) in
      exists q, surf_point_at s (t * max_span [c0; c1]) v = Ok q /\ length q = (D - 1)%nat /\
        forall l, (l < D - 1)%nat ->
          rc l q = ((1 - v) * hcoord c0 l a + v * hcoord c1 l b) / ((1 - v) * wfun c0 a + v * wfun c1 b).
  Proof.
    intros Hs He Hp Hdv Hcs Hsep Hun Hsp E t v Ht Hv a b.
    destruct (loft_core solve D p [c0; c1] us dv s) as (So & Se & Sd & Su & Sv & C & Lus & Hpos & Sk & U0 & U1 & Hms & V0 & V1 & Hsec); try assumption.
    { cbn [length]. lia. }
    destruct (Hsec 0%nat ltac:(cbn; lia)) as (A1 & A2 & A3 & A4 & A5). destruct (Hsec 1%nat ltac:(cbn; lia)) as (B1 & B2 & B3 & B4 & B5). cbn [nth] in *.
    assert (Q : sdv s = 1%nat) by (rewrite Sv; cbn [length]; destruct dv as [d|]; [specialize (Hdv d eq_refl)|]; lia).
    cbn [length] in C, Lus. assert (Kv : svk s = [0; 0; 1; 1]).
    { rewrite Sk, Q. unfold iknots. unfold column. rewrite map_length, Lus. reflexivity. }
    pose proof (dom_le c0 A1) as L0. pose proof (dom_le c1 B1) as L1. set (S := max_span [c0; c1]) in *.
    assert (Da : dom0 c0 <= a <= dom1 c0) by (unfold a; nra). assert (Db : dom0 c1 <= b <= dom1 c1) by (unfold b; nra).
    assert (Ea : (a - dom0 c0) * (S / (dom1 c0 - dom0 c0)) = t * S) by (unfold a; field; lra).
    assert (Eb : (b - dom0 c1) * (S / (dom1 c1 - dom0 c1)) = t * S) by (unfold b; field; lra).
    assert (Hu : 0 <= t * S <= S) by nra.
    assert (Bl : forall l, (l < D)%nat -> shcoord s l (t * S) v = (1 - v) * hcoord c0 l a + v * hcoord c1 l b).
    { intros l Hl. rewrite <- (A5 0 (or_introl (conj eq_refl eq_refl)) l a Hl Da), Ea.
      assert (S1 : section_at us 1 1) by (right; left; split; [rewrite Lus; reflexivity|reflexivity]).
      rewrite <- (B5 1 S1 l b Hl Db), Eb.
      rewrite !shcoord_cols by exact So. rewrite C. cbn [rsum]. unfold Nv. rewrite V1, Kv, Q.
      destruct (bern1 v Hv) as (-> & ->). destruct (bern1 0 ltac:(lra)) as (-> & ->). destruct (bern1 1 ltac:(lra)) as (-> & ->). ring. }
    pose proof (wfun_pos eps maxv c0 a A1 A2 A3 Da) as W0. pose proof (wfun_pos eps maxv c1 b B1 B2 B3 Db) as W1.
    assert (Hw : swfun s (t * S) v = (1 - v) * wfun c0 a + v * wfun c1 b).
    { unfold swfun, wfun. rewrite Sd, A4, B4. apply Bl. pose proof (co_dim c0 A1). lia. }
    assert (Hwp : 0 < (1 - v) * wfun c0 a + v * wfun c1 b).
    { destruct (Rle_lt_dec v (1 / 2)); nra. }
    destruct (surf_point_at_spec eps maxv s (t * S) v So Se) as (y & Ey & Ly & Hy).
    { unfold in_dom. rewrite U0, U1, V0, V1. split; assumption. }
    { rewrite Hw. lra. }
    exists y. split; [exact Ey|]. split; [now rewrite <- Sd|]. intros l Hl. rewrite Hy by (rewrite Sd; exact Hl). unfold snurbs. now rewrite Hw, Bl by lia.
  Qed.
End Real.
