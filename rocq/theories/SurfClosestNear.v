(** * The closest point search on a surface: how far its answer can be from the best point of the surface *)
From Coq Require Import Reals Lra Lia List.
From Verif Require Import Base BaseFacts Scalar RSum BSplineSpec BSpline KnotModel KnotSpec KnotFacts VecFacts CurveModel CurveSpec CurveProofs CurveGeom CurveShapes
  SurfaceModel SurfaceSpec SurfaceProofs SurfaceSample SurfContinuity AdaptMain TrimModel SurfClosest CurveLipschitz SurfLipschitz ClosestNear.
Import ListNotations.
Open Scope R_scope.

(** neighbouring grid lines of one direction are at most [2 h] apart *)
Definition grid_gap (k : list R) (p n : nat) (lo hi h : R) : Prop :=
  if (p <=? 1)%nat then forall i, (1 <= i < n)%nat -> kf k (S i) - kf k i <= 2 * h
  else (hi - lo) / INR (2 * (n - 1)) <= 2 * h.

Lemma step_between (f : nat -> R) x n : (1 <= n)%nat -> f 1%nat <= x <= f n -> x = f 1%nat \/ exists i, (1 <= i < n)%nat /\ f i <= x <= f (S i).
Proof.
  induction n as [|n IH]; intros Hn Hx; [lia|]. destruct (Nat.eq_dec n 0) as [->|Hne]; [left; lra|].
  destruct (Rle_dec x (f n)) as [C|C].
  - destruct (IH ltac:(lia) ltac:(lra)) as [->|(i & Hi & D)]; [now left|right]. exists i. split; [lia|exact D].
  - right. exists n. split; [lia|lra].
Qed.

Lemma grid_near k p n h x : knots_ok p (n - 1) k -> (2 <= n)%nat -> (1 <= p)%nat -> grid_gap k p n (kf k p) (kf k n) h -> kf k p <= x <= kf k n ->
  exists y, grid_line k p n (kf k p) (kf k n) y /\ kf k p <= y <= kf k n /\ Rabs (x - y) <= h.
Proof.
  intros Hk Hn Hp Hg Hx. unfold grid_gap, grid_line in *. pose proof (ko_len _ _ _ Hk) as Hl.
  destruct (Nat.leb_spec p 1) as [C|C].
  - assert (p = 1%nat) as -> by lia.
    assert (M : forall i j, (i <= j)%nat -> kf k i <= kf k j) by (intros; apply mono_le; [apply sorted_mono, (ko_sorted _ _ _ Hk)|assumption]).
    destruct (step_between (kf k) x n ltac:(lia) Hx) as [E|(i & Hi & Di)].
    + exists (kf k 1). split; [exists 1%nat; split; [lia|reflexivity]|]. split; [lra|]. rewrite E. replace (kf k 1 - kf k 1) with 0 by ring. rewrite Rabs_R0.
      specialize (Hg 1%nat ltac:(lia)). pose proof (M 1%nat 2%nat ltac:(lia)). lra.
    + specialize (Hg i Hi). pose proof (M 1%nat i ltac:(lia)). pose proof (M (S i) n ltac:(lia)). pose proof (M i (S i) ltac:(lia)).
      destruct (Rle_dec (x - kf k i) h) as [A|A].
      * exists (kf k i). split; [exists i; split; [lia|reflexivity]|]. split; [lra|]. rewrite Rabs_pos_eq; lra.
      * exists (kf k (S i)). split; [exists (S i); split; [lia|reflexivity]|]. split; [lra|]. rewrite Rabs_minus_sym, Rabs_pos_eq; lra.
  - destruct (nearest_reg (kf k p) (kf k n) (2 * (n - 1)) x ltac:(lra) ltac:(lia) Hx) as (j & Hj & D).
    exists (reg (kf k p) (kf k n) (2 * (n - 1)) j). split; [|split].
    + exists j. split; [exact Hj|]. unfold reg. assert (0 < INR (2 * (n - 1))) by (apply lt_0_INR; lia). set (N := INR (2 * (n - 1))) in *. field. lra.
    + apply reg_le; [lra|exact Hj].
    + lra.
Qed.

Section Real.
  Variables eps maxv : R.
  Local Hint Extern 0 (Scalar R) => exact (ROps eps maxv) : typeclass_instances.

  Theorem surf_closest_near solve2 s p u v (Ku Kv : nat -> R) hu hv : surf_ok s -> surf_eps eps s -> spos s -> surf_cont s -> sdim s = 4%nat -> (1 <= sdu s)%nat -> (1 <= sdv s)%nat ->
    simple1 (sdu s) (nrow s - 1) (suk s) -> simple1 (sdv s) (ncol s - 1) (svk s) -> length p = 3%nat ->
    (forall i, (i < 3)%nat -> 0 <= Ku i /\ 0 <= Kv i /\ surf_rate s i (Ku i) (Kv i)) ->
    grid_gap (suk s) (sdu s) (nrow s) (u0 s) (u1 s) hu -> grid_gap (svk s) (sdv s) (ncol s) (v0 s) (v1 s) hv ->
    surf_closest solve2 s p = Ok (u, v) ->
    exists q, surf_point_at s u v = Ok q /\
      forall a b r, in_dom s a b -> surf_point_at s a b = Ok r -> rdist q p <= rdist r p + enorm 3 (fun i => Ku i * hu + Kv i * hv).
  Proof.
    intros Hs Hse Hsp Hc HD Hdu Hdv Su Sv Lp HK Gu Gv E.
    destruct (surf_closest_grid eps maxv solve2 s p u v Hs Hse Hsp HD Hdu Hdv Su Sv Lp E) as (q & Eq & G). exists q. split; [exact Eq|].
    intros a b r Hab Er. pose proof (so_u s Hs) as Nr. pose proof (so_v s Hs) as Nc.
    assert (U1 : u1 s = kf (suk s) (nrow s)) by (unfold u1; f_equal; lia). assert (V1 : v1 s = kf (svk s) (ncol s)) by (unfold v1; f_equal; lia).
    destruct Hab as (Ha & Hb). rewrite U1 in *. rewrite V1 in *.
    destruct (grid_near (suk s) (sdu s) (nrow s) hu a (so_uk s Hs) ltac:(lia) Hdu Gu Ha) as (x & Gx & Dx & Ax).
    destruct (grid_near (svk s) (sdv s) (ncol s) hv b (so_vk s Hs) ltac:(lia) Hdv Gv Hb) as (y & Gy & Dy & Ay).
    assert (Iab : in_dom s a b) by (split; [rewrite U1; exact Ha|rewrite V1; exact Hb]).
    assert (Ixy : in_dom s x y) by (split; [rewrite U1; exact Dx|rewrite V1; exact Dy]).
    destruct (surf_point_at_spec eps maxv s a b Hs Hse Iab) as (r' & Er' & Lr & Vr); [apply Rgt_not_eq, (swfun_pos eps maxv); assumption|].
    assert (r' = r) as -> by congruence. clear Er'.
    destruct (surf_point_at_spec eps maxv s x y Hs Hse Ixy) as (g & Eg & Lg & Vg); [apply Rgt_not_eq, (swfun_pos eps maxv); assumption|].
    specialize (G x y g Gx Gy Eg). eapply Rle_trans; [exact G|]. rewrite HD in *. cbn [Nat.sub] in *.
    unfold rdist. rewrite Lr, Lg. fold (enorm 3 (fun i => rc i g - rc i p)). fold (enorm 3 (fun i => rc i r - rc i p)).
    rewrite (enorm_ext 3 (fun i => rc i g - rc i p) (fun i => (rc i r - rc i p) + (rc i g - rc i r))) by (intros; ring).
    eapply Rle_trans; [apply enorm_triangle|]. apply Rplus_le_compat_l. apply enorm_le. intros i Hi. destruct (HK i Hi) as (K0 & K1 & KR).
    rewrite Vg, Vr by exact Hi. eapply Rle_trans; [apply (surf_points_lipschitz eps s i (Ku i) (Kv i)); assumption|].
    rewrite (Rabs_minus_sym x a), (Rabs_minus_sym y b). apply Rplus_le_compat; apply Rmult_le_compat_l; assumption.
  Qed.

  (** *** The point that is returned *)
  Theorem surf_closest_point_near solve2 s p q (Ku Kv : nat -> R) hu hv : surf_ok s -> surf_eps eps s -> spos s -> surf_cont s -> sdim s = 4%nat -> (1 <= sdu s)%nat -> (1 <= sdv s)%nat ->
    simple1 (sdu s) (nrow s - 1) (suk s) -> simple1 (sdv s) (ncol s - 1) (svk s) -> length p = 3%nat ->
    (forall i, (i < 3)%nat -> 0 <= Ku i /\ 0 <= Kv i /\ surf_rate s i (Ku i) (Kv i)) ->
    grid_gap (suk s) (sdu s) (nrow s) (u0 s) (u1 s) hu -> grid_gap (svk s) (sdv s) (ncol s) (v0 s) (v1 s) hv ->
    surf_closest_point solve2 s p = Ok q ->
    forall a b r, in_dom s a b -> surf_point_at s a b = Ok r -> rdist q p <= rdist r p + enorm 3 (fun i => Ku i * hu + Kv i * hv).
  Proof.
    intros Hs Hse Hsp Hc HD Hdu Hdv Su Sv Lp HK Gu Gv E. unfold surf_closest_point in E. apply bind_ok in E. destruct E as ((u, v) & E1 & E2).
    destruct (surf_closest_near solve2 s p u v Ku Kv hu hv Hs Hse Hsp Hc HD Hdu Hdv Su Sv Lp HK Gu Gv E1) as (q' & E' & H).
    assert (q' = q) as -> by congruence. exact H.
  Qed.

  Theorem surf_closest_point_total solve2 s p : surf_ok s -> surf_eps eps s -> spos s -> sdim s = 4%nat -> (1 <= sdu s)%nat -> (1 <= sdv s)%nat ->
    simple1 (sdu s) (nrow s - 1) (suk s) -> simple1 (sdv s) (ncol s - 1) (svk s) -> eps <= u1 s - u0 s -> eps <= v1 s - v0 s ->
    open_net eps s -> length p = 3%nat -> (forall a b c g, solve2 a b c g <> None) ->
    exists u v q, surf_closest_point solve2 s p = Ok q /\ in_dom s u v /\ surf_closest solve2 s p = Ok (u, v) /\ length q = 3%nat /\
      forall i, (i < 3)%nat -> rc i q = snurbs s i u v.
  Proof.
    intros Hs Hse Hp HD Hdu Hdv Su Sv Wu Wv Ho Lp HS.
    destruct (surf_closest_total eps maxv solve2 s p Hs Hse Hp HD Hdu Hdv Su Sv Wu Wv Ho Lp HS) as (u & v & q & E & D & Eq & _).
    exists u, v, q. split; [unfold surf_closest_point; rewrite E; cbn [bind]; exact Eq|]. split; [exact D|]. split; [exact E|].
    destruct (surf_point_at_spec eps maxv s u v Hs Hse D) as (q' & E' & L & V); [apply Rgt_not_eq, (swfun_pos eps maxv); assumption|].
    assert (q' = q) as -> by congruence. rewrite HD in *. split; [exact L|exact V].
  Qed.
End Real.
