(** * How fast a surface moves, and how close its regular samples come to every point of it *)
From Coq Require Import Reals Lra Lia List.
From Verif Require Import Base BaseFacts Scalar RSum BSplineSpec BSpline KnotModel KnotSpec KnotFacts VecFacts CurveModel CurveSpec CurveProofs CurveGeom
  SurfaceModel SurfaceSpec SurfaceProofs SurfaceSample SurfContinuity SchoenbergWhitney CurveLipschitz.
Import ListNotations.
Open Scope R_scope.

(** greatest rates at which a coordinate changes between neighbouring rows and columns of the net *)
Definition rate_u (s : Surf R) (i : nat) (L : R) : Prop :=
  forall a b, (a + 1 < nrow s)%nat -> (b < ncol s)%nat -> kf (suk s) (a + 1)%nat < kf (suk s) (a + sdu s + 1)%nat ->
    INR (sdu s) * Rabs (spc s i (a + 1) b - spc s i a b) <= L * (kf (suk s) (a + sdu s + 1)%nat - kf (suk s) (a + 1)%nat).
Definition rate_v (s : Surf R) (i : nat) (L : R) : Prop :=
  forall a b, (a < nrow s)%nat -> (b + 1 < ncol s)%nat -> kf (svk s) (b + 1)%nat < kf (svk s) (b + sdv s + 1)%nat ->
    INR (sdv s) * Rabs (spc s i a (b + 1) - spc s i a b) <= L * (kf (svk s) (b + sdv s + 1)%nat - kf (svk s) (b + 1)%nat).

Lemma blend_lipschitz p n k (Q : nat -> R) L u v : (1 <= p)%nat -> (p < n)%nat -> knots_ok p (n - 1) k -> interior_cont p (n - 1) (kf k) -> 0 <= L ->
  (forall a, (a + 1 < n)%nat -> kf k (a + 1)%nat < kf k (a + p + 1)%nat -> INR p * Rabs (Q (a + 1)%nat - Q a) <= L * (kf k (a + p + 1)%nat - kf k (a + 1)%nat)) ->
  kf k p <= u <= kf k n -> kf k p <= v <= kf k n ->
  Rabs (rsum n (fun a => cox_closed (kf k) (kf k n) p a u * Q a) - rsum n (fun a => cox_closed (kf k) (kf k n) p a v * Q a)) <= L * Rabs (u - v).
Proof.
  intros Hp Hpn Hk Hi HL HQ Hu Hv. set (c := spl k p (n - 1) Q).
  assert (Len : length (cpts c) = n) by (unfold c; rewrite spl_len; lia).
  assert (Ok' : curve_ok c) by (exact (spl_ok k p (n - 1) Hk Hp Q)).
  assert (Cl : clast c = (n - 1)%nat) by (unfold clast; rewrite Len; reflexivity).
  assert (E : forall x, hcoord c 0 x = rsum n (fun a => cox_closed (kf k) (kf k n) p a x * Q a)).
  { intros x. unfold hcoord, dom1. rewrite Len. apply rsum_ext. intros j Hj. unfold c. rewrite (spl_cpc k p (n - 1) Hp Q j) by lia. reflexivity. }
  rewrite <- !E. apply curve_lipschitz; [exact Ok'| |exact Hp|exact HL| | |].
  - unfold curve_cont. rewrite Cl. exact Hi.
  - intros j Hj Hl. rewrite Cl in Hj. unfold c. rewrite (spl_cpc k p (n - 1) Hp Q (j + 1)), (spl_cpc k p (n - 1) Hp Q j) by lia. apply HQ; [lia|exact Hl].
  - unfold dom0, dom1. rewrite Len. exact Hu.
  - unfold dom0, dom1. rewrite Len. exact Hv.
Qed.

(** weighted means of small differences are small *)
Lemma mean_le n (w d : nat -> R) B : 0 <= B -> (forall j, (j < n)%nat -> 0 <= w j) -> rsum n w = 1 -> (forall j, (j < n)%nat -> Rabs (d j) <= B) ->
  Rabs (rsum n (fun j => w j * d j)) <= B.
Proof.
  intros HB Hw Hs Hd.
  assert (W : forall j, (j < n)%nat -> - B <= d j <= B).
  { intros j Hj. pose proof (Hd j Hj) as Q. pose proof (Rle_abs (d j)). pose proof (Rle_abs (- d j)) as Z. rewrite Rabs_Ropp in Z. lra. }
  apply Rabs_le. split.
  - replace (- B) with (rsum n (fun j => w j * - B)) by (rewrite rsum_scal_r, Hs; ring). apply rsum_le. intros j Hj. apply Rmult_le_compat_l; [apply Hw|apply W]; exact Hj.
  - replace B with (rsum n (fun j => w j * B)) by (rewrite rsum_scal_r, Hs; ring). apply rsum_le. intros j Hj. apply Rmult_le_compat_l; [apply Hw|apply W]; exact Hj.
Qed.

Section Surf.
  Variables eps maxv : R.
  Local Hint Extern 0 (Scalar R) => exact (ROps eps maxv) : typeclass_instances.

  Lemma lip_u s i L u u' v : surf_ok s -> surf_eps eps s -> surf_cont s -> (1 <= sdu s)%nat -> 0 <= L -> rate_u s i L ->
    in_dom s u v -> in_dom s u' v -> Rabs (shcoord s i u v - shcoord s i u' v) <= L * Rabs (u - u').
  Proof.
    intros H He (Cu & _) Hp HL Hr (Hu & Hv) (Hu' & _). pose proof (so_u s H) as Hn.
    set (Q := fun a => rsum (ncol s) (fun b => Nv s b v * spc s i a b)).
    assert (E : forall x, shcoord s i x v = rsum (nrow s) (fun a => cox_closed (kf (suk s)) (kf (suk s) (nrow s)) (sdu s) a x * Q a)).
    { intros x. unfold shcoord. apply rsum_ext. intros a Ha. unfold Q. rewrite <- rsum_scal. apply rsum_ext. intros b Hb. unfold Nu, u1. ring. }
    rewrite !E. apply blend_lipschitz; [exact Hp|exact Hn|apply (so_uk s H)|exact Cu|exact HL| |exact Hu|exact Hu'].
    intros a Ha Hl. set (d := kf (suk s) (a + sdu s + 1)%nat - kf (suk s) (a + 1)%nat) in *.
    replace (Q (a + 1)%nat - Q a) with (rsum (ncol s) (fun b => Nv s b v * (spc s i (a + 1) b - spc s i a b))).
    2:{ unfold Q. rewrite <- rsum_minus. apply rsum_ext. intros b Hb. ring. }
    assert (P0 : 0 < INR (sdu s)) by (apply lt_0_INR; lia). assert (D0 : 0 < d) by (unfold d; lra).
    assert (B : Rabs (rsum (ncol s) (fun b => Nv s b v * (spc s i (a + 1) b - spc s i a b))) <= L * d / INR (sdu s)).
    { apply mean_le.
      - apply Rmult_le_pos; [apply Rmult_le_pos; lra|apply Rlt_le, Rinv_0_lt_compat; exact P0].
      - intros b Hb. apply Nv_nonneg; assumption.
      - apply Nv_sum; assumption.
      - intros b Hb. apply (Rmult_le_reg_l (INR (sdu s))); [exact P0|]. replace (INR (sdu s) * (L * d / INR (sdu s))) with (L * d) by (field; lra). apply Hr; assumption. }
    apply (Rmult_le_compat_l (INR (sdu s))) in B; [|lra]. replace (INR (sdu s) * (L * d / INR (sdu s))) with (L * d) in B by (field; lra). exact B.
  Qed.

  Lemma lip_v s i L u v v' : surf_ok s -> surf_eps eps s -> surf_cont s -> (1 <= sdv s)%nat -> 0 <= L -> rate_v s i L ->
    in_dom s u v -> in_dom s u v' -> Rabs (shcoord s i u v - shcoord s i u v') <= L * Rabs (v - v').
  Proof.
    intros H He (_ & Cv) Hp HL Hr (Hu & Hv) (_ & Hv'). pose proof (so_v s H) as Hn.
    set (Q := fun b => rsum (nrow s) (fun a => Nu s a u * spc s i a b)).
    assert (E : forall x, shcoord s i u x = rsum (ncol s) (fun b => cox_closed (kf (svk s)) (kf (svk s) (ncol s)) (sdv s) b x * Q b)).
    { intros x. unfold shcoord. rewrite rsum_swap. apply rsum_ext. intros b Hb. unfold Q. rewrite <- rsum_scal. apply rsum_ext. intros a Ha. unfold Nv, v1. ring. }
    rewrite !E. apply blend_lipschitz; [exact Hp|exact Hn|apply (so_vk s H)|exact Cv|exact HL| |exact Hv|exact Hv'].
    intros b Hb Hl. set (d := kf (svk s) (b + sdv s + 1)%nat - kf (svk s) (b + 1)%nat) in *.
    replace (Q (b + 1)%nat - Q b) with (rsum (nrow s) (fun a => Nu s a u * (spc s i a (b + 1) - spc s i a b))).
    2:{ unfold Q. rewrite <- rsum_minus. apply rsum_ext. intros a Ha. ring. }
    assert (P0 : 0 < INR (sdv s)) by (apply lt_0_INR; lia). assert (D0 : 0 < d) by (unfold d; lra).
    assert (B : Rabs (rsum (nrow s) (fun a => Nu s a u * (spc s i a (b + 1) - spc s i a b))) <= L * d / INR (sdv s)).
    { apply mean_le.
      - apply Rmult_le_pos; [apply Rmult_le_pos; lra|apply Rlt_le, Rinv_0_lt_compat; exact P0].
      - intros a Ha. apply Nu_nonneg; assumption.
      - apply Nu_sum; assumption.
      - intros a Ha. apply (Rmult_le_reg_l (INR (sdv s))); [exact P0|]. replace (INR (sdv s) * (L * d / INR (sdv s))) with (L * d) by (field; lra). apply Hr; assumption. }
    apply (Rmult_le_compat_l (INR (sdv s))) in B; [|lra]. replace (INR (sdv s) * (L * d / INR (sdv s))) with (L * d) in B by (field; lra). exact B.
  Qed.

  (** the homogeneous coordinates never move faster than the control net *)
  Theorem surf_lipschitz s i Lu Lv u v u' v' : surf_ok s -> surf_eps eps s -> surf_cont s -> (1 <= sdu s)%nat -> (1 <= sdv s)%nat ->
    0 <= Lu -> 0 <= Lv -> rate_u s i Lu -> rate_v s i Lv -> in_dom s u v -> in_dom s u' v' ->
    Rabs (shcoord s i u v - shcoord s i u' v') <= Lu * Rabs (u - u') + Lv * Rabs (v - v').
  Proof.
    intros H He Hc Hp Hq HLu HLv Hru Hrv Hd Hd'.
    assert (Hm : in_dom s u' v) by (split; [apply Hd'|apply Hd]).
    pose proof (lip_u s i Lu u u' v H He Hc Hp HLu Hru Hd Hm) as A. pose proof (lip_v s i Lv u' v v' H He Hc Hq HLv Hrv Hm Hd') as B.
    replace (shcoord s i u v - shcoord s i u' v') with ((shcoord s i u v - shcoord s i u' v) + (shcoord s i u' v - shcoord s i u' v')) by ring.
    eapply Rle_trans; [apply Rabs_triang|]. lra.
  Qed.

  (** ** The points themselves *)

  Lemma swfun_ge s u v w : surf_ok s -> in_dom s u v ->
    (forall a b, (a < nrow s)%nat -> (b < ncol s)%nat -> w <= spc s (sdim s - 1) a b) -> w <= swfun s u v.
  Proof.
    intros H (Hu & Hv) Hw. unfold swfun, shcoord.
    replace w with (rsum (nrow s) (fun a => Nu s a u * w)) by (rewrite rsum_scal_r, Nu_sum by assumption; ring).
    apply rsum_le. intros a Ha.
    replace (Nu s a u * w) with (rsum (ncol s) (fun b => Nv s b v * (Nu s a u * w))) by (rewrite rsum_scal_r, Nv_sum by assumption; ring).
    apply rsum_le. intros b Hb. replace (Nv s b v * (Nu s a u * w)) with (Nu s a u * Nv s b v * w) by ring.
    apply Rmult_le_compat_l; [apply Rmult_le_pos; [apply Nu_nonneg|apply Nv_nonneg]; assumption|apply Hw; assumption].
  Qed.

  Lemma shcoord_le s i u v M : surf_ok s -> in_dom s u v -> 0 <= M ->
    (forall a b, (a < nrow s)%nat -> (b < ncol s)%nat -> Rabs (spc s i a b) <= M * spc s (sdim s - 1) a b) -> Rabs (shcoord s i u v) <= M * swfun s u v.
  Proof.
    intros H (Hu & Hv) HM HB.
    assert (W : forall a b, (a < nrow s)%nat -> (b < ncol s)%nat -> - (M * spc s (sdim s - 1) a b) <= spc s i a b <= M * spc s (sdim s - 1) a b).
    { intros a b Ha Hb. pose proof (HB a b Ha Hb) as Q. pose proof (Rle_abs (spc s i a b)). pose proof (Rle_abs (- spc s i a b)) as Z. rewrite Rabs_Ropp in Z. lra. }
    assert (P : forall a b, 0 <= Nu s a u * Nv s b v) by (intros a b; apply Rmult_le_pos; [apply Nu_nonneg|apply Nv_nonneg]; assumption).
    unfold swfun, shcoord. apply Rabs_le. split.
    - replace (- (M * rsum (nrow s) (fun a => rsum (ncol s) (fun b => Nu s a u * Nv s b v * spc s (sdim s - 1) a b))))
        with (rsum (nrow s) (fun a => rsum (ncol s) (fun b => Nu s a u * Nv s b v * - (M * spc s (sdim s - 1) a b)))).
      + apply rsum_le. intros a Ha. apply rsum_le. intros b Hb. apply Rmult_le_compat_l; [apply P|apply W; assumption].
      + replace (- (M * rsum (nrow s) (fun a => rsum (ncol s) (fun b => Nu s a u * Nv s b v * spc s (sdim s - 1) a b))))
          with (- M * rsum (nrow s) (fun a => rsum (ncol s) (fun b => Nu s a u * Nv s b v * spc s (sdim s - 1) a b))) by ring.
        rewrite <- rsum_scal. apply rsum_ext. intros a Ha. rewrite <- rsum_scal. apply rsum_ext. intros b Hb. ring.
    - rewrite <- rsum_scal. apply rsum_le. intros a Ha. rewrite <- rsum_scal. apply rsum_le. intros b Hb.
      replace (M * (Nu s a u * Nv s b v * spc s (sdim s - 1) a b)) with (Nu s a u * Nv s b v * (M * spc s (sdim s - 1) a b)) by ring.
      apply Rmult_le_compat_l; [apply P|apply W; assumption].
  Qed.

  (** rates of the points: weights at least [w], affine control coordinates at most [M] in size *)
  Definition surf_rate (s : Surf R) (i : nat) (Ku Kv : R) : Prop := exists w M Lu Lv Wu Wv,
    0 < w /\ 0 <= M /\ 0 <= Lu /\ 0 <= Lv /\ 0 <= Wu /\ 0 <= Wv /\
    rate_u s i Lu /\ rate_v s i Lv /\ rate_u s (sdim s - 1) Wu /\ rate_v s (sdim s - 1) Wv /\
    (forall a b, (a < nrow s)%nat -> (b < ncol s)%nat -> w <= spc s (sdim s - 1) a b) /\
    (forall a b, (a < nrow s)%nat -> (b < ncol s)%nat -> Rabs (spc s i a b) <= M * spc s (sdim s - 1) a b) /\
    (Lu + M * Wu) / w <= Ku /\ (Lv + M * Wv) / w <= Kv.

  Theorem surf_points_lipschitz s i Ku Kv u v u' v' : surf_ok s -> surf_eps eps s -> surf_cont s -> (1 <= sdu s)%nat -> (1 <= sdv s)%nat ->
    surf_rate s i Ku Kv -> in_dom s u v -> in_dom s u' v' ->
    Rabs (snurbs s i u v - snurbs s i u' v') <= Ku * Rabs (u - u') + Kv * Rabs (v - v').
  Proof.
    intros H He Hc Hp Hq (w & M & Lu & Lv & Wu & Wv & Hw & HM & HLu & HLv & HWu & HWv & Ru & Rv & Ru' & Rv' & Wge & Box & KU & KV) Hd Hd'.
    pose proof (swfun_ge s u v w H Hd Wge) as G. pose proof (swfun_ge s u' v' w H Hd' Wge) as G'.
    pose proof (surf_lipschitz s i Lu Lv u v u' v' H He Hc Hp Hq HLu HLv Ru Rv Hd Hd') as A.
    pose proof (surf_lipschitz s (sdim s - 1) Wu Wv u v u' v' H He Hc Hp Hq HWu HWv Ru' Rv' Hd Hd') as B. fold (swfun s u v) in B. fold (swfun s u' v') in B.
    assert (N : Rabs (snurbs s i u' v') <= M).
    { unfold snurbs, Rdiv. rewrite Rabs_mult, (Rabs_pos_eq (/ swfun s u' v')) by (apply Rlt_le, Rinv_0_lt_compat; lra).
      apply (Rmult_le_reg_r (swfun s u' v')); [lra|]. rewrite Rmult_assoc, Rinv_l, Rmult_1_r by lra. apply shcoord_le; assumption. }
    assert (E : snurbs s i u v - snurbs s i u' v' = ((shcoord s i u v - shcoord s i u' v') + - snurbs s i u' v' * (swfun s u v - swfun s u' v')) / swfun s u v).
    { unfold snurbs. field. split; lra. }
    rewrite E. unfold Rdiv. rewrite Rabs_mult, (Rabs_pos_eq (/ swfun s u v)) by (apply Rlt_le, Rinv_0_lt_compat; lra).
    set (d := Rabs (u - u')) in *. set (e := Rabs (v - v')) in *. assert (Hd0 : 0 <= d) by apply Rabs_pos. assert (He0 : 0 <= e) by apply Rabs_pos.
    assert (S1 : Rabs (shcoord s i u v - shcoord s i u' v' + - snurbs s i u' v' * (swfun s u v - swfun s u' v')) <= (Lu + M * Wu) * d + (Lv + M * Wv) * e).
    { eapply Rle_trans; [apply Rabs_triang|]. rewrite Rabs_mult, Rabs_Ropp.
      pose proof (Rmult_le_compat _ _ _ _ (Rabs_pos (snurbs s i u' v')) (Rabs_pos (swfun s u v - swfun s u' v')) N B) as X. lra. }
    assert (S2 : / swfun s u v <= / w) by (apply Rinv_le_contravar; lra).
    eapply Rle_trans; [apply Rmult_le_compat; [apply Rabs_pos|apply Rlt_le, Rinv_0_lt_compat; lra|exact S1|exact S2]|].
    replace (((Lu + M * Wu) * d + (Lv + M * Wv) * e) * / w) with ((Lu + M * Wu) / w * d + (Lv + M * Wv) / w * e) by (unfold Rdiv; ring).
    apply Rplus_le_compat; apply Rmult_le_compat_r; assumption.
  Qed.

  Lemma nearest_reg a b n x : a <= b -> (1 <= n)%nat -> a <= x <= b -> exists j, (j <= n)%nat /\ Rabs (x - reg a b n j) <= (b - a) / INR n / 2.
  Proof.
    intros Hab Hn Hx. assert (N : 0 < INR n) by (apply lt_0_INR; lia).
    assert (Hh : 0 <= (b - a) / INR n) by (apply Rmult_le_pos; [lra|apply Rlt_le, Rinv_0_lt_compat; exact N]).
    destruct (nearest_step ((b - a) / INR n) Hh n (x - a)) as (j & Hj & D); [replace (INR n * ((b - a) / INR n)) with (b - a) by (field; lra); lra|].
    exists j. split; [exact Hj|]. unfold reg. replace (x - (a + INR j * ((b - a) / INR n))) with (x - a - INR j * ((b - a) / INR n)) by ring. exact D.
  Qed.

  (** every point of the surface is within half a cell's worth of movement of a point of the sample grid *)
  Theorem surf_samples_dense s du dv : surf_ok s -> surf_eps eps s -> spos s -> surf_cont s -> (1 <= sdu s)%nat -> (1 <= sdv s)%nat ->
    (1 <= du)%nat -> (1 <= dv)%nat ->
    exists g, regular_sample_points s du dv = Ok g /\
    forall u v, in_dom s u v -> exists row q, In row g /\ In q row /\
      forall i Ku Kv, (i < sdim s - 1)%nat -> 0 <= Ku -> 0 <= Kv -> surf_rate s i Ku Kv ->
        Rabs (snurbs s i u v - rc i q) <= Ku * ((u1 s - u0 s) / INR du / 2) + Kv * ((v1 s - v0 s) / INR dv / 2).
  Proof.
    intros H He Hw Hc Hp Hq Hdu Hdv. pose proof (u01 s H) as U. pose proof (v01 s H) as V.
    assert (G : forall i j, (i <= du)%nat -> (j <= dv)%nat -> in_dom s (gridu s du i) (gridv s dv j)).
    { intros i j Hi Hj. split; apply reg_le; assumption. }
    assert (Z : forall i j, (i <= du)%nat -> (j <= dv)%nat -> swfun s (gridu s du i) (gridv s dv j) <> 0).
    { intros i j Hi Hj. apply Rgt_not_eq, (swfun_pos eps maxv); auto. }
    destruct (regular_sample_points_spec eps maxv s du dv H He Z) as (g & Eg & Lg & Hg). exists g. split; [exact Eg|]. intros u v Hd.
    destruct (nearest_reg (u0 s) (u1 s) du u U Hdu (proj1 Hd)) as (i0 & Hi0 & Di). destruct (nearest_reg (v0 s) (v1 s) dv v V Hdv (proj2 Hd)) as (j0 & Hj0 & Dj).
    destruct (Hg i0 Hi0) as (Lr & Hr). exists (nth i0 g []), (nth j0 (nth i0 g []) []). split; [apply nth_In; lia|]. split; [apply nth_In; lia|].
    intros i Ku Kv Hi HKu HKv HK. specialize (Hr j0 Hj0).
    destruct (surf_point_at_spec eps maxv s (gridu s du i0) (gridv s dv j0) H He (G i0 j0 Hi0 Hj0) (Z i0 j0 Hi0 Hj0)) as (q & Eq & _ & Vq).
    rewrite Hr in Eq. assert (Q : nth j0 (nth i0 g []) [] = q) by congruence. rewrite Q, (Vq i Hi).
    eapply Rle_trans; [apply (surf_points_lipschitz s i Ku Kv); auto|].
    apply Rplus_le_compat; apply Rmult_le_compat_l; assumption.
  Qed.
End Surf.
