(** * How far the projection of a curve onto a surface reaches *)
From Coq Require Import Reals Lra Lia Psatz List ZArith Bool Sorted String.
From Verif Require Import Base BaseFacts Scalar RSum BSplineSpec BSpline KnotModel KnotFacts KnotSpec KnotProofs KnotMisc VecFacts MiscModel MiscProofs CurveModel CurveSpec CurveProofs CurveGeom CurveGeom2 CurveShapes
  NewtonProofs SurfaceModel SurfaceSpec SurfaceProofs SurfaceShapes BBoxModel BBoxProofs SurfaceBoxModel SerdeModel IntersectModel RevolveTheorems TrimModel TrimOps.
Import ListNotations.
Open Scope R_scope.

Section Real.
  Variables eps maxv : R.
  Local Hint Extern 0 (Scalar R) => exact (ROps eps maxv) : typeclass_instances.

  Lemma bb_points_length D (pts : list (list R)) : length (bmin (bb_points D pts)) = D /\ length (bmax (bb_points D pts)) = D.
  Proof.
    unfold bb_points. assert (G : forall (b : BBox R), length (bmin b) = D /\ length (bmax b) = D -> length (bmin (fold_left (bb_add D) pts b)) = D /\ length (bmax (fold_left (bb_add D) pts b)) = D).
    { induction pts as [|p pts IH]; intros b H; [exact H|]. cbn [fold_left]. apply IH. unfold bb_add. cbn [bmin bmax]. now rewrite !map_length, !seq_length. }
    apply G. cbn [bmin bmax]. now rewrite !repeat_length.
  Qed.
  Lemma bb_points_has D pts p i : In p pts -> (i < D)%nat -> rc i (bmin (bb_points D pts)) <= rc i p <= rc i (bmax (bb_points D pts)).
  Proof.
    intros Hp Hi. destruct (bb_fold eps maxv D pts (MkBox (repeat maxv D) (repeat (- maxv) D)) i Hi) as (_ & F & _). exact (F p Hp).
  Qed.

  Lemma dot3 (a b : list R) : length a = 3%nat -> length b = 3%nat -> vdot a b = rc 0 a * rc 0 b + rc 1 a * rc 1 b + rc 2 a * rc 2 b.
  Proof.
    intros La Lb. destruct a as [|a0 [|a1 [|a2 [|]]]]; try discriminate. destruct b as [|b0 [|b1 [|b2 [|]]]]; try discriminate.
    unfold vdot, rc. cbn. rs. ring.
  Qed.
  Lemma cauchy3 x y z a b c N : 0 <= N -> 1 <= a * a + b * b + c * c -> N * N = x * x + y * y + z * z ->
    x * a + y * b + z * c <= N * (a * a + b * b + c * c).
  Proof.
    intros HN Hd HE. set (M := a * a + b * b + c * c) in *.
    assert (Q : (x * a + y * b + z * c) * (x * a + y * b + z * c) <= (N * M) * (N * M)).
    { assert (L : (x * a + y * b + z * c) * (x * a + y * b + z * c) <= (x * x + y * y + z * z) * M).
      { unfold M. assert (0 <= Rsqr (x * b - y * a) + Rsqr (x * c - z * a) + Rsqr (y * c - z * b)) by (pose proof (Rle_0_sqr (x * b - y * a)); pose proof (Rle_0_sqr (x * c - z * a)); pose proof (Rle_0_sqr (y * c - z * b)); lra).
        unfold Rsqr in *. nra. }
      rewrite <- HE in L. assert (0 <= N * N * M) by (apply Rmult_le_pos; [nra|lra]). nra. }
    assert (0 <= N * M) by (apply Rmult_le_pos; lra). apply Rnot_lt_le. intros C. nra.
  Qed.

  (** a direction without components of opposite signs *)
  Definition one_sign (d : list R) : Prop := (forall i, (i < 3)%nat -> 0 <= rc i d) \/ (forall i, (i < 3)%nat -> rc i d <= 0).

  Lemma spread1 a b p d : a <= p <= b -> 0 <= d -> - ((b - a) * d) <= (p - (a + b) / 2) * d <= (b - a) * d /\ 0 <= (b - a) * d.
  Proof.
    intros H Hd. assert (0 <= (b - a) * d) by (apply Rmult_le_pos; lra). assert (0 <= (p - a) * d) by (apply Rmult_le_pos; lra). assert (0 <= (b - p) * d) by (apply Rmult_le_pos; lra). split; [split|]; lra.
  Qed.
  Lemma spread (a b p q d : list R) : length a = 3%nat -> length b = 3%nat -> length d = 3%nat -> one_sign d ->
    (forall i, (i < 3)%nat -> rc i a <= rc i p <= rc i b) ->
    Rabs ((rc 0 p - (rc 0 a + rc 0 b) / 2) * rc 0 d + (rc 1 p - (rc 1 a + rc 1 b) / 2) * rc 1 d + (rc 2 p - (rc 2 a + rc 2 b) / 2) * rc 2 d) <= Rabs (vdot (vsub b a) d).
  Proof.
    intros La Lb Ld Hd H. rewrite dot3 by (auto; now apply vsub_length). rewrite !(rc_vsub eps maxv) by lia.
    pose proof (H 0%nat ltac:(lia)) as K0. pose proof (H 1%nat ltac:(lia)) as K1. pose proof (H 2%nat ltac:(lia)) as K2.
    destruct Hd as [Hd|Hd]; pose proof (Hd 0%nat ltac:(lia)) as D0; pose proof (Hd 1%nat ltac:(lia)) as D1; pose proof (Hd 2%nat ltac:(lia)) as D2.
    - destruct (spread1 _ _ _ _ K0 D0) as (A0 & B0). destruct (spread1 _ _ _ _ K1 D1) as (A1 & B1). destruct (spread1 _ _ _ _ K2 D2) as (A2 & B2).
      rewrite (Rabs_pos_eq ((rc 0 b - rc 0 a) * _ + _ + _)) by lra. apply Rabs_le. split; lra.
    - destruct (spread1 _ _ _ (- rc 0 d) K0 ltac:(lra)) as (A0 & B0). destruct (spread1 _ _ _ (- rc 1 d) K1 ltac:(lra)) as (A1 & B1). destruct (spread1 _ _ _ (- rc 2 d) K2 ltac:(lra)) as (A2 & B2).
      rewrite (Rabs_left1 ((rc 0 b - rc 0 a) * _ + _ + _)) by lra. apply Rabs_le. split; lra.
  Qed.

  (** *** Every point of the surface ahead of a control point lies on the ray that is shot from it *)
  Theorem projection_reaches s c d j u v r len ray : patch eps s -> space_curve eps c -> length d = 3%nat -> one_sign d -> 1 <= vnorm2 d ->
    in_dom s u v -> (j < length (cpts c))%nat -> -1 <= r -> (forall i, (i < 3)%nat -> snurbs s i u v = rc i (ctrl c j) + r * rc i d) ->
    ray_length s c d = Ok len ->
    polyline 4 [vsub (ctrl c j) (vscale d sone); vadd (vadd (ctrl c j) (vscale d sone)) (vscale d len)] true = Ok ray ->
    exists t, dom0 ray <= t <= dom1 ray /\ forall i, (i < 3)%nat -> snurbs s i u v = nurbs ray i t.
  Proof.
    intros (Hs & Hse & Hsp & Hsd) (Hk & Hke & Hkw & Hkd) Ld Hsign Hd Hin Hj Hr Hq El Er.
    destruct (surf_box eps maxv s u v Hs Hse Hsp Hin) as (b0 & q & E0 & Eq & Bq). rewrite Hsd in Bq.
    assert (Q : forall i, (i < 3)%nat -> rc i q = snurbs s i u v).
    { destruct (surf_point_at_spec eps maxv s u v Hs Hse Hin) as (q' & Eq' & _ & V).
      - apply Rgt_not_eq. now apply (swfun_pos eps maxv s).
      - rewrite Eq in Eq'. injection Eq' as <-. intros i Hi. apply V. lia. }
    assert (L0 : length (bmin b0) = 3%nat /\ length (bmax b0) = 3%nat).
    { unfold bb_of_surf in E0. apply bind_ok in E0. destruct E0 as (pts & _ & E0). injection E0 as <-. rewrite Hsd. apply bb_points_length. }
    unfold ray_length in El. rewrite E0 in El. cbn [bind] in El. apply bind_ok in El. destruct El as (b1 & E1 & El).
    destruct (dehom_points eps maxv c Hk Hkw Hkd) as (Ed & _). unfold bb_of_curve in E1. rewrite Ed, Hkd in E1. cbn [bind] in E1. injection E1 as <-.
    set (pts := map (ctrl c) (seq 0 (length (cpts c)))) in *. set (b1 := bb_points (4 - 1) pts) in *.
    assert (L1 : length (bmin b1) = 3%nat /\ length (bmax b1) = 3%nat) by apply bb_points_length.
    assert (P : forall i, (i < 3)%nat -> rc i (bmin b1) <= rc i (ctrl c j) <= rc i (bmax b1)).
    { intros i Hi. apply (bb_points_has 3); [|exact Hi]. apply in_map, in_seq. lia. }
    pose proof (proj1 (bb_contains_iff eps maxv 3 b0 q) Bq) as Bq'.
    set (p := ctrl c j) in *. destruct L0 as (L00 & L01), L1 as (L10 & L11).
    pose proof (spread (bmin b0) (bmax b0) q q d L00 L01 Ld Hsign Bq') as S0.
    pose proof (spread (bmin b1) (bmax b1) p q d L10 L11 Ld Hsign P) as S1.
    assert (Lc0 : length (bb_center b0) = 3%nat) by (unfold bb_center, vdivs; rewrite map_length; now apply vadd_length).
    assert (Lc1 : length (bb_center b1) = 3%nat) by (unfold bb_center, vdivs; rewrite map_length; now apply vadd_length).
    assert (C0 : forall i, rc i (bb_center b0) = (rc i (bmin b0) + rc i (bmax b0)) / 2).
    { intros i. unfold bb_center. rewrite (rc_vdivs eps maxv), (rc_vadd eps maxv) by lia. reflexivity. }
    assert (C1 : forall i, rc i (bb_center b1) = (rc i (bmin b1) + rc i (bmax b1)) / 2).
    { intros i. unfold bb_center. rewrite (rc_vdivs eps maxv), (rc_vadd eps maxv) by lia. reflexivity. }
    set (N := vnorm (vsub (bb_center b0) (bb_center b1))) in *.
    assert (HN : 0 <= N /\ N * N = (rc 0 (bb_center b0) - rc 0 (bb_center b1)) * (rc 0 (bb_center b0) - rc 0 (bb_center b1)) + (rc 1 (bb_center b0) - rc 1 (bb_center b1)) * (rc 1 (bb_center b0) - rc 1 (bb_center b1)) +
       (rc 2 (bb_center b0) - rc 2 (bb_center b1)) * (rc 2 (bb_center b0) - rc 2 (bb_center b1))).
    { unfold N, vnorm. cbn [ssqrt ROps]. split; [apply sqrt_pos|]. rewrite sqrt_sqrt.
      - change (vnorm2 (vsub (bb_center b0) (bb_center b1))) with (vdot (vsub (bb_center b0) (bb_center b1)) (vsub (bb_center b0) (bb_center b1))).
        rewrite dot3 by now apply vsub_length. rewrite !(rc_vsub eps maxv) by lia. reflexivity.
      - rewrite (vnorm2_rsum eps maxv). apply rsum_nonneg. intros i _. apply Rle_0_sqr. }
    change (vnorm2 d) with (vdot d d) in Hd. rewrite dot3 in Hd by auto.
    destruct HN as (HN0 & HN1). pose proof (cauchy3 _ _ _ (rc 0 d) (rc 1 d) (rc 2 d) N HN0 Hd HN1) as CS.
    rewrite !C0, !C1 in CS.
    set (l0 := Rabs (vdot (bb_size b0) d)). set (l1 := Rabs (vdot (bb_size b1) d)).
    assert (S0' : Rabs ((rc 0 q - (rc 0 (bmin b0) + rc 0 (bmax b0)) / 2) * rc 0 d + (rc 1 q - (rc 1 (bmin b0) + rc 1 (bmax b0)) / 2) * rc 1 d + (rc 2 q - (rc 2 (bmin b0) + rc 2 (bmax b0)) / 2) * rc 2 d) <= l0) by exact S0.
    assert (S1' : Rabs ((rc 0 p - (rc 0 (bmin b1) + rc 0 (bmax b1)) / 2) * rc 0 d + (rc 1 p - (rc 1 (bmin b1) + rc 1 (bmax b1)) / 2) * rc 1 d + (rc 2 p - (rc 2 (bmin b1) + rc 2 (bmax b1)) / 2) * rc 2 d) <= l1) by exact S1.
    clear S0 S1. pose proof (Rabs_pos (vdot (bb_size b0) d)) as P0. pose proof (Rabs_pos (vdot (bb_size b1) d)) as P1. fold l0 in P0. fold l1 in P1.
    assert (R0 : rc 0 q = rc 0 p + r * rc 0 d) by (rewrite Q by lia; apply Hq; lia).
    assert (R1 : rc 1 q = rc 1 p + r * rc 1 d) by (rewrite Q by lia; apply Hq; lia).
    assert (R2 : rc 2 q = rc 2 p + r * rc 2 d) by (rewrite Q by lia; apply Hq; lia).
    assert (Hl : len = N + l0 + l1) by (injection El as <-; reflexivity).
    set (M := rc 0 d * rc 0 d + rc 1 d * rc 1 d + rc 2 d * rc 2 d) in *.
    assert (HM : r * M <= N * M + l0 + l1).
    { pose proof (Rle_abs ((rc 0 q - (rc 0 (bmin b0) + rc 0 (bmax b0)) / 2) * rc 0 d + (rc 1 q - (rc 1 (bmin b0) + rc 1 (bmax b0)) / 2) * rc 1 d + (rc 2 q - (rc 2 (bmin b0) + rc 2 (bmax b0)) / 2) * rc 2 d)) as A0.
      pose proof (Rle_abs (- ((rc 0 p - (rc 0 (bmin b1) + rc 0 (bmax b1)) / 2) * rc 0 d + (rc 1 p - (rc 1 (bmin b1) + rc 1 (bmax b1)) / 2) * rc 1 d + (rc 2 p - (rc 2 (bmin b1) + rc 2 (bmax b1)) / 2) * rc 2 d))) as A1.
      rewrite Rabs_Ropp in A1. rewrite R0, R1, R2 in A0, S0'. unfold M in *. lra. }
    assert (Hlen : r <= len).
    { rewrite Hl. apply Rnot_lt_le. intros C. assert ((N + l0 + l1) * M < r * M) by (apply Rmult_lt_compat_r; lra).
      assert (l0 <= l0 * M) by (rewrite <- (Rmult_1_r l0) at 1; apply Rmult_le_compat_l; lra). assert (l1 <= l1 * M) by (rewrite <- (Rmult_1_r l1) at 1; apply Rmult_le_compat_l; lra). lra. }
    assert (Lp : length p = 3%nat) by reflexivity.
    assert (Nz : exists i, (i < 3)%nat /\ rc i d <> 0).
    { destruct (Req_dec (rc 0 d) 0) as [Z0|Z0]; [|exists 0%nat; split; [lia|exact Z0]]. destruct (Req_dec (rc 1 d) 0) as [Z1|Z1]; [|exists 1%nat; split; [lia|exact Z1]].
      destruct (Req_dec (rc 2 d) 0) as [Z2|Z2]; [|exists 2%nat; split; [lia|exact Z2]]. exfalso. unfold M in Hd. rewrite Z0, Z1, Z2 in Hd. lra. }
    destruct (ray_line eps maxv p d len Lp Ld Nz ltac:(lra)) as (ray' & Er' & Ok & Dr & V). rewrite Er in Er'. injection Er' as <-.
    rewrite knots_domain_ok in Dr by exact Ok. injection Dr as D0 D1.
    assert (Z : 0 < 2 + len) by lra.
    exists ((r + 1) / (2 + len)). assert (T : 0 <= (r + 1) / (2 + len) <= 1).
    { split; [apply Rmult_le_pos; [lra|left; now apply Rinv_0_lt_compat]|]. apply (Rmult_le_reg_r (2 + len)); [exact Z|]. unfold Rdiv. rewrite Rmult_assoc, Rinv_l by lra. lra. }
    split; [rewrite D0, D1; exact T|]. intros i Hi. rewrite V by auto. rewrite Hq by auto. field. lra.
  Qed.
End Real.
