(** * Spheres; what a non-unit axis does *)
From Coq Require Import Reals Lra Sorted ZArith String.
From Verif Require Import Base BaseFacts Scalar RSum BSplineSpec BSpline KnotModel KnotSpec KnotFacts KnotProofs VecFacts
  MiscModel MiscProofs CurveModel CurveSpec CurveProofs CurveGeom CurveGeom2 CurveShapes Refine SurfaceModel SurfaceSpec SurfaceProofs
  ArcModel ArcProofs ArcMain ArcCircle ArcTheorems RevolveModel RevolveProofs RevolveColumn RevolveMain RevolveTheorems.
Open Scope list_scope. Open Scope R_scope.

Lemma angle_of a b : a * a + b * b = 1 -> exists psi, 0 <= psi <= 2 * PI /\ cos psi = a /\ sin psi = b.
Proof.
  intros H. assert (Ha : -1 <= a <= 1) by nra. pose proof (acos_bound a) as Bd. pose proof (cos_acos a Ha) as Ec. pose proof (sin_acos a Ha) as Es.
  assert (Hs : 1 - a² = b * b) by (unfold Rsqr; lra). rewrite Hs in Es. pose proof PI_RGT_0.
  destruct (Rle_dec 0 b) as [P|P].
  - exists (acos a). split; [lra|]. split; [exact Ec|]. rewrite Es. now apply sqrt_square.
  - exists (2 * PI - acos a). split; [lra|]. rewrite cos_minus, sin_minus, cos_2PI, sin_2PI, Ec, Es.
    replace (b * b) with (- b * - b) by ring. rewrite sqrt_square by lra. split; ring.
Qed.

(** a turn keeps the distance from the points of the axis *)
Lemma rotated_dist C K phi P : length C = 3%nat -> length K = 3%nat -> length P = 3%nat -> dot K K = 1 ->
  rdist (rotated C K phi P) C = rdist P C.
Proof.
  intros LC LK LP HK. destruct C as [|c0 [|c1 [|c2 [|]]]]; try discriminate LC. destruct K as [|k0 [|k1 [|k2 [|]]]]; try discriminate LK.
  destruct P as [|p0 [|p1 [|p2 [|]]]]; try discriminate LP. unfold rdist. f_equal. unfold rotated, dot in *. cbn [map seq length rsum cross_l] in *.
  unfold rc in *. cbn [nth] in *. set (d0 := p0 - c0). set (d1 := p1 - c1). set (d2 := p2 - c2).
  pose proof (sin2_cos2 phi) as S. unfold Rsqr in S. set (s := sin phi) in *. set (c := cos phi) in *.
  set (h := 0 + k0 * d0 + k1 * d1 + k2 * d2).
  assert (S2 : s * s = 1 - c * c) by lra.
  transitivity ((d0 * d0 + d1 * d1 + d2 * d2) * (c * c) + ((0 + k0 * k0 + k1 * k1 + k2 * k2) * (d0 * d0 + d1 * d1 + d2 * d2) - h * h) * (s * s)
     + h * h * (0 + k0 * k0 + k1 * k1 + k2 * k2) * ((1 - c) * (1 - c)) + 2 * c * (1 - c) * h * h).
  - unfold h. ring.
  - rewrite HK, S2. ring.
Qed.

Section Real.
  Variables eps maxv : R.
  Local Hint Extern 0 (Scalar R) => exact (ROps eps maxv) : typeclass_instances.
  Local Hint Extern 0 (Trig R) => exact TrigR : typeclass_instances.

  Lemma dist_from_frame C K A B P (r a b : R) :
    length K = 3%nat -> length A = 3%nat -> length B = 3%nat -> dot K A = - r -> dot K B = 0 -> dot A A = r * r -> dot B B = r * r -> dot A B = 0 ->
    (forall l, (l < 3)%nat -> rc l P = rc l C + a * rc l A + b * rc l B) ->
    axis_dist2 C K P = b * b * (r * r).
  Proof.
    intros LK LA LB KA KB AA BB AB H. unfold axis_dist2. pose proof (H 0%nat ltac:(lia)) as H0. pose proof (H 1%nat ltac:(lia)) as H1. pose proof (H 2%nat ltac:(lia)) as H2.
    unfold dot in *. rewrite LK in *. rewrite LA in *. rewrite LB in *. cbn [length rsum] in *. unfold rc in H0, H1, H2 |- *. unfold rc in KA, KB, AA, BB, AB. cbn [nth]. rewrite H0, H1, H2.
    set (A0 := nth 0 A 0) in *. set (A1 := nth 1 A 0) in *. set (A2 := nth 2 A 0) in *.
    set (B0 := nth 0 B 0) in *. set (B1 := nth 1 B 0) in *. set (B2 := nth 2 B 0) in *.
    set (K0 := nth 0 K 0) in *. set (K1 := nth 1 K 0) in *. set (K2 := nth 2 K 0) in *.
    transitivity (a * a * (0 + A0 * A0 + A1 * A1 + A2 * A2) + 2 * a * b * (0 + A0 * B0 + A1 * B1 + A2 * B2) + b * b * (0 + B0 * B0 + B1 * B1 + B2 * B2)
       - (a * (0 + K0 * A0 + K1 * A1 + K2 * A2) + b * (0 + K0 * B0 + K1 * B1 + K2 * B2)) * (a * (0 + K0 * A0 + K1 * A1 + K2 * A2) + b * (0 + K0 * B0 + K1 * B1 + K2 * B2))).
    - ring.
    - rewrite KA, KB, AA, BB, AB. ring.
  Qed.

  (** the half circle the sphere is turned from *)
  Lemma half_circle C A B r : length C = 3%nat -> length A = 3%nat -> length B = 3%nat ->
    0 < eps <= 1 / 2 -> 0 < r -> dot A A = r * r -> dot B B = r * r -> dot A B = 0 ->
    exists c, try_ellipse_arc 4 C A B 0 PI = Ok c /\ traces eps maxv c 4 C A B 0 PI /\ curve_eps eps c /\ pos_weights c /\
      forall j, (j < length (cpts c))%nat -> exists a b, (b = 0 \/ b = 1) /\ forall l, (l < 3)%nat -> rc l (ctrl c j) = rc l C + a * rc l A + b * rc l B.
  Proof.
    intros LC LA LB He Hr AA BB AB. pose proof PI_RGT_0 as Hp.
    assert (Ec : arc_count (PI - 0) = 2%nat) by (rewrite (arc_count_val eps maxv (PI - 0) 2); [reflexivity|cbn; lra]).
    assert (Ed : (PI - 0) / INR 2 = PI / 2) by (cbn; field).
    destruct (circular_traces eps maxv 4 C A B r 0 PI ltac:(lia) LC LA LB Hr AA BB AB Hp) as (c & E & T).
    { lra. } { rewrite Ec, Ed, sin_PI2. lra. }
    exists c. split; [exact E|]. split; [exact T|].
    destruct (circ_facts eps maxv 4 A B r LA LB Hr AA BB AB) as (PA & PB & NA & NB & Lx & Ly & XX & YY & XY).
    destruct (ellipse_arc_built eps maxv 4 C A B 0 PI ltac:(lia) LC LA LB PA PB Hp) as (pts & ws & HP & E').
    { intros i Hi. rewrite Ec, Ed in *.
      pose proof (proj2 (circle_step eps maxv 3 C (vnormalize A) (vnormalize B) r (PI / 2) (0 + INR i * (PI / 2)) LC Lx Ly XX YY XY)) as G.
      rewrite sin_PI2 in G. specialize (G ltac:(lra)). rewrite NA, NB.
      pose proof (scale_unit eps maxv A PA) as SA. pose proof (scale_unit eps maxv B PB) as SB. rewrite NA in SA. rewrite NB in SB.
      rewrite SA, SB in G. exact G. }
    rewrite Ec, Ed in HP, E'. rewrite E in E'. injection E' as Ecv.
    assert (C4 : cos (PI / 2 / 2) = 1 / sqrt 2) by (replace (PI / 2 / 2) with (PI / 4) by field; apply cos_PI4).
    assert (Q2 : 0 < 1 / sqrt 2) by (apply Rdiv_lt_0_compat; [lra|apply sqrt_lt_R0; lra]).
    assert (Hdt : 0 < PI / 2) by lra. assert (Hed : 0 < eps <= PI / 2) by (pose proof PI2_1; lra). assert (Hc1 : -1 < cos (PI / 2 / 2)) by (rewrite C4; lra).
    assert (L3 : length C = (4 - 1)%nat) by exact LC. assert (H14 : (1 <= 4)%nat) by lia. assert (H12 : (1 <= 2)%nat) by lia.
    pose proof (arc_len eps maxv 4 C A B 0 (PI / 2) 2 pts ws HP) as Len.
    pose proof (arc_cpc eps maxv 4 C A B 0 (PI / 2) 2 pts ws H14 L3 H12 HP) as Cp.
    pose proof (arc_cpw eps maxv 4 C A B 0 (PI / 2) 2 pts ws H14 L3 H12 HP) as Cw.
    pose proof (arc_eps eps maxv 4 C A B 0 (PI / 2) 2 pts ws H14 L3 H12 Hed HP) as Ce.
    rewrite <- Ecv in Len, Cp, Cw, Ce. change (2 * 2 + 1)%nat with 5%nat in *.
    assert (W : forall j, (j < 5)%nat -> 0 < nth j ws 0).
    { intros j Hj. destruct (Nat.Even_or_Odd j) as [(i & ->)|(i & ->)].
      - rewrite (proj1 (ap_end _ _ _ _ _ _ _ _ _ HP i ltac:(lia))). lra.
      - rewrite (proj1 (ap_mid _ _ _ _ _ _ _ _ _ HP i ltac:(lia))). rewrite C4. exact Q2. }
    split; [exact Ce|]. split.
    { intros j Hj. rewrite Len in Hj. destruct T as (_ & Td & _). rewrite Td, Cw by exact Hj. now apply W. }
    intros j Hj. rewrite Len in Hj.
    assert (X : forall l, (l < 3)%nat -> rc l (ctrl c j) = rc l (nth j pts [])).
    { intros l Hl. unfold ctrl. rewrite rc_map_seq by exact Hl. pose proof (Cw j Hj) as Cw'. change (4 - 1)%nat with 3%nat in Cw'. rewrite Cw', Cp by (cbn; lia). field. pose proof (W j Hj). lra. }
    destruct (Nat.Even_or_Odd j) as [(i & ->)|(i & ->)].
    - exists (cos (0 + INR i * (PI / 2))), (sin (0 + INR i * (PI / 2))). split.
      + assert (i = 0 \/ i = 1 \/ i = 2)%nat as [->|[->| ->]] by lia; cbn [INR].
        * left. rewrite Rmult_0_l, Rplus_0_l. apply sin_0.
        * right. rewrite Rmult_1_l, Rplus_0_l. apply sin_PI2.
        * left. replace (0 + (1 + 1) * (PI / 2)) with PI by field. apply sin_PI.
      + intros l Hl. rewrite X by exact Hl. rewrite (proj2 (proj2 (ap_end _ _ _ _ _ _ _ _ _ HP i ltac:(lia))) l Hl). ring.
    - assert (i = 0 \/ i = 1)%nat as [->| ->] by lia.
      + exists 1, 1. split; [now right|]. intros l Hl. rewrite X by exact Hl. pose proof (proj2 (proj2 (ap_mid _ _ _ _ _ _ _ _ _ HP 0 ltac:(lia))) l Hl) as M.
        cbn [INR] in M. rewrite Rmult_0_l, !Rplus_0_l in M. replace (PI / 2 / 2) with (PI / 4) in M by field. rewrite cos_PI4, sin_PI4 in M.
        apply (Rmult_eq_reg_r (1 / sqrt 2)); [|lra]. rewrite M. ring.
      + exists (-1), 1. split; [now right|]. intros l Hl. rewrite X by exact Hl. pose proof (proj2 (proj2 (ap_mid _ _ _ _ _ _ _ _ _ HP 1 ltac:(lia))) l Hl) as M.
        cbn [INR] in M. rewrite Rmult_1_l, !Rplus_0_l in M. rewrite (cos_plus (PI / 2)), (sin_plus (PI / 2)), cos_PI2, sin_PI2 in M.
        replace (PI / 2 / 2) with (PI / 4) in M by field. rewrite cos_PI4, sin_PI4 in M.
        apply (Rmult_eq_reg_r (1 / sqrt 2)); [|lra]. rewrite M. ring.
  Qed.

  (** an orthonormal basis from two orthonormal vectors *)
  Lemma complete k0 k1 k2 x0 x1 x2 d0 d1 d2 :
    k0 * k0 + k1 * k1 + k2 * k2 = 1 -> x0 * x0 + x1 * x1 + x2 * x2 = 1 -> k0 * x0 + k1 * x1 + k2 * x2 = 0 ->
    let y0 := k1 * x2 - k2 * x1 in let y1 := k2 * x0 - k0 * x2 in let y2 := k0 * x1 - k1 * x0 in
    let kd := k0 * d0 + k1 * d1 + k2 * d2 in let xd := x0 * d0 + x1 * d1 + x2 * d2 in let yd := y0 * d0 + y1 * d1 + y2 * d2 in
    d0 = kd * k0 + xd * x0 + yd * y0 /\ d1 = kd * k1 + xd * x1 + yd * y1 /\ d2 = kd * k2 + xd * x2 + yd * y2.
  Proof.
    intros HK HX HO y0 y1 y2 kd xd yd.
    assert (Y00 : y0 * y0 = 1 - k0 * k0 - x0 * x0).
    { transitivity ((k1 * k1 + k2 * k2) * (x1 * x1 + x2 * x2) - (k1 * x1 + k2 * x2) * (k1 * x1 + k2 * x2)); [unfold y0; ring|].
      replace (k1 * k1 + k2 * k2) with (1 - k0 * k0) by lra. replace (x1 * x1 + x2 * x2) with (1 - x0 * x0) by lra. replace (k1 * x1 + k2 * x2) with (- (k0 * x0)) by lra. ring. }
    assert (Y11 : y1 * y1 = 1 - k1 * k1 - x1 * x1).
    { transitivity ((k0 * k0 + k2 * k2) * (x0 * x0 + x2 * x2) - (k0 * x0 + k2 * x2) * (k0 * x0 + k2 * x2)); [unfold y1; ring|].
      replace (k0 * k0 + k2 * k2) with (1 - k1 * k1) by lra. replace (x0 * x0 + x2 * x2) with (1 - x1 * x1) by lra. replace (k0 * x0 + k2 * x2) with (- (k1 * x1)) by lra. ring. }
    assert (Y22 : y2 * y2 = 1 - k2 * k2 - x2 * x2).
    { transitivity ((k0 * k0 + k1 * k1) * (x0 * x0 + x1 * x1) - (k0 * x0 + k1 * x1) * (k0 * x0 + k1 * x1)); [unfold y2; ring|].
      replace (k0 * k0 + k1 * k1) with (1 - k2 * k2) by lra. replace (x0 * x0 + x1 * x1) with (1 - x2 * x2) by lra. replace (k0 * x0 + k1 * x1) with (- (k2 * x2)) by lra. ring. }
    assert (Y01 : y0 * y1 = - (k0 * k1) - x0 * x1).
    { transitivity (k1 * x0 * (k2 * x2) - k0 * k1 * (x2 * x2) - (k2 * k2) * (x0 * x1) + k0 * x1 * (k2 * x2)); [unfold y0, y1; ring|].
      replace (k2 * x2) with (- (k0 * x0) - k1 * x1) by lra. replace (x2 * x2) with (1 - x0 * x0 - x1 * x1) by lra. replace (k2 * k2) with (1 - k0 * k0 - k1 * k1) by lra. ring. }
    assert (Y02 : y0 * y2 = - (k0 * k2) - x0 * x2).
    { transitivity (k0 * x2 * (k1 * x1) - k0 * k2 * (x1 * x1) - (k1 * k1) * (x0 * x2) + k2 * x0 * (k1 * x1)); [unfold y0, y2; ring|].
      replace (k1 * x1) with (- (k0 * x0) - k2 * x2) by lra. replace (x1 * x1) with (1 - x0 * x0 - x2 * x2) by lra. replace (k1 * k1) with (1 - k0 * k0 - k2 * k2) by lra. ring. }
    assert (Y12 : y1 * y2 = - (k1 * k2) - x1 * x2).
    { transitivity (k2 * x1 * (k0 * x0) - k1 * k2 * (x0 * x0) - (k0 * k0) * (x1 * x2) + k1 * x2 * (k0 * x0)); [unfold y1, y2; ring|].
      replace (k0 * x0) with (- (k1 * x1) - k2 * x2) by lra. replace (x0 * x0) with (1 - x1 * x1 - x2 * x2) by lra. replace (k0 * k0) with (1 - k1 * k1 - k2 * k2) by lra. ring. }
    unfold kd, xd, yd. repeat split.
    - transitivity (d0 * (k0 * k0 + x0 * x0 + y0 * y0) + d1 * (k0 * k1 + x0 * x1 + y0 * y1) + d2 * (k0 * k2 + x0 * x2 + y0 * y2)); [rewrite Y00, Y01, Y02; ring|ring].
    - transitivity (d0 * (k0 * k1 + x0 * x1 + y0 * y1) + d1 * (k1 * k1 + x1 * x1 + y1 * y1) + d2 * (k1 * k2 + x1 * x2 + y1 * y2)); [rewrite Y11, Y01, Y12; ring|ring].
    - transitivity (d0 * (k0 * k2 + x0 * x2 + y0 * y2) + d1 * (k1 * k2 + x1 * x2 + y1 * y2) + d2 * (k2 * k2 + x2 * x2 + y2 * y2)); [rewrite Y22, Y02, Y12; ring|ring].
  Qed.

  (** every point of the sphere is a turned point of the half circle *)
  Lemma sphere_reached C K A B r Q : length C = 3%nat -> length K = 3%nat -> length B = 3%nat -> length Q = 3%nat -> length A = 3%nat ->
    dot K K = 1 -> dot B B = r * r -> dot K B = 0 -> 0 < r -> (forall l, (l < 3)%nat -> rc l A = - r * rc l K) -> rdist Q C = r ->
    exists phi psi, 0 <= phi <= PI /\ 0 <= psi <= 2 * PI /\ Q = rotated C K psi (on_ellipse C A B phi).
  Proof.
    intros LC LK LB LQ LA HK HB HKB Hr HA HQ.
    assert (HQ2 : (rc 0 Q - rc 0 C) * (rc 0 Q - rc 0 C) + (rc 1 Q - rc 1 C) * (rc 1 Q - rc 1 C) + (rc 2 Q - rc 2 C) * (rc 2 Q - rc 2 C) = r * r).
    { unfold rdist in HQ. rewrite LQ in HQ. cbn [rsum] in HQ. rewrite Rplus_0_l in HQ. rewrite <- HQ. symmetry. apply sqrt_sqrt.
      repeat apply Rplus_le_le_0_compat; match goal with |- 0 <= ?x * ?x => exact (Rle_0_sqr x) end. }
    unfold dot in HK, HB, HKB. rewrite LK in HK, HKB. rewrite LB in HB. cbn [rsum] in HK, HB, HKB. rewrite Rplus_0_l in HK, HB, HKB.
    set (k0 := rc 0 K) in *. set (k1 := rc 1 K) in *. set (k2 := rc 2 K) in *. 
    set (d0 := rc 0 Q - rc 0 C) in *. set (d1 := rc 1 Q - rc 1 C) in *. set (d2 := rc 2 Q - rc 2 C) in *.
    set (x0 := rc 0 B / r). set (x1 := rc 1 B / r). set (x2 := rc 2 B / r).
    assert (B0 : rc 0 B = r * x0) by (unfold x0; field; lra). assert (B1 : rc 1 B = r * x1) by (unfold x1; field; lra). assert (B2 : rc 2 B = r * x2) by (unfold x2; field; lra).
    assert (HX : x0 * x0 + x1 * x1 + x2 * x2 = 1).
    { apply (Rmult_eq_reg_l (r * r)); [|nra]. transitivity (rc 0 B * rc 0 B + rc 1 B * rc 1 B + rc 2 B * rc 2 B); [rewrite B0, B1, B2; ring|rewrite HB; ring]. }
    assert (HO : k0 * x0 + k1 * x1 + k2 * x2 = 0).
    { apply (Rmult_eq_reg_l r); [|lra]. transitivity (k0 * rc 0 B + k1 * rc 1 B + k2 * rc 2 B); [rewrite B0, B1, B2; ring|rewrite HKB; ring]. }
    pose proof (complete k0 k1 k2 x0 x1 x2 d0 d1 d2 HK HX HO) as Hd. cbv zeta in Hd.
    set (y0 := k1 * x2 - k2 * x1) in *. set (y1 := k2 * x0 - k0 * x2) in *. set (y2 := k0 * x1 - k1 * x0) in *.
    set (kd := k0 * d0 + k1 * d1 + k2 * d2) in *. set (xd := x0 * d0 + x1 * d1 + x2 * d2) in *. set (yd := y0 * d0 + y1 * d1 + y2 * d2) in *.
    destruct Hd as (Hd0 & Hd1 & Hd2).
    assert (Hn : xd * xd + yd * yd + kd * kd = r * r).
    { rewrite <- HQ2. transitivity (d0 * (kd * k0 + xd * x0 + yd * y0) + d1 * (kd * k1 + xd * x1 + yd * y1) + d2 * (kd * k2 + xd * x2 + yd * y2)).
      - unfold kd, xd, yd. ring.
      - rewrite <- Hd0, <- Hd1, <- Hd2. reflexivity. }
    assert (Hk : -1 <= - kd / r <= 1).
    { assert (E : - kd / r * r = - kd) by (field; lra). set (q := - kd / r) in *. assert (kd * kd <= r * r) by nra. assert (q * q * (r * r) <= r * r) by (replace (q * q * (r * r)) with ((q * r) * (q * r)) by ring; rewrite E; nra).
      assert (q * q <= 1) by (apply (Rmult_le_reg_r (r * r)); nra). nra. }
    pose proof (acos_bound (- kd / r)) as Bd. pose proof (cos_acos _ Hk) as Ec. set (phi := acos (- kd / r)) in *.
    assert (Hs0 : 0 <= sin phi) by (apply sin_ge_0; lra). pose proof (sin2_cos2 phi) as SC. unfold Rsqr in SC. rewrite Ec in SC.
    set (s := sin phi) in *.
    assert (Hs2 : (r * s) * (r * s) = xd * xd + yd * yd).
    { assert (- kd / r * (- kd / r) * (r * r) = kd * kd) by (field; lra). nra. }
    assert (exists psi, 0 <= psi <= 2 * PI /\ r * s * cos psi = xd /\ r * s * sin psi = yd) as (psi & Hpsi & Ex & Ey).
    { pose proof PI_RGT_0. destruct (Req_dec s 0) as [Z|Z].
      - exists 0. rewrite Z in *. assert (xd = 0 /\ yd = 0) as (-> & ->) by (split; nra). split; [lra|]. split; ring.
      - assert (0 < r * s) by (apply Rmult_lt_0_compat; lra). destruct (angle_of (xd / (r * s)) (yd / (r * s))) as (psi & Hb & Cx & Cy).
        { apply (Rmult_eq_reg_r ((r * s) * (r * s))); [|nra]. rewrite Rmult_1_l. rewrite Hs2 at 2. field. split; lra. }
        exists psi. split; [exact Hb|]. rewrite Cx, Cy. split; field; lra. }
    exists phi, psi. split; [lra|]. split; [exact Hpsi|].
    apply (vec_ext _ _ 3); [exact LQ|reflexivity|]. intros l Hl. unfold rotated. rewrite rc_map_seq by exact Hl.
    rewrite !rc_on_ellipse by lia. rewrite !HA by lia. rewrite B0, B1, B2, Ec. fold s k0 k1 k2.
    set (e0 := rc 0 C + - r * k0 * (- kd / r) + r * x0 * s - rc 0 C). set (e1 := rc 1 C + - r * k1 * (- kd / r) + r * x1 * s - rc 1 C). set (e2 := rc 2 C + - r * k2 * (- kd / r) + r * x2 * s - rc 2 C).
    assert (E0 : e0 = kd * k0 + r * s * x0) by (unfold e0; field; lra). assert (E1 : e1 = kd * k1 + r * s * x1) by (unfold e1; field; lra). assert (E2 : e2 = kd * k2 + r * s * x2) by (unfold e2; field; lra).
    unfold dot. rewrite LK. cbn [rsum]. fold k0 k1 k2. unfold rc at 5 6 7. cbn [nth]. 
    assert (Eh : 0 + k0 * e0 + k1 * e1 + k2 * e2 = kd).
    { rewrite E0, E1, E2. transitivity (kd * (k0 * k0 + k1 * k1 + k2 * k2) + r * s * (k0 * x0 + k1 * x1 + k2 * x2)); [ring|]. rewrite HK, HO. ring. }
    rewrite Eh.
    destruct l as [|[|[|]]]; [| | |lia]; cbn [cross_l]; unfold rc at 3; cbn [nth].
    - replace (rc 0 Q) with (rc 0 C + d0) by (unfold d0; ring). fold k0 k1 k2. unfold rc at 3 4. cbn [nth]. fold k0. rewrite E0, E1, E2, Hd0, <- Ex, <- Ey. unfold y0. ring.
    - replace (rc 1 Q) with (rc 1 C + d1) by (unfold d1; ring). fold k0 k1 k2. unfold rc at 3 4. cbn [nth]. fold k1. rewrite E0, E1, E2, Hd1, <- Ex, <- Ey. unfold y1. ring.
    - replace (rc 2 Q) with (rc 2 C + d2) by (unfold d2; ring). fold k0 k1 k2. unfold rc at 3 4. cbn [nth]. fold k2. rewrite E0, E1, E2, Hd2, <- Ex, <- Ey. unfold y2. ring.
  Qed.

  Theorem sphere_spec C K X r :
    length C = 3%nat -> length K = 3%nat -> length X = 3%nat -> dot K K = 1 -> 0 < dot X X -> dot K X = 0 ->
    0 < eps <= 1 / 4 -> eps < r ->
    exists s, try_sphere C K X r = Ok s /\ surf_ok s /\
      (forall u v, in_dom s u v -> exists p, surf_point_at s u v = Ok p /\ length p = 3%nat /\ rdist p C = r) /\
      (forall q, length q = 3%nat -> rdist q C = r -> exists u v, in_dom s u v /\ surf_point_at s u v = Ok q).
  Proof.
    intros LC LK LX HK HX HKX He Hr. pose proof PI_RGT_0 as Hp.
    set (A := half_axis (map Ropp K) r). set (B := half_axis X r).
    assert (LA : length A = 3%nat) by (unfold A; now rewrite half_axis_length, map_length).
    assert (LB : length B = 3%nat) by (unfold B; now rewrite half_axis_length).
    assert (HN : dot (map Ropp K) (map Ropp K) = 1).
    { rewrite <- HK. unfold dot. rewrite map_length, LK. apply rsum_ext. intros l Hl. unfold rc. rewrite !(nth_map_lt Ropp K l 0 0) by lia. ring. }
    assert (HA : forall l, (l < 3)%nat -> rc l A = - r * rc l K).
    { intros l Hl. unfold A, half_axis. rewrite HN, sqrt_1. unfold rc. rewrite (nth_map_lt _ _ l 0 0) by (rewrite map_length; lia). rewrite (nth_map_lt Ropp K l 0 0) by lia. field. }
    assert (HBl : forall l, (l < 3)%nat -> rc l B = rc l X / sqrt (dot X X) * r).
    { intros l Hl. unfold B, half_axis, rc. now rewrite (nth_map_lt _ _ l 0 0) by lia. }
    assert (BB : dot B B = r * r) by (now apply half_axis_self).
    assert (AA : dot A A = r * r) by (apply (half_axis_self eps maxv); rewrite HN; lra).
    assert (KB : dot K B = 0).
    { transitivity (dot K X * (r / sqrt (dot X X))); [|rewrite HKX; ring]. unfold dot at 1 2. rewrite LK, <- rsum_scal_r. apply rsum_ext. intros l Hl. rewrite HBl by exact Hl. unfold Rdiv. ring. }
    assert (KA : dot K A = - r).
    { transitivity (dot K K * - r); [|rewrite HK; ring]. unfold dot. rewrite LK, <- rsum_scal_r. apply rsum_ext. intros l Hl. rewrite HA by exact Hl. ring. }
    assert (AB : dot A B = 0).
    { transitivity (- r * dot K B); [|rewrite KB; ring]. unfold dot. rewrite LK, LA, <- rsum_scal. apply rsum_ext. intros l Hl. rewrite HA by exact Hl. ring. }
    destruct (half_circle C A B r LC LA LB ltac:(lra) ltac:(lra) AA BB AB) as (c & E & T & Ce & Cw & Cc).
    pose proof T as (Cok & Cd & D0 & D1 & Tt & _ & _ & Ta).
    destruct (revolve_turns eps maxv c C K (2 * PI) Cok Ce Cw Cd LC LK HK) as (s & Es & Hs).
    { intros j Hj. destruct (Cc j Hj) as (a & b & Hb & Hab). rewrite (dist_from_frame C K A B _ r a b LK LA LB KA KB AA BB AB Hab).
      destruct Hb as [->| ->]; [left; ring|right; nra]. }
    { lra. } { lra. } { intros; exfalso; lra. }
    exists s. split.
    - unfold try_sphere, try_arc. rewrite !half_axis_eq. rewrite (spi_R eps maxv). change (@szero R _) with 0. change (map sopp K) with (map Ropp K). fold A B. rewrite E. cbn [bind]. exact Es.
    - destruct Hs as (So & _ & _ & U0 & U1 & V0 & V1 & Hu & _ & Hreach). split; [exact So|]. split.
      + intros u v (Iu & Iv). rewrite U0, U1 in Iu. rewrite V0, V1 in Iv. destruct (Hu u Iu) as (phi & _ & Hphi).
        pose proof Iv as Iv'. rewrite D0, D1 in Iv. destruct (Tt v Iv) as (al & Ep & _). eexists. split; [apply (Hphi v _ Iv' Ep)|].
        split; [reflexivity|]. rewrite rotated_dist by (assumption || (rewrite on_ellipse_length; exact LC)).
        apply (circular_dist eps maxv 4 C A B r 0 PI); (assumption || lra || lia).
      + intros q Lq Hq. destruct (sphere_reached C K A B r q LC LK LB Lq LA HK BB KB ltac:(lra) HA Hq) as (phi & psi & Hphi & Hpsi & ->).
        destruct (Hreach psi ltac:(left; lra)) as (u & Iu & Hp'). destruct (Ta ltac:(lra) phi Hphi) as (v & Iv & Ep).
        exists u, v. assert (Iv' : dom0 c <= v <= dom1 c) by (rewrite D0, D1; exact Iv). split; [|now apply Hp'].
        unfold in_dom. rewrite U0, U1, V0, V1. split; assumption.
  Qed.
End Real.
