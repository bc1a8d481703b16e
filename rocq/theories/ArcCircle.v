(** * Circles and circular arcs, full ellipses *)
From Coq Require Import Reals Lra Sorted ZArith String.
From Verif Require Import Base BaseFacts Scalar RSum BSplineSpec BSpline KnotModel KnotSpec KnotFacts KnotProofs VecFacts
  MiscModel MiscProofs CurveModel CurveSpec CurveProofs CurveGeom CurveGeom2 CurveShapes Refine ArcModel ArcProofs ArcMain.
Open Scope list_scope. Open Scope R_scope.

Section Real.
  Variables eps maxv : R.
  Local Hint Extern 0 (Scalar R) => exact (ROps eps maxv) : typeclass_instances.
  Local Hint Extern 0 (Trig R) => exact TrigR : typeclass_instances.

  Section Frame.
    Variables (d : nat) (C x y : list R) (rx ry : R).
    Hypothesis LC : length C = d.
    Hypothesis Lx : length x = d.
    Hypothesis Ly : length y = d.

    Lemma dot_sym : dot y x = dot x y.
    Proof. unfold dot. rewrite Lx, Ly. apply rsum_ext. intros. ring. Qed.

    Lemma vdot_lin_aff u v p q r s :
      length u = d -> length v = d ->
      (forall l, (l < d)%nat -> rc l u = p * rc l x + q * rc l y) ->
      (forall l, (l < d)%nat -> rc l v = rc l C + r * rc l x + s * rc l y) ->
      vdot u v = p * dot x C + q * dot y C + p * r * dot x x + (p * s + q * r) * dot x y + q * s * dot y y.
    Proof.
      intros Lu Lv Hu Hv. rewrite vdot_rsum by congruence. unfold dot. rewrite Lu, Lx, Ly.
      rewrite <- !rsum_scal, <- !rsum_plus. apply rsum_ext. intros l Hl. rewrite Hu, Hv by exact Hl. ring.
    Qed.
    Lemma vdot_lin_lin u v p q r s :
      length u = d -> length v = d ->
      (forall l, (l < d)%nat -> rc l u = p * rc l x + q * rc l y) ->
      (forall l, (l < d)%nat -> rc l v = r * rc l x + s * rc l y) ->
      vdot u v = p * r * dot x x + (p * s + q * r) * dot x y + q * s * dot y y.
    Proof.
      intros Lu Lv Hu Hv. rewrite vdot_rsum by congruence. unfold dot. rewrite Lu, Lx, Ly.
      rewrite <- !rsum_scal, <- !rsum_plus. apply rsum_ext. intros l Hl. rewrite Hu, Hv by exact Hl. ring.
    Qed.

    Hypothesis HX : dot x x = 1.
    Hypothesis HY : dot y y = 1.
    Let g := dot x y.

    Lemma dir_unit a : cos a * sin a * g = 0 -> vnormalize (ellipse_dir x y a) = ellipse_dir x y a.
    Proof.
      intros H0. pose proof (ellipse_dir_length eps maxv d x y Lx Ly a) as L. apply (vec_ext _ _ d).
      - now apply vdivs_length.
      - exact L.
      - intros l Hl. unfold vnormalize. rewrite rc_vdivs.
        assert (E : vnorm (ellipse_dir x y a) = 1).
        { unfold vnorm, vnorm2. rewrite (vdot_lin_lin _ _ (- sin a) (cos a) (- sin a) (cos a)) by
            (exact L || (intros; rewrite (ellipse_dir_rc eps maxv d x y Lx Ly); ring)).
          rewrite HX, HY. fold g. replace (_ + _ + _) with 1; [rs; apply sqrt_1|].
          pose proof (sin2_cos2 a) as S. unfold Rsqr in S. rs. nra. }
        rewrite E. field.
    Qed.

    (** the ray intersection of two unit directions *)
    Lemma piece_rays_eq a dtheta :
      cos a * sin a * g = 0 -> cos (a + dtheta) * sin (a + dtheta) * g = 0 ->
      let b := a + dtheta in
      let dab := sin a * sin b - (sin a * cos b + cos a * sin b) * g + cos a * cos b in
      let dx := rx * (cos b - cos a) in let dy := ry * (sin b - sin a) in
      let pa := - sin a * dx + (- sin a * dy + cos a * dx) * g + cos a * dy in
      let pb := - sin b * dx + (- sin b * dy + cos b * dx) * g + cos b * dy in
      let div := 1 - dab * dab in
      if Rlt_dec (Rabs div) eps then piece_rays eps maxv C x y rx ry dtheta a = None
      else exists p0 p1, piece_rays eps maxv C x y rx ry dtheta a =
        Some ((p0, pa + (dab * pa - pb) / div * dab), (p1, (dab * pa - pb) / div)).
    Proof.
      intros Ha Hb b dab dx dy pa pb div. fold b in Hb. unfold piece_rays. fold b. rewrite !dir_unit by assumption.
      unfold ray_intersection. cbn [ray_o ray_d].
      assert (LD : forall t, length (ellipse_dir x y t) = d) by (intros; now apply ellipse_dir_length).
      assert (LO : forall t, length (ellipse_at C x y rx ry t) = d) by (intros; now apply ellipse_at_length).
      assert (RD : forall t l, (l < d)%nat -> rc l (ellipse_dir x y t) = - sin t * rc l x + cos t * rc l y)
        by (intros; rewrite (ellipse_dir_rc eps maxv d x y Lx Ly); ring).
      assert (RO : forall t l, (l < d)%nat -> rc l (ellipse_at C x y rx ry t) = rc l C + (rx * cos t) * rc l x + (ry * sin t) * rc l y).
      { intros t l Hl. rewrite (ellipse_at_rc eps maxv d C (vscale x rx) (vscale y ry) x y rx ry LC Lx Ly
          (fun l _ => eq_sym (rc_vscale eps maxv l x rx)) (fun l _ => eq_sym (rc_vscale eps maxv l y ry)) t l Hl).
        rewrite !rc_vscale. ring. }
      assert (DD : forall s t, vdot (ellipse_dir x y s) (ellipse_dir x y t) =
        sin s * sin t - (sin s * cos t + cos s * sin t) * g + cos s * cos t).
      { intros s t. rewrite (vdot_lin_lin _ _ (- sin s) (cos s) (- sin t) (cos t)) by auto. rewrite HX, HY. fold g. ring. }
      assert (D1 : forall s, cos s * sin s * g = 0 -> vdot (ellipse_dir x y s) (ellipse_dir x y s) = 1).
      { intros s Hs. rewrite DD. pose proof (sin2_cos2 s) as S. unfold Rsqr in S. nra. }
      assert (DO : forall s t, vdot (ellipse_dir x y s) (ellipse_at C x y rx ry t) =
        (- sin s) * dot x C + cos s * dot y C + (- sin s) * (rx * cos t) +
        ((- sin s) * (ry * sin t) + cos s * (rx * cos t)) * g + cos s * (ry * sin t)).
      { intros s t. rewrite (vdot_lin_aff _ _ (- sin s) (cos s) (rx * cos t) (ry * sin t)) by auto. rewrite HX, HY. fold g. ring. }
      rewrite !D1 by assumption. rewrite !DO, !DD. fold dab. rs. rewrite Rmult_1_l. fold div.
      destruct (Rltb_spec (Rabs div) eps) as [H1|H1]; destruct (Rlt_dec (Rabs div) eps) as [H2|H2]; try lra; [reflexivity|].
      eexists _, _. f_equal. f_equal; f_equal.
      - unfold Rdiv at 1. rewrite Rinv_1, Rmult_1_r. unfold pa, pb, dx, dy. f_equal; [ring|]. f_equal. f_equal. ring.
      - f_equal. unfold pa, pb, dx, dy. ring.
    Qed.
  End Frame.

  (** ** Circular pieces *)
  Lemma circle_step d C x y rho dtheta a :
    length C = d -> length x = d -> length y = d -> dot x x = 1 -> dot y y = 1 -> dot x y = 0 ->
    (sin dtheta * sin dtheta < eps -> piece_rays eps maxv C x y rho rho dtheta a = None) /\
    (0 < eps <= sin dtheta * sin dtheta ->
      good_step eps maxv d C (vscale x rho) (vscale y rho) x y rho rho dtheta a).
  Proof.
    intros LC Lx Ly HX HY HXY.
    pose proof (piece_rays_eq d C x y rho rho LC Lx Ly HX HY a dtheta ltac:(rewrite HXY; ring) ltac:(rewrite HXY; ring)) as H.
    cbv zeta in H. rewrite HXY in H. rewrite !Rmult_0_r, !Rminus_0_r, !Rplus_0_r in H.
    set (b := a + dtheta) in *.
    assert (E1 : sin a * sin b + cos a * cos b = cos dtheta).
    { replace dtheta with (b - a) by (unfold b; ring). rewrite cos_minus. ring. }
    assert (E2 : - sin a * (rho * (cos b - cos a)) + cos a * (rho * (sin b - sin a)) = rho * sin dtheta).
    { replace dtheta with (b - a) by (unfold b; ring). rewrite sin_minus. ring. }
    assert (E3 : - sin b * (rho * (cos b - cos a)) + cos b * (rho * (sin b - sin a)) = rho * sin dtheta).
    { replace dtheta with (b - a) by (unfold b; ring). rewrite sin_minus. ring. }
    rewrite E1, E2, E3 in H.
    pose proof (sin2_cos2 dtheta) as S. unfold Rsqr in S.
    assert (E4 : 1 - cos dtheta * cos dtheta = sin dtheta * sin dtheta) by lra. rewrite E4 in H.
    assert (P0 : 0 <= sin dtheta * sin dtheta) by nra. rewrite Rabs_right in H by lra.
    split.
    - intros Hlt. destruct (Rlt_dec _ eps) as [H2|H2]; [exact H|lra].
    - intros Hge. destruct (Rlt_dec _ eps) as [H2|H2]; [lra|]. destruct H as (p0 & p1 & H).
      eexists _, _. split; [exact H|]. cbn [snd]. intros l Hl.
      rewrite (ellipse_dir_rc eps maxv d x y Lx Ly), !rc_vscale, cos_plus, sin_plus.
      set (dl := dtheta / 2) in *.
      assert (T : (rho * sin dtheta + (cos dtheta * (rho * sin dtheta) - rho * sin dtheta) / (sin dtheta * sin dtheta) * cos dtheta) * cos dl
                  = rho * sin dl).
      { assert (Es : sin dtheta = 2 * sin dl * cos dl) by (rewrite <- sin_2a; f_equal; unfold dl; field).
        assert (Ec : cos dtheta = 1 - 2 * (sin dl * sin dl)).
        { replace dtheta with (2 * dl) by (unfold dl; field). rewrite cos_2a_sin. ring. }
        assert (N : sin dl * cos dl <> 0) by (intros Z; rewrite Es in Hge; nra).
        assert (N1 : sin dl <> 0) by (intros Z; apply N; rewrite Z; ring).
        assert (N2 : cos dl <> 0) by (intros Z; apply N; rewrite Z; ring).
        pose proof (sin2_cos2 dl) as S2. unfold Rsqr in S2.
        assert (S3 : cos dl * cos dl = 1 - sin dl * sin dl) by lra.
        rewrite Es, Ec. apply (Rmult_eq_reg_r (cos dl)); [|exact N2].
        replace (rho * sin dl * cos dl) with (rho * (sin dl * cos dl)) by ring.
        transitivity (rho * (sin dl * (2 * (cos dl * cos dl) - (1 - 2 * (sin dl * sin dl)))) * cos dl); [field; auto|].
        rewrite S3. ring. }
      set (t := rho * sin dtheta + _) in *.
      replace ((rc l C + rc l x * rho * cos a + rc l y * rho * sin a + (rc l y * cos a - rc l x * sin a) * t) * cos dl)
        with ((rc l C + rc l x * rho * cos a + rc l y * rho * sin a) * cos dl + (rc l y * cos a - rc l x * sin a) * (t * cos dl)) by ring.
      rewrite T. ring.
  Qed.

  (** ** Quarters of an ellipse *)
  Lemma quarter_step d C x y rx ry a :
    length C = d -> length x = d -> length y = d -> dot x x = 1 -> dot y y = 1 ->
    cos a * sin a = 0 ->
    (Rabs (1 - dot x y * dot x y) < eps -> piece_rays eps maxv C x y rx ry (PI / 2) a = None) /\
    (0 < eps <= 1 - dot x y * dot x y ->
      good_step eps maxv d C (vscale x rx) (vscale y ry) x y rx ry (PI / 2) a).
  Proof.
    intros LC Lx Ly HX HY H0.
    assert (Cb : cos (a + PI / 2) = - sin a) by (rewrite cos_plus, cos_PI2, sin_PI2; ring).
    assert (Sb : sin (a + PI / 2) = cos a) by (rewrite sin_plus, cos_PI2, sin_PI2; ring).
    pose proof (piece_rays_eq d C x y rx ry LC Lx Ly HX HY a (PI / 2) ltac:(rewrite H0; ring)
      ltac:(rewrite Cb, Sb; transitivity (- (cos a * sin a * dot x y)); [ring|rewrite H0; ring])) as H.
    cbv zeta in H. rewrite Cb, Sb in H. set (g := dot x y) in *.
    set (ca := cos a) in *. set (sa := sin a) in *.
    pose proof (sin2_cos2 a) as S. unfold Rsqr in S. fold ca sa in S.
    assert (E1 : 1 - (sa * ca - (sa * - sa + ca * ca) * g + ca * - sa) * (sa * ca - (sa * - sa + ca * ca) * g + ca * - sa) = 1 - g * g).
    { replace (sa * ca - (sa * - sa + ca * ca) * g + ca * - sa) with (- ((ca * ca - sa * sa) * g)) by ring.
      assert (Q : (ca * ca - sa * sa) * (ca * ca - sa * sa) = 1).
      { replace ((ca * ca - sa * sa) * (ca * ca - sa * sa)) with ((sa * sa + ca * ca) * (sa * sa + ca * ca) - 4 * (ca * sa) * (ca * sa)) by ring.
        rewrite S, H0. ring. }
      replace (- ((ca * ca - sa * sa) * g) * - ((ca * ca - sa * sa) * g)) with ((ca * ca - sa * sa) * (ca * ca - sa * sa) * (g * g)) by ring.
      rewrite Q. ring. }
    rewrite E1 in H. split.
    - intros Hlt. destruct (Rlt_dec _ eps) as [H2|H2]; [exact H|lra].
    - intros Hge. destruct (Rlt_dec _ eps) as [H2|H2]; [rewrite Rabs_right in H2; lra|]. destruct H as (p0 & p1 & H).
      eexists _, _. split; [exact H|]. cbn [snd]. intros l Hl.
      rewrite (ellipse_dir_rc eps maxv d x y Lx Ly), !rc_vscale. fold ca sa.
      replace (PI / 2 / 2) with (PI / 4) by field. rewrite cos_plus, sin_plus, sin_cos_PI4. fold ca sa.
      apply Rmult_integral in H0. destruct H0 as [H0|H0]; rewrite H0 in *.
      + assert (Q : (sa - 1) * (sa + 1) = 0) by lra. apply Rmult_integral in Q.
        destruct Q as [Q|Q]; [replace sa with 1 by lra|replace sa with (-1) by lra]; field; lra.
      + assert (Q : (ca - 1) * (ca + 1) = 0) by lra. apply Rmult_integral in Q.
        destruct Q as [Q|Q]; [replace ca with 1 by lra|replace ca with (-1) by lra]; field; lra.
  Qed.
End Real.
