(** * Revolving about an axis that is not a unit vector *)
From Coq Require Import Reals Lra Sorted ZArith String.
From Verif Require Import Base BaseFacts Scalar RSum BSplineSpec BSpline KnotModel KnotSpec KnotFacts KnotProofs VecFacts
  MiscModel MiscProofs CurveModel CurveSpec CurveProofs CurveGeom CurveGeom2 CurveShapes Refine SurfaceModel SurfaceSpec SurfaceProofs SurfaceShapes
  ArcModel ArcProofs ArcMain ArcCircle ArcTheorems RevolveModel RevolveProofs RevolveColumn RevolveMain RevolveTheorems.
Open Scope list_scope. Open Scope R_scope.

(** the segment from (1, 0, 0) to (2, 0, 0) *)
Definition spoke : Curve R := MkCurve 4 1 [[1; 0; 0; 1]; [2; 0; 0; 1]] [0; 0; 1; 1].

Section Real.
  Variables eps maxv : R.
  Local Hint Extern 0 (Scalar R) => exact (ROps eps maxv) : typeclass_instances.
  Local Hint Extern 0 (Trig R) => exact TrigR : typeclass_instances.

  Lemma spoke_column (a : R) : 0 < eps <= 1 / 4 -> 1 <= a ->
    revolve_column [0; 0; 0] [0; 0; 2] (cos (PI / 4)) [1; 0] [0; 1] 1 [a; 0; 0] 1 =
    Ok [([a; 0; 0], 1); ([a; 2 * a; 0], cos (PI / 4) * 1); ([0; 2 * a; 0], 1)].
  Proof.
    intros He Ha. unfold revolve_column.
    assert (E0 : vadd [0; 0; 0] (vscale [0; 0; 2] (vdot (vsub [a; 0; 0] [0; 0; 0]) [0; 0; 2])) = [0; 0; 0]).
    { cbn. repeat (apply f_equal2; [ring|]). reflexivity. }
    rewrite E0. assert (E1 : vsub [a; 0; 0] [0; 0; 0] = [a; 0; 0]) by (cbn; repeat (apply f_equal2; [ring|]); reflexivity).
    rewrite E1. assert (E2 : vnorm [a; 0; 0] = a).
    { rewrite (vnorm_dot eps maxv). unfold dot. cbn [length rsum]. unfold rc. cbn [nth]. replace (0 + a * a + 0 * 0 + 0 * 0) with (a * a) by ring. apply sqrt_square. lra. }
    rewrite E2. assert (E3 : cross3 [0; 0; 2] [a; 0; 0] = [0; 2 * a; 0]) by (unfold cross3, coord; cbn [nth]; rs; do 3 (apply f_equal2; [ring|]); reflexivity).
    rewrite E3. replace (sltb seps a) with true by (symmetry; rs; apply Rltb_true; lra).
    assert (E4 : vscale [a; 0; 0] (sdiv sone a) = [1; 0; 0]) by (cbn; repeat (apply f_equal2; [field; lra|]); reflexivity).
    assert (E5 : vscale [0; 2 * a; 0] (sdiv sone a) = [0; 2; 0]) by (cbn; repeat (apply f_equal2; [field; lra|]); reflexivity).
    rewrite E4, E5. change (2 * 1 + 1)%nat with 3%nat.
    change (set_ (repeat ([szero; szero; szero], sone) 3) 0 ([a; 0; 0], 1)) with (Ok [([a; 0; 0], 1); ([0; 0; 0], 1); ([0; 0; 0], 1)]). cbn [bind].
    unfold for_incl. change (2 - 1)%nat with 1%nat. cbn [for_]. unfold revolve_step. change (get [1; 0] 1) with (Ok 0). change (get [0; 1] 1) with (Ok 1). cbn [bind rv_index rv_col rv_p0 rv_t0].
    replace (sleb a seps) with false by (symmetry; rs; apply Rleb_false; lra).
    assert (E6 : vadd (vadd [0; 0; 0] (vscale (vscale [1; 0; 0] 0) a)) (vscale (vscale [0; 2; 0] 1) a) = [0; 2 * a; 0]) by (cbn; repeat (apply f_equal2; [ring|]); reflexivity).
    assert (E7 : vsub (vscale [0; 2; 0] 0) (vscale [1; 0; 0] 1) = [-1; 0; 0]) by (cbn; repeat (apply f_equal2; [ring|]); reflexivity).
    rewrite E6, E7.
    assert (N1 : vnormalize [0; 2; 0] = [0; 1; 0]).
    { unfold vnormalize. rewrite (vnorm_dot eps maxv). unfold dot. cbn [length rsum]. unfold rc. cbn [nth]. replace (0 + 0 * 0 + 2 * 2 + 0 * 0) with (2 * 2) by ring. rewrite sqrt_square by lra.
      cbn. repeat (apply f_equal2; [field; lra|]). reflexivity. }
    assert (N2 : vnormalize [-1; 0; 0] = [-1; 0; 0]).
    { unfold vnormalize. rewrite (vnorm_dot eps maxv). unfold dot. cbn [length rsum]. unfold rc. cbn [nth]. replace (0 + -1 * -1 + 0 * 0 + 0 * 0) with 1 by ring. rewrite sqrt_1.
      cbn. repeat (apply f_equal2; [field; lra|]). reflexivity. }
    rewrite N1, N2.
    assert (Er : exists i1, ray_intersection (MkRay [a; 0; 0] [0; 1; 0]) (MkRay [0; 2 * a; 0] [-1; 0; 0]) = Some (([a; 2 * a; 0], 2 * a), i1)).
    { unfold ray_intersection. cbn [ray_o ray_d].
      assert (V : forall p0 p1 p2 q0 q1 q2 : R, vdot [p0; p1; p2] [q0; q1; q2] = p0 * q0 + p1 * q1 + p2 * q2) by (intros; cbn; ring).
      rewrite !V. match goal with |- context [sltb (sabs ?d) seps] => replace (sltb (sabs d) seps) with false end.
      - eexists. f_equal. apply f_equal2; [|reflexivity]. rs. 
        match goal with |- (ray_point_at _ ?t, _) = _ => assert (Et : t = 2 * a) by field; rewrite Et end.
        f_equal. unfold ray_point_at. cbn. repeat (apply f_equal2; [ring|]). reflexivity.
      - symmetry. rs. apply Rltb_false. match goal with |- _ <= Rabs ?d => replace d with 1 by ring end. rewrite Rabs_R1. lra. }
    destruct Er as (i1 & Er). rewrite Er. cbn [ok_or bind fst]. cbn. reflexivity.
  Qed.

  Theorem revolve_nonunit_refuted : 0 < eps <= 1 / 4 ->
    exists s, try_revolve spoke [0; 0; 0] [0; 0; 2] (PI / 2) = Ok s /\
      point_at spoke 0 = Ok [1; 0; 0] /\ surf_point_at s 1 0 = Ok [0; 2; 0].
  Proof.
    intros He. destruct (arcs_count eps maxv (PI / 2)) as (m & k & E1 & Hm & E2 & M1 & _).
    rewrite (M1 ltac:(lra)) in E1, E2. clear M1 Hm.
    assert (Ek : aknots 1 0 (1 / INR 1) = [0; 0; 0; 1; 1; 1]) by (unfold aknots; cbn; repeat (apply f_equal2; [lra|]); reflexivity).
    rewrite Ek in E2.
    assert (E3 : revolve_trig 1 (PI / 2) = Ok ([1; 0], [0; 1])).
    { unfold revolve_trig. cbn. rewrite cos_0, sin_0, Rplus_0_l, cos_PI2, sin_PI2. reflexivity. }
    assert (E4 : dehomogenized_control_points spoke = Ok [[1; 0; 0]; [2; 0; 0]]).
    { unfold dehomogenized_control_points, dehomogenize. cbn. unfold Reqb. destruct (Req_EM_T 1 0); [lra|]. cbn. unfold vdivs. cbn.
      f_equal. repeat (apply f_equal2; [repeat (apply f_equal2; [field|]); reflexivity|]). reflexivity. }
    set (w := cos (PI / 4)). assert (Hw : 0 < w) by (unfold w; rewrite cos_PI4; apply Rdiv_lt_0_compat; [lra|apply sqrt_lt_R0; lra]).
    set (s := MkSurf 4 2 1 [0; 0; 0; 1; 1; 1] [0; 0; 1; 1]
      [[[1 * 1; 0 * 1; 0 * 1; 1]; [2 * 1; 0 * 1; 0 * 1; 1]];
       [[1 * (w * 1); 2 * 1 * (w * 1); 0 * (w * 1); w * 1]; [2 * (w * 1); 2 * 2 * (w * 1); 0 * (w * 1); w * 1]];
       [[0 * 1; 2 * 1 * 1; 0 * 1; 1]; [0 * 1; 2 * 2 * 1; 0 * 1; 1]]]).
    exists s. split; [|split].
    - unfold try_revolve. rewrite E4. cbn [bind]. rewrite E1. cbn [bind]. rewrite E2. cbn [bind].
      replace (sdiv (PI / 2) (sofnat 1)) with (PI / 2) by (rs; unfold sofnat; rs; cbn; field). rewrite E3. cbn [bind].
      change (weights spoke) with [1; 1]. cbn [combine mapM].
      replace (scos (sdiv (PI / 2) stwo)) with (cos (PI / 4)) by (unfold stwo; cbn; f_equal; field).
      rewrite !spoke_column by (lra || exact He). cbn [bind]. reflexivity.
    - assert (Hc : curve_ok spoke).
      { constructor; cbn; try lia.
        - repeat (apply Forall_cons; [reflexivity|]). constructor.
        - constructor; cbn; try lia; try (unfold kf; cbn; lra). repeat constructor; lra. }
      assert (Hce : curve_eps eps spoke) by (unfold curve_eps, eps_ok, kf; cbn; lra).
      pose proof (clamped_start eps maxv spoke Hc Hce) as F. unfold first_point in F. rewrite knots_domain_ok in F by exact Hc. cbn [bind] in F.
      change (dom0 spoke) with 0 in F. rewrite F.
      + f_equal. unfold affine_point. cbn. repeat (apply f_equal2; [field|]). reflexivity.
      + intros j Hj. destruct j as [|[|j]]; [reflexivity|reflexivity|cbn in Hj; lia].
      + unfold cpc, rc. cbn. lra.
    - assert (So : surf_ok s).
      { constructor; cbn; try lia.
        - repeat (apply Forall_cons; [reflexivity|]). constructor.
        - repeat (apply Forall_cons; [repeat (apply Forall_cons; [reflexivity|]); constructor|]). constructor.
        - constructor; cbn; try lia; try (unfold kf; cbn; lra). repeat constructor; lra.
        - constructor; cbn; try lia; try (unfold kf; cbn; lra). repeat constructor; lra. }
      assert (Se : surf_eps eps s) by (split; unfold eps_ok, kf; cbn; lra).
      assert (Hsh : forall l, shcoord s l 1 0 = spc s l 2 0).
      { intros l. rewrite shcoord_cols by exact So. change (ncol s) with 2%nat. cbn [rsum].
        assert (Q : forall b, (b < 2)%nat -> hcoord (ucol s b) l 1 = spc s l 2 b).
        { intros b Hb. pose proof (quad_piece (ucol s b) 1 0 1 l 0 1 (ucol_ok s b So Hb) eq_refl eq_refl) as H.
          cbn [INR] in H. replace (0 + 0 * 1 + 1 * 1) with 1 in H by ring. rewrite H.
          - rewrite !ucol_cpc by (cbn; lia). change (2 * 1)%nat with 2%nat. ring.
          - cbn [ucol cknots]. unfold aknots. cbn. repeat (apply f_equal2; [lra|]). reflexivity.
          - lra.
          - lia.
          - right. split; [reflexivity|reflexivity]. }
        rewrite !Q by lia. unfold Nv, v1. change (sdv s) with 1%nat. change (svk s) with [0; 0; 1; 1]. change (ncol s) with 2%nat.
        change (kf [0; 0; 1; 1] 2) with 1. destruct (bern1 0 ltac:(lra)) as (-> & ->). ring. }
      destruct (surf_point_at_spec eps maxv s 1 0 So Se) as (p & Ep & Lp & Hp).
      { unfold in_dom, u0, u1, v0, v1, kf. cbn. lra. }
      { unfold swfun. rewrite Hsh. unfold spc, rc. cbn. lra. }
      rewrite Ep. f_equal. apply (vec_ext _ _ 3); [exact Lp|reflexivity|]. intros l Hl. rewrite Hp by exact Hl. unfold snurbs, swfun. rewrite !Hsh.
      unfold spc, rc. destruct l as [|[|[|]]]; [| | |lia]; cbn; field.
  Qed.
End Real.
