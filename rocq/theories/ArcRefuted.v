(** * Arcs that are refused or leave their ellipse *)
From Coq Require Import Reals Lra Sorted ZArith String.
From Verif Require Import Base BaseFacts Scalar RSum BSplineSpec BSpline KnotModel KnotSpec KnotFacts KnotProofs VecFacts
  MiscModel MiscProofs CurveModel CurveSpec CurveProofs CurveGeom CurveGeom2 CurveShapes Refine ArcModel ArcProofs ArcMain ArcCircle ArcTheorems.
Open Scope list_scope. Open Scope R_scope.

Section Real.
  Variables eps maxv : R.
  Local Hint Extern 0 (Scalar R) => exact (ROps eps maxv) : typeclass_instances.
  Local Hint Extern 0 (Trig R) => exact TrigR : typeclass_instances.

  Lemma unit_axes : axes_ok 3 [0; 0] [1; 0] [0; 1] /\ dot [1; 0] [0; 1] = 0.
  Proof.
    unfold axes_ok, dot. cbn. unfold rc, coord. cbn. repeat split; try lia; lra.
  Qed.

  (** a shade less than half a turn: the piece's end tangents are nearly parallel *)
  Theorem arc_near_half_turn_refuted : 0 < eps <= 1 ->
    exists fin, 0 < fin < PI /\ errs (try_arc 3 [0; 0] [1; 0] [0; 1] 1 0 fin).
  Proof.
    intros He. set (s := sqrt eps / 2).
    assert (Hs0 : 0 < sqrt eps) by (apply sqrt_lt_R0; lra).
    assert (Hs1 : sqrt eps <= 1) by (rewrite <- sqrt_1; apply sqrt_le_1; lra).
    assert (Hss : sqrt eps * sqrt eps = eps) by (apply sqrt_sqrt; lra).
    pose proof PI2_1 as Hp. exists (PI - s). assert (Hr : 0 < PI - s < PI) by (unfold s; lra). split; [exact Hr|].
    destruct unit_axes as (U & UO).
    apply (proj2 (arc_gen eps maxv 3 [0; 0] [1; 0] [0; 1] 1 0 (PI - s) U UO ltac:(lra) ltac:(lra) ltac:(lra))).
    rewrite Rminus_0_r.
    assert (E : arc_count (PI - s) = 1%nat).
    { destruct (Rlt_dec (PI - s) (PI / 2)) as [L|L].
      - rewrite (arc_count_val eps maxv _ 0); [reflexivity|cbn; lra].
      - rewrite (arc_count_val eps maxv _ 1); [reflexivity|cbn; lra]. }
    rewrite E. cbn [INR]. replace ((PI - s) / 1) with (PI - s) by field.
    replace (sin (PI - s)) with (sin s) by (rewrite sin_minus, sin_PI, cos_PI; ring).
    assert (P : 0 < sin s) by (apply sin_gt_0; unfold s; lra). assert (Q : sin s < s) by (apply sin_lt_x; unfold s; lra).
    unfold s in *. nra.
  Qed.

  (** two full turns *)
  Theorem arc_two_turns_refuted : 0 < eps ->
    errs (try_arc 3 [0; 0] [1; 0] [0; 1] 1 0 (4 * PI)).
  Proof.
    intros He. destruct unit_axes as (U & UO). pose proof PI_RGT_0.
    apply (proj2 (arc_gen eps maxv 3 [0; 0] [1; 0] [0; 1] 1 0 (4 * PI) U UO ltac:(lra) ltac:(lra) He)).
    rewrite Rminus_0_r. rewrite (arc_count_val eps maxv _ 8) by (cbn; lra). cbn [Nat.min Nat.max INR].
    replace (4 * PI / (1 + 1 + 1 + 1)) with PI by field. rewrite sin_PI. lra.
  Qed.

  (** an elliptic arc with perpendicular half-axes 2 and 1 *)
  Theorem ellipse_arc_refuted : 0 < eps <= 1 / 2 ->
    exists c u p, try_ellipse_arc 3 [0; 0] [2; 0] [0; 1] 0 (PI / 3) = Ok c /\ dom0 c <= u <= dom1 c /\
      point_at c u = Ok p /\ forall phi, p <> on_ellipse [0; 0] [2; 0] [0; 1] phi.
  Proof.
    intros He. pose proof PI_RGT_0 as Hp. pose proof PI2_1 as Hp1.
    assert (N2 : vnorm [2; 0] = 2).
    { rewrite vnorm_dot. unfold dot. cbn. unfold rc, coord. cbn. replace (0 + 2 * 2 + 0 * 0) with (2 * 2) by ring. apply sqrt_square. lra. }
    assert (N1 : vnorm [0; 1] = 1).
    { rewrite vnorm_dot. unfold dot. cbn. unfold rc, coord. cbn. replace (0 + 0 * 0 + 1 * 1) with 1 by ring. apply sqrt_1. }
    assert (U2 : vnormalize [2; 0] = [1; 0]).
    { unfold vnormalize. rewrite N2. cbn. f_equal; [field|]. f_equal. unfold Rdiv. ring. }
    assert (U1 : vnormalize [0; 1] = [0; 1]).
    { unfold vnormalize. rewrite N1. cbn. f_equal; [unfold Rdiv; ring|]. f_equal. field. }
    assert (S3 : sqrt 3 * sqrt 3 = 3) by (apply sqrt_sqrt; lra). assert (P3 : 0 < sqrt 3) by (apply sqrt_lt_R0; lra).
    assert (D1 : dot [1; 0] [1; 0] = 1) by (unfold dot; cbn; unfold rc, coord; cbn; ring).
    assert (D2 : dot [0; 1] [0; 1] = 1) by (unfold dot; cbn; unfold rc, coord; cbn; ring).
    assert (D3 : dot [1; 0] [0; 1] = 0) by (unfold dot; cbn; unfold rc, coord; cbn; ring).
    pose proof (piece_rays_eq eps maxv 2 [0; 0] [1; 0] [0; 1] 2 1 eq_refl eq_refl eq_refl D1 D2 0 (PI / 3)
      ltac:(rewrite D3; ring) ltac:(rewrite D3; ring)) as HR. cbv zeta in HR.
    rewrite D3, Rplus_0_l, cos_0, sin_0, cos_PI3, sin_PI3 in HR.
    destruct (Rlt_dec _ eps) as [L|_]; [exfalso|].
    { match type of L with Rabs ?e < _ => replace e with (3 / 4) in L by field end. rewrite Rabs_right in L; lra. }
    destruct HR as (q0 & q1 & HR).
    match type of HR with _ = Some ((_, ?t), (_, ?w)) => replace t with (sqrt 3 / 6) in HR by field; set (w0 := w) in HR end.
    set (c := MkCurve 3 2 (map2 (fun p w => vscale p w ++ [w]) [[2; 0]; [2; sqrt 3 / 6]; [1; sqrt 3 / 2]] [1; cos (PI / 3 / 2); 1]) (aknots 1 0 (PI / 3))).
    assert (E : try_ellipse_arc 3 [0; 0] [2; 0] [0; 1] 0 (PI / 3) = Ok c).
    { unfold try_ellipse_arc. rewrite N2, N1, U2, U1. rs. destruct (Rltb_spec 0 (PI / 3)); [|lra]. cbn [ensure bind].
      assert (Ec : arc_count (PI / 3 - 0) = 1%nat) by (rewrite (arc_count_val eps maxv _ 0); [reflexivity|cbn; lra]).
      rewrite Ec. rewrite (sofnat_INR eps maxv). replace ((PI / 3 - 0) / INR 1) with (PI / 3) by (cbn; field).
      unfold for_range. cbn [Nat.add Nat.sub for_]. unfold arc_step. cbn [as_p0 as_t0 as_angle as_index as_pts as_ws].
      unfold piece_rays in HR. change (sadd 0 (PI / 3)) with (0 + PI / 3). rewrite HR. cbn [ok_or bind snd].
      assert (AA : forall a, ellipse_at [0; 0] [1; 0] [0; 1] 2 1 a = [2 * cos a; sin a]).
      { intros a. unfold ellipse_at. cbn. f_equal; [ring|]. f_equal. ring. }
      assert (A0 : ellipse_at [0; 0] [1; 0] [0; 1] 2 1 0 = [2; 0]) by (rewrite AA, cos_0, sin_0, Rmult_1_r; reflexivity).
      assert (A1 : ellipse_at [0; 0] [1; 0] [0; 1] 2 1 (0 + PI / 3) = [1; sqrt 3 / 2]).
      { rewrite AA, Rplus_0_l, cos_PI3, sin_PI3. f_equal. field. }
      assert (A2 : vadd [2; 0] (vscale (ellipse_dir [1; 0] [0; 1] 0) (sqrt 3 / 6)) = [2; sqrt 3 / 6]).
      { unfold ellipse_dir. cbn. rewrite cos_0, sin_0. f_equal; [ring|]. f_equal. ring. }
      rewrite A0, A1, A2. cbn [repeat Nat.mul Nat.add set_ upd length Nat.ltb Nat.leb bind as_pts as_ws].
      change (2 * 1 + 1)%nat with 3%nat. cbn [repeat].
      unfold set_. cbn [length Nat.ltb Nat.leb upd bind as_pts as_ws].
      pose proof (arc_knots_eq eps maxv 1 ltac:(lia)) as K. change (2 * 1 + 1)%nat with 3%nat in K. rewrite K. cbn [bind].
      rewrite Rminus_0_r.
      rewrite (arc_knots_map 1 0 (PI / 3) ltac:(lia)). unfold c. replace (PI / 3 / INR 1) with (PI / 3) by (cbn; field). reflexivity. }
    assert (CD : cos (PI / 3 / 2) = sqrt 3 / 2) by (replace (PI / 3 / 2) with (PI / 6) by field; apply cos_PI6).
    assert (SD : sin (PI / 3 / 2) = 1 / 2) by (replace (PI / 3 / 2) with (PI / 6) by field; apply sin_PI6).
    assert (HP : arc_points (3 - 1) [0; sqrt 3 / 2] [2; - (sqrt 3 / 2)] [0; 1 / 2] 0 (PI / 3) 1
                   [[2; 0]; [2; sqrt 3 / 6]; [1; sqrt 3 / 2]] [1; cos (PI / 3 / 2); 1]).
    { constructor; [reflexivity|reflexivity| |].
      - intros i Hi. destruct i as [|[|i]]; [| |lia].
        + cbn [Nat.mul nth]. split; [reflexivity|]. split; [reflexivity|]. intros l Hl. cbn [INR]. rewrite Rmult_0_l, Rplus_0_r, cos_0, sin_0.
          destruct l as [|[|l]]; [| |lia]; unfold rc, coord; cbn; lra.
        + cbn [Nat.mul Nat.add nth]. split; [reflexivity|]. split; [reflexivity|]. intros l Hl. cbn [INR]. rewrite Rmult_1_l, Rplus_0_l, cos_PI3, sin_PI3.
          destruct l as [|[|l]]; [| |lia]; unfold rc, coord; cbn; lra.
      - intros i Hi. destruct i as [|i]; [|lia]. cbn [Nat.mul Nat.add nth]. split; [reflexivity|]. split; [reflexivity|].
        intros l Hl. cbn [INR]. rewrite Rmult_0_l, !Rplus_0_l, CD, SD.
        destruct l as [|[|l]]; [| |lia]; unfold rc, coord; cbn; [field|].
        replace (sqrt 3 / 6 * (sqrt 3 / 2)) with (sqrt 3 * sqrt 3 / 12) by field.
        replace (sqrt 3 / 2 * (sqrt 3 / 2) + - (sqrt 3 / 2) * (sqrt 3 / 2) + 1 / 2 * (1 / 2)) with (1 / 4) by field. rewrite S3. lra. }
    exists c, (0 + INR 0 * (PI / 3) + 1 / 2 * (PI / 3)), (on_ellipse [0; sqrt 3 / 2] [2; - (sqrt 3 / 2)] [0; 1 / 2] (0 + INR 0 * (PI / 3) + PI / 3 / 2 + 0)).
    split; [exact E|]. split; [|split].
    - destruct (arc_dom eps maxv 3 [0; sqrt 3 / 2] [2; - (sqrt 3 / 2)] [0; 1 / 2] 0 (PI / 3) 1 _ _ ltac:(lia) eq_refl ltac:(lia) HP) as (X & Y).
      fold c in X, Y. rewrite X, Y. cbn [INR]. lra.
    - apply (arc_point_psi eps maxv 3 [0; sqrt 3 / 2] [2; - (sqrt 3 / 2)] [0; 1 / 2] 0 (PI / 3) 1 _ _ ltac:(lia) eq_refl ltac:(lia) ltac:(lra)
        ltac:(lra) ltac:(rewrite CD; lra) HP 0 (1 / 2) 0 ltac:(lia) ltac:(left; lra)).
      + rewrite cos_0. field.
      + rewrite sin_0. field.
    - intros phi H. cbn [INR] in H. replace (0 + 0 * (PI / 3) + PI / 3 / 2 + 0) with (PI / 3 / 2) in H by ring.
      assert (X := f_equal (rc 0) H). assert (Y := f_equal (rc 1) H). rewrite !rc_on_ellipse in X, Y by (cbn; lia).
      unfold rc, coord in X, Y. cbn in X, Y. rewrite CD, SD in X, Y.
      pose proof (sin2_cos2 phi) as S. unfold Rsqr in S.
      assert (Cp : cos phi = sqrt 3 / 2) by lra.
      assert (Sp : sin phi = sqrt 3 / 2 - 1 / 2).
      { assert (sqrt 3 / 2 * (sqrt 3 / 2) = 3 / 4) by (replace (sqrt 3 / 2 * (sqrt 3 / 2)) with (sqrt 3 * sqrt 3 / 4) by field; rewrite S3; reflexivity). lra. }
      rewrite Cp, Sp in S.
      assert (Z : 7 / 4 - sqrt 3 / 2 = 1) by (rewrite <- S; replace (7 / 4) with (1 / 4 + sqrt 3 * sqrt 3 / 2) by (rewrite S3; field); field).
      assert (Z2 : sqrt 3 = 3 / 2) by lra. rewrite Z2 in S3. lra.
  Qed.
End Real.
