(** * Surfaces of revolution: the surface turns the profile about the axis *)
From Coq Require Import Reals Lra Sorted ZArith String.
From Verif Require Import Base BaseFacts Scalar RSum BSplineSpec BSpline KnotModel KnotSpec KnotFacts KnotProofs VecFacts
  MiscModel MiscProofs CurveModel CurveSpec CurveProofs CurveGeom CurveGeom2 CurveShapes Refine SurfaceModel SurfaceSpec SurfaceProofs
  ArcModel ArcProofs ArcMain ArcCircle ArcTheorems RevolveModel RevolveProofs RevolveColumn.
Open Scope list_scope. Open Scope R_scope.

Section Real.
  Variables eps maxv : R.
  Local Hint Extern 0 (Scalar R) => exact (ROps eps maxv) : typeclass_instances.
  Local Hint Extern 0 (Trig R) => exact TrigR : typeclass_instances.

  Lemma spi_R : @spi R _ _ = PI.
  Proof. unfold spi, stwo. cbn [stau TrigR]. rs. lra. Qed.

  (** ** Number of arcs *)
  Lemma arcs_count (theta : R) : exists m k, revolve_arcs theta = Ok (m, k) /\ (1 <= m <= 4)%nat /\
    revolve_ends m k = Ok (aknots m 0 (1 / INR m)) /\
    (theta <= PI / 2 -> m = 1%nat) /\
    (0 <= theta <= 2 * PI -> theta / INR m <= PI / 2) /\
    (PI / 2 < theta -> PI / 4 < theta / INR m).
  Proof.
    pose proof PI_RGT_0 as Hp. unfold revolve_arcs, stwo. rewrite spi_R. rs.
    assert (F : forall m k, revolve_ends m k = Ok (aknots m 0 (1 / INR m)) -> True) by trivial.
    destruct (Rleb_spec theta (PI / 2)) as [H1|H1].
    { exists 1%nat. eexists. split; [reflexivity|]. split; [lia|]. split.
      - cbn. unfold aknots. cbn. f_equal. repeat (apply f_equal2; [lra|]). reflexivity.
      - cbn [INR]. split; [reflexivity|]. split; intros; lra. }
    destruct (Rleb_spec theta PI) as [H2|H2].
    { exists 2%nat. eexists. split; [reflexivity|]. split; [lia|]. split.
      - cbn. unfold aknots, slit. cbn. f_equal. repeat (apply f_equal2; [lra|]). reflexivity.
      - cbn [INR]. split; [lra|]. split; intros; lra. }
    destruct (Rleb_spec theta (3 * PI / 2)) as [H3|H3].
    { exists 3%nat. eexists. split; [reflexivity|]. split; [lia|]. split.
      - cbn. unfold aknots, slit. cbn. f_equal. repeat (apply f_equal2; [lra|]). reflexivity.
      - cbn [INR]. split; [lra|]. split; intros; lra. }
    exists 4%nat. eexists. split; [reflexivity|]. split; [lia|]. split.
    - cbn. unfold aknots, slit. cbn. f_equal. repeat (apply f_equal2; [lra|]). reflexivity.
    - cbn [INR]. split; [lra|]. split; intros; lra.
  Qed.

  Lemma trig_lists m dtheta : exists cs ss, revolve_trig m dtheta = Ok (cs, ss) /\ length cs = (m + 1)%nat /\ length ss = (m + 1)%nat /\
    (forall i, (i <= m)%nat -> nth i cs 0 = cos (INR i * dtheta)) /\ (forall i, (i <= m)%nat -> nth i ss 0 = sin (INR i * dtheta)).
  Proof.
    unfold revolve_trig.
    match goal with |- context [for_incl 0 m ?g ?st] =>
      destruct (for_incl_rule (fun k '(a, cs, ss) => a = INR k * dtheta /\ length cs = (m + 1)%nat /\ length ss = (m + 1)%nat /\
        (forall i, (i < k)%nat -> nth i cs 0 = cos (INR i * dtheta)) /\ (forall i, (i < k)%nat -> nth i ss 0 = sin (INR i * dtheta))) 0 m g st)
        as (((a & cs) & ss) & E & _ & L1 & L2 & H1 & H2) end.
    - lia.
    - rewrite !repeat_length. cbn [INR]. repeat split; try lia. rs. ring.
    - intros i ((a & cs) & ss) Hi (Ha & L1 & L2 & H1 & H2). rewrite set_ok by lia. cbn [bind]. rewrite set_ok by lia. cbn [bind].
      eexists. split; [reflexivity|]. cbv beta iota. rewrite !upd_length. split; [rewrite S_INR; rs; rewrite Ha; ring|]. split; [exact L1|]. split; [exact L2|].
      split; intros j Hj; (destruct (Nat.eq_dec j i) as [->|N]; [rewrite nth_upd_same by lia; now rewrite Ha|rewrite nth_upd_other by lia; (apply H1 || apply H2); lia]).
    - rewrite E. cbn [bind]. exists cs, ss. split; [reflexivity|]. split; [exact L1|]. split; [exact L2|]. split; intros i Hi; (apply H1 || apply H2); lia.
  Qed.

  (** ** One column *)
  (** foot of [P] on the axis, the vector from the axis, and its quarter turn *)
  Definition foot (C K P : list R) : list R :=
    let d := [rc 0 P - rc 0 C; rc 1 P - rc 1 C; rc 2 P - rc 2 C] in map (fun l => rc l C + rc l K * dot K d) (seq 0 3).
  Definition arm (C K P : list R) : list R := map (fun l => rc l P - rc l (foot C K P)) (seq 0 3).
  Definition turn (C K P : list R) : list R := map (cross_l K (arm C K P)) (seq 0 3).

  Lemma rotated_frame C K phi P l : (l < 3)%nat -> length K = 3%nat ->
    rc l (rotated C K phi P) = rc l (foot C K P) + rc l (arm C K P) * cos phi + rc l (turn C K P) * sin phi.
  Proof.
    intros Hl HK. destruct K as [|k0 [|k1 [|k2 [|]]]]; try discriminate HK.
    unfold rotated, turn, arm, foot, dot. cbn [length rsum]. unfold rc.
    destruct l as [|[|[|]]]; [| | |lia]; cbn [nth map seq cross_l]; unfold rc; cbn [nth map seq]; ring.
  Qed.

  Lemma revolve_column_spec C K P w dtheta m cs ss :
    length C = 3%nat -> length K = 3%nat -> length P = 3%nat -> dot K K = 1 -> (1 <= m)%nat ->
    length cs = (m + 1)%nat -> length ss = (m + 1)%nat ->
    (forall i, (i <= m)%nat -> nth i cs 0 = cos (INR i * dtheta)) -> (forall i, (i <= m)%nat -> nth i ss 0 = sin (INR i * dtheta)) ->
    0 < eps ->
    (axis_dist2 C K P = 0 \/ eps <= sin dtheta * sin dtheta /\ eps * eps < axis_dist2 C K P ->
      exists col, revolve_column C K (cos (dtheta / 2)) cs ss m P w = Ok col /\
        col_ok (foot C K P) (arm C K P) (turn C K P) w dtheta m col) /\
    (sin dtheta * sin dtheta < eps -> eps * eps < axis_dist2 C K P ->
      errs (revolve_column C K (cos (dtheta / 2)) cs ss m P w)).
  Proof.
    intros LC LK LP HK Hm Lc Ls Hc Hs He.
    set (o := foot C K P). set (X := arm C K P). set (Y := turn C K P).
    assert (LX : length X = 3%nat) by reflexivity. assert (LY : length Y = 3%nat) by reflexivity. assert (Lo : length o = 3%nat) by reflexivity.
    assert (EO : vadd C (vscale K (vdot (vsub P C) K)) = o).
    { destruct C as [|c0 [|c1 [|c2 [|]]]]; try discriminate LC. destruct K as [|k0 [|k1 [|k2 [|]]]]; try discriminate LK.
      destruct P as [|p0 [|p1 [|p2 [|]]]]; try discriminate LP. unfold o, foot, dot. cbn. do 3 (apply f_equal2; [ring|]). reflexivity. }
    assert (EX : vsub P o = X).
    { unfold X, arm. fold o. destruct P as [|p0 [|p1 [|p2 [|]]]]; try discriminate LP. reflexivity. }
    assert (EY : cross3 K X = Y) by reflexivity.
    assert (XX : dot X X = axis_dist2 C K P).
    { unfold X, arm, foot, axis_dist2, dot in *. destruct C as [|c0 [|c1 [|c2 [|]]]]; try discriminate LC. destruct K as [|k0 [|k1 [|k2 [|]]]]; try discriminate LK.
      destruct P as [|p0 [|p1 [|p2 [|]]]]; try discriminate LP. cbn [length rsum seq map] in *. unfold rc in *. cbn [nth] in *.
      set (d0 := p0 - c0). set (d1 := p1 - c1). set (d2 := p2 - c2). set (h := 0 + k0 * d0 + k1 * d1 + k2 * d2).
      replace (p0 - (c0 + k0 * h)) with (d0 - k0 * h) by (unfold d0; ring). replace (p1 - (c1 + k1 * h)) with (d1 - k1 * h) by (unfold d1; ring).
      replace (p2 - (c2 + k2 * h)) with (d2 - k2 * h) by (unfold d2; ring).
      transitivity (0 + d0 * d0 + d1 * d1 + d2 * d2 - 2 * h * h + h * h * (0 + k0 * k0 + k1 * k1 + k2 * k2)); [unfold h; ring|]. rewrite HK. ring. }
    assert (KX : dot K X = 0).
    { unfold X, arm, foot, dot in *. destruct C as [|c0 [|c1 [|c2 [|]]]]; try discriminate LC. destruct K as [|k0 [|k1 [|k2 [|]]]]; try discriminate LK.
      destruct P as [|p0 [|p1 [|p2 [|]]]]; try discriminate LP. cbn [length rsum seq map] in *. unfold rc in *. cbn [nth] in *.
      set (h := 0 + k0 * (p0 - c0) + k1 * (p1 - c1) + k2 * (p2 - c2)).
      transitivity (h - h * (0 + k0 * k0 + k1 * k1 + k2 * k2)); [unfold h; ring|]. rewrite HK. ring. }
    assert (YY : dot Y Y = dot X X /\ dot X Y = 0).
    { destruct X as [|x0 [|x1 [|x2 [|]]]] eqn:EqX; try discriminate LX. destruct K as [|k0 [|k1 [|k2 [|]]]]; try discriminate LK.
      rewrite <- EY. unfold cross3, dot in *. cbn in *. split; [|ring].
      transitivity ((0 + k0 * k0 + k1 * k1 + k2 * k2) * (0 + x0 * x0 + x1 * x1 + x2 * x2) - (0 + k0 * x0 + k1 * x1 + k2 * x2) * (0 + k0 * x0 + k1 * x1 + k2 * x2)); [ring|].
      rewrite HK, KX. ring. }
    destruct YY as (YY & XY).
    unfold revolve_column. rewrite EO, EX, EY. rewrite (vnorm_dot eps maxv). rewrite XX.
    set (r := sqrt (axis_dist2 C K P)).
    rewrite set_ok by (rewrite repeat_length; lia).
    assert (Split : forall (a b : list R), (let '(x, y) := (a, b) in
        col <- Ok (upd (repeat ([szero; szero; szero], sone) (2 * m + 1)) 0 (P, w));;
        st <- for_incl 1 m (revolve_step o x y r w (cos (dtheta / 2)) cs ss m) (MkRevState P y 0 col);; Ok (rv_col st)) =
        st <- for_incl 1 m (revolve_step o a b r w (cos (dtheta / 2)) cs ss m)
                (MkRevState P b 0 (upd (repeat ([0; 0; 0], 1) (2 * m + 1)) 0 (P, w)));; Ok (rv_col st)) by (intros; reflexivity).
    assert (PO : forall l, (l < 3)%nat -> rc l P = rc l o + rc l X).
    { intros l Hl. unfold X, arm. fold o. rewrite rc_map_seq by exact Hl. ring. }
    (* off the axis: the scaled frame is orthonormal *)
    assert (Off : eps * eps < axis_dist2 C K P -> eps < r /\ 
      let x := vscale X (1 / r) in let y := vscale Y (1 / r) in
      length x = 3%nat /\ length y = 3%nat /\ dot x x = 1 /\ dot y y = 1 /\ dot x y = 0 /\ vscale x r = X /\ vscale y r = Y /\
      P = ellipse_at o x y r r 0).
    { intros Hd. assert (Hrr : r * r = axis_dist2 C K P) by (apply sqrt_sqrt; nra).
      assert (Hr0 : 0 <= r) by apply sqrt_pos. assert (Hr : eps < r) by nra. split; [exact Hr|]. intros x y.
      assert (Lx : length x = 3%nat) by (now apply vscale_length). assert (Ly : length y = 3%nat) by (now apply vscale_length).
      assert (Dt : forall a b, length a = 3%nat -> length b = 3%nat -> dot (vscale a (1 / r)) (vscale b (1 / r)) = dot a b / (r * r)).
      { intros a b La Lb. unfold dot. rewrite (vscale_length _ _ 3 La), La. cbn [rsum]. rewrite !rc_vscale. field. lra. }
      assert (Vs : forall a, length a = 3%nat -> vscale (vscale a (1 / r)) r = a).
      { intros a La. apply (vec_ext _ _ 3); [repeat apply vscale_length; exact La|exact La|]. intros l Hl. rewrite !rc_vscale. field. lra. }
      split; [exact Lx|]. split; [exact Ly|]. unfold x, y. rewrite !Dt by assumption. rewrite YY, XX, XY, Hrr, !Vs by assumption.
      split; [field; nra|]. split; [field; nra|]. split; [unfold Rdiv; ring|]. split; [reflexivity|]. split; [reflexivity|].
      apply (vec_ext _ _ 3); [exact LP|now apply (ellipse_at_length eps maxv)|]. intros l Hl.
      rewrite (ellipse_at_rc eps maxv 3 o X Y) by (assumption || (intros; rewrite rc_vscale; field; lra)).
      rewrite cos_0, sin_0, PO by exact Hl. ring. }
    split.
    - intros [H0|(Hsin & Hd)].
      + assert (r = 0) as Er by (unfold r; rewrite H0; apply sqrt_0).
        replace (sltb seps r) with false by (symmetry; rs; apply Rltb_false; lra). rewrite Split.
        assert (X0 : forall l, (l < 3)%nat -> rc l X = 0).
        { rewrite H0 in XX. unfold dot in XX. rewrite LX in XX. cbn [rsum] in XX. intros l Hl.
          destruct l as [|[|[|]]]; [| | |lia]; nra. }
        assert (Y0 : forall l, (l < 3)%nat -> rc l Y = 0).
        { rewrite XX, H0 in YY. unfold dot in YY. rewrite LY in YY. cbn [rsum] in YY. intros l Hl.
          destruct l as [|[|[|]]]; [| | |lia]; nra. }
        destruct (flat_loop eps maxv o X Y r w dtheta m cs ss Lo LX LY Hm Lc Ls Hc Hs P) as (st & E & Hcol).
        { lra. } { exact LP. } { intros l Hl. rewrite PO, X0 by exact Hl. ring. }
        { intros l Hl. rewrite rc_vscale, X0 by exact Hl. ring. } { intros l Hl. rewrite rc_vscale, Y0 by exact Hl. ring. }
        rewrite E. cbn [bind]. eexists. split; [reflexivity|].
        assert (Vz : forall Z, length Z = 3%nat -> (forall l, (l < 3)%nat -> rc l Z = 0) -> vscale Z r = Z).
        { intros Z LZ HZ. apply (vec_ext _ _ 3); [now apply vscale_length|exact LZ|]. intros l Hl. rewrite rc_vscale, HZ by exact Hl. ring. }
        rewrite (Vz X), (Vz Y) in Hcol by assumption. exact Hcol.
      + destruct (Off Hd) as (Hr & Lx & Ly & x1 & y1 & xy & vx & vy & HP).
        replace (sltb seps r) with true by (symmetry; rs; now apply Rltb_true). change (sdiv sone r) with (1 / r). rewrite Split.
        destruct (round_loop eps maxv o (vscale X (1 / r)) (vscale Y (1 / r)) r w dtheta m cs ss Lo Lx Ly Hm Lc Ls Hc Hs x1 y1 xy P) as (st & E & Hcol).
        { lra. } { exact Hr. } { exact HP. }
        rewrite E. cbn [bind]. eexists. split; [reflexivity|]. rewrite vx, vy in Hcol. exact Hcol.
    - intros Hsin Hd. destruct (Off Hd) as (Hr & Lx & Ly & x1 & y1 & xy & vx & vy & HP).
      replace (sltb seps r) with true by (symmetry; rs; now apply Rltb_true). change (sdiv sone r) with (1 / r). rewrite Split.
      destruct (round_fails eps maxv o (vscale X (1 / r)) (vscale Y (1 / r)) r w dtheta m cs ss Lo Lx Ly Hm Lc Ls Hc Hs x1 y1 xy P Hsin Hr HP) as (e & E).
      rewrite E. cbn [bind]. eexists; reflexivity.
  Qed.
End Real.
