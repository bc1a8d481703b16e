(** * Arcs: construction of circles, arcs and full ellipses *)
From Coq Require Import Reals Lra Sorted ZArith String.
From Verif Require Import Base BaseFacts Scalar RSum BSplineSpec BSpline KnotModel KnotSpec KnotFacts KnotProofs VecFacts
  MiscModel MiscProofs CurveModel CurveSpec CurveProofs CurveGeom CurveGeom2 CurveShapes Refine ArcModel ArcProofs.
Open Scope list_scope. Open Scope R_scope.

Section Real.
  Variables eps maxv : R.
  Local Hint Extern 0 (Scalar R) => exact (ROps eps maxv) : typeclass_instances.
  Local Hint Extern 0 (Trig R) => exact TrigR : typeclass_instances.

  Lemma arc_count_bounds (theta : R) : (1 <= arc_count theta <= 4)%nat.
  Proof. unfold arc_count. lia. Qed.

  Lemma arc_knots_eq m : (1 <= m <= 4)%nat ->
    arc_knots (2 * m + 1) m = Ok (map (fun j : nat => INR (Nat.min ((j - 1) / 2) m) / INR m) (seq 0 (2 * m + 4))).
  Proof.
    intros Hm. destruct m as [|[|[|[|[|m]]]]]; try lia; cbn; unfold slit; cbn; f_equal;
      repeat (apply f_equal2; [lra|]); reflexivity.
  Qed.

  Lemma arc_knots_map m start theta : (1 <= m <= 4)%nat ->
    map (fun v => theta * v + start) (map (fun j => INR (Nat.min ((j - 1) / 2) m) / INR m) (seq 0 (2 * m + 4))) =
    aknots m start (theta / INR m).
  Proof.
    intros Hm. unfold aknots. rewrite map_map. apply map_ext. intros j. assert (0 < INR m) by (apply lt_0_INR; lia). field. lra.
  Qed.

  Section Loop.
    Variables (d : nat) (C A B x y : list R) (rx ry start dtheta : R) (m : nat).
    Hypothesis LC : length C = d.
    Hypothesis Lx : length x = d.
    Hypothesis Ly : length y = d.
    Hypothesis Hx : forall l, (l < d)%nat -> rc l x * rx = rc l A.
    Hypothesis Hy : forall l, (l < d)%nat -> rc l y * ry = rc l B.

    Lemma ellipse_at_length a : length (ellipse_at C x y rx ry a) = d.
    Proof. unfold ellipse_at. repeat (apply vadd_length || apply vscale_length); assumption. Qed.
    Lemma ellipse_at_rc a l : (l < d)%nat -> rc l (ellipse_at C x y rx ry a) = rc l C + rc l A * cos a + rc l B * sin a.
    Proof.
      intros Hl. unfold ellipse_at.
      assert (L1 : forall (v : list R) (k k' : R), length v = d -> length (vscale (vscale v k) k') = d)
        by (intros v k k' Hv; repeat apply vscale_length; exact Hv).
      rewrite rc_vadd by (rewrite (vadd_length _ _ d) by auto; now rewrite L1).
      rewrite rc_vadd by (now rewrite L1). rewrite !rc_vscale, Hx, Hy by exact Hl. reflexivity.
    Qed.
    Lemma ellipse_dir_length a : length (ellipse_dir x y a) = d.
    Proof. unfold ellipse_dir. apply vsub_length; apply vscale_length; assumption. Qed.
    Lemma ellipse_dir_rc a l : rc l (ellipse_dir x y a) = rc l y * cos a - rc l x * sin a.
    Proof.
      unfold ellipse_dir. rewrite rc_vsub by (rewrite !(vscale_length _ _ d) by assumption; reflexivity).
      now rewrite !rc_vscale.
    Qed.

    (** the rays of piece [i] *)
    Definition piece_rays (a : R) : option ((list R * R) * (list R * R)) :=
      ray_intersection (MkRay (ellipse_at C x y rx ry a) (vnormalize (ellipse_dir x y a)))
                       (MkRay (ellipse_at C x y rx ry (a + dtheta)) (vnormalize (ellipse_dir x y (a + dtheta)))).

    Definition good_step (a : R) : Prop := exists i0 i1, piece_rays a = Some (i0, i1) /\
      forall l, (l < d)%nat -> (rc l C + rc l A * cos a + rc l B * sin a + rc l (ellipse_dir x y a) * snd i0) * cos (dtheta / 2) =
        rc l C * cos (dtheta / 2) + rc l A * cos (a + dtheta / 2) + rc l B * sin (a + dtheta / 2).

    Lemma arc_loop :
      (1 <= m)%nat -> (forall i, (i < m)%nat -> good_step (start + INR i * dtheta)) ->
      exists st, for_range 1 (m + 1) (arc_step C x y rx ry dtheta (cos (dtheta / 2)) m)
          (MkArcState (ellipse_at C x y rx ry start) (ellipse_dir x y start) start 0
            (repeat (ellipse_at C x y rx ry start) (2 * m + 1)) (repeat 1 (2 * m + 1))) = Ok st /\
        arc_points d C A B start dtheta m (as_pts st) (as_ws st).
    Proof.
      intros Hm Hg.
      pose (P := fun (k : nat) (pts : list (list R)) (ws : list R) => length pts = (2 * m + 1)%nat /\ length ws = (2 * m + 1)%nat /\
        (forall i, (i <= k)%nat -> nth (2 * i) ws 0 = 1 /\ nth (2 * i) pts [] = ellipse_at C x y rx ry (start + INR i * dtheta)) /\
        (forall i, (i < k)%nat -> nth (2 * i + 1) ws 0 = cos (dtheta / 2) /\ length (nth (2 * i + 1) pts []) = d /\
          forall l, (l < d)%nat -> rc l (nth (2 * i + 1) pts []) * cos (dtheta / 2) =
            rc l C * cos (dtheta / 2) + rc l A * cos (start + INR i * dtheta + dtheta / 2) +
            rc l B * sin (start + INR i * dtheta + dtheta / 2))).
      destruct (for_range_rule (fun i st =>
        as_angle st = start + INR (i - 1) * dtheta /\ as_index st = (2 * (i - 1))%nat /\
        ((i - 1 < m)%nat -> as_p0 st = ellipse_at C x y rx ry (start + INR (i - 1) * dtheta) /\
                            as_t0 st = ellipse_dir x y (start + INR (i - 1) * dtheta)) /\
        P (i - 1)%nat (as_pts st) (as_ws st)) 1 (m + 1) (arc_step C x y rx ry dtheta (cos (dtheta / 2)) m)
        (MkArcState (ellipse_at C x y rx ry start) (ellipse_dir x y start) start 0
            (repeat (ellipse_at C x y rx ry start) (2 * m + 1)) (repeat 1 (2 * m + 1)))) as (st & E & H1 & H2 & H3 & HP).
      - lia.
      - cbn [as_angle as_index as_p0 as_t0 as_pts as_ws]. rewrite Nat.sub_diag. cbn [INR].
        replace (start + 0 * dtheta) with start by ring. split; [reflexivity|]. split; [reflexivity|]. split; [auto|].
        unfold P. rewrite !repeat_length. split; [reflexivity|]. split; [reflexivity|]. split; [|intros; lia].
        intros i Hi. assert (i = 0)%nat as -> by lia. cbn [INR Nat.mul]. replace (start + 0 * dtheta) with start by ring.
        split; apply nth_repeat_lt; lia.
      - intros i st Hi (Ha & Hix & Hp & HP). set (k := (i - 1)%nat) in *. destruct (Hp ltac:(lia)) as (Hp0 & Ht0).
        destruct HP as (Lp & Lw & Pe & Pm). destruct (Hg k ltac:(lia)) as (i0 & i1 & Er & Hmid).
        assert (Ea : start + INR k * dtheta + dtheta = start + INR (S k) * dtheta) by (rewrite S_INR; ring).
        unfold arc_step. rewrite Ha, Hp0, Ht0, Hix. unfold piece_rays in Er.
        change (sadd (start + INR k * dtheta) dtheta) with (start + INR k * dtheta + dtheta). rewrite Er. cbn [ok_or bind].
        rewrite set_ok by lia. cbn [bind]. rewrite set_ok by lia. cbn [bind].
        rewrite set_ok by (rewrite upd_length; lia). cbn [bind]. rewrite set_ok by (rewrite upd_length; lia). cbn [bind].
        rewrite Ea. set (a := start + INR k * dtheta) in *.
        set (p2 := ellipse_at C x y rx ry (start + INR (S k) * dtheta)). set (p1 := vadd (ellipse_at C x y rx ry a) (vscale (ellipse_dir x y a) (snd i0))).
        set (pts' := upd (upd (as_pts st) (2 * k + 2) p2) (2 * k + 1) p1).
        set (ws' := upd (upd (as_ws st) (2 * k + 2) sone) (2 * k + 1) (cos (dtheta / 2))).
        assert (PP : P (S k) pts' ws').
        { unfold P, pts', ws'. rewrite !upd_length. split; [exact Lp|]. split; [exact Lw|]. split.
          - intros j Hj. destruct (Nat.eq_dec j (S k)) as [->|Cj].
            + replace (2 * S k)%nat with (2 * k + 2)%nat by lia.
              split; (rewrite nth_upd_other by lia; rewrite nth_upd_same by lia; reflexivity).
            + destruct (Pe j ltac:(lia)) as (W & Q). split; (rewrite nth_upd_other by lia; rewrite nth_upd_other by lia); assumption.
          - intros j Hj. destruct (Nat.eq_dec j k) as [->|Cj].
            + rewrite nth_upd_same by (rewrite upd_length; lia). split; [reflexivity|].
              rewrite nth_upd_same by (rewrite upd_length; lia).
              assert (Lv : length (vscale (ellipse_dir x y a) (snd i0)) = d) by (apply vscale_length, ellipse_dir_length).
              split; [unfold p1; apply vadd_length; [apply ellipse_at_length|exact Lv]|].
              intros l Hl. fold a. rewrite <- Hmid by exact Hl. unfold p1. rewrite rc_vadd by (now rewrite ellipse_at_length, Lv).
              rewrite rc_vscale, ellipse_at_rc by exact Hl. reflexivity.
            + rewrite nth_upd_other by lia. rewrite nth_upd_other by lia. rewrite nth_upd_other by lia. rewrite nth_upd_other by lia.
              apply Pm. lia. }
        destruct (Nat.ltb_spec i m) as [Cm|Cm]; eexists; (split; [reflexivity|]); cbn [as_angle as_index as_p0 as_t0 as_pts as_ws];
          replace (S i - 1)%nat with (S k) by lia; (split; [reflexivity|]); (split; [lia|]); (split; [|exact PP]).
        + intros _. split; reflexivity.
        + intros Hk. lia.
      - exists st. split; [exact E|]. replace (m + 1 - 1)%nat with m in HP by lia. destruct HP as (Lp & Lw & Pe & Pm).
        constructor; auto. intros i Hi. destruct (Pe i Hi) as (W & Q). split; [exact W|]. rewrite Q. split; [apply ellipse_at_length|].
        intros l Hl. now apply ellipse_at_rc.
    Qed.
  End Loop.

  (** ** Squared norms and dot products *)
  Definition dot (a b : list R) : R := rsum (length a) (fun l => rc l a * rc l b).

  Lemma vdot_dot a b : length a = length b -> vdot a b = dot a b.
  Proof. intros H. unfold dot. now apply vdot_rsum. Qed.
  Lemma vnorm_dot a : vnorm a = sqrt (dot a a).
  Proof. unfold vnorm, vnorm2. now rewrite vdot_dot. Qed.

  Lemma unit_of_rc (a : list R) l : 0 < dot a a -> rc l (vnormalize a) * vnorm a = rc l a.
  Proof.
    intros Ha. unfold vnormalize. rewrite rc_vdivs, vnorm_dot. field. pose proof (sqrt_lt_R0 _ Ha). lra.
  Qed.

  (** what the builder returns once every piece is good *)
  Lemma ellipse_arc_built D C A B start fin :
    (1 <= D)%nat -> length C = (D - 1)%nat -> length A = (D - 1)%nat -> length B = (D - 1)%nat ->
    0 < dot A A -> 0 < dot B B -> start < fin ->
    let m := arc_count (fin - start) in let dtheta := (fin - start) / INR m in
    (forall i, (i < m)%nat -> good_step (D - 1) C A B (vnormalize A) (vnormalize B) (vnorm A) (vnorm B) dtheta (start + INR i * dtheta)) ->
    exists pts ws, arc_points (D - 1) C A B start dtheta m pts ws /\
      try_ellipse_arc D C A B start fin = Ok (MkCurve D 2 (map2 (fun p w => vscale p w ++ [w]) pts ws) (aknots m start dtheta)).
  Proof.
    intros HD LC LA LB HA HB Hse m dtheta Hg.
    pose proof (arc_count_bounds (fin - start)) as Hm. fold m in Hm.
    assert (Lu : forall v : list R, length v = (D - 1)%nat -> length (vnormalize v) = (D - 1)%nat) by (intros v Hv; now apply vdivs_length).
    destruct (arc_loop (D - 1) C A B (vnormalize A) (vnormalize B) (vnorm A) (vnorm B) start dtheta m LC (Lu A LA) (Lu B LB)
                (fun l _ => unit_of_rc A l HA) (fun l _ => unit_of_rc B l HB) ltac:(lia) Hg) as (st & E & HP).
    exists (as_pts st), (as_ws st). split; [exact HP|].
    unfold try_ellipse_arc. rs. destruct (Rltb_spec start fin); [|lra]. cbn [ensure bind]. fold m.
    rewrite (sofnat_INR eps maxv). fold dtheta. unfold stwo. rs.
    match goal with |- (x <- ?e ;; _) = _ => replace e with (for_range 1 (m + 1)
       (arc_step C (vnormalize A) (vnormalize B) (vnorm A) (vnorm B) dtheta (cos (dtheta / 2)) m)
       (MkArcState (ellipse_at C (vnormalize A) (vnormalize B) (vnorm A) (vnorm B) start)
          (ellipse_dir (vnormalize A) (vnormalize B) start) start 0
          (repeat (ellipse_at C (vnormalize A) (vnormalize B) (vnorm A) (vnorm B) start) (2 * m + 1)) (repeat 1 (2 * m + 1)))) by reflexivity end.
    rewrite E. cbn [bind]. rewrite arc_knots_eq by exact Hm. cbn [bind]. rewrite arc_knots_map by exact Hm. reflexivity.
  Qed.
End Real.
