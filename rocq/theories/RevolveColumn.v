(** * Surfaces of revolution: the column of the net above one control point *)
From Coq Require Import Reals Lra Sorted ZArith String.
From Verif Require Import Base BaseFacts Scalar RSum BSplineSpec BSpline KnotModel KnotSpec KnotFacts KnotProofs VecFacts
  MiscModel MiscProofs CurveModel CurveSpec CurveProofs CurveGeom CurveGeom2 CurveShapes Refine SurfaceModel SurfaceSpec SurfaceProofs
  ArcModel ArcProofs ArcMain ArcCircle ArcTheorems RevolveModel RevolveProofs.
Open Scope list_scope. Open Scope R_scope.

Section Real.
  Variables eps maxv : R.
  Local Hint Extern 0 (Scalar R) => exact (ROps eps maxv) : typeclass_instances.
  Local Hint Extern 0 (Trig R) => exact TrigR : typeclass_instances.

  Lemma ray_first (a b : @Ray R) (i0 i1 : list R * R) : ray_intersection a b = Some (i0, i1) -> fst i0 = ray_point_at a (snd i0).
  Proof. unfold ray_intersection. intros H. destruct (sltb _ _); [discriminate|]. injection H as <- _. reflexivity. Qed.

  (** what a column has to look like: even entries on the circle, odd entries at the tangents' meeting points *)
  Record col_ok (o A B : list R) (w dtheta : R) (m : nat) (col : list (list R * R)) : Prop := {
    cl_len : length col = (2 * m + 1)%nat;
    cl_end : forall i, (i <= m)%nat -> exists q, nth (2 * i) col ([], 0) = (q, w) /\ length q = 3%nat /\
      forall l, (l < 3)%nat -> rc l q = rc l o + rc l A * cos (INR i * dtheta) + rc l B * sin (INR i * dtheta);
    cl_mid : forall i, (i < m)%nat -> exists q, nth (2 * i + 1) col ([], 0) = (q, cos (dtheta / 2) * w) /\ length q = 3%nat /\
      forall l, (l < 3)%nat -> rc l q * cos (dtheta / 2) =
        rc l o * cos (dtheta / 2) + rc l A * cos (INR i * dtheta + dtheta / 2) + rc l B * sin (INR i * dtheta + dtheta / 2) }.

  Section Loop.
    Variables (o x y : list R) (r w dtheta : R) (m : nat) (cosines sines : list R).
    Hypothesis Lo : length o = 3%nat.
    Hypothesis Lx : length x = 3%nat.
    Hypothesis Ly : length y = 3%nat.
    Hypothesis Hm : (1 <= m)%nat.
    Hypothesis Lc : length cosines = (m + 1)%nat.
    Hypothesis Ls : length sines = (m + 1)%nat.
    Hypothesis Hcos : forall i, (i <= m)%nat -> nth i cosines 0 = cos (INR i * dtheta).
    Hypothesis Hsin : forall i, (i <= m)%nat -> nth i sines 0 = sin (INR i * dtheta).

    Let wm := cos (dtheta / 2).
    Let A := vscale x r.
    Let B := vscale y r.

    Let start (p : list R) := MkRevState p y 0 (upd (repeat ([0; 0; 0], 1) (2 * m + 1)) 0 (p, w)).

    (** what the first [k] arcs leave behind *)
    Let done (k : nat) (col : list (list R * R)) : Prop := length col = (2 * m + 1)%nat /\
      (forall i, (i <= k)%nat -> exists q, nth (2 * i) col ([], 0) = (q, w) /\ length q = 3%nat /\
        forall l, (l < 3)%nat -> rc l q = rc l o + rc l A * cos (INR i * dtheta) + rc l B * sin (INR i * dtheta)) /\
      (forall i, (i < k)%nat -> exists q, nth (2 * i + 1) col ([], 0) = (q, wm * w) /\ length q = 3%nat /\
        forall l, (l < 3)%nat -> rc l q * wm =
          rc l o * wm + rc l A * cos (INR i * dtheta + dtheta / 2) + rc l B * sin (INR i * dtheta + dtheta / 2)).

    Lemma done_next k col p1 p2 : (k < m)%nat -> done k col -> length p1 = 3%nat -> length p2 = 3%nat ->
      (forall l, (l < 3)%nat -> rc l p2 = rc l o + rc l A * cos (INR (S k) * dtheta) + rc l B * sin (INR (S k) * dtheta)) ->
      (forall l, (l < 3)%nat -> rc l p1 * wm =
          rc l o * wm + rc l A * cos (INR k * dtheta + dtheta / 2) + rc l B * sin (INR k * dtheta + dtheta / 2)) ->
      done (S k) (upd (upd col (2 * k + 2) (p2, w)) (2 * k + 1) (p1, wm * w)).
    Proof.
      intros Hk (Hl & He & Hmid) L1 L2 H2 H1. unfold done. rewrite !upd_length. split; [exact Hl|]. split.
      - intros i Hi. destruct (Nat.eq_dec i (S k)) as [->|N].
        + exists p2. split; [|split; assumption]. rewrite nth_upd_other by lia. replace (2 * S k)%nat with (2 * k + 2)%nat by lia.
          now rewrite nth_upd_same by lia.
        + rewrite !nth_upd_other by lia. apply He. lia.
      - intros i Hi. destruct (Nat.eq_dec i k) as [->|N].
        + exists p1. split; [|split; assumption]. now rewrite nth_upd_same by (rewrite upd_length; lia).
        + rewrite !nth_upd_other by lia. apply Hmid. lia.
    Qed.

    Lemma done_start p : length p = 3%nat -> (forall l, (l < 3)%nat -> rc l p = rc l o + rc l A) -> done 0 (rv_col (start p)).
    Proof.
      intros Lp Hp. unfold done, start. cbn [rv_col]. rewrite upd_length, repeat_length. split; [reflexivity|]. split; [|intros; lia].
      intros i Hi. assert (i = 0%nat) as -> by lia. exists p. change (2 * 0)%nat with 0%nat.
      rewrite nth_upd_same by (rewrite repeat_length; lia). split; [reflexivity|]. split; [exact Lp|].
      intros l Hl. rewrite Hp by exact Hl. cbn [INR]. rewrite Rmult_0_l, cos_0, sin_0. ring.
    Qed.

    Lemma done_col k col : k = m -> done k col -> col_ok o A B w dtheta m col.
    Proof. intros -> (a & b & c). constructor; assumption. Qed.

    Lemma trig_at i : (i <= m)%nat -> get cosines i = Ok (cos (INR i * dtheta)) /\ get sines i = Ok (sin (INR i * dtheta)).
    Proof. intros Hi. rewrite <- Hcos, <- Hsin by exact Hi. split; apply get_ok; lia. Qed.

    (** the control point lies on the axis *)
    Lemma flat_loop p : r <= eps -> length p = 3%nat ->
      (forall l, (l < 3)%nat -> rc l p = rc l o) -> (forall l, (l < 3)%nat -> rc l A = 0) -> (forall l, (l < 3)%nat -> rc l B = 0) ->
      exists st, for_incl 1 m (revolve_step o x y r w wm cosines sines m) (start p) = Ok st /\ col_ok o A B w dtheta m (rv_col st).
    Proof.
      intros Hr Lp Hp HA HB.
      destruct (for_incl_rule (fun k st => done (k - 1) (rv_col st) /\ rv_index st = (2 * (k - 1))%nat) 1 m
        (revolve_step o x y r w wm cosines sines m) (start p)) as (st & E & D & _).
      - lia.
      - split; [|reflexivity]. apply done_start; [exact Lp|]. intros l Hl. rewrite Hp, HA by exact Hl. ring.
      - intros i st Hi (D & Hix). destruct (trig_at i ltac:(lia)) as (E1 & E2). unfold revolve_step. rewrite E1, E2. cbn [bind].
        replace (sleb r seps) with true by (symmetry; rs; now apply Rleb_true).
        rewrite Hix. assert (exists k, i = S k) as (k & ->) by (exists (i - 1)%nat; lia).
        replace (S k - 1)%nat with k in * by lia. destruct D as (Dl & De & Dm).
        rewrite set_ok by lia. cbn [bind]. rewrite set_ok by (rewrite upd_length; lia). cbn [bind].
        assert (G : done (S k) (upd (upd (rv_col st) (2 * k + 2) (o, w)) (2 * k + 1) (o, wm * w))).
        { apply done_next; [lia|repeat split; assumption|exact Lo|exact Lo| |].
          - intros l Hl. rewrite HA, HB by exact Hl. ring.
          - intros l Hl. rewrite HA, HB by exact Hl. ring. }
        destruct (S k <? m)%nat; eexists; (split; [reflexivity|]); cbn [rv_col rv_index]; (split; [|lia]);
          replace (S (S k) - 1)%nat with (S k) by lia; exact G.
      - exists st. split; [exact E|]. apply (done_col (S m - 1)); [lia|exact D].
    Qed.

    Hypothesis HX : dot x x = 1.
    Hypothesis HY : dot y y = 1.
    Hypothesis HXY : dot x y = 0.

    Lemma p2_eq a : vadd (vadd o (vscale (vscale x (cos a)) r)) (vscale (vscale y (sin a)) r) = ellipse_at o x y r r a.
    Proof.
      destruct o as [|o0 [|o1 [|o2 [|]]]]; try discriminate Lo. destruct x as [|x0 [|x1 [|x2 [|]]]]; try discriminate Lx.
      destruct y as [|y0 [|y1 [|y2 [|]]]]; try discriminate Ly. unfold ellipse_at. cbn. do 3 (apply f_equal2; [ring|]). reflexivity.
    Qed.

    Lemma dir_0 : y = ellipse_dir x y 0.
    Proof.
      destruct x as [|x0 [|x1 [|x2 [|]]]]; try discriminate Lx. destruct y as [|y0 [|y1 [|y2 [|]]]]; try discriminate Ly.
      unfold ellipse_dir. cbn. rewrite cos_0, sin_0. do 3 (apply f_equal2; [ring|]). reflexivity.
    Qed.

    Let inv (k : nat) (st : @RevState R) : Prop :=
      done (k - 1) (rv_col st) /\ rv_index st = (2 * (k - 1))%nat /\
      ((k <= m)%nat -> rv_p0 st = ellipse_at o x y r r (INR (k - 1) * dtheta) /\ rv_t0 st = ellipse_dir x y (INR (k - 1) * dtheta)).

    Lemma inv_start p : p = ellipse_at o x y r r 0 -> inv 1 (start p).
    Proof.
      intros Hp. split; [|split; [reflexivity|intros _]].
      - apply done_start.
        + rewrite Hp. now apply (ellipse_at_length eps maxv).
        + intros l Hl. rewrite Hp, (ellipse_at_rc eps maxv 3 o A B) by (assumption || (intros; unfold A, B; now rewrite rc_vscale)).
          rewrite cos_0, sin_0. ring.
      - cbn [start rv_p0 rv_t0]. change (1 - 1)%nat with 0%nat. cbn [INR]. rewrite Rmult_0_l. split; [exact Hp|exact dir_0].
    Qed.

    (** the control point lies off the axis *)
    Lemma round_loop p : 0 < eps <= sin dtheta * sin dtheta -> eps < r -> p = ellipse_at o x y r r 0 ->
      exists st, for_incl 1 m (revolve_step o x y r w wm cosines sines m) (start p) = Ok st /\ col_ok o A B w dtheta m (rv_col st).
    Proof.
      intros He Hr Hp.
      destruct (for_incl_rule inv 1 m (revolve_step o x y r w wm cosines sines m) (start p)) as (st & E & D & _).
      - lia.
      - now apply inv_start.
      - intros i st Hi (D & Hix & Hpt). destruct (Hpt ltac:(lia)) as (Ep & Et). clear Hpt.
        destruct (trig_at i ltac:(lia)) as (E1 & E2). unfold revolve_step. rewrite E1, E2. cbn [bind].
        replace (sleb r seps) with false by (symmetry; rs; apply Rleb_false; lra).
        rewrite Hix, Ep, Et. assert (exists k, i = S k) as (k & ->) by (exists (i - 1)%nat; lia).
        replace (S k - 1)%nat with k in * by lia. destruct D as (Dl & De & Dm).
        rewrite p2_eq. rewrite set_ok by lia. cbn [bind].
        destruct (proj2 (circle_step eps maxv 3 o x y r dtheta (INR k * dtheta) Lo Lx Ly HX HY HXY) He) as (i0 & i1 & Er & Hmid).
        unfold piece_rays in Er. assert (Ea : INR k * dtheta + dtheta = INR (S k) * dtheta) by (rewrite S_INR; ring).
        rewrite Ea in Er. change (vsub (vscale y (cos (INR (S k) * dtheta))) (vscale x (sin (INR (S k) * dtheta)))) with (ellipse_dir x y (INR (S k) * dtheta)).
        rewrite Er. cbn [ok_or bind]. rewrite (ray_first _ _ _ _ Er).
        rewrite set_ok by (rewrite upd_length; lia). cbn [bind].
        assert (Dr : cos (INR k * dtheta) * sin (INR k * dtheta) * dot x y = 0) by (rewrite HXY; ring).
        set (p1 := ray_point_at _ _). set (p2 := ellipse_at o x y r r (INR (S k) * dtheta)).
        assert (HxA : forall l, (l < 3)%nat -> rc l x * r = rc l A) by (intros; unfold A; now rewrite rc_vscale).
        assert (HyB : forall l, (l < 3)%nat -> rc l y * r = rc l B) by (intros; unfold B; now rewrite rc_vscale).
        assert (Ld : length (ellipse_dir x y (INR k * dtheta)) = 3%nat) by (now apply (ellipse_dir_length eps maxv)).
        assert (Le : length (ellipse_at o x y r r (INR k * dtheta)) = 3%nat) by (now apply (ellipse_at_length eps maxv)).
        assert (G : done (S k) (upd (upd (rv_col st) (2 * k + 2) (p2, w)) (2 * k + 1) (p1, wm * w))).
        { apply done_next; [lia|repeat split; assumption| | | |].
          - unfold p1, ray_point_at. cbn [ray_o ray_d]. rewrite (dir_unit eps maxv 3 x y Lx Ly HX HY) by exact Dr.
            apply vadd_length; [exact Le|]. now apply vscale_length.
          - now apply (ellipse_at_length eps maxv).
          - intros l Hl. now apply (ellipse_at_rc eps maxv 3).
          - intros l Hl. unfold p1, ray_point_at. cbn [ray_o ray_d]. rewrite (dir_unit eps maxv 3 x y Lx Ly HX HY) by exact Dr.
            rewrite rc_vadd by (rewrite (vscale_length _ _ 3) by exact Ld; exact Le). rewrite rc_vscale.
            rewrite (ellipse_at_rc eps maxv 3 o A B) by assumption. specialize (Hmid l Hl). fold A B in Hmid. exact Hmid. }
        destruct (S k <? m)%nat eqn:C; eexists; (split; [reflexivity|]); unfold inv; cbn [rv_col rv_index rv_p0 rv_t0];
          replace (S (S k) - 1)%nat with (S k) by lia; (split; [exact G|]); (split; [lia|]).
        + intros _. split; reflexivity.
        + apply Nat.ltb_ge in C. intros; lia.
      - exists st. split; [exact E|]. apply (done_col (S m - 1)); [lia|exact D].
    Qed.

    (** almost parallel tangents are rejected *)
    Lemma round_fails p : sin dtheta * sin dtheta < eps -> eps < r -> p = ellipse_at o x y r r 0 ->
      errs (for_incl 1 m (revolve_step o x y r w wm cosines sines m) (start p)).
    Proof.
      intros He Hr Hp. unfold for_incl. replace (S m - 1)%nat with (S (m - 1)) by lia. cbn [for_].
      assert (E : errs (revolve_step o x y r w wm cosines sines m 1 (start p))).
      { destruct (trig_at 1 ltac:(lia)) as (E1 & E2). unfold revolve_step. rewrite E1, E2. cbn [bind].
        replace (sleb r seps) with false by (symmetry; rs; apply Rleb_false; lra).
        destruct (inv_start p Hp) as (D & Hix & Hpt). destruct (Hpt Hm) as (Ep & Et). rewrite Ep, Et, Hix.
        change (1 - 1)%nat with 0%nat in *. destruct D as (Dl & _). rewrite set_ok by lia. cbn [bind].
        pose proof (proj1 (circle_step eps maxv 3 o x y r dtheta (INR 0 * dtheta) Lo Lx Ly HX HY HXY) He) as Er.
        unfold piece_rays in Er. assert (Ea : INR 0 * dtheta + dtheta = INR 1 * dtheta) by (cbn [INR]; ring). rewrite Ea in Er.
        rewrite p2_eq. change (vsub (vscale y (cos (INR 1 * dtheta))) (vscale x (sin (INR 1 * dtheta)))) with (ellipse_dir x y (INR 1 * dtheta)).
        rewrite Er. cbn [ok_or bind]. eexists; reflexivity. }
      destruct E as (e & ->). cbn [bind]. eexists; reflexivity.
    Qed.
  End Loop.
End Real.
