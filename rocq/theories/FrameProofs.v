(** * Moving frames: orthonormality and minimal turning *)
From Coq Require Import Reals Lra Sorted ZArith String.
From Verif Require Import Base BaseFacts Scalar RSum BSplineSpec BSpline KnotModel KnotSpec KnotFacts KnotProofs VecFacts
  MiscModel MiscProofs CurveModel CurveSpec CurveProofs CurveGeom CurveGeom2 CurveShapes SurfaceModel
  ArcModel ArcProofs ArcMain ArcTheorems RevolveModel RevolveProofs RevolveSphere FrameModel.
Open Scope list_scope. Open Scope R_scope.

Definition AcosR : Acos R := {| sacos := acos |}.

(** ** Specification *)
(** [t], [n], [b] are a right-handed orthonormal basis of space *)
Definition orthoframe (t n b : list R) : Prop :=
  length t = 3%nat /\ length n = 3%nat /\ length b = 3%nat /\
  dot t t = 1 /\ dot n n = 1 /\ dot t n = 0 /\ forall l, (l < 3)%nat -> rc l b = cross_l t n l.

(** [n1] is [n0] turned by the rotation about an axis orthogonal to both tangents, by an angle
    between zero and half a turn, that takes the tangent [t0] to the tangent [t1] *)
Definition carried (t0 t1 n0 n1 : list R) : Prop :=
  exists K phi, length K = 3%nat /\ dot K K = 1 /\ dot K t0 = 0 /\ dot K t1 = 0 /\ 0 <= phi <= PI /\
    rotated [0; 0; 0] K phi t0 = t1 /\ rotated [0; 0; 0] K phi n0 = n1.

Lemma vec3 (p : list R) : length p = 3%nat -> exists a b c, p = [a; b; c].
Proof. intros H. destruct p as [|a [|b [|c [|]]]]; cbn in H; try lia. eauto. Qed.

Lemma dot3 a b c d e f : dot [a; b; c] [d; e; f] = a * d + b * e + c * f.
Proof. unfold dot, rc. cbn. ring. Qed.

Ltac ex3 H := let a := fresh "x" in let b := fresh "y" in let c := fresh "z" in apply vec3 in H; destruct H as (a & b & c & ->).

Lemma rotated0 K phi P : length K = 3%nat -> length P = 3%nat ->
  rotated [0; 0; 0] K phi P =
  map (fun l => rc l P * cos phi + cross_l K P l * sin phi + rc l K * dot K P * (1 - cos phi)) (seq 0 3).
Proof.
  intros HK HP. ex3 HK. ex3 HP. unfold rotated, cross_l. cbn [map seq]. rewrite !dot3. unfold rc. cbn [nth].
  do 3 (apply f_equal2; [ring|]). reflexivity.
Qed.

Lemma rotated_dot K phi P Q : length K = 3%nat -> length P = 3%nat -> length Q = 3%nat -> dot K K = 1 ->
  dot (rotated [0; 0; 0] K phi P) (rotated [0; 0; 0] K phi Q) = dot P Q.
Proof.
  intros HK HP HQ H1. rewrite !rotated0 by assumption. pose proof (sin2_cos2 phi) as Hcs. unfold Rsqr in Hcs.
  ex3 HK. ex3 HP. ex3 HQ. unfold cross_l. cbn [map seq]. rewrite !dot3 in *. unfold rc. cbn [nth].
  set (s := sin phi) in *. set (c := cos phi) in *. clearbody s c.
  rename x into kx, y into ky, z into kz.
  set (pq := x0 * x1 + y0 * y1 + z0 * z1). set (kp := kx * x0 + ky * y0 + kz * z0). set (kq := kx * x1 + ky * y1 + kz * z1).
  replace (_ + _) with (c * c * pq + s * s * ((kx * kx + ky * ky + kz * kz) * pq - kp * kq) + (kx * kx + ky * ky + kz * kz) * (kp * kq * (1 - c) * (1 - c))
     + 2 * c * (1 - c) * kp * kq)
    by (unfold pq, kp, kq; ring).
  rewrite H1. replace (s * s) with (1 - c * c) by lra. ring.
Qed.

(** the rotation from one unit vector to another, in coordinates *)
Lemma turn_takes t0 t1 : length t0 = 3%nat -> length t1 = 3%nat -> dot t0 t0 = 1 -> dot t1 t1 = 1 ->
  let k := map (cross_l t0 t1) (seq 0 3) in
  dot k k = 1 - dot t0 t1 * dot t0 t1 /\ dot k t0 = 0 /\ dot k t1 = 0.
Proof.
  intros H0 H1 U0 U1. ex3 H0. ex3 H1. unfold cross_l. cbn [map seq]. rewrite !dot3 in *. unfold rc. cbn [nth].
  repeat split; [|ring|ring].
  replace (_ + _) with ((x * x + y * y + z * z) * (x0 * x0 + y0 * y0 + z0 * z0) - (x * x0 + y * y0 + z * z0) * (x * x0 + y * y0 + z * z0)) by ring.
  rewrite U0, U1. ring.
Qed.

Section FrameR.
  Variables eps maxv : R.
  Local Hint Extern 0 (Scalar R) => exact (ROps eps maxv) : typeclass_instances.
  Local Hint Extern 0 (Trig R) => exact TrigR : typeclass_instances.
  Local Hint Extern 0 (Acos R) => exact AcosR : typeclass_instances.

  Lemma len_cross (a b : list R) : length (cross3 a b) = 3%nat.
  Proof. reflexivity. Qed.
  Lemma len_vnormalize (a : list R) : length (vnormalize a) = length a.
  Proof. unfold vnormalize, vdivs. apply map_length. Qed.

  Lemma cross3_l (a b : list R) : cross3 a b = map (cross_l a b) (seq 0 3).
  Proof. reflexivity. Qed.

  Lemma rc_cross (a b : list R) l : (l < 3)%nat -> rc l (cross3 a b) = cross_l a b l.
  Proof. intros H. destruct l as [|[|[|]]]; try lia; reflexivity. Qed.

  Lemma vnormalize_unit (a : list R) : dot a a = 1 -> vnormalize a = a.
  Proof.
    intros H. unfold vnormalize. rewrite (vnorm_dot eps maxv), H, sqrt_1. unfold vdivs. rewrite <- (map_id a) at 2.
    apply map_ext. intros x. cbn. field.
  Qed.

  Lemma vnormalize_rc (a : list R) l : rc l (vnormalize a) = rc l a / sqrt (dot a a).
  Proof.
    unfold vnormalize. rewrite (vnorm_dot eps maxv). unfold vdivs, rc. destruct (Nat.lt_ge_cases l (length a)).
    - now rewrite (nth_map_lt _ _ _ 0 0).
    - rewrite !nth_overflow by (rewrite ?map_length; lia). unfold Rdiv. ring.
  Qed.

  Lemma dot_nn (a : list R) : 0 <= dot a a.
  Proof.
    unfold dot. induction (length a) as [|n IH]; [cbn; lra|]. cbn [rsum]. pose proof (Rle_0_sqr (rc n a)). unfold Rsqr in *. lra.
  Qed.

  Lemma rotate3_eq K phi x : length K = 3%nat -> length x = 3%nat -> rotate3 K phi x = rotated [0; 0; 0] K phi x.
  Proof.
    intros HK Hx. rewrite rotated0 by assumption. ex3 HK. ex3 Hx. unfold rotate3, cross_l. cbn [map seq]. rewrite !dot3. unfold rc, coord, vdot, ssum. cbn [nth map2 fold_left].
    rs. cbn [scos ssin TrigR]. destruct (Reqb phi 0) eqn:E.
    - apply Reqb_true in E. subst phi. rewrite cos_0, sin_0. do 3 (apply f_equal2; [ring|]). reflexivity.
    - do 3 (apply f_equal2; [ring|]). reflexivity.
  Qed.

  Lemma dot_zero (a : list R) l : dot a a = 0 -> rc l a = 0.
  Proof.
    intros H. destruct (Nat.lt_ge_cases l (length a)) as [Hl|Hl]; [|unfold rc; now rewrite nth_overflow by lia].
    assert (G : forall n, 0 <= rsum n (fun l => rc l a * rc l a) /\ forall i, (i < n)%nat -> rc i a * rc i a <= rsum n (fun l => rc l a * rc l a)).
    { induction n as [|n (N & IH)]; [cbn; split; [lra|lia]|]. cbn [rsum]. pose proof (Rle_0_sqr (rc n a)) as Q. unfold Rsqr in Q.
      split; [lra|]. intros i Hi. destruct (Nat.eq_dec i n) as [->|]; [lra|]. specialize (IH i ltac:(lia)). lra. }
    destruct (G (length a)) as (_ & G'). specialize (G' l Hl). fold (dot a a) in G'. rewrite H in G'.
    pose proof (Rle_0_sqr (rc l a)) as Q. unfold Rsqr in Q. apply Rsqr_0_uniq. unfold Rsqr. lra.
  Qed.

  Lemma unit_norm3 (a : list R) : dot a a <> 0 -> dot (vnormalize a) (vnormalize a) = 1.
  Proof. intros H. pose proof (dot_nn a). apply (unit_norm eps maxv). lra. Qed.

  Lemma orth_norm (a t : list R) : length a = 3%nat -> length t = 3%nat -> dot a t = 0 -> dot (vnormalize a) t = 0.
  Proof.
    intros Ha Ht H. pose proof (vnormalize_rc a) as N. pose proof (len_vnormalize a) as L. rewrite Ha in L.
    unfold dot in *. rewrite L. rewrite Ha in H. cbn [rsum] in *. rewrite !N. unfold dot. rewrite Ha.
    set (q := sqrt _). unfold Rdiv. transitivity ((0 + rc 0 a * rc 0 t + rc 1 a * rc 1 t + rc 2 a * rc 2 t) * / q); [ring|]. rewrite H. ring.
  Qed.

  Lemma dot_sym3 (a b : list R) : length a = length b -> dot a b = dot b a.
  Proof. intros H. unfold dot. rewrite H. apply rsum_ext. intros. ring. Qed.

  Lemma next_normal_spec t0 t1 n0 : 0 <= eps < 1 ->
    length t0 = 3%nat -> length t1 = 3%nat -> length n0 = 3%nat ->
    dot t0 t0 = 1 -> dot t1 t1 = 1 -> dot n0 n0 = 1 -> dot t0 n0 = 0 ->
    let n1 := next_normal t0 t1 n0 in
    length n1 = 3%nat /\ dot n1 n1 = 1 /\ dot t1 n1 = 0 /\
    (dot t0 t1 <> -1 -> carried t0 t1 n0 n1) /\ (dot t0 t1 = -1 -> n1 = n0).
  Proof.
    intros He L0 L1 Ln U0 U1 Un On n1.
    destruct (turn_takes t0 t1 L0 L1 U0 U1) as (Kk & K0 & K1). rewrite <- cross3_l in Kk, K0, K1.
    set (k := cross3 t0 t1) in *. assert (Lk : length k = 3%nat) by reflexivity. pose proof (dot_nn k) as Nk.
    set (d := dot t0 t1) in *.
    destruct (Req_EM_T (dot k k) 0) as [Z|NZ].
    - (* parallel tangents *)
      assert (E1 : n1 = n0).
      { unfold n1, next_normal. fold k. replace (sltb seps (vnorm (vnormalize k))) with false; [reflexivity|].
        symmetry. apply Rltb_false. rewrite (vnorm_dot eps maxv). replace (dot _ _) with 0; [rewrite sqrt_0; cbn; lra|].
        unfold dot. rewrite len_vnormalize, Lk. cbn [rsum]. rewrite !vnormalize_rc, !(dot_zero k) by assumption. unfold Rdiv. ring. }
      rewrite E1. split; [assumption|]. split; [assumption|].
      assert (D : d = 1 \/ d = -1).
      { assert (Q : (d - 1) * (d + 1) = 0) by lra. apply Rmult_integral in Q. destruct Q; [left|right]; lra. }
      assert (T : d = 1 -> t1 = t0).
      { intros D1. clear - L0 L1 U0 U1 D1. unfold d in D1. clear d. ex3 L0. ex3 L1. rewrite dot3 in *.
        assert (S : (x - x0) * (x - x0) + ((y - y0) * (y - y0) + (z - z0) * (z - z0)) = 0) by lra.
        pose proof (Rle_0_sqr (x - x0)) as A. pose proof (Rle_0_sqr (y - y0)) as B. pose proof (Rle_0_sqr (z - z0)) as C.
        assert (Rsqr (x - x0) = 0) as A0 by (unfold Rsqr in *; lra). assert (Rsqr (y - y0) = 0) as B0 by (unfold Rsqr in *; lra).
        assert (Rsqr (z - z0) = 0) as C0 by (unfold Rsqr in *; lra).
        apply Rsqr_0_uniq in A0, B0, C0. do 3 (apply f_equal2; [lra|]). reflexivity. }
      split; [|split; [|auto]].
      + destruct D as [D|D]; [rewrite (T D); assumption|].
        assert (T' : t1 = map Ropp t0).
        { clear - L0 L1 U0 U1 D. unfold d in D. clear d. ex3 L0. ex3 L1. rewrite dot3 in *.
          assert (S : (x + x0) * (x + x0) + ((y + y0) * (y + y0) + (z + z0) * (z + z0)) = 0) by lra.
          pose proof (Rle_0_sqr (x + x0)) as A. pose proof (Rle_0_sqr (y + y0)) as B. pose proof (Rle_0_sqr (z + z0)) as C.
          assert (Rsqr (x + x0) = 0) as A0 by (unfold Rsqr in *; lra). assert (Rsqr (y + y0) = 0) as B0 by (unfold Rsqr in *; lra).
          assert (Rsqr (z + z0) = 0) as C0 by (unfold Rsqr in *; lra).
          apply Rsqr_0_uniq in A0, B0, C0. cbn [map]. do 3 (apply f_equal2; [lra|]). reflexivity. }
        rewrite T'. clear - L0 Ln On. ex3 L0. ex3 Ln. cbn [map]. rewrite dot3 in *. lra.
      + intros Hd. destruct D as [D|D]; [|contradiction]. exists n0, 0. rewrite (T D).
        rewrite (dot_sym3 n0 t0) by congruence. pose proof PI_RGT_0.
        repeat (split; [first [assumption | lra]|]).
        rewrite !rotated0 by assumption. rewrite cos_0, sin_0. clear - L0 Ln. ex3 L0. ex3 Ln. cbn [map seq]. unfold rc. cbn [nth].
        split; (do 3 (apply f_equal2; [ring|]); reflexivity).
    - (* the tangents span a plane *)
      pose proof (unit_norm3 k NZ) as Uk. set (K := vnormalize k) in *.
      assert (LK : length K = 3%nat) by (unfold K; now rewrite len_vnormalize).
      assert (D1 : -1 < d < 1). { assert (0 < 1 - d * d) by lra. split; nra. }
      assert (E1 : n1 = rotated [0; 0; 0] K (acos d) n0).
      { unfold n1, next_normal. fold k K. replace (sltb seps (vnorm K)) with true.
        2:{ symmetry. apply Rltb_true. rewrite (vnorm_dot eps maxv), Uk, sqrt_1. cbn. lra. }
        rewrite (vnormalize_unit K Uk), rotate3_eq by assumption. f_equal. rewrite (vdot_dot eps maxv) by congruence. fold d.
        unfold sclamp. rs. rewrite (proj2 (Rltb_false d (Ropp 1))) by lra. rewrite (proj2 (Rltb_false 1 d)) by lra. reflexivity. }
      assert (E2 : rotated [0; 0; 0] K (acos d) t0 = t1).
      { rewrite rotated0 by assumption. rewrite cos_acos by lra. rewrite sin_acos by lra.
        assert (OK : dot K t0 = 0) by (apply orth_norm; auto). rewrite OK.
        replace (1 - d²) with (dot k k) by (unfold Rsqr; lra). assert (Q : 0 < sqrt (dot k k)) by (apply sqrt_lt_R0; lra).
        assert (C : forall l, (l < 3)%nat -> cross_l K t0 l * sqrt (dot k k) = cross_l k t0 l).
        { intros l Hl. unfold cross_l, K. rewrite !vnormalize_rc. destruct l as [|[|]]; field; lra. }
        assert (G : forall l, (l < 3)%nat -> rc l t0 * d + cross_l K t0 l * sqrt (dot k k) + rc l K * 0 * (1 - d) = rc l t1).
        { intros l Hl. rewrite C by assumption. unfold k. unfold cross_l. rewrite !rc_cross by lia. unfold cross_l, d. clear - L0 L1 U0 U1 Hl.
          ex3 L0. ex3 L1. rewrite dot3 in *. unfold rc. destruct l as [|[|[|]]]; try lia; cbn [nth].
          - replace (_ + _) with (x0 * (x * x + y * y + z * z)) by ring. rewrite U0. ring.
          - replace (_ + _) with (y0 * (x * x + y * y + z * z)) by ring. rewrite U0. ring.
          - replace (_ + _) with (z0 * (x * x + y * y + z * z)) by ring. rewrite U0. ring. }
        cbn [map seq]. rewrite !G by lia. clear - L1. ex3 L1. reflexivity. }
      assert (LR : length n1 = 3%nat) by (rewrite E1, rotated0 by assumption; reflexivity).
      split; [assumption|]. split; [rewrite E1, rotated_dot by assumption; assumption|].
      split; [rewrite <- E2, E1, rotated_dot by assumption; assumption|]. split.
      + intros _. exists K, (acos d). pose proof (acos_bound d).
        assert (dot K t0 = 0) by (apply orth_norm; auto). assert (dot K t1 = 0) by (apply orth_norm; auto).
        repeat (split; [assumption|]). now symmetry.
      + intros E. exfalso. lra.
  Qed.

  (** ** The first frame *)
  Lemma least_axis_spec t : 1 <= maxv -> length t = 3%nat -> dot t t = 1 ->
    exists i, (i < 3)%nat /\ least_axis t = map (fun l => if Nat.eqb l i then 1 else 0) (seq 0 3) /\
      forall l, (l < 3)%nat -> Rabs (rc i t) <= Rabs (rc l t).
  Proof.
    intros Hm Lt Ut. assert (B : forall l, (l < 3)%nat -> Rabs (rc l t) <= maxv).
    { intros l Hl. apply Rle_trans with 1; [|assumption]. clear Hm. ex3 Lt. rewrite dot3 in Ut.
      rewrite <- Rabs_R1. apply Rsqr_le_abs_0. unfold Rsqr, rc. pose proof (Rle_0_sqr x). pose proof (Rle_0_sqr y). pose proof (Rle_0_sqr z). unfold Rsqr in *.
      destruct l as [|[|[|]]]; try lia; cbn [nth]; lra. }
    pose proof (B 0%nat ltac:(lia)) as B0. pose proof (B 1%nat ltac:(lia)) as B1. pose proof (B 2%nat ltac:(lia)) as B2.
    unfold least_axis. cbv zeta. rewrite (coord_rc eps maxv 0 t), (coord_rc eps maxv 1 t), (coord_rc eps maxv 2 t). rs. rewrite (proj2 (Rleb_true _ _) B0).
    destruct (Rleb (Rabs (rc 1 t)) (Rabs (rc 0 t))) eqn:E1; cbv iota beta.
    - apply Rleb_true in E1. destruct (Rleb (Rabs (rc 2 t)) (Rabs (rc 1 t))) eqn:E2.
      + apply Rleb_true in E2. exists 2%nat. split; [lia|]. split; [reflexivity|]. intros [|[|[|]]] Hl; try lia; lra.
      + apply Rleb_false in E2. exists 1%nat. split; [lia|]. split; [reflexivity|]. intros [|[|[|]]] Hl; try lia; lra.
    - apply Rleb_false in E1. destruct (Rleb (Rabs (rc 2 t)) (Rabs (rc 0 t))) eqn:E2.
      + apply Rleb_true in E2. exists 2%nat. split; [lia|]. split; [reflexivity|]. intros [|[|[|]]] Hl; try lia; lra.
      + apply Rleb_false in E2. exists 0%nat. split; [lia|]. split; [reflexivity|]. intros [|[|[|]]] Hl; try lia; lra.
  Qed.

  Lemma cross_unit t v : length t = 3%nat -> length v = 3%nat -> dot t t = 1 -> dot v v = 1 -> dot v t = 0 ->
    dot (cross3 t v) (cross3 t v) = 1 /\ dot t (cross3 t v) = 0.
  Proof.
    intros Lt Lv Ut Uv O. rewrite (cross3_l t v). destruct (turn_takes t v Lt Lv Ut Uv) as (A & B & C).
    rewrite A. rewrite (dot_sym3 t v), O by congruence. split; [ring|]. rewrite (dot_sym3 t) by (rewrite map_length, seq_length; exact Lt). exact B.
  Qed.

  Lemma first_normal_spec t : 1 <= maxv -> length t = 3%nat -> dot t t = 1 ->
    let n := first_normal t in length n = 3%nat /\ dot n n = 1 /\ dot t n = 0.
  Proof.
    intros Hm Lt Ut. destruct (least_axis_spec t Hm Lt Ut) as (i & Hi & Ea & Hmin).
    unfold first_normal. set (a := least_axis t) in *.
    assert (La : length a = 3%nat) by (rewrite Ea; reflexivity).
    assert (Ua : dot a a = 1). { rewrite Ea. destruct i as [|[|[|]]]; try lia; cbn [map seq Nat.eqb]; rewrite dot3; ring. }
    destruct (turn_takes t a Lt La Ut Ua) as (A & B & _). rewrite <- cross3_l in A, B. set (k := cross3 t a) in *.
    assert (NZ : dot k k <> 0).
    { rewrite A. assert (D : dot t a = rc i t).
      { rewrite Ea. clear - Lt Hi. ex3 Lt. destruct i as [|[|[|]]]; try lia; cbn [map seq Nat.eqb]; rewrite dot3; unfold rc; cbn [nth]; ring. }
      rewrite D. clear - Hmin Lt Ut Hi. ex3 Lt. rewrite dot3 in Ut.
      pose proof (Rsqr_le_abs_1 _ _ (Hmin 0%nat ltac:(lia))) as S0. pose proof (Rsqr_le_abs_1 _ _ (Hmin 1%nat ltac:(lia))) as S1.
      pose proof (Rsqr_le_abs_1 _ _ (Hmin 2%nat ltac:(lia))) as S2. unfold Rsqr, rc in *. cbn [nth] in *.
      destruct i as [|[|[|]]]; try lia; cbn [nth] in *; lra. }
    pose proof (unit_norm3 k NZ) as Uk. assert (Ok : dot (vnormalize k) t = 0) by (apply orth_norm; auto).
    assert (Lk : length (vnormalize k) = 3%nat) by (now rewrite len_vnormalize).
    destruct (cross_unit t (vnormalize k) Lt Lk Ut Uk Ok) as (U & O).
    cbv zeta. rewrite (vnormalize_unit _ U). split; [reflexivity|]. split; assumption.
  Qed.
End FrameR.
