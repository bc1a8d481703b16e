(** * Arcs: the pieces are rational quadratics that trace the ellipse *)
From Coq Require Import Reals Lra Sorted ZArith.
From Verif Require Import Base BaseFacts Scalar RSum BSplineSpec BSpline KnotModel KnotSpec KnotFacts KnotProofs VecFacts
  MiscModel MiscProofs CurveModel CurveSpec CurveProofs CurveGeom CurveGeom2 CurveShapes Refine ArcModel.
Open Scope R_scope.

(** exact trigonometry *)
Definition TrigR : Trig R := {|
  scos := cos; ssin := sin; shalf_pi := PI / 2; stau := 2 * PI;
  sfloor := fun x => if Rlt_dec x 0 then None else Some (Z.to_nat (Int_part x)) |}.

(** ** Specification: the point of the ellipse with centre [C] and half-axes [A], [B] at an angle *)
Definition on_ellipse (C A B : list R) (a : R) : list R :=
  map (fun l => rc l C + rc l A * cos a + rc l B * sin a) (seq 0 (length C)).

Lemma rc_on_ellipse C A B a l : (l < length C)%nat -> rc l (on_ellipse C A B a) = rc l C + rc l A * cos a + rc l B * sin a.
Proof. intros H. unfold on_ellipse. now rewrite rc_map_seq. Qed.

Lemma on_ellipse_length C A B a : length (on_ellipse C A B a) = length C.
Proof. unfold on_ellipse. now rewrite map_length, seq_length. Qed.

(** ** Quadratic pieces *)
Lemma bs_quadratic k s u :
  (2 <= s)%nat -> k s < k (S s) -> k (s - 1)%nat = k s -> k (S (S s)) = k (S s) ->
  let t := (u - k s) / (k (S s) - k s) in
  bs k s 2 (s - 2) u = (1 - t) * (1 - t) /\ bs k s 2 (s - 1) u = 2 * t * (1 - t) /\ bs k s 2 s u = t * t.
Proof.
  intros Hs Hk E1 E2 t. destruct s as [|[|s]]; [lia|lia|].
  replace (S (S s) - 2)%nat with s by lia. replace (S (S s) - 1)%nat with (S s) in * by lia.
  assert (N : k (S (S (S s))) - k (S (S s)) <> 0) by lra.
  assert (Q : forall a b, b <> 0 -> quot0 a b = a / b) by (intros a b Hb; unfold quot0; destruct (Req_EM_T b 0); [contradiction|reflexivity]).
  cbn [bs]. replace (s + 1 + 1)%nat with (S (S s)) by lia. replace (S s + 1 + 1)%nat with (S (S (S s))) by lia.
  replace (S (S s) + 1 + 1)%nat with (S (S (S (S s)))) by lia.
  replace (s + 1)%nat with (S s) by lia. replace (S s + 1)%nat with (S (S s)) by lia.
  replace (S (S s) + 1)%nat with (S (S (S s))) by lia.
  rewrite Nat.eqb_refl.
  rewrite (proj2 (Nat.eqb_neq s (S (S s)))) by lia. rewrite (proj2 (Nat.eqb_neq (S s) (S (S s)))) by lia.
  rewrite (proj2 (Nat.eqb_neq (S (S (S s))) (S (S s)))) by lia. rewrite (proj2 (Nat.eqb_neq (S (S (S (S s)))) (S (S s)))) by lia.
  unfold wl, wr. 
  replace (s + 2)%nat with (S (S s)) by lia. replace (s + 2 + 1)%nat with (S (S (S s))) by lia.
  replace (s + 1)%nat with (S s) by lia.
  replace (S s + 1)%nat with (S (S s)) by lia. replace (S s + 1 + 1)%nat with (S (S (S s))) by lia.
  replace (S s + 2)%nat with (S (S (S s))) by lia. replace (S s + 2 + 1)%nat with (S (S (S (S s)))) by lia.
  replace (S (S s) + 1)%nat with (S (S (S s))) by lia. replace (S (S s) + 1 + 1)%nat with (S (S (S (S s)))) by lia.
  replace (S (S s) + 2)%nat with (S (S (S (S s)))) by lia. replace (S (S s) + 2 + 1)%nat with (S (S (S (S (S s))))) by lia.
  replace (S (S (S s)) + 1)%nat with (S (S (S (S s)))) by lia.
  rewrite E1, E2. unfold t. rewrite !Rmult_0_r, !Rplus_0_l, !Rplus_0_r, !Rmult_1_r.
  rewrite !(Q _ (k (S (S (S s))) - k (S (S s)))) by exact N.
  rewrite ?Rmult_0_r, ?Rplus_0_l, ?Rplus_0_r.
  repeat split; field; exact N.
Qed.

(** the rational quadratic stays on the unit circle and between its end directions *)
Lemma conic_angle t d : 0 <= t <= 1 -> -1 < cos d ->
  let W := (1 - t) * (1 - t) + 2 * t * (1 - t) * cos d + t * t in
  0 < W /\
  exists psi,
    (1 - t) * (1 - t) * cos d + 2 * t * (1 - t) + t * t * cos d = W * cos psi /\
    (t * t - (1 - t) * (1 - t)) * sin d = W * sin psi /\
    (0 <= d <= PI -> - d <= psi <= d) /\
    (t = 0 -> 0 <= d <= PI -> psi = - d) /\ (t = 1 -> 0 <= d <= PI -> psi = d).
Proof.
  intros Ht Hc W. pose proof (COS_bound d) as Hcb.
  assert (B : 0 <= t * (1 - t)) by (apply Rmult_le_pos; lra).
  assert (HW : 0 < W).
  { unfold W. destruct (Rle_lt_dec 0 (cos d)) as [C|C].
    - assert (0 <= t * (1 - t) * cos d) by (apply Rmult_le_pos; lra).
      assert (0 < (1 - t) * (1 - t) + t * t) by nra. lra.
    - assert (t * (1 - t) * (1 + cos d) >= 0) by (apply Rle_ge, Rmult_le_pos; lra).
      destruct (Req_dec t (1 / 2)) as [->|N]; [lra|].
      assert (0 < (1 - 2 * t) * (1 - 2 * t)) by (apply Rlt_0_sqr; lra).
      replace ((1 - t) * (1 - t) + 2 * t * (1 - t) * cos d + t * t)
        with ((1 - 2 * t) * (1 - 2 * t) + 2 * (t * (1 - t) * (1 + cos d))) by ring. lra. }
  split; [exact HW|].
  set (a := ((1 - t) * (1 - t) * cos d + 2 * t * (1 - t) + t * t * cos d) / W).
  set (b := (t * t - (1 - t) * (1 - t)) * sin d / W).
  assert (Ea : (1 - t) * (1 - t) * cos d + 2 * t * (1 - t) + t * t * cos d = W * a) by (unfold a; field; lra).
  assert (Eb : (t * t - (1 - t) * (1 - t)) * sin d = W * b) by (unfold b; field; lra).
  assert (S1 : sin d * sin d + cos d * cos d = 1) by (pose proof (sin2_cos2 d) as H; unfold Rsqr in H; exact H).
  assert (U : a * a + b * b = 1).
  { apply (Rmult_eq_reg_l (W * W)); [|nra].
    replace (W * W * (a * a + b * b)) with ((W * a) * (W * a) + (W * b) * (W * b)) by ring.
    rewrite <- Ea, <- Eb. replace ((t * t - (1 - t) * (1 - t)) * sin d * ((t * t - (1 - t) * (1 - t)) * sin d))
      with ((t * t - (1 - t) * (1 - t)) * (t * t - (1 - t) * (1 - t)) * (sin d * sin d)) by ring.
    replace (sin d * sin d) with (1 - cos d * cos d) by lra. unfold W. ring. }
  assert (A1 : -1 <= a <= 1) by nra.
  exists (if Rle_lt_dec 0 b then acos a else - acos a).
  assert (SA : sin (acos a) = Rabs b).
  { rewrite sin_acos by exact A1. replace (1 - Rsqr a) with (Rsqr b) by (unfold Rsqr; lra). apply sqrt_Rsqr_abs. }
  rewrite Ea, Eb.
  assert (Hle : 0 <= d <= PI -> acos a <= d).
  { intros Hd. rewrite <- (acos_cos d) by lra. apply Rnot_lt_le. intros H.
    assert (cos d <= a).
    { apply (Rmult_le_reg_l W); [exact HW|]. rewrite <- Ea. unfold W.
      assert (0 <= t * (1 - t) * (sin d * sin d)) by (apply Rmult_le_pos; [lra|apply Rle_0_sqr]).
      replace (sin d * sin d) with (1 - cos d * cos d) in H0 by lra. nra. }
    pose proof (acos_bound a). rewrite acos_cos in H by lra.
    pose proof (cos_decreasing_1 d (acos a)). rewrite cos_acos in H2 by lra. lra. }
  pose proof (acos_bound a) as Hab.
  split; [|split; [|split; [|split]]].
  - destruct (Rle_lt_dec 0 b); [|rewrite cos_neg]; rewrite cos_acos by lra; reflexivity.
  - destruct (Rle_lt_dec 0 b) as [C|C]; [|rewrite sin_neg]; rewrite SA.
    + rewrite Rabs_pos_eq by exact C. reflexivity.
    + rewrite Rabs_left by exact C. ring.
  - intros Hd. specialize (Hle Hd). destruct (Rle_lt_dec 0 b); lra.
  - intros -> Hd. assert (W = 1) as EW by (unfold W; ring). rewrite EW in *.
    assert (a = cos d) as -> by lra. assert (b = - sin d) as Ebb by lra. rewrite acos_cos by lra.
    destruct (Rle_lt_dec 0 b) as [C|C]; [|reflexivity].
    assert (sin d = 0) by (pose proof (sin_ge_0 d); lra).
    destruct (Req_dec d 0) as [->|N0]; [ring|]. destruct (Req_dec d PI) as [->|N1]; [rewrite cos_PI in Hc; lra|].
    pose proof (sin_gt_0 d). lra.
  - intros -> Hd. assert (W = 1) as EW by (unfold W; ring). rewrite EW in *.
    assert (a = cos d) as -> by lra. assert (b = sin d) as Ebb by lra. rewrite acos_cos by lra.
    destruct (Rle_lt_dec 0 b) as [C|C]; [reflexivity|]. pose proof (sin_ge_0 d). lra.
Qed.

(** ** Knots of the arc: each piece boundary doubled *)
Definition aknots (m : nat) (start dtheta : R) : list R :=
  map (fun j => start + INR (Nat.min ((j - 1) / 2) m) * dtheta) (seq 0 (2 * m + 4)).

Lemma aknots_length m start dtheta : length (aknots m start dtheta) = (2 * m + 4)%nat.
Proof. unfold aknots. now rewrite map_length, seq_length. Qed.

Lemma aknots_kf m start dtheta j : (j < 2 * m + 4)%nat ->
  kf (aknots m start dtheta) j = start + INR (Nat.min ((j - 1) / 2) m) * dtheta.
Proof.
  intros Hj. rewrite (kf_nth _ _ 0) by (rewrite aknots_length; lia). unfold aknots.
  rewrite (nth_map_lt _ _ j 0%nat) by (rewrite seq_length; lia). now rewrite seq_nth by lia.
Qed.

Lemma aknots_even m start dtheta i : (i <= m)%nat -> kf (aknots m start dtheta) (2 * i + 2) = start + INR i * dtheta.
Proof.
  intros Hi. rewrite aknots_kf by lia. do 3 f_equal.
  replace (2 * i + 2 - 1)%nat with (1 + i * 2)%nat by lia. rewrite Nat.div_add by lia. cbn [Nat.div Nat.divmod fst]. lia.
Qed.
Lemma aknots_odd m start dtheta i : (i <= m)%nat -> kf (aknots m start dtheta) (2 * i + 1) = start + INR i * dtheta.
Proof.
  intros Hi. rewrite aknots_kf by lia. do 3 f_equal.
  replace (2 * i + 1 - 1)%nat with (0 + i * 2)%nat by lia. rewrite Nat.div_add by lia. cbn [Nat.div Nat.divmod fst]. lia.
Qed.

Lemma aknots_ok m start dtheta : (1 <= m)%nat -> 0 < dtheta -> knots_ok 2 (2 * m) (aknots m start dtheta).
Proof.
  intros Hm Hd. constructor.
  - rewrite aknots_length. lia.
  - lia.
  - apply mono_sorted. intros i Hi. rewrite aknots_length in Hi.
    rewrite <- !(kf_nth _ _ 0) by (rewrite aknots_length; lia). rewrite !aknots_kf by lia.
    apply Rplus_le_compat_l, Rmult_le_compat_r; [lra|]. apply le_INR.
    assert (((i - 1) / 2 <= (S i - 1) / 2)%nat) by (apply Nat.div_le_mono; lia). lia.
  - pose proof (aknots_even m start dtheta 0 ltac:(lia)) as E0. pose proof (aknots_odd m start dtheta 1 ltac:(lia)) as E1.
    change (2 * 0 + 2)%nat with 2%nat in E0. change (2 * 1 + 1)%nat with (2 + 1)%nat in E1. rewrite E0, E1. cbn [INR]. lra.
  - pose proof (aknots_even m start dtheta (m - 1) ltac:(lia)) as E0. pose proof (aknots_odd m start dtheta m ltac:(lia)) as E1.
    replace (2 * (m - 1) + 2)%nat with (2 * m)%nat in E0 by lia. rewrite E0, E1.
    rewrite minus_INR by lia. cbn [INR]. lra.
Qed.

(** what the loop leaves behind: piece ends on the ellipse, middle points on the common tangents *)
Record arc_points (d : nat) (C A B : list R) (start dtheta : R) (m : nat) (pts : list (list R)) (ws : list R) : Prop := {
  ap_pts : length pts = (2 * m + 1)%nat;
  ap_ws : length ws = (2 * m + 1)%nat;
  ap_end : forall i, (i <= m)%nat -> nth (2 * i) ws 0 = 1 /\ length (nth (2 * i) pts []) = d /\
    forall l, (l < d)%nat -> rc l (nth (2 * i) pts []) =
      rc l C + rc l A * cos (start + INR i * dtheta) + rc l B * sin (start + INR i * dtheta);
  ap_mid : forall i, (i < m)%nat -> nth (2 * i + 1) ws 0 = cos (dtheta / 2) /\ length (nth (2 * i + 1) pts []) = d /\
    forall l, (l < d)%nat -> rc l (nth (2 * i + 1) pts []) * cos (dtheta / 2) =
      rc l C * cos (dtheta / 2) + rc l A * cos (start + INR i * dtheta + dtheta / 2) +
      rc l B * sin (start + INR i * dtheta + dtheta / 2) }.



Lemma nth_map2 {X Y Z} (f : X -> Y -> Z) : forall l1 l2 i a b c, (i < length l1)%nat -> (i < length l2)%nat ->
  nth i (map2 f l1 l2) c = f (nth i l1 a) (nth i l2 b).
Proof.
  induction l1 as [|x l1 IH]; intros [|y l2] i a b c H1 H2; cbn [length] in *; try lia.
  destruct i as [|i]; [reflexivity|]. cbn [map2 nth]. apply IH; lia.
Qed.
Lemma map2_length {X Y Z} (f : X -> Y -> Z) : forall l1 l2, length l1 = length l2 -> length (map2 f l1 l2) = length l1.
Proof. induction l1 as [|x l1 IH]; intros [|y l2] H; cbn [length map2] in *; try lia. rewrite IH; lia. Qed.

Section Real.
  Variables eps maxv : R.
  Local Hint Extern 0 (Scalar R) => exact (ROps eps maxv) : typeclass_instances.
  Local Hint Extern 0 (Trig R) => exact TrigR : typeclass_instances.

  Section Eval.
    Variables (D : nat) (C A B : list R) (start dtheta : R) (m : nat) (pts : list (list R)) (ws : list R).
    Hypothesis HD : (1 <= D)%nat.
    Hypothesis LC : length C = (D - 1)%nat.
    Hypothesis Hm : (1 <= m)%nat.
    Hypothesis Hdt : 0 < dtheta.
    Hypothesis He : 0 < eps <= dtheta.
    Hypothesis Hc1 : -1 < cos (dtheta / 2).
    Hypothesis HP : arc_points (D - 1) C A B start dtheta m pts ws.

    Let c : Curve R := MkCurve D 2 (map2 (fun p w => vscale p w ++ [w]) pts ws) (aknots m start dtheta).

    Lemma arc_len : length (cpts c) = (2 * m + 1)%nat.
    Proof. cbn [c cpts]. rewrite map2_length; [apply (ap_pts _ _ _ _ _ _ _ _ _ HP)|]. rewrite (ap_pts _ _ _ _ _ _ _ _ _ HP), (ap_ws _ _ _ _ _ _ _ _ _ HP). reflexivity. Qed.

    Lemma arc_nth j : (j < 2 * m + 1)%nat -> nth j (cpts c) [] = vscale (nth j pts []) (nth j ws 0) ++ [nth j ws 0].
    Proof.
      intros Hj. cbn [c cpts]. rewrite (nth_map2 _ pts ws j [] 0); [reflexivity|rewrite (ap_pts _ _ _ _ _ _ _ _ _ HP)|rewrite (ap_ws _ _ _ _ _ _ _ _ _ HP)]; lia.
    Qed.

    Lemma arc_pt_len j : (j < 2 * m + 1)%nat -> length (nth j pts []) = (D - 1)%nat.
    Proof.
      intros Hj. destruct (Nat.Even_or_Odd j) as [(i & ->)|(i & ->)].
      - apply (ap_end _ _ _ _ _ _ _ _ _ HP). lia.
      - apply (ap_mid _ _ _ _ _ _ _ _ _ HP). lia.
    Qed.

    Lemma arc_cpc l j : (l < D - 1)%nat -> (j < 2 * m + 1)%nat -> cpc c l j = rc l (nth j pts []) * nth j ws 0.
    Proof.
      intros Hl Hj. unfold cpc. rewrite arc_nth by exact Hj. rewrite rc_app_l by (rewrite (vscale_length _ _ (D - 1)); [lia|now apply arc_pt_len]).
      now rewrite rc_vscale.
    Qed.
    Lemma arc_cpw j : (j < 2 * m + 1)%nat -> cpc c (D - 1) j = nth j ws 0.
    Proof.
      intros Hj. unfold cpc. rewrite arc_nth by exact Hj. pose proof (arc_pt_len j Hj) as L.
      rewrite rc_app_r by (rewrite (vscale_length _ _ (D - 1)); [lia|exact L]). rewrite (vscale_length _ _ (D - 1)) by exact L.
      rewrite Nat.sub_diag. reflexivity.
    Qed.

    Lemma arc_curve_ok : curve_ok c.
    Proof.
      constructor.
      - exact HD.
      - apply Forall_forall. intros x Hx. destruct (In_nth _ _ [] Hx) as (j & Hj & <-). rewrite arc_len in Hj.
        rewrite arc_nth by exact Hj. rewrite app_length, (vscale_length _ _ (D - 1)) by (now apply arc_pt_len). cbn [length c cdim]. lia.
      - rewrite arc_len. cbn [c cdeg]. lia.
      - unfold clast. rewrite arc_len. cbn [c cdeg cknots]. replace (2 * m + 1 - 1)%nat with (2 * m)%nat by lia. now apply aknots_ok.
    Qed.

    Lemma arc_dom : dom0 c = start /\ dom1 c = start + INR m * dtheta.
    Proof.
      unfold dom0, dom1. rewrite arc_len. cbn [c cdeg cknots]. split; [|apply aknots_odd; lia].
      pose proof (aknots_even m start dtheta 0 ltac:(lia)) as E0. change (2 * 0 + 2)%nat with 2%nat in E0. rewrite E0. cbn [INR]. lra.
    Qed.

    Lemma arc_eps : curve_eps eps c.
    Proof.
      unfold curve_eps, eps_ok, clast. rewrite arc_len. cbn [c cdeg cknots]. replace (2 * m + 1 - 1)%nat with (2 * m)%nat by lia.
      pose proof (aknots_even m start dtheta 0 ltac:(lia)) as E0. pose proof (aknots_odd m start dtheta 1 ltac:(lia)) as E1.
      change (2 * 0 + 2)%nat with 2%nat in E0. change (2 * 1 + 1)%nat with (2 + 1)%nat in E1.
      pose proof (aknots_even m start dtheta (m - 1) ltac:(lia)) as E2. pose proof (aknots_odd m start dtheta m ltac:(lia)) as E3.
      replace (2 * (m - 1) + 2)%nat with (2 * m)%nat in E2 by lia. rewrite E0, E1, E2, E3.
      rewrite minus_INR by lia. cbn [INR]. lra.
    Qed.

    (** on piece [i], at fraction [t] *)
    Lemma arc_piece i t : (i < m)%nat -> 0 <= t < 1 \/ (S i = m /\ t = 1) ->
      let u := start + INR i * dtheta + t * dtheta in
      let a := start + INR i * dtheta in
      let W := (1 - t) * (1 - t) + 2 * t * (1 - t) * cos (dtheta / 2) + t * t in
      wfun c u = W /\ forall l, (l < D - 1)%nat ->
        hcoord c l u = rc l C * W +
          rc l A * ((1 - t) * (1 - t) * cos a + 2 * t * (1 - t) * cos (a + dtheta / 2) + t * t * cos (a + dtheta)) +
          rc l B * ((1 - t) * (1 - t) * sin a + 2 * t * (1 - t) * sin (a + dtheta / 2) + t * t * sin (a + dtheta)).
    Proof.
      intros Hi Ht u a W.
      assert (Ks : kf (cknots c) (2 * i + 2) = a) by (cbn [c cknots]; now apply aknots_even; lia).
      assert (Ks1 : kf (cknots c) (S (2 * i + 2)) = a + dtheta).
      { cbn [c cknots]. replace (S (2 * i + 2)) with (2 * S i + 1)%nat by lia. rewrite aknots_odd by lia. rewrite S_INR. unfold a. ring. }
      assert (Km : kf (cknots c) (2 * i + 2 - 1) = a).
      { cbn [c cknots]. replace (2 * i + 2 - 1)%nat with (2 * i + 1)%nat by lia. now apply aknots_odd; lia. }
      assert (Ks2 : kf (cknots c) (S (S (2 * i + 2))) = a + dtheta).
      { cbn [c cknots]. replace (S (S (2 * i + 2))) with (2 * S i + 2)%nat by lia. rewrite aknots_even by lia. rewrite S_INR. unfold a. ring. }
      pose proof arc_len as La.
      assert (Cl : clast c = (2 * m)%nat) by (unfold clast; rewrite La; lia).
      assert (Hin : in_span (cknots c) (clast c) (2 * i + 2) u).
      { unfold in_span. rewrite Ks, Ks1, Cl. split; [lra|]. unfold u. fold a.
        destruct Ht as [Ht|(E & ->)].
        - split; [assert (0 <= t * dtheta) by (apply Rmult_le_pos; lra); lra|]. left.
          assert (t * dtheta < 1 * dtheta) by (apply Rmult_lt_compat_r; lra). lra.
        - split; [lra|]. right. split; [lia|lra]. }
      destruct (bs_quadratic (kf (cknots c)) (2 * i + 2) u ltac:(lia)) as (B0 & B1 & B2).
      { rewrite Ks, Ks1. lra. } { now rewrite Ks, Km. } { now rewrite Ks1, Ks2. }
      assert (Et : (u - kf (cknots c) (2 * i + 2)) / (kf (cknots c) (S (2 * i + 2)) - kf (cknots c) (2 * i + 2)) = t).
      { rewrite Ks, Ks1. unfold u. fold a. field. lra. }
      rewrite Et in B0, B1, B2. clear Et.
      assert (H : forall l, hcoord c l u = (1 - t) * (1 - t) * cpc c l (2 * i) + 2 * t * (1 - t) * cpc c l (2 * i + 1) + t * t * cpc c l (2 * S i)).
      { intros l. rewrite <- (piece_hcoord c (2 * i + 2) l u arc_curve_ok Hin) by lia.
        change (cdeg c) with 2%nat. rewrite piece_window by lia. replace (2 * i + 2 - 2)%nat with (2 * i)%nat by lia.
        cbn [rsum]. rewrite !Nat.add_0_r, Rplus_0_l.
        replace (2 * i + 2 - 2)%nat with (2 * i)%nat in B0 by lia. replace (2 * i + 2 - 1)%nat with (2 * i + 1)%nat in B1 by lia.
        rewrite B0, B1, B2. do 3 f_equal. lia. }
      destruct (ap_end _ _ _ _ _ _ _ _ _ HP i ltac:(lia)) as (w0 & _ & p0).
      destruct (ap_end _ _ _ _ _ _ _ _ _ HP (S i) ltac:(lia)) as (w2 & _ & p2).
      destruct (ap_mid _ _ _ _ _ _ _ _ _ HP i ltac:(lia)) as (w1 & _ & p1). split.
      - unfold wfun. change (cdim c) with D. rewrite H, !arc_cpw by lia. rewrite w0, w1, w2. unfold W. ring.
      - intros l Hl. rewrite H, !arc_cpc by lia. rewrite w0, w1, w2, p1, p0, p2 by exact Hl.
        replace (start + INR (S i) * dtheta) with (a + dtheta) by (rewrite S_INR; unfold a; ring). fold a. unfold W. ring.
    Qed.

    Lemma arc_find u : dom0 c <= u <= dom1 c ->
      exists i t, (i < m)%nat /\ (0 <= t < 1 \/ (S i = m /\ t = 1)) /\ u = start + INR i * dtheta + t * dtheta.
    Proof.
      intros Hu. destruct (domain_span c u arc_curve_ok Hu) as (s & Hs & (Hne & Hl & Hr)).
      pose proof arc_len as La. assert (Cl : clast c = (2 * m)%nat) by (unfold clast; rewrite La; lia).
      change (cdeg c) with 2%nat in Hs. rewrite Cl in *.
      destruct (Nat.Even_or_Odd s) as [(i & ->)|(i & ->)].
      2:{ exfalso. cbn [c cknots] in Hne. replace (S (2 * i + 1)) with (2 * i + 2)%nat in Hne by lia.
          rewrite aknots_odd, aknots_even in Hne by lia. lra. }
      destruct i as [|i]; [lia|]. exists i, ((u - (start + INR i * dtheta)) / dtheta).
      split; [lia|]. cbn [c cknots] in Hl, Hr. replace (2 * S i)%nat with (2 * i + 2)%nat in Hl by lia.
      rewrite aknots_even in Hl by lia. replace (S (2 * S i)) with (2 * S i + 1)%nat in Hr by lia. rewrite aknots_odd in Hr by lia.
      rewrite S_INR in Hr. split; [|field; lra].
      destruct Hr as [Hr|(E & Hr)].
      - left. split.
        + apply Rmult_le_pos; [lra|]. left. now apply Rinv_0_lt_compat.
        + apply (Rmult_lt_reg_r dtheta); [exact Hdt|]. unfold Rdiv. rewrite Rmult_assoc, Rinv_l, Rmult_1_r by lra. lra.
      - right. split; [lia|]. rewrite Hr. field. lra.
    Qed.

    (** every point of the curve is a point of the ellipse, at an angle of its piece *)
    Lemma arc_point i t : (i < m)%nat -> 0 <= t < 1 \/ (S i = m /\ t = 1) ->
      exists phi, point_at c (start + INR i * dtheta + t * dtheta) = Ok (on_ellipse C A B phi) /\
        (dtheta <= 2 * PI ->
          start + INR i * dtheta <= phi <= start + INR (S i) * dtheta /\
          (t = 0 -> phi = start + INR i * dtheta) /\ (t = 1 -> phi = start + INR (S i) * dtheta)).
    Proof.
      intros Hi Ht. set (u := start + INR i * dtheta + t * dtheta). set (a := start + INR i * dtheta).
      destruct (arc_piece i t Hi Ht) as (EW & EH). fold u in EW, EH. fold a in EH.
      destruct (conic_angle t (dtheta / 2) ltac:(destruct Ht as [|(_ & ->)]; lra) Hc1) as (HW & psi & Ec & Es & Hb & H0 & H1).
      set (W := (1 - t) * (1 - t) + 2 * t * (1 - t) * cos (dtheta / 2) + t * t) in *.
      exists (a + dtheta / 2 + psi). split.
      - destruct (point_at_spec eps maxv c u arc_curve_ok arc_eps) as (q & Eq & Lq & Hq).
        + destruct arc_dom as (-> & ->). unfold u.
          assert (0 <= INR i * dtheta) by (apply Rmult_le_pos; [apply pos_INR|lra]).
          assert (0 <= t * dtheta) by (apply Rmult_le_pos; destruct Ht as [|(_ & ->)]; lra).
          assert (INR (S i) * dtheta <= INR m * dtheta) by (apply Rmult_le_compat_r; [lra|apply le_INR; lia]).
          rewrite S_INR in *.
          assert (t * dtheta <= 1 * dtheta) by (apply Rmult_le_compat_r; destruct Ht as [|(_ & ->)]; lra). lra.
        + rewrite EW. lra.
        + rewrite Eq. f_equal. change (cdim c) with D in *. apply (vec_ext _ _ (D - 1)); [exact Lq|now rewrite on_ellipse_length|].
          intros l Hl. rewrite Hq by exact Hl. rewrite rc_on_ellipse by lia. unfold nurbs. rewrite EW, EH by exact Hl.
          set (mm := a + dtheta / 2) in *. set (cd := cos (dtheta / 2)) in *. set (sd := sin (dtheta / 2)) in *.
          assert (Ca : cos a = cos mm * cd + sin mm * sd) by (unfold cd, sd; rewrite <- cos_minus; f_equal; unfold mm; lra).
          assert (Sa : sin a = sin mm * cd - cos mm * sd) by (unfold cd, sd; rewrite <- sin_minus; f_equal; unfold mm; lra).
          assert (Cb : cos (a + dtheta) = cos mm * cd - sin mm * sd) by (unfold cd, sd; rewrite <- cos_plus; f_equal; unfold mm; lra).
          assert (Sb : sin (a + dtheta) = sin mm * cd + cos mm * sd) by (unfold cd, sd; rewrite <- sin_plus; f_equal; unfold mm; lra).
          rewrite Ca, Sa, Cb, Sb, cos_plus, sin_plus.
          assert (X : (1 - t) * (1 - t) * (cos mm * cd + sin mm * sd) + 2 * t * (1 - t) * cos mm + t * t * (cos mm * cd - sin mm * sd)
                      = W * (cos mm * cos psi - sin mm * sin psi)).
          { replace (W * (cos mm * cos psi - sin mm * sin psi)) with (cos mm * (W * cos psi) - sin mm * (W * sin psi)) by ring.
            rewrite <- Ec, <- Es. ring. }
          assert (Y : (1 - t) * (1 - t) * (sin mm * cd - cos mm * sd) + 2 * t * (1 - t) * sin mm + t * t * (sin mm * cd + cos mm * sd)
                      = W * (sin mm * cos psi + cos mm * sin psi)).
          { replace (W * (sin mm * cos psi + cos mm * sin psi)) with (sin mm * (W * cos psi) + cos mm * (W * sin psi)) by ring.
            rewrite <- Ec, <- Es. ring. }
          rewrite X, Y. field. lra.
      - intros H2. assert (Hd : 0 <= dtheta / 2 <= PI) by lra. rewrite S_INR. fold a.
        replace (start + (INR i + 1) * dtheta) with (a + dtheta) by (unfold a; ring).
        specialize (Hb Hd). split; [lra|]. split; intros Z; [rewrite (H0 Z Hd)|rewrite (H1 Z Hd)]; lra.
    Qed.

    (** value of a piece from the position on the conic *)
    Lemma arc_point_psi i t psi : (i < m)%nat -> 0 <= t < 1 \/ (S i = m /\ t = 1) ->
      let W := (1 - t) * (1 - t) + 2 * t * (1 - t) * cos (dtheta / 2) + t * t in
      (1 - t) * (1 - t) * cos (dtheta / 2) + 2 * t * (1 - t) + t * t * cos (dtheta / 2) = W * cos psi ->
      (t * t - (1 - t) * (1 - t)) * sin (dtheta / 2) = W * sin psi ->
      point_at c (start + INR i * dtheta + t * dtheta) = Ok (on_ellipse C A B (start + INR i * dtheta + dtheta / 2 + psi)).
    Proof.
      intros Hi Ht W Ec Es. destruct (arc_point i t Hi Ht) as (phi & E & _).
      destruct (conic_angle t (dtheta / 2) ltac:(destruct Ht as [|(_ & ->)]; lra) Hc1) as (HW & _).
      fold W in HW. destruct (arc_piece i t Hi Ht) as (EW & EH). fold W in EW.
      set (u := start + INR i * dtheta + t * dtheta) in *. set (a := start + INR i * dtheta) in *.
      destruct (point_at_spec eps maxv c u arc_curve_ok arc_eps) as (q & Eq & Lq & Hq).
      { destruct arc_dom as (-> & ->). unfold u.
        assert (0 <= INR i * dtheta) by (apply Rmult_le_pos; [apply pos_INR|lra]).
        assert (0 <= t * dtheta) by (apply Rmult_le_pos; destruct Ht as [|(_ & ->)]; lra).
        assert (INR (S i) * dtheta <= INR m * dtheta) by (apply Rmult_le_compat_r; [lra|apply le_INR; lia]).
        rewrite S_INR in *.
        assert (t * dtheta <= 1 * dtheta) by (apply Rmult_le_compat_r; destruct Ht as [|(_ & ->)]; lra). unfold a. lra. }
      { rewrite EW. lra. }
      rewrite Eq. f_equal. change (cdim c) with D in *. apply (vec_ext _ _ (D - 1)); [exact Lq|now rewrite on_ellipse_length|].
      intros l Hl. rewrite Hq by exact Hl. rewrite rc_on_ellipse by lia. unfold nurbs. rewrite EW, EH by exact Hl.
      set (mm := a + dtheta / 2) in *. set (cd := cos (dtheta / 2)) in *. set (sd := sin (dtheta / 2)) in *.
      assert (Ca : cos a = cos mm * cd + sin mm * sd) by (unfold cd, sd; rewrite <- cos_minus; f_equal; unfold mm; lra).
      assert (Sa : sin a = sin mm * cd - cos mm * sd) by (unfold cd, sd; rewrite <- sin_minus; f_equal; unfold mm; lra).
      assert (Cb : cos (a + dtheta) = cos mm * cd - sin mm * sd) by (unfold cd, sd; rewrite <- cos_plus; f_equal; unfold mm; lra).
      assert (Sb : sin (a + dtheta) = sin mm * cd + cos mm * sd) by (unfold cd, sd; rewrite <- sin_plus; f_equal; unfold mm; lra).
      rewrite Ca, Sa, Cb, Sb, cos_plus, sin_plus. fold W.
      assert (X : (1 - t) * (1 - t) * (cos mm * cd + sin mm * sd) + 2 * t * (1 - t) * cos mm + t * t * (cos mm * cd - sin mm * sd)
                  = W * (cos mm * cos psi - sin mm * sin psi)).
      { replace (W * (cos mm * cos psi - sin mm * sin psi)) with (cos mm * (W * cos psi) - sin mm * (W * sin psi)) by ring.
        rewrite <- Ec, <- Es. ring. }
      assert (Y : (1 - t) * (1 - t) * (sin mm * cd - cos mm * sd) + 2 * t * (1 - t) * sin mm + t * t * (sin mm * cd + cos mm * sd)
                  = W * (sin mm * cos psi + cos mm * sin psi)).
      { replace (W * (sin mm * cos psi + cos mm * sin psi)) with (sin mm * (W * cos psi) + cos mm * (W * sin psi)) by ring.
        rewrite <- Ec, <- Es. ring. }
      rewrite X, Y. field. lra.
    Qed.

    (** the piece ends *)
    Lemma arc_point_first i : (i < m)%nat -> point_at c (start + INR i * dtheta) = Ok (on_ellipse C A B (start + INR i * dtheta)).
    Proof.
      intros Hi. pose proof (arc_point_psi i 0 (- (dtheta / 2)) Hi ltac:(left; lra)) as H. cbv zeta in H.
      rewrite cos_neg, sin_neg in H. specialize (H ltac:(ring) ltac:(ring)).
      replace (start + INR i * dtheta + 0 * dtheta) with (start + INR i * dtheta) in H by ring.
      replace (start + INR i * dtheta + dtheta / 2 + - (dtheta / 2)) with (start + INR i * dtheta) in H by lra. exact H.
    Qed.
    Lemma arc_point_last : point_at c (start + INR m * dtheta) = Ok (on_ellipse C A B (start + INR m * dtheta)).
    Proof.
      assert (exists i, m = S i) as (i & Em) by (exists (m - 1)%nat; lia).
      pose proof (arc_point_psi i 1 (dtheta / 2) ltac:(lia) ltac:(right; split; [lia|reflexivity])) as H. cbv zeta in H.
      specialize (H ltac:(ring) ltac:(ring)).
      assert (E : start + INR m * dtheta = start + INR i * dtheta + 1 * dtheta) by (rewrite Em, S_INR; ring).
      rewrite E. rewrite H. do 2 f_equal. lra.
    Qed.

    (** every angle of a piece is reached *)
    Lemma arc_reached i phi : (i < m)%nat -> dtheta < 2 * PI ->
      start + INR i * dtheta <= phi < start + INR (S i) * dtheta ->
      exists t, 0 <= t < 1 /\ point_at c (start + INR i * dtheta + t * dtheta) = Ok (on_ellipse C A B phi).
    Proof.
      intros Hi H2 Hphi. rewrite S_INR in Hphi. set (a := start + INR i * dtheta) in *.
      set (dl := dtheta / 2). set (psi := phi - a - dl).
      assert (Hpsi : - dl <= psi < dl) by (unfold psi, dl, a in *; split; nra).
      set (p := sin ((dl + psi) / 2)). set (q := sin ((dl - psi) / 2)).
      assert (Hp : 0 <= p) by (apply sin_ge_0; unfold dl in *; lra).
      assert (Hq : 0 < q) by (apply sin_gt_0; unfold dl in *; lra).
      assert (Ed : dl = (dl + psi) / 2 + (dl - psi) / 2) by lra. assert (Ep : psi = (dl + psi) / 2 - (dl - psi) / 2) by lra.
      set (al := (dl + psi) / 2) in *. set (be := (dl - psi) / 2) in *.
      pose proof (sin2_cos2 al) as S1. pose proof (sin2_cos2 be) as S2. unfold Rsqr in S1, S2.
      fold p in S1. fold q in S2. set (ca := cos al) in *. set (cb := cos be) in *.
      assert (C1 : ca * ca = 1 - p * p) by lra. assert (C2 : cb * cb = 1 - q * q) by lra.
      assert (Cd : cos dl = ca * cb - p * q) by (rewrite Ed; apply cos_plus).
      assert (Sd : sin dl = p * cb + ca * q) by (rewrite Ed; apply sin_plus).
      assert (Cp : cos psi = ca * cb + p * q) by (rewrite Ep; apply cos_minus).
      assert (Sp : sin psi = p * cb - ca * q) by (rewrite Ep; apply sin_minus).
      assert (W0 : q * q + 2 * p * q * cos dl + p * p = sin dl * sin dl).
      { rewrite Cd, Sd. replace ((p * cb + ca * q) * (p * cb + ca * q)) with (p * p * (cb * cb) + 2 * (p * q) * (ca * cb) + q * q * (ca * ca)) by ring.
        rewrite C1, C2. ring. }
      assert (Hpq : 0 < p + q) by lra.
      exists (p / (p + q)). assert (Hi0 : 0 < / (p + q)) by (now apply Rinv_0_lt_compat).
      assert (Ht : 0 <= p / (p + q) < 1).
      { split; [apply Rmult_le_pos; lra|]. apply (Rmult_lt_reg_r (p + q)); [lra|]. unfold Rdiv. rewrite Rmult_assoc, Rinv_l by lra. lra. }
      split; [exact Ht|].
      pose proof (arc_point_psi i (p / (p + q)) psi Hi ltac:(left; exact Ht)) as H. cbv zeta in H. fold a in H. fold dl in H.
      replace (a + dl + psi) with phi in H by (unfold psi; ring). apply H.
      - assert (K : q * q * cos dl + 2 * p * q + p * p * cos dl = (q * q + 2 * p * q * cos dl + p * p) * cos psi).
        { rewrite W0, Cd, Sd, Cp.
          replace ((p * cb + ca * q) * (p * cb + ca * q)) with (p * p * (cb * cb) + 2 * (p * q) * (ca * cb) + q * q * (ca * ca)) by ring.
          rewrite C1, C2. replace ((p * p * (1 - q * q) + 2 * (p * q) * (ca * cb) + q * q * (1 - p * p)) * (ca * cb + p * q)) with
            ((p * p * (1 - q * q) + q * q * (1 - p * p)) * (ca * cb) + 2 * (p * q) * ((ca * ca) * (cb * cb)) +
             (p * p * (1 - q * q) + 2 * (p * q) * (ca * cb) + q * q * (1 - p * p)) * (p * q)) by ring.
          rewrite C1, C2. ring. }
        transitivity ((q * q * cos dl + 2 * p * q + p * p * cos dl) / ((p + q) * (p + q))); [field; lra|]. rewrite K. field. lra.
      - assert (K : (p * p - q * q) * sin dl = (q * q + 2 * p * q * cos dl + p * p) * sin psi).
        { rewrite W0, Sp. rewrite Sd. replace ((p * cb + ca * q) * (p * cb + ca * q) * (p * cb - ca * q)) with
            ((p * p * (cb * cb) - (ca * ca) * (q * q)) * (p * cb + ca * q)) by ring. rewrite C1, C2. ring. }
        transitivity ((p * p - q * q) * sin dl / ((p + q) * (p + q))); [field; lra|]. rewrite K. field. lra.
    Qed.
  End Eval.
End Real.
