(** * Surfaces of revolution: conics, columns and rotations *)
From Coq Require Import Reals Lra Sorted ZArith String.
From Verif Require Import Base BaseFacts Scalar RSum BSplineSpec BSpline KnotModel KnotSpec KnotFacts KnotProofs VecFacts
  MiscModel MiscProofs CurveModel CurveSpec CurveProofs CurveGeom CurveGeom2 CurveShapes Refine SurfaceModel SurfaceSpec SurfaceProofs
  ArcModel ArcProofs ArcMain ArcCircle ArcTheorems RevolveModel.
Open Scope list_scope. Open Scope R_scope.

(** ** Specification: rotation about an axis (Rodrigues' formula) *)
Definition cross_l (a b : list R) (l : nat) : R :=
  match l with
  | 0%nat => rc 1 a * rc 2 b - rc 2 a * rc 1 b
  | 1%nat => rc 2 a * rc 0 b - rc 0 a * rc 2 b
  | _ => rc 0 a * rc 1 b - rc 1 a * rc 0 b
  end.

(** the point [P] turned by [phi] about the line through [C] with unit direction [K] *)
Definition rotated (C K : list R) (phi : R) (P : list R) : list R :=
  let d := [rc 0 P - rc 0 C; rc 1 P - rc 1 C; rc 2 P - rc 2 C] in
  map (fun l => rc l C + rc l d * cos phi + cross_l K d l * sin phi + rc l K * dot K d * (1 - cos phi)) (seq 0 3).

(** squared distance of [P] from that line *)
Definition axis_dist2 (C K P : list R) : R :=
  let d := [rc 0 P - rc 0 C; rc 1 P - rc 1 C; rc 2 P - rc 2 C] in dot d d - dot K d * dot K d.

(** ** The position on a rational quadratic *)
Definition conic_w (t d : R) : R := (1 - t) * (1 - t) + 2 * t * (1 - t) * cos d + t * t.
Definition on_conic (t d psi : R) : Prop :=
  (1 - t) * (1 - t) * cos d + 2 * t * (1 - t) + t * t * cos d = conic_w t d * cos psi /\
  (t * t - (1 - t) * (1 - t)) * sin d = conic_w t d * sin psi.

Lemma on_conic_neg t d psi : on_conic t d psi -> on_conic t (- d) (- psi).
Proof. unfold on_conic, conic_w. rewrite !cos_neg, !sin_neg. intros (A & B). split; [exact A|]. rewrite Ropp_mult_distr_r_reverse, B. ring. Qed.

Definition between (a b x : R) : Prop := a <= x <= b \/ b <= x <= a.

Lemma conic_pos t d : 0 <= t <= 1 -> -1 < cos d -> 0 < conic_w t d.
Proof. intros Ht Hc. apply (conic_angle t d Ht Hc). Qed.

Lemma conic_exists t d : 0 <= t <= 1 -> -1 < cos d -> - PI <= d <= PI ->
  exists psi, on_conic t d psi /\ between (- d) d psi.
Proof.
  intros Ht Hc Hd. destruct (Rle_dec 0 d) as [P|P].
  - destruct (conic_angle t d Ht Hc) as (_ & psi & A & B & H & _). exists psi. split; [split; assumption|]. left. apply H. lra.
  - destruct (conic_angle t (- d) Ht ltac:(rewrite cos_neg; exact Hc)) as (_ & psi & A & B & H & _). exists (- psi). split.
    + replace d with (- - d) by ring. apply on_conic_neg. split; assumption.
    + right. specialize (H ltac:(lra)). lra.
Qed.

Lemma conic_0 d : on_conic 0 d (- d).
Proof. unfold on_conic, conic_w. rewrite cos_neg, sin_neg. split; ring. Qed.
Lemma conic_1 d : on_conic 1 d d.
Proof. unfold on_conic, conic_w. split; ring. Qed.

Lemma conic_reach_pos dl psi : dl < PI -> - dl <= psi < dl -> exists t, 0 <= t < 1 /\ on_conic t dl psi.
Proof.
  intros H2 Hpsi.
  set (p := sin ((dl + psi) / 2)). set (q := sin ((dl - psi) / 2)).
  assert (Hp : 0 <= p) by (apply sin_ge_0; lra).
  assert (Hq : 0 < q) by (apply sin_gt_0; lra).
  assert (Ed : dl = (dl + psi) / 2 + (dl - psi) / 2) by lra. assert (Ep : psi = (dl + psi) / 2 - (dl - psi) / 2) by lra.
  set (al := (dl + psi) / 2) in *. set (be := (dl - psi) / 2) in *.
  pose proof (sin2_cos2 al) as S1. pose proof (sin2_cos2 be) as S2. unfold Rsqr in S1, S2.
  fold p in S1. fold q in S2. set (ca := cos al) in *. set (cb := cos be) in *.
  assert (C1 : ca * ca = 1 - p * p) by lra. assert (C2 : cb * cb = 1 - q * q) by lra.
  assert (Cd : cos dl = ca * cb - p * q) by (rewrite Ed; apply cos_plus).
  assert (Sd : sin dl = p * cb + ca * q) by (rewrite Ed; apply sin_plus).
  assert (Cp : cos psi = ca * cb + p * q) by (rewrite Ep; apply cos_minus).
  assert (Sp : sin psi = p * cb - ca * q) by (rewrite Ep; apply sin_minus).
  assert (W0 : q * q + 2 * p * q * cos dl + p * p = sin dl * sin dl).
  { rewrite Cd, Sd. replace ((p * cb + ca * q) * (p * cb + ca * q)) with (p * p * (cb * cb) + 2 * (p * q) * (ca * cb) + q * q * (ca * ca)) by ring.
    rewrite C1, C2. ring. }
  assert (Hpq : 0 < p + q) by lra.
  exists (p / (p + q)). assert (Hi0 : 0 < / (p + q)) by (now apply Rinv_0_lt_compat).
  assert (Ht : 0 <= p / (p + q) < 1).
  { split; [apply Rmult_le_pos; lra|]. apply (Rmult_lt_reg_r (p + q)); [lra|]. unfold Rdiv. rewrite Rmult_assoc, Rinv_l by lra. lra. }
  split; [exact Ht|]. unfold on_conic, conic_w. split.
  - assert (K : q * q * cos dl + 2 * p * q + p * p * cos dl = (q * q + 2 * p * q * cos dl + p * p) * cos psi).
    { rewrite W0, Cd, Sd, Cp.
      replace ((p * cb + ca * q) * (p * cb + ca * q)) with (p * p * (cb * cb) + 2 * (p * q) * (ca * cb) + q * q * (ca * ca)) by ring.
      rewrite C1, C2. replace ((p * p * (1 - q * q) + 2 * (p * q) * (ca * cb) + q * q * (1 - p * p)) * (ca * cb + p * q)) with
        ((p * p * (1 - q * q) + q * q * (1 - p * p)) * (ca * cb) + 2 * (p * q) * ((ca * ca) * (cb * cb)) +
         (p * p * (1 - q * q) + 2 * (p * q) * (ca * cb) + q * q * (1 - p * p)) * (p * q)) by ring.
      rewrite C1, C2. ring. }
    transitivity ((q * q * cos dl + 2 * p * q + p * p * cos dl) / ((p + q) * (p + q))); [field; lra|]. rewrite K. field. lra.
  - assert (K : (p * p - q * q) * sin dl = (q * q + 2 * p * q * cos dl + p * p) * sin psi).
    { rewrite W0, Sp. rewrite Sd. replace ((p * cb + ca * q) * (p * cb + ca * q) * (p * cb - ca * q)) with
        ((p * p * (cb * cb) - (ca * ca) * (q * q)) * (p * cb + ca * q)) by ring. rewrite C1, C2. ring. }
    transitivity ((p * p - q * q) * sin dl / ((p + q) * (p + q))); [field; lra|]. rewrite K. field. lra.
Qed.

Lemma conic_reach d psi : - PI < d < PI -> between (- d) d psi -> psi <> d -> exists t, 0 <= t < 1 /\ on_conic t d psi.
Proof.
  intros Hd [Hb|Hb] Hn.
  - apply conic_reach_pos; lra.
  - destruct (conic_reach_pos (- d) (- psi)) as (t & Ht & Hc); [lra|lra|]. exists t. split; [exact Ht|].
    replace d with (- - d) by ring. replace psi with (- - psi) by ring. now apply on_conic_neg.
Qed.

(** a conic arc between two positions on the ellipse is a position on the ellipse *)
Lemma conic_point t d a psi C A B : on_conic t d psi ->
  (1 - t) * (1 - t) * (C + A * cos a + B * sin a) +
  2 * t * (1 - t) * (C * cos d + A * cos (a + d) + B * sin (a + d)) +
  t * t * (C + A * cos (a + 2 * d) + B * sin (a + 2 * d)) =
  conic_w t d * (C + A * cos (a + d + psi) + B * sin (a + d + psi)).
Proof.
  intros (Ec & Es). set (mm := a + d). set (cd := cos d) in *. set (sd := sin d) in *. set (W := conic_w t d) in *.
  assert (Ca : cos a = cos mm * cd + sin mm * sd) by (unfold cd, sd; rewrite <- cos_minus; f_equal; unfold mm; lra).
  assert (Sa : sin a = sin mm * cd - cos mm * sd) by (unfold cd, sd; rewrite <- sin_minus; f_equal; unfold mm; lra).
  assert (Cb : cos (a + 2 * d) = cos mm * cd - sin mm * sd) by (unfold cd, sd; rewrite <- cos_plus; f_equal; unfold mm; lra).
  assert (Sb : sin (a + 2 * d) = sin mm * cd + cos mm * sd) by (unfold cd, sd; rewrite <- sin_plus; f_equal; unfold mm; lra).
  rewrite Ca, Sa, Cb, Sb, (cos_plus mm psi), (sin_plus mm psi).
  assert (X : (1 - t) * (1 - t) * (cos mm * cd + sin mm * sd) + 2 * t * (1 - t) * cos mm + t * t * (cos mm * cd - sin mm * sd)
              = W * (cos mm * cos psi - sin mm * sin psi)).
  { replace (W * (cos mm * cos psi - sin mm * sin psi)) with (cos mm * (W * cos psi) - sin mm * (W * sin psi)) by ring.
    rewrite <- Ec, <- Es. ring. }
  assert (Y : (1 - t) * (1 - t) * (sin mm * cd - cos mm * sd) + 2 * t * (1 - t) * sin mm + t * t * (sin mm * cd + cos mm * sd)
              = W * (sin mm * cos psi + cos mm * sin psi)).
  { replace (W * (sin mm * cos psi + cos mm * sin psi)) with (sin mm * (W * cos psi) + cos mm * (W * sin psi)) by ring.
    rewrite <- Ec, <- Es. ring. }
  transitivity (C * W + A * (W * (cos mm * cos psi - sin mm * sin psi)) + B * (W * (sin mm * cos psi + cos mm * sin psi))); [|ring].
  rewrite <- X, <- Y. unfold W, conic_w. fold cd. ring.
Qed.

(** ** A quadratic curve with double knots, piece by piece *)
Lemma quad_piece c m start h l i t :
  curve_ok c -> cdeg c = 2%nat -> length (cpts c) = (2 * m + 1)%nat -> cknots c = aknots m start h -> 0 < h ->
  (i < m)%nat -> 0 <= t < 1 \/ (S i = m /\ t = 1) ->
  hcoord c l (start + INR i * h + t * h) =
  (1 - t) * (1 - t) * cpc c l (2 * i) + 2 * t * (1 - t) * cpc c l (2 * i + 1) + t * t * cpc c l (2 * S i).
Proof.
  intros Hc Hd La Hk Hh Hi Ht. set (u := start + INR i * h + t * h). set (a := start + INR i * h).
  assert (Ks : kf (cknots c) (2 * i + 2) = a) by (rewrite Hk; now apply aknots_even; lia).
  assert (Ks1 : kf (cknots c) (S (2 * i + 2)) = a + h).
  { rewrite Hk. replace (S (2 * i + 2)) with (2 * S i + 1)%nat by lia. rewrite aknots_odd by lia. rewrite S_INR. unfold a. ring. }
  assert (Km : kf (cknots c) (2 * i + 2 - 1) = a).
  { rewrite Hk. replace (2 * i + 2 - 1)%nat with (2 * i + 1)%nat by lia. now apply aknots_odd; lia. }
  assert (Ks2 : kf (cknots c) (S (S (2 * i + 2))) = a + h).
  { rewrite Hk. replace (S (S (2 * i + 2))) with (2 * S i + 2)%nat by lia. rewrite aknots_even by lia. rewrite S_INR. unfold a. ring. }
  assert (Cl : clast c = (2 * m)%nat) by (unfold clast; rewrite La; lia).
  assert (Hin : in_span (cknots c) (clast c) (2 * i + 2) u).
  { unfold in_span. rewrite Ks, Ks1, Cl. split; [lra|]. unfold u. fold a.
    destruct Ht as [Ht|(E & ->)].
    - split; [assert (0 <= t * h) by (apply Rmult_le_pos; lra); lra|]. left.
      assert (t * h < 1 * h) by (apply Rmult_lt_compat_r; lra). lra.
    - split; [lra|]. right. split; [lia|lra]. }
  destruct (bs_quadratic (kf (cknots c)) (2 * i + 2) u ltac:(lia)) as (B0 & B1 & B2).
  { rewrite Ks, Ks1. lra. } { now rewrite Ks, Km. } { now rewrite Ks1, Ks2. }
  assert (Et : (u - kf (cknots c) (2 * i + 2)) / (kf (cknots c) (S (2 * i + 2)) - kf (cknots c) (2 * i + 2)) = t).
  { rewrite Ks, Ks1. unfold u. fold a. field. lra. }
  rewrite Et in B0, B1, B2. clear Et.
  rewrite <- (piece_hcoord c (2 * i + 2) l u Hc Hin) by lia.
  rewrite Hd. rewrite piece_window by lia. replace (2 * i + 2 - 2)%nat with (2 * i)%nat by lia.
  cbn [rsum]. rewrite !Nat.add_0_r, Rplus_0_l.
  replace (2 * i + 2 - 2)%nat with (2 * i)%nat in B0 by lia. replace (2 * i + 2 - 1)%nat with (2 * i + 1)%nat in B1 by lia.
  rewrite B0, B1, B2. do 3 f_equal. lia.
Qed.

(** every parameter of such a knot vector lies in one piece *)
Lemma piece_of_param m start h u : 0 < h -> (1 <= m)%nat -> start <= u <= start + INR m * h ->
  exists i t, (i < m)%nat /\ (0 <= t < 1 \/ (S i = m /\ t = 1)) /\ u = start + INR i * h + t * h.
Proof.
  intros Hh Hm Hu. destruct (Req_dec u (start + INR m * h)) as [E|N].
  - exists (m - 1)%nat, 1. split; [lia|]. split; [right; split; [lia|reflexivity]|].
    rewrite E, minus_INR by lia. cbn [INR]. ring.
  - destruct (piece_of_angle start h m u Hh ltac:(lra)) as (i & Hi & Hb). exists i, ((u - (start + INR i * h)) / h).
    split; [exact Hi|]. rewrite S_INR in Hb. split; [left|field; lra].
    assert (E : (u - (start + INR i * h)) / h * h = u - (start + INR i * h)) by (field; lra).
    set (q := (u - (start + INR i * h)) / h) in *. split; apply Rnot_lt_le || apply Rnot_le_lt; intros Q; nra.
Qed.
