(** * C98: casts between floating point types *)
From Coq Require Import Reals Lra Lia Sorted ZArith Bool List.
From Verif Require Import Base BaseFacts Scalar RSum BSplineSpec BSpline KnotModel KnotSpec KnotFacts KnotProofs VecFacts
  CurveModel CurveSpec CurveProofs CurveGeom CurveGeom2 SurfaceModel SurfaceSpec SurfaceProofs BBoxModel Rounding CastModel.
Import ListNotations.
Open Scope list_scope. Open Scope R_scope.

(** ** There and back *)
Section Trip.
  Context {A B : Type} (f : A -> B) (g : B -> A).
  Hypothesis back : forall x, g (f x) = x.
  Lemma map_back l : map g (map f l) = l.
  Proof. induction l as [|x l IH]; cbn; [reflexivity|now rewrite back, IH]. Qed.
  Lemma map_back2 l : map (map g) (map (map f) l) = l.
  Proof. induction l as [|x l IH]; cbn; [reflexivity|now rewrite map_back, IH]. Qed.
  Lemma map_back3 l : map (map (map g)) (map (map (map f)) l) = l.
  Proof. induction l as [|x l IH]; cbn; [reflexivity|now rewrite map_back2, IH]. Qed.
  Theorem cast_round_trip (c : Curve A) (s : Surf A) (b : BBox A) (t : @Tess A) :
    cast_curve g (cast_curve f c) = c /\ cast_surf g (cast_surf f s) = s /\ cast_box g (cast_box f b) = b /\ cast_tess g (cast_tess f t) = t.
  Proof.
    destruct c as [D p P k], s as [D' du dv uk vk net], b as [mn mx], t as [ps ns fs uvs].
    unfold cast_curve, cast_surf, cast_box, cast_tess, cast_knots. cbn. rewrite !map_back, !map_back2, !map_back3. repeat split.
    f_equal. induction uvs as [|[u v] l IH]; cbn; [reflexivity|now rewrite !back, IH].
  Qed.
End Trip.

(** ** Well-formedness *)
Section Mono.
  Variable rnd : R -> R.
  Hypothesis mono : forall x y, x <= y -> rnd x <= rnd y.

  Lemma sorted_cast k : Sorted Rle k -> Sorted Rle (map rnd k).
  Proof. induction 1 as [|x l S IH H]; cbn; constructor; auto. destruct H; cbn; constructor; auto. Qed.

  Lemma knots_ok_cast p n k : knots_ok p n k -> (knots_ok p n (map rnd k) <-> rnd (kf k p) < rnd (kf k (p + 1)) /\ rnd (kf k n) < rnd (kf k (n + 1))).
  Proof.
    intros [L P S F E]. assert (Hk : k <> []) by (intros ->; cbn in L; lia). split.
    - intros [_ _ _ F' E']. rewrite !kf_map in F', E' by exact Hk. auto.
    - intros (F' & E'). constructor; rewrite ?map_length, ?kf_map by exact Hk; auto using sorted_cast.
  Qed.

  (** the cast of a valid curve is valid exactly if its first and its last span do not collapse *)
  Theorem cast_curve_ok c : curve_ok c ->
    (curve_ok (cast_curve rnd c) <-> rnd (kf (cknots c) (cdeg c)) < rnd (kf (cknots c) (cdeg c + 1)) /\ rnd (kf (cknots c) (clast c)) < rnd (kf (cknots c) (clast c + 1))).
  Proof.
    intros [D P L K]. assert (El : clast (cast_curve rnd c) = clast c) by (unfold clast; cbn; now rewrite map_length).
    rewrite <- (knots_ok_cast _ _ _ K). split.
    - intros [_ _ _ K']. rewrite El in K'. exact K'.
    - intros K'. constructor; rewrite ?El; cbn [cast_curve cdim cdeg cpts cknots]; rewrite ?map_length; auto.
      apply Forall_map. eapply Forall_impl; [|exact P]. intros q Hq. cbv beta. now rewrite map_length.
  Qed.

  Theorem cast_surf_ok s : surf_ok s ->
    (surf_ok (cast_surf rnd s) <->
     (rnd (kf (suk s) (sdu s)) < rnd (kf (suk s) (sdu s + 1)) /\ rnd (kf (suk s) (nrow s - 1)) < rnd (kf (suk s) (nrow s - 1 + 1))) /\
     (rnd (kf (svk s) (sdv s)) < rnd (kf (svk s) (sdv s + 1)) /\ rnd (kf (svk s) (ncol s - 1)) < rnd (kf (svk s) (ncol s - 1 + 1)))).
  Proof.
    intros [D Rc P U V Ku Kv]. assert (Nr : nrow (cast_surf rnd s) = nrow s) by (unfold nrow; cbn; now rewrite map_length).
    assert (Nc : ncol (cast_surf rnd s) = ncol s).
    { unfold ncol. cbn [cast_surf snet]. rewrite (nth_map_lt (map (map rnd)) (snet s) 0 [] []) by (fold (nrow s); lia). apply map_length. }
    rewrite <- (knots_ok_cast _ _ _ Ku), <- (knots_ok_cast _ _ _ Kv). split.
    - intros [_ _ _ _ _ Ku' Kv']. rewrite Nr in Ku'. rewrite Nc in Kv'. split; [exact Ku'|exact Kv'].
    - intros (Ku' & Kv'). constructor; rewrite ?Nr, ?Nc; cbn [cast_surf sdim sdu sdv suk svk snet]; auto.
      + apply Forall_map. eapply Forall_impl; [|exact Rc]. intros r Hr. cbv beta. now rewrite map_length.
      + apply Forall_map. eapply Forall_impl; [|exact P]. intros r Hr. apply Forall_map. eapply Forall_impl; [|exact Hr]. intros q Hq. cbv beta. now rewrite map_length.
  Qed.

  (** a box contains the casts of the points it contained *)
  Variables eps maxv : R.
  Local Hint Extern 0 (Scalar R) => exact (ROps eps maxv) : typeclass_instances.
  Theorem cast_box_contains D (b : BBox R) p : length (bmin b) = D -> length (bmax b) = D -> length p = D ->
    bb_contains D b p = true -> bb_contains D (cast_box rnd b) (map rnd p) = true.
  Proof.
    intros L1 L2 L3. unfold bb_contains. rewrite !forallb_forall. intros H i Hi. specialize (H i Hi). apply in_seq in Hi.
    cbn [cast_box bmin bmax]. unfold coord in *. rewrite !(nth_map_lt rnd _ i szero szero) by lia. revert H. rs.
    destruct (Rleb_spec (nth i (bmin b) 0) (nth i p 0)) as [A|]; [|discriminate]. destruct (Rleb_spec (nth i p 0) (nth i (bmax b) 0)) as [B|]; [|discriminate]. intros _.
    pose proof (mono _ _ A). pose proof (mono _ _ B). destruct (Rleb_spec (rnd (nth i (bmin b) 0)) (rnd (nth i p 0))); [|lra]. destruct (Rleb_spec (rnd (nth i p 0)) (rnd (nth i (bmax b) 0))); [reflexivity|lra].
  Qed.
End Mono.

(** ** Distance *)
Section Near.
  Variables (mu : R) (rnd : R -> R).
  Hypothesis Hr : rounding mu rnd.

  (** spans wider than the rounding errors of their ends do not collapse *)
  Lemma span_kept a b : mu * (Rabs a + Rabs b) < b - a -> rnd a < rnd b.
  Proof.
    intros H. pose proof (rd_rel _ _ Hr a) as Ha. pose proof (rd_rel _ _ Hr b) as Hb. pose proof (Rle_abs (rnd a - a)). pose proof (Rle_abs (- (rnd b - b))) as Q. rewrite Rabs_Ropp in Q. lra.
  Qed.
  Lemma cast_pos x : 0 < x -> 0 < rnd x.
  Proof.
    intros H. pose proof (rd_rel _ _ Hr x) as Ha. pose proof (Rle_abs (- (rnd x - x))) as Q. rewrite Rabs_Ropp in Q. rewrite (Rabs_pos_eq x) in Ha by lra.
    destruct (rd_mu _ _ Hr). assert (mu * x < 1 * x) by (apply Rmult_lt_compat_r; lra). lra.
  Qed.

  Lemma ratio_near A h h' w w' : 0 < w -> Rabs h <= A * w -> Rabs (h' - h) <= mu * (A * w) -> Rabs (w' - w) <= mu * w ->
    0 < w' /\ Rabs (h' / w' - h / w) <= 2 * mu * A / (1 - mu).
  Proof.
    intros Hw H0 H1 H2. destruct (rd_mu _ _ Hr) as (M0 & M1).
    assert (A0 : 0 <= A). { pose proof (Rabs_pos h). destruct (Rle_or_lt 0 A) as [|N]; [assumption|]. assert (A * w < 0 * w) by (apply Rmult_lt_compat_r; lra). lra. }
    assert (W : (1 - mu) * w <= w'). { pose proof (Rle_abs (- (w' - w))) as Q. rewrite Rabs_Ropp in Q. lra. }
    assert (P : 0 < (1 - mu) * w) by (apply Rmult_lt_0_compat; lra). split; [lra|].
    replace (h' / w' - h / w) with (((h' - h) - h / w * (w' - w)) / w') by (field; lra).
    unfold Rdiv at 1. rewrite Rabs_mult, (Rabs_pos_eq (/ w')) by (apply Rlt_le, Rinv_0_lt_compat; lra).
    assert (Q : Rabs (h / w) <= A). { unfold Rdiv. rewrite Rabs_mult, (Rabs_pos_eq (/ w)) by (apply Rlt_le, Rinv_0_lt_compat; lra). apply (Rmult_le_reg_r w); [lra|]. rewrite Rmult_assoc, Rinv_l by lra. lra. }
    assert (S : Rabs ((h' - h) - h / w * (w' - w)) <= 2 * mu * A * w).
    { eapply Rle_trans; [apply Rabs_triang|]. rewrite Rabs_Ropp, Rabs_mult. pose proof (Rmult_le_compat _ _ _ _ (Rabs_pos (h / w)) (Rabs_pos (w' - w)) Q H2) as Z. lra. }
    assert (N : 0 <= 2 * mu * A) by (apply Rmult_le_pos; [|exact A0]; lra).
    eapply Rle_trans; [apply Rmult_le_compat; [apply Rabs_pos|apply Rlt_le, Rinv_0_lt_compat; lra|exact S|apply Rinv_le_contravar; [exact P|exact W]]|].
    right. field. lra.
  Qed.

  Lemma sum_near n N h h' (w : nat -> R) A : (forall j, (j < n)%nat -> 0 <= N j) -> (forall j, (j < n)%nat -> Rabs (h j) <= A * w j) -> (forall j, (j < n)%nat -> Rabs (h' j - h j) <= mu * (A * w j)) ->
    Rabs (rsum n (fun j => N j * h j)) <= A * rsum n (fun j => N j * w j) /\ Rabs (rsum n (fun j => N j * h' j) - rsum n (fun j => N j * h j)) <= mu * (A * rsum n (fun j => N j * w j)).
  Proof.
    intros HN H0 H1. induction n as [|n IH]; cbn [rsum]; [rewrite !Rminus_0_r, Rabs_R0; lra|].
    destruct IH as (I0 & I1); auto. pose proof (HN n ltac:(lia)) as Pn. pose proof (H0 n ltac:(lia)) as B0. pose proof (H1 n ltac:(lia)) as B1. split.
    - eapply Rle_trans; [apply Rabs_triang|]. rewrite Rabs_mult, (Rabs_pos_eq (N n)) by exact Pn. pose proof (Rmult_le_compat_l _ _ _ Pn B0). lra.
    - match goal with |- Rabs (?a + N n * h' n - (?b + N n * h n)) <= _ => replace (a + N n * h' n - (b + N n * h n)) with ((a - b) + N n * (h' n - h n)) by ring end.
      eapply Rle_trans; [apply Rabs_triang|]. rewrite Rabs_mult, (Rabs_pos_eq (N n)) by exact Pn. pose proof (Rmult_le_compat_l _ _ _ Pn B1). lra.
  Qed.

  Variables eps maxv : R.
  Local Hint Extern 0 (Scalar R) => exact (ROps eps maxv) : typeclass_instances.

  Theorem cast_near c A u p : curve_ok c -> curve_eps eps c -> pos_weights c -> map rnd (cknots c) = cknots c -> dom0 c <= u <= dom1 c ->
    (forall i j, (i < cdim c - 1)%nat -> (j < length (cpts c))%nat -> Rabs (cpc c i j) <= A * cpc c (cdim c - 1) j) ->
    point_at c u = Ok p ->
    exists q, point_at (cast_curve rnd c) u = Ok q /\ length q = (cdim c - 1)%nat /\
      forall i, (i < cdim c - 1)%nat -> Rabs (rc i q - rc i p) <= 2 * mu * A / (1 - mu).
  Proof.
    intros Hc He Hw Hk Hu HA Ep. set (c' := cast_curve rnd c). set (D := (cdim c - 1)%nat).
    assert (Kp : cknots c' = cknots c) by exact Hk. assert (Lp : length (cpts c') = length (cpts c)) by (cbn; apply map_length).
    assert (El : clast c' = clast c) by (unfold clast; now rewrite Lp).
    assert (Hc' : curve_ok c').
    { apply (cast_curve_ok rnd (rd_mono _ _ Hr) c Hc). assert (Z : cknots c <> []) by (pose proof (curve_len c Hc); pose proof (co_len c Hc); intros E; rewrite E in *; cbn in *; lia). rewrite <- !kf_map by exact Z. rewrite Hk. split; apply (co_knots c Hc). }
    assert (He' : curve_eps eps c') by (unfold curve_eps; rewrite El, Kp; exact He).
    assert (Dm : dom0 c' = dom0 c /\ dom1 c' = dom1 c) by (unfold dom0, dom1; rewrite Kp, Lp; split; reflexivity). destruct Dm as (D0 & D1).
    assert (Pc : forall i j, (i < cdim c)%nat -> (j < length (cpts c))%nat -> cpc c' i j = rnd (cpc c i j)).
    { intros i j Hi Hj. unfold cpc, c', rc. cbn [cast_curve cpts]. rewrite (nth_map_lt (map rnd) (cpts c) j [] []) by exact Hj. apply nth_map_lt.
      pose proof (co_pts c Hc) as F. rewrite Forall_forall in F. rewrite F by (now apply nth_In). exact Hi. }
    pose proof (co_dim c Hc) as HD. assert (HDD : (D < cdim c)%nat) by (unfold D; lia).
    assert (Hw' : pos_weights c').
    { intros j Hj. rewrite Lp in Hj. change (cdim c' - 1)%nat with D. rewrite Pc by auto. apply cast_pos. now apply Hw. }
    pose proof (wfun_pos eps maxv c u Hc He Hw Hu) as W. assert (Hu' : dom0 c' <= u <= dom1 c') by (rewrite D0, D1; exact Hu).
    pose proof (wfun_pos eps maxv c' u Hc' He' Hw' Hu') as W'.
    destruct (point_at_spec eps maxv c u Hc He Hu ltac:(lra)) as (p0 & E0 & _ & V). rewrite Ep in E0. injection E0 as <-.
    destruct (point_at_spec eps maxv c' u Hc' He' Hu' ltac:(lra)) as (q & Eq & Lq & V'). exists q. split; [exact Eq|]. split; [exact Lq|].
    intros i Hi. rewrite (V i Hi), (V' i Hi). unfold nurbs.
    set (N := fun j => cox_closed (kf (cknots c)) (dom1 c) (cdeg c) j u).
    assert (HN : forall j, (j < length (cpts c))%nat -> 0 <= N j) by (intros j Hj; now apply cox_nonneg).
    assert (Hh : forall k, hcoord c k u = rsum (length (cpts c)) (fun j => N j * cpc c k j)) by reflexivity.
    assert (Hh' : forall k, (k < cdim c)%nat -> hcoord c' k u = rsum (length (cpts c)) (fun j => N j * rnd (cpc c k j))).
    { intros k Hkk. unfold hcoord. rewrite Lp, Kp, D1. apply rsum_ext. intros j Hj. rewrite Pc by auto. reflexivity. }
    destruct (sum_near (length (cpts c)) N (cpc c i) (fun j => rnd (cpc c i j)) (cpc c D) A HN) as (S0 & S1).
    { intros j Hj. now apply HA. }
    { intros j Hj. eapply Rle_trans; [apply (rd_rel _ _ Hr)|]. apply Rmult_le_compat_l; [apply (rd_mu _ _ Hr)|now apply HA]. }
    destruct (sum_near (length (cpts c)) N (cpc c D) (fun j => rnd (cpc c D j)) (cpc c D) 1 HN) as (_ & S2).
    { intros j Hj. pose proof (Hw j Hj) as Q. fold D in Q. rewrite Rabs_pos_eq by lra. lra. }
    { intros j Hj. eapply Rle_trans; [apply (rd_rel _ _ Hr)|]. pose proof (Hw j Hj) as Q. fold D in Q. rewrite Rabs_pos_eq by lra. lra. }
    unfold wfun in *. change (cdim c' - 1)%nat with D in *. fold D in W. fold D. rewrite !Hh in *. rewrite !Hh' in * by (unfold D in *; lia).
    apply (ratio_near A); auto. rewrite Rmult_1_l in S2. exact S2.
  Qed.

  Theorem cast_surf_near s A u v p : surf_ok s -> surf_eps eps s -> spos s -> map rnd (suk s) = suk s -> map rnd (svk s) = svk s -> in_dom s u v ->
    (forall i a b, (i < sdim s - 1)%nat -> (a < nrow s)%nat -> (b < ncol s)%nat -> Rabs (spc s i a b) <= A * spc s (sdim s - 1) a b) ->
    surf_point_at s u v = Ok p ->
    exists q, surf_point_at (cast_surf rnd s) u v = Ok q /\ length q = (sdim s - 1)%nat /\
      forall i, (i < sdim s - 1)%nat -> Rabs (rc i q - rc i p) <= 2 * mu * A / (1 - mu).
  Proof.
    intros Hs He Hw Hku Hkv Hd HA Ep. set (s' := cast_surf rnd s). set (D := (sdim s - 1)%nat).
    pose proof (so_u s Hs) as HU. pose proof (so_v s Hs) as HV. pose proof (so_dim s Hs) as HD. assert (HDD : (D < sdim s)%nat) by (unfold D; lia).
    assert (Nr : nrow s' = nrow s) by (unfold nrow, s'; cbn; now rewrite map_length).
    assert (Nc : ncol s' = ncol s).
    { unfold ncol, s'. cbn [cast_surf snet]. rewrite (nth_map_lt (map (map rnd)) (snet s) 0 [] []) by (fold (nrow s); lia). apply map_length. }
    assert (Ku : suk s' = suk s) by exact Hku. assert (Kv : svk s' = svk s) by exact Hkv.
    assert (Hs' : surf_ok s').
    { apply (cast_surf_ok rnd (rd_mono _ _ Hr) s Hs).
      assert (Zu : suk s <> []) by (intros E; pose proof (ko_len _ _ _ (so_uk s Hs)) as Z; rewrite E in Z; cbn in Z; lia).
      assert (Zv : svk s <> []) by (intros E; pose proof (ko_len _ _ _ (so_vk s Hs)) as Z; rewrite E in Z; cbn in Z; lia).
      rewrite <- !(kf_map rnd (suk s)), <- !(kf_map rnd (svk s)) by assumption. rewrite Hku, Hkv. repeat split; first [apply (so_uk s Hs)|apply (so_vk s Hs)]. }
    assert (He' : surf_eps eps s') by (split; rewrite ?Nr, ?Nc, ?Ku, ?Kv; apply He).
    assert (Hd' : in_dom s' u v) by (unfold in_dom, u0, u1, v0, v1 in *; rewrite Nr, Nc, Ku, Kv; exact Hd).
    assert (Pc : forall i a b, (i < sdim s)%nat -> (a < nrow s)%nat -> (b < ncol s)%nat -> spc s' i a b = rnd (spc s i a b)).
    { intros i a b Hi Ha Hb. unfold spc, s', rc. cbn [cast_surf snet]. rewrite (nth_map_lt (map (map rnd)) (snet s) a [] []) by exact Ha.
      pose proof (so_rect s Hs) as F. rewrite Forall_forall in F. pose proof (so_pts s Hs) as G. rewrite Forall_forall in G. assert (Ir : In (nth a (snet s) []) (snet s)) by now apply nth_In.
      rewrite (nth_map_lt (map rnd) _ b [] []) by (rewrite F; auto). apply nth_map_lt. specialize (G _ Ir). rewrite Forall_forall in G. rewrite G by (apply nth_In; rewrite F; auto). exact Hi. }
    assert (Hw' : spos s').
    { intros a b Ha Hb. rewrite Nr in Ha. rewrite Nc in Hb. change (sdim s' - 1)%nat with D. rewrite Pc by auto. apply cast_pos. now apply Hw. }
    pose proof (swfun_pos eps maxv s u v Hs He Hw Hd) as W. pose proof (swfun_pos eps maxv s' u v Hs' He' Hw' Hd') as W'.
    destruct (surf_point_at_spec eps maxv s u v Hs He Hd ltac:(lra)) as (p0 & E0 & _ & V). rewrite Ep in E0. injection E0 as <-.
    destruct (surf_point_at_spec eps maxv s' u v Hs' He' Hd' ltac:(lra)) as (q & Eq & Lq & V'). exists q. split; [exact Eq|]. split; [exact Lq|].
    intros i Hi. rewrite (V i Hi), (V' i Hi). unfold snurbs.
    set (row := fun k a => rsum (ncol s) (fun b => Nv s b v * spc s k a b)). set (row' := fun k a => rsum (ncol s) (fun b => Nv s b v * rnd (spc s k a b))).
    assert (Hh : forall k, shcoord s k u v = rsum (nrow s) (fun a => Nu s a u * row k a)).
    { intros k. unfold shcoord, row. apply rsum_ext. intros a Ha. rewrite <- rsum_scal. apply rsum_ext. intros b Hb. ring. }
    assert (Hh' : forall k, (k < sdim s)%nat -> shcoord s' k u v = rsum (nrow s) (fun a => Nu s a u * row' k a)).
    { intros k Hk. unfold shcoord, row'. rewrite Nr, Nc. apply rsum_ext. intros a Ha. rewrite <- rsum_scal. apply rsum_ext. intros b Hb. rewrite Pc by auto. unfold Nu, Nv, u1, v1. rewrite Nr, Nc, Ku, Kv. cbn [s' cast_surf sdu sdv]. ring. }
    destruct Hd as (Du & Dv).
    assert (PN : forall b, (b < ncol s)%nat -> 0 <= Nv s b v) by (intros b _; now apply Nv_nonneg). assert (PU : forall a, (a < nrow s)%nat -> 0 <= Nu s a u) by (intros a _; now apply Nu_nonneg).
    assert (Wp : forall a b, (a < nrow s)%nat -> (b < ncol s)%nat -> Rabs (spc s D a b) <= 1 * spc s D a b) by (intros a b Ha Hb; pose proof (Hw a b Ha Hb) as Q; fold D in Q; rewrite Rabs_pos_eq by lra; lra).
    assert (Row : forall k B a, (forall b, (b < ncol s)%nat -> Rabs (spc s k a b) <= B * spc s D a b) -> Rabs (row k a) <= B * row D a /\ Rabs (row' k a - row k a) <= mu * (B * row D a)).
    { intros k B a HB. apply (sum_near (ncol s) (fun b => Nv s b v) (spc s k a) (fun b => rnd (spc s k a b)) (spc s D a) B PN HB).
      intros b Hb. eapply Rle_trans; [apply (rd_rel _ _ Hr)|]. apply Rmult_le_compat_l; [apply (rd_mu _ _ Hr)|now apply HB]. }
    destruct (sum_near (nrow s) (fun a => Nu s a u) (row i) (row' i) (row D) A PU) as (S0 & S1).
    { intros a Ha. apply Row. intros b Hb. now apply HA. }
    { intros a Ha. apply Row. intros b Hb. now apply HA. }
    destruct (sum_near (nrow s) (fun a => Nu s a u) (row D) (row' D) (row D) 1 PU) as (_ & S2).
    { intros a Ha. apply Row. intros b Hb. now apply Wp. }
    { intros a Ha. apply Row. intros b Hb. now apply Wp. }
    unfold swfun in *. change (sdim s' - 1)%nat with D in *. fold D in W. fold D. rewrite !Hh in *. rewrite !Hh' in * by (unfold D in *; lia).
    apply (ratio_near A); auto. rewrite Rmult_1_l in S2. exact S2.
  Qed.

  Lemma row_moved l : length (map rnd l) = length l /\ forall i, (i < length l)%nat -> Rabs (rc i (map rnd l) - rc i l) <= mu * Rabs (rc i l).
  Proof. split; [apply map_length|]. intros i Hi. unfold rc. rewrite (nth_map_lt rnd l i 0 0) by exact Hi. apply (rd_rel _ _ Hr). Qed.

  (** a cast mesh has the same faces; every coordinate moves by at most the roundoff *)
  Theorem cast_mesh_near (t : @Tess R) : let t' := cast_tess rnd t in
    tfaces t' = tfaces t /\ length (tpts t') = length (tpts t) /\ length (tnormals t') = length (tnormals t) /\ length (tuvs t') = length (tuvs t) /\
    (forall k i, (k < length (tpts t))%nat -> length (nth k (tpts t') []) = length (nth k (tpts t) []) /\
       ((i < length (nth k (tpts t) []))%nat -> Rabs (rc i (nth k (tpts t') []) - rc i (nth k (tpts t) [])) <= mu * Rabs (rc i (nth k (tpts t) [])))) /\
    (forall k i, (k < length (tnormals t))%nat -> length (nth k (tnormals t') []) = length (nth k (tnormals t) []) /\
       ((i < length (nth k (tnormals t) []))%nat -> Rabs (rc i (nth k (tnormals t') []) - rc i (nth k (tnormals t) [])) <= mu * Rabs (rc i (nth k (tnormals t) [])))) /\
    forall k, (k < length (tuvs t))%nat ->
      Rabs (fst (nth k (tuvs t') (0, 0)) - fst (nth k (tuvs t) (0, 0))) <= mu * Rabs (fst (nth k (tuvs t) (0, 0))) /\
      Rabs (snd (nth k (tuvs t') (0, 0)) - snd (nth k (tuvs t) (0, 0))) <= mu * Rabs (snd (nth k (tuvs t) (0, 0))).
  Proof.
    cbv zeta. destruct t as [ps ns fs uvs]. cbn [cast_tess tfaces tpts tnormals tuvs]. rewrite !map_length. repeat (split; [reflexivity|]). split; [|split].
    - intros k i Hk. rewrite (nth_map_lt (map rnd) ps k [] []) by exact Hk. destruct (row_moved (nth k ps [])) as (L & H). auto.
    - intros k i Hk. rewrite (nth_map_lt (map rnd) ns k [] []) by exact Hk. destruct (row_moved (nth k ns [])) as (L & H). auto.
    - intros k Hk. rewrite (nth_map_lt (fun uv => (rnd (fst uv), rnd (snd uv))) uvs k (0, 0) (0, 0)) by exact Hk. cbn [fst snd]. split; apply (rd_rel _ _ Hr).
  Qed.
End Near.
