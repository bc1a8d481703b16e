(** * Bounding boxes (C37, C05) and segment intersection (C33) over R *)
From Coq Require Import Reals Lra Lia Psatz Sorted.
From Verif Require Import Base BaseFacts Scalar RSum KnotModel KnotSpec KnotFacts VecFacts MiscModel
  CurveModel CurveSpec CurveProofs CurveGeom BBoxModel.
Open Scope R_scope.

(** specification: the closed box between two corners *)
Definition in_box (D : nat) (b : BBox R) (p : list R) : Prop :=
  forall i, (i < D)%nat -> rc i (bmin b) <= rc i p <= rc i (bmax b).
Definition valid_box (D : nat) (b : BBox R) : Prop :=
  forall i, (i < D)%nat -> rc i (bmin b) <= rc i (bmax b).
(** coordinates representable: at most the largest value in magnitude *)
Definition bounded (maxv : R) (D : nat) (p : list R) : Prop :=
  forall i, (i < D)%nat -> - maxv <= rc i p <= maxv.

Lemma nth_map_seq {A} (f : nat -> A) n i d : (i < n)%nat -> nth i (map f (seq 0 n)) d = f i.
Proof.
  intros H. rewrite (nth_map_lt f (seq 0 n) i 0%nat d) by (rewrite seq_length; lia).
  now rewrite seq_nth.
Qed.

Section Real.
  Variables eps maxv : R.
  Local Hint Extern 0 (Scalar R) => exact (ROps eps maxv) : typeclass_instances.

  Lemma smin_R a b : smin a b = Rmin a b.
  Proof.
    unfold smin. rs. unfold Rmin. destruct (Rltb_spec b a); destruct (Rle_dec a b); lra.
  Qed.
  Lemma smax_R a b : smax a b = Rmax a b.
  Proof.
    unfold smax. rs. unfold Rmax. destruct (Rltb_spec a b); destruct (Rle_dec a b); lra.
  Qed.

  Lemma bb_add_min D b p i : (i < D)%nat -> rc i (bmin (bb_add D b p)) = Rmin (rc i (bmin b)) (rc i p).
  Proof. intros H. unfold bb_add, rc. cbn [bmin]. rewrite nth_map_seq by auto. apply smin_R. Qed.
  Lemma bb_add_max D b p i : (i < D)%nat -> rc i (bmax (bb_add D b p)) = Rmax (rc i (bmax b)) (rc i p).
  Proof. intros H. unfold bb_add, rc. cbn [bmax]. rewrite nth_map_seq by auto. apply smax_R. Qed.

  Lemma bb_fold D pts b i : (i < D)%nat ->
    let b' := fold_left (bb_add D) pts b in
    (rc i (bmin b') <= rc i (bmin b) /\ rc i (bmax b) <= rc i (bmax b')) /\
    (forall p, In p pts -> rc i (bmin b') <= rc i p <= rc i (bmax b')) /\
    (rc i (bmin b') = rc i (bmin b) \/ exists p, In p pts /\ rc i p = rc i (bmin b')) /\
    (rc i (bmax b') = rc i (bmax b) \/ exists p, In p pts /\ rc i p = rc i (bmax b')).
  Proof.
    intros Hi. revert b. induction pts as [|q pts IH]; intros b; cbn [fold_left].
    - repeat split; try lra; try contradiction; now left.
    - destruct (IH (bb_add D b q)) as ((A1 & A2) & B & C1 & C2).
      rewrite bb_add_min in A1, C1 by auto. rewrite bb_add_max in A2, C2 by auto.
      pose proof (Rmin_l (rc i (bmin b)) (rc i q)). pose proof (Rmin_r (rc i (bmin b)) (rc i q)).
      pose proof (Rmax_l (rc i (bmax b)) (rc i q)). pose proof (Rmax_r (rc i (bmax b)) (rc i q)).
      split; [lra|]. split; [|split].
      + intros p [->|Hp]; [lra|auto].
      + destruct C1 as [C1|(p & Hp & E)]; [|right; exists p; cbn; auto].
        unfold Rmin in C1. destruct (Rle_dec (rc i (bmin b)) (rc i q)); [now left|].
        right. exists q. cbn. auto.
      + destruct C2 as [C2|(p & Hp & E)]; [|right; exists p; cbn; auto].
        unfold Rmax in C2. destruct (Rle_dec (rc i (bmax b)) (rc i q)); [|now left].
        right. exists q. cbn. auto.
  Qed.

  (** the box of a point set contains it and each of its faces touches a point *)
  Theorem bb_points_tight D pts :
    pts <> [] -> Forall (bounded maxv D) pts ->
    Forall (in_box D (bb_points D pts)) pts /\
    forall i, (i < D)%nat ->
      (exists p, In p pts /\ rc i p = rc i (bmin (bb_points D pts))) /\
      (exists p, In p pts /\ rc i p = rc i (bmax (bb_points D pts))).
  Proof.
    intros Hne Hb. rewrite Forall_forall in Hb. split.
    - apply Forall_forall. intros p Hp i Hi.
      destruct (bb_fold D pts (MkBox (repeat maxv D) (repeat (- maxv) D)) i Hi) as (_ & B & _).
      apply (B p Hp).
    - intros i Hi.
      destruct (bb_fold D pts (MkBox (repeat maxv D) (repeat (- maxv) D)) i Hi) as ((A1 & A2) & B & C1 & C2).
      destruct pts as [|p0 pts]; [contradiction|].
      set (b' := fold_left _ _ _) in *. change (bb_points D (p0 :: pts)) with b'.
      unfold rc at 2 in A1. unfold rc at 1 in A2. unfold rc at 2 in C1. unfold rc at 2 in C2.
      cbn [bmin bmax] in *.
      rewrite nth_repeat_lt in A1, A2, C1, C2 by auto.
      pose proof (B p0 (or_introl eq_refl)) as (B1 & B2).
      pose proof (Hb p0 (or_introl eq_refl) i Hi) as H0.
      split.
      + destruct C1 as [C1|C1]; [|exact C1]. exists p0. split; [now left|]. lra.
      + destruct C2 as [C2|C2]; [|exact C2]. exists p0. split; [now left|]. lra.
  Qed.

  (** smallest: every box containing the points contains their box *)
  Theorem bb_points_smallest D pts b' :
    pts <> [] -> Forall (bounded maxv D) pts -> Forall (in_box D b') pts ->
    forall p, in_box D (bb_points D pts) p -> in_box D b' p.
  Proof.
    intros Hne Hb Hin p Hp i Hi. destruct (bb_points_tight D pts Hne Hb) as (_ & H).
    destruct (H i Hi) as ((p1 & I1 & E1) & (p2 & I2 & E2)).
    rewrite Forall_forall in Hin. pose proof (Hin p1 I1 i Hi). pose proof (Hin p2 I2 i Hi).
    pose proof (Hp i Hi). lra.
  Qed.

  (** no points: the box is inside out and contains nothing *)
  Theorem bb_points_empty D (p : list R) : 0 < maxv -> (0 < D)%nat -> bb_contains D (bb_points D []) p = false.
  Proof.
    intros Hm HD. unfold bb_contains. apply Bool.not_true_is_false. intros H.
    rewrite forallb_forall in H. specialize (H 0%nat). rewrite Bool.andb_true_iff in H.
    destruct H as [H1 H2]; [apply in_seq; lia|]. rs. unfold bb_points in *. cbn [fold_left bmin bmax] in *.
    apply Rleb_true in H1, H2. unfold coord in *. rewrite nth_repeat_lt in H1, H2 by auto. rs. lra.
  Qed.

  Theorem bb_contains_iff D (b : BBox R) p : bb_contains D b p = true <-> in_box D b p.
  Proof.
    unfold bb_contains. rewrite forallb_forall. split.
    - intros H i Hi. specialize (H i ltac:(apply in_seq; lia)). apply andb_prop in H.
      destruct H as [H1 H2]. rs. apply Rleb_true in H1, H2. auto.
    - intros H i Hi. apply in_seq in Hi. destruct (H i ltac:(lia)) as [H1 H2].
      apply andb_true_intro. rs. split; now apply Rleb_true.
  Qed.

  (** [new] orders the corners *)
  Theorem bb_new_spec D mn mx :
    bounded maxv D mn -> bounded maxv D mx ->
    valid_box D (bb_new D mn mx) /\
    forall i, (i < D)%nat -> rc i (bmin (bb_new D mn mx)) = Rmin (rc i mn) (rc i mx) /\
                             rc i (bmax (bb_new D mn mx)) = Rmax (rc i mn) (rc i mx).
  Proof.
    intros H1 H2.
    assert (E : forall i, (i < D)%nat -> rc i (bmin (bb_new D mn mx)) = Rmin (rc i mn) (rc i mx) /\
                             rc i (bmax (bb_new D mn mx)) = Rmax (rc i mn) (rc i mx)).
    { intros i Hi. pose proof (H1 i Hi). pose proof (H2 i Hi). unfold bb_new. cbn [bmin bmax].
      unfold rc at 1 4. rewrite !nth_map_seq by auto.
      rewrite !smin_R, !smax_R. rs. change (coord i mn) with (rc i mn). change (coord i mx) with (rc i mx).
      split.
      - rewrite (Rmin_right maxv (rc i mn)) by lra. reflexivity.
      - rewrite (Rmax_right (- maxv) (rc i mx)) by lra. apply Rmax_comm. }
    split; [|exact E]. intros i Hi. destruct (E i Hi) as [-> ->].
    pose proof (Rmin_l (rc i mn) (rc i mx)). pose proof (Rmax_l (rc i mn) (rc i mx)). lra.
  Qed.

  Lemma bb_axis_iff tol a0 a1 b0 b1 : 0 <= tol -> a0 <= a1 -> b0 <= b1 ->
    bb_axis tol a0 a1 b0 b1 = true <-> b0 - a1 <= 2 * tol /\ a0 - b1 <= 2 * tol.
  Proof.
    intros Ht Ha Hb. unfold bb_axis. rewrite Bool.negb_true_iff. rs. rewrite Rltb_false. split.
    - intros H. split; apply Rnot_lt_le; intros C; nra.
    - intros [H1 H2]. nra.
  Qed.

  (** the overlap test: every axis interval of one box is within twice the tolerance of the other,
      i.e. some point of one box is that close (per axis) to some point of the other *)
  Theorem bb_intersects_iff D a b tol :
    0 <= tol -> valid_box D a -> valid_box D b ->
    bb_intersects D a b (Some tol) = true <->
    exists p q, length p = D /\ length q = D /\ in_box D a p /\ in_box D b q /\
      forall i, (i < D)%nat -> Rabs (rc i p - rc i q) <= 2 * tol.
  Proof.
    intros Ht Ha Hb. unfold bb_intersects. rewrite forallb_forall. split.
    - intros H.
      set (m := fun i => Rmin (Rmax (rc i (bmin a)) (rc i (bmin b))) (rc i (bmax a))).
      set (m' := fun i => Rmax (Rmin (m i) (rc i (bmax b))) (rc i (bmin b))).
      exists (map m (seq 0 D)), (map m' (seq 0 D)).
      rewrite !map_length, !seq_length. split; [auto|]. split; [auto|].
      assert (E : forall i, (i < D)%nat -> rc i (map m (seq 0 D)) = m i /\ rc i (map m' (seq 0 D)) = m' i).
      { intros i Hi. unfold rc. now rewrite !nth_map_seq. }
      split; [|split].
      + intros i Hi. destruct (E i Hi) as [-> _]. unfold m. pose proof (Ha i Hi).
        unfold Rmin, Rmax. repeat destruct (Rle_dec _ _); lra.
      + intros i Hi. destruct (E i Hi) as [_ ->]. unfold m'. pose proof (Hb i Hi).
        generalize (m i). intros x. unfold Rmin, Rmax. repeat destruct (Rle_dec _ _); lra.
      + intros i Hi. destruct (E i Hi) as [-> ->].
        specialize (H i ltac:(apply in_seq; lia)). apply bb_axis_iff in H; [|exact Ht|apply (Ha i Hi)|apply (Hb i Hi)].
        pose proof (Ha i Hi). pose proof (Hb i Hi).
        change (coord i (bmin a)) with (rc i (bmin a)) in *. change (coord i (bmin b)) with (rc i (bmin b)) in *.
        change (coord i (bmax a)) with (rc i (bmax a)) in *. change (coord i (bmax b)) with (rc i (bmax b)) in *.
        unfold m', m. apply Rabs_le. unfold Rmin, Rmax. repeat destruct (Rle_dec _ _); lra.
    - intros (p & q & _ & _ & Hp & Hq & Hd) i Hi. apply in_seq in Hi.
      apply bb_axis_iff; [exact Ht|apply (Ha i); lia|apply (Hb i); lia|].
      pose proof (Hp i ltac:(lia)). pose proof (Hq i ltac:(lia)). pose proof (Hd i ltac:(lia)) as Hdd.
      change (coord i (bmin a)) with (rc i (bmin a)) in *. change (coord i (bmin b)) with (rc i (bmin b)) in *.
      change (coord i (bmax a)) with (rc i (bmax a)) in *. change (coord i (bmax b)) with (rc i (bmax b)) in *.
      assert (rc i p - rc i q <= 2 * tol /\ rc i q - rc i p <= 2 * tol).
      { unfold Rabs in Hdd. destruct (Rcase_abs _); lra. }
      lra.
  Qed.

  Theorem bb_intersects_sym D (a b : BBox R) tol : bb_intersects D a b tol = bb_intersects D b a tol.
  Proof.
    unfold bb_intersects. apply Bool.eq_iff_eq_true. rewrite !forallb_forall.
    assert (G : forall t a0 a1 b0 b1 : R, bb_axis t a0 a1 b0 b1 = bb_axis t b0 b1 a0 a1).
    { intros t a0 a1 b0 b1. unfold bb_axis. f_equal. rs. unfold Rltb.
      repeat destruct (Rlt_dec _ _); auto; exfalso; nra. }
    split; intros H i Hi; rewrite G; auto.
  Qed.

  (** with tolerance zero: the boxes share a point *)
  Theorem bb_intersects_zero D a b :
    valid_box D a -> valid_box D b ->
    bb_intersects D a b (Some 0) = true <-> exists p, in_box D a p /\ in_box D b p.
  Proof.
    intros Ha Hb. rewrite bb_intersects_iff by (auto; lra). split.
    - intros (p & q & L1 & L2 & Hp & Hq & Hd). exists p. split; [exact Hp|].
      assert (p = q) as ->; [|exact Hq]. apply (vec_ext p q D); auto. intros i Hi.
      specialize (Hd i Hi). pose proof (Rabs_pos (rc i p - rc i q)).
      assert (Rabs (rc i p - rc i q) = 0) by lra.
      destruct (Req_dec (rc i p - rc i q) 0) as [Z|Z]; [lra|].
      apply Rabs_pos_lt in Z. lra.
    - intros (p & Hp & Hq).
      assert (E : forall i, (i < D)%nat -> rc i (map (fun i => rc i p) (seq 0 D)) = rc i p).
      { intros i Hi. unfold rc at 1. now rewrite nth_map_seq. }
      exists (map (fun i => rc i p) (seq 0 D)), (map (fun i => rc i p) (seq 0 D)).
      rewrite map_length, seq_length. split; [auto|]. split; [auto|].
      split; [intros i Hi; rewrite E by auto; auto|]. split; [intros i Hi; rewrite E by auto; auto|].
      intros i Hi. rewrite Rminus_diag_eq by reflexivity. rewrite Rabs_R0. lra.
  Qed.

  Lemma div2 (x : R) : x / sofnat 2 = x / 2.
  Proof. reflexivity. Qed.

  Theorem bb_center_size D b : valid_box D b -> length (bmin b) = D -> length (bmax b) = D ->
    in_box D b (bb_center b) /\
    forall i, (i < D)%nat -> 0 <= rc i (bb_size b) /\
      rc i (bb_center b) - rc i (bmin b) = rc i (bb_size b) / 2 /\
      rc i (bmax b) - rc i (bb_center b) = rc i (bb_size b) / 2.
  Proof.
    intros Hv L1 L2.
    assert (C : forall i, (i < D)%nat -> rc i (bb_center b) = (rc i (bmin b) + rc i (bmax b)) / 2).
    { intros i Hi. unfold bb_center. rewrite rc_vdivs, rc_vadd by lia. reflexivity. }
    assert (S : forall i, (i < D)%nat -> rc i (bb_size b) = rc i (bmax b) - rc i (bmin b)).
    { intros i Hi. unfold bb_size. now rewrite rc_vsub by lia. }
    split; intros i Hi; pose proof (Hv i Hi); rewrite ?C, ?S by auto; lra.
  Qed.

  (** ** Corners *)
  Theorem bb_corners_spec D b : valid_box D b ->
    length (bb_corners D b) = (2 ^ D)%nat /\
    Forall (in_box D b) (bb_corners D b) /\
    (forall f : nat -> bool, exists p, In p (bb_corners D b) /\
       forall i, (i < D)%nat -> rc i p = if f i then rc i (bmax b) else rc i (bmin b)).
  Proof.
    intros Hv. unfold bb_corners. rewrite map_length, seq_length. split; [reflexivity|].
    assert (E : forall n i, (i < D)%nat -> rc i (bb_corner D b n) =
      if Nat.testbit n i then rc i (bmax b) else rc i (bmin b)).
    { intros n i Hi. unfold bb_corner, rc at 1. rewrite nth_map_seq by auto. reflexivity. }
    split.
    - apply Forall_forall. intros p Hp. apply in_map_iff in Hp. destruct Hp as (n & <- & _).
      intros i Hi. rewrite E by auto. pose proof (Hv i Hi). destruct (Nat.testbit n i); lra.
    - intros f.
      assert (G : forall m, exists n, (n < 2 ^ m)%nat /\ forall i, (i < m)%nat -> Nat.testbit n i = f i).
      { induction m as [|m (n & Hn & Hb)].
        - exists 0%nat. cbn. split; [lia|lia].
        - exists (n + (if f m then 2 ^ m else 0))%nat.
          assert (P : (2 ^ S m = 2 ^ m + 2 ^ m)%nat) by (cbn; lia).
          split; [destruct (f m); lia|]. intros i Hi.
          destruct (f m) eqn:Ef.
          2:{ rewrite Nat.add_0_r. destruct (Nat.eq_dec i m) as [->|]; [|apply Hb; lia].
              rewrite Ef. destruct (Nat.eq_dec n 0) as [->|]; [apply Nat.bits_0|].
              apply Nat.bits_above_log2. apply Nat.log2_lt_pow2; lia. }
          destruct (Nat.eq_dec i m) as [->|].
          + rewrite Ef. replace (n + 2 ^ m)%nat with (n + 1 * 2 ^ m)%nat by lia.
            rewrite Nat.testbit_odd, Nat.shiftr_div_pow2, Nat.div_add by (apply Nat.pow_nonzero; lia).
            rewrite Nat.div_small by auto. reflexivity.
          + rewrite <- (Hb i) by lia. replace m with (i + (m - i))%nat at 1 by lia.
            rewrite Nat.pow_add_r. rewrite !Nat.testbit_odd, !Nat.shiftr_div_pow2.
            rewrite (Nat.mul_comm (2 ^ i)), Nat.div_add by (apply Nat.pow_nonzero; lia).
            rewrite Nat.odd_add. replace (Nat.odd (2 ^ (m - i))) with false.
            { apply Bool.xorb_false_r. }
            symmetry. destruct (m - i)%nat as [|d] eqn:Ed; [lia|]. cbn.
            rewrite Nat.add_0_r. rewrite Nat.odd_add. apply Bool.xorb_nilpotent. }
      destruct (G D) as (n & Hn & Hb). exists (bb_corner D b n). split.
      + apply in_map. apply in_seq. lia.
      + intros i Hi. rewrite E by auto. now rewrite Hb.
  Qed.

  (** ** The box of a curve *)
  Theorem bb_curve_contains c u :
    curve_ok c -> curve_eps eps c -> pos_weights c -> dom0 c <= u <= dom1 c ->
    Forall (fun q => bounded maxv (cdim c - 1) (map (fun x => x / rc (cdim c - 1) q) q)) (cpts c) ->
    exists b p, bb_of_curve c = Ok b /\ point_at c u = Ok p /\ bb_contains (cdim c - 1) b p = true.
  Proof.
    intros Hc He Hw Hu Hbd. pose proof (co_len c Hc) as Hl. pose proof (co_pts c Hc) as Hpt.
    assert (E : dehomogenized_control_points c =
                Ok (map (fun q => vdivs (firstn (cdim c - 1) q) (rc (cdim c - 1) q)) (cpts c))).
    { unfold dehomogenized_control_points.
      assert (G : forall l, (forall q, In q l -> 0 < rc (cdim c - 1) q) ->
        mapM (fun p => unwrap (dehomogenize (cdim c) p)) l =
        Ok (map (fun q => vdivs (firstn (cdim c - 1) q) (rc (cdim c - 1) q)) l)).
      { induction l as [|q l IH]; intros H; cbn [mapM map]; [reflexivity|].
        unfold dehomogenize at 1. change (coord (cdim c - 1) q) with (rc (cdim c - 1) q). rs.
        rewrite (proj2 (Reqb_false _ _)) by (pose proof (H q (or_introl eq_refl)); lra).
        cbn [unwrap bind]. rewrite IH by (intros; apply H; now right). reflexivity. }
      apply G. intros q Hq. apply (In_nth _ _ []) in Hq. destruct Hq as (j & Hj & <-). apply (Hw j Hj). }
    set (pts := map _ (cpts c)) in E.
    assert (Lp : length pts = length (cpts c)) by (unfold pts; now rewrite map_length).
    assert (Nn : forall i j, (i < cdim c - 1)%nat -> (j < length (cpts c))%nat ->
              rc i (nth j pts []) = cpc c i j / cpc c (cdim c - 1) j).
    { intros i j Hi Hj. unfold pts. rewrite (nth_map_lt _ _ j [] []) by auto.
      rewrite rc_vdivs, rc_firstn by auto. reflexivity. }
    assert (Hbp : Forall (bounded maxv (cdim c - 1)) pts).
    { apply Forall_forall. intros q Hq. apply (In_nth _ _ []) in Hq. destruct Hq as (j & Hj & <-).
      rewrite Lp in Hj. intros i Hi. rewrite Nn by auto.
      rewrite Forall_forall in Hbd. specialize (Hbd (nth j (cpts c) []) ltac:(now apply nth_In) i Hi).
      rewrite Forall_forall in Hpt. pose proof (Hpt (nth j (cpts c) []) ltac:(now apply nth_In)).
      unfold rc at 1 3 in Hbd. rewrite !(nth_map_lt _ (nth j (cpts c) []) i 0 0) in Hbd by lia.
      exact Hbd. }
    destruct (bb_points_tight (cdim c - 1) pts) as (T1 & _); auto.
    { intros Z. rewrite Z in Lp. cbn in Lp. lia. }
    destruct (convex_hull eps maxv c u Hc He Hw Hu) as (_ & _ & _ & _ & p & Ep & _ & _).
    exists (bb_points (cdim c - 1) pts), p. unfold bb_of_curve. rewrite E. cbn [bind].
    split; [reflexivity|]. split; [exact Ep|]. apply bb_contains_iff. intros i Hi.
    destruct (control_box eps maxv c u i (rc i (bmin (bb_points (cdim c - 1) pts)))
                (rc i (bmax (bb_points (cdim c - 1) pts))) Hc He Hw Hu Hi) as (p' & Ep' & Hb).
    - intros j Hj. rewrite <- Nn by auto. rewrite Forall_forall in T1.
      apply (T1 (nth j pts [])); [apply nth_In; lia|exact Hi].
    - rewrite Ep in Ep'. injection Ep' as <-. exact Hb.
  Qed.

  (** ** Segment intersection (C33) *)
  (** point of a segment *)
  Definition seg_point (l : Line R) (t : R) (i : nat) : R :=
    rc i (lstart l) + t * (rc i (lend l) - rc i (lstart l)).
  Definition share_point (l m : Line R) : Prop :=
    exists t s, 0 <= t <= 1 /\ 0 <= s <= 1 /\
      forall i, (i < 2)%nat -> seg_point l t i = seg_point m s i.
  (** cross product of the direction of [l] with the vector to a point *)
  Definition side (l : Line R) (p : list R) : R :=
    (rc 0 (lend l) - rc 0 (lstart l)) * (rc 1 p - rc 1 (lstart l))
    - (rc 1 (lend l) - rc 1 (lstart l)) * (rc 0 p - rc 0 (lstart l)).
  Definition collinear (l m : Line R) : Prop :=
    side l (lstart m) = 0 /\ side l (lend m) = 0 /\ side m (lstart l) = 0 /\ side m (lend l) = 0.

  Lemma orient_side (l : Line R) p : orient2d (lstart l) (lend l) p = side l p.
  Proof.
    unfold orient2d, side, coord. rs. unfold rc. ring.
  Qed.

  Lemma orientation_cases (l : Line R) p :
    (orientation (lstart l) (lend l) p = Clockwise /\ side l p < 0) \/
    (orientation (lstart l) (lend l) p = CounterClockwise /\ 0 < side l p) \/
    (orientation (lstart l) (lend l) p = Collinear /\ side l p = 0).
  Proof.
    unfold orientation. rewrite orient_side. rs.
    destruct (Rltb_spec (side l p) 0); [auto|]. destruct (Rltb_spec 0 (side l p)); [auto|].
    right. right. split; [auto|lra].
  Qed.

  Theorem line_intersects_sound (l m : Line R) : line_intersects l m = true -> share_point l m.
  Proof.
    unfold line_intersects. intros H.
    destruct (negb (bb_intersects 2 (line_rect l) (line_rect m) None)); [discriminate|].
    assert (K : side l (lend m) - side l (lstart m) = - (side m (lend l) - side m (lstart l))).
    { unfold side. ring. }
    assert (Q : side l (lend m) <> side l (lstart m) /\
                side l (lstart m) * side l (lend m) <= 0 /\ side m (lstart l) * side m (lend l) <= 0).
    { destruct (orientation_cases l (lstart m)) as [[E1 S1]|[[E1 S1]|[E1 S1]]];
      destruct (orientation_cases l (lend m)) as [[E2 S2]|[[E2 S2]|[E2 S2]]];
      rewrite E1, E2 in H; cbn [same_side] in H; try discriminate;
      destruct (orientation_cases m (lstart l)) as [[E3 S3]|[[E3 S3]|[E3 S3]]];
      destruct (orientation_cases m (lend l)) as [[E4 S4]|[[E4 S4]|[E4 S4]]];
      rewrite E3, E4 in H; cbn [same_side] in H; try discriminate;
      (split; [intros C; lra|]); split; nra. }
    destruct Q as (Q1 & Q2 & Q3).
    set (x := side l (lend m) - side l (lstart m)).
    assert (Hx : x <> 0) by (unfold x; lra).
    exists (side m (lstart l) / x), (- side l (lstart m) / x).
    assert (B : forall a b, a * b <= 0 -> a - b <> 0 -> 0 <= a / (a - b) <= 1).
    { intros a b Hab Hne. destruct (Rtotal_order (a - b) 0) as [G|[G|G]]; [|contradiction|].
      - assert (a <= 0) by nra. assert (0 <= b) by nra.
        replace (a / (a - b)) with (- a * / (b - a)) by (field; lra).
        assert (0 < / (b - a)) by (apply Rinv_0_lt_compat; lra).
        split; [nra|]. apply (Rmult_le_reg_r (b - a)); [lra|]. rewrite Rmult_assoc, Rinv_l by lra. lra.
      - assert (0 <= a) by nra. assert (b <= 0) by nra.
        unfold Rdiv. assert (0 < / (a - b)) by (apply Rinv_0_lt_compat; lra).
        split; [nra|]. apply (Rmult_le_reg_r (a - b)); [lra|]. rewrite Rmult_assoc, Rinv_l by lra. lra. }
    split.
    { replace x with (side m (lstart l) - side m (lend l)) by (unfold x; lra). apply B; auto.
      unfold x in Hx. lra. }
    split.
    { replace (- side l (lstart m) / x) with (side l (lstart m) / (side l (lstart m) - side l (lend m)))
        by (unfold x in *; field; lra).
      apply B; auto. lra. }
    intros i Hi. unfold seg_point.
    destruct i as [|[|i]]; [| |lia]; unfold x, side in *; field; exact Hx.
  Qed.

  Theorem line_intersects_complete (l m : Line R) :
    0 <= eps -> bounded maxv 2 (lstart l) -> bounded maxv 2 (lend l) ->
    bounded maxv 2 (lstart m) -> bounded maxv 2 (lend m) ->
    share_point l m -> ~ collinear l m -> line_intersects l m = true.
  Proof.
    intros He B1 B2 B3 B4 (t & s & Ht & Hs & E) Hnc. unfold line_intersects.
    destruct (bb_new_spec 2 _ _ B1 B2) as (V1 & N1). destruct (bb_new_spec 2 _ _ B3 B4) as (V2 & N2).
    assert (BB : bb_intersects 2 (line_rect l) (line_rect m) None = true).
    { change (bb_intersects 2 (line_rect l) (line_rect m) None)
        with (bb_intersects 2 (line_rect l) (line_rect m) (Some eps)).
      apply bb_intersects_iff; auto.
      set (p := map (seg_point l t) (seq 0 2)).
      assert (P : forall i, (i < 2)%nat -> rc i p = seg_point l t i).
      { intros i Hi. unfold p, rc. now rewrite nth_map_seq. }
      exists p, p. split; [reflexivity|]. split; [reflexivity|].
      split; [|split].
      - intros i Hi. rewrite P by auto. destruct (N1 i Hi) as [E1 E2]. unfold line_rect.
        rewrite E1, E2. unfold seg_point, Rmin, Rmax. repeat destruct (Rle_dec _ _); nra.
      - intros i Hi. rewrite P, E by auto. destruct (N2 i Hi) as [E1 E2]. unfold line_rect.
        rewrite E1, E2. unfold seg_point, Rmin, Rmax. repeat destruct (Rle_dec _ _); nra.
      - intros i Hi. rewrite Rminus_diag_eq by reflexivity. rewrite Rabs_R0. lra. }
    rewrite BB. cbn [negb].
    pose proof (E 0%nat ltac:(lia)) as E0. pose proof (E 1%nat ltac:(lia)) as E1.
    assert (Z1 : (1 - s) * side l (lstart m) + s * side l (lend m) = 0).
    { unfold seg_point in E0, E1. unfold side.
      transitivity ((rc 0 (lend l) - rc 0 (lstart l)) * (rc 1 (lstart m) + s * (rc 1 (lend m) - rc 1 (lstart m)) - rc 1 (lstart l))
        - (rc 1 (lend l) - rc 1 (lstart l)) * (rc 0 (lstart m) + s * (rc 0 (lend m) - rc 0 (lstart m)) - rc 0 (lstart l))).
      { ring. } rewrite <- E0, <- E1. ring. }
    assert (Z2 : (1 - t) * side m (lstart l) + t * side m (lend l) = 0).
    { unfold seg_point in E0, E1. unfold side.
      transitivity ((rc 0 (lend m) - rc 0 (lstart m)) * (rc 1 (lstart l) + t * (rc 1 (lend l) - rc 1 (lstart l)) - rc 1 (lstart m))
        - (rc 1 (lend m) - rc 1 (lstart m)) * (rc 0 (lstart l) + t * (rc 0 (lend l) - rc 0 (lstart l)) - rc 0 (lstart m))).
      { ring. } rewrite E0, E1. ring. }
    destruct (orientation_cases l (lstart m)) as [[E1' S1]|[[E1' S1]|[E1' S1]]];
    destruct (orientation_cases l (lend m)) as [[E2 S2]|[[E2 S2]|[E2 S2]]];
    rewrite E1', E2; cbn [same_side]; try (exfalso; nra);
    destruct (orientation_cases m (lstart l)) as [[E3 S3]|[[E3 S3]|[E3 S3]]];
    destruct (orientation_cases m (lend l)) as [[E4 S4]|[[E4 S4]|[E4 S4]]];
    rewrite E3, E4; cbn [same_side]; try (exfalso; nra); try reflexivity.
    exfalso. apply Hnc. repeat split; assumption.
  Qed.

  (** collinear segments are always reported disjoint, even when they overlap *)
  Theorem line_intersects_collinear_refuted :
    exists l m : Line R, share_point l m /\ line_intersects l m = false.
  Proof.
    exists (MkLine [0; 0] [2; 0]), (MkLine [1; 0] [3; 0]). split.
    - exists (1 / 2), 0. split; [lra|]. split; [lra|]. intros i Hi. unfold seg_point, rc.
      destruct i as [|[|i]]; cbn; lra || lia.
    - unfold line_intersects. destruct (negb _); [reflexivity|].
      assert (G : forall l p, side l p = 0 -> orientation (lstart l) (lend l) p = Collinear).
      { intros l p H. destruct (orientation_cases l p) as [[_ S]|[[_ S]|[S _]]]; [lra|lra|exact S]. }
      rewrite !G by (unfold side, rc; cbn; ring). reflexivity.
  Qed.
End Real.

(** ** Edges: every edge of the box is listed twice, once in each direction *)
Lemma lxor_pow2_lt j i D : (j < 2 ^ D)%nat -> (i < D)%nat -> (Nat.lxor j (2 ^ i) < 2 ^ D)%nat.
Proof.
  intros Hj Hi. set (x := Nat.lxor j (2 ^ i)).
  destruct (Nat.eq_dec x 0) as [->|Hx]; [apply Nat.neq_0_lt_0, Nat.pow_nonzero; lia|].
  apply Nat.log2_lt_pow2; [lia|]. destruct (Nat.lt_ge_cases (Nat.log2 x) D) as [C|C]; auto. exfalso.
  pose proof (Nat.bit_log2 x Hx) as B. unfold x in B at 1. rewrite Nat.lxor_spec in B.
  rewrite Nat.pow2_bits_false in B by lia.
  rewrite Bool.xorb_false_r in B.
  assert (Hj0 : j <> 0%nat) by (intros ->; rewrite Nat.bits_0 in B; discriminate).
  rewrite Nat.bits_above_log2 in B; [discriminate|].
  assert (Nat.log2 j < D)%nat by (apply Nat.log2_lt_pow2; lia). lia.
Qed.

Section AnyScalar.
  Context {T : Type} {SO : Scalar T}.

  Theorem bb_lines_spec D (b : BBox T) :
    exists ls, bb_lines D b = Ok ls /\ length ls = (D * 2 ^ D)%nat /\
      (forall p q, In (p, q) ls <-> exists i j, (i < D)%nat /\ (j < 2 ^ D)%nat /\
          p = bb_corner D b j /\ q = bb_corner D b (Nat.lxor j (2 ^ i))) /\
      (forall p q, In (p, q) ls -> In (q, p) ls).
  Proof.
    assert (Gc : forall j, (j < 2 ^ D)%nat -> get (bb_corners D b) j = Ok (bb_corner D b j)).
    { intros j Hj. unfold bb_corners. rewrite (get_ok _ j []) by (rewrite map_length, seq_length; auto).
      now rewrite nth_map_seq. }
    set (row := fun i => map (fun j => (bb_corner D b j, bb_corner D b (Nat.lxor j (2 ^ i)))) (seq 0 (2 ^ D))).
    assert (Gr : forall i, (i < D)%nat ->
      mapM (fun j => a <- get (bb_corners D b) j ;;
                     b <- get (bb_corners D b) (Nat.lxor j (2 ^ i)) ;; Ok (a, b)) (seq 0 (2 ^ D)) = Ok (row i)).
    { intros i Hi. unfold row.
      assert (Q : forall l, (forall j, In j l -> (j < 2 ^ D)%nat) ->
        mapM (fun j => a <- get (bb_corners D b) j ;;
                     b <- get (bb_corners D b) (Nat.lxor j (2 ^ i)) ;; Ok (a, b)) l
        = Ok (map (fun j => (bb_corner D b j, bb_corner D b (Nat.lxor j (2 ^ i)))) l)).
      { induction l as [|j l IH]; intros H; [reflexivity|]. cbn [mapM map].
        rewrite Gc by (apply H; now left). cbn [bind].
        rewrite Gc by (apply lxor_pow2_lt; auto; apply H; now left). cbn [bind].
        rewrite IH by (intros; apply H; now right). reflexivity. }
      apply Q. intros j Hj. apply in_seq in Hj. lia. }
    assert (Gm : mapM (fun i => mapM (fun j => a <- get (bb_corners D b) j ;;
                     b <- get (bb_corners D b) (Nat.lxor j (2 ^ i)) ;; Ok (a, b)) (seq 0 (2 ^ D))) (seq 0 D)
                 = Ok (map row (seq 0 D))).
    { assert (Q : forall l, (forall j, In j l -> (j < D)%nat) ->
        mapM (fun i => mapM (fun j => a <- get (bb_corners D b) j ;;
                     b <- get (bb_corners D b) (Nat.lxor j (2 ^ i)) ;; Ok (a, b)) (seq 0 (2 ^ D))) l
        = Ok (map row l)).
      { induction l as [|i l IH]; intros H; [reflexivity|]. cbn [mapM map].
        rewrite Gr by (apply H; now left). cbn [bind].
        rewrite IH by (intros; apply H; now right). reflexivity. }
      apply Q. intros j Hj. apply in_seq in Hj. lia. }
    exists (concat (map row (seq 0 D))). unfold bb_lines. rewrite Gm. cbn [bind].
    split; [reflexivity|].
    assert (Hin : forall p q, In (p, q) (concat (map row (seq 0 D))) <-> exists i j, (i < D)%nat /\ (j < 2 ^ D)%nat /\
          p = bb_corner D b j /\ q = bb_corner D b (Nat.lxor j (2 ^ i))).
    { intros p q. rewrite in_concat. split.
      - intros (r & Hr & Hpq). apply in_map_iff in Hr. destruct Hr as (i & <- & Hi).
        apply in_map_iff in Hpq. destruct Hpq as (j & E & Hj). injection E as <- <-.
        apply in_seq in Hi, Hj. exists i, j. repeat split; lia.
      - intros (i & j & Hi & Hj & -> & ->). exists (row i). split.
        + apply in_map. apply in_seq. lia.
        + unfold row. apply in_map_iff. exists j. split; [reflexivity|]. apply in_seq. lia. }
    split; [|split; [exact Hin|]].
    - assert (Q : forall l, length (concat (map row l)) = (length l * 2 ^ D)%nat).
      { induction l as [|i l IH]; [reflexivity|]. cbn [map concat]. rewrite app_length, IH.
        unfold row. rewrite map_length, seq_length. cbn [length]. lia. }
      rewrite Q, seq_length. reflexivity.
    - intros p q H. apply Hin in H. destruct H as (i & j & Hi & Hj & -> & ->). apply Hin.
      exists i, (Nat.lxor j (2 ^ i)). split; [exact Hi|]. split; [now apply lxor_pow2_lt|].
      split; [reflexivity|]. rewrite Nat.lxor_assoc, Nat.lxor_nilpotent, Nat.lxor_0_r. reflexivity.
  Qed.
End AnyScalar.
