(** * Polylines and periodic curves *)
From Coq Require Import Reals Lra Sorted.
From Verif Require Import Base BaseFacts Scalar RSum BSplineSpec BSpline KnotModel KnotSpec
  KnotFacts KnotProofs VecFacts MiscModel CurveModel CurveSpec CurveProofs CurveGeom CurveGeom2.
Open Scope R_scope.

(** Euclidean distance and accumulated chord length (specification) *)
Definition rdist (a b : list R) : R :=
  sqrt (rsum (length a) (fun i => (rc i a - rc i b) * (rc i a - rc i b))).
Definition chord (pts : list (list R)) (i : nat) : R :=
  rsum i (fun l => rdist (nth l pts []) (nth (S l) pts [])).

(** point of the segment from [a] to [b] *)
Definition on_segment (a b : list R) (t : R) : list R :=
  map (fun i => (1 - t) * rc i a + t * rc i b) (seq 0 (length a)).

Lemma rdist_nonneg a b : 0 <= rdist a b.
Proof. apply sqrt_pos. Qed.

Lemma chord_le pts i j : (i <= j)%nat -> chord pts i <= chord pts j.
Proof.
  intros H. induction H as [|j H IH]; [lra|].
  unfold chord in *. cbn [rsum]. pose proof (rdist_nonneg (nth j pts []) (nth (S j) pts [])). lra.
Qed.

Section Real.
  Variables eps maxv : R.
  Local Hint Extern 0 (Scalar R) => exact (ROps eps maxv) : typeclass_instances.

  Lemma vnorm_rdist a b : length a = length b -> vnorm (vsub a b) = rdist a b.
  Proof.
    intros H. unfold vnorm, vnorm2, rdist. rs. f_equal.
    rewrite vdot_rsum by reflexivity. rewrite (vsub_length a b (length a)) by auto.
    apply rsum_ext. intros i Hi. now rewrite rc_vsub.
  Qed.

  Definition poly_knots (pts : list (list R)) : list R :=
    0 :: map (chord pts) (seq 0 (length pts)) ++ [chord pts (length pts - 1)].

  Lemma polyline_eq D pts b :
    (1 <= length pts)%nat -> Forall (fun p => length p = (D - 1)%nat) pts ->
    polyline D pts b = Ok (MkCurve D 1 (map to_homogeneous pts)
       (if b then map (fun k => k / chord pts (length pts - 1)) (poly_knots pts)
        else poly_knots pts)).
  Proof.
    intros Hn HD. unfold polyline. rewrite usub_ok by lia. cbn [bind].
    match goal with |- context [for_range 0 _ ?g _] => set (f := g) end.
    destruct (for_range_rule (fun i st => st = (0 :: map (chord pts) (seq 0 (S i)), chord pts i))
                0 (length pts - 1) f ([0; 0], 0)) as (st & E & ->).
    - lia.
    - reflexivity.
    - intros i st Hi ->. unfold f. rewrite (get_ok pts i []) by lia. cbn [bind].
      rewrite (get_ok pts (i + 1) []) by lia. cbn [bind].
      assert (L : forall j, (j < length pts)%nat -> length (nth j pts []) = (D - 1)%nat).
      { intros j Hj. rewrite Forall_forall in HD. apply HD. now apply nth_In. }
      rewrite vnorm_rdist by (rewrite !L by lia; reflexivity).
      eexists. split; [reflexivity|]. rewrite (seq_S (S i)). rewrite map_app. cbn [map].
      rs. cbn [app Nat.add]. f_equal; [|unfold chord; cbn [rsum]; rewrite Nat.add_1_r; reflexivity].
      f_equal. f_equal. f_equal. unfold chord at 2. cbn [rsum]. rewrite Nat.add_1_r. reflexivity.
    - replace (for_range 0 (length pts - 1) f ([szero; szero], szero))
        with (for_range 0 (length pts - 1) f ([0; 0], 0)) by reflexivity.
      rewrite E. cbn [bind]. unfold poly_knots.
      replace (S (length pts - 1)) with (length pts) by lia. reflexivity.
  Qed.

  Lemma poly_knots_len pts : length (poly_knots pts) = (length pts + 2)%nat.
  Proof. unfold poly_knots. cbn. rewrite app_length, map_length, seq_length. cbn. lia. Qed.

  Lemma poly_kf pts i : (1 <= length pts)%nat ->
    kf (poly_knots pts) i = if (i =? 0)%nat then 0
      else if (i <=? length pts)%nat then chord pts (i - 1) else chord pts (length pts - 1).
  Proof.
    intros Hn. unfold kf.
    assert (El : last (poly_knots pts) 0 = chord pts (length pts - 1)).
    { rewrite last_nth by (unfold poly_knots; discriminate). rewrite poly_knots_len.
      unfold poly_knots. replace (length pts + 2 - 1)%nat with (S (length pts)) by lia.
      cbn [nth]. rewrite app_nth2 by (rewrite map_length, seq_length; lia).
      rewrite map_length, seq_length, Nat.sub_diag. reflexivity. }
    rewrite El. unfold poly_knots. destruct i as [|i]; [reflexivity|]. cbn [nth Nat.eqb].
    destruct (Nat.leb_spec (S i) (length pts)) as [C|C].
    - rewrite app_nth1 by (rewrite map_length, seq_length; lia).
      rewrite (nth_map_lt _ _ i 0%nat) by (rewrite seq_length; lia).
      rewrite seq_nth by lia. f_equal. lia.
    - rewrite app_nth2 by (rewrite map_length, seq_length; lia).
      rewrite map_length, seq_length.
      destruct (i - length pts)%nat as [|[|m]]; reflexivity.
  Qed.

  Definition poly_curve (D : nat) (pts : list (list R)) : Curve R :=
    MkCurve D 1 (map to_homogeneous pts) (poly_knots pts).

  (** consecutive vertices differ *)
  Definition distinct_steps (pts : list (list R)) : Prop :=
    forall i, (S i < length pts)%nat -> 0 < rdist (nth i pts []) (nth (S i) pts []).

  Lemma chord_lt pts i j : distinct_steps pts -> (i < j)%nat -> (j < length pts)%nat ->
    chord pts i < chord pts j.
  Proof.
    intros Hd Hij Hj. pose proof (chord_le pts (S i) j Hij).
    assert (chord pts i < chord pts (S i)).
    { unfold chord. cbn [rsum]. pose proof (Hd i ltac:(lia)). lra. }
    lra.
  Qed.

  Lemma poly_ok D pts :
    (1 <= D)%nat -> (2 <= length pts)%nat -> Forall (fun p => length p = (D - 1)%nat) pts ->
    distinct_steps pts -> curve_ok (poly_curve D pts).
  Proof.
    intros HD Hn Hp Hd. constructor; cbn [cdim cdeg cpts cknots poly_curve].
    - exact HD.
    - apply Forall_forall. intros p H. apply in_map_iff in H. destruct H as (q & <- & Hq).
      rewrite Forall_forall in Hp. unfold to_homogeneous. rewrite app_length, (Hp q Hq). cbn. lia.
    - rewrite map_length. lia.
    - unfold clast. cbn [cpts poly_curve]. rewrite map_length. constructor.
      + rewrite poly_knots_len. lia.
      + lia.
      + apply mono_sorted. intros i Hi. rewrite poly_knots_len in Hi.
        rewrite <- !(kf_nth _ _ 0) by (rewrite poly_knots_len; lia).
        rewrite !poly_kf by lia.
        destruct i as [|i]; cbn [Nat.eqb].
        * destruct (Nat.leb_spec 1 (length pts)); [|lia]. cbn. unfold chord. cbn. lra.
        * destruct (Nat.leb_spec (S i) (length pts)), (Nat.leb_spec (S (S i)) (length pts));
            try lia; apply chord_le; lia.
      + rewrite !poly_kf by lia. cbn [Nat.eqb Nat.add].
        destruct (Nat.leb_spec 1 (length pts)); [|lia].
        destruct (Nat.leb_spec 2 (length pts)); [|lia].
        apply chord_lt; auto; lia.
      + rewrite !poly_kf by lia.
        destruct (Nat.eqb_spec (length pts - 1) 0); [lia|].
        destruct (Nat.eqb_spec (length pts - 1 + 1) 0); [lia|].
        destruct (Nat.leb_spec (length pts - 1) (length pts)); [|lia].
        destruct (Nat.leb_spec (length pts - 1 + 1) (length pts)); [|lia].
        apply chord_lt; auto; lia.
  Qed.

  Lemma poly_cont D pts : (2 <= length pts)%nat -> distinct_steps pts ->
    curve_cont (poly_curve D pts).
  Proof.
    intros Hn Hd j H1 H2. unfold clast in H2. cbn [cdeg cpts cknots poly_curve] in *.
    rewrite map_length in H2. rewrite !poly_kf by lia.
    destruct (Nat.eqb_spec j 0); [lia|]. destruct (Nat.eqb_spec (j + 1) 0); [lia|].
    destruct (Nat.leb_spec j (length pts)); [|lia].
    destruct (Nat.leb_spec (j + 1) (length pts)); [|lia].
    apply chord_lt; auto; lia.
  Qed.

  Lemma poly_hcoord D pts i t l :
    (1 <= D)%nat -> (2 <= length pts)%nat -> Forall (fun p => length p = (D - 1)%nat) pts ->
    distinct_steps pts -> (S i < length pts)%nat -> 0 <= t <= 1 ->
    hcoord (poly_curve D pts) l (chord pts i + t * (chord pts (S i) - chord pts i))
    = (1 - t) * rc l (to_homogeneous (nth i pts []))
      + t * rc l (to_homogeneous (nth (S i) pts [])).
  Proof.
    intros HD Hn Hp Hd Hi Ht.
    pose proof (poly_ok D pts HD Hn Hp Hd) as Hc.
    pose proof (poly_cont D pts Hn Hd) as Hcc.
    assert (Hlt : chord pts i < chord pts (S i)) by (apply chord_lt; auto).
    assert (K1 : kf (poly_knots pts) (S i) = chord pts i).
    { rewrite poly_kf by lia. cbn [Nat.eqb]. destruct (Nat.leb_spec (S i) (length pts)); [|lia].
      f_equal; lia. }
    assert (K2 : kf (poly_knots pts) (S (S i)) = chord pts (S i)).
    { rewrite poly_kf by lia. cbn [Nat.eqb]. destruct (Nat.leb_spec (S (S i)) (length pts)); [|lia].
      f_equal; lia. }
    set (u := chord pts i + t * (chord pts (S i) - chord pts i)).
    assert (Hu : chord pts i <= u <= chord pts (S i)).
    { unfold u. assert (0 <= t * (chord pts (S i) - chord pts i)) by (apply Rmult_le_pos; lra).
      assert (t * (chord pts (S i) - chord pts i) <= 1 * (chord pts (S i) - chord pts i))
        by (apply Rmult_le_compat_r; lra). lra. }
    rewrite (hcoord_any_span _ (S i)); auto;
      cbn [cdeg cpts cknots poly_curve]; rewrite ?K1, ?K2; auto.
    - rewrite piece_window by (rewrite ?map_length; lia).
      cbn [rsum]. rewrite Nat.add_0_r. replace (S i - 1)%nat with i by lia.
      rewrite !bs_S, !bs_0.
      rewrite (proj2 (Nat.eqb_neq i (S i))) by lia.
      rewrite (proj2 (Nat.eqb_eq (i + 1) (S i))) by lia.
      rewrite (proj2 (Nat.eqb_neq (i + 1 + 1) (S i))) by lia.
      rewrite !Rmult_0_r, !Rplus_0_l, Rplus_0_r, !Rmult_1_r. unfold wl, wr. replace (i + 1 + 1)%nat with (S (S i)) by lia.
      replace (i + 1)%nat with (S i) by lia. rewrite K1, K2.
      rewrite !quot0_nz by lra. unfold cpc. cbn [cpts poly_curve].
      rewrite !(nth_map_lt to_homogeneous pts _ [] []) by lia.
      unfold u. field. lra.
    - unfold clast. cbn [cpts poly_curve]. rewrite map_length. lia.
  Qed.

  Lemma poly_domain D pts : (2 <= length pts)%nat ->
    dom0 (poly_curve D pts) = 0 /\ dom1 (poly_curve D pts) = chord pts (length pts - 1).
  Proof.
    intros Hn. unfold dom0, dom1. cbn [cdeg cpts cknots poly_curve]. rewrite map_length.
    rewrite !poly_kf by lia. cbn [Nat.eqb].
    destruct (Nat.leb_spec 1 (length pts)); [|lia].
    destruct (Nat.eqb_spec (length pts) 0); [lia|].
    rewrite Nat.leb_refl. split; [unfold chord; reflexivity|reflexivity].
  Qed.

  Lemma poly_eps D pts : 0 < eps -> (2 <= length pts)%nat ->
    eps <= rdist (nth 0 pts []) (nth 1 pts []) ->
    eps <= rdist (nth (length pts - 2) pts []) (nth (length pts - 1) pts []) ->
    curve_eps eps (poly_curve D pts).
  Proof.
    intros He Hn H1 H2. unfold curve_eps, eps_ok, clast. cbn [cdeg cpts cknots poly_curve].
    rewrite map_length. rewrite !poly_kf by lia. cbn [Nat.eqb Nat.add].
    destruct (Nat.leb_spec 1 (length pts)); [|lia].
    destruct (Nat.leb_spec 2 (length pts)); [|lia].
    destruct (Nat.eqb_spec (length pts - 1) 0); [lia|].
    destruct (Nat.eqb_spec (length pts - 1 + 1) 0); [lia|].
    destruct (Nat.leb_spec (length pts - 1) (length pts)); [|lia].
    destruct (Nat.leb_spec (length pts - 1 + 1) (length pts)); [|lia].
    split; [exact He|]. split.
    - unfold chord. cbn. lra.
    - replace (length pts - 1 + 1 - 1)%nat with (S (length pts - 2)) by lia.
      replace (length pts - 1 - 1)%nat with (length pts - 2)%nat by lia.
      unfold chord. cbn [rsum]. replace (S (length pts - 2)) with (length pts - 1)%nat by lia. lra.
  Qed.

  Lemma hom_rc_lt (p : list R) l : (l < length p)%nat -> rc l (to_homogeneous p) = rc l p.
  Proof. intros H. unfold to_homogeneous. now apply rc_app_l. Qed.
  Lemma hom_rc_last (p : list R) l : l = length p -> rc l (to_homogeneous p) = 1.
  Proof.
    intros ->. unfold to_homogeneous. rewrite rc_app_r by lia. now rewrite Nat.sub_diag.
  Qed.

  (** a polyline runs through its vertices at accumulated chord lengths, linearly in between *)
  Theorem polyline_spec D pts :
    (1 <= D)%nat -> (2 <= length pts)%nat -> Forall (fun p => length p = (D - 1)%nat) pts ->
    distinct_steps pts -> 0 < eps ->
    eps <= rdist (nth 0 pts []) (nth 1 pts []) ->
    eps <= rdist (nth (length pts - 2) pts []) (nth (length pts - 1) pts []) ->
    exists c, polyline D pts false = Ok c /\ curve_ok c /\
      knots_domain c = Ok (0, chord pts (length pts - 1)) /\
      forall i t, (S i < length pts)%nat -> 0 <= t <= 1 ->
        point_at c (chord pts i + t * (chord pts (S i) - chord pts i))
        = Ok (on_segment (nth i pts []) (nth (S i) pts []) t).
  Proof.
    intros HD Hn Hp Hd He H1 H2. exists (poly_curve D pts).
    rewrite polyline_eq by (auto; lia). split; [reflexivity|].
    pose proof (poly_ok D pts HD Hn Hp Hd) as Hc. split; [exact Hc|].
    destruct (poly_domain D pts Hn) as [D0 D1].
    split; [rewrite knots_domain_ok, D0, D1 by auto; reflexivity|].
    intros i t Hi Ht.
    assert (L : forall j, (j < length pts)%nat -> length (nth j pts []) = (D - 1)%nat).
    { intros j Hj. rewrite Forall_forall in Hp. apply Hp. now apply nth_In. }
    set (u := chord pts i + t * (chord pts (S i) - chord pts i)).
    assert (Hlt : chord pts i < chord pts (S i)) by (apply chord_lt; auto).
    assert (Hu : chord pts i <= u <= chord pts (S i)).
    { unfold u. assert (0 <= t * (chord pts (S i) - chord pts i)) by (apply Rmult_le_pos; lra).
      assert (t * (chord pts (S i) - chord pts i) <= 1 * (chord pts (S i) - chord pts i))
        by (apply Rmult_le_compat_r; lra). lra. }
    assert (Hdom : dom0 (poly_curve D pts) <= u <= dom1 (poly_curve D pts)).
    { rewrite D0, D1. pose proof (chord_le pts 0 i ltac:(lia)).
      pose proof (chord_le pts (S i) (length pts - 1) ltac:(lia)).
      unfold chord at 1 in H. cbn in H. lra. }
    assert (Hw : wfun (poly_curve D pts) u = 1).
    { unfold wfun, u. cbn [cdim poly_curve]. rewrite poly_hcoord by auto.
      rewrite !hom_rc_last by (rewrite L by lia; reflexivity). lra. }
    destruct (point_at_spec eps maxv _ u Hc (poly_eps D pts He Hn H1 H2) Hdom) as (q & E & Lq & Hq);
      [lra|].
    cbn [cdim poly_curve] in Lq, Hq.
    rewrite E. f_equal. apply (vec_ext q _ (D - 1)); auto.
    - unfold on_segment. rewrite map_length, seq_length. apply L. lia.
    - intros l Hl. rewrite Hq by auto. unfold nurbs. rewrite Hw.
      unfold on_segment. rewrite rc_map_seq by (rewrite L by lia; lia).
      unfold u. rewrite poly_hcoord by auto. rewrite !hom_rc_lt by (rewrite L by lia; lia).
      unfold Rdiv. rewrite Rinv_1. lra.
  Qed.

  (** normalised: the same curve over [0, 1] *)
  Theorem polyline_normalized D pts :
    (1 <= D)%nat -> (2 <= length pts)%nat -> Forall (fun p => length p = (D - 1)%nat) pts ->
    distinct_steps pts ->
    exists c c', polyline D pts false = Ok c /\ polyline D pts true = Ok c' /\
      normalize_knots c = Ok c' /\ knots_domain c' = Ok (0, 1).
  Proof.
    intros HD Hn Hp Hd. rewrite !polyline_eq by (auto; lia).
    do 2 eexists. split; [reflexivity|]. split; [reflexivity|].
    pose proof (poly_ok D pts HD Hn Hp Hd) as Hc. fold (poly_curve D pts).
    destruct (poly_domain D pts Hn) as [D0 D1].
    rewrite (normalize_reparam eps maxv _ Hc). rewrite D0, D1.
    set (L := chord pts (length pts - 1)).
    assert (HL : 0 < L).
    { unfold L. pose proof (chord_lt pts 0 (length pts - 1) Hd ltac:(lia) ltac:(lia)) as H.
      unfold chord at 1 in H. cbn in H. exact H. }
    assert (E : map (fun k => / (L - 0) * k + - 0 / (L - 0)) (poly_knots pts)
                = map (fun k => k / L) (poly_knots pts)).
    { apply map_ext. intros x. field. lra. }
    split.
    - unfold reparam. cbn [cdim cdeg cpts cknots poly_curve]. rewrite E. reflexivity.
    - assert (Hc' : curve_ok (reparam (/ L) 0 (poly_curve D pts)))
        by (apply reparam_ok; auto; apply Rinv_0_lt_compat; lra).
      replace (MkCurve D 1 (map to_homogeneous pts) (map (fun k => k / L) (poly_knots pts)))
        with (reparam (/ L) 0 (poly_curve D pts)).
      2:{ unfold reparam. cbn [cdim cdeg cpts cknots poly_curve]. f_equal. apply map_ext.
          intros x. field. lra. }
      rewrite knots_domain_ok by auto.
      destruct (reparam_dom (/ L) 0 (poly_curve D pts) Hc) as [-> ->]. rewrite D0, D1.
      fold L. do 2 f_equal; field; lra.
  Qed.

  (** an empty point list panics (usize underflow) *)
  Lemma polyline_empty D b : panics (polyline (T := R) D [] b).
  Proof. eexists. reflexivity. Qed.

  (** ** Periodic curves *)
  Definition periodic_curve (D : nat) (pts : list (list R)) (p : nat) : Curve R :=
    MkCurve D p
      (map to_homogeneous (map (fun i => nth (i mod length pts) pts []) (seq 0 (length pts + p))))
      (map sofnat (seq 0 (length pts + 1 + p * 2))).

  Lemma periodic_eq D pts p : (p + 1 <= length pts)%nat ->
    try_periodic D pts p = Ok (periodic_curve D pts p).
  Proof.
    intros H. unfold try_periodic.
    destruct (Nat.ltb_spec (length pts) (p + 1)); [lia|].
    rewrite (mapM_ok _ (fun i => nth (i mod length pts) pts [])).
    - reflexivity.
    - intros x _. apply get_ok. apply Nat.mod_upper_bound. lia.
  Qed.

  Lemma sofnat_INR i : sofnat i = INR i.
  Proof. unfold sofnat. rs. now rewrite INR_IZR_INZ. Qed.

  Lemma periodic_kf n p i : (i < n + 1 + p * 2)%nat ->
    kf (map sofnat (seq 0 (n + 1 + p * 2))) i = INR i.
  Proof.
    intros H. rewrite (kf_nth _ _ 0) by (rewrite map_length, seq_length; lia).
    rewrite (nth_map_lt _ _ i 0%nat) by (rewrite seq_length; lia).
    rewrite seq_nth by lia. apply sofnat_INR.
  Qed.

  Lemma periodic_len D pts p : length (cpts (periodic_curve D pts p)) = (length pts + p)%nat.
  Proof. cbn [cpts periodic_curve]. now rewrite !map_length, seq_length. Qed.

  Lemma periodic_ok D pts p :
    (1 <= D)%nat -> Forall (fun q => length q = (D - 1)%nat) pts -> (p + 1 <= length pts)%nat ->
    curve_ok (periodic_curve D pts p).
  Proof.
    intros HD Hp Hn. pose proof (periodic_len D pts p) as Hl.
    constructor.
    - exact HD.
    - cbn [cpts cdim periodic_curve]. apply Forall_forall. intros q Hq.
      apply in_map_iff in Hq. destruct Hq as (r & <- & Hr).
      apply in_map_iff in Hr. destruct Hr as (j & <- & Hj).
      unfold to_homogeneous. rewrite app_length. rewrite Forall_forall in Hp.
      rewrite (Hp (nth (j mod length pts) pts [])).
      + cbn. lia.
      + apply nth_In, Nat.mod_upper_bound. lia.
    - rewrite Hl. cbn [cdeg periodic_curve]. lia.
    - unfold clast. rewrite Hl. cbn [cdeg cknots periodic_curve]. constructor.
      + rewrite map_length, seq_length. lia.
      + lia.
      + apply mono_sorted. intros i Hi. rewrite map_length, seq_length in Hi.
        rewrite <- !(kf_nth _ _ 0) by (rewrite map_length, seq_length; lia).
        rewrite !periodic_kf by lia. apply le_INR. lia.
      + rewrite !periodic_kf by lia. apply lt_INR. lia.
      + rewrite !periodic_kf by lia. apply lt_INR. lia.
  Qed.

  Lemma periodic_eps D pts p : (p + 1 <= length pts)%nat -> 0 < eps <= 1 ->
    curve_eps eps (periodic_curve D pts p).
  Proof.
    intros Hn He. unfold curve_eps, eps_ok, clast. rewrite periodic_len.
    cbn [cdeg cknots periodic_curve]. rewrite !periodic_kf by lia.
    rewrite !plus_INR. cbn [INR]. repeat split; lra.
  Qed.

  Lemma periodic_cpc D pts p i j : (1 <= length pts)%nat -> (j < length pts + p)%nat ->
    cpc (periodic_curve D pts p) i j = rc i (to_homogeneous (nth (j mod length pts) pts [])).
  Proof.
    intros Hn Hj. unfold cpc. cbn [cpts periodic_curve].
    rewrite (nth_map_lt to_homogeneous _ j [] []) by (rewrite map_length, seq_length; lia).
    rewrite (nth_map_lt _ _ j 0%nat []) by (rewrite seq_length; lia).
    rewrite seq_nth by lia. reflexivity.
  Qed.

  Lemma INR_mono : mono INR.
  Proof. intros i. apply le_INR. lia. Qed.

  (** basis of the integer knots: shifting index and parameter together changes nothing *)
  Lemma bs_INR_shift d s p i u :
    bs INR (s + d) p (i + d) (u + INR d) = bs INR s p i u.
  Proof.
    replace (u + INR d) with (1 * u + INR d) by lra.
    rewrite <- (bs_affine INR (fun j => 1 * INR j + INR d) 1 (INR d) s p i u); [|lra|reflexivity].
    apply bs_shift. intros j _. rewrite plus_INR. lra.
  Qed.

  Theorem periodic_closed D pts p :
    (1 <= D)%nat -> Forall (fun q => length q = (D - 1)%nat) pts ->
    (1 <= p)%nat -> (p + 1 <= length pts)%nat -> 0 < eps <= 1 ->
    exists c q, try_periodic D pts p = Ok c /\ curve_ok c /\ length (cpts c) = (length pts + p)%nat /\
      first_point c = Ok q /\ end_point c = Ok q.
  Proof.
    intros HD Hp Hp1 Hn He. set (c := periodic_curve D pts p).
    pose proof (periodic_ok D pts p HD Hp Hn) as Hc. fold c in Hc.
    pose proof (periodic_eps D pts p Hn He) as Hce. fold c in Hce.
    pose proof (dom_le c Hc) as Hd. pose proof (clast_S c Hc) as Hcl.
    pose proof (periodic_len D pts p) as Hl. fold c in Hl.
    assert (D0 : dom0 c = INR p).
    { unfold dom0, c. cbn [cdeg cknots periodic_curve]. apply periodic_kf. lia. }
    assert (D1 : dom1 c = INR (length pts + p)).
    { unfold dom1. rewrite Hl. unfold c. cbn [cknots periodic_curve]. apply periodic_kf. lia. }
    set (n := length pts) in *.
    assert (EP : forall i j, (j < n + p)%nat ->
              cpc c i j = rc i (to_homogeneous (nth (j mod n) pts []))).
    { intros i j Hj. apply periodic_cpc; fold n; lia. }
    assert (Hh : forall i, hcoord c i (dom1 c) = hcoord c i (dom0 c)).
    { intros i.
      rewrite <- (piece_hcoord c (clast c) i (dom1 c) Hc).
      3: lia.
      2:{ unfold in_span, dom1. rewrite Hcl. pose proof (ko_last _ _ _ (co_knots c Hc)) as K.
          rewrite Nat.add_1_r, Hcl in K. split; [exact K|]. split; [lra|]. right. auto. }
      rewrite <- (piece_hcoord c (cdeg c) i (dom0 c) Hc).
      3:{ pose proof (co_len c Hc). lia. }
      2:{ unfold in_span, dom0. pose proof (ko_first _ _ _ (co_knots c Hc)) as K.
          rewrite Nat.add_1_r in K. split; [exact K|]. split; [lra|]. left. exact K. }
      change (cdeg c) with p.
      assert (EK : forall s j u, (j + p + 1 < n + 1 + p * 2)%nat ->
                     bs (kf (cknots c)) s p j u = bs INR s p j u).
      { intros s j u Hj. apply bs_ext. intros l Hll. unfold c. cbn [cknots periodic_curve].
        apply periodic_kf. lia. }
      rewrite !piece_window by (rewrite ?Hl; lia).
      replace (clast c - p)%nat with (n - 1)%nat by lia.
      rewrite Nat.sub_diag.
      rewrite (rsum_ext _ _ (fun r => bs INR (n + p) p (n - 1 + r) (INR (n + p))
                     * rc i (to_homogeneous (nth ((n - 1 + r) mod n) pts [])))).
      2:{ intros r Hr. rewrite EK by lia. rewrite D1. rewrite EP by lia.
          f_equal.
          replace (INR (n + p)) with (INR (S (clast c))) by (f_equal; lia).
          rewrite (bs_continuous INR (clast c) 1 p (n - 1 + r) INR_mono).
          - f_equal; lia.
          - lia.
          - apply lt_INR. lia.
          - apply lt_INR. lia.
          - intros j Hj. f_equal. lia. }
      rewrite rsum_S_l, Nat.add_0_r.
      rewrite (bs_support INR (n + p) p (n - 1)) by lia.
      rewrite Rmult_0_l, Rplus_0_l.
      (* window at the start: the last basis function vanishes *)
      cbn [rsum].
      assert (E0 : bs (kf (cknots c)) p p (0 + p) (dom0 c) = 0).
      { rewrite EK by lia. cbn [Nat.add]. rewrite D0.
        destruct p as [|q]; [lia|]. rewrite bs_S.
        rewrite (bs_support INR (S q) q (S q + 1)) by lia.
        unfold wl, quot0. destruct (Req_EM_T _ 0); unfold Rdiv;
          rewrite ?(Rminus_diag_eq (INR (S q)) (INR (S q))) by reflexivity; lra. }
      rewrite E0, Rmult_0_l, Rplus_0_r.
      apply rsum_ext. intros r Hr. rewrite EK by lia. rewrite D0. 
      rewrite EP by lia. f_equal.
      - replace (n - 1 + S r)%nat with (r + n)%nat by lia.
        rewrite (Nat.add_comm n p), plus_INR.
        rewrite bs_INR_shift. f_equal.
      - f_equal. f_equal. f_equal. cbn [Nat.add].
        replace (n - 1 + S r)%nat with (r + 1 * n)%nat by lia.
        rewrite Nat.mod_add by lia. reflexivity. }
    assert (Hw : wfun c (dom0 c) <> 0).
    { unfold wfun.
      assert (E : hcoord c (cdim c - 1) (dom0 c) =
         rsum (length (cpts c)) (fun j => cox_closed (kf (cknots c)) (dom1 c) (cdeg c) j (dom0 c))).
      { unfold hcoord. apply rsum_ext. intros j Hj. rewrite EP by lia.
        rewrite hom_rc_last; [lra|]. rewrite Forall_forall in Hp.
        change (cdim c) with D. symmetry. apply Hp. apply nth_In, Nat.mod_upper_bound. lia. }
      rewrite E, cox_sum by (auto; lra). lra. }
    destruct (point_at_spec eps maxv c (dom0 c) Hc Hce ltac:(lra) Hw) as (q & E & _).
    exists c, q. split; [now apply periodic_eq|]. split; [exact Hc|]. split; [exact Hl|].
    unfold first_point, end_point. rewrite knots_domain_ok by auto. cbn [bind].
    split; [exact E|]. rewrite <- E. apply point_at_transfer; auto; try lra.
  Qed.

  (** fewer than degree + 1 points: error; degree 0: not closed in general *)
  Theorem periodic_too_few D (pts : list (list R)) p :
    (length pts < p + 1)%nat -> errs (try_periodic D pts p).
  Proof.
    intros H. unfold try_periodic. destruct (Nat.ltb_spec (length pts) (p + 1)); [|lia].
    eexists; reflexivity.
  Qed.
End Real.
