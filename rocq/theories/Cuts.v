(** * C89: the order of two cuts does not matter *)
From Coq Require Import Reals Lra Lia Sorted Permutation.
From Verif Require Import Base BaseFacts Scalar KnotModel RSum BSplineSpec BSpline KnotSpec KnotFacts KnotProofs VecFacts
  CurveModel CurveKnotModel CurveSpec CurveProofs KnotMisc Boehm Refine SplitModel SplitProofs CurveGeom CurveGeom2 Unique Unique2.
Import ListNotations.
Open Scope R_scope.

(** the knots below and above a parameter *)
Definition below (u : R) (k : list R) : list R := filter (fun y => if Rlt_dec y u then true else false) k.
Definition above (u : R) (k : list R) : list R := filter (fun y => if Rlt_dec u y then true else false) k.

Lemma below_all u k : Forall (fun y => y < u) k -> below u k = k.
Proof. induction 1 as [|y k Hy Hk IH]; [reflexivity|]. cbn. destruct (Rlt_dec y u); [|lra]. now f_equal. Qed.
Lemma below_none u k : Forall (fun y => u <= y) k -> below u k = [].
Proof. induction 1 as [|y k Hy Hk IH]; [reflexivity|]. cbn. destruct (Rlt_dec y u); [lra|]. exact IH. Qed.
Lemma above_all u k : Forall (fun y => u < y) k -> above u k = k.
Proof. induction 1 as [|y k Hy Hk IH]; [reflexivity|]. cbn. destruct (Rlt_dec u y); [|lra]. now f_equal. Qed.
Lemma above_none u k : Forall (fun y => y <= u) k -> above u k = [].
Proof. induction 1 as [|y k Hy Hk IH]; [reflexivity|]. cbn. destruct (Rlt_dec u y); [lra|]. exact IH. Qed.
Lemma below_app u k k' : below u (k ++ k') = below u k ++ below u k'.
Proof. apply filter_app. Qed.
Lemma above_app u k k' : above u (k ++ k') = above u k ++ above u k'.
Proof. apply filter_app. Qed.
Lemma filter_filter {A} (f g : A -> bool) l : filter f (filter g l) = filter (fun y => f y && g y)%bool l.
Proof. induction l as [|y l IH]; [reflexivity|]. cbn. destruct (g y); cbn; destruct (f y); cbn; rewrite ?IH; reflexivity. Qed.
Lemma below_below a b k : a <= b -> below a (below b k) = below a k.
Proof. intros H. unfold below. rewrite filter_filter. apply filter_ext. intros y. destruct (Rlt_dec y a), (Rlt_dec y b); auto; lra. Qed.
Lemma above_above a b k : a <= b -> above b (above a k) = above b k.
Proof. intros H. unfold above. rewrite filter_filter. apply filter_ext. intros y. destruct (Rlt_dec b y), (Rlt_dec a y); auto; lra. Qed.
Lemma below_above a b k : below b (above a k) = above a (below b k).
Proof. unfold below, above. rewrite !filter_filter. apply filter_ext. intros y. destruct (Rlt_dec a y), (Rlt_dec y b); reflexivity. Qed.
Lemma repeat_Forall {A} (P : A -> Prop) x n : P x -> Forall P (repeat x n).
Proof. intros H. induction n; constructor; auto. Qed.
Lemma count_filter f (k : list R) x : (count_occ Req_EM_T (filter f k) x <= count_occ Req_EM_T k x)%nat.
Proof. induction k as [|y k IH]; [cbn; lia|]. cbn. destruct (f y); cbn; destruct (Req_EM_T y x); lia. Qed.
Lemma count_repeat_ne (u x : R) n : u <> x -> count_occ Req_EM_T (repeat u n) x = 0%nat.
Proof. intros H. induction n; [reflexivity|]. cbn. destruct (Req_EM_T u x); [contradiction|assumption]. Qed.

(** two parts of a curve over the same range with the same knots are equal *)
Lemma part_unique c l l' a b : curve_ok c -> curve_ok l -> curve_ok l' -> part_of c l a b -> part_of c l' a b -> good_end c b ->
  cknots l' = cknots l -> low_mult l -> l' = l.
Proof.
  intros Hc H1 H2 P1 P2 Hg Ek Hl. apply control_points_unique; auto.
  - rewrite (po_dim _ _ _ _ P1). apply P2.
  - rewrite (po_deg _ _ _ _ P1). apply P2.
  - intros i u _ Hu _. rewrite (po_dom0 _ _ _ _ P1), (po_dom1 _ _ _ _ P1) in Hu.
    rewrite (part_hcoord c l a b i u), (part_hcoord c l' a b i u); auto.
Qed.

Section Real.
  Variables eps maxv : R.
  Local Hint Extern 0 (Scalar R) => exact (ROps eps maxv) : typeclass_instances.
  Local Notation off_knots := (off_knots eps).

  Lemma split_full c u : curve_ok c -> curve_eps eps c -> dom0 c < u < dom1 c -> off_knots c u ->
    exists l r, try_split c u = Ok (l, r) /\ curve_ok l /\ curve_eps eps l /\ curve_ok r /\ curve_eps eps r /\
      part_of c l (dom0 c) u /\ part_of c r u (dom1 c) /\
      cknots l = below u (cknots c) ++ repeat u (cdeg c + 1) /\ cknots r = repeat u (cdeg c + 1) ++ above u (cknots c).
  Proof.
    intros Hc He Hu Ho. pose proof (off_sep eps c u Ho) as Hs.
    destruct (split_parts eps maxv c u Hc He ltac:(lra) Hs) as (l & r & s & E & S1 & S2 & Pl & Pr & Kl & Kr).
    pose proof (curve_len c Hc) as Hlen. pose proof (clast_S c Hc) as Hn.
    assert (Lt : kf (cknots c) s < u) by (apply (off_lt eps); auto; [apply He|lia|apply S2]).
    destruct (split_left_ok eps c l u s Hc He Hs S1 S2 Pl Kl Lt) as (Ol & El).
    destruct (split_right_ok eps c r u s Hc He Hs S1 S2 Pr Kr ltac:(lra)) as (Or & Er).
    pose proof (curve_mono c Hc) as Hm.
    assert (Gt : u < kf (cknots c) (S s)).
    { destruct S2 as (_ & _ & [G|[Eu G]]); [exact G|]. rewrite Eu. unfold dom1 in Hu. rewrite <- Hn in Hu. lra. }
    assert (F1 : Forall (fun y => y < u) (firstn (S s) (cknots c))).
    { apply Forall_forall. intros y Hy. destruct (In_nth _ _ 0 Hy) as (q & Hq & <-). rewrite firstn_length in Hq.
      rewrite nth_firstn by lia. rewrite <- (kf_nth _ _ 0) by lia. pose proof (mono_le _ q s Hm ltac:(lia)). lra. }
    assert (F2 : Forall (fun y => u < y) (skipn (S s) (cknots c))).
    { apply Forall_forall. intros y Hy. destruct (In_nth _ _ 0 Hy) as (q & Hq & <-). rewrite skipn_length in Hq.
      rewrite nth_skipn. rewrite <- (kf_nth _ _ 0) by lia. pose proof (mono_le _ (S s) (S s + q) Hm ltac:(lia)). lra. }
    assert (B : below u (cknots c) = firstn (S s) (cknots c)).
    { rewrite <- (firstn_skipn (S s) (cknots c)) at 1. rewrite below_app, (below_all u _ F1), below_none, app_nil_r; [reflexivity|].
      eapply Forall_impl; [|exact F2]. intros; lra. }
    assert (A : above u (cknots c) = skipn (S s) (cknots c)).
    { rewrite <- (firstn_skipn (S s) (cknots c)) at 1. rewrite above_app, (above_all u _ F2), above_none; [reflexivity|].
      eapply Forall_impl; [|exact F1]. intros; lra. }
    exists l, r. rewrite B, A. auto 12.
  Qed.

  (** ** Two cuts *)
  Theorem cut_order c a b : curve_ok c -> curve_eps eps c -> low_mult c -> dom0 c < a -> a + eps <= b -> b < dom1 c -> off_knots c a -> off_knots c b ->
    exists l m r lb ra,
      try_split c b = Ok (lb, r) /\ try_split lb a = Ok (l, m) /\
      try_split c a = Ok (l, ra) /\ try_split ra b = Ok (m, r) /\
      try_trim_range c a b = Ok [m] /\ try_trim_range c b a = Ok [r; l].
  Proof.
    intros Hc He Hl Ha Hab Hb Oa Ob. pose proof He as (He0 & _).
    destruct (split_full c b Hc He ltac:(lra) Ob) as (lb & r & E1 & O1 & P1 & O2 & P2 & Q1 & Q2 & K1 & K2).
    destruct (split_full c a Hc He ltac:(lra) Oa) as (l & ra & E3 & O3 & P3 & O4 & P4 & Q3 & Q4 & K3 & K4).
    assert (Olb : off_knots lb a).
    { intros y Hy. rewrite K1 in Hy. apply in_app_or in Hy. destruct Hy as [Hy|Hy].
      - apply filter_In in Hy. now apply Oa.
      - apply repeat_spec in Hy. subst y. rewrite Rabs_right; lra. }
    assert (Ora : off_knots ra b).
    { intros y Hy. rewrite K4 in Hy. apply in_app_or in Hy. destruct Hy as [Hy|Hy].
      - apply repeat_spec in Hy. subst y. rewrite Rabs_left; lra.
      - apply filter_In in Hy. now apply Ob. }
    destruct (split_full lb a O1 P1) as (l' & m & E5 & O5 & P5 & O6 & P6 & Q5 & Q6 & K5 & K6); auto.
    { rewrite (po_dom0 _ _ _ _ Q1), (po_dom1 _ _ _ _ Q1). lra. }
    destruct (split_full ra b O4 P4) as (m' & r' & E7 & O7 & P7 & O8 & P8 & Q7 & Q8 & K7 & K8); auto.
    { rewrite (po_dom0 _ _ _ _ Q4), (po_dom1 _ _ _ _ Q4). lra. }
    rewrite (po_dom0 _ _ _ _ Q1) in Q5. rewrite (po_dom1 _ _ _ _ Q1) in Q6. rewrite (po_dom0 _ _ _ _ Q4) in Q7. rewrite (po_dom1 _ _ _ _ Q4) in Q8.
    rewrite (po_deg _ _ _ _ Q1), K1, below_app in K5. rewrite (po_deg _ _ _ _ Q1), K1, above_app in K6.
    rewrite (po_deg _ _ _ _ Q4), K4, below_app in K7. rewrite (po_deg _ _ _ _ Q4), K4, above_app in K8.
    rewrite (below_none a (repeat b _)) in K5 by (apply repeat_Forall; lra). rewrite (above_all a (repeat b _)) in K6 by (apply repeat_Forall; lra).
    rewrite (below_all b (repeat a _)) in K7 by (apply repeat_Forall; lra). rewrite (above_none b (repeat a _)) in K8 by (apply repeat_Forall; lra).
    rewrite app_nil_r, below_below in K5 by lra. cbn [app] in K8. rewrite above_above in K8 by lra.
    assert (Gl : forall u, off_knots c u -> good_end c u) by (intros u Hu; now apply (off_good eps)).
    assert (El : l' = l).
    { apply (part_unique c l l' (dom0 c) a); auto.
      - exact (part_trans _ _ _ _ _ _ _ Q1 Q5).
      - congruence.
      - intros x Hx. rewrite (po_dom0 _ _ _ _ Q3), (po_dom1 _ _ _ _ Q3) in Hx. rewrite K3, count_occ_app, (count_repeat_ne a x) by lra.
        rewrite (po_deg _ _ _ _ Q3). pose proof (count_filter (fun y => if Rlt_dec y a then true else false) (cknots c) x). specialize (Hl x ltac:(lra)). unfold below. lia. }
    assert (Er : r' = r).
    { apply (part_unique c r r' b (dom1 c)); auto.
      - exact (part_trans _ _ _ _ _ _ _ Q4 Q8).
      - right. now left.
      - congruence.
      - intros x Hx. rewrite (po_dom0 _ _ _ _ Q2), (po_dom1 _ _ _ _ Q2) in Hx. rewrite K2, count_occ_app, (count_repeat_ne b x) by lra.
        rewrite (po_deg _ _ _ _ Q2). pose proof (count_filter (fun y => if Rlt_dec b y then true else false) (cknots c) x). specialize (Hl x ltac:(lra)). unfold above. lia. }
    assert (Em : m' = m).
    { apply (part_unique c m m' a b); auto.
      - exact (part_trans _ _ _ _ _ _ _ Q1 Q6).
      - exact (part_trans _ _ _ _ _ _ _ Q4 Q7).
      - rewrite K6, K7, below_above. now rewrite app_assoc.
      - intros x Hx. pose proof (part_trans _ _ _ _ _ _ _ Q1 Q6) as Qm. rewrite (po_dom0 _ _ _ _ Qm), (po_dom1 _ _ _ _ Qm) in Hx.
        rewrite K6, !count_occ_app, (count_repeat_ne a x), (count_repeat_ne b x) by lra. rewrite (po_deg _ _ _ _ Qm).
        pose proof (count_filter (fun y => if Rlt_dec a y then true else false) (below b (cknots c)) x).
        pose proof (count_filter (fun y => if Rlt_dec y b then true else false) (cknots c) x). specialize (Hl x ltac:(lra)). unfold above, below in *. lia. }
    subst l' r' m'. exists l, m, r, lb, ra. split; [exact E1|]. split; [exact E5|]. split; [exact E3|]. split; [exact E7|].
    unfold try_trim_range, smin, smax. rs.
    destruct (Rltb_spec b a); [lra|]. destruct (Rltb_spec a b); [|lra]. rewrite E3. cbn [bind]. rewrite E7. cbn [bind]. split; reflexivity.
  Qed.
End Real.
