(** * Arc length under rigid motions, scalings, reparametrisation and reversal *)
From Coq Require Import Reals Lra Lia Psatz Sorted Permutation ZArith.
From Verif Require Import Base BaseFacts Scalar RSum BSplineSpec BSpline BSplineDeriv KnotModel KnotSpec KnotFacts
  VecFacts CurveModel CurveKnotModel CurveSpec CurveProofs CurveGeom CurveGeom2 KnotMisc CurveShapes
  Boehm Refine SplitModel SplitProofs Decompose CurveDeriv BBoxModel BBoxProofs TraversalProofs LengthModel LengthProofs.
Open Scope R_scope.

(** a function vanishing inside an interval has no slope anywhere on the closed interval *)
Lemma flat_slope G a b u l : a < b -> a <= u <= b -> (forall x, a < x < b -> G x = 0) -> derivable_pt_lim G u l -> l = 0.
Proof.
  intros Hab Hu Hz Hd. destruct (Req_dec l 0) as [E|Hl]; [exact E|exfalso].
  assert (Hla : 0 < Rabs l) by now apply Rabs_pos_lt.
  destruct (Hd (Rabs l / 2) ltac:(lra)) as (d & Dd). pose proof (cond_pos d) as Hpos.
  set (h0 := Rmin (d / 2) ((b - a) / 4)).
  assert (H0 : 0 < h0 /\ h0 <= d / 2 /\ h0 <= (b - a) / 4).
  { split; [apply Rmin_glb_lt; lra|]. split; [apply Rmin_l|apply Rmin_r]. }
  assert (X : exists h, h <> 0 /\ Rabs h < d /\ Rabs (h / 4) < d /\ a < u + h < b /\ a < u + h / 4 < b).
  { destruct (Rle_lt_dec u ((a + b) / 2)) as [C|C].
    - exists h0. split; [lra|]. rewrite !Rabs_right by lra. repeat split; lra.
    - exists (- h0). split; [lra|]. rewrite !Rabs_left by lra. repeat split; lra. }
  destruct X as (h & Hh & B1 & B2 & I1 & I2).
  pose proof (Dd h Hh B1) as D1. pose proof (Dd (h / 4) ltac:(lra) B2) as D2.
  rewrite (Hz _ I1) in D1. rewrite (Hz _ I2) in D2.
  replace ((0 - G u) / (h / 4)) with (4 * ((0 - G u) / h)) in D2 by (field; auto).
  set (x := (0 - G u) / h) in *. revert D1 D2 Hla. unfold Rabs. repeat destruct (Rcase_abs _); lra.
Qed.

(** strictly increasing lists with the same elements are equal *)
Lemma increasing_unique (l l' : list R) : StronglySorted Rlt l -> StronglySorted Rlt l' -> (forall x, In x l <-> In x l') -> l = l'.
Proof.
  intros H. revert l'. induction H as [|a l Hs IH Ha]; intros l' H' Hin.
  - destruct l' as [|b l']; [reflexivity|]. exfalso. apply (proj2 (Hin b)). now left.
  - destruct H' as [|b l' Hs' Hb].
    { exfalso. apply (proj1 (Hin a)). now left. }
    rewrite Forall_forall in Ha, Hb.
    assert (E : a = b).
    { destruct (proj1 (Hin a) (or_introl eq_refl)) as [E|E]; [now symmetry|].
      destruct (proj2 (Hin b) (or_introl eq_refl)) as [E'|E']; [exact E'|].
      pose proof (Ha _ E'). pose proof (Hb _ E). lra. }
    subst b. f_equal. apply IH; [exact Hs'|]. intros x. split; intros Hx.
    + destruct (proj1 (Hin x) (or_intror Hx)) as [E|E]; [|exact E]. subst x. pose proof (Ha _ Hx). lra.
    + destruct (proj2 (Hin x) (or_intror Hx)) as [E|E]; [|exact E]. subst x. pose proof (Hb _ Hx). lra.
Qed.

Lemma increasing_strong (l : list R) : (forall i, (S i < length l)%nat -> nth i l 0 < nth (S i) l 0) -> StronglySorted Rlt l.
Proof.
  intros H. apply Sorted_StronglySorted; [intros x y z; apply Rlt_trans|].
  induction l as [|a l IH]; [constructor|]. constructor.
  - apply IH. intros i Hi. apply (H (S i)). cbn. lia.
  - destruct l as [|b l]; constructor. apply (H 0%nat). cbn. lia.
Qed.

(** a quadrature rule that treats both directions alike *)
Definition symmetric_rule (rule : list (R * R)) : Prop := Permutation (map (fun xw => (- fst xw, snd xw)) rule) rule.

Lemma wsum_perm r r' g : Permutation r r' -> wsum r g = wsum r' g.
Proof. induction 1; cbn; lra. Qed.

Lemma wsum_mirror rule g : symmetric_rule rule -> wsum rule (fun x => g (- x)) = wsum rule g.
Proof.
  intros H. rewrite <- (wsum_perm _ _ g H). clear H. induction rule as [|xw rule IH]; cbn; [reflexivity|]. now rewrite IH.
Qed.

Lemma wsum_scal k rule g : wsum rule (fun x => k * g x) = k * wsum rule g.
Proof. induction rule as [|xw rule IH]; cbn; [ring|]. rewrite IH. ring. Qed.

(** a linear map of n-vectors that multiplies every length by k *)
Definition conformal (n : nat) (k : R) (L : nat -> nat -> R) : Prop :=
  0 <= k /\ forall x : nat -> R,
    rsum n (fun i => Rsqr (rsum n (fun l => L i l * x l))) = Rsqr k * rsum n (fun i => Rsqr (x i)).

Section Real.
  Variables eps maxv : R.
  Local Hint Extern 0 (Scalar R) => exact (ROps eps maxv) : typeclass_instances.
  Local Notation length_curve := (length_curve eps).
  Local Notation bezier_seg := (bezier_seg eps).

  (** [c'] at parameter [al * u + be] is the image of [c] at [u] under a map that multiplies lengths by [k] *)
  Record moves (al be k : R) (c c' : Curve R) : Prop := {
    mv_dim : cdim c' = cdim c;
    mv_deg : cdeg c' = cdeg c;
    mv_knots : forall x, In x (cknots c') <-> exists y, In y (cknots c) /\ x = al * y + be;
    mv_point : exists L t, conformal (cdim c - 1) k L /\
      forall u p, dom0 c <= u <= dom1 c -> point_at c u = Ok p ->
        exists q, point_at c' (al * u + be) = Ok q /\
          forall i, (i < cdim c - 1)%nat -> rc i q = rsum (cdim c - 1) (fun l => L i l * rc l p) + t i
  }.

  Lemma seg_point s u : bezier_seg s -> dom0 s <= u <= dom1 s ->
    exists p, point_at s u = Ok p /\ forall i, (i < cdim s - 1)%nat -> rc i p = nurbs s i u.
  Proof.
    intros H Hu. destruct (point_at_spec eps maxv s u) as (p & E & _ & V); try apply H; auto; [|eauto].
    apply Rgt_not_eq. apply (wfun_pos eps maxv); try apply H; auto.
  Qed.

  (** the speeds of corresponding segments *)
  Lemma moved_speed al be k s s' L t : al <> 0 -> bezier_seg s -> bezier_seg s' -> cdim s' = cdim s -> cdeg s' = cdeg s ->
    conformal (cdim s - 1) k L ->
    (forall u, dom0 s <= u <= dom1 s -> dom0 s' <= al * u + be <= dom1 s') ->
    (forall u i, dom0 s <= u <= dom1 s -> (i < cdim s - 1)%nat ->
       nurbs s' i (al * u + be) = rsum (cdim s - 1) (fun l => L i l * nurbs s l u) + t i) ->
    forall u, dom0 s <= u <= dom1 s -> Rabs al * speed s' (al * u + be) = k * speed s u.
  Proof.
    intros Hal H H' Ed Eg (Hk & HL) Hin Hp u Hu.
    destruct (seg_dom eps s H) as (D0 & D1 & Dl). destruct (seg_dom eps s' H') as (D0' & D1' & Dl').
    destruct (rational_derivatives_all eps maxv s (cdeg s)) as (V & _); try apply H;
      try (rewrite (seg_clast eps s H); lia); try lra.
    destruct (rational_derivatives_all eps maxv s' (cdeg s')) as (V' & _); try apply H';
      try (rewrite (seg_clast eps s' H'); lia); try lra.
    rewrite D0, D1 in V. rewrite D0', D1' in V'.
    assert (Sl : forall i, (i < cdim s - 1)%nat ->
      al * ratd s' (cdeg s') i 1 (al * u + be) = rsum (cdim s - 1) (fun l => L i l * ratd s (cdeg s) l 1 u)).
    { intros i Hi. destruct (V' i ltac:(lia)) as (V0' & V1').
      apply Rminus_diag_uniq.
      apply (flat_slope (fun x => ratd s' (cdeg s') i 0 (al * x + be)
                          - (rsum (cdim s - 1) (fun l => L i l * ratd s (cdeg s) l 0 x) + t i)) (dom0 s) (dom1 s) u); auto.
      - intros x Hx.
        assert (Hstrict : dom0 s' <= al * x + be < dom1 s').
        { split; [apply Hin; lra|]. destruct (Rle_lt_dec (dom1 s') (al * x + be)) as [C|C]; [exfalso|exact C].
          destruct (Rle_lt_dec al 0) as [Ha|Ha].
          - pose proof (Hin (dom0 s) ltac:(lra)). nra.
          - pose proof (Hin (dom1 s) ltac:(lra)). nra. }
        rewrite V0' by exact Hstrict. rewrite Hp by (auto; lra).
        rewrite (rsum_ext _ (fun l => L i l * ratd s (cdeg s) l 0 x) (fun l => L i l * nurbs s l x)); [ring|].
        intros l Hl. rewrite (proj1 (V l Hl)) by lra. reflexivity.
      - replace (al * ratd s' (cdeg s') i 1 (al * u + be) - rsum (cdim s - 1) (fun l => L i l * ratd s (cdeg s) l 1 u))
          with (ratd s' (cdeg s') i 1 (al * u + be) * al
                - (rsum (cdim s - 1) (fun l => L i l * ratd s (cdeg s) l 1 u) + 0)) by ring.
        apply (derivable_pt_lim_minus (fun x => ratd s' (cdeg s') i 0 (al * x + be))
                 (fun x => rsum (cdim s - 1) (fun l => L i l * ratd s (cdeg s) l 0 x) + t i)).
        + apply (derivable_pt_lim_comp (fun x => al * x + be) (ratd s' (cdeg s') i 0)).
          * intros e He. exists (mkposreal 1 Rlt_0_1). intros h Hh _.
            replace ((al * (u + h) + be - (al * u + be)) / h - al) with 0 by (field; auto). now rewrite Rabs_R0.
          * apply V1'. now apply Hin.
        + apply (derivable_pt_lim_plus (fun x => rsum (cdim s - 1) (fun l => L i l * ratd s (cdeg s) l 0 x)) (fun _ => t i)).
          * apply (derivable_rsum (cdim s - 1) (fun l x => L i l * ratd s (cdeg s) l 0 x) (fun l x => L i l * ratd s (cdeg s) l 1 x)).
            intros l Hl. apply (derivable_pt_lim_scal (ratd s (cdeg s) l 0)). apply (V l Hl). lra.
          * apply derivable_pt_lim_const. }
    unfold speed. rewrite Ed.
    set (A := rsum (cdim s - 1) (fun i => ratd s' (cdeg s') i 1 (al * u + be) * ratd s' (cdeg s') i 1 (al * u + be))).
    set (B := rsum (cdim s - 1) (fun i => ratd s (cdeg s) i 1 u * ratd s (cdeg s) i 1 u)).
    assert (EAB : Rsqr al * A = Rsqr k * B).
    { unfold A, B. etransitivity; [|exact (HL (fun l => ratd s (cdeg s) l 1 u))]. rewrite <- rsum_scal.
      apply rsum_ext. intros i Hi. rewrite <- Sl by auto. unfold Rsqr. ring. }
    assert (A0 : 0 <= A) by (apply rsum_nonneg; intros; apply Rle_0_sqr).
    assert (B0 : 0 <= B) by (apply rsum_nonneg; intros; apply Rle_0_sqr).
    rewrite <- (sqrt_Rsqr_abs al). rewrite <- sqrt_mult by (auto; apply Rle_0_sqr).
    rewrite EAB. rewrite sqrt_mult by (auto; apply Rle_0_sqr). rewrite sqrt_Rsqr by exact Hk. reflexivity.
  Qed.

  (** quadrature over the image of an interval *)
  Lemma quad_forward rule f g al be k a b : rule_ok rule -> a <= b -> 0 < al ->
    (forall x, a <= x <= b -> al * f (al * x + be) = k * g x) ->
    quad rule f (al * a + be) (al * b + be) = k * quad rule g a b.
  Proof.
    intros Hr Hab Hal H. unfold quad.
    transitivity ((b - a) / 2 * (al * wsum rule (fun x => f (al * (((b - a) * x + (b + a)) / 2) + be)))).
    - rewrite (wsum_ext rule _ (fun x => f (al * (((b - a) * x + (b + a)) / 2) + be))); [field|].
      intros xw _. f_equal. field.
    - rewrite <- wsum_scal. rewrite (wsum_ext rule _ (fun x => k * g (((b - a) * x + (b + a)) / 2))).
      + rewrite wsum_scal. ring.
      + intros xw Hx. apply H. apply node_range; [exact Hab|]. unfold rule_ok in Hr. rewrite Forall_forall in Hr. apply (Hr xw Hx).
  Qed.

  Lemma quad_backward rule f g al be k a b : rule_ok rule -> symmetric_rule rule -> a <= b -> al < 0 ->
    (forall x, a <= x <= b -> - al * f (al * x + be) = k * g x) ->
    quad rule f (al * b + be) (al * a + be) = k * quad rule g a b.
  Proof.
    intros Hr Hs Hab Hal H. unfold quad.
    transitivity ((b - a) / 2 * (- al * wsum rule (fun x => f (al * (((b - a) * x + (b + a)) / 2) + be)))).
    - rewrite <- (wsum_mirror rule (fun x => f (al * (((b - a) * x + (b + a)) / 2) + be)) Hs).
      rewrite (wsum_ext rule _ (fun x => f (al * (((b - a) * - x + (b + a)) / 2) + be))); [field|].
      intros xw _. f_equal. field.
    - rewrite <- wsum_scal. rewrite (wsum_ext rule _ (fun x => k * g (((b - a) * x + (b + a)) / 2))).
      + rewrite wsum_scal. ring.
      + intros xw Hx. apply H. apply node_range; [exact Hab|]. unfold rule_ok in Hr. rewrite Forall_forall in Hr. apply (Hr xw Hx).
  Qed.

  Lemma mlen_end rule s : 0 < eps -> dom0 s + eps < dom1 s -> mlen eps rule s (dom1 s) = quad rule (speed s) (dom0 s) (dom1 s).
  Proof. intros He H. unfold mlen. destruct (Rlt_dec _ _) as [C|C]; [|lra]. now rewrite Rmin_left by lra. Qed.

  Lemma cut_increasing c vs segs : 0 < eps -> cut eps maxv c vs segs -> StronglySorted Rlt vs.
  Proof.
    intros He H. apply increasing_strong. intros i Hi. pose proof (ct_len _ _ _ _ _ H) as L.
    pose proof (ct_step _ _ _ _ _ H i ltac:(lia)). lra.
  Qed.

  Lemma moved_seg al be k c c' vs segs vs' segs' i i' : al <> 0 -> 0 < eps -> moves al be k c c' ->
    cut eps maxv c vs segs -> cut eps maxv c' vs' segs' -> (i < length segs)%nat -> (i' < length segs')%nat ->
    (forall u, nth i vs 0 <= u <= nth (S i) vs 0 -> nth i' vs' 0 <= al * u + be <= nth (S i') vs' 0) ->
    forall u, nth i vs 0 <= u <= nth (S i) vs 0 ->
      Rabs al * speed (nth i' segs' c') (al * u + be) = k * speed (nth i segs c) u.
  Proof.
    intros Hal He [M1 M2 _ (L & t & HL & M4)] H H' Hi Hi' Hin u Hu.
    destruct (ct_deg _ _ _ _ _ H i Hi) as (E1 & E2). destruct (ct_deg _ _ _ _ _ H' i' Hi') as (E1' & E2').
    destruct (ct_dom _ _ _ _ _ H i Hi) as (D0 & D1). destruct (ct_dom _ _ _ _ _ H' i' Hi') as (D0' & D1').
    pose proof (ct_seg _ _ _ _ _ H i Hi) as B. pose proof (ct_seg _ _ _ _ _ H' i' Hi') as B'.
    apply (moved_speed al be k _ _ L t); auto; try congruence.
    - rewrite D0, D1, D0', D1'. exact Hin.
    - intros v j Hv Hj. rewrite E1 in *. rewrite D0, D1 in Hv. pose proof (Hin v Hv) as Hv'.
      destruct (seg_point _ v B) as (p & P1 & P2); [lra|]. destruct (seg_point _ (al * v + be) B') as (q & Q1 & Q2); [lra|].
      rewrite (ct_point _ _ _ _ _ H i v Hi Hv) in P1.
      rewrite (ct_point _ _ _ _ _ H' i' _ Hi' Hv') in Q1.
      assert (Hd : dom0 c <= v <= dom1 c).
      { pose proof (cut_mono eps maxv c vs segs H He 0 i ltac:(lia)) as G1. pose proof (cut_mono eps maxv c vs segs H He (S i) (length segs) ltac:(lia)) as G2.
        rewrite (ct_first _ _ _ _ _ H) in G1. rewrite (ct_last _ _ _ _ _ H) in G2. lra. }
      destruct (M4 v p Hd P1) as (q' & Q1' & Q2'). rewrite Q1 in Q1'. injection Q1' as <-.
      rewrite <- Q2 by (rewrite E1', M1; auto). rewrite Q2' by auto. f_equal. apply rsum_ext. intros l Hl.
      rewrite P2 by (rewrite E1; auto). reflexivity.
  Qed.

  Lemma length_value gauss c vs segs : length_curve c -> rule_ok (gauss (16 + cdeg c)%nat) ->
    try_decompose_bezier_segments c = Ok segs -> cut eps maxv c vs segs ->
    try_length gauss c = Ok (rsum (length segs) (fun i => quad (gauss (16 + cdeg c)%nat) (speed (nth i segs c)) (nth i vs 0) (nth (S i) vs 0))).
  Proof.
    intros H Hr Es Hcut. destruct (try_length_spec eps maxv gauss c H Hr) as (vs0 & segs0 & ls & Es0 & Hcut0 & El & _ & E).
    rewrite Es in Es0. injection Es0 as <-. rewrite E. f_equal. assert (He : 0 < eps) by apply (lc_eps _ c H).
    assert (Bz : forall s, In s segs -> bezier_seg s).
    { intros s Hs. apply (In_nth _ _ c) in Hs. destruct Hs as (i & Hi & <-). now apply (ct_seg _ _ _ _ _ Hcut). }
    rewrite (mapM_ok _ (fun s => mlen eps (gauss (16 + cdeg c)%nat) s (dom1 s))) in El.
    2:{ intros s Hs. apply seg_length_value; auto. }
    injection El as <-. unfold psum. rewrite map_length. apply rsum_ext. intros i Hi.
    rewrite (nth_map_lt _ segs i c 0) by exact Hi.
    destruct (ct_dom _ _ _ _ _ Hcut i Hi) as (D0 & D1). pose proof (ct_step _ _ _ _ _ Hcut i Hi) as St.
    rewrite mlen_end by (auto; lra). rewrite D0, D1. reflexivity.
  Qed.

  (** *** Lengths scale by the factor of the motion, when the parametrisation keeps its direction *)
  Theorem length_moved_forward gauss al be k c c' : 0 < al -> moves al be k c c' ->
    length_curve c -> length_curve c' -> rule_ok (gauss (16 + cdeg c)%nat) ->
    exists l, try_length gauss c = Ok l /\ try_length gauss c' = Ok (k * l).
  Proof.
    intros Hal M H H' Hr. assert (He : 0 < eps) by apply (lc_eps _ c H).
    destruct (decompose_cut eps maxv c H) as (vs & segs & Es & Hcut). destruct (decompose_cut eps maxv c' H') as (vs' & segs' & Es' & Hcut').
    assert (Ev : vs' = map (fun x => al * x + be) vs).
    { apply increasing_unique.
      - now apply (cut_increasing c' vs' segs').
      - apply increasing_strong. rewrite map_length. intros i Hi. rewrite !(nth_map_lt _ vs _ 0 0) by lia.
        pose proof (ct_len _ _ _ _ _ Hcut). pose proof (ct_step _ _ _ _ _ Hcut i ltac:(lia)).
        apply Rplus_lt_compat_r, Rmult_lt_compat_l; lra.
      - intros x. rewrite (ct_in _ _ _ _ _ Hcut'), (mv_knots _ _ _ _ _ M), in_map_iff. split.
        + intros (y & Hy & ->). exists y. split; [reflexivity|]. now apply (ct_in _ _ _ _ _ Hcut).
        + intros (y & <- & Hy). exists y. split; [|reflexivity]. now apply (ct_in _ _ _ _ _ Hcut). }
    pose proof (ct_len _ _ _ _ _ Hcut) as L. pose proof (ct_len _ _ _ _ _ Hcut') as L'.
    assert (El : length segs' = length segs) by (rewrite Ev, map_length in L'; lia).
    eexists. split; [apply (length_value gauss c vs segs); auto|].
    rewrite (length_value gauss c' vs' segs' H') by (auto; rewrite (mv_deg _ _ _ _ _ M); auto).
    f_equal. rewrite El, (mv_deg _ _ _ _ _ M), <- rsum_scal. apply rsum_ext. intros i Hi.
    assert (N : forall j, (j <= length segs)%nat -> nth j vs' 0 = al * nth j vs 0 + be).
    { intros j Hj. rewrite Ev. now rewrite (nth_map_lt _ vs _ 0 0) by lia. }
    rewrite !N by lia. pose proof (ct_step _ _ _ _ _ Hcut i Hi) as St.
    apply quad_forward; auto; [lra|]. intros x Hx.
    rewrite <- (moved_seg al be k c c' vs segs vs' segs' i i); auto; try lra; try lia.
    - now rewrite Rabs_right by lra.
    - intros u Hu. rewrite !N by lia. split; apply Rplus_le_compat_r, Rmult_le_compat_l; lra.
  Qed.

  (** *** and when it reverses it, for a rule that treats both directions alike *)
  Theorem length_moved_backward gauss al be k c c' : al < 0 -> moves al be k c c' ->
    length_curve c -> length_curve c' -> rule_ok (gauss (16 + cdeg c)%nat) -> symmetric_rule (gauss (16 + cdeg c)%nat) ->
    exists l, try_length gauss c = Ok l /\ try_length gauss c' = Ok (k * l).
  Proof.
    intros Hal M H H' Hr Hsy. assert (He : 0 < eps) by apply (lc_eps _ c H).
    destruct (decompose_cut eps maxv c H) as (vs & segs & Es & Hcut). destruct (decompose_cut eps maxv c' H') as (vs' & segs' & Es' & Hcut').
    pose proof (ct_len _ _ _ _ _ Hcut) as L. pose proof (ct_len _ _ _ _ _ Hcut') as L'.
    assert (Nr : forall j, (j < length vs)%nat -> nth j (rev (map (fun x => al * x + be) vs)) 0 = al * nth (length vs - 1 - j) vs 0 + be).
    { intros j Hj. rewrite rev_nth by now rewrite map_length. rewrite map_length.
      rewrite (nth_map_lt _ vs _ 0 0) by lia. do 3 f_equal. lia. }
    assert (Ev : vs' = rev (map (fun x => al * x + be) vs)).
    { apply increasing_unique.
      - now apply (cut_increasing c' vs' segs').
      - apply increasing_strong. rewrite rev_length, map_length. intros i Hi. rewrite !Nr by lia.
        replace (length vs - 1 - i)%nat with (S (length vs - 1 - S i)) by lia.
        pose proof (ct_step _ _ _ _ _ Hcut (length vs - 1 - S i)%nat ltac:(lia)). nra.
      - intros x. rewrite (ct_in _ _ _ _ _ Hcut'), (mv_knots _ _ _ _ _ M), <- in_rev, in_map_iff. split.
        + intros (y & Hy & ->). exists y. split; [reflexivity|]. now apply (ct_in _ _ _ _ _ Hcut).
        + intros (y & <- & Hy). exists y. split; [|reflexivity]. now apply (ct_in _ _ _ _ _ Hcut). }
    assert (El : length segs' = length segs) by (rewrite Ev, rev_length, map_length in L'; lia).
    eexists. split; [apply (length_value gauss c vs segs); auto|].
    rewrite (length_value gauss c' vs' segs' H') by (auto; rewrite (mv_deg _ _ _ _ _ M); auto).
    f_equal. rewrite El, (mv_deg _ _ _ _ _ M), <- rsum_scal. rewrite rsum_rev. apply rsum_ext. intros i Hi.
    set (i' := (length segs - 1 - i)%nat).
    assert (N0 : nth i' vs' 0 = al * nth (S i) vs 0 + be).
    { rewrite Ev, Nr by (unfold i'; lia). do 3 f_equal. unfold i'. lia. }
    assert (N1 : nth (S i') vs' 0 = al * nth i vs 0 + be).
    { rewrite Ev, Nr by (unfold i'; lia). do 3 f_equal. unfold i'. lia. }
    rewrite N0, N1. pose proof (ct_step _ _ _ _ _ Hcut i Hi) as St.
    apply quad_backward; auto; [lra|]. intros x Hx.
    rewrite <- (moved_seg al be k c c' vs segs vs' segs' i i'); auto; try lra; try (unfold i'; lia).
    - now rewrite Rabs_left by lra.
    - intros u Hu. rewrite N0, N1. split; apply Rplus_le_compat_r; nra.
  Qed.
End Real.
