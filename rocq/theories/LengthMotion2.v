(** * Transformations, normalisation and reversal as motions: lengths and derivatives *)
From Coq Require Import Reals Lra Lia Psatz Sorted Permutation ZArith.
From Verif Require Import Base BaseFacts Scalar RSum BSplineSpec BSpline BSplineDeriv KnotModel KnotSpec KnotFacts
  VecFacts CurveModel CurveKnotModel CurveSpec CurveProofs CurveGeom CurveGeom2 KnotMisc CurveShapes
  Boehm Refine SplitModel SplitProofs Decompose CurveDeriv BBoxModel BBoxProofs TraversalProofs LengthModel LengthProofs LengthMotion.
Open Scope R_scope.

(** the linear part of the matrix multiplies lengths by [k]: its columns are orthogonal and of length [k] *)
Definition similarity (D : nat) (k : R) (m : list (list R)) : Prop :=
  0 <= k /\ forall j l, (j < D - 1)%nat -> (l < D - 1)%nat ->
    rsum (D - 1) (fun i => rc j (nth i m []) * rc l (nth i m [])) = if Nat.eqb j l then Rsqr k else 0.

Lemma rsum_prod n (f g : nat -> R) : rsum n f * rsum n g = rsum n (fun j => rsum n (fun l => f j * g l)).
Proof.
  rewrite <- rsum_scal_r. apply rsum_ext. intros j _. now rewrite rsum_scal.
Qed.

Lemma similarity_conformal D k m : similarity D k m -> conformal (D - 1) k (fun i l => rc l (nth i m [])).
Proof.
  intros (Hk & H). split; [exact Hk|]. intros x. set (n := (D - 1)%nat) in *.
  transitivity (rsum n (fun j => rsum n (fun l => rsum n (fun i => rc j (nth i m []) * rc l (nth i m [])) * (x j * x l)))).
  - rewrite (rsum_ext n _ (fun i => rsum n (fun j => rsum n (fun l => rc j (nth i m []) * rc l (nth i m []) * (x j * x l))))).
    + rewrite rsum_swap. apply rsum_ext. intros j _. rewrite rsum_swap. apply rsum_ext. intros l _. now rewrite rsum_scal_r.
    + intros i _. unfold Rsqr. rewrite rsum_prod. apply rsum_ext. intros j _. apply rsum_ext. intros l _. ring.
  - rewrite <- rsum_scal. apply rsum_ext. intros j Hj.
    rewrite (rsum_single n j); [|exact Hj|intros l Hl Hne; rewrite H by auto; destruct (Nat.eqb_spec j l); [congruence|ring]].
    rewrite H by auto. rewrite Nat.eqb_refl. unfold Rsqr. ring.
Qed.

Lemma identity_conformal n : conformal n 1 (fun i l => if Nat.eqb i l then 1 else 0).
Proof.
  split; [lra|]. intros x. rewrite <- rsum_scal. apply rsum_ext. intros i Hi.
  rewrite (rsum_single n i); [|exact Hi|intros l Hl Hne; destruct (Nat.eqb_spec i l); [congruence|ring]].
  rewrite Nat.eqb_refl. unfold Rsqr. ring.
Qed.

Lemma identity_sum n i (f : nat -> R) : (i < n)%nat -> rsum n (fun l => (if Nat.eqb i l then 1 else 0) * f l) = f i.
Proof.
  intros Hi. rewrite (rsum_single n i); [|exact Hi|intros l Hl Hne; destruct (Nat.eqb_spec i l); [congruence|ring]].
  rewrite Nat.eqb_refl. ring.
Qed.

Section Real.
  Variables eps maxv : R.
  Local Hint Extern 0 (Scalar R) => exact (ROps eps maxv) : typeclass_instances.
  Local Notation length_curve := (length_curve eps).
  Local Notation moves := (moves eps maxv).

  Lemma kf_In k i : (i < length k)%nat -> In (kf k i) k.
  Proof. intros H. rewrite (kf_nth _ _ 0) by auto. now apply nth_In. Qed.

  Lemma In_kf k x : In x k -> exists i, (i < length k)%nat /\ kf k i = x.
  Proof. intros H. apply (In_nth _ _ 0) in H. destruct H as (i & Hi & E). exists i. split; auto. now rewrite (kf_nth _ _ 0). Qed.

  (** ** Transformation by a matrix *)
  Lemma transform_pos m c : curve_ok c -> affine_matrix (cdim c) m -> pos_weights c -> pos_weights (transform m c).
  Proof.
    intros Hc Hm Hw j Hj. cbn [cpts cdim transform] in *. rewrite map_length in Hj. pose proof (co_dim c Hc).
    rewrite transform_cpc; auto; try lia.
    - rewrite Nat.eqb_refl. now apply Hw.
    - apply Rgt_not_eq. now apply Hw.
  Qed.

  Lemma transform_length_curve m c : length_curve c -> affine_matrix (cdim c) m -> length_curve (transform m c).
  Proof.
    intros [H1 H2 H3 H4 H5 H6] Hm. constructor.
    - now apply transform_ok.
    - unfold curve_eps, clast in *. cbn [cpts cdeg cknots transform]. now rewrite map_length.
    - unfold curve_cont, clast in *. cbn [cpts cdeg cknots transform]. now rewrite map_length.
    - unfold clamped, dom0, dom1 in *. cbn [cpts cdeg cknots transform]. now rewrite map_length.
    - exact H5.
    - now apply transform_pos.
  Qed.

  Lemma transform_moves k m c : curve_ok c -> curve_eps eps c -> pos_weights c -> affine_matrix (cdim c) m -> similarity (cdim c) k m ->
    moves 1 0 k c (transform m c).
  Proof.
    intros Hc He Hw Hm Hs. constructor; try reflexivity.
    - intros x. cbn [cknots transform]. split.
      + intros Hx. exists x. split; [exact Hx|ring].
      + intros (y & Hy & ->). now replace (1 * y + 0) with y by ring.
    - exists (fun i l => rc l (nth i m [])), (fun i => rc (cdim c - 1) (nth i m [])). split; [now apply similarity_conformal|].
      intros u p Hu Ep. exists (apply_affine (cdim c) m p). replace (1 * u + 0) with u by ring. split.
      + apply transform_affine; auto. intros j Hj. apply Rgt_not_eq. now apply Hw.
      + intros i Hi. unfold apply_affine. rewrite rc_map_seq by auto. reflexivity.
  Qed.

  (** *** The length of the image of a curve under a similarity is the factor times the length of the curve *)
  Theorem length_transform gauss k m c : length_curve c -> affine_matrix (cdim c) m -> similarity (cdim c) k m ->
    rule_ok (gauss (16 + cdeg c)%nat) ->
    exists l, try_length gauss c = Ok l /\ try_length gauss (transform m c) = Ok (k * l).
  Proof.
    intros H Hm Hs Hr. apply (length_moved_forward eps maxv gauss 1 0 k); auto; [lra| |now apply transform_length_curve].
    apply transform_moves; auto; apply H.
  Qed.

  (** ** Normalisation of the knots *)
  Lemma reparam_eps a b c : 0 < a -> curve_ok c -> separated eps (cknots (reparam a b c)) -> 0 < eps -> curve_eps eps (reparam a b c).
  Proof.
    intros Ha Hc Hs He. pose proof (reparam_ok a b c Ha Hc) as Hc'. pose proof (curve_len _ Hc') as Hl.
    pose proof (clast_S _ Hc') as Hn. pose proof (ko_first _ _ _ (co_knots _ Hc')) as K1. pose proof (ko_last _ _ _ (co_knots _ Hc')) as K2.
    pose proof (co_len _ Hc') as Hln.
    assert (G : forall i j, (i < length (cknots (reparam a b c)))%nat -> (j < length (cknots (reparam a b c)))%nat ->
              kf (cknots (reparam a b c)) i < kf (cknots (reparam a b c)) j ->
              eps <= kf (cknots (reparam a b c)) j - kf (cknots (reparam a b c)) i).
    { intros i j Hi Hj Hlt. destruct (Hs _ _ (kf_In _ j Hj) (kf_In _ i Hi)) as [E|E]; [lra|].
      rewrite Rabs_right in E by lra. lra. }
    unfold curve_eps, eps_ok. split; [exact He|]. split; apply G; auto; lia.
  Qed.

  Lemma normalize_moves c c' : curve_ok c -> curve_eps eps c -> normalize_knots c = Ok c' -> curve_eps eps c' ->
    moves (/ (dom1 c - dom0 c)) (- dom0 c / (dom1 c - dom0 c)) 1 c c'.
  Proof.
    intros Hc He E He'. rewrite normalize_reparam in E by auto. injection E as <-. pose proof (dom_le c Hc) as Hd.
    set (a := / (dom1 c - dom0 c)) in *. set (b := - dom0 c / (dom1 c - dom0 c)) in *.
    assert (Ha : 0 < a) by (apply Rinv_0_lt_compat; lra).
    constructor; try reflexivity.
    - intros x. cbn [cknots reparam]. rewrite in_map_iff. split; intros (y & H1 & H2); exists y; auto.
    - exists (fun i l => if Nat.eqb i l then 1 else 0), (fun _ => 0). split; [apply identity_conformal|].
      intros u p Hu Ep. exists p. split.
      + rewrite <- Ep. destruct (reparam_dom a b c Hc) as [D0 D1]. apply point_at_transfer; auto.
        * now apply reparam_ok.
        * rewrite D0, D1. split; apply Rplus_le_compat_r, Rmult_le_compat_l; lra.
        * intros i. now apply reparam_hcoord.
      + intros i Hi. rewrite identity_sum by auto. ring.
  Qed.

  (** *** Normalising the knots does not change the length *)
  Theorem length_normalize gauss c : length_curve c -> separated (eps * (dom1 c - dom0 c)) (cknots c) ->
    rule_ok (gauss (16 + cdeg c)%nat) ->
    exists c' l, normalize_knots c = Ok c' /\ length_curve c' /\ try_length gauss c = Ok l /\ try_length gauss c' = Ok l.
  Proof.
    intros H Hs Hr. destruct H as [H1 H2 H3 H4 H5 H6]. pose proof (dom_le c H1) as Hd.
    assert (He : 0 < eps) by apply H2.
    set (a := / (dom1 c - dom0 c)). set (b := - dom0 c / (dom1 c - dom0 c)).
    assert (Ha : 0 < a) by (apply Rinv_0_lt_compat; lra).
    assert (Hs' : separated eps (cknots (reparam a b c))).
    { intros x y Hx Hy. cbn [cknots reparam] in *. apply in_map_iff in Hx, Hy. destruct Hx as (x' & <- & Hx). destruct Hy as (y' & <- & Hy).
      destruct (Hs x' y' Hx Hy) as [->|E]; [now left|right].
      replace (a * x' + b - (a * y' + b)) with (a * (x' - y')) by ring. rewrite Rabs_mult, (Rabs_right a) by lra.
      replace eps with (a * (eps * (dom1 c - dom0 c))) by (unfold a; field; lra). now apply Rmult_lt_compat_l. }
    pose proof (reparam_eps a b c Ha H1 Hs' He) as He'. pose proof (reparam_ok a b c Ha H1) as Hc'.
    pose proof (curve_ne c H1) as Hne.
    assert (Hlc : length_curve (reparam a b c)).
    { constructor; auto.
      - intros j J1 J2. unfold clast in *. cbn [cdeg cpts cknots reparam] in *. rewrite !kf_map by auto.
        apply Rplus_lt_compat_r, Rmult_lt_compat_l; auto.
      - destruct (reparam_dom a b c H1) as [D0 D1]. destruct H4 as (C0 & C1). unfold clamped. rewrite D0, D1.
        cbn [cknots reparam]. rewrite map_length, !kf_map, C0, C1 by auto. split; reflexivity. }
    exists (reparam a b c).
    destruct (length_moved_forward eps maxv gauss a b 1 c (reparam a b c)) as (l & L1 & L2); auto.
    - apply normalize_moves; auto. now apply normalize_reparam.
    - constructor; auto.
    - exists l. split; [now apply normalize_reparam|]. split; [exact Hlc|]. split; [exact L1|]. now rewrite Rmult_1_l in L2.
  Qed.

  (** ** Reversal *)
  Lemma mirrored_moves c c' : curve_ok c -> curve_eps eps c -> curve_cont c -> mirrored c c' ->
    moves (- 1) (mirror_c c) 1 c c'.
  Proof.
    intros Hc He Hcc Hmi. pose proof (mirrored_ok c c' Hc Hmi) as Hc'. pose proof (curve_len c Hc) as Hl.
    assert (He' : curve_eps eps c') by now apply (mirrored_eps eps c c').
    destruct (mirrored_dom c c' Hc Hmi) as [D0 D1].
    pose proof Hmi as (E1 & E2 & E3 & E4 & E5). constructor; auto.
    - fold (mirror_c c) in E5. intros x. split.
      + intros Hx. apply In_kf in Hx. destruct Hx as (i & Hi & <-). exists (kf (cknots c) (length (cknots c) - 1 - i)).
        split; [apply kf_In; lia|]. rewrite E5 by lia. unfold mirror_c. ring.
      + intros (y & Hy & ->). apply In_kf in Hy. destruct Hy as (i & Hi & <-).
        replace (-1 * kf (cknots c) i + mirror_c c) with (kf (cknots c') (length (cknots c) - 1 - i)).
        * apply kf_In. lia.
        * rewrite E5 by lia. replace (length (cknots c) - 1 - (length (cknots c) - 1 - i))%nat with i by lia. unfold mirror_c. ring.
    - exists (fun i l => if Nat.eqb i l then 1 else 0), (fun _ => 0). split; [apply identity_conformal|].
      intros u p Hu Ep. exists p. split.
      + rewrite <- Ep. replace (-1 * u + mirror_c c) with (mirror_c c - u) by ring.
        apply point_at_transfer; auto; [lra|]. intros i. now apply mirrored_hcoord.
      + intros i Hi. rewrite identity_sum by auto. ring.
  Qed.

  Lemma mirrored_length_curve c c' : length_curve c -> mirrored c c' -> length_curve c'.
  Proof.
    intros [H1 H2 H3 H4 H5 H6] Hmi. pose proof (curve_len c H1) as Hl. pose proof (co_len c H1) as Hcl.
    pose proof (mirrored_moves c c' H1 H2 H3 Hmi) as M.
    destruct (mirrored_dom c c' H1 Hmi) as [D0 D1].
    pose proof Hmi as (E1 & E2 & E3 & E4 & E5). constructor.
    - now apply (mirrored_ok c c').
    - now apply (mirrored_eps eps c c').
    - now apply (mirrored_cont c c').
    - destruct H4 as (C0 & C1). unfold clamped. rewrite D0, D1, E4, !E5 by lia. unfold mirror_c.
      rewrite Nat.sub_0_r. rewrite Nat.sub_diag. lra.
    - intros x y Hx Hy. apply (mv_knots _ _ _ _ _ _ _ M) in Hx, Hy. destruct Hx as (x' & Hx & ->). destruct Hy as (y' & Hy & ->).
      destruct (H5 x' y' Hx Hy) as [->|E]; [now left|right].
      replace (-1 * x' + mirror_c c - (-1 * y' + mirror_c c)) with (- (x' - y')) by ring. now rewrite Rabs_Ropp.
    - intros j Hj. rewrite E1. unfold cpc. rewrite E3, rev_length in *. rewrite rev_nth by auto.
      apply (H6 (length (cpts c) - S j)%nat). lia.
  Qed.

  (** *** Reversing a curve does not change its length, for a rule treating both directions alike *)
  Theorem length_invert gauss c : length_curve c -> rule_ok (gauss (16 + cdeg c)%nat) -> symmetric_rule (gauss (16 + cdeg c)%nat) ->
    exists c' l, invert c = Ok c' /\ try_length gauss c = Ok l /\ try_length gauss c' = Ok l.
  Proof.
    intros H Hr Hs. destruct (invert_mirrored eps maxv c) as (c' & E & Hmi); [apply H|].
    destruct (length_moved_backward eps maxv gauss (- 1) (mirror_c c) 1 c c') as (l & L1 & L2); auto; [lra| | |].
    - apply mirrored_moves; auto; apply H.
    - now apply (mirrored_length_curve c c').
    - exists c', l. rewrite Rmult_1_l in L2. auto.
  Qed.

  (** ** Derivatives *)
  Lemma nurbs_point c u p i : curve_ok c -> curve_eps eps c -> pos_weights c -> dom0 c <= u <= dom1 c -> point_at c u = Ok p ->
    (i < cdim c - 1)%nat -> rc i p = nurbs c i u.
  Proof.
    intros Hc He Hw Hu E Hi. destruct (point_at_spec eps maxv c u Hc He Hu) as (p' & E' & _ & V).
    - apply Rgt_not_eq. now apply (wfun_pos eps maxv).
    - rewrite E in E'. injection E' as <-. now apply V.
  Qed.

  (** what [rational_derivatives] returns at corresponding parameters: the linear part of the motion, applied
      to the derivatives, scaled by the powers of the reparametrisation *)
  Definition derivs_moved (al : R) (L : nat -> nat -> R) (c c' : Curve R) (u u' : R) : Prop :=
    forall d, exists ds ds', rational_derivatives c u d = Ok ds /\ rational_derivatives c' u' d = Ok ds' /\
      forall r i, (1 <= r <= d)%nat -> (i < cdim c - 1)%nat ->
        al ^ r * rc i (nth r ds' []) = rsum (cdim c - 1) (fun l => L i l * rc l (nth r ds [])).

  Lemma moved_derivatives al be L t c c' s s' u : al <> 0 ->
    curve_ok c -> curve_eps eps c -> pos_weights c -> curve_ok c' -> curve_eps eps c' -> pos_weights c' ->
    cdim c' = cdim c ->
    (forall v i, dom0 c <= v <= dom1 c -> (i < cdim c - 1)%nat ->
       nurbs c' i (al * v + be) = rsum (cdim c - 1) (fun l => L i l * nurbs c l v) + t i) ->
    (cdeg c <= s <= clast c)%nat -> (cdeg c' <= s' <= clast c')%nat ->
    in_span (cknots c) (clast c) s u -> in_span (cknots c') (clast c') s' (al * u + be) ->
    (forall v, kf (cknots c) s < v < kf (cknots c) (S s) -> kf (cknots c') s' < al * v + be < kf (cknots c') (S s')) ->
    derivs_moved al L c c' u (al * u + be).
  Proof.
    intros Hal Hc He Hw Hc' He' Hw' Ed Hp Hs Hs' Hin Hin' Hmap d.
    destruct (rational_derivatives_all eps maxv c s Hc He Hw Hs (proj1 Hin)) as (V & W).
    destruct (rational_derivatives_all eps maxv c' s' Hc' He' Hw' Hs' (proj1 Hin')) as (V' & W').
    destruct (W u d Hin) as (ds & E & Ld & D). destruct (W' _ d Hin') as (ds' & E' & Ld' & D').
    exists ds, ds'. split; [exact E|]. split; [exact E'|].
    set (lo := kf (cknots c) s) in *. set (hi := kf (cknots c) (S s)) in *.
    set (lo' := kf (cknots c') s') in *. set (hi' := kf (cknots c') (S s')) in *.
    assert (Hlh : lo < hi) by apply Hin. assert (Hu : lo <= u <= hi).
    { destruct Hin as (_ & A & [B|(_ & B)]); unfold lo, hi; lra. }
    assert (Hclosed : forall v, lo <= v <= hi -> lo' <= al * v + be <= hi').
    { intros v Hv. pose proof (Hmap ((lo + hi) / 2) ltac:(lra)) as Hmid.
      assert (Q : forall e, 0 < e < 1 -> lo' < al * ((1 - e) * v + e * ((lo + hi) / 2)) + be < hi') by (intros e Hpe; apply Hmap; nra).
      split; apply Rnot_lt_le; intros C.
      - set (m := al * ((lo + hi) / 2) + be) in *. set (w := al * v + be) in *.
        set (e := (lo' - w) / (m - w)). assert (Hmw : w < m) by lra.
        assert (He0 : 0 < e < 1).
        { unfold e. split; [apply Rdiv_lt_0_compat; lra|]. apply Rmult_lt_reg_r with (m - w); [lra|]. unfold Rdiv. rewrite Rmult_assoc, Rinv_l by lra. lra. }
        pose proof (Q e He0) as (Q1 & _). replace (al * ((1 - e) * v + e * ((lo + hi) / 2)) + be) with (w + e * (m - w)) in Q1 by (unfold w, m; ring).
        replace (e * (m - w)) with (lo' - w) in Q1 by (unfold e; field; lra). lra.
      - set (m := al * ((lo + hi) / 2) + be) in *. set (w := al * v + be) in *.
        set (e := (w - hi') / (w - m)). assert (Hmw : m < w) by lra.
        assert (He0 : 0 < e < 1).
        { unfold e. split; [apply Rdiv_lt_0_compat; lra|]. apply Rmult_lt_reg_r with (w - m); [lra|]. unfold Rdiv. rewrite Rmult_assoc, Rinv_l by lra. lra. }
        pose proof (Q e He0) as (_ & Q1). replace (al * ((1 - e) * v + e * ((lo + hi) / 2)) + be) with (w - e * (w - m)) in Q1 by (unfold w, m; ring).
        replace (e * (w - m)) with (w - hi') in Q1 by (unfold e; field; lra). lra. }
    assert (Hdom : forall v, lo < v < hi -> dom0 c <= v <= dom1 c).
    { intros v Hv. pose proof (curve_mono c Hc) as Hm. unfold dom0, dom1.
      pose proof (mono_le _ (cdeg c) s Hm ltac:(lia)). pose proof (clast_S c Hc).
      pose proof (mono_le _ (S s) (length (cpts c)) Hm ltac:(lia)). unfold lo, hi in Hv. lra. }
    (* the gap between the two sides, order by order *)
    set (G := fun i r x => al ^ r * ratd c' s' i r (al * x + be)
                 - (rsum (cdim c - 1) (fun l => L i l * ratd c s l r x) + (if Nat.eqb r 0 then t i else 0))).
    assert (Gd : forall i r x, (i < cdim c - 1)%nat -> lo <= x <= hi ->
              derivable_pt_lim (G i r) x (al ^ S r * ratd c' s' i (S r) (al * x + be)
                - (rsum (cdim c - 1) (fun l => L i l * ratd c s l (S r) x) + 0))).
    { intros i r x Hi Hx. destruct (V' i ltac:(lia)) as (_ & V1'). unfold G.
      apply (derivable_pt_lim_minus (fun x => al ^ r * ratd c' s' i r (al * x + be))
               (fun x => rsum (cdim c - 1) (fun l => L i l * ratd c s l r x) + (if Nat.eqb r 0 then t i else 0))).
      - replace (al ^ S r * ratd c' s' i (S r) (al * x + be)) with (al ^ r * (ratd c' s' i (S r) (al * x + be) * al)) by (cbn [pow]; ring).
        apply (derivable_pt_lim_scal (fun x => ratd c' s' i r (al * x + be))).
        apply (derivable_pt_lim_comp (fun x => al * x + be) (ratd c' s' i r)).
        + intros e Hpe. exists (mkposreal 1 Rlt_0_1). intros h Hh _.
          replace ((al * (x + h) + be - (al * x + be)) / h - al) with 0 by (field; auto). now rewrite Rabs_R0.
        + apply V1'. now apply Hclosed.
      - apply (derivable_pt_lim_plus (fun x => rsum (cdim c - 1) (fun l => L i l * ratd c s l r x)) (fun _ => if Nat.eqb r 0 then t i else 0)).
        + apply (derivable_rsum (cdim c - 1) (fun l x => L i l * ratd c s l r x) (fun l x => L i l * ratd c s l (S r) x)).
          intros l Hl. apply (derivable_pt_lim_scal (ratd c s l r)). apply (V l Hl). exact Hx.
        + apply derivable_pt_lim_const. }
    assert (G0 : forall i r, (i < cdim c - 1)%nat -> forall x, lo < x < hi -> G i r x = 0).
    { intros i r Hi. induction r as [|r IH]; intros x Hx.
      - unfold G. cbn [pow Nat.eqb]. destruct (V' i ltac:(lia)) as (V0' & _).
        rewrite V0' by (pose proof (Hmap x Hx); lra). rewrite Hp by (auto; now apply Hdom).
        rewrite (rsum_ext _ (fun l => L i l * ratd c s l 0 x) (fun l => L i l * nurbs c l x)); [ring|].
        intros l Hl. rewrite (proj1 (V l Hl)) by lra. reflexivity.
      - unfold G. cbn [Nat.eqb]. apply (flat_slope (G i r) lo hi x); auto; [lra|]. apply Gd; auto; lra. }
    intros r i Hr Hi. destruct r as [|r]; [lia|].
    destruct (D (S r) ltac:(lia)) as (_ & Dr). destruct (D' (S r) ltac:(lia)) as (_ & Dr').
    rewrite Dr' by lia. rewrite (rsum_ext _ (fun l => L i l * rc l (nth (S r) ds [])) (fun l => L i l * ratd c s l (S r) u)).
    2:{ intros l Hl. now rewrite Dr by auto. }
    apply Rminus_diag_uniq. rewrite <- (Rplus_0_r (rsum (cdim c - 1) (fun l => L i l * ratd c s l (S r) u))).
    apply (flat_slope (G i r) lo hi u); auto.
  Qed.

  Lemma moves_nurbs al be c c' L t : curve_ok c -> curve_eps eps c -> pos_weights c -> curve_ok c' -> curve_eps eps c' -> pos_weights c' ->
    cdim c' = cdim c ->
    (forall u, dom0 c <= u <= dom1 c -> dom0 c' <= al * u + be <= dom1 c') ->
    (forall u p, dom0 c <= u <= dom1 c -> point_at c u = Ok p ->
        exists q, point_at c' (al * u + be) = Ok q /\
          forall i, (i < cdim c - 1)%nat -> rc i q = rsum (cdim c - 1) (fun l => L i l * rc l p) + t i) ->
    forall v i, dom0 c <= v <= dom1 c -> (i < cdim c - 1)%nat ->
       nurbs c' i (al * v + be) = rsum (cdim c - 1) (fun l => L i l * nurbs c l v) + t i.
  Proof.
    intros Hc He Hw Hc' He' Hw' Ed Hd H v i Hv Hi.
    destruct (point_at_spec eps maxv c v Hc He Hv) as (p & E & _ & P).
    { apply Rgt_not_eq. now apply (wfun_pos eps maxv). }
    destruct (H v p Hv E) as (q & Eq & Q).
    rewrite <- (nurbs_point c' _ q i) by (auto; lia). rewrite Q by auto. f_equal. apply rsum_ext. intros l Hl. now rewrite P.
  Qed.

  (** *** Every derivative is transformed by the linear part of the matrix *)
  Theorem derivatives_transform m c u : curve_ok c -> curve_eps eps c -> pos_weights c -> affine_matrix (cdim c) m ->
    dom0 c <= u <= dom1 c ->
    derivs_moved 1 (fun i l => rc l (nth i m [])) c (transform m c) u u.
  Proof.
    intros Hc He Hw Hm Hu. destruct (span_of eps maxv c u Hc He Hu) as (s & Hs & Hin & _).
    pose proof (transform_ok eps maxv c m Hc Hm) as Hc'.
    assert (El : length (cpts (transform m c)) = length (cpts c)) by apply map_length.
    assert (Ec : clast (transform m c) = clast c) by (unfold clast; now rewrite El).
    assert (He' : curve_eps eps (transform m c)) by (unfold curve_eps; rewrite Ec; exact He).
    assert (Hw' : pos_weights (transform m c)) by now apply transform_pos.
    assert (Dd : dom0 (transform m c) = dom0 c /\ dom1 (transform m c) = dom1 c) by (unfold dom0, dom1; rewrite El; split; reflexivity).
    replace u with (1 * u + 0) at 2 by ring.
    apply (moved_derivatives 1 0 _ (fun i => rc (cdim c - 1) (nth i m [])) c (transform m c) s s u); auto; try lra.
    - intros v i Hv Hi. apply (moves_nurbs 1 0 c (transform m c) (fun i l => rc l (nth i m [])) (fun i => rc (cdim c - 1) (nth i m []))); auto.
      + intros x Hx. destruct Dd as (-> & ->). lra.
      + intros x p Hx Ep. exists (apply_affine (cdim c) m p). replace (1 * x + 0) with x by ring. split.
        * apply transform_affine; auto. intros j Hj. apply Rgt_not_eq. now apply Hw.
        * intros j Hj. unfold apply_affine. rewrite rc_map_seq by auto. reflexivity.
    - rewrite Ec. exact Hs.
    - rewrite Ec. replace (1 * u + 0) with u by ring. exact Hin.
    - intros v Hv. cbn [cknots transform]. lra.
  Qed.

  (** *** Normalising the knots multiplies the r-th derivative by the r-th power of the length of the domain *)
  Theorem derivatives_normalize c c' u : curve_ok c -> curve_eps eps c -> pos_weights c ->
    normalize_knots c = Ok c' -> curve_eps eps c' -> dom0 c <= u <= dom1 c ->
    forall d, exists ds ds', rational_derivatives c u d = Ok ds /\
      rational_derivatives c' ((u - dom0 c) / (dom1 c - dom0 c)) d = Ok ds' /\
      forall r i, (1 <= r <= d)%nat -> (i < cdim c - 1)%nat ->
        rc i (nth r ds' []) = (dom1 c - dom0 c) ^ r * rc i (nth r ds []).
  Proof.
    intros Hc He Hw E He' Hu. pose proof (dom_le c Hc) as Hd.
    rewrite normalize_reparam in E by auto. injection E as <-. pose proof (curve_ne c Hc) as Hne.
    set (a := / (dom1 c - dom0 c)) in *. set (b := - dom0 c / (dom1 c - dom0 c)) in *.
    assert (Ha : 0 < a) by (apply Rinv_0_lt_compat; lra).
    pose proof (reparam_ok a b c Ha Hc) as Hc'.
    destruct (reparam_dom a b c Hc) as [D0 D1].
    destruct (span_of eps maxv c u Hc He Hu) as (s & Hs & Hin & _).
    assert (K : forall i, kf (cknots (reparam a b c)) i = a * kf (cknots c) i + b) by (intros i; cbn [cknots reparam]; now rewrite kf_map).
    assert (M : derivs_moved a (fun i l => if Nat.eqb i l then 1 else 0) c (reparam a b c) u (a * u + b)).
    { apply (moved_derivatives a b _ (fun _ => 0) c (reparam a b c) s s u); auto; try lra.
      - intros v i Hv Hi. apply (moves_nurbs a b c (reparam a b c) (fun i l => if Nat.eqb i l then 1 else 0) (fun _ => 0)); auto.
        + intros x Hx. rewrite D0, D1. split; apply Rplus_le_compat_r, Rmult_le_compat_l; lra.
        + intros x p Hx Ep. exists p. split.
          * rewrite <- Ep. apply point_at_transfer; auto.
            -- rewrite D0, D1. split; apply Rplus_le_compat_r, Rmult_le_compat_l; lra.
            -- intros j. now apply reparam_hcoord.
          * intros j Hj. rewrite identity_sum by auto. ring.
      - destruct Hin as (I1 & I2 & I3). unfold in_span. rewrite !K. split; [|split].
        + apply Rplus_lt_compat_r, Rmult_lt_compat_l; auto.
        + apply Rplus_le_compat_r, Rmult_le_compat_l; lra.
        + destruct I3 as [I3|[I3 I4]].
          * left. apply Rplus_lt_compat_r, Rmult_lt_compat_l; auto.
          * right. rewrite I4. auto.
      - intros v Hv. rewrite !K. split; apply Rplus_lt_compat_r, Rmult_lt_compat_l; lra. }
    intros d. destruct (M d) as (ds & ds' & E1 & E2 & V).
    replace (a * u + b) with ((u - dom0 c) / (dom1 c - dom0 c)) in E2 by (unfold a, b; field; lra).
    exists ds, ds'. split; [exact E1|]. split; [exact E2|]. intros r i Hr Hi. specialize (V r i Hr Hi).
    rewrite identity_sum in V by auto. rewrite <- V. rewrite <- Rmult_assoc. rewrite <- Rpow_mult_distr.
    replace ((dom1 c - dom0 c) * a) with 1 by (unfold a; field; lra). rewrite pow1. ring.
  Qed.

  (** *** Reversal changes the sign of the odd derivatives, away from the interior knots *)
  Theorem derivatives_invert c u : curve_ok c -> curve_eps eps c -> curve_cont c -> pos_weights c ->
    dom0 c <= u <= dom1 c -> (~ In u (cknots c) \/ u = dom0 c \/ u = dom1 c) ->
    exists c', invert c = Ok c' /\
    forall d, exists ds ds', rational_derivatives c u d = Ok ds /\
      rational_derivatives c' (mirror_c c - u) d = Ok ds' /\
      forall r i, (1 <= r <= d)%nat -> (i < cdim c - 1)%nat ->
        rc i (nth r ds' []) = (- 1) ^ r * rc i (nth r ds []).
  Proof.
    intros Hc He Hcc Hw Hu Hk. destruct (invert_mirrored eps maxv c Hc) as (c' & E & Hmi). exists c'. split; [exact E|].
    pose proof (mirrored_ok c c' Hc Hmi) as Hc'. pose proof (curve_len c Hc) as Hl. pose proof (clast_S c Hc) as Hn.
    assert (He' : curve_eps eps c') by now apply (mirrored_eps eps c c').
    destruct (mirrored_dom c c' Hc Hmi) as [D0 D1].
    assert (Hw' : pos_weights c').
    { destruct Hmi as (E1 & E2 & E3 & E4 & E5). intros j Hj. rewrite E1. unfold cpc. rewrite E3, rev_length in *. rewrite rev_nth by auto.
      apply (Hw (length (cpts c) - S j)%nat). lia. }
    destruct (span_of eps maxv c u Hc He Hu) as (s & Hs & Hin & _).
    pose proof (mirrored_hcoord c c') as Hh.
    pose proof Hmi as (E1 & E2 & E3 & E4 & E5). fold (mirror_c c) in E5.
    assert (Ec : clast c' = clast c) by (unfold clast; now rewrite E3, rev_length).
    set (L := (length (cknots c) - 1)%nat) in *.
    assert (K0 : kf (cknots c') (L - 1 - s) = mirror_c c - kf (cknots c) (S s)).
    { rewrite E5 by lia. unfold mirror_c. do 2 f_equal. lia. }
    assert (K1 : kf (cknots c') (S (L - 1 - s)) = mirror_c c - kf (cknots c) s).
    { rewrite E5 by lia. unfold mirror_c. do 2 f_equal. lia. }
    assert (M : derivs_moved (- 1) (fun i l => if Nat.eqb i l then 1 else 0) c c' u (- 1 * u + mirror_c c)).
    { apply (moved_derivatives (- 1) (mirror_c c) _ (fun _ => 0) c c' s (L - 1 - s) u); auto; try lra.
      - intros v i Hv Hi. apply (moves_nurbs (- 1) (mirror_c c) c c' (fun i l => if Nat.eqb i l then 1 else 0) (fun _ => 0)); auto.
        + intros x Hx. rewrite D0, D1. lra.
        + intros x p Hx Ep. exists p. split.
          * rewrite <- Ep. replace (-1 * x + mirror_c c) with (mirror_c c - x) by ring. apply point_at_transfer; auto; try lra.
          * intros j Hj. rewrite identity_sum by auto. ring.
      - rewrite Ec, E2. lia.
      - unfold in_span. rewrite K0, K1, Ec. destruct Hin as (I1 & I2 & I3). split; [lra|]. split.
        + destruct I3 as [I3|[I3 I4]]; [lra|]. rewrite I4, <- Nat.add_1_r. lra.
        + destruct (Rle_lt_dec u (kf (cknots c) s)) as [Cu|Cu]; [right|left; lra].
          assert (Eu : u = kf (cknots c) s) by lra.
          assert (Ed : u = dom0 c).
          { destruct Hk as [Hk|[Hk|Hk]]; [exfalso; apply Hk; rewrite Eu; apply kf_In; lia|exact Hk|].
            exfalso. pose proof (mono_le _ (S s) (length (cpts c)) (curve_mono c Hc) ltac:(lia)). unfold dom1 in Hk. lra. }
          split; [|lra]. assert (s = cdeg c); [|lia].
          destruct (Nat.eq_dec s (cdeg c)) as [Q|Q]; [exact Q|exfalso].
          pose proof (ko_first _ _ _ (co_knots _ Hc)) as F. pose proof (mono_le _ (cdeg c + 1) s (curve_mono c Hc) ltac:(lia)).
          unfold dom0 in Ed. lra.
      - intros v Hv. rewrite K0, K1. lra. }
    intros d. destruct (M d) as (ds & ds' & F1 & F2 & V).
    replace (-1 * u + mirror_c c) with (mirror_c c - u) in F2 by ring.
    exists ds, ds'. split; [exact F1|]. split; [exact F2|]. intros r i Hr Hi. specialize (V r i Hr Hi).
    rewrite identity_sum in V by auto. rewrite <- V. rewrite <- Rmult_assoc, <- Rpow_mult_distr.
    replace (-1 * -1) with 1 by ring. rewrite pow1. ring.
  Qed.
End Real.
