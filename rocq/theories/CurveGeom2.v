(** * End points, transformation, reversal, reparametrisation, dimension elevation *)
From Coq Require Import Reals Lra Sorted Floats.
From Verif Require Import Base BaseFacts Scalar RSum BSplineSpec BSpline KnotModel KnotSpec
  KnotFacts KnotProofs VecFacts MiscModel CurveModel CurveSpec CurveProofs CurveGeom.
Open Scope R_scope.

Section Real.
  Variables eps maxv : R.
  Local Hint Extern 0 (Scalar R) => exact (ROps eps maxv) : typeclass_instances.

  Lemma knots_domain_ok c : curve_ok c -> knots_domain c = Ok (dom0 c, dom1 c).
  Proof.
    intros Hc. pose proof (curve_len c Hc) as Hl. pose proof (co_len c Hc) as H.
    unfold knots_domain, domain. rewrite get_kf by lia. cbn [bind].
    rewrite usub_ok by lia. cbn [bind]. rewrite usub_ok by lia. cbn [bind].
    rewrite get_kf by lia. cbn [bind]. unfold dom0, dom1. do 3 f_equal. lia.
  Qed.

  Lemma dom_le c : curve_ok c -> dom0 c < dom1 c.
  Proof.
    intros Hc. pose proof (curve_mono c Hc) as Hm. pose proof (clast_S c Hc) as Hn.
    pose proof (co_knots c Hc) as [_ Hpn _ Hf _]. unfold dom0, dom1. rewrite <- Hn.
    assert (kf (cknots c) (cdeg c + 1) <= kf (cknots c) (S (clast c)))
      by (apply mono_le; auto; lia).
    lra.
  Qed.

  Lemma hcoord_value c i u q :
    curve_ok c -> dom0 c <= u <= dom1 c -> (q < length (cpts c))%nat ->
    (forall s j, (cdeg c <= s <= clast c)%nat -> in_span (cknots c) (clast c) s u ->
        bs (kf (cknots c)) s (cdeg c) j u = if Nat.eqb j q then 1 else 0) ->
    hcoord c i u = cpc c i q.
  Proof.
    intros Hc Hu Hq H. destruct (domain_span c u Hc Hu) as (s & Hs & Hin).
    rewrite <- (piece_hcoord c s i u Hc Hin ltac:(lia)). unfold piece.
    rewrite (rsum_single _ q); [|exact Hq|].
    - rewrite (H s q Hs Hin), Nat.eqb_refl. lra.
    - intros j Hj Hne. rewrite (H s j Hs Hin). destruct (Nat.eqb_spec j q); [contradiction|lra].
  Qed.

  (** a parameter strictly inside a span or at its left end determines the span *)
  Lemma in_span_unique k n s s' u : mono (kf k) -> (s <= n)%nat -> (s' <= n)%nat ->
    kf k n < kf k (S n) ->
    in_span k n s u -> in_span k n s' u -> s = s'.
  Proof.
    intros Hm H1 H2 HN (N1 & L1 & O1) (N2 & L2 & O2).
    assert (M : forall a b, (a <= b)%nat -> kf k a <= kf k b) by (intros; now apply mono_le).
    destruct (lt_eq_lt_dec s s') as [[C|C]|C]; [|exact C|].
    - exfalso. pose proof (M (S s) s' C). destruct O1 as [O1|[-> O1]]; [lra|lia].
    - exfalso. pose proof (M (S s') s C). destruct O2 as [O2|[-> O2]]; [lra|lia].
  Qed.

  (** ** End points of clamped curves *)
  Lemma hcoord_start c i :
    curve_ok c -> (forall j, (j <= cdeg c)%nat -> kf (cknots c) j = kf (cknots c) 0) ->
    hcoord c i (dom0 c) = cpc c i 0.
  Proof.
    intros Hc Hcl. pose proof (co_knots c Hc) as [_ Hpn _ Hf Hla].
    pose proof (curve_mono c Hc) as Hm.
    pose proof (clast_S c Hc) as Hn. pose proof (dom_le c Hc) as Hd.
    apply hcoord_value; auto; [lra|pose proof (co_len c Hc); lia|].
    intros s j Hs Hin.
    rewrite Nat.add_1_r in Hf, Hla.
    assert (s = cdeg c).
    { apply (in_span_unique (cknots c) (clast c) s (cdeg c) (dom0 c)); auto; try lia.
      unfold in_span, dom0. split; [exact Hf|]. split; [lra|left; exact Hf]. }
    subst s. unfold dom0. rewrite bs_at_left_end; auto.
    - now rewrite Nat.sub_diag.
    - intros l Hl. rewrite (Hcl l), (Hcl (cdeg c)) by lia. reflexivity.
  Qed.

  Lemma hcoord_end c i :
    curve_ok c ->
    (forall j, (length (cpts c) <= j <= length (cpts c) + cdeg c)%nat ->
       kf (cknots c) j = kf (cknots c) (length (cpts c))) ->
    hcoord c i (dom1 c) = cpc c i (clast c).
  Proof.
    intros Hc Hcl. pose proof (co_knots c Hc) as [_ Hpn _ Hf Hla].
    pose proof (curve_mono c Hc) as Hm.
    pose proof (clast_S c Hc) as Hn. pose proof (dom_le c Hc) as Hd.
    apply hcoord_value; auto; [lra|lia|].
    intros s j Hs Hin.
    rewrite Nat.add_1_r in Hf, Hla.
    assert (s = clast c).
    { apply (in_span_unique (cknots c) (clast c) s (clast c) (dom1 c)); auto; try lia.
      unfold in_span, dom1. rewrite <- Hn. split; [exact Hla|]. split; [lra|right; auto]. }
    subst s. unfold dom1. rewrite <- Hn. apply bs_at_right_end; auto.
    intros l Hl. rewrite Hn. apply Hcl. lia.
  Qed.

  (** affine control point [j] *)
  Definition affine_point (c : Curve R) (j : nat) : list R :=
    map (fun x => x / cpc c (cdim c - 1) j) (firstn (cdim c - 1) (nth j (cpts c) [])).

  Lemma affine_point_length c j :
    curve_ok c -> (j < length (cpts c))%nat -> length (affine_point c j) = (cdim c - 1)%nat.
  Proof.
    intros Hc Hj. unfold affine_point. rewrite map_length, firstn_length.
    rewrite (cpts_len c j Hc Hj). lia.
  Qed.

  Lemma affine_point_rc c j i : (i < cdim c - 1)%nat ->
    rc i (affine_point c j) = cpc c i j / cpc c (cdim c - 1) j.
  Proof.
    intros Hi. change (affine_point c j)
      with (vdivs (firstn (cdim c - 1) (nth j (cpts c) [])) (cpc c (cdim c - 1) j)).
    now rewrite rc_vdivs, rc_firstn.
  Qed.

  Theorem clamped_start c :
    curve_ok c -> curve_eps eps c ->
    (forall j, (j <= cdeg c)%nat -> kf (cknots c) j = kf (cknots c) 0) ->
    cpc c (cdim c - 1) 0 <> 0 ->
    first_point c = Ok (affine_point c 0).
  Proof.
    intros Hc He Hcl Hw. pose proof (dom_le c Hc) as Hd.
    unfold first_point. rewrite knots_domain_ok by auto. cbn [bind].
    destruct (point_at_spec eps maxv c (dom0 c) Hc He ltac:(lra)) as (p & E & L & H).
    { unfold wfun. rewrite hcoord_start; auto. }
    rewrite E. f_equal. pose proof (co_len c Hc).
    apply (vec_ext p _ (cdim c - 1)); [exact L|apply affine_point_length; auto; lia|].
    intros i Hi. rewrite H by auto. rewrite affine_point_rc by auto.
    unfold nurbs, wfun. now rewrite !hcoord_start.
  Qed.

  Theorem clamped_end c :
    curve_ok c -> curve_eps eps c ->
    (forall j, (length (cpts c) <= j <= length (cpts c) + cdeg c)%nat ->
       kf (cknots c) j = kf (cknots c) (length (cpts c))) ->
    cpc c (cdim c - 1) (clast c) <> 0 ->
    end_point c = Ok (affine_point c (clast c)).
  Proof.
    intros Hc He Hcl Hw. pose proof (dom_le c Hc) as Hd.
    unfold end_point. rewrite knots_domain_ok by auto. cbn [bind].
    destruct (point_at_spec eps maxv c (dom1 c) Hc He ltac:(lra)) as (p & E & L & H).
    { unfold wfun. rewrite hcoord_end; auto. }
    rewrite E. f_equal. pose proof (co_len c Hc). pose proof (clast_S c Hc).
    apply (vec_ext p _ (cdim c - 1)); [exact L|apply affine_point_length; auto; lia|].
    intros i Hi. rewrite H by auto. rewrite affine_point_rc by auto.
    unfold nurbs, wfun. now rewrite !hcoord_end.
  Qed.

  (** ** Transfer: equal homogeneous sums give equal results of [point_at] *)
  Lemma point_at_transfer c c' u u' :
    curve_ok c -> curve_ok c' -> curve_eps eps c -> curve_eps eps c' ->
    dom0 c <= u <= dom1 c -> dom0 c' <= u' <= dom1 c' ->
    cdim c' = cdim c -> (forall i, hcoord c' i u' = hcoord c i u) ->
    point_at c' u' = point_at c u.
  Proof.
    intros Hc Hc' He He' Hu Hu' E1 Eh.
    destruct (point_spec eps maxv c u Hc He Hu) as (p & P1 & P2 & P3).
    destruct (point_spec eps maxv c' u' Hc' He' Hu') as (p' & Q1 & Q2 & Q3).
    unfold point_at. rewrite P1, Q1. cbn [bind]. rewrite E1.
    assert (p' = p) as ->; [|reflexivity].
    apply (vec_ext p' p (cdim c)); [lia|exact P2|].
    intros i Hi. rewrite P3, Q3. apply Eh.
  Qed.

  (** ** Affine transformation *)
  (** last row (0, ..., 0, 1) *)
  Definition affine_matrix (D : nat) (m : list (list R)) : Prop :=
    length m = D /\ Forall (fun r => length r = D) m /\
    (forall j, (j < D - 1)%nat -> rc j (nth (D - 1) m []) = 0) /\
    rc (D - 1) (nth (D - 1) m []) = 1.

  (** the affine map of a matrix on a point: linear part plus translation *)
  Definition apply_affine (D : nat) (m : list (list R)) (p : list R) : list R :=
    map (fun i => rsum (D - 1) (fun j => rc j (nth i m []) * rc j p) + rc (D - 1) (nth i m []))
        (seq 0 (D - 1)).

  Lemma rc_map_seq (f : nat -> R) n i : (i < n)%nat -> rc i (map f (seq 0 n)) = f i.
  Proof.
    intros H. unfold rc. rewrite (nth_map_lt f (seq 0 n) i 0%nat 0).
    - rewrite seq_nth by auto. reflexivity.
    - now rewrite seq_length.
  Qed.

  Lemma rc_app_l i a b : (i < length a)%nat -> rc i (a ++ b) = rc i a.
  Proof. intros H. unfold rc. now apply app_nth1. Qed.
  Lemma rc_app_r i a b : (length a <= i)%nat -> rc i (a ++ b) = rc (i - length a) b.
  Proof. intros H. unfold rc. now apply app_nth2. Qed.

  Lemma mulmv_homog D m p i :
    (1 <= D)%nat -> length m = D -> Forall (fun r => length r = D) m ->
    length p = (D - 1)%nat -> (i < D)%nat ->
    rc i (mulmv m (p ++ [1])) =
      rsum (D - 1) (fun j => rc j (nth i m []) * rc j p) + rc (D - 1) (nth i m []).
  Proof.
    intros HD Hm Hr Hp Hi. unfold mulmv, rc at 1.
    rewrite (nth_map_lt _ m i [] 0) by lia.
    assert (Lr : length (nth i m []) = D).
    { rewrite Forall_forall in Hr. apply Hr. apply nth_In. lia. }
    rewrite vdot_rsum by (rewrite app_length; cbn; lia). rewrite Lr.
    replace D with (S (D - 1)) at 1 by lia. cbn [rsum].
    rewrite (rc_app_r (D - 1)) by lia. rewrite Hp, Nat.sub_diag.
    change (rc 0 [1]) with 1. rewrite Rmult_1_r. f_equal.
    apply rsum_ext. intros j Hj. rewrite rc_app_l by lia. reflexivity.
  Qed.

  Lemma transform_point_rc D m p i :
    (1 <= D)%nat -> affine_matrix D m -> length p = D -> rc (D - 1) p <> 0 ->
    (i < D)%nat ->
    rc i (transform_point D m p) =
      if Nat.eqb i (D - 1) then rc (D - 1) p
      else rsum (D - 1) (fun j => rc j (nth i m []) * rc j p)
           + rc (D - 1) (nth i m []) * rc (D - 1) p.
  Proof.
    intros HD (M1 & M2 & M3 & M4) Lp Hw Hi. unfold transform_point. rs.
    set (pt := map (fun i => coord i p / coord (D - 1) p) (seq 0 (D - 1))).
    assert (Lpt : length pt = (D - 1)%nat) by (unfold pt; rewrite map_length, seq_length; lia).
    assert (Hpt : forall j, (j < D - 1)%nat -> rc j pt = rc j p / rc (D - 1) p).
    { intros j Hj. unfold pt. now rewrite rc_map_seq. }
    assert (W : coord (D - 1) (mulmv m (pt ++ [1])) = 1).
    { rewrite coord_rc. rewrite (mulmv_homog D) by (auto; lia). rewrite M4.
      rewrite rsum_0; [lra|]. intros j Hj. rewrite M3 by auto. lra. }
    rewrite W.
    destruct (Nat.eqb_spec i (D - 1)) as [->|Hne].
    - rewrite rc_app_r by (rewrite map_length, seq_length; lia).
      rewrite map_length, seq_length, Nat.sub_diag. reflexivity.
    - rewrite rc_app_l by (rewrite map_length, seq_length; lia).
      rewrite rc_map_seq by lia. rewrite !coord_rc.
      rewrite (mulmv_homog D) by (auto; lia).
      rewrite (rsum_ext (D - 1) _ (fun j => (rc j (nth i m []) * rc j p) * / rc (D - 1) p)).
      2:{ intros j Hj. rewrite Hpt by auto. unfold Rdiv. lra. }
      rewrite rsum_scal_r. field. exact Hw.
  Qed.

  Lemma transform_ok c m :
    curve_ok c -> affine_matrix (cdim c) m -> curve_ok (transform m c).
  Proof.
    intros [H1 H2 H3 H4] Hm. constructor; cbn.
    - exact H1.
    - apply Forall_forall. intros p Hp. apply in_map_iff in Hp. destruct Hp as (q & <- & Hq).
      unfold transform_point. rewrite app_length, map_length, seq_length. cbn. lia.
    - now rewrite map_length.
    - unfold clast in *. cbn. now rewrite map_length.
  Qed.

  Lemma transform_cpc c m i j :
    curve_ok c -> affine_matrix (cdim c) m -> (j < length (cpts c))%nat -> (i < cdim c)%nat ->
    cpc c (cdim c - 1) j <> 0 ->
    cpc (transform m c) i j =
      if Nat.eqb i (cdim c - 1) then cpc c (cdim c - 1) j
      else rsum (cdim c - 1) (fun l => rc l (nth i m []) * cpc c l j)
           + rc (cdim c - 1) (nth i m []) * cpc c (cdim c - 1) j.
  Proof.
    intros Hc Hm Hj Hi Hw. unfold cpc, transform. cbn [cpts].
    rewrite (nth_map_lt _ _ j [] []) by auto.
    pose proof (co_dim c Hc). apply transform_point_rc; auto. now apply cpts_len.
  Qed.

  Theorem transform_affine c m u p :
    curve_ok c -> curve_eps eps c -> affine_matrix (cdim c) m ->
    (forall j, (j < length (cpts c))%nat -> cpc c (cdim c - 1) j <> 0) ->
    dom0 c <= u <= dom1 c ->
    point_at c u = Ok p ->
    point_at (transform m c) u = Ok (apply_affine (cdim c) m p).
  Proof.
    intros Hc He Hm Hw Hu Hp.
    pose proof (transform_ok c m Hc Hm) as Hc'.
    assert (He' : curve_eps eps (transform m c)).
    { unfold curve_eps, clast in *. cbn. now rewrite map_length. }
    assert (Ed : dom1 (transform m c) = dom1 c) by (unfold dom1; cbn; now rewrite map_length).
    assert (Hu' : dom0 (transform m c) <= u <= dom1 (transform m c)) by (rewrite Ed; exact Hu).
    assert (Hh : forall i, (i < cdim c)%nat -> hcoord (transform m c) i u =
       if Nat.eqb i (cdim c - 1) then hcoord c (cdim c - 1) u
       else rsum (cdim c - 1) (fun l => rc l (nth i m []) * hcoord c l u)
            + rc (cdim c - 1) (nth i m []) * hcoord c (cdim c - 1) u).
    { intros i Hi. unfold hcoord at 1. rewrite Ed. cbn [cpts cdeg cknots transform].
      rewrite map_length.
      set (N := fun j => cox_closed (kf (cknots c)) (dom1 c) (cdeg c) j u).
      rewrite (rsum_ext _ _ (fun j => N j * (if Nat.eqb i (cdim c - 1) then cpc c (cdim c - 1) j
        else rsum (cdim c - 1) (fun l => rc l (nth i m []) * cpc c l j)
           + rc (cdim c - 1) (nth i m []) * cpc c (cdim c - 1) j))).
      2:{ intros j Hj. fold (N j). f_equal. apply transform_cpc; auto. }
      destruct (Nat.eqb i (cdim c - 1)); [reflexivity|].
      rewrite (rsum_ext _ _ (fun j =>
        rsum (cdim c - 1) (fun l => rc l (nth i m []) * (N j * cpc c l j))
        + rc (cdim c - 1) (nth i m []) * (N j * cpc c (cdim c - 1) j))).
      2:{ intros j Hj. rewrite Rmult_plus_distr_l, <- rsum_scal.
          f_equal; [apply rsum_ext; intros; lra|lra]. }
      rewrite rsum_plus, rsum_swap, rsum_scal. f_equal.
      apply rsum_ext. intros l Hl. rewrite rsum_scal. reflexivity. }
    assert (Hwn : wfun c u <> 0).
    { intros E. destruct (point_at_zero_weight eps maxv c u Hc He Hu E) as [msg Em].
      congruence. }
    pose proof (co_dim c Hc) as HD.
    assert (Ew : wfun (transform m c) u = wfun c u).
    { unfold wfun at 1. change (cdim (transform m c)) with (cdim c). rewrite Hh by lia.
      now rewrite Nat.eqb_refl. }
    destruct (point_at_spec eps maxv c u Hc He Hu Hwn) as (p' & E & L & H).
    rewrite E in Hp. inversion Hp; subst p'. clear Hp.
    destruct (point_at_spec eps maxv _ u Hc' He' Hu') as (q & Eq & Lq & Hq); [lra|].
    rewrite Eq. f_equal. change (cdim (transform m c)) with (cdim c) in *.
    apply (vec_ext q _ (cdim c - 1)); [exact Lq| |].
    - unfold apply_affine. now rewrite map_length, seq_length.
    - intros i Hi. rewrite Hq by auto. unfold apply_affine. rewrite rc_map_seq by auto.
      unfold nurbs. rewrite Ew, Hh by lia.
      destruct (Nat.eqb_spec i (cdim c - 1)); [lia|].
      fold (wfun c u).
      rewrite (rsum_ext _ (fun j => rc j (nth i m []) * rc j p)
                 (fun j => rc j (nth i m []) * hcoord c j u * / wfun c u)).
      2:{ intros j Hj. rewrite H by auto. unfold nurbs, Rdiv. lra. }
      rewrite rsum_scal_r. field. exact Hwn.
  Qed.

  (** ** Dimension elevation *)
  Lemma elevate_ok c : curve_ok c -> curve_ok (elevate_dimension c).
  Proof.
    intros [H1 H2 H3 H4]. constructor; cbn.
    - lia.
    - apply Forall_forall. intros p Hp. apply in_map_iff in Hp. destruct Hp as (q & <- & Hq).
      rewrite app_length, map_length, seq_length. cbn. lia.
    - now rewrite map_length.
    - unfold clast in *. cbn. now rewrite map_length.
  Qed.

  Theorem elevate_dimension_spec c u p :
    curve_ok c -> curve_eps eps c -> dom0 c <= u <= dom1 c ->
    point_at c u = Ok p -> point_at (elevate_dimension c) u = Ok (p ++ [0]).
  Proof.
    intros Hc He Hu Hp.
    pose proof (elevate_ok c Hc) as Hc'. pose proof (co_dim c Hc) as HD.
    assert (He' : curve_eps eps (elevate_dimension c)).
    { unfold curve_eps, clast in *. cbn. now rewrite map_length. }
    assert (Ed : dom1 (elevate_dimension c) = dom1 c)
      by (unfold dom1; cbn; now rewrite map_length).
    assert (Hh : forall i, (i <= cdim c)%nat -> hcoord (elevate_dimension c) i u =
        if Nat.eqb i (cdim c) then wfun c u
        else if Nat.eqb i (cdim c - 1) then 0 else hcoord c i u).
    { intros i Hi. unfold hcoord at 1. rewrite Ed. cbn [cpts cdeg cknots elevate_dimension].
      rewrite map_length.
      set (N := fun j => cox_closed (kf (cknots c)) (dom1 c) (cdeg c) j u).
      rewrite (rsum_ext _ _ (fun j => N j * (if Nat.eqb i (cdim c) then cpc c (cdim c - 1) j
                   else if Nat.eqb i (cdim c - 1) then 0 else cpc c i j))).
      2:{ intros j Hj. fold (N j). f_equal. unfold cpc, elevate_dimension. cbn [cpts].
          rewrite (nth_map_lt _ _ j [] []) by auto.
          destruct (Nat.eqb_spec i (cdim c)) as [->|N1].
          - rewrite rc_app_r by (rewrite map_length, seq_length; lia).
            rewrite map_length, seq_length. replace (cdim c - (cdim c - 1))%nat with 1%nat by lia.
            reflexivity.
          - destruct (Nat.eqb_spec i (cdim c - 1)) as [->|N2].
            + rewrite rc_app_r by (rewrite map_length, seq_length; lia).
              rewrite map_length, seq_length, Nat.sub_diag. reflexivity.
            + rewrite rc_app_l by (rewrite map_length, seq_length; lia).
              now rewrite rc_map_seq by lia. }
      destruct (Nat.eqb i (cdim c)); [reflexivity|].
      destruct (Nat.eqb i (cdim c - 1)); [|reflexivity].
      apply rsum_0. intros; lra. }
    assert (Hwn : wfun c u <> 0).
    { intros E. destruct (point_at_zero_weight eps maxv c u Hc He Hu E) as [msg Em].
      congruence. }
    assert (Ew : wfun (elevate_dimension c) u = wfun c u).
    { unfold wfun at 1. cbn [cdim elevate_dimension]. rewrite Hh by lia.
      replace (cdim c + 1 - 1)%nat with (cdim c) by lia. now rewrite Nat.eqb_refl. }
    destruct (point_at_spec eps maxv c u Hc He Hu Hwn) as (p' & E & L & H).
    rewrite E in Hp. inversion Hp; subst p'. clear Hp.
    assert (Hu' : dom0 (elevate_dimension c) <= u <= dom1 (elevate_dimension c))
      by (rewrite Ed; exact Hu).
    destruct (point_at_spec eps maxv _ u Hc' He' Hu') as (q & Eq & Lq & Hq); [lra|].
    rewrite Eq. f_equal. cbn [cdim elevate_dimension] in *.
    apply (vec_ext q _ (cdim c)); [lia|rewrite app_length; cbn; lia|].
    intros i Hi. rewrite Hq by lia. unfold nurbs. rewrite Ew, Hh by lia.
    destruct (Nat.eqb_spec i (cdim c)); [lia|].
    destruct (Nat.eqb_spec i (cdim c - 1)) as [->|].
    - rewrite rc_app_r by lia. rewrite L, Nat.sub_diag. cbn. unfold Rdiv. lra.
    - rewrite rc_app_l by lia. rewrite H by lia. reflexivity.
  Qed.

  (** ** Reparametrisation to [0, 1] *)
  Lemma kf_map (g : R -> R) k i : k <> [] -> kf (map g k) i = g (kf k i).
  Proof.
    intros Hk. unfold kf.
    assert (El : last (map g k) 0 = g (last k 0)).
    { clear i. induction k as [|a l IH]; [contradiction|].
      destruct l as [|b l]; [reflexivity|].
      change (last (map g (a :: b :: l)) 0) with (last (map g (b :: l)) 0).
      rewrite IH by discriminate. reflexivity. }
    rewrite El. apply map_nth.
  Qed.

  Lemma curve_ne c : curve_ok c -> cknots c <> [].
  Proof.
    intros Hc E. pose proof (curve_len c Hc) as H. rewrite E in H. cbn in H. lia.
  Qed.

  Definition reparam (a b : R) (c : Curve R) : Curve R :=
    MkCurve (cdim c) (cdeg c) (cpts c) (map (fun k => a * k + b) (cknots c)).

  Lemma reparam_ok a b c : 0 < a -> curve_ok c -> curve_ok (reparam a b c).
  Proof.
    intros Ha Hc. pose proof (curve_ne c Hc) as Hne. pose proof (curve_mono c Hc) as Hm.
    destruct Hc as [H1 H2 H3 [K1 K2 K3 K4 K5]].
    constructor; cbn; auto. constructor; cbn.
    - now rewrite map_length.
    - exact K2.
    - apply mono_sorted. intros i Hi. rewrite map_length in Hi.
      rewrite !(nth_map_lt (fun k => a * k + b) (cknots c) _ 0 0) by lia.
      pose proof (sorted_nth_le _ i K3 Hi). apply Rplus_le_compat_r.
      apply Rmult_le_compat_l; lra.
    - rewrite !kf_map by auto. apply Rplus_lt_compat_r. apply Rmult_lt_compat_l; auto.
    - unfold clast in *. cbn. rewrite !kf_map by auto.
      apply Rplus_lt_compat_r. apply Rmult_lt_compat_l; auto.
  Qed.

  Lemma reparam_hcoord a b c i u :
    0 < a -> curve_ok c -> dom0 c <= u <= dom1 c ->
    hcoord (reparam a b c) i (a * u + b) = hcoord c i u.
  Proof.
    intros Ha Hc Hu. pose proof (curve_ne c Hc) as Hne.
    destruct (domain_span c u Hc Hu) as (s & Hs & Hin).
    assert (Hin' : in_span (cknots (reparam a b c)) (clast (reparam a b c)) s (a * u + b)).
    { destruct Hin as (I1 & I2 & I3). unfold in_span, clast. cbn [cknots cpts reparam].
      rewrite !kf_map by auto. split; [|split].
      - apply Rplus_lt_compat_r, Rmult_lt_compat_l; auto.
      - apply Rplus_le_compat_r, Rmult_le_compat_l; lra.
      - destruct I3 as [I3|[I3 I4]].
        + left. apply Rplus_lt_compat_r, Rmult_lt_compat_l; auto.
        + right. rewrite I4. auto. }
    rewrite <- (piece_hcoord c s i u Hc Hin) by lia.
    rewrite <- (piece_hcoord _ s i _ (reparam_ok a b c Ha Hc) Hin'); [|unfold clast in *; cbn; lia].
    unfold piece. cbn [cknots cdeg cpts reparam]. apply rsum_ext. intros j Hj. f_equal.
    apply bs_affine; [lra|]. intros l. now rewrite kf_map.
  Qed.

  Lemma reparam_dom a b c : curve_ok c ->
    dom0 (reparam a b c) = a * dom0 c + b /\ dom1 (reparam a b c) = a * dom1 c + b.
  Proof.
    intros Hc. pose proof (curve_ne c Hc). unfold dom0, dom1, reparam. cbn [cdeg cknots cpts].
    rewrite !kf_map by auto. split; reflexivity.
  Qed.

  Lemma normalize_reparam c : curve_ok c ->
    normalize_knots c = Ok (reparam (/ (dom1 c - dom0 c)) (- dom0 c / (dom1 c - dom0 c)) c).
  Proof.
    intros Hc. unfold normalize_knots. rewrite knots_domain_ok by auto. cbn [bind].
    unfold reparam. do 2 f_equal. apply map_ext. intros x. rs. unfold Rdiv. lra.
  Qed.

  Theorem normalize_knots_spec c :
    curve_ok c -> curve_eps eps c ->
    exists c', normalize_knots c = Ok c' /\ curve_ok c' /\
      knots_domain c' = Ok (0, 1) /\ cpts c' = cpts c /\ cdeg c' = cdeg c /\
      (curve_eps eps c' -> forall u, dom0 c <= u <= dom1 c ->
         point_at c' ((u - dom0 c) / (dom1 c - dom0 c)) = point_at c u).
  Proof.
    intros Hc He. pose proof (dom_le c Hc) as Hd.
    rewrite normalize_reparam by auto. eexists. split; [reflexivity|].
    set (a := / (dom1 c - dom0 c)). set (b := - dom0 c / (dom1 c - dom0 c)).
    assert (Ha : 0 < a) by (apply Rinv_0_lt_compat; lra).
    pose proof (reparam_ok a b c Ha Hc) as Hc'.
    destruct (reparam_dom a b c Hc) as [D0 D1].
    assert (E0 : a * dom0 c + b = 0) by (unfold a, b; field; lra).
    assert (E1 : a * dom1 c + b = 1) by (unfold a, b; field; lra).
    split; [exact Hc'|]. split.
    { rewrite knots_domain_ok by auto. rewrite D0, D1, E0, E1. reflexivity. }
    split; [reflexivity|]. split; [reflexivity|].
    intros He' u Hu.
    replace ((u - dom0 c) / (dom1 c - dom0 c)) with (a * u + b) by (unfold a, b; field; lra).
    apply point_at_transfer; auto.
    - rewrite D0, D1. split; apply Rplus_le_compat_r, Rmult_le_compat_l; lra.
    - intros i. now apply reparam_hcoord.
  Qed.

  (** ** Reversal *)
  Lemma kinvert_spec k : k <> [] ->
    exists k', kinvert k = Ok k' /\ length k' = length k /\
      forall i, (i < length k)%nat -> nth i k' 0 = nth 0 k 0 + last k 0 - nth (length k - 1 - i) k 0.
  Proof.
    intros Hne. unfold kinvert. destruct k as [|a l]; [contradiction|].
    cbn [head unwrap bind]. set (k := a :: l) in *.
    assert (Hl : (1 <= length k)%nat) by (unfold k; cbn; lia).
    match goal with |- context [for_range 1 (length k) ?g _] => set (f := g) end.
    destruct (for_range_rule
      (fun i next => length next = i /\ forall j, (j < i)%nat ->
          nth j next 0 = nth 0 k 0 + last k 0 - nth (length k - 1 - j) k 0)
      1 (length k) f [a]) as (k' & E & L & H); auto.
    - split; [reflexivity|]. intros j Hj. replace j with 0%nat by lia.
      rewrite (last_nth k 0 Hne). rewrite Nat.sub_0_r. change (nth 0 k 0) with a. change (nth 0 [a] 0) with a. lra.
    - intros i next Hi [L H]. unfold f. rewrite usub_ok by lia. cbn [bind].
      rewrite (get_ok next _ 0) by lia. cbn [bind].
      rewrite usub_ok by lia. cbn [bind].
      rewrite (get_ok k _ 0) by lia. cbn [bind].
      rewrite usub_ok by lia. cbn [bind].
      rewrite (get_ok k _ 0) by lia. cbn [bind].
      eexists. split; [reflexivity|]. split.
      + rewrite app_length. cbn. lia.
      + intros j Hj. destruct (Nat.eq_dec j i) as [->|Hne2].
        * rewrite app_nth2 by lia. rewrite L, Nat.sub_diag. cbn [nth].
          rewrite (H (i - 1)%nat) by lia. rs.
          replace (length k - 1 - (i - 1))%nat with (length k - i)%nat by lia.
          replace (length k - i - 1)%nat with (length k - 1 - i)%nat by lia. lra.
        * rewrite app_nth1 by lia. apply H. lia.
    - exists k'. rewrite E. auto.
  Qed.

  Definition mirrored (c c' : Curve R) : Prop :=
    cdim c' = cdim c /\ cdeg c' = cdeg c /\ cpts c' = rev (cpts c) /\
    length (cknots c') = length (cknots c) /\
    forall i, (i < length (cknots c))%nat ->
      kf (cknots c') i
      = kf (cknots c) 0 + kf (cknots c) (length (cknots c) - 1)
        - kf (cknots c) (length (cknots c) - 1 - i).

  Lemma invert_mirrored c : curve_ok c -> exists c', invert c = Ok c' /\ mirrored c c'.
  Proof.
    intros Hc. pose proof (curve_len c Hc) as Hl.
    destruct (kinvert_spec (cknots c)) as (k' & E & L & H).
    { now apply curve_ne. }
    unfold invert. rewrite E. cbn [bind]. eexists. split; [reflexivity|].
    unfold mirrored. cbn [cdim cdeg cpts cknots]. repeat split; auto.
    intros i Hi. rewrite !(kf_nth _ _ 0) by lia. rewrite H by lia.
    rewrite (last_nth _ 0) by now apply curve_ne. reflexivity.
  Qed.

  Lemma mirrored_ok c c' : curve_ok c -> mirrored c c' -> curve_ok c'.
  Proof.
    intros Hc (E1 & E2 & E3 & E4 & E5). pose proof (curve_len c Hc) as Hl.
    pose proof (curve_mono c Hc) as Hm. pose proof (clast_S c Hc) as Hn.
    destruct Hc as [H1 H2 H3 [K1 K2 K3 K4 K5]].
    constructor.
    - lia.
    - rewrite E3, E1. apply Forall_rev. exact H2.
    - rewrite E2, E3, rev_length. exact H3.
    - unfold clast in *. rewrite E2, E3, rev_length.
      constructor.
      + lia.
      + exact K2.
      + apply mono_sorted. intros i Hi. rewrite <- !(kf_nth _ _ 0) by lia.
        rewrite !E5 by lia.
        assert (kf (cknots c) (length (cknots c) - 1 - S i)
                <= kf (cknots c) (length (cknots c) - 1 - i)) by (apply mono_le; auto; lia).
        lra.
      + rewrite !E5 by lia.
        replace (length (cknots c) - 1 - cdeg c)%nat with (length (cpts c) - 1 + 1)%nat by lia.
        replace (length (cknots c) - 1 - (cdeg c + 1))%nat with (length (cpts c) - 1)%nat by lia.
        lra.
      + rewrite !E5 by lia.
        replace (length (cknots c) - 1 - (length (cpts c) - 1))%nat with (cdeg c + 1)%nat by lia.
        replace (length (cknots c) - 1 - (length (cpts c) - 1 + 1))%nat with (cdeg c) by lia.
        lra.
  Qed.

  Lemma mirrored_eps c c' : curve_ok c -> mirrored c c' -> curve_eps eps c -> curve_eps eps c'.
  Proof.
    intros Hc (E1 & E2 & E3 & E4 & E5) (P1 & P2 & P3). pose proof (curve_len c Hc) as Hl.
    pose proof (co_len c Hc) as Hcl.
    unfold curve_eps, eps_ok, clast in *. rewrite E2, E3, rev_length.
    split; [exact P1|]. rewrite !E5 by lia.
    replace (length (cknots c) - 1 - cdeg c)%nat with (length (cpts c) - 1 + 1)%nat by lia.
    replace (length (cknots c) - 1 - (cdeg c + 1))%nat with (length (cpts c) - 1)%nat by lia.
    replace (length (cknots c) - 1 - (length (cpts c) - 1))%nat with (cdeg c + 1)%nat by lia.
    replace (length (cknots c) - 1 - (length (cpts c) - 1 + 1))%nat with (cdeg c) by lia.
    split; lra.
  Qed.

  (** mirror constant: first knot + last knot *)
  Definition mirror_c (c : Curve R) : R :=
    kf (cknots c) 0 + kf (cknots c) (length (cknots c) - 1).

  Lemma mirrored_dom c c' : curve_ok c -> mirrored c c' ->
    dom0 c' = mirror_c c - dom1 c /\ dom1 c' = mirror_c c - dom0 c.
  Proof.
    intros Hc (E1 & E2 & E3 & E4 & E5). pose proof (curve_len c Hc) as Hl.
    pose proof (co_len c Hc) as Hcl.
    unfold dom0, dom1, mirror_c. rewrite E2, E3, rev_length. rewrite !E5 by lia.
    split; do 2 f_equal; lia.
  Qed.

  Lemma mirrored_cont c c' : curve_ok c -> mirrored c c' -> curve_cont c -> curve_cont c'.
  Proof.
    intros Hc Hmi H. pose proof (curve_len c Hc) as Hl.
    pose proof (co_len c Hc) as Hcl. pose proof (mirrored_ok c c' Hc Hmi) as Hc'.
    intros j H1 H2. pose proof (curve_mono c' Hc') as Hm'.
    destruct (Nat.le_gt_cases (j + cdeg c') (clast c')) as [Hj|Hj].
    - destruct Hmi as (E1 & E2 & E3 & E4 & E5).
      unfold curve_cont, interior_cont, clast in *. rewrite E2, E3, rev_length in *.
      rewrite !E5 by lia.
      specialize (H (length (cknots c) - 1 - (j + cdeg c))%nat ltac:(lia) ltac:(lia)).
      replace (length (cknots c) - 1 - (j + cdeg c) + cdeg c)%nat
        with (length (cknots c) - 1 - j)%nat in H by lia.
      lra.
    - pose proof (ko_last _ _ _ (co_knots c' Hc')).
      pose proof (mono_le _ j (clast c') Hm' H2).
      pose proof (mono_le _ (clast c' + 1) (j + cdeg c') Hm' ltac:(lia)). lra.
  Qed.

  Lemma mirrored_hcoord c c' i u :
    curve_ok c -> mirrored c c' -> curve_cont c -> dom0 c <= u <= dom1 c ->
    hcoord c' i (mirror_c c - u) = hcoord c i u.
  Proof.
    intros Hc Hmi Hcc Hu.
    pose proof (mirrored_ok c c' Hc Hmi) as Hc'.
    pose proof (mirrored_cont c c' Hc Hmi Hcc) as Hcc'.
    pose proof (curve_len c Hc) as Hl. pose proof (curve_len c' Hc') as Hl'.
    pose proof (clast_S c Hc) as Hn. pose proof (clast_S c' Hc') as Hn'.
    destruct (domain_span c u Hc Hu) as (s & Hs & Hin).
    pose proof (in_span_le _ _ _ _ Hin) as Hle.
    rewrite <- (piece_hcoord c s i u Hc Hin) by lia.
    destruct Hmi as (E1 & E2 & E3 & E4 & E5).
    assert (Elen : length (cpts c') = length (cpts c)) by (rewrite E3; apply rev_length).
    set (L := (length (cknots c) - 1)%nat) in *.
    assert (HL : L = (length (cpts c) + cdeg c)%nat) by (unfold L; lia).
    fold (mirror_c c) in E5.
    destruct Hin as (N & _ & _).
    rewrite (hcoord_any_span c' (L - 1 - s)%nat i); auto; try lia.
    - unfold piece. rewrite Elen, E2.
      rewrite rsum_rev. apply rsum_ext. intros j Hj.
      assert (Ec : cpc c' i (length (cpts c) - 1 - j) = cpc c i j).
      { unfold cpc. rewrite E3, rev_nth by lia. do 2 f_equal. lia. }
      rewrite Ec. f_equal.
      replace (length (cpts c) - 1 - j)%nat with (L - 1 - cdeg c - j)%nat by lia.
      apply (bs_reflect (kf (cknots c)) (kf (cknots c')) (mirror_c c) L s (cdeg c) j u); try lia.
      intros l Hll. rewrite E5 by lia. reflexivity.
    - rewrite !E5 by lia. replace (L - (L - 1 - s))%nat with (S s) by lia.
      replace (L - S (L - 1 - s))%nat with s by lia. lra.
    - rewrite !E5 by lia. replace (L - (L - 1 - s))%nat with (S s) by lia.
      replace (L - S (L - 1 - s))%nat with s by lia. unfold mirror_c. fold L. lra.
  Qed.

  Theorem invert_spec c :
    curve_ok c -> curve_eps eps c -> curve_cont c ->
    exists c', invert c = Ok c' /\ curve_ok c' /\
      knots_domain c' = Ok (mirror_c c - dom1 c, mirror_c c - dom0 c) /\
      forall u, dom0 c <= u <= dom1 c -> point_at c' (mirror_c c - u) = point_at c u.
  Proof.
    intros Hc He Hcc. destruct (invert_mirrored c Hc) as (c' & E & Hmi).
    pose proof (mirrored_ok c c' Hc Hmi) as Hc'.
    destruct (mirrored_dom c c' Hc Hmi) as [D0 D1].
    exists c'. split; [exact E|]. split; [exact Hc'|].
    split; [rewrite knots_domain_ok, D0, D1 by auto; reflexivity|].
    intros u Hu. apply point_at_transfer; auto.
    - now apply (mirrored_eps c c').
    - rewrite D0, D1. lra.
    - apply Hmi.
    - intros i. now apply mirrored_hcoord.
  Qed.

  Theorem invert_involutive c :
    curve_ok c -> exists c', invert c = Ok c' /\ invert c' = Ok c.
  Proof.
    intros Hc. destruct (invert_mirrored c Hc) as (c' & E & Hmi).
    pose proof (mirrored_ok c c' Hc Hmi) as Hc'.
    exists c'. split; [exact E|].
    unfold invert. destruct (kinvert_spec (cknots c')) as (k' & E' & L & H).
    { now apply curve_ne. }
    rewrite E'. cbn [bind]. f_equal.
    pose proof (curve_len c Hc) as Hl.
    destruct Hmi as (E1 & E2 & E3 & E4 & E5).
    destruct c as [D p P k]. cbn in *. rewrite E1, E2, E3, rev_involutive. f_equal.
    apply (list_ext 0); [lia|]. intros i Hi. rewrite H by lia.
    assert (Hk' : cknots c' <> []) by now apply curve_ne.
    rewrite (last_nth _ 0 Hk'). rewrite <- !(kf_nth _ _ 0) by lia.
    rewrite !E5 by lia. rewrite E4.
    replace (length k - 1 - (length k - 1))%nat with 0%nat by lia.
    replace (length k - 1 - (length k - 1 - i))%nat with i by lia.
    rewrite Nat.sub_0_r. unfold kf. lra.
  Qed.
End Real.

(** ** Projective matrices: the transformation of a curve uses only the affine part *)
Section Float.
  Local Existing Instance FOps.
  Open Scope float_scope.
  (** a matrix with bottom row (1, 1) divides by x + 1 *)
  Definition seg01 : Curve float := MkCurve 2 1 [[0; 1]; [1; 1]] [0; 0; 1; 1].

  Theorem transform_projective_refuted :
    exists (c : Curve float) (m : list (list float)) (u x y : float),
      m = [[1; 0]; [1; 1]] /\ point_at c u = Ok [x] /\
      point_at (transform m c) u = Ok [y] /\ PrimFloat.eqb y (x / (x + 1)) = false.
  Proof.
    exists seg01, [[1; 0]; [1; 1]], 0.5, 0.5, 0.25.
    repeat split; vm_compute; reflexivity.
  Qed.
End Float.
