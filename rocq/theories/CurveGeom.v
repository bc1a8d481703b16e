(** * Geometric properties of curve evaluation over R *)
From Coq Require Import Reals Lra Sorted.
From Verif Require Import Base BaseFacts Scalar RSum BSplineSpec BSpline KnotModel KnotSpec
  KnotFacts KnotProofs VecFacts MiscModel CurveModel CurveSpec CurveProofs.
Open Scope R_scope.

(** interior knots have multiplicity at most the degree *)
Definition interior_cont (p n : nat) (k : nat -> R) : Prop :=
  forall j, (p < j)%nat -> (j <= n)%nat -> k j < k (j + p)%nat.

(** the run of equal knots starting at [j] *)
Lemma run_end k j p : mono k -> k j < k (j + p)%nat ->
  exists m, (m < p)%nat /\ k (j + m)%nat = k j /\ k (j + m)%nat < k (S (j + m)) /\
            forall i, (i <= m)%nat -> k (j + i)%nat = k j.
Proof.
  intros Hm. induction p as [|p IH]; intros H.
  - rewrite Nat.add_0_r in H. lra.
  - destruct (Rlt_le_dec (k j) (k (j + p)%nat)) as [C|C].
    + destruct (IH C) as (m & H1 & H2 & H3 & H4). exists m. repeat split; auto.
    + assert (E : k (j + p)%nat = k j).
      { pose proof (mono_le k j (j + p) Hm ltac:(lia)). lra. }
      exists p. split; [lia|]. split; [exact E|]. split.
      * rewrite E. now rewrite Nat.add_succ_r in H.
      * intros i Hi. pose proof (mono_le k j (j + i) Hm ltac:(lia)).
        pose proof (mono_le k (j + i) (j + p) Hm ltac:(lia)). lra.
Qed.

(** on a continuous spline the pieces agree at the knots: the value may be computed in any
    non-empty closed span containing the parameter *)
Lemma closed_span k n p s s' i u :
  mono k -> interior_cont p n k ->
  (p <= s <= n)%nat -> (p <= s' <= n)%nat ->
  k s < k (S s) -> k s' < k (S s') ->
  k s <= u <= k (S s) -> k s' <= u <= k (S s') ->
  bs k s p i u = bs k s' p i u.
Proof.
  intros Hm Hc. 
  assert (G : forall s s', (p <= s <= n)%nat -> (s < s' <= n)%nat ->
    k s < k (S s) -> k s' < k (S s') -> u = k (S s) -> k s' <= u ->
    bs k s p i u = bs k s' p i u).
  { clear s s'. intros s s' H1 H2 N1 N2 E Hu.
    assert (Hj : k (S s) < k (S s + p)%nat) by (apply Hc; lia).
    destruct (run_end k (S s) p Hm Hj) as (m & M1 & M2 & M3 & M4).
    assert (s' = S s + m)%nat.
    { assert (k (S s) <= k s') by (apply mono_le; auto; lia).
      destruct (lt_eq_lt_dec s' (S s + m)) as [[C|C]|C]; [|exact C|].
      - exfalso. assert (k (S s') <= k (S s + m)%nat) by (apply mono_le; auto; lia). lra.
      - exfalso. assert (k (S (S s + m)) <= k s') by (apply mono_le; auto; lia). lra. }
    subst s'. rewrite E. replace (S s + m)%nat with (s + (S m))%nat in * by lia.
    apply bs_continuous; auto; try lia.
    intros j Hj1. replace (s + j)%nat with (S s + (j - 1))%nat by lia. apply M4. lia. }
  intros H1 H2 N1 N2 U1 U2.
  destruct (lt_eq_lt_dec s s') as [[C|C]|C].
  - assert (k (S s) <= k s') by (apply mono_le; auto; lia). apply G; auto; lra || lia.
  - now subst.
  - assert (k (S s') <= k s) by (apply mono_le; auto; lia).
    symmetry. apply G; auto; lra || lia.
Qed.

Definition curve_cont (c : Curve R) : Prop :=
  interior_cont (cdeg c) (clast c) (kf (cknots c)).

Section Real.
  Variables eps maxv : R.
  Local Hint Extern 0 (Scalar R) => exact (ROps eps maxv) : typeclass_instances.

  (** the parameter lies in some span *)
  Lemma domain_span c u :
    curve_ok c -> dom0 c <= u <= dom1 c ->
    exists s, (cdeg c <= s <= clast c)%nat /\ in_span (cknots c) (clast c) s u.
  Proof.
    intros Hc Hu. pose proof (clast_S c Hc) as Hn. pose proof (co_knots c Hc) as Hk.
    pose proof (curve_mono c Hc) as Hm.
    set (k := kf (cknots c)) in *.
    assert (G : forall d b, (cdeg c + d = b)%nat -> (b <= clast c)%nat -> k (cdeg c) <= u -> 
              u < k (S b) ->
              exists s, (cdeg c <= s <= b)%nat /\ k s <= u < k (S s)).
    { induction d as [|d IH]; intros b Hb Hbl H1 H2.
      - exists b. rewrite <- Hb in *. rewrite Nat.add_0_r in *. split; [lia|lra].
      - destruct (Rlt_le_dec u (k b)) as [C|C].
        + destruct (IH (b - 1)%nat) as (s & S1 & S2); auto; try lia.
          * replace (S (b - 1)) with b by lia. exact C.
          * exists s; split; [lia|exact S2].
        + exists b. split; [lia|lra]. }
    unfold dom0, dom1 in Hu. fold k in Hu. rewrite <- Hn in Hu.
    destruct (Rle_lt_or_eq_dec u (k (S (clast c))) (proj2 Hu)) as [C|C].
    - pose proof (ko_pn _ _ _ Hk) as Hpn.
      destruct (G (clast c - cdeg c)%nat (clast c) ltac:(lia) ltac:(lia) ltac:(lra) C)
        as (s & S1 & S2).
      exists s. split; [lia|]. unfold in_span. fold k. split; [lra|]. split; [lra|]. left; lra.
    - exists (clast c). pose proof (ko_pn _ _ _ Hk). pose proof (ko_last _ _ _ Hk) as L.
      fold k in L. rewrite Nat.add_1_r in L.
      split; [lia|]. unfold in_span. fold k. split; [lra|]. split; [lra|]. right; auto.
  Qed.

  (** value of the curve in any closed span *)
  Lemma hcoord_any_span c s i u :
    curve_ok c -> curve_cont c -> (cdeg c <= s <= clast c)%nat ->
    kf (cknots c) s < kf (cknots c) (S s) ->
    kf (cknots c) s <= u <= kf (cknots c) (S s) ->
    hcoord c i u = piece (kf (cknots c)) (cdeg c) (length (cpts c)) (cpc c i) s u.
  Proof.
    intros Hc Hcc Hs Hne Hu. pose proof (curve_mono c Hc) as Hm.
    pose proof (clast_S c Hc) as Hn.
    assert (Hd : dom0 c <= u <= dom1 c).
    { unfold dom0, dom1. rewrite <- Hn.
      assert (kf (cknots c) (cdeg c) <= kf (cknots c) s) by (apply mono_le; auto; lia).
      assert (kf (cknots c) (S s) <= kf (cknots c) (S (clast c))) by (apply mono_le; auto; lia).
      lra. }
    destruct (domain_span c u Hc Hd) as (s' & Hs' & Hin).
    rewrite <- (piece_hcoord c s' i u Hc Hin ltac:(lia)).
    pose proof (in_span_le _ _ _ _ Hin). destruct Hin as (N & _).
    unfold piece. apply rsum_ext. intros j Hj. f_equal.
    symmetry. apply (closed_span _ (clast c)); auto.
  Qed.

  Lemma cox_sum c u :
    curve_ok c -> dom0 c <= u <= dom1 c ->
    rsum (length (cpts c)) (fun j => cox_closed (kf (cknots c)) (dom1 c) (cdeg c) j u) = 1.
  Proof.
    intros Hc Hu. destruct (domain_span c u Hc Hu) as (s & Hs & Hin).
    pose proof (clast_S c Hc) as Hn. pose proof (curve_mono c Hc) as Hm.
    destruct Hin as (N & L & O).
    rewrite (rsum_ext _ _ (fun j => bs (kf (cknots c)) s (cdeg c) j u)).
    - apply bs_sum; auto; lia.
    - intros j Hj. apply (cox_closed_bs _ _ (clast c)); auto; try lia.
      unfold dom1. now rewrite <- Hn.
  Qed.

  Lemma cox_nonneg c j u :
    curve_ok c -> dom0 c <= u <= dom1 c ->
    0 <= cox_closed (kf (cknots c)) (dom1 c) (cdeg c) j u.
  Proof.
    intros Hc Hu. destruct (domain_span c u Hc Hu) as (s & Hs & Hin).
    pose proof (clast_S c Hc) as Hn. pose proof (curve_mono c Hc) as Hm.
    pose proof (in_span_le _ _ _ _ Hin) as Hle. destruct Hin as (N & L & O).
    rewrite (cox_closed_bs _ _ (clast c) s); auto; try lia.
    - now apply bs_nonneg.
    - unfold dom1. now rewrite <- Hn.
  Qed.

  (** local support: the [j]-th basis function vanishes outside [k_j, k_{j+p+1}] *)
  Lemma cox_support c j u :
    curve_ok c -> dom0 c <= u <= dom1 c ->
    u < kf (cknots c) j \/ kf (cknots c) (j + cdeg c + 1) < u ->
    cox_closed (kf (cknots c)) (dom1 c) (cdeg c) j u = 0.
  Proof.
    intros Hc Hu Ho. destruct (domain_span c u Hc Hu) as (s & Hs & Hin).
    pose proof (clast_S c Hc) as Hn. pose proof (curve_mono c Hc) as Hm.
    pose proof (in_span_le _ _ _ _ Hin) as Hle. destruct Hin as (N & L & O).
    rewrite (cox_closed_bs _ _ (clast c) s); auto; try lia.
    - apply bs_support. destruct Ho as [Ho|Ho].
      + left. destruct (Nat.lt_ge_cases s j) as [|C]; [assumption|].
        pose proof (mono_le _ _ _ Hm C). lra.
      + right. destruct (Nat.lt_ge_cases (j + cdeg c) s) as [|C]; [assumption|].
        assert (kf (cknots c) (S s) <= kf (cknots c) (j + cdeg c + 1))
          by (apply mono_le; auto; lia). lra.
    - unfold dom1. now rewrite <- Hn.
  Qed.

  (** ** Convex hull *)
  (** [lam] are the coefficients of a convex combination of the affine control points *)
  Theorem convex_hull c u :
    curve_ok c -> curve_eps eps c -> pos_weights c -> dom0 c <= u <= dom1 c ->
    exists lam : nat -> R,
      (forall j, (j < length (cpts c))%nat -> 0 <= lam j) /\
      rsum (length (cpts c)) lam = 1 /\
      (forall j, (j < length (cpts c))%nat ->
         u < kf (cknots c) j \/ kf (cknots c) (j + cdeg c + 1) < u -> lam j = 0) /\
      exists p, point_at c u = Ok p /\ length p = (cdim c - 1)%nat /\
        forall i, (i < cdim c - 1)%nat ->
          rc i p = rsum (length (cpts c)) (fun j => lam j * (cpc c i j / cpc c (cdim c - 1) j)).
  Proof.
    intros Hc He Hw Hu.
    pose proof (wfun_pos eps maxv c u Hc He Hw Hu) as Hp.
    set (N := fun j => cox_closed (kf (cknots c)) (dom1 c) (cdeg c) j u).
    exists (fun j => N j * cpc c (cdim c - 1) j / wfun c u).
    split; [|split; [|split]].
    - intros j Hj. pose proof (cox_nonneg c j u Hc Hu) as Hn. pose proof (Hw j Hj).
      apply Rmult_le_pos; [apply Rmult_le_pos; [exact Hn|lra]|].
      apply Rlt_le, Rinv_0_lt_compat. exact Hp.
    - unfold Rdiv. rewrite rsum_scal_r. change (rsum _ _) with (wfun c u). field. lra.
    - intros j Hj Ho. unfold N. rewrite cox_support by auto. unfold Rdiv. lra.
    - destruct (point_at_spec eps maxv c u Hc He Hu ltac:(lra)) as (p & E & L & H).
      exists p. split; [exact E|]. split; [exact L|]. intros i Hi. rewrite (H i Hi).
      unfold nurbs, Rdiv. unfold hcoord. rewrite <- rsum_scal_r. apply rsum_ext. intros j Hj.
      pose proof (Hw j Hj). fold (N j). field. lra.
  Qed.

  (** consequence: the coordinates stay between bounds of the affine control points *)
  Corollary control_box c u i lo hi :
    curve_ok c -> curve_eps eps c -> pos_weights c -> dom0 c <= u <= dom1 c ->
    (i < cdim c - 1)%nat ->
    (forall j, (j < length (cpts c))%nat -> lo <= cpc c i j / cpc c (cdim c - 1) j <= hi) ->
    exists p, point_at c u = Ok p /\ lo <= rc i p <= hi.
  Proof.
    intros Hc He Hw Hu Hi Hb.
    destruct (convex_hull c u Hc He Hw Hu) as (lam & L1 & L2 & _ & p & E & _ & H).
    exists p. split; [exact E|]. rewrite (H i Hi).
    set (A := fun j => cpc c i j / cpc c (cdim c - 1) j) in *.
    assert (E1 : rsum (length (cpts c)) (fun j => lam j * lo) = lo)
      by (rewrite rsum_scal_r, L2; lra).
    assert (E2 : rsum (length (cpts c)) (fun j => lam j * hi) = hi)
      by (rewrite rsum_scal_r, L2; lra).
    assert (E3 : rsum (length (cpts c)) (fun j => lam j * lo)
                 <= rsum (length (cpts c)) (fun j => lam j * A j)).
    { apply rsum_le. intros j Hj. apply Rmult_le_compat_l; [auto|]. apply Hb; auto. }
    assert (E4 : rsum (length (cpts c)) (fun j => lam j * A j)
                 <= rsum (length (cpts c)) (fun j => lam j * hi)).
    { apply rsum_le. intros j Hj. apply Rmult_le_compat_l; [auto|]. apply Hb; auto. }
    unfold A in *. lra.
  Qed.

  (** ** Local control *)
  Theorem local_control c c' j u :
    curve_ok c -> curve_ok c' -> curve_eps eps c ->
    cdim c' = cdim c -> cdeg c' = cdeg c -> cknots c' = cknots c ->
    length (cpts c') = length (cpts c) ->
    (forall i, i <> j -> nth i (cpts c') [] = nth i (cpts c) []) ->
    dom0 c <= u <= dom1 c ->
    u < kf (cknots c) j \/ kf (cknots c) (j + cdeg c + 1) < u ->
    point_at c' u = point_at c u.
  Proof.
    intros Hc Hc' He E1 E2 E3 E4 Hp Hu Ho.
    assert (He' : curve_eps eps c').
    { unfold curve_eps, clast in *. now rewrite E2, E3, E4. }
    assert (Ed : dom1 c' = dom1 c) by (unfold dom1; now rewrite E3, E4).
    assert (Eh : forall i, hcoord c' i u = hcoord c i u).
    { intros i. unfold hcoord. rewrite E4, Ed, E3, E2. apply rsum_ext. intros l Hl.
      destruct (Nat.eq_dec l j) as [->|Hne].
      - rewrite cox_support by auto. lra.
      - unfold cpc. now rewrite Hp. }
    assert (Hu' : dom0 c' <= u <= dom1 c') by (unfold dom0; rewrite Ed, E3, E2; exact Hu).
    destruct (point_spec eps maxv c u Hc He Hu) as (p & P1 & P2 & P3).
    destruct (point_spec eps maxv c' u Hc' He' Hu') as (p' & Q1 & Q2 & Q3).
    unfold point_at. rewrite P1, Q1. cbn [bind]. rewrite E1.
    assert (p' = p).
    { apply (vec_ext p' p (cdim c)); [lia|exact P2|].
      intros i Hi. rewrite P3, Q3. apply Eh. }
    now subst.
  Qed.
End Real.
