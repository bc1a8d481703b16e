(** * End tangents of clamped curves (C79): along the first and the last leg of the control polygon *)
From Coq Require Import Reals Lra Lia ZArith Bool List.
From Verif Require Import Base BaseFacts Scalar RSum BSplineSpec BSpline BSplineDeriv KnotModel KnotSpec
  KnotFacts KnotProofs VecFacts MiscModel MiscProofs CurveModel CurveSpec CurveProofs CurveGeom CurveGeom2 DerivKnot CurveDeriv.
Import ListNotations.
Open Scope R_scope.

(** affine coordinate of a control point *)
Definition ctrl_affine (c : Curve R) (i j : nat) : R := cpc c i j / cpc c (cdim c - 1) j.

Lemma dbs_1 k s p j u : (1 <= p)%nat ->
  dbs k s p 1 j u = INR p * (dq k p j * bs k s (p - 1) j u - dq k p (j + 1) * bs k s (p - 1) (j + 1) u).
Proof.
  intros Hp. unfold dbs. cbn [falling rsum dcoef Nat.eqb INR]. rewrite Nat.sub_0_r, Nat.add_0_r. ring.
Qed.

Lemma rsum_two n f a : (S a < n)%nat -> (forall j, (j < n)%nat -> j <> a -> j <> S a -> f j = 0) ->
  rsum n f = f a + f (S a).
Proof.
  intros Ha Hz. rewrite (rsum_window n a 2); [cbn [rsum]; rewrite Nat.add_0_r; replace (a + 1)%nat with (S a) by lia; ring|lia|].
  intros j Hj Hor. apply Hz; lia.
Qed.

Section Real.
  Variables eps maxv : R.
  Local Hint Extern 0 (Scalar R) => exact (ROps eps maxv) : typeclass_instances.

  Section Ends.
    Variable c : Curve R.
    Hypotheses (Hc : curve_ok c) (He : curve_eps eps c) (Hw : pos_weights c) (Hp : (1 <= cdeg c)%nat).
    Notation k := (kf (cknots c)).
    Notation p := (cdeg c).
    Notation n := (clast c).

    Lemma dpiece_start i : (forall j, (j <= p)%nat -> k j = k 0%nat) ->
      dpiece c p i 1 (dom0 c) = INR p / (k (p + 1)%nat - k p) * (cpc c i 1 - cpc c i 0).
    Proof.
      intros Hcl. pose proof (co_knots c Hc) as [Lk Hpn Hs Hf Hla]. pose proof (curve_mono c Hc) as Hm. pose proof (clast_S c Hc) as Hn.
      assert (B : forall j, bs k p (p - 1) j (k p) = if Nat.eqb j 1 then 1 else 0).
      { intros j. rewrite (bs_at_left_end k p (p - 1) j Hm); [now replace (p - (p - 1))%nat with 1%nat by lia| |lia|].
        - now replace (S p) with (p + 1)%nat by lia.
        - intros j' Hj'. rewrite (Hcl j'), (Hcl p) by lia. reflexivity. }
      unfold dpiece, dom0. rewrite (rsum_two _ _ 0%nat); [|lia|].
      - rewrite !dbs_1, !B by lia. cbn [Nat.eqb Nat.add]. unfold dq. replace (1 + p)%nat with (p + 1)%nat by lia.
        rewrite (Hcl 1%nat) by lia. replace (k 0%nat) with (k p) by (apply Hcl; lia).
        rewrite (quot0_nz 1 (k (p + 1)%nat - k p)) by lra. field. lra.
      - intros j Hj H0 H1. rewrite dbs_1, !B by lia. rewrite (proj2 (Nat.eqb_neq j 1)), (proj2 (Nat.eqb_neq (j + 1) 1)) by lia. ring.
    Qed.

    Lemma dpiece_end i : (forall j, (length (cpts c) <= j <= length (cpts c) + p)%nat -> k j = k (length (cpts c))) ->
      dpiece c n i 1 (dom1 c) = INR p / (k (n + 1)%nat - k n) * (cpc c i n - cpc c i (n - 1)).
    Proof.
      intros Hcl. pose proof (co_knots c Hc) as [Lk Hpn Hs Hf Hla]. pose proof (curve_mono c Hc) as Hm. pose proof (clast_S c Hc) as Hn.
      assert (B : forall j, bs k n (p - 1) j (k (S n)) = if Nat.eqb j n then 1 else 0).
      { intros j. apply bs_at_right_end; [exact Hm|replace (S n) with (n + 1)%nat by lia; exact Hla|].
        intros j' Hj'. rewrite (Hcl (n + j')%nat), Hn by lia. reflexivity. }
      unfold dpiece, dom1. rewrite <- Hn in *. rewrite (rsum_two _ _ (n - 1)%nat); [|lia|].
      - replace (S (n - 1)) with n by lia. rewrite !dbs_1, !B by lia. replace (n - 1 + 1)%nat with n by lia.
        rewrite Nat.eqb_refl. rewrite (proj2 (Nat.eqb_neq (n - 1) n)), (proj2 (Nat.eqb_neq (n + 1) n)) by lia.
        unfold dq. rewrite (Hcl (n + p)%nat) by lia. replace (n + 1)%nat with (S n) in * by lia. rewrite (quot0_nz 1 (k (S n) - k n)) by lra. field. lra.
      - intros j Hj H0 H1. rewrite dbs_1, !B by lia. rewrite (proj2 (Nat.eqb_neq j n)), (proj2 (Nat.eqb_neq (j + 1) n)) by lia. ring.
    Qed.

    Lemma ratd_1 s i u : wfun c u = dpiece c s (cdim c - 1) 0 u -> hcoord c i u = dpiece c s i 0 u ->
      ratd c s i 1 u = (dpiece c s i 1 u - dpiece c s (cdim c - 1) 1 u * (hcoord c i u / wfun c u)) / wfun c u.
    Proof.
      intros E1 E2. unfold ratd. rewrite cq_eq. cbn [rsum]. rewrite (cq_eq _ _ 0%nat). cbn [rsum pascal]. cbn [Nat.sub].
      rewrite <- E1, <- E2. cbn [INR Nat.add]. f_equal. unfold Rdiv. ring.
    Qed.

    (** *** C79 *)
    Theorem start_tangent : (forall j, (j <= p)%nat -> k j = k 0%nat) ->
      exists t, tangent_at c (dom0 c) = Ok t /\ length t = (cdim c - 1)%nat /\
        forall i, (i < cdim c - 1)%nat ->
          rc i t = INR p / (k (p + 1)%nat - k p) * (cpc c (cdim c - 1) 1 / cpc c (cdim c - 1) 0)
                   * (ctrl_affine c i 1 - ctrl_affine c i 0).
    Proof.
      intros Hcl. pose proof (co_knots c Hc) as [Lk Hpn Hs Hf Hla]. pose proof (curve_mono c Hc) as Hm. pose proof (clast_S c Hc) as Hn.
      replace (p + 1)%nat with (S p) in Hf by lia.
      assert (In : in_span (cknots c) n p (dom0 c)) by (unfold in_span, dom0; split; [exact Hf|]; split; [lra|]; left; lra).
      destruct (rational_derivatives_all eps maxv c p Hc He Hw ltac:(lia) Hf) as (_ & V).
      destruct (V (dom0 c) 1%nat In) as (ds & E & L & W). destruct (W 1%nat ltac:(lia)) as (L1 & W1).
      unfold tangent_at. rewrite E. cbn [bind]. rewrite (get_ok ds 1 []) by lia.
      exists (nth 1 ds []). split; [reflexivity|]. split; [exact L1|]. intros i Hi. rewrite W1 by exact Hi.
      assert (P0 : forall i, hcoord c i (dom0 c) = dpiece c p i 0 (dom0 c)) by (intros; symmetry; apply dpiece_0; auto).
      rewrite ratd_1 by (unfold wfun; auto). rewrite !dpiece_start by exact Hcl. unfold wfun. rewrite !hcoord_start by auto.
      pose proof (Hw 0%nat ltac:(lia)). pose proof (Hw 1%nat ltac:(lia)). unfold ctrl_affine. replace (p + 1)%nat with (S p) by lia.
      field. lra.
    Qed.

    Theorem end_tangent : (forall j, (length (cpts c) <= j <= length (cpts c) + p)%nat -> k j = k (length (cpts c))) ->
      exists t, tangent_at c (dom1 c) = Ok t /\ length t = (cdim c - 1)%nat /\
        forall i, (i < cdim c - 1)%nat ->
          rc i t = INR p / (k (n + 1)%nat - k n) * (cpc c (cdim c - 1) (n - 1) / cpc c (cdim c - 1) n)
                   * (ctrl_affine c i n - ctrl_affine c i (n - 1)).
    Proof.
      intros Hcl. pose proof (co_knots c Hc) as [Lk Hpn Hs Hf Hla]. pose proof (curve_mono c Hc) as Hm. pose proof (clast_S c Hc) as Hn.
      replace (n + 1)%nat with (S n) in Hla by lia.
      assert (In : in_span (cknots c) n n (dom1 c)).
      { unfold in_span, dom1. rewrite <- Hn. split; [exact Hla|]. split; [lra|]. right; auto. }
      destruct (rational_derivatives_all eps maxv c n Hc He Hw ltac:(lia) Hla) as (_ & V).
      destruct (V (dom1 c) 1%nat In) as (ds & E & L & W). destruct (W 1%nat ltac:(lia)) as (L1 & W1).
      unfold tangent_at. rewrite E. cbn [bind]. rewrite (get_ok ds 1 []) by lia.
      exists (nth 1 ds []). split; [reflexivity|]. split; [exact L1|]. intros i Hi. rewrite W1 by exact Hi.
      assert (P0 : forall i, hcoord c i (dom1 c) = dpiece c n i 0 (dom1 c)) by (intros; symmetry; apply dpiece_0; auto).
      rewrite ratd_1 by (unfold wfun; auto). rewrite !dpiece_end by exact Hcl. unfold wfun. rewrite !hcoord_end by auto.
      pose proof (Hw n ltac:(lia)). pose proof (Hw (n - 1)%nat ltac:(lia)). unfold ctrl_affine. replace (n + 1)%nat with (S n) by lia.
      field. lra.
    Qed.
  End Ends.

  Theorem tangent_at_start c :
    curve_ok c -> curve_eps eps c -> pos_weights c -> (1 <= cdeg c)%nat ->
    (forall j, (j <= cdeg c)%nat -> kf (cknots c) j = kf (cknots c) 0) ->
    exists t, tangent_at c (dom0 c) = Ok t /\ length t = (cdim c - 1)%nat /\
      forall i, (i < cdim c - 1)%nat ->
        rc i t = INR (cdeg c) / (kf (cknots c) (cdeg c + 1) - kf (cknots c) (cdeg c))
                 * (cpc c (cdim c - 1) 1 / cpc c (cdim c - 1) 0) * (ctrl_affine c i 1 - ctrl_affine c i 0).
  Proof. intros Hc He Hw Hp Hcl. now apply start_tangent. Qed.

  Theorem tangent_at_end c :
    curve_ok c -> curve_eps eps c -> pos_weights c -> (1 <= cdeg c)%nat ->
    (forall j, (length (cpts c) <= j <= length (cpts c) + cdeg c)%nat -> kf (cknots c) j = kf (cknots c) (length (cpts c))) ->
    exists t, tangent_at c (dom1 c) = Ok t /\ length t = (cdim c - 1)%nat /\
      forall i, (i < cdim c - 1)%nat ->
        rc i t = INR (cdeg c) / (kf (cknots c) (clast c + 1) - kf (cknots c) (clast c))
                 * (cpc c (cdim c - 1) (clast c - 1) / cpc c (cdim c - 1) (clast c))
                 * (ctrl_affine c i (clast c) - ctrl_affine c i (clast c - 1)).
  Proof. intros Hc He Hw Hp Hcl. now apply end_tangent. Qed.
End Real.
