(** * A curve has only one control polygon for its knots *)
From Coq Require Import Reals Lra Lia List Sorted Permutation.
From Verif Require Import Base BaseFacts Scalar RSum BSplineSpec BSpline BSplineDeriv BSplineInsert KnotModel
  KnotSpec KnotFacts KnotProofs VecFacts CurveModel CurveSpec CurveProofs CurveGeom CurveGeom2 Boehm LengthMotion.
Import ListNotations.
Open Scope R_scope.

(** ** The basis polynomials of a non-empty span are linearly independent *)
Lemma rsum_parts n (P A : nat -> R) : rsum (S n) (fun r => P r * (A r - A (S r))) = P 0%nat * A 0%nat - P n * A (S n) + rsum n (fun r => (P (S r) - P r) * A (S r)).
Proof. induction n as [|n IH]; [cbn [rsum]; ring|]. cbn [rsum] in *. rewrite IH. ring. Qed.

Lemma bs_independent k s : mono k -> k s < k (S s) -> forall p (P : nat -> R), (p <= s)%nat ->
  (forall u, k s < u < k (S s) -> rsum (S p) (fun r => bs k s p (s - p + r) u * P r) = 0) -> forall r, (r <= p)%nat -> P r = 0.
Proof.
  intros Hm Hs. induction p as [|q IH]; intros P Hp H r Hr.
  - assert (r = 0)%nat as -> by lia. specialize (H ((k s + k (S s)) / 2) ltac:(lra)). cbn [rsum] in H.
    replace (s - 0 + 0)%nat with s in H by lia. cbn [bs] in H. rewrite Nat.eqb_refl in H. lra.
  - set (i0 := (s - S q)%nat). assert (I0 : (s - q)%nat = S i0) by (unfold i0; lia).
    assert (D : forall r, (r <= q)%nat -> (P (S r) - P r) * dq k (S q) (s - q + r) = 0).
    { apply (IH (fun r => (P (S r) - P r) * dq k (S q) (s - q + r))); [lia|]. intros u Hu.
      set (A := fun r => dq k (S q) (i0 + r) * bs k s q (i0 + r) u).
      assert (L : derivable_pt_lim (fun x => rsum (S (S q)) (fun r => bs k s (S q) (i0 + r) x * P r)) u (rsum (S (S q)) (fun r => INR (S q) * (P r * (A r - A (S r)))))).
      { apply (derivable_rsum (S (S q)) (fun r x => bs k s (S q) (i0 + r) x * P r) (fun r u => INR (S q) * (P r * ((dq k (S q) (i0 + r) * bs k s q (i0 + r) u) - (dq k (S q) (i0 + S r) * bs k s q (i0 + S r) u))))).
        intros j Hj. pose proof (bs_deriv k s q (i0 + j) u Hm) as B. pose proof (derivable_pt_lim_scal _ (P j) u _ B) as B'.
        replace (i0 + S j)%nat with (i0 + j + 1)%nat by lia.
        match type of B' with derivable_pt_lim _ _ ?l => match goal with |- derivable_pt_lim _ _ ?m => replace m with l by ring end end.
        apply (derivable_pt_lim_ext (mult_real_fct (P j) (bs k s (S q) (i0 + j)))); [|exact B']. intros x. unfold mult_real_fct. ring. }
      assert (Z : rsum (S (S q)) (fun r => INR (S q) * (P r * (A r - A (S r)))) = 0).
      { eapply (flat_slope _ (k s) (k (S s)) u); [exact Hs|lra| |exact L]. intros x Hx. apply H. exact Hx. }
      rewrite rsum_scal, rsum_parts in Z.
      assert (A0 : A 0%nat = 0) by (unfold A; rewrite bs_support; [ring|unfold i0; lia]).
      assert (A1 : A (S (S q)) = 0) by (unfold A; rewrite bs_support; [ring|unfold i0; lia]).
      rewrite A0, A1 in Z. assert (Hn : INR (S q) <> 0) by (apply not_0_INR; lia).
      assert (Z' : rsum (S q) (fun r => (P (S r) - P r) * A (S r)) = 0) by (apply (Rmult_eq_reg_l (INR (S q))); [|exact Hn]; lra).
      rewrite <- Z'. apply rsum_ext. intros j Hj. unfold A. rewrite I0. replace (i0 + S j)%nat with (S i0 + j)%nat by lia. ring. }
    assert (E : forall r, (r <= S q)%nat -> P r = P 0%nat).
    { induction r0 as [|r0 IHr]; intros Hr0; [reflexivity|]. rewrite <- IHr by lia. specialize (D r0 ltac:(lia)).
      assert (Q : dq k (S q) (s - q + r0) <> 0).
      { unfold dq. pose proof (mono_le k (s - q + r0) s Hm ltac:(lia)). pose proof (mono_le k (S s) (s - q + r0 + S q) Hm ltac:(lia)).
        rewrite quot0_nz by lra. intros C. assert (X : (k (s - q + r0 + S q)%nat - k (s - q + r0)%nat) * (1 / (k (s - q + r0 + S q)%nat - k (s - q + r0)%nat)) = 1) by (field; lra). rewrite C in X. lra. }
      apply Rmult_integral in D. destruct D as [D|D]; [lra|contradiction]. }
    rewrite E by exact Hr. specialize (H ((k s + k (S s)) / 2) ltac:(lra)). fold i0 in H.
    rewrite (rsum_ext (S (S q)) _ (fun r => P 0%nat * bs k s (S q) (i0 + r) ((k s + k (S s)) / 2))) in H by (intros j Hj; rewrite E by lia; ring).
    rewrite rsum_scal in H.
    assert (O : rsum (S (S q)) (fun r => bs k s (S q) (i0 + r) ((k s + k (S s)) / 2)) = 1).
    { rewrite <- (bs_sum k s Hm Hs (S q) (S s) ((k s + k (S s)) / 2)) by lia. symmetry.
      rewrite (rsum_window (S s) i0 (S (S q))); [reflexivity|unfold i0; lia|]. intros j Hj C. apply bs_support. unfold i0 in C. lia. }
    rewrite O in H. lra.
Qed.

(** ** Uniqueness of the control points *)
(** no interior knot is repeated more than degree + 1 times *)
Definition low_mult (c : Curve R) : Prop := forall x, dom0 c < x < dom1 c -> (count_occ Req_EM_T (cknots c) x <= S (cdeg c))%nat.

Lemma count_run (l : list R) x a m : (a + m <= length l)%nat -> (forall i, (a <= i < a + m)%nat -> nth i l 0 = x) -> (m <= count_occ Req_EM_T l x)%nat.
Proof.
  revert a m. induction l as [|y l IH]; intros a m Hl H; cbn [length] in Hl; [lia|]. destruct a as [|a].
  - destruct m as [|m]; [lia|]. cbn [count_occ]. assert (y = x) as -> by (apply (H 0%nat); lia). destruct (Req_EM_T x x); [|congruence].
    apply le_n_S, (IH 0%nat); [lia|]. intros i Hi. apply (H (S i)). lia.
  - assert (G : (m <= count_occ Req_EM_T l x)%nat) by (apply (IH a); [lia|]; intros i Hi; apply (H (S i)); lia).
    cbn [count_occ]. destruct (Req_EM_T y x); lia.
Qed.

(** every control point acts on a non-empty span of the domain *)
Lemma active_span c j : curve_ok c -> low_mult c -> (j < length (cpts c))%nat ->
  exists s, (cdeg c <= s <= clast c)%nat /\ (j <= s <= j + cdeg c)%nat /\ kf (cknots c) s < kf (cknots c) (S s).
Proof.
  intros Hc Hl Hj. set (k := cknots c) in *. set (p := cdeg c) in *. set (n := clast c) in *. pose proof (clast_S c Hc) as Hn. fold n in Hn.
  destruct (co_knots c Hc) as [Lk Pn Sk Kf Kl]. fold k p n in Lk, Pn, Sk, Kf, Kl. rewrite Nat.add_1_r in Kf, Kl.
  pose proof (curve_mono c Hc) as Hm. fold k in Hm.
  destruct (Nat.le_gt_cases j p) as [C1|C1]; [exists p; repeat split; auto; lia|].
  destruct (Nat.le_gt_cases n (j + p)) as [C2|C2]; [exists n; repeat split; auto; lia|].
  assert (Hlt : kf k j < kf k (j + p + 1)%nat).
  { destruct (Rlt_le_dec (kf k j) (kf k (j + p + 1)%nat)) as [|C]; [assumption|exfalso].
    assert (Eq : forall i, (j <= i <= j + p + 1)%nat -> kf k i = kf k j).
    { intros i Hi. pose proof (mono_le _ j i Hm ltac:(lia)). pose proof (mono_le _ i (j + p + 1) Hm ltac:(lia)). lra. }
    assert (X : dom0 c < kf k j < dom1 c).
    { unfold dom0, dom1. fold k p. rewrite <- Hn. pose proof (mono_le _ (S p) j Hm ltac:(lia)). pose proof (mono_le _ j n Hm ltac:(lia)). lra. }
    specialize (Hl _ X). fold k p in Hl. assert (G : (p + 2 <= count_occ Req_EM_T k (kf k j))%nat); [|lia].
    apply (count_run k (kf k j) j); [lia|]. intros i Hi. rewrite <- (kf_nth k i 0) by lia. apply Eq. lia. }
  assert (G : forall m, kf k j < kf k (j + m)%nat -> exists s, (j <= s < j + m)%nat /\ kf k s < kf k (S s)).
  { induction m as [|m IH]; intros H; [replace (j + 0)%nat with j in H by lia; lra|].
    destruct (Rlt_le_dec (kf k (j + m)%nat) (kf k (S (j + m)))) as [L|L]; [exists (j + m)%nat; split; [lia|exact L]|].
    destruct IH as (s & Hs & L'); [replace (j + S m)%nat with (S (j + m)) in H by lia; lra|]. exists s. split; [lia|exact L']. }
  destruct (G (p + 1)%nat) as (s & Hs & L); [rewrite Nat.add_assoc; exact Hlt|]. exists s. repeat split; auto; lia.
Qed.

Theorem control_points_unique c c' : curve_ok c -> curve_ok c' -> cdim c' = cdim c -> cdeg c' = cdeg c -> cknots c' = cknots c -> low_mult c ->
  (forall i u, (i < cdim c)%nat -> dom0 c <= u <= dom1 c -> ~ In u (cknots c) -> hcoord c' i u = hcoord c i u) -> c' = c.
Proof.
  intros Hc Hc' Ed Ep Ek Hl H.
  assert (El : length (cpts c') = length (cpts c)).
  { pose proof (curve_len c Hc). pose proof (curve_len c' Hc'). rewrite Ek, Ep in *. lia. }
  assert (G : forall j i, (j < length (cpts c))%nat -> (i < cdim c)%nat -> cpc c' i j = cpc c i j).
  { intros j i Hj Hi. destruct (active_span c j Hc Hl Hj) as (s & Hs & Hjs & L). pose proof (clast_S c Hc) as Hn. pose proof (curve_mono c Hc) as Hm.
    assert (Z : cpc c' i (s - cdeg c + (j - (s - cdeg c))) - cpc c i (s - cdeg c + (j - (s - cdeg c))) = 0).
    { apply (bs_independent (kf (cknots c)) s Hm L (cdeg c) (fun r => cpc c' i (s - cdeg c + r) - cpc c i (s - cdeg c + r))); [lia| |lia].
      intros u Hu.
      assert (Du : dom0 c <= u <= dom1 c).
      { unfold dom0, dom1. rewrite <- Hn. pose proof (mono_le _ (cdeg c) s Hm ltac:(lia)). pose proof (mono_le _ (S s) (S (clast c)) Hm ltac:(lia)). lra. }
      assert (In1 : in_span (cknots c) (clast c) s u) by (split; [exact L|]; split; [lra|left; lra]).
      assert (Ec : clast c' = clast c) by (unfold clast; now rewrite El).
      pose proof (piece_hcoord c s i u Hc In1 ltac:(lia)) as P1.
      pose proof (piece_hcoord c' s i u Hc') as P2. rewrite Ek, Ec, Ep, El in P2. specialize (P2 In1 ltac:(lia)). 
      assert (Nk : ~ In u (cknots c)).
      { intros Ik. destruct (In_nth _ _ 0 Ik) as (q & Hq & Eq). rewrite <- (kf_nth _ _ 0) in Eq by auto.
        destruct (Nat.le_gt_cases q s) as [Q|Q]; [pose proof (mono_le _ q s Hm Q)|pose proof (mono_le _ (S s) q Hm ltac:(lia))]; lra. }
      rewrite (H i u Hi Du Nk) in P2.
      rewrite piece_window in P1, P2 by lia.
      rewrite (rsum_ext _ _ (fun r => bs (kf (cknots c)) s (cdeg c) (s - cdeg c + r) u * cpc c' i (s - cdeg c + r) + (-1) * (bs (kf (cknots c)) s (cdeg c) (s - cdeg c + r) u * cpc c i (s - cdeg c + r)))) by (intros; ring).
      rewrite rsum_plus, rsum_scal, P1, P2. ring. }
    replace (s - cdeg c + (j - (s - cdeg c)))%nat with j in Z by lia. lra. }
  pose proof (co_pts c Hc) as F. pose proof (co_pts c' Hc') as F'. rewrite Forall_forall in F, F'.
  assert (P : cpts c' = cpts c).
  { apply (list_ext []); [exact El|]. intros j Hj. assert (L1 : length (nth j (cpts c') []) = cdim c') by (apply F', nth_In; exact Hj).
    assert (L2 : length (nth j (cpts c) []) = cdim c) by (apply F, nth_In; lia).
    apply (list_ext 0); [congruence|]. intros i Hi. apply (G j i); lia. }
  destruct c as [D p P0 K], c' as [D' p' P0' K']. cbn in *. subst. reflexivity.
Qed.
