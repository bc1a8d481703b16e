(** * Derivatives of curves (C19) and of rational curves (C20) *)
From Coq Require Import Reals Lra Lia ZArith Bool.
From Verif Require Import Base BaseFacts Scalar RSum BSplineSpec BSpline BSplineDeriv KnotModel KnotSpec
  KnotFacts KnotProofs VecFacts MiscModel MiscProofs CurveModel CurveSpec CurveProofs DerivKnot.
Open Scope R_scope.

(** ** Specification: a chain of derivatives.  [F 0] is [f] on the span and each [F (m+1)] is the
    derivative of [F m] at every parameter of the closed span (so [F m] is the m-th derivative of
    the curve inside the span, and its limit at the two ends). *)
Definition deriv_chain (a b : R) (f : R -> R) (F : nat -> R -> R) : Prop :=
  (forall u, a <= u < b -> F 0%nat u = f u) /\
  (forall m u, a <= u <= b -> derivable_pt_lim (F m) u (F (S m) u)).

(** the derivative of a function agreeing near the point *)
Lemma derivable_local f g a b u l :
  a < u < b -> (forall x, a < x < b -> f x = g x) -> derivable_pt_lim f u l -> derivable_pt_lim g u l.
Proof.
  intros Hu He Hf e Hpos. destruct (Hf e Hpos) as (d & Hd).
  assert (Hm : 0 < Rmin d (Rmin (u - a) (b - u))).
  { apply Rmin_pos; [apply cond_pos|]. apply Rmin_pos; lra. }
  exists (mkposreal _ Hm). cbn. intros h Hh Hlt.
  pose proof (Rmin_l d (Rmin (u - a) (b - u))). pose proof (Rmin_r d (Rmin (u - a) (b - u))).
  pose proof (Rmin_l (u - a) (b - u)). pose proof (Rmin_r (u - a) (b - u)).
  rewrite <- !He.
  - apply Hd; [exact Hh|lra].
  - lra.
  - apply Rabs_def2 in Hlt. lra.
Qed.

(** the chain gives the actual first derivative inside the span *)
Lemma chain_first a b f F u : deriv_chain a b f F -> a < u < b -> derivable_pt_lim f u (F 1%nat u).
Proof.
  intros (H0 & H1) Hu. apply (derivable_local (F 0%nat) f a b).
  - exact Hu.
  - intros x Hx. apply H0. lra.
  - apply H1. lra.
Qed.

(** ** Quotients: the recursion for the derivatives of A / w *)
Section Quotient.
  Variables (A W : nat -> R -> R).

  Fixpoint cks (n : nat) (u : R) : list R :=
    match n with
    | O => []
    | S m => cks m u ++
        [(A m u - rsum m (fun i => INR (pascal m (S i)) * W (S i) u * nth (m - S i) (cks m u) 0)) / W 0%nat u]
    end.
  Definition cq (m : nat) (u : R) : R := nth m (cks (S m) u) 0.

  Lemma cks_length n u : length (cks n u) = n.
  Proof. induction n as [|n IH]; [reflexivity|]. cbn [cks]. rewrite app_length, IH. cbn. lia. Qed.
  Lemma cks_nth n m u : (m < n)%nat -> nth m (cks n u) 0 = cq m u.
  Proof.
    induction n as [|n IH]; intros H; [lia|]. destruct (Nat.eq_dec m n) as [->|]; [reflexivity|].
    cbn [cks]. rewrite app_nth1 by (rewrite cks_length; lia). apply IH. lia.
  Qed.
  Lemma cq_eq m u :
    cq m u = (A m u - rsum m (fun i => INR (pascal m (S i)) * W (S i) u * cq (m - S i) u)) / W 0%nat u.
  Proof.
    unfold cq at 1. cbn [cks]. rewrite app_nth2 by (rewrite cks_length; lia).
    rewrite cks_length, Nat.sub_diag. cbn [nth]. f_equal. f_equal. apply rsum_ext. intros i Hi.
    rewrite cks_nth by lia. reflexivity.
  Qed.

  (** Leibniz *)
  Lemma cq_leibniz m u : W 0%nat u <> 0 ->
    rsum (S m) (fun i => INR (pascal m i) * W i u * cq (m - i) u) = A m u.
  Proof.
    intros Hw. rewrite rsum_S_l. rewrite pascal_0, Nat.sub_0_r, (cq_eq m u). cbn [INR].
    rewrite Rmult_1_l. unfold Rdiv. rewrite (Rmult_comm (W 0%nat u)), Rmult_assoc, Rinv_l by auto. ring.
  Qed.

  Lemma nz_near (f : R -> R) u l : derivable_pt_lim f u l -> f u <> 0 ->
    exists d, 0 < d /\ forall x, Rabs (x - u) < d -> f x <> 0.
  Proof.
    intros Hd Hn. assert (C : continuity_pt f u) by (apply derivable_continuous_pt; now exists l).
    destruct (C (Rabs (f u))) as (d & Hd1 & Hd2).
    { now apply Rabs_pos_lt. }
    exists d. split; [exact Hd1|]. intros x Hx Hz.
    destruct (Req_dec x u) as [->|Hne]; [contradiction|].
    specialize (Hd2 x). cbn in Hd2. unfold R_dist in Hd2.
    assert (G : Rabs (f x - f u) < Rabs (f u)).
    { apply Hd2. split; [|exact Hx]. split; [exact I|]. auto. }
    rewrite Hz in G. replace (0 - f u) with (- f u) in G by ring. rewrite Rabs_Ropp in G. lra.
  Qed.

  Lemma cq_deriv m : forall u,
    (forall m, derivable_pt_lim (A m) u (A (S m) u)) -> (forall m, derivable_pt_lim (W m) u (W (S m) u)) ->
    W 0%nat u <> 0 -> derivable_pt_lim (cq m) u (cq (S m) u).
  Proof.
    induction m as [m IH] using lt_wf_ind. intros u HA HW Hw.
    (* the numerator *)
    set (N := fun x => A m x - rsum m (fun i => INR (pascal m (S i)) * W (S i) x * cq (m - S i) x)).
    set (N' := A (S m) u - rsum m (fun i => INR (pascal m (S i)) * (W (S (S i)) u * cq (m - S i) u + W (S i) u * cq (S (m - S i)) u))).
    assert (DN : derivable_pt_lim N u N').
    { unfold N, N'. apply (derivable_pt_lim_minus (A m)
        (fun x => rsum m (fun i => INR (pascal m (S i)) * W (S i) x * cq (m - S i) x))); [apply HA|].
      apply (derivable_rsum m (fun i x => INR (pascal m (S i)) * W (S i) x * cq (m - S i) x)
        (fun i u => INR (pascal m (S i)) * (W (S (S i)) u * cq (m - S i) u + W (S i) u * cq (S (m - S i)) u))).
      intros i Hi. pose proof (IH (m - S i)%nat ltac:(lia) u HA HW Hw) as Di.
      pose proof (derivable_pt_lim_mult _ _ u _ _ (HW (S i)) Di) as Dm.
      pose proof (derivable_pt_lim_scal _ (INR (pascal m (S i))) u _ Dm) as Ds.
      eapply derivable_pt_lim_ext; [|exact Ds]. intros x. unfold mult_real_fct, mult_fct. ring. }
    pose proof (derivable_pt_lim_div N (W 0%nat) u N' (W 1%nat u) DN (HW 0%nat) Hw) as DQ.
    assert (DQ' : derivable_pt_lim (cq m) u ((N' * W 0%nat u - W 1%nat u * N u) / Rsqr (W 0%nat u))).
    { eapply derivable_pt_lim_ext; [|exact DQ]. intros x. unfold div_fct. symmetry. apply cq_eq. }
    replace (cq (S m) u) with ((N' * W 0%nat u - W 1%nat u * N u) / Rsqr (W 0%nat u)); [exact DQ'|].
    assert (EN : N u = cq m u * W 0%nat u).
    { rewrite (cq_eq m u). unfold N. field. exact Hw. }
    rewrite (cq_eq (S m) u), EN. unfold Rsqr.
    transitivity ((N' - W 1%nat u * cq m u) / W 0%nat u); [field; exact Hw|]. f_equal.
    unfold N'. match goal with |- _ - ?x - ?y = _ - ?z => enough (x + y = z) by lra end.
    (* Pascal's rule *)
    rewrite (rsum_ext (S m) _ (fun i => INR (pascal m i) * (W (S i) u * cq (m - i) u)
                                    + INR (pascal m (S i)) * (W (S i) u * cq (m - i) u))).
    2:{ intros i Hi. cbn [pascal]. rewrite plus_INR. replace (S m - S i)%nat with (m - i)%nat by lia. ring. }
    rewrite rsum_plus. rewrite (rsum_S_l m (fun i => INR (pascal m i) * _)).
    cbn [rsum]. rewrite (pascal_big m (S m)) by lia. rewrite pascal_0, Nat.sub_0_r. cbn [INR].
    rewrite (rsum_ext m (fun i => INR (pascal m (S i)) * (W (S i) u * cq (m - i) u))
      (fun i => INR (pascal m (S i)) * (W (S i) u * cq (S (m - S i)) u))).
    2:{ intros i Hi. replace (S (m - S i)) with (m - i)%nat by lia. reflexivity. }
    rewrite (rsum_ext m _ (fun i => INR (pascal m (S i)) * (W (S (S i)) u * cq (m - S i) u)
       + INR (pascal m (S i)) * (W (S i) u * cq (S (m - S i)) u))) by (intros; ring).
    rewrite rsum_plus. change (INR 1) with 1. ring.
  Qed.
End Quotient.

Section Real.
  Variables eps maxv : R.
  Local Hint Extern 0 (Scalar R) => exact (ROps eps maxv) : typeclass_instances.

  (** m-th derivative of a coordinate on the span [s] *)
  Definition dpiece (c : Curve R) (s i m : nat) (u : R) : R :=
    rsum (length (cpts c)) (fun j => dbs (kf (cknots c)) s (cdeg c) m j u * cpc c i j).

  Lemma dpiece_deriv c s i m u : mono (kf (cknots c)) ->
    derivable_pt_lim (dpiece c s i m) u (dpiece c s i (S m) u).
  Proof.
    intros Hm. unfold dpiece.
    apply (derivable_rsum _ (fun j u => dbs (kf (cknots c)) s (cdeg c) m j u * cpc c i j)
             (fun j u => dbs (kf (cknots c)) s (cdeg c) (S m) j u * cpc c i j)).
    intros j Hj. pose proof (derivable_pt_lim_scal _ (cpc c i j) u _ (dbs_deriv _ s (cdeg c) m j u Hm)) as D.
    rewrite Rmult_comm. eapply derivable_pt_lim_ext; [|exact D]. intros x. unfold mult_real_fct. ring.
  Qed.

  Lemma dbs_support k s p m j u : (m <= p)%nat -> (s < j \/ j + p < s)%nat -> dbs k s p m j u = 0.
  Proof.
    intros Hm H. unfold dbs. rewrite rsum_0; [ring|]. intros i Hi. rewrite bs_support by lia. ring.
  Qed.

  Lemma dpiece_window c s i m u : (m <= cdeg c)%nat -> (cdeg c <= s)%nat -> (s < length (cpts c))%nat ->
    dpiece c s i m u = rsum (S (cdeg c)) (fun r => dbs (kf (cknots c)) s (cdeg c) m (s - cdeg c + r) u
                                                    * cpc c i (s - cdeg c + r)).
  Proof.
    intros H1 H2 H3. unfold dpiece.
    rewrite (rsum_window (length (cpts c)) (s - cdeg c) (S (cdeg c))); [reflexivity|lia|].
    intros j Hj Hor. rewrite dbs_support by lia. ring.
  Qed.

  Lemma dpiece_high c s i m u : (cdeg c < m)%nat -> dpiece c s i m u = 0.
  Proof.
    intros H. unfold dpiece. apply rsum_0. intros j Hj. unfold dbs. rewrite falling_0 by auto. ring.
  Qed.

  (** the homogeneous derivatives *)
  Lemma derivatives_piece c u d s :
    curve_ok c -> 0 < eps -> find_span (cknots c) (clast c) (cdeg c) u = Ok s ->
    (cdeg c <= s <= clast c)%nat -> kf (cknots c) s < kf (cknots c) (S s) ->
    exists ds, derivatives c u d = Ok ds /\ length ds = S d /\
      forall m, (m <= d)%nat -> length (nth m ds []) = cdim c /\
        forall i, rc i (nth m ds []) = dpiece c s i m u.
  Proof.
    intros Hc He Es Hs Hne. pose proof (curve_mono c Hc) as Hm. pose proof (curve_len c Hc) as Hl.
    pose proof (clast_S c Hc) as Hn. unfold derivatives. rewrite last_index_ok by auto. cbn [bind].
    set (du := if (d <? cdeg c)%nat then d else cdeg c).
    assert (Hdu : (du <= d)%nat /\ (du <= cdeg c)%nat /\ (du = d \/ du = cdeg c)).
    { unfold du. destruct (Nat.ltb_spec d (cdeg c)); lia. }
    rewrite Es. cbn [bind].
    destruct (derivative_basis_spec eps maxv (cknots c) s (cdeg c) du u Hm Hne ltac:(lia) ltac:(lia))
      as (nd & End & Shn & Vn).
    rewrite End. cbn [bind]. clearbody du.
    set (I := fun k (ds : list (list R)) => length ds = S d /\ forall m, (m <= d)%nat ->
      length (nth m ds []) = cdim c /\ forall i, rc i (nth m ds []) = if (m <? k)%nat then dpiece c s i m u else 0).
    match goal with |- context [for_incl 0 du ?g ?x] => destruct (for_incl_rule I 0 du g x) as (ds & E & HI1 & HI2) end.
    - lia.
    - replace (d + 1)%nat with (S d) by lia. split; [apply repeat_length|]. intros m Hm'.
      rewrite nth_repeat_lt by lia. split; [apply vzero_length|]. intros i. apply rc_vzero.
    - intros k ds Hk (L & V).
      set (J := fun r (ds' : list (list R)) => length ds' = S d /\ forall m, (m <= d)%nat ->
        length (nth m ds' []) = cdim c /\ forall i, rc i (nth m ds' []) =
          if (m =? k)%nat then rsum r (fun r => dbs (kf (cknots c)) s (cdeg c) k (s - cdeg c + r) u * cpc c i (s - cdeg c + r))
          else rc i (nth m ds [])).
      match goal with |- context [for_incl 0 (cdeg c) ?g ds] =>
        destruct (for_incl_rule J 0 (cdeg c) g ds) as (ds' & E & HJ1 & HJ2) end.
      + lia.
      + split; [exact L|]. intros m Hm'. destruct (V m Hm') as (V1 & V2). split; [exact V1|]. intros i.
        destruct (Nat.eqb_spec m k) as [->|]; [|reflexivity]. rewrite V2.
        destruct (Nat.ltb_spec k k); [lia|reflexivity].
      + intros r e Hr (Le & Ve). rewrite usub_ok by lia. cbn [bind].
        rewrite (get_ok (cpts c) _ []) by lia. cbn [bind].
        rewrite (get2_ok (S du) (S (cdeg c))) by (auto; lia). cbn [bind].
        rewrite (get_ok e k []) by lia. cbn [bind]. rewrite set_ok by lia.
        eexists. split; [reflexivity|]. split; [now rewrite upd_length|]. intros m Hm'.
        destruct (Ve k ltac:(lia)) as (Lk & Vk). rewrite Nat.eqb_refl in Vk.
        assert (Lp : length (nth (s - cdeg c + r) (cpts c) []) = cdim c) by (apply cpts_len; [exact Hc|lia]).
        destruct (Nat.eqb_spec m k) as [->|Hmk].
        * rewrite nth_upd_same by lia. split; [apply vadd_length; [exact Lk|now apply vscale_length]|].
          intros i. rewrite rc_vadd by (rewrite (vscale_length _ _ _ Lp); lia). rewrite rc_vscale, Vk.
          rewrite Vn by lia. cbn [rsum]. unfold cpc. ring.
        * rewrite nth_upd_other by lia. destruct (Ve m Hm') as (L1 & V1). split; [exact L1|]. intros i.
          rewrite V1. destruct (Nat.eqb_spec m k); [lia|reflexivity].
      + exists ds'. split; [exact E|]. split; [exact HJ1|]. intros m Hm'. destruct (HJ2 m Hm') as (L1 & V1).
        split; [exact L1|]. intros i. rewrite V1. destruct (V m Hm') as (_ & V2).
        destruct (Nat.eqb_spec m k) as [->|].
        * destruct (Nat.ltb_spec k (S k)); [|lia]. symmetry. apply dpiece_window; lia.
        * rewrite V2. destruct (Nat.ltb_spec m k), (Nat.ltb_spec m (S k)); try lia; reflexivity.
    - exists ds. split; [exact E|]. split; [exact HI1|]. intros m Hm'. destruct (HI2 m Hm') as (L1 & V1).
      split; [exact L1|]. intros i. rewrite V1. destruct (Nat.ltb_spec m (S du)); [reflexivity|].
      symmetry. apply dpiece_high. lia.
  Qed.

  Lemma dpiece_0 c s i u : curve_ok c -> in_span (cknots c) (clast c) s u -> (s <= clast c)%nat ->
    dpiece c s i 0 u = hcoord c i u.
  Proof.
    intros Hc Hin Hs. rewrite <- (piece_hcoord c s i u Hc Hin Hs). unfold dpiece, piece.
    apply rsum_ext. intros j Hj. now rewrite dbs_0.
  Qed.

  (** *** C19 *)
  (** On every span of the domain there is one chain of derivatives of each homogeneous coordinate
      of the curve, and the m-th entry of the returned list is its m-th member at the parameter. *)
  Theorem derivatives_spec c s i :
    curve_ok c -> curve_eps eps c -> (cdeg c <= s <= clast c)%nat -> kf (cknots c) s < kf (cknots c) (S s) ->
    exists F, deriv_chain (kf (cknots c) s) (kf (cknots c) (S s)) (hcoord c i) F /\
      forall u d, in_span (cknots c) (clast c) s u ->
        exists ds, derivatives c u d = Ok ds /\ length ds = S d /\
          forall m, (m <= d)%nat -> rc i (nth m ds []) = F m u.
  Proof.
    intros Hc He Hs Hne. pose proof (curve_mono c Hc) as Hm. pose proof (clast_S c Hc) as Hn.
    exists (dpiece c s i). split; [split|].
    - intros u Hu. apply dpiece_0; auto; [|lia]. unfold in_span. split; [lra|]. split; [lra|]. left; lra.
    - intros m u _. now apply dpiece_deriv.
    - intros u d Hin. destruct (span_of eps maxv c u Hc He) as (s' & Hs' & Hin' & Es).
      { pose proof (in_span_le _ _ _ _ Hin) as Hle. unfold dom0, dom1. rewrite <- Hn.
        pose proof (mono_le _ (cdeg c) s Hm ltac:(lia)). pose proof (mono_le _ (S s) (S (clast c)) Hm ltac:(lia)). lra. }
      assert (s' = s) as ->.
      { destruct Hin as (A1 & A2 & A3). destruct Hin' as (B1 & B2 & B3).
        destruct (Nat.lt_trichotomy s s') as [C|[C|C]]; [|auto|]; exfalso.
        - pose proof (mono_le _ (S s) s' Hm ltac:(lia)).
          destruct A3 as [A3|[-> A3]]; [lra|]. lia.
        - pose proof (mono_le _ (S s') s Hm ltac:(lia)).
          destruct B3 as [B3|[-> B3]]; [lra|]. lia. }
      destruct (derivatives_piece c u d s Hc (proj1 He) Es Hs Hne) as (ds & E & L & V).
      exists ds. split; [exact E|]. split; [exact L|]. intros m Hmd. now apply V.
  Qed.

  (** *** C20 *)
  (** the quotient loop on any list of homogeneous derivatives *)
  Lemma rational_of_spec D ders d (A : nat -> nat -> R) :
    (1 <= D)%nat -> length ders = S d -> (forall m, (m <= d)%nat -> length (nth m ders []) = D) ->
    (forall i m, (m <= d)%nat -> A i m = rc i (nth m ders [])) ->
    exists ck, rational_of D ders d = Ok ck /\ length ck = S d /\
      forall m, (m <= d)%nat -> length (nth m ck []) = (D - 1)%nat /\
        forall i, (i < D - 1)%nat -> rc i (nth m ck []) = cq (fun m _ => A i m) (fun m _ => A (D - 1)%nat m) m 0.
  Proof.
    intros HD Ld Lm HA. unfold rational_of.
    set (ad := map (firstn (D - 1)) ders). set (wd := map (coord (D - 1)) ders).
    assert (La : length ad = S d) by (unfold ad; now rewrite map_length).
    assert (Lw : length wd = S d) by (unfold wd; now rewrite map_length).
    assert (Na : forall m, (m <= d)%nat -> length (nth m ad []) = (D - 1)%nat /\
      forall i, (i < D - 1)%nat -> rc i (nth m ad []) = A i m).
    { intros m Hm. unfold ad. rewrite (nth_map_lt (firstn (D - 1)) ders m [] []) by lia. split.
      - rewrite firstn_length, Lm by auto. lia.
      - intros i Hi. rewrite rc_firstn by auto. now rewrite HA. }
    assert (Nw : forall m, (m <= d)%nat -> nth m wd 0 = A (D - 1)%nat m).
    { intros m Hm. unfold wd. rewrite (nth_map_lt (coord (D - 1)) ders m [] 0) by lia. rewrite coord_rc. now rewrite HA. }
    clearbody ad wd. set (C := fun i m => cq (fun m _ => A i m) (fun m _ => A (D - 1)%nat m) m 0).
    set (I := fun n (st : list (list R) * @memo R) => let '(ck, mm) := st in
      memo_ok mm /\ length ck = n /\ forall m, (m < n)%nat -> length (nth m ck []) = (D - 1)%nat /\
        forall i, (i < D - 1)%nat -> rc i (nth m ck []) = C i m).
    match goal with |- context [for_incl 0 d ?g ?x] => destruct (for_incl_rule I 0 d g x) as ([ck mm] & E & _ & HI1 & HI2) end.
    - lia.
    - cbn [I]. split; [constructor|]. split; [reflexivity|]. intros; lia.
    - intros k [ck mm] Hk (Mk & Lk & Vk). rewrite (get_ok ad k []) by lia. cbn [bind].
      set (J := fun i (st : list R * @memo R) => let '(v, m') := st in
        memo_ok m' /\ length v = (D - 1)%nat /\ forall x, (x < D - 1)%nat ->
          rc x v = A x k - rsum (i - 1) (fun i => INR (pascal k (S i)) * A (D - 1)%nat (S i) * C x (k - S i)%nat)).
      destruct (for_incl_rule J 1 k (@rat_inner R (ROps eps maxv) wd ck k) (nth k ad [], mm))
        as ([v m'] & E & Mv & Lv & Vv).
      + lia.
      + cbn [J]. split; [exact Mk|]. destruct (Na k ltac:(lia)) as (L1 & V1). split; [exact L1|].
        intros x Hx. rewrite V1 by auto. cbn [rsum Nat.sub]. ring.
      + intros i [v m1] Hi (M1 & L1 & V1). unfold rat_inner.
        destruct (bin_get_spec eps maxv k i m1 M1) as (B1 & B2).
        destruct (bin_get k i m1) as [b m2] eqn:Eb. cbn [fst snd] in B1, B2.
        rewrite (get_ok wd i 0) by lia. cbn [bind]. rewrite usub_ok by lia. cbn [bind].
        rewrite (get_ok ck (k - i) []) by lia. cbn [bind]. eexists. split; [reflexivity|]. cbn [J].
        destruct (Vk (k - i)%nat ltac:(lia)) as (L2 & V2).
        split; [exact B2|]. split; [apply vsub_length; [exact L1|now apply vscale_length]|].
        intros x Hx. rewrite rc_vsub by (rewrite (vscale_length _ _ _ L2); lia). rewrite rc_vscale, V1, V2 by auto.
        rs. rewrite B1, Nw by lia. destruct i as [|i]; [lia|]. replace (S (S i) - 1)%nat with (S i) by lia.
        replace (S i - 1)%nat with i by lia. cbn [rsum]. ring.
      + rewrite E. cbn [bind]. rewrite (get_ok wd 0 0) by lia. cbn [bind]. eexists. split; [reflexivity|].
        cbn [I]. split; [exact Mv|]. split; [rewrite app_length; cbn; lia|].
        intros m Hm. destruct (Nat.eq_dec m k) as [->|].
        * rewrite app_nth2 by lia. rewrite Lk, Nat.sub_diag. cbn [nth]. split; [now apply vdivs_length|].
          intros i Hi. rewrite rc_vdivs, Vv, Nw by (auto; lia). unfold C at 2. rewrite cq_eq.
          replace (S k - 1)%nat with k by lia. reflexivity.
        * rewrite app_nth1 by lia. apply Vk. lia.
    - rewrite E. cbn [bind]. exists ck. split; [reflexivity|]. split; [exact HI1|]. intros m Hm. apply HI2. lia.
  Qed.

  (** values at one parameter only matter pointwise *)
  Lemma cq_pointwise A W A' W' u u' m : (forall m, A m u = A' m u') -> (forall m, W m u = W' m u') ->
    cq A W m u = cq A' W' m u'.
  Proof.
    intros HA HW. induction m as [m IH] using lt_wf_ind. rewrite !cq_eq, HA, HW. f_equal. f_equal.
    apply rsum_ext. intros i Hi. rewrite HW, IH by lia. reflexivity.
  Qed.
  Lemma cq_pointwise_le d A W A' W' u u' m : (m <= d)%nat -> (forall m, (m <= d)%nat -> A m u = A' m u') ->
    (forall m, (m <= d)%nat -> W m u = W' m u') -> cq A W m u = cq A' W' m u'.
  Proof.
    intros Hm HA HW. revert Hm. induction m as [m IH] using lt_wf_ind. intros Hm.
    rewrite !cq_eq, HA, HW by lia. f_equal. f_equal.
    apply rsum_ext. intros i Hi. rewrite HW by lia. rewrite (IH (m - S i)%nat) by lia. reflexivity.
  Qed.

  (** the chains of all the coordinates *)
  Definition ratd (c : Curve R) (s i m : nat) (u : R) : R := cq (dpiece c s i) (dpiece c s (cdim c - 1)) m u.

  Lemma rational_derivatives_all c s :
    curve_ok c -> curve_eps eps c -> pos_weights c ->
    (cdeg c <= s <= clast c)%nat -> kf (cknots c) s < kf (cknots c) (S s) ->
    (forall i, (i < cdim c - 1)%nat ->
       deriv_chain (kf (cknots c) s) (kf (cknots c) (S s)) (nurbs c i) (ratd c s i)) /\
    forall u d, in_span (cknots c) (clast c) s u ->
      exists ds, rational_derivatives c u d = Ok ds /\ length ds = S d /\
        forall m, (m <= d)%nat -> length (nth m ds []) = (cdim c - 1)%nat /\
          forall i, (i < cdim c - 1)%nat -> rc i (nth m ds []) = ratd c s i m u.
  Proof.
    intros Hc He Hw Hs Hne. pose proof (curve_mono c Hc) as Hm. pose proof (clast_S c Hc) as Hn.
    pose proof (curve_len c Hc) as Hl.
    assert (Dom : forall u, kf (cknots c) s <= u <= kf (cknots c) (S s) -> dom0 c <= u <= dom1 c).
    { intros u Hu. unfold dom0, dom1. rewrite <- Hn.
      pose proof (mono_le _ (cdeg c) s Hm ltac:(lia)). pose proof (mono_le _ (S s) (S (clast c)) Hm ltac:(lia)). lra. }
    (* the weight polynomial is positive on the closed span *)
    assert (Wp : forall u, kf (cknots c) s <= u <= kf (cknots c) (S s) -> dpiece c s (cdim c - 1) 0 u <> 0).
    { intros u Hu. assert (0 < dpiece c s (cdim c - 1) 0 u); [|lra].
      unfold dpiece. rewrite (rsum_ext _ _ (fun j => bs (kf (cknots c)) s (cdeg c) j u * cpc c (cdim c - 1) j))
        by (intros; now rewrite dbs_0).
      pose proof (bs_sum (kf (cknots c)) s Hm Hne (cdeg c) (length (cpts c)) u ltac:(lia) ltac:(lia)) as Sum.
      destruct (Rle_lt_dec (rsum (length (cpts c)) (fun j => bs (kf (cknots c)) s (cdeg c) j u * cpc c (cdim c - 1) j)) 0) as [C|C]; [exfalso|exact C].
      assert (Z : forall j, (j < length (cpts c))%nat -> bs (kf (cknots c)) s (cdeg c) j u = 0).
      { intros j Hj. pose proof (bs_nonneg (kf (cknots c)) s Hm (cdeg c) j u Hu) as Nn.
        destruct (Req_dec (bs (kf (cknots c)) s (cdeg c) j u) 0) as [|Hnz]; [assumption|exfalso].
        assert (0 < rsum (length (cpts c)) (fun j => bs (kf (cknots c)) s (cdeg c) j u * cpc c (cdim c - 1) j)); [|lra].
        apply (rsum_pos _ _ j); [intros j' Hj'|auto|].
        - apply Rmult_le_pos; [apply bs_nonneg; auto|]. left. now apply Hw.
        - apply Rmult_lt_0_compat; [lra|now apply Hw]. }
      rewrite (rsum_0 _ _ Z) in Sum. lra. }
    split; [intros i Hi; split|].
    - intros u Hu. unfold ratd. rewrite cq_eq. cbn [rsum]. rewrite Rminus_0_r.
      rewrite !dpiece_0; auto; try lia; unfold in_span; repeat split; try lra; left; lra.
    - intros m u Hu. apply (cq_deriv (dpiece c s i) (dpiece c s (cdim c - 1)) m u).
      + intros m'. now apply dpiece_deriv.
      + intros m'. now apply dpiece_deriv.
      + now apply Wp.
    - intros u d Hin. unfold rational_derivatives.
      assert (exists ds, derivatives c u d = Ok ds /\ length ds = S d /\
        forall m, (m <= d)%nat -> length (nth m ds []) = cdim c /\ forall i, rc i (nth m ds []) = dpiece c s i m u)
        as (ds & E & L & V).
      { destruct (span_of eps maxv c u Hc He (Dom u (in_span_le _ _ _ _ Hin))) as (s' & Hs' & Hin' & Es).
        assert (s' = s) as ->.
        { destruct Hin as (A1 & A2 & A3). destruct Hin' as (B1 & B2 & B3).
          destruct (Nat.lt_trichotomy s s') as [C|[C|C]]; [|auto|]; exfalso.
          - pose proof (mono_le _ (S s) s' Hm ltac:(lia)).
            destruct A3 as [A3|[-> A3]]; [lra|]. lia.
          - pose proof (mono_le _ (S s') s Hm ltac:(lia)).
            destruct B3 as [B3|[-> B3]]; [lra|]. lia. }
        apply derivatives_piece; auto. apply He. }
      rewrite E. cbn [bind].
      destruct (rational_of_spec (cdim c) ds d (fun i m => rc i (nth m ds []))) as (ck & Ek & Lk & Vk).
      + apply Hc.
      + exact L.
      + intros m Hmd. now apply V.
      + reflexivity.
      + exists ck. split; [exact Ek|]. split; [exact Lk|]. intros m Hmd. destruct (Vk m Hmd) as (Lm & Vm).
        split; [exact Lm|]. intros i Hi. unfold ratd. rewrite Vm by auto. apply (cq_pointwise_le d); auto; intros m' Hm'; now apply V.
  Qed.

  (** On every span where the weight function does not vanish there is one chain of derivatives of
      each affine coordinate of the rational curve, and the m-th entry of the returned list is its
      m-th member; the list satisfies the Leibniz identities. *)
  Theorem rational_derivatives_spec c s i :
    curve_ok c -> curve_eps eps c -> pos_weights c -> (i < cdim c - 1)%nat ->
    (cdeg c <= s <= clast c)%nat -> kf (cknots c) s < kf (cknots c) (S s) ->
    exists F, deriv_chain (kf (cknots c) s) (kf (cknots c) (S s)) (nurbs c i) F /\
      forall u d, in_span (cknots c) (clast c) s u ->
        exists ds, rational_derivatives c u d = Ok ds /\ length ds = S d /\
          forall m, (m <= d)%nat -> length (nth m ds []) = (cdim c - 1)%nat /\ rc i (nth m ds []) = F m u.
  Proof.
    intros Hc He Hw Hi Hs Hne. destruct (rational_derivatives_all c s Hc He Hw Hs Hne) as (A & B).
    exists (ratd c s i). split; [now apply A|]. intros u d Hu. destruct (B u d Hu) as (ds & E & L & V).
    exists ds. split; [exact E|]. split; [exact L|]. intros m Hm. destruct (V m Hm) as (V1 & V2). auto.
  Qed.

  (** the tangent is the derivative of the evaluated point *)
  Theorem tangent_is_derivative c s i u :
    curve_ok c -> curve_eps eps c -> pos_weights c -> (i < cdim c - 1)%nat ->
    (cdeg c <= s <= clast c)%nat -> kf (cknots c) s < u < kf (cknots c) (S s) ->
    exists t, tangent_at c u = Ok t /\ derivable_pt_lim (nurbs c i) u (rc i t).
  Proof.
    intros Hc He Hw Hi Hs Hu.
    destruct (rational_derivatives_spec c s i Hc He Hw Hi Hs ltac:(lra)) as (F & HF & V).
    destruct (V u 1%nat) as (ds & E & L & Vm).
    { unfold in_span. repeat split; lra. }
    unfold tangent_at. rewrite E. cbn [bind]. rewrite (get_ok ds 1 []) by lia.
    exists (nth 1 ds []). split; [reflexivity|]. destruct (Vm 1%nat ltac:(lia)) as (_ & ->).
    apply (chain_first _ _ _ _ _ HF Hu).
  Qed.

  (** the second derivative is the derivative of the tangent *)
  Theorem second_is_derivative c s i u :
    curve_ok c -> curve_eps eps c -> pos_weights c -> (i < cdim c - 1)%nat ->
    (cdeg c <= s <= clast c)%nat -> kf (cknots c) s < u < kf (cknots c) (S s) ->
    exists G t, second_derivative_at c u = Ok t /\ derivable_pt_lim G u (rc i t) /\
      forall x, kf (cknots c) s < x < kf (cknots c) (S s) ->
        derivable_pt_lim (nurbs c i) x (G x) /\ exists v, tangent_at c x = Ok v /\ rc i v = G x.
  Proof.
    intros Hc He Hw Hi Hs Hu.
    destruct (rational_derivatives_spec c s i Hc He Hw Hi Hs ltac:(lra)) as (F & HF & V).
    destruct (V u 2%nat) as (ds & E & L & Vm).
    { unfold in_span. repeat split; lra. }
    unfold second_derivative_at. rewrite E. cbn [bind]. rewrite (get_ok ds 2 []) by lia.
    exists (F 1%nat), (nth 2 ds []). split; [reflexivity|]. destruct (Vm 2%nat ltac:(lia)) as (_ & ->).
    split; [apply HF; lra|]. intros x Hx. split; [apply (chain_first _ _ _ _ _ HF Hx)|].
    destruct (V x 1%nat) as (ds1 & E1 & L1 & V1).
    { unfold in_span. repeat split; lra. }
    unfold tangent_at. rewrite E1. cbn [bind]. rewrite (get_ok ds1 1 []) by lia.
    eexists. split; [reflexivity|]. now destruct (V1 1%nat ltac:(lia)) as (_ & ->).
  Qed.

  (** Leibniz identities between the returned lists, for every order *)
  Theorem rational_leibniz c u d ds ck i k :
    curve_ok c -> curve_eps eps c -> pos_weights c -> dom0 c <= u <= dom1 c -> (i < cdim c - 1)%nat ->
    derivatives c u d = Ok ds -> rational_derivatives c u d = Ok ck -> (k <= d)%nat ->
    rsum (S k) (fun j => INR (pascal k j) * rc (cdim c - 1) (nth j ds []) * rc i (nth (k - j) ck []))
    = rc i (nth k ds []).
  Proof.
    intros Hc He Hw Hu Hi Ed Er Hk.
    destruct (span_of eps maxv c u Hc He Hu) as (s & Hs & Hin & Es).
    destruct (derivatives_piece c u d s Hc (proj1 He) Es Hs (proj1 Hin)) as (ds' & E & L & V).
    rewrite Ed in E. injection E as <-.
    unfold rational_derivatives in Er. rewrite Ed in Er. cbn [bind] in Er.
    destruct (rational_of_spec (cdim c) ds d (fun i m => rc i (nth m ds []))) as (ck' & Ek & Lk & Vk).
    { apply Hc. } { exact L. } { intros m Hmd. now apply V. } { reflexivity. }
    rewrite Er in Ek. injection Ek as <-.
    rewrite <- (cq_leibniz (fun m _ => rc i (nth m ds [])) (fun m _ => rc (cdim c - 1) (nth m ds [])) k 0).
    - apply rsum_ext. intros j Hj. destruct (Vk (k - j)%nat ltac:(lia)) as (_ & Vv). now rewrite Vv.
    - destruct (V 0%nat ltac:(lia)) as (_ & V0). rewrite V0, dpiece_0 by (auto; lia).
      pose proof (wfun_pos eps maxv c u Hc He Hw Hu). unfold wfun in *. lra.
  Qed.
End Real.
