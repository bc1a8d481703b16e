(** * Rounding errors of knot refinement (C90) *)
From Coq Require Import Reals Lra Lia ZArith Bool List Sorted Permutation.
From Verif Require Import Base BaseFacts Scalar RSum BSplineSpec BSpline KnotModel KnotSpec KnotFacts KnotProofs
  VecFacts MiscModel CurveModel CurveKnotModel CurveSpec CurveProofs CurveGeom CurveGeom2 Boehm Refine Rounding RoundedEval.
Import ListNotations.
Open Scope R_scope.

(** ** Two runs side by side: when the first one answers, so does the second, with a related answer *)
Definition sim {A B} (P : A -> B -> Prop) (r : Res A) (r' : Res B) : Prop := forall a, r = Ok a -> exists b, r' = Ok b /\ P a b.
Lemma sim_ok {A B} (P : A -> B -> Prop) a b : P a b -> sim P (Ok a) (Ok b).
Proof. intros H a' E. injection E as <-. eauto. Qed.
Lemma sim_same {A} (r : Res A) : sim eq r r.
Proof. intros a E. eauto. Qed.
Lemma sim_bind {A B C D} (P : A -> B -> Prop) (Q : C -> D -> Prop) r r' (f : A -> Res C) (f' : B -> Res D) :
  sim P r r' -> (forall a b, r = Ok a -> P a b -> sim Q (f a) (f' b)) -> sim Q (bind r f) (bind r' f').
Proof.
  intros H K c E. apply bind_ok in E. destruct E as (a & E1 & E2). destruct (H a E1) as (b & E3 & Hp). rewrite E3. cbn [bind].
  exact (K a b E1 Hp c E2).
Qed.
Lemma sim_for {St St'} (I : nat -> St -> St' -> Prop) (f : nat -> St -> Res St) (f' : nat -> St' -> Res St') n : forall lo s s',
  I lo s s' -> (forall i a b, (lo <= i < lo + n)%nat -> I i a b -> sim (I (S i)) (f i a) (f' i b)) -> sim (I (lo + n)%nat) (for_ n lo f s) (for_ n lo f' s').
Proof.
  induction n as [|n IH]; intros lo s s' H K; cbn [for_].
  - rewrite Nat.add_0_r. now apply sim_ok.
  - apply (sim_bind (I (S lo))); [apply K; [lia|exact H]|]. intros a b _ Hab. replace (lo + S n)%nat with (S lo + n)%nat by lia.
    apply IH; [exact Hab|]. intros i a' b' Hi. apply K. lia.
Qed.
Lemma sim_for_incl {St St'} (I : nat -> St -> St' -> Prop) (f : nat -> St -> Res St) (f' : nat -> St' -> Res St') lo hi s s' : (lo <= S hi)%nat ->
  I lo s s' -> (forall i a b, (lo <= i <= hi)%nat -> I i a b -> sim (I (S i)) (f i a) (f' i b)) -> sim (I (S hi)) (for_incl lo hi f s) (for_incl lo hi f' s').
Proof.
  intros Hl H K. unfold for_incl. replace (S hi) with (lo + (S hi - lo))%nat at 1 by lia. apply sim_for; [exact H|]. intros i a b Hi. apply K. lia.
Qed.
Lemma sim_for_rev {St St'} (I : nat -> St -> St' -> Prop) (f : nat -> St -> Res St) (f' : nat -> St' -> Res St') n : forall s s',
  I n s s' -> (forall i a b, (i < n)%nat -> I (S i) a b -> sim (I i) (f i a) (f' i b)) -> sim (I 0%nat) (for_rev n 0 f s) (for_rev n 0 f' s').
Proof.
  induction n as [|n IH]; intros s s' H K; cbn [for_rev].
  - now apply sim_ok.
  - apply (sim_bind (I n)); [apply K; [lia|exact H]|]. intros a b _ Hab. apply IH; [exact Hab|]. intros i a' b' Hi. apply K. lia.
Qed.
Lemma sim_while {St St'} (I : St -> St' -> Prop) c b c' b' fuel : forall s s', I s s' -> (forall x y, I x y -> sim eq (c x) (c' y)) ->
  (forall x y, I x y -> sim I (b x) (b' y)) -> sim I (while_ fuel c b s) (while_ fuel c' b' s').
Proof.
  induction fuel as [|fuel IH]; intros s s' H Hc Hb; unfold while_ in *; cbn [loop_]; [intros a E; discriminate|].
  intros r E. apply bind_ok in E. destruct E as (t & E1 & E2).
  apply bind_ok in E1. destruct E1 as (go & Ec & E1). destruct (Hc s s' H go Ec) as (go' & Ec' & <-). rewrite Ec'. cbn [bind].
  destruct go.
  - apply bind_ok in E1. destruct E1 as (s1 & Eb & E1). injection E1 as <-. destruct (Hb s s' H s1 Eb) as (s1' & Eb' & Hs1). rewrite Eb'. cbn [bind].
    exact (IH s1 s1' Hs1 Hc Hb r E2).
  - injection E1 as <-. cbn [bind]. injection E2 as <-. eauto.
Qed.

Section Rounded.
  Variables (mu : R) (rnd : R -> R) (eps maxv : R).
  Hypothesis Hr : rounding mu rnd.
  Notation ap := (ap mu).
  Notation near := (near mu).
  Notation FL := (FlOps rnd eps maxv).
  Notation RE := (ROps eps maxv).

  (** ** One interpolation *)
  Lemma lerp_near d x y xE yE w wE M : 0 <= wE <= 1 -> ap 3 w wE -> near d x xE M -> near d y yE M ->
    near (d + 11) (rnd (rnd (x * rnd (1 - rnd (1 - w))) + rnd (y * rnd (1 - w)))) (xE * (1 - (1 - wE)) + yE * (1 - wE)) M.
  Proof.
    intros Hw Hap Hx Hy. pose proof (near_Y mu _ _ _ _ Hx) as HM.
    pose proof (gam_nonneg mu rnd Hr) as G0. pose proof (gam_mul mu rnd Hr) as GM. pose proof (gam_1 mu rnd Hr) as G1. pose proof (rd_mu _ _ Hr) as Hmu.
    pose proof (ap_near mu rnd Hr _ _ _ Hap) as (_ & Ew).
    set (t := rnd (1 - w)). set (u := rnd (1 - t)).
    assert (E1 : Rabs (t - (1 - wE)) <= gam mu 4).
    { pose proof (rd_rel _ _ Hr (1 - w)) as A. fold t in A.
      assert (B : Rabs (1 - w) <= (1 - wE) + gam mu 3 * wE).
      { replace (1 - w) with ((1 - wE) - (w - wE)) by ring. eapply Rle_trans; [apply Rabs_triang|]. rewrite Rabs_Ropp, (Rabs_right (1 - wE)) by lra. lra. }
      replace (t - (1 - wE)) with ((t - (1 - w)) - (w - wE)) by ring. eapply Rle_trans; [apply Rabs_triang|]. rewrite Rabs_Ropp.
      assert (C : mu * Rabs (1 - w) <= gam mu 1 * (1 - wE + gam mu 3 * wE)) by (apply Rmult_le_compat; [lra|apply Rabs_pos|lra|lra]).
      pose proof (GM 1%nat 3%nat) as D. change (1 + 3)%nat with 4%nat in D.
      assert (F : gam mu 3 * wE <= gam mu 3) by (rewrite <- (Rmult_1_r (gam mu 3)) at 2; apply Rmult_le_compat_l; [apply G0|lra]).
      assert (F2 : gam mu 1 * (1 - wE) <= gam mu 1) by (rewrite <- (Rmult_1_r (gam mu 1)) at 2; apply Rmult_le_compat_l; [apply G0|lra]).
      assert (F3 : gam mu 1 * (gam mu 3 * wE) <= gam mu 1 * gam mu 3) by (apply Rmult_le_compat_l; [apply G0|lra]).
      lra. }
    assert (E2 : Rabs (u - wE) <= gam mu 5).
    { pose proof (rd_rel _ _ Hr (1 - t)) as A. fold u in A.
      assert (B : Rabs (1 - t) <= wE + gam mu 4).
      { replace (1 - t) with (wE - (t - (1 - wE))) by ring. eapply Rle_trans; [apply Rabs_triang|]. rewrite Rabs_Ropp, (Rabs_right wE) by lra. lra. }
      replace (u - wE) with ((u - (1 - t)) - (t - (1 - wE))) by ring. eapply Rle_trans; [apply Rabs_triang|]. rewrite Rabs_Ropp.
      assert (C : mu * Rabs (1 - t) <= gam mu 1 * (1 + gam mu 4)) by (apply Rmult_le_compat; [lra|apply Rabs_pos|lra|lra]).
      pose proof (GM 1%nat 4%nat) as D. change (1 + 4)%nat with 5%nat in D. lra. }
    assert (E9 : gam mu 4 + gam mu 5 <= gam mu 9).
    { pose proof (GM 4%nat 5%nat) as D. change (4 + 5)%nat with 9%nat in D. assert (0 <= gam mu 4 * gam mu 5) by (apply Rmult_le_pos; apply G0). lra. }
    replace (xE * (1 - (1 - wE)) + yE * (1 - wE)) with (xE * wE + yE * (1 - wE)) by ring.
    assert (N : near (d + 9) (x * u + y * t) (xE * wE + yE * (1 - wE)) M).
    { destruct Hx as (Bx & Ex), Hy as (By & Ey). split.
      - eapply Rle_trans; [apply Rabs_triang|]. rewrite !Rabs_mult, (Rabs_right wE), (Rabs_right (1 - wE)) by lra.
        assert (Rabs xE * wE <= M * wE) by (apply Rmult_le_compat_r; lra). assert (Rabs yE * (1 - wE) <= M * (1 - wE)) by (apply Rmult_le_compat_r; lra). lra.
      - replace (x * u + y * t - (xE * wE + yE * (1 - wE))) with (((x - xE) * wE + (y - yE) * (1 - wE)) + (x * (u - wE) + y * (t - (1 - wE)))) by ring.
        eapply Rle_trans; [apply Rabs_triang|].
        assert (A : Rabs ((x - xE) * wE + (y - yE) * (1 - wE)) <= gam mu d * M).
        { eapply Rle_trans; [apply Rabs_triang|]. rewrite !Rabs_mult, (Rabs_right wE), (Rabs_right (1 - wE)) by lra.
          assert (Rabs (x - xE) * wE <= (gam mu d * M) * wE) by (apply Rmult_le_compat_r; lra).
          assert (Rabs (y - yE) * (1 - wE) <= (gam mu d * M) * (1 - wE)) by (apply Rmult_le_compat_r; lra). lra. }
        assert (X : forall z zE, Rabs zE <= M -> Rabs (z - zE) <= gam mu d * M -> Rabs z <= (1 + gam mu d) * M).
        { intros z zE H1 H2. replace z with (zE + (z - zE)) by ring. eapply Rle_trans; [apply Rabs_triang|]. lra. }
        assert (B : Rabs (x * (u - wE) + y * (t - (1 - wE))) <= (1 + gam mu d) * M * gam mu 9).
        { eapply Rle_trans; [apply Rabs_triang|]. rewrite !Rabs_mult.
          assert (P : 0 <= (1 + gam mu d) * M) by (apply Rmult_le_pos; [pose proof (G0 d); lra|exact HM]).
          assert (Rabs x * Rabs (u - wE) <= (1 + gam mu d) * M * gam mu 5) by (apply Rmult_le_compat; [apply Rabs_pos|apply Rabs_pos|apply (X x xE Bx Ex)|exact E2]).
          assert (Rabs y * Rabs (t - (1 - wE)) <= (1 + gam mu d) * M * gam mu 4) by (apply Rmult_le_compat; [apply Rabs_pos|apply Rabs_pos|apply (X y yE By Ey)|exact E1]).
          assert ((1 + gam mu d) * M * (gam mu 4 + gam mu 5) <= (1 + gam mu d) * M * gam mu 9) by (apply Rmult_le_compat_l; [exact P|exact E9]). lra. }
        pose proof (GM d 9%nat) as D. replace (gam mu (d + 9)) with ((1 + gam mu d) * (1 + gam mu 9) - 1) by lra. lra. }
    (* the products are rounded, then the sum *)
    assert (N2 : near (d + 10) (rnd (x * u) + rnd (y * t)) (xE * wE + yE * (1 - wE)) M).
    { destruct N as (Nb & Ne). split; [exact Nb|].
      destruct Hx as (Bx & Ex), Hy as (By & Ey).
      pose proof (rd_rel _ _ Hr (x * u)) as A1. pose proof (rd_rel _ _ Hr (y * t)) as A2.
      replace (rnd (x * u) + rnd (y * t) - (xE * wE + yE * (1 - wE))) with ((rnd (x * u) - x * u) + (rnd (y * t) - y * t) + (x * u + y * t - (xE * wE + yE * (1 - wE)))) by ring.
      eapply Rle_trans; [apply Rabs_triang|]. 
      assert (Q : Rabs (x * u) + Rabs (y * t) <= (1 + gam mu (d + 9)) * M).
      { rewrite !Rabs_mult.
        assert (X : forall z zE, Rabs zE <= M -> Rabs (z - zE) <= gam mu d * M -> Rabs z <= (1 + gam mu d) * M).
        { intros z zE H1 H2. replace z with (zE + (z - zE)) by ring. eapply Rle_trans; [apply Rabs_triang|]. lra. }
        assert (P : 0 <= (1 + gam mu d) * M) by (apply Rmult_le_pos; [pose proof (G0 d); lra|exact HM]).
        assert (U : Rabs u <= wE + gam mu 5). { replace u with (wE + (u - wE)) by ring. eapply Rle_trans; [apply Rabs_triang|]. rewrite (Rabs_right wE) by lra. lra. }
        assert (V : Rabs t <= (1 - wE) + gam mu 4). { replace t with ((1 - wE) + (t - (1 - wE))) by ring. eapply Rle_trans; [apply Rabs_triang|]. rewrite (Rabs_right (1 - wE)) by lra. lra. }
        assert (Rabs x * Rabs u <= (1 + gam mu d) * M * (wE + gam mu 5)) by (apply Rmult_le_compat; [apply Rabs_pos|apply Rabs_pos|apply (X x xE Bx Ex)|exact U]).
        assert (Rabs y * Rabs t <= (1 + gam mu d) * M * ((1 - wE) + gam mu 4)) by (apply Rmult_le_compat; [apply Rabs_pos|apply Rabs_pos|apply (X y yE By Ey)|exact V]).
        assert ((1 + gam mu d) * M * (gam mu 4 + gam mu 5) <= (1 + gam mu d) * M * gam mu 9) by (apply Rmult_le_compat_l; [exact P|exact E9]).
        rewrite <- (GM d 9%nat). lra. }
      assert (A : Rabs (rnd (x * u) - x * u + (rnd (y * t) - y * t)) <= gam mu 1 * ((1 + gam mu (d + 9)) * M)).
      { eapply Rle_trans; [apply Rabs_triang|]. apply Rle_trans with (mu * (Rabs (x * u) + Rabs (y * t))); [lra|].
        apply Rmult_le_compat; [lra| |exact G1|exact Q]. pose proof (Rabs_pos (x * u)). pose proof (Rabs_pos (y * t)). lra. }
      pose proof (GM (d + 9)%nat 1%nat) as D. replace (d + 9 + 1)%nat with (d + 10)%nat in D by lia.
      replace (gam mu (d + 10)) with ((1 + gam mu (d + 9)) * (1 + gam mu 1) - 1) by lra. lra. }
    replace (d + 11)%nat with (S (d + 10)) by lia. now apply (near_step mu rnd Hr).
  Qed.

  Section Loop.
    Variable c : Curve R.
    Let D := cdim c.
    Definition bound (i : nat) (M : R) : Prop := forall j, (j < length (cpts c))%nat -> Rabs (cpc c i j) <= M.
    (** the computed point and the exact one, [d] operations later *)
    Definition pnear (d : nat) (pF pE : list R) : Prop := length pF = D /\ length pE = D /\ forall i M, bound i M -> near d (rc i pF) (rc i pE) M.
    Definition lnear (d : nat -> nat) (cE cF : list (list R)) : Prop := length cF = length cE /\ forall t, (t < length cE)%nat -> pnear (d t) (nth t cF []) (nth t cE []).

    Lemma pnear_weak d d' p q : (d <= d')%nat -> pnear d p q -> pnear d' p q.
    Proof. intros H (A & B & C). split; [exact A|]. split; [exact B|]. intros i M K. apply (near_weak mu rnd Hr d d'); auto. Qed.
    Lemma pnear_self q : length q = D -> (forall i M, bound i M -> Rabs (rc i q) <= M) -> pnear 0 q q.
    Proof.
      intros H K. split; [exact H|]. split; [exact H|]. intros i M Hb. apply (near_bound mu rnd Hr) with (Rabs (rc i q)); [auto|]. apply near_exact.
    Qed.
    Lemma pnear_lerp d pF pE qF qE w wE : 0 <= wE <= 1 -> ap 3 w wE -> pnear d pF pE -> pnear d qF qE ->
      pnear (d + 11) (@vlerp R FL pF qF (rnd (1 - w))) (@vlerp R RE pE qE (1 - wE)).
    Proof.
      intros Hw Hap (A1 & A2 & A3) (B1 & B2 & B3). split; [apply vlerp_length; auto|]. split; [apply vlerp_length; auto|].
      intros i M Hb. rewrite (rc_vlerp eps maxv) by congruence.
      assert (E : rc i (@vlerp R FL pF qF (rnd (1 - w))) = rnd (rnd (rc i pF * rnd (1 - rnd (1 - w))) + rnd (rc i qF * rnd (1 - w)))).
      { unfold vlerp. rewrite (rcf_vadd mu rnd eps maxv Hr) by (unfold vscale; rewrite !map_length; congruence). now rewrite !(rcf_vscale mu rnd eps maxv Hr). }
      rewrite E. apply lerp_near; auto.
    Qed.

    Lemma lnear_upd d cE cF t pF pE e : lnear d cE cF -> pnear e pF pE -> (t < length cE)%nat -> lnear (fun x => if (x =? t)%nat then e else d x) (upd cE t pE) (upd cF t pF).
    Proof.
      intros (A & B) C Ht. split; [now rewrite !upd_length|]. intros x Hx. rewrite upd_length in Hx. destruct (Nat.eqb_spec x t) as [->|N].
      - rewrite !nth_upd_same by lia. exact C.
      - rewrite !nth_upd_other by lia. now apply B.
    Qed.
    Lemma lnear_weak d d' cE cF : (forall t, (t < length cE)%nat -> (d t <= d' t)%nat) -> lnear d cE cF -> lnear d' cE cF.
    Proof. intros H (A & B). split; [exact A|]. intros t Ht. apply (pnear_weak (d t)); auto. Qed.
    Lemma lnear_get d cE cF t : lnear d cE cF -> sim (fun pE pF => pnear (d t) pF pE) (get cE t) (get cF t).
    Proof.
      intros (A & B) p E. pose proof (get_inv _ _ _ E) as (Ht & Ep). rewrite (Ep []). exists (nth t cF []). split; [apply get_ok; lia|]. now apply B.
    Qed.
    Lemma lnear_set d cE cF t pE pF e : lnear d cE cF -> pnear e pF pE ->
      sim (fun a b => length a = length cE /\ lnear (fun x => if (x =? t)%nat then e else d x) a b) (set_ cE t pE) (set_ cF t pF).
    Proof.
      intros H K r E. apply set_inv in E. destruct E as (Ht & ->). pose proof H as (A & _). exists (upd cF t pF). split; [apply set_ok; lia|].
      split; [apply upd_length|]. now apply lnear_upd.
    Qed.

    (** the step of the inner loop: the point before the current one is replaced by an interpolation *)
    Variable p : nat.
    Variable K : list R.
    Definition far (x y : R) : Prop := y = x \/ eps / (1 - mu) <= Rabs (y - x).
    Hypothesis He : 0 < eps.

    Lemma weight_ap x kl ki : ki <= x <= kl -> kl <> ki -> 0 <= (kl - x) / (kl - ki) <= 1 /\ ap 3 (rnd (rnd (kl - x) / rnd (kl - ki))) ((kl - x) / (kl - ki)).
    Proof.
      intros H N. assert (P : 0 < kl - ki) by lra. split.
      - split; [apply Rmult_le_pos; [lra|left; now apply Rinv_0_lt_compat]|].
        apply (Rmult_le_reg_r (kl - ki)); [exact P|]. unfold Rdiv. rewrite Rmult_assoc, Rinv_l by lra. lra.
      - change 3%nat with (S (1 + 1)). apply (ap_step mu rnd Hr). apply (ap_div mu rnd Hr); [exact P|apply (ap_rnd mu rnd Hr); lra|apply (ap_rnd mu rnd Hr); lra].
    Qed.

    Lemma far_cmp x kl : x <= kl -> far x kl -> Rltb (Rabs (rnd (kl - x))) eps = Rltb (Rabs (kl - x)) eps /\ (Rltb (Rabs (kl - x)) eps = true -> kl = x).
    Proof.
      intros Hx [->|Hf].
      - rewrite Rminus_diag_eq by reflexivity. rewrite (fl_zero mu rnd Hr). auto.
      - pose proof (rd_mu _ _ Hr) as Hmu. rewrite (Rabs_right (kl - x)) in * by lra.
        pose proof (ap_rnd mu rnd Hr (kl - x) ltac:(lra)) as (_ & A & _). rewrite pow_1 in A.
        assert (B : eps <= (1 - mu) * (kl - x)).
        { apply Rle_trans with ((1 - mu) * (eps / (1 - mu))); [right; field; lra|]. apply Rmult_le_compat_l; lra. }
        assert (C : eps <= kl - x).
        { apply Rle_trans with ((1 - mu) * (kl - x)); [exact B|]. rewrite <- (Rmult_1_l (kl - x)) at 2. apply Rmult_le_compat_r; lra. }
        rewrite (Rabs_right (rnd (kl - x))) by lra.
        rewrite (proj2 (Rltb_false _ _)) by lra. rewrite (proj2 (Rltb_false (kl - x) eps)) by lra. split; [reflexivity|discriminate].
    Qed.

    Definition blend_depth (d y l t : nat) : nat := if (S t <? y + l)%nat then (d + 11)%nat else d.
    Lemma blend_sim d x kp i k l cE cF : (forall kl, get kp (k + l) = Ok kl -> x <= kl /\ far x kl) -> (forall ki, get K (i - p + l) = Ok ki -> ki <= x) ->
      (1 <= l)%nat -> (p <= i)%nat -> (p <= k)%nat ->
      lnear (blend_depth d (k - p) l) cE cF ->
      sim (lnear (blend_depth d (k - p) (S l))) (@refine_blend R RE K p x kp i k l cE) (@refine_blend R FL K p x kp i k l cF).
    Proof.
      intros Hup Hlo Hl Hi Hk HN. pose proof HN as (HL & _). unfold refine_blend. rewrite (usub_ok k p) by lia. cbn [bind]. rewrite HL.
      destruct (Nat.ltb_spec (k - p + l) (length cE)) as [C|C].
      2:{ apply sim_ok. apply (lnear_weak (blend_depth d (k - p) l)); [|exact HN]. intros t Ht. unfold blend_depth.
          destruct (Nat.ltb_spec (S t) (k - p + l)); destruct (Nat.ltb_spec (S t) (k - p + S l)); lia. }
      apply (sim_bind eq); [apply sim_same|]. intros kl kl' Ekl <-. destruct (Hup kl Ekl) as (Hx & Hf).
      rewrite (usub_ok (k - p + l) 1) by lia. cbn [bind]. cbn [sabs ssub sltb seps ROps FlOps].
      destruct (far_cmp x kl Hx Hf) as (Ecmp & Ecase). rewrite Ecmp.
      assert (Dq : blend_depth d (k - p) l (k - p + l) = d) by (unfold blend_depth; destruct (Nat.ltb_spec (S (k - p + l)) (k - p + l)); lia).
      assert (Dp : blend_depth d (k - p) l (k - p + l - 1) = d) by (unfold blend_depth; destruct (Nat.ltb_spec (S (k - p + l - 1)) (k - p + l)); lia).
      assert (Fin : forall pE pF, pnear (d + 11) pF pE ->
        sim (lnear (blend_depth d (k - p) (S l))) (set_ cE (k - p + l - 1) pE) (set_ cF (k - p + l - 1) pF)).
      { intros pE pF Hp r E. destruct (lnear_set (blend_depth d (k - p) l) cE cF (k - p + l - 1) pE pF (d + 11) HN Hp r E) as (r' & E' & Hlen & Hr'). exists r'. split; [exact E'|].
        apply (lnear_weak (fun t => if (t =? k - p + l - 1)%nat then (d + 11)%nat else blend_depth d (k - p) l t)); [|exact Hr'].
        intros t Ht. unfold blend_depth. destruct (Nat.eqb_spec t (k - p + l - 1)); destruct (Nat.ltb_spec (S t) (k - p + l)); destruct (Nat.ltb_spec (S t) (k - p + S l)); lia. }
      destruct (Rltb (Rabs (kl - x)) eps) eqn:B.
      - apply (sim_bind (fun pE pF => pnear d pF pE)); [rewrite <- Dq; apply lnear_get; exact HN|]. intros q qF _ Hq. apply Fin. apply (pnear_weak d); [lia|exact Hq].
      - rewrite (usub_ok i p) by lia. cbn [bind]. apply (sim_bind eq); [apply sim_same|]. intros ki ki' Eki <-. specialize (Hlo ki Eki).
        cbn [seqb szero sone sdiv ROps FlOps].
        assert (W : exists w wE, 0 <= wE <= 1 /\ ap 3 w wE /\ (if Reqb (rnd (kl - ki)) 0 then 0 else rnd (rnd (kl - x) / rnd (kl - ki))) = w /\ (if Reqb (kl - ki) 0 then 0 else (kl - x) / (kl - ki)) = wE).
        { destruct (Reqb_spec (kl - ki) 0) as [Z|Z].
          - rewrite Z, (fl_zero mu rnd Hr). destruct (Reqb_spec 0 0) as [_|N]; [|congruence]. exists 0, 0. split; [lra|]. split; [|auto]. apply (ap_weak mu rnd Hr 0); [lia|]. apply ap_exact. lra.
          - destruct (Reqb_spec (rnd (kl - ki)) 0) as [Y|Y].
            + pose proof (ap_pos mu rnd Hr _ _ _ (ap_rnd mu rnd Hr (kl - ki) ltac:(lra)) ltac:(lra)). lra.
            + destruct (weight_ap x kl ki ltac:(lra) ltac:(lra)) as (W1 & W2). eauto 10. }
        destruct W as (w & wE & Hw & Hap & -> & ->).
        apply (sim_bind (fun pE pF => pnear d pF pE)); [rewrite <- Dp; apply lnear_get; exact HN|]. intros q qF _ Hq.
        apply (sim_bind (fun pE pF => pnear d pF pE)); [rewrite <- Dq; apply lnear_get; exact HN|]. intros q2 qF2 _ Hq2.
        apply Fin. now apply pnear_lerp.
    Qed.
  End Loop.

  Definition st_rel (c : Curve R) (d : nat) (sE sF : list (list R) * list R * nat * nat) : Prop :=
    lnear c (fun _ => d) (fst (fst (fst sE))) (fst (fst (fst sF))) /\ snd (fst (fst sF)) = snd (fst (fst sE)) /\ snd (fst sF) = snd (fst sE) /\ snd sF = snd sE.

  Lemma refine_ok_weak c xs : 0 < eps -> refine_ok (eps / (1 - mu)) c xs -> refine_ok eps c xs.
  Proof.
    intros He [A B C]. constructor; auto. intros x y Hx Hy. destruct (C x y Hx Hy) as [|G]; [auto|right].
    apply Rle_trans with (eps / (1 - mu)); [|exact G]. pose proof (rd_mu _ _ Hr). apply (Rmult_le_reg_r (1 - mu)); [lra|].
    replace (eps / (1 - mu) * (1 - mu)) with eps by (field; lra). rewrite <- (Rmult_1_r eps) at 2. apply Rmult_le_compat_l; lra.
  Qed.

  Lemma pt_self c t : curve_ok c -> (t < length (cpts c))%nat -> pnear c 0 (nth t (cpts c) []) (nth t (cpts c) []).
  Proof.
    intros Hc Ht. pose proof (co_len c Hc). apply pnear_self.
    - apply nth_len; [apply Hc|exact Ht].
    - intros i M Hb. exact (Hb t Ht).
  Qed.

  Lemma shift_sim c a x d sE sF : curve_ok c -> st_rel c d sE sF ->
    sim (st_rel c d) (@refine_shift R RE (cknots c) (cpts c) (cdeg c) a x sE) (@refine_shift R FL (cknots c) (cpts c) (cdeg c) a x sF).
  Proof.
    intros Hc HR. unfold refine_shift. apply sim_while; [exact HR| |]; clear sE sF HR; intros [[[cE kE] iE] qE] [[[cF kF] iF] qF] (A & B & C & D0); cbn [fst snd] in *; subst kF iF qF.
    - apply (sim_same _).
    - apply (sim_bind eq); [apply sim_same|]. intros y y' _ <-. apply (sim_bind eq); [apply sim_same|]. intros y1 y1' _ <-.
      apply (sim_bind eq); [apply sim_same|]. intros z z' _ <-. apply (sim_bind eq); [apply sim_same|]. intros z1 z1' _ <-.
      apply (sim_bind eq); [apply sim_same|]. intros p p' Ep <-. destruct (get_inv _ _ _ Ep) as (Hz & Epz). specialize (Epz []). subst p.
      eapply sim_bind; [apply (lnear_set c (fun _ => d) cE cF y1 (nth z1 (cpts c) []) (nth z1 (cpts c) []) d A); apply (pnear_weak c 0); [lia|now apply pt_self]|].
      intros rE rF _ (_ & Hn).
      apply (sim_bind eq); [apply sim_same|]. intros k0 k0' _ <-. apply (sim_bind eq); [apply sim_same|]. intros k1 k1' _ <-.
      apply (sim_bind eq); [apply sim_same|]. intros k2 k2' _ <-. apply (sim_bind eq); [apply sim_same|]. intros k3 k3' _ <-.
      apply sim_ok. split; [|auto]. cbn [fst snd]. apply (lnear_weak c (fun t => if (t =? y1)%nat then d else d)); [|exact Hn].
      intros t _. destruct (t =? y1)%nat; lia.
  Qed.

  Lemma step_sim c xs a jj d sE sF : curve_ok c -> 0 < eps -> refine_ok (eps / (1 - mu)) c xs -> (cdeg c <= a <= clast c)%nat ->
    (forall t, (t < length xs)%nat -> kf (cknots c) a <= nth t xs 0) -> nth 0 xs 0 <= kf (cknots c) (S a) ->
    (S jj <= length xs)%nat -> RI eps maxv c xs a (S jj) sE -> st_rel c d sE sF ->
    sim (st_rel c (d + 11)) (@refine_step R RE (cknots c) (cpts c) (cdeg c) a xs jj sE) (@refine_step R FL (cknots c) (cpts c) (cdeg c) a xs jj sF).
  Proof.
    intros Hc He Hxs Ha Hx0 Hx1 Hjj HI HR. pose proof (refine_ok_weak c xs He Hxs) as Hxs'.
    pose proof (clast_S c Hc) as LP. pose proof (curve_len c Hc) as LK. pose proof (curve_mono c Hc) as Hm.
    unfold refine_step. rewrite (get_ok xs jj 0) by lia. cbn [bind]. set (x := nth jj xs 0).
    eapply sim_bind; [apply (shift_sim c a x d sE sF Hc HR)|].
    destruct sE as [[[c0 k0] i0] q0].
    destruct (refine_shift_spec eps maxv c xs a Hc Hxs' Ha Hx0 Hx1 jj c0 k0 i0 q0 Hjj HI) as (cE & kp & i & k & E & HI' & Kx & Hin & _). fold x in E, Kx.
    intros sE' [[[cF kF] iF] qF] E2. rewrite E in E2. injection E2 as <-. intros (A & B & C & D0). cbn [fst snd] in *. subst kF iF qF. clear E HI HR c0 k0 i0 q0 sF.
    destruct HI' as [H1 H2 H3 H4 H5 H6 Hok H7 H8 H9 H10 HQ]. cbn [fst snd] in *.
    assert (Hk : (cdeg c <= k)%nat) by lia. assert (Hi : (cdeg c <= i)%nat) by lia.
    rewrite (usub_ok k (cdeg c)) by lia. cbn [bind]. rewrite (usub_ok (k - cdeg c) 1) by lia. cbn [bind].
    eapply sim_bind; [apply (lnear_get c (fun _ => d) cE cF (k - cdeg c) A)|]. intros qE qF _ Hq. cbn beta in Hq.
    eapply sim_bind; [apply (lnear_set c (fun _ => d) cE cF (k - cdeg c - 1) qE qF d A Hq)|]. intros rE rF _ (HrL & Hrn).
    set (V := VC c i k cE kp) in *.
    assert (LV : length (cknots V) = (S i + (clast c + cdeg c + 2 + length xs - S k))%nat).
    { unfold V. cbn [cknots VC]. rewrite splice_length by lia. now rewrite H2. }
    assert (KV : forall t, (t < length (cknots V))%nat -> kf (cknots V) t = if (t <? S i)%nat then nth t (cknots c) 0 else nth (S k + (t - S i)) kp 0).
    { intros t Ht. rewrite (kf_nth _ _ 0) by auto. unfold V. cbn [cknots VC]. apply splice_nth. lia. }
    assert (Vm : mono (kf (cknots V))) by (apply wf_mono, H6).
    assert (Hxin : In x xs) by (apply nth_In; lia).
    eapply (sim_bind (lnear c (blend_depth d (k - cdeg c) (S (cdeg c))))).
    - apply (sim_for_incl (fun l => lnear c (blend_depth d (k - cdeg c) l))); [lia| |].
      + apply (lnear_weak c (fun t => if (t =? k - cdeg c - 1)%nat then d else d)); [|exact Hrn].
        intros t _. unfold blend_depth. destruct (t =? _)%nat; destruct (_ <? _)%nat; lia.
      + intros l bE bF Hl Hb. apply blend_sim; auto; try lia.
        * intros kl Ekl. destruct (get_inv _ _ _ Ekl) as (G1 & G2). specialize (G2 0). subst kl.
          assert (EK : nth (k + l) kp 0 = kf (cknots V) (i + l)).
          { rewrite KV by lia. destruct (Nat.ltb_spec (i + l) (S i)); [lia|]. f_equal. lia. }
          rewrite EK. split.
          -- apply Rle_trans with (kf (cknots V) (S i)); [apply (H8 jj); lia|]. apply mono_le; [exact Vm|lia].
          -- destruct (ro_sep _ _ _ Hxs x (kf (cknots V) (i + l)) Hxin) as [G|G]; [|left; exact G|right; exact G].
             assert (Hy : In (kf (cknots V) (i + l)) (cknots c ++ skipn (S jj) xs)).
             { eapply Permutation_in; [exact H7|]. change (In (kf (cknots V) (i + l)) (cknots V)). rewrite (kf_nth _ _ 0) by lia. apply nth_In. lia. }
             apply in_app_or in Hy. apply in_or_app. destruct Hy as [Hy|Hy]; [auto|right]. rewrite <- (firstn_skipn (S jj) xs). apply in_or_app. auto.
        * intros ki Eki. destruct (get_inv _ _ _ Eki) as (G1 & G2). rewrite (G2 0), <- (kf_nth _ _ 0) by exact G1.
          apply Rle_trans with (kf (cknots c) i); [apply mono_le; [exact Hm|lia]|exact Kx].
    - intros bE bF _ Hb. apply (sim_bind eq); [apply sim_same|]. intros k1 k1' _ <-. apply (sim_bind eq); [apply sim_same|]. intros k2 k2' _ <-.
      apply sim_ok. split; [|auto]. cbn [fst snd]. apply (lnear_weak c (blend_depth d (k - cdeg c) (S (cdeg c)))); [|exact Hb].
      intros t _. unfold blend_depth. destruct (_ <? _)%nat; lia.
  Qed.

  Lemma find_span_same c u : curve_ok c -> curve_eps eps c -> machine rnd (cknots c) -> dom0 c <= u <= dom1 c ->
    @find_span R FL (cknots c) (clast c) (cdeg c) u = @find_span R RE (cknots c) (clast c) (cdeg c) u.
  Proof.
    intros Hc He Hk Hu. pose proof (clast_S c Hc) as Hn. destruct (span_of eps maxv c u Hc He Hu) as (s & Hs & Hi & E).
    destruct (find_span_rounded mu rnd eps maxv Hr (cknots c) (cdeg c) (clast c) u (co_knots c Hc) He Hk) as (s' & E' & Hs' & Hi').
    { unfold dom0, dom1 in Hu. rewrite Nat.add_1_r, Hn. exact Hu. }
    rewrite E, E'. f_equal. apply (in_span_unique (cknots c) (clast c) s' s u); auto; try lia; [now apply curve_mono|].
    pose proof (co_knots c Hc) as [_ _ _ _ Kl]. rewrite Nat.add_1_r in Kl. exact Kl.
  Qed.

  Lemma zero_self c : curve_ok c -> pnear c 0 (repeat 0 (cdim c)) (repeat 0 (cdim c)).
  Proof.
    intros Hc. apply pnear_self; [apply repeat_length|]. intros i M Hb. pose proof (co_len c Hc). specialize (Hb 0%nat ltac:(lia)).
    replace (rc i (repeat 0 (cdim c))) with 0.
    - rewrite Rabs_R0. pose proof (Rabs_pos (cpc c i 0)). lra.
    - unfold rc. destruct (Nat.lt_ge_cases i (cdim c)); [now rewrite nth_repeat_lt|]. rewrite nth_overflow; [reflexivity|]. now rewrite repeat_length.
  Qed.

  (** ** Refinement: same knots, and an error of 11 operations for each inserted knot *)
  Theorem refine_rounded c xs : curve_ok c -> curve_eps eps c -> machine rnd (cknots c) -> refine_ok (eps / (1 - mu)) c xs ->
    exists cE cF, @try_refine_knot R RE c xs = Ok cE /\ @try_refine_knot R FL c xs = Ok cF /\
      cdim cF = cdim cE /\ cdeg cF = cdeg cE /\ cknots cF = cknots cE /\ length (cpts cF) = length (cpts cE) /\
      Forall (fun q => length q = cdim c) (cpts cF) /\
      forall i j M, (forall t, (t < length (cpts c))%nat -> Rabs (cpc c i t) <= M) -> (j < length (cpts cE))%nat ->
        Rabs (cpc cF i j - cpc cE i j) <= gam mu (11 * length xs) * M.
  Proof.
    intros Hc He Hk Hxs. pose proof He as (He0 & _). pose proof (refine_ok_weak c xs He0 Hxs) as Hxs'.
    destruct (refine_spec eps maxv c xs Hc He Hxs') as (cE & E & _ & _ & _ & _).
    assert (S : sim (fun a b => cdim b = cdim a /\ cdeg b = cdeg a /\ cknots b = cknots a /\ lnear c (fun _ => (11 * length xs)%nat) (cpts a) (cpts b))
      (@try_refine_knot R RE c xs) (@try_refine_knot R FL c xs)).
    { destruct xs as [|x0 xt].
      - cbn [try_refine_knot]. apply sim_ok. do 3 (split; [reflexivity|]). split; [reflexivity|]. intros t Ht. now apply pt_self.
      - destruct (refine_start eps maxv c x0 xt Hc He Hxs') as (a & b & cp & kp0 & kp & Ea & Eb & Ha & Hab & Ecp & Ek0 & Ekp & Hx0 & Hx1 & HI0).
        pose proof (clast_S c Hc) as Hn.
        assert (LX : length (x0 :: xt) = Datatypes.S (length xt)) by reflexivity.
        pose proof (ro_dom _ _ _ Hxs) as HD. rewrite Forall_forall in HD.
        assert (Ea' := Ea). assert (Eb' := Eb).
        rewrite <- find_span_same in Ea', Eb' by (auto; apply HD, nth_In; lia).
        set (xs := x0 :: xt) in *. unfold try_refine_knot. unfold xs at 2 7.
        rewrite usub_ok by lia. cbn [bind]. replace (length (cpts c) - 1)%nat with (clast c) by lia.
        rewrite usub_ok by lia. cbn [bind]. replace (length xs - 1)%nat with (length xt) by lia.
        set (r := length xt) in *.
        rewrite (get_ok xs 0 0) by lia. cbn [bind]. rewrite Ea, Ea'. cbn [bind].
        rewrite (get_ok xs r 0) by lia. cbn [bind]. rewrite Eb, Eb'. cbn [bind].
        apply (sim_bind eq); [apply sim_same|]. intros ad ad' Ead <-. rewrite usub_ok in Ead by lia. injection Ead as <-.
        apply (sim_bind eq); [apply sim_same|]. intros hd hd' Ehd <-.
        apply (sim_bind eq); [apply sim_same|]. intros wn wn' _ <-.
        assert (Hhd : hd = firstn (a - cdeg c + 1) (cpts c)).
        { unfold slice in Ehd. destruct (_ && _); [|discriminate]. injection Ehd as <-. cbn [skipn]. f_equal. lia. }
        subst hd. replace (b + 1 - 1)%nat with b by lia.
        set (cp0 := firstn (a - cdeg c + 1) (cpts c) ++ skipn (a - cdeg c + 1) (repeat (@vzero R RE (cdim c)) (clast c + r + 2))) in *.
        apply (sim_bind (fun u v => u = v /\ lnear c (fun _ => 0%nat) u v)).
        { apply (sim_for_incl (fun _ u v => u = v /\ lnear c (fun _ => 0%nat) u v)); [lia| |].
          - split; [reflexivity|]. split; [reflexivity|]. intros t Ht. assert (Hin : In (nth t cp0 []) cp0) by (apply nth_In; exact Ht).
            change (pnear c 0 (nth t cp0 []) (nth t cp0 [])).
            unfold cp0 in Hin at 2. apply in_app_or in Hin. destruct Hin as [Hin|Hin].
            + assert (Hin2 : In (nth t cp0 []) (cpts c)) by (rewrite <- (firstn_skipn (a - cdeg c + 1) (cpts c)); apply in_or_app; auto).
              destruct (In_nth _ _ [] Hin2) as (q & Hq & Eq). rewrite <- Eq. now apply pt_self.
            + assert (Hin2 : In (nth t cp0 []) (repeat (@vzero R RE (cdim c)) (clast c + r + 2))) by (rewrite <- (firstn_skipn (a - cdeg c + 1) (repeat _ _)); apply in_or_app; auto).
              apply repeat_spec in Hin2. rewrite Hin2. exact (zero_self c Hc).
          - intros i u v Hi (<- & Hl). apply (sim_bind eq); [apply sim_same|]. intros q q' Eq <-. destruct (get_inv _ _ _ Eq) as (Gq & Eqq). specialize (Eqq []). subst q.
            intros w Ew. destruct (lnear_set c (fun _ => 0%nat) u u (i + r + 1) _ _ 0 Hl (pt_self c i Hc Gq) w Ew) as (w' & Ew' & _ & Hw).
            exists w'. rewrite Ew in Ew'. injection Ew' as <-. split; [exact Ew|]. split; [reflexivity|]. apply (lnear_weak c (fun t => if (t =? i + r + 1)%nat then 0%nat else 0%nat)); [|exact Hw].
            intros t _. destruct (_ =? _)%nat; lia. }
        intros cp1 cp1' Ecp1 (<- & Hl0). rewrite Ecp in Ecp1. injection Ecp1 as <-.
        apply (sim_bind eq); [apply sim_same|]. intros k1 k1' Ek1 <-. rewrite Ek0 in Ek1. injection Ek1 as <-.
        apply (sim_bind eq); [apply sim_same|]. intros k2 k2' Ek2 <-.
        assert (k2 = kp) as -> by congruence. clear Ek2.
        replace (b + 1 + cdeg c - 1)%nat with (b + cdeg c)%nat by lia.
        apply (sim_bind (fun u v => RI eps maxv c xs a 0 u /\ st_rel c (11 * length xs) u v)).
        + eapply (sim_for_rev (fun jj u v => RI eps maxv c xs a jj u /\ st_rel c (11 * (length xs - jj)) u v)).
          * split; [exact HI0|]. split; [|cbn [fst snd]; auto]. cbn [fst snd]. apply (lnear_weak c (fun _ => 0%nat)); [intros; lia|exact Hl0].
          * intros jj u v Hjj (HI & HS) u' Eu.
            destruct (step_sim c xs a jj (11 * (length xs - S jj)) u v Hc He0 Hxs ltac:(lia) Hx0 Hx1 ltac:(lia) HI HS u' Eu) as (v' & Ev & HS').
            destruct (refine_step_spec eps maxv c xs a Hc Hxs' ltac:(lia) Hx0 Hx1 jj u He0 ltac:(lia) HI) as (u2 & Eu2 & HI2 & _). rewrite Eu in Eu2. injection Eu2 as <-.
            exists v'. split; [exact Ev|]. split; [exact HI2|]. replace (11 * (length xs - jj))%nat with (11 * (length xs - S jj) + 11)%nat by lia. exact HS'.
        + intros [[[cu ku] iu] qu] [[[cv kv] iv] qv] _ (_ & (A & B & _ & _)). cbn [fst snd] in A, B. subst kv. apply sim_ok. cbn [cdim cdeg cknots cpts]. auto. }
    destruct (S cE E) as (cF & EF & A & B & C & (D1 & D2)). exists cE, cF. split; [exact E|]. split; [exact EF|]. do 4 (split; [assumption|]). split.
    - apply Forall_forall. intros q Hq. destruct (In_nth _ _ [] Hq) as (t & Ht & <-). apply (D2 t). lia.
    - intros i j M HM Hj. destruct (D2 j Hj) as (_ & _ & N). apply (N i M HM).
  Qed.
End Rounded.
