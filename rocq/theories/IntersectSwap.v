(** * Intersecting in the other order: the same crossings up to the merging tolerance *)
From Coq Require Import Reals Lra Lia ZArith List Permutation Sorted Bool.
From Verif Require Import Base BaseFacts Scalar KnotModel KnotFacts VecFacts CurveModel SurfaceModel CompoundModel BBoxModel TraversalModel ClosestModel BfgsModel IntersectModel IntersectProofs BooleanModel KnotMisc BfgsSwap.
Import ListNotations.
Local Open Scope R_scope.

(** pigeon hole: different elements have different partners *)
Lemma partners_length {A B} (Q : A -> B -> Prop) (l : list A) : forall l' : list B, NoDup l -> (forall x, In x l -> exists y, In y l' /\ Q x y) ->
  (forall x1 x2 y, In x1 l -> In x2 l -> Q x1 y -> Q x2 y -> x1 = x2) -> (length l <= length l')%nat.
Proof.
  induction l as [|x l IH]; intros l' N P I; cbn [length]; [lia|]. inversion N as [|? ? Nx N']; subst.
  destruct (P x (or_introl eq_refl)) as (y & Hy & Qy). apply in_split in Hy as (l1 & l2 & ->).
  rewrite app_length. cbn [length]. enough (length l <= length (l1 ++ l2))%nat by (rewrite app_length in *; lia).
  apply IH; [exact N'| |intros; eapply I; eauto using in_cons].
  intros z Hz. destruct (P z (or_intror Hz)) as (w & Hw & Qw). exists w. split; [|exact Qw].
  apply in_app_or in Hw as [Hw|[<-|Hw]]; apply in_or_app; auto.
  exfalso. apply Nx. rewrite (I x z y); auto; [now left|now right].
Qed.

Section Real.
  Variables eps maxv : R.
  Local Hint Extern 0 (Scalar R) => exact (ROps eps maxv) : typeclass_instances.
  Local Notation Hit := (@Hit R).
  Definition tol : R := 1 / 1000.

  (** close on both curves *)
  Definition same (x y : Hit) : Prop := Rabs (ha_t x - ha_t y) < tol /\ Rabs (hb_t x - hb_t y) < tol.
  (** hits close on one curve are close on the other one, and being close is transitive: the hits of each crossing form a cluster *)
  Definition clustered (P : Hit -> Prop) : Prop :=
    (forall x y, P x -> P y -> Rabs (ha_t x - ha_t y) < tol -> Rabs (hb_t x - hb_t y) < tol) /\
    (forall x y, P x -> P y -> Rabs (hb_t x - hb_t y) < tol -> Rabs (ha_t x - ha_t y) < tol) /\
    (forall x y z, P x -> P y -> P z -> same x y -> same y z -> same x z).

  Lemma same_refl x : same x x.
  Proof. unfold same, tol. rewrite !Rminus_diag_eq, Rabs_R0 by reflexivity. lra. Qed.
  Lemma same_sym x y : same x y -> same y x.
  Proof. intros [A B]. split; rewrite Rabs_minus_sym; assumption. Qed.
  Lemma near_spec x y : cc_near x y = true <-> Rabs (ha_t x - ha_t y) < tol \/ Rabs (hb_t x - hb_t y) < tol.
  Proof.
    unfold cc_near, merge_tol. rs. fold tol. rewrite orb_true_iff.
    destruct (Rltb_spec (Rabs (ha_t x - ha_t y)) tol), (Rltb_spec (Rabs (hb_t x - hb_t y)) tol); split; auto; intros [Q|Q]; auto; try discriminate; exfalso; lra.
  Qed.

  (** what the selection leaves of clustered hits: one of each cluster *)
  Lemma finish_clusters l : clustered (fun x => In x l) -> let r := finish ha_t cc_near cc_gap l in
    NoDup r /\ (forall x, In x r -> In x l) /\ (forall x y, In x r -> In y r -> same x y -> x = y) /\ forall x, In x l -> exists y, In y r /\ same x y.
  Proof.
    intros (C1 & C2 & C3) r.
    assert (S : StronglySorted (fun x y : Hit => ha_t x + tol <= ha_t y) r).
    { apply (finish_apart eps maxv); [|unfold tol; lra]. intros x y N. destruct (Rlt_le_dec (Rabs (ha_t x - ha_t y)) tol) as [L|L]; [|exact L].
      exfalso. assert (cc_near x y = true) by (apply near_spec; now left). congruence. }
    assert (Tp : 0 < tol) by (unfold tol; lra).
    split; [|split; [|split]].
    - clear - S Tp. induction S as [|x t S IH F]; constructor; [|exact IH]. intros H. rewrite Forall_forall in F. specialize (F x H). lra.
    - intros x. apply finish_subset.
    - intros x y Hx Hy (A & _). revert x y Hx Hy A. clear - S Tp. induction S as [|z t S IH F]; [easy|]. rewrite Forall_forall in F. intros x y [<-|Hx] [<-|Hy] A; [reflexivity| | |apply IH; auto].
      + specialize (F y Hy). apply Rabs_def2 in A. lra.
      + specialize (F x Hx). apply Rabs_def2 in A. lra.
    - intros x Hx. destruct (finish_covers eps maxv ha_t cc_near cc_gap l x Hx) as (y & Hy & Ch & _). exists y. split; [exact Hy|].
      assert (forall u v, chain cc_near l u v -> In u l -> In v l /\ same u v) as Q; [|apply (Q x y Ch Hx)].
      clear - C1 C2 C3. induction 1 as [u Hu|u v w Huv IH Hw Hn]; intros Hu'; [split; [exact Hu|apply same_refl]|].
      destruct (IH Hu') as (Hv & Suv). split; [exact Hw|]. apply (C3 u v w); auto.
      assert (G : forall a b, In a l -> In b l -> cc_near a b = true -> same a b).
      { intros a b Ha Hb N. apply near_spec in N as [N|N]; split; auto. }
      destruct Hn as [Hn|Hn]; [now apply G|apply same_sym; now apply G].
  Qed.

  Lemma same_swap x y : same (hit_swap x) (hit_swap y) <-> same x y.
  Proof. unfold same. cbn [hit_swap ha_t hb_t]. tauto. Qed.
  Lemma swap_swap (x : Hit) : hit_swap (hit_swap x) = x. Proof. now destruct x. Qed.

  Definition matched (r r' : list Hit) : Prop :=
    length r = length r' /\ (forall x, In x r -> exists y, In y r' /\ same x (hit_swap y)) /\ forall y, In y r' -> exists x, In x r /\ same x (hit_swap y).

  Lemma finish_swap l l' : clustered (fun x => In x l) -> Permutation l' (map hit_swap l) ->
    matched (finish ha_t cc_near cc_gap l) (finish ha_t cc_near cc_gap l').
  Proof.
    intros C P.
    assert (M : forall x, In x l' <-> In (hit_swap x) l).
    { intros x. split; intros H.
      - apply (Permutation_in _ P) in H. apply in_map_iff in H as (y & <- & Hy). now rewrite swap_swap.
      - apply (Permutation_in _ (Permutation_sym P)). apply in_map_iff. exists (hit_swap x). split; [apply swap_swap|exact H]. }
    assert (C' : clustered (fun x => In x l')).
    { destruct C as (C1 & C2 & C3). split; [|split].
      - intros x y Hx Hy. apply M in Hx, Hy. exact (C2 _ _ Hx Hy).
      - intros x y Hx Hy. apply M in Hx, Hy. exact (C1 _ _ Hx Hy).
      - intros x y z Hx Hy Hz. apply M in Hx, Hy, Hz. rewrite <- (same_swap x y), <- (same_swap y z), <- (same_swap x z). now apply C3. }
    destruct (finish_clusters l C) as (N & I & U & K). destruct (finish_clusters l' C') as (N' & I' & U' & K').
    set (r := finish ha_t cc_near cc_gap l) in *. set (r' := finish ha_t cc_near cc_gap l') in *. clearbody r r'.
    assert (A1 : forall x, In x r -> exists y, In y r' /\ same x (hit_swap y)).
    { intros x Hx. destruct (K' (hit_swap x)) as (y & Hy & S); [apply M; rewrite swap_swap; auto|]. exists y. split; [exact Hy|]. rewrite <- same_swap, swap_swap. exact S. }
    assert (A2 : forall y, In y r' -> exists x, In x r /\ same x (hit_swap y)).
    { intros y Hy. destruct (K (hit_swap y)) as (x & Hx & S); [apply M; auto|]. exists x. split; [exact Hx|]. now apply same_sym. }
    destruct C as (_ & _ & C3).
    assert (J : forall y, In y r' -> In (hit_swap y) l) by (intros y Hy; apply M; auto).
    split; [|split; [exact A1|exact A2]]. apply Nat.le_antisymm.
    - apply (partners_length (fun x y => In y r' /\ same x (hit_swap y))); [exact N|intros x Hx; destruct (A1 x Hx) as (y & Hy & S); eauto|].
      intros x1 x2 y H1 H2 (Hy & S1) (_ & S2). apply U; auto. apply (C3 x1 (hit_swap y) x2); auto. now apply same_sym.
    - apply (partners_length (fun y x => In x r /\ same x (hit_swap y))); [exact N'|intros y Hy; destruct (A2 y Hy) as (x & Hx & S); eauto|].
      intros y1 y2 x H1 H2 (Hx & S1) (_ & S2). apply U'; auto. rewrite <- same_swap. apply (C3 _ x _); auto. now apply same_sym.
  Qed.

  (** ** Refining candidate pairs *)
  Definition swap_pair {A} (p : A * A) : A * A := (snd p, fst p).
  Definition swap_answer (r : option (R * R)) : option (R * R) := match r with Some p => Some (swap_pair p) | None => None end.

  Lemma vnorm_vsub_sym (x y : list R) : vnorm (vsub x y) = vnorm (vsub y x).
  Proof.
    unfold vnorm. f_equal. unfold vnorm2, vdot. f_equal. unfold vsub. revert y. induction x as [|a x IH]; intros [|b y]; cbn [map2]; auto. f_equal; [rs; ring|apply IH].
  Qed.

  Variables (a b : Curve R) (da db : R * R) (min : R).
  Lemma candidate_swap solve solve' ca cb r h : solve ca cb = Ok r -> solve' cb ca = Ok (swap_answer r) ->
    cc_candidate solve a b da db min ca cb = Ok h -> cc_candidate solve' b a db da min cb ca = Ok (option_map hit_swap h).
  Proof.
    intros E E' H. unfold cc_candidate in *. rewrite E in H. rewrite E'. cbn [bind] in *.
    destruct r as [[ta tb]|]; cbn [swap_answer swap_pair fst snd] in *; [|now inversion H]. rewrite andb_comm.
    destruct (in_range da ta && in_range db tb); [|now inversion H].
    apply bind_ok in H as (p0 & E0 & H). apply bind_ok in H as (p1 & E1 & H). rewrite E0, E1. cbn [bind]. rewrite vnorm_vsub_sym.
    revert H. destruct (vnorm (vsub p0 p1) <? min)%S; intros H; injection H as <-; reflexivity.
  Qed.

  Lemma keep_map {A B} (f : A -> B) l : keep_some (map (option_map f) l) = map f (keep_some l).
  Proof. induction l as [|[x|] l IH]; cbn [map keep_some option_map]; congruence. Qed.
  Lemma keep_perm {A} (l l' : list (option A)) : Permutation l l' -> Permutation (keep_some l) (keep_some l').
  Proof. induction 1 as [|[x|] l l' P IH|[x|] [y|] l|l l' l'' P1 IH1 P2 IH2]; cbn [keep_some]; auto; [apply perm_swap|etransitivity; eauto]. Qed.
  Lemma mapM_perm {A B} (f : A -> Res B) l l' r : Permutation l l' -> mapM f l = Ok r -> exists r', mapM f l' = Ok r' /\ Permutation r r'.
  Proof.
    intros P. revert r. induction P as [|x l l' P IH|x y l|l l' l'' P1 IH1 P2 IH2]; intros r H.
    - exists r. auto.
    - cbn [mapM] in *. apply bind_ok in H as (v & E & H). apply bind_ok in H as (vs & Es & H). inversion H; subst. destruct (IH _ Es) as (r' & E' & P'). rewrite E. cbn [bind]. rewrite E'. cbn [bind]. eexists. split; [reflexivity|]. now constructor.
    - cbn [mapM] in *. apply bind_ok in H as (v & E & H). apply bind_ok in H as (vs & Es & H). apply bind_ok in Es as (w & Ew & Es). apply bind_ok in Es as (ws & Ews & Es). inversion Es; subst. inversion H; subst.
      rewrite Ew. cbn [bind]. rewrite E. cbn [bind]. rewrite Ews. cbn [bind]. eexists. split; [reflexivity|]. apply perm_swap.
    - destruct (IH1 _ H) as (r1 & E1 & Q1). destruct (IH2 _ E1) as (r2 & E2 & Q2). exists r2. split; [exact E2|]. etransitivity; eauto.
  Qed.
End Real.

Section Real2.
  Variables eps maxv : R.
  Local Hint Extern 0 (Scalar R) => exact (ROps eps maxv) : typeclass_instances.
  Local Notation clustered := (clustered).
  Variables (a b : Curve R) (min : R).

  (** the hits that the candidate pairs lead to *)
  Definition reached (solve : Curve R -> Curve R -> Res (option (R * R))) (pairs : list (Curve R * Curve R)) (h : @Hit R) : Prop :=
    exists da db ca cb, knots_domain a = Ok da /\ knots_domain b = Ok db /\ In (ca, cb) pairs /\ cc_candidate solve a b da db min ca cb = Ok (Some h).

  Theorem refine_swap solve solve' pairs pairs' r :
    (forall ca cb, In (ca, cb) pairs -> exists x, solve ca cb = Ok x /\ solve' cb ca = Ok (swap_answer x)) ->
    Permutation pairs' (map swap_pair pairs) -> clustered (reached solve pairs) ->
    cc_refine solve a b min pairs = Ok r -> exists r', cc_refine solve' b a min pairs' = Ok r' /\ matched r r'.
  Proof.
    intros Sv P C H. unfold cc_refine in *. apply bind_ok in H as (da & Ea & H). apply bind_ok in H as (db & Eb & H). apply bind_ok in H as (hs & Eh & H). inversion H; subst r.
    rewrite Ea, Eb. cbn [bind].
    assert (E' : mapM (fun '(ca, cb) => cc_candidate solve' b a db da min ca cb) (map swap_pair pairs) = Ok (map (option_map hit_swap) hs)).
    { clear P C H. revert hs Eh. induction pairs as [|[ca cb] ps IH]; intros hs Eh; cbn [mapM map] in *; [now inversion Eh|].
      apply bind_ok in Eh as (h & E1 & Eh). apply bind_ok in Eh as (ht & E2 & Eh). inversion Eh; subst. cbn [swap_pair fst snd].
      destruct (Sv ca cb (or_introl eq_refl)) as (x & Ex & Ex'). rewrite (candidate_swap eps maxv a b da db min solve solve' ca cb x h Ex Ex' E1). cbn [bind].
      rewrite (IH ltac:(intros; apply Sv; now right) ht E2). reflexivity. }
    destruct (mapM_perm _ _ _ _ (Permutation_sym P) E') as (hs' & Eh' & Ph). rewrite Eh'. cbn [bind]. eexists. split; [reflexivity|].
    apply (finish_swap eps maxv).
    - assert (F : forall x, In x (keep_some hs) -> reached solve pairs x).
      { intros x Hx. apply keep_some_in in Hx. destruct (mapM_in _ _ _ Eh _ Hx) as ([ca cb] & Hin & Ec). now exists da, db, ca, cb. }
      destruct C as (C1 & C2 & C3). split; [|split]; eauto.
    - rewrite <- keep_map. apply keep_perm. now apply Permutation_sym.
  Qed.
End Real2.

Section Pipeline.
  Variables eps maxv : R.
  Local Hint Extern 0 (Scalar R) => exact (ROps eps maxv) : typeclass_instances.

  (** with the library's own solver, candidates of the right shape and clustered hits, both orders give matching reports *)
  Theorem bfgs_refine_swap (a b : Curve R) min fuel o pairs pairs' r :
    (forall ca cb, In (ca, cb) pairs -> shape_ok ca /\ shape_ok cb /\ cdim ca = cdim cb /\ exists t, bfgs_cc fuel o ca cb = Ok (Some t)) ->
    Permutation pairs' (map swap_pair pairs) -> clustered (reached eps maxv a b min (bfgs_cc fuel o) pairs) ->
    cc_refine (bfgs_cc fuel o) a b min pairs = Ok r -> exists r', cc_refine (bfgs_cc fuel o) b a min pairs' = Ok r' /\ matched r r'.
  Proof.
    intros H P C E. apply (refine_swap eps maxv a b min (bfgs_cc fuel o) (bfgs_cc fuel o) pairs pairs' r); auto.
    intros ca cb Hin. destruct (H ca cb Hin) as (Sa & Sb & D & (ta & tb) & Et). exists (Some (ta, tb)). split; [exact Et|].
    exact (solver_swap eps maxv fuel o ca cb ta tb Sa Sb D Et).
  Qed.
End Pipeline.
