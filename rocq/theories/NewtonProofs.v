(** * Closest parameter on a curve: domain, totality, stopping, first guess *)
From Coq Require Import Reals Lra Lia.
From Verif Require Import Base BaseFacts Scalar RSum BSplineSpec BSpline BSplineDeriv KnotModel KnotSpec KnotFacts VecFacts
  CurveModel CurveSpec CurveProofs CurveGeom CurveGeom2 CurveShapes CurveDeriv MiscModel MiscProofs ClosestModel.

(** ** Any scalars *)
Section Any.
  Context {T : Type} {SO : Scalar T}.
  Open Scope scalar_scope.

  (** neither below the start nor above the end *)
  Definition inside (d0 d1 x : T) : Prop := (x <? d0) = false /\ (d1 <? x) = false.

  Lemma constrain_open d0 d1 x : inside d0 d1 d0 -> inside d0 d1 d1 -> inside d0 d1 (newton_constrain d0 d1 false x).
  Proof.
    intros H0 H1. unfold newton_constrain. destruct (x <? d0) eqn:E0; [exact H0|].
    destruct (d1 <? x) eqn:E1; [exact H1|]. now split.
  Qed.

  (** the chain of iterates: [n] steps of [next] from [x] to [y] *)
  Inductive iterates (next : T -> Res T) : nat -> T -> T -> Prop :=
  | it_here x : iterates next 0 x x
  | it_step k x y z : next x = Ok y -> iterates next k y z -> iterates next (S k) x z.

  Lemma iterates_last next k x z : iterates next (S k) x z -> exists y, iterates next k x y /\ next y = Ok z.
  Proof.
    revert x. induction k as [|k IH]; intros x H; inversion H as [|? ? y ? E1 E2]; subst.
    - inversion E2; subst. exists x. split; [constructor|assumption].
    - destruct (IH y E2) as (w & A & B). exists w. split; [econstructor; eauto|exact B].
  Qed.

  (** the driver makes at least one and at most [n] steps; it stops early only on a short step *)
  Theorem newton_run_steps next n x z : (0 < n)%nat -> newton_run n next x = Ok z ->
    exists k y, (k < n)%nat /\ iterates next k x y /\ next y = Ok z /\ (S k = n \/ (sabs (z - y) <? seps) = true).
  Proof.
    revert x. induction n as [|n IH]; intros x Hn H; [lia|]. cbn [newton_run] in H.
    destruct (next x) as [y| | |] eqn:E; cbn [bind] in H; try discriminate.
    destruct (sabs (y - x) <? seps) eqn:Es.
    - injection H as <-. exists 0%nat, x. split; [lia|]. split; [constructor|]. split; auto.
    - destruct n as [|n].
      + cbn [newton_run] in H. injection H as <-. exists 0%nat, x. split; [lia|]. split; [constructor|]. split; auto.
      + destruct (IH y ltac:(lia) H) as (k & w & Hk & Hi & Hw & Hs). exists (S k), w. split; [lia|].
        split; [econstructor; eauto|]. split; [exact Hw|]. destruct Hs; [left; lia|now right].
  Qed.

  Lemma newton_next_open d0 d1 g h x y : inside d0 d1 d0 -> inside d0 d1 d1 -> newton_next d0 d1 false g h x = Ok y -> inside d0 d1 y.
  Proof.
    intros H0 H1 H. unfold newton_next in H. destruct (g x); cbn [bind] in H; try discriminate.
    destruct (h x); cbn [bind] in H; try discriminate. injection H as <-. now apply constrain_open.
  Qed.

  (** *** On an open curve every answer lies in the domain, whatever the arithmetic does *)
  Theorem closest_parameter_in_domain c p d0 d1 t : knots_domain c = Ok (d0, d1) -> is_closed c = Ok false ->
    inside d0 d1 d0 -> inside d0 d1 d1 -> find_closest_parameter c p = Ok t -> inside d0 d1 t /\ (t - t =? szero) = true.
  Proof.
    intros Hd Hc H0 H1 H. unfold find_closest_parameter in H. rewrite Hd in H. cbn [bind] in H. rewrite Hc in H. cbn [bind] in H.
    destruct (closest_guess c p) as [u| | |]; cbn [bind] in H; try discriminate.
    match type of H with bind ?e _ = _ => destruct e as [r| | |] eqn:E end; cbn [bind] in H; try discriminate.
    destruct (sfinite r) eqn:Ef; [|discriminate]. injection H as <-. split; [|exact Ef].
    destruct (newton_run_steps _ 5 _ _ (Nat.lt_0_succ 4) E) as (k & y & _ & _ & Hy & _).
    eapply newton_next_open; eauto.
  Qed.
End Any.

Section Real.
  Open Scope R_scope.
  Variables eps maxv : R.
  Local Hint Extern 0 (Scalar R) => exact (ROps eps maxv) : typeclass_instances.

  Lemma inside_R d0 d1 x : inside d0 d1 x <-> d0 <= x <= d1.
  Proof. unfold inside. rs. destruct (Rltb_spec x d0), (Rltb_spec d1 x); split; intros; try split; try (destruct H; discriminate); try lra; auto. Qed.

  (** *** A closed curve: a step below the start is sent beyond the end, never back into the domain *)
  Theorem closed_wrap_escapes d0 d1 x : d0 <= d1 -> x < d0 -> d1 < newton_constrain d0 d1 true x.
  Proof. intros Hd Hx. unfold newton_constrain. rs. destruct (Rltb_spec x d0); lra. Qed.

  (** a step above the end wraps around correctly as long as it overshoots by less than a period *)
  Theorem closed_wrap_above d0 d1 x : d1 < x <= d1 + (d1 - d0) -> d0 <= newton_constrain d0 d1 true x <= d1.
  Proof. intros Hx. unfold newton_constrain. rs. destruct (Rltb_spec x d0); [lra|]. destruct (Rltb_spec d1 x); lra. Qed.

  (** ** Values of the problem *)
  Lemma guess_points c m : curve_ok c -> curve_eps eps c -> pos_weights c ->
    dom0 c <= m <= dom1 c -> exists q, point_at c m = Ok q /\ length q = (cdim c - 1)%nat /\ forall i, (i < cdim c - 1)%nat -> rc i q = nurbs c i m.
  Proof. intros Hc He Hw Hm. apply (point_at_spec eps maxv c m); auto. apply Rgt_not_eq, (wfun_pos eps maxv c m); auto. Qed.

  Lemma derivs_total c u d : curve_ok c -> curve_eps eps c -> pos_weights c -> dom0 c <= u <= dom1 c ->
    exists ds, rational_derivatives c u d = Ok ds /\ length ds = S d /\
      (forall m, (m <= d)%nat -> length (nth m ds []) = (cdim c - 1)%nat) /\ forall i, (i < cdim c - 1)%nat -> rc i (nth 0 ds []) = nurbs c i u.
  Proof.
    intros Hc He Hw Hu. destruct (domain_span c u Hc Hu) as (s & Hs & Hin).
    assert (Hne : kf (cknots c) s < kf (cknots c) (S s)) by (unfold in_span in Hin; lra).
    destruct (rational_derivatives_all eps maxv c s) as (Ch & V); auto.
    destruct (V u d Hin) as (ds & E & L & F). exists ds. split; [exact E|]. split; [exact L|]. split; [intros m Hm; now apply F|].
    intros i Hi. destruct (F 0%nat ltac:(lia)) as (_ & F0). rewrite F0 by auto. unfold ratd. rewrite cq_eq. cbn [rsum].
    rewrite !dpiece_0 by (auto; lia). unfold nurbs, wfun. field. apply Rgt_not_eq, (wfun_pos eps maxv c u); auto.
  Qed.

  Lemma curve_gradient_total c p u : curve_ok c -> curve_eps eps c -> pos_weights c -> dom0 c <= u <= dom1 c -> exists g, curve_gradient c p u = Ok g.
  Proof.
    intros Hc He Hw Hu. destruct (derivs_total c u 1) as (ds & E & L & _); auto. unfold curve_gradient. rewrite E. cbn [bind].
    rewrite !(get_ok _ _ []) by lia. cbn [bind]. eauto.
  Qed.
  Lemma curve_hessian_total c p u : curve_ok c -> curve_eps eps c -> pos_weights c -> dom0 c <= u <= dom1 c -> exists g, curve_hessian c p u = Ok g.
  Proof.
    intros Hc He Hw Hu. destruct (derivs_total c u 2) as (ds & E & L & _); auto. unfold curve_hessian. rewrite E. cbn [bind].
    rewrite !(get_ok _ _ []) by lia. cbn [bind]. eauto.
  Qed.

  (** on the curve the gradient vanishes *)
  Lemma curve_gradient_zero c p u : curve_ok c -> curve_eps eps c -> pos_weights c -> dom0 c <= u <= dom1 c ->
    length p = (cdim c - 1)%nat -> (forall i, (i < cdim c - 1)%nat -> nurbs c i u = rc i p) -> curve_gradient c p u = Ok 0.
  Proof.
    intros Hc He Hw Hu Lp Hp. destruct (derivs_total c u 1) as (ds & E & L & Ln & V); auto. unfold curve_gradient. rewrite E. cbn [bind].
    rewrite !(get_ok _ _ []) by lia. cbn [bind]. f_equal.
    rewrite vdot_rsum by (rewrite (vsub_length _ _ (cdim c - 1)); auto; apply Ln; lia).
    apply rsum_0. intros i Hi. rewrite (Ln 1%nat) in Hi by lia. rewrite rc_vsub by (rewrite Ln; auto; lia).
    rewrite V, Hp by auto. ring.
  Qed.

  (** ** The samples *)
  Definition sample_u (c : Curve R) (n i : nat) : R := dom0 c + INR i * ((dom1 c - dom0 c) / (INR n - 1)).

  Lemma sample_u_in c n i : curve_ok c -> (2 <= n)%nat -> (i < n)%nat -> dom0 c <= sample_u c n i <= dom1 c.
  Proof.
    intros Hc Hn Hi. pose proof (dom_le c Hc). unfold sample_u.
    assert (H1 : 2 <= INR n) by (change 2 with (INR 2); now apply le_INR).
    assert (H2 : INR i <= INR n - 1). { replace (INR n - 1) with (INR (n - 1)) by (rewrite minus_INR by lia; reflexivity). apply le_INR. lia. }
    pose proof (pos_INR i).
    replace (INR i * ((dom1 c - dom0 c) / (INR n - 1))) with (INR i / (INR n - 1) * (dom1 c - dom0 c)) by (field; lra).
    assert (H3 : 0 <= INR i / (INR n - 1) <= 1).
    { split; [apply Rmult_le_pos; [lra|left; apply Rinv_0_lt_compat; lra]|].
      apply Rmult_le_reg_r with (INR n - 1); [lra|]. unfold Rdiv. rewrite Rmult_assoc, Rinv_l by lra. lra. }
    nra.
  Qed.

  Lemma samples_spec c n : curve_ok c -> curve_eps eps c -> pos_weights c -> (2 <= n)%nat ->
    exists pts, sample_regular_range_with_parameter c (dom0 c) (dom1 c) n = Ok pts /\ length pts = n /\
      forall i, (i < n)%nat -> fst (nth i pts (0, [])) = sample_u c n i /\ point_at c (sample_u c n i) = Ok (snd (nth i pts (0, []))).
  Proof.
    intros Hc He Hw Hn. unfold sample_regular_range_with_parameter.
    set (P := fun i => match point_at c (sample_u c n i) with Ok p => p | _ => [] end).
    set (f := fun i => (sample_u c n i, P i)).
    assert (PE : forall i, (i < n)%nat -> point_at c (sample_u c n i) = Ok (P i)).
    { intros i Hi. unfold P. destruct (guess_points c (sample_u c n i)) as (q & -> & _); auto. now apply sample_u_in. }
    exists (map f (seq 0 n)). split; [|split].
    - apply (mapM_ok _ f). intros i Hi. apply in_seq in Hi. rs.
      unfold f. unfold sofnat. rs. rewrite <- !INR_IZR_INZ. fold (sample_u c n i). rewrite PE by lia. reflexivity.
    - now rewrite map_length, seq_length.
    - intros i Hi. rewrite (nth_map_lt _ _ i 0%nat (0, [])) by (now rewrite seq_length). rewrite seq_nth by auto. cbn [Nat.add].
      split; [reflexivity|]. now apply PE.
  Qed.
End Real.
