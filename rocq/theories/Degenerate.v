(** * Which degenerate input is reported, accepted or panics *)
From Coq Require Import Reals Lra Lia List Arith Sorted.
From Verif Require Import Base BaseFacts Scalar RSum BSplineSpec BSpline KnotModel KnotSpec KnotFacts VecFacts CurveModel CurveSpec CurveProofs CurveGeom2 CurveShapes
  ClosestModel NewtonMain DegenerateRefuted.
Import ListNotations.
Local Open Scope nat_scope.

Section AnyScalar.
  Context {T : Type} {SO : Scalar T}.

  (** a polyline is never refused: the empty list panics and every other list gives a curve, whatever its points are *)
  Theorem polyline_never_errs : forall D (pts : list (list T)) b,
    (pts = [] -> panics (polyline D pts b)) /\
    (pts <> [] -> exists c, polyline D pts b = Ok c /\ cdeg c = 1 /\ cpts c = map to_homogeneous pts /\ length (cknots c) = length pts + 2).
  Proof.
    intros D pts b. split; [intros ->; eexists; reflexivity|]. intros Hne.
    assert (Hl : 1 <= length pts) by (destruct pts; [congruence|cbn; lia]).
    unfold polyline. rewrite usub_ok by lia. cbn [bind].
    match goal with |- context [for_range 0 _ ?g _] => set (f := g) end.
    destruct (for_range_rule (fun i st => length (fst st) = i + 2) 0 (length pts - 1) f ([szero; szero], szero)) as ([ks acc] & E & L).
    - lia.
    - reflexivity.
    - intros i [ks acc] Hi L. unfold f. rewrite (get_ok pts i []) by lia. cbn [bind]. rewrite (get_ok pts (i + 1) []) by lia. cbn [bind].
      eexists. split; [reflexivity|]. cbn [fst] in *. rewrite app_length, L. cbn. lia.
    - rewrite E. cbn [bind]. eexists. split; [reflexivity|]. cbn [cdeg cpts cknots]. split; [reflexivity|]. split; [reflexivity|].
      cbn [fst] in L. destruct b; rewrite ?map_length, app_length, L; cbn; lia.
  Qed.

  (** normalisation never refuses a curve either: it answers whenever there are enough knots to have a domain, also an empty one *)
  Theorem normalize_never_errs : forall c : Curve T,
    (cdeg c + 1 <= length (cknots c) -> exists c', normalize_knots c = Ok c' /\ cpts c' = cpts c /\ length (cknots c') = length (cknots c)) /\
    (length (cknots c) < cdeg c + 1 -> panics (normalize_knots c)).
  Proof.
    intros c. unfold normalize_knots, knots_domain, domain. split.
    - intros H. destruct (cknots c) as [|x l] eqn:E; [cbn in H; lia|]. rewrite <- E in *.
      rewrite (get_ok _ (cdeg c) x) by lia. cbn [bind]. rewrite ?usub_ok by lia. cbn [bind].
      rewrite ?usub_ok by lia. cbn [bind]. rewrite (get_ok _ _ x) by lia. cbn [bind]. eexists. split; [reflexivity|]. split; [reflexivity|].
      cbn [cknots]. apply map_length.
    - intros H. unfold get. rewrite (proj2 (nth_error_None (cknots c) (cdeg c))) by lia. eexists. reflexivity.
  Qed.
End AnyScalar.

Section Real.
  Variables eps maxv : R.
  Local Hint Extern 0 (Scalar R) => exact (ROps eps maxv) : typeclass_instances.
  Local Open Scope R_scope.

  (** on a valid open curve the closest point search panics for degree zero and answers otherwise *)
  Theorem closest_panics_iff c p : 0 < eps -> curve_ok c -> curve_eps eps c -> pos_weights c -> length p = (cdim c - 1)%nat -> is_closed c = Ok false ->
    (panics (find_closest_parameter c p) <-> cdeg c = 0%nat) /\
    (is_ok (find_closest_parameter c p) <-> cdeg c <> 0%nat).
  Proof.
    intros He Hc Hce Hw Lp Hcl. destruct (Nat.eq_dec (cdeg c) 0) as [D|D].
    - destruct (closest_degree_zero_refuted c p _ _ D (knots_domain_ok c Hc) Hcl) as (m & E). rewrite E.
      split; split; intros H; try assumption; try contradiction; [eexists; reflexivity|destruct H; discriminate].
    - destruct (closest_parameter_total eps maxv c p He Hc Hce Hw ltac:(lia) Lp Hcl) as (t & E & _). rewrite E.
      split; split; intros H; try assumption; try contradiction; [destruct H; discriminate|eexists; reflexivity].
  Qed.

  Lemma rdist_pos_iff a b : length a = length b -> (0 < rdist a b <-> a <> b).
  Proof.
    intros L. unfold rdist. split.
    - intros H ->. revert H. rewrite (rsum_ext _ _ (fun _ => 0)) by (intros; ring). rewrite rsum_0, sqrt_0 by auto. lra.
    - intros N. destruct (Rlt_le_dec 0 (rsum (length a) (fun i => (rc i a - rc i b) * (rc i a - rc i b)))) as [C|C]; [now apply sqrt_lt_R0|].
      exfalso. apply N. apply (vec_ext a b (length a)); auto. intros i Hi.
      destruct (Req_dec (rc i a) (rc i b)) as [|Q]; auto. exfalso.
      assert (0 < (rc i a - rc i b) * (rc i a - rc i b)) by (assert (0 < (rc i a - rc i b)²) by (apply Rsqr_pos_lt; lra); unfold Rsqr in *; lra).
      assert (0 < rsum (length a) (fun i => (rc i a - rc i b) * (rc i a - rc i b))); [|lra].
      apply (rsum_pos _ _ i); auto. intros j _. apply Rle_0_sqr.
  Qed.

  (** the polyline is a valid curve exactly when its first two points differ and its last two points differ *)
  Theorem polyline_valid_iff D pts c : (1 <= D)%nat -> (2 <= length pts)%nat -> Forall (fun p => length p = (D - 1)%nat) pts -> polyline D pts false = Ok c ->
    (curve_ok c <-> nth 0 pts [] <> nth 1 pts [] /\ nth (length pts - 2) pts [] <> nth (length pts - 1) pts []).
  Proof.
    intros HD Hn Hp E. rewrite (polyline_eq eps maxv) in E by (auto; lia). injection E as <-.
    assert (L : forall j, (j < length pts)%nat -> length (nth j pts []) = (D - 1)%nat).
    { intros j Hj. rewrite Forall_forall in Hp. apply Hp. now apply nth_In. }
    assert (K : forall i, (i < length pts)%nat -> kf (poly_knots pts) (S i) = chord pts i).
    { intros i Hi. rewrite poly_kf by lia. cbn [Nat.eqb]. destruct (Nat.leb_spec (S i) (length pts)); [|lia]. f_equal; lia. }
    assert (St : forall i, (S i < length pts)%nat -> (kf (poly_knots pts) (S i) < kf (poly_knots pts) (S (S i)) <-> nth i pts [] <> nth (S i) pts [])).
    { intros i Hi. rewrite !K by lia. rewrite <- rdist_pos_iff by (rewrite !L by lia; reflexivity).
      unfold chord. cbn [rsum]. split; lra. }
    pose proof (St 0%nat ltac:(lia)) as S0. pose proof (St (length pts - 2)%nat ltac:(lia)) as S1.
    replace (S (length pts - 2)) with (length pts - 1)%nat in S1 by lia.
    split.
    - intros Hc. destruct (co_knots _ Hc) as [_ _ _ F La]. unfold clast in La. cbn [cdeg cpts cknots] in F, La. rewrite map_length in La.
      replace (length pts - 1 + 1)%nat with (S (length pts - 1)) in La by lia. split; [now apply S0|now apply S1].
    - intros [N0 N1]. constructor; cbn [cdim cdeg cpts cknots].
      + exact HD.
      + apply Forall_forall. intros q H. apply in_map_iff in H. destruct H as (q' & <- & Hq).
        rewrite Forall_forall in Hp. unfold to_homogeneous. rewrite app_length, (Hp q' Hq). cbn. lia.
      + rewrite map_length. lia.
      + unfold clast. cbn [cpts]. rewrite map_length. constructor.
        * rewrite poly_knots_len. lia.
        * lia.
        * apply mono_sorted. intros i Hi. rewrite poly_knots_len in Hi.
          rewrite <- !(kf_nth _ _ 0) by (rewrite poly_knots_len; lia).
          rewrite !poly_kf by lia.
          destruct i as [|i]; cbn [Nat.eqb].
          -- destruct (Nat.leb_spec 1 (length pts)); [|lia]. cbn. unfold chord. cbn. lra.
          -- destruct (Nat.leb_spec (S i) (length pts)), (Nat.leb_spec (S (S i)) (length pts)); try lia; apply chord_le; lia.
        * now apply S0.
        * replace (length pts - 1 + 1)%nat with (S (length pts - 1)) by lia. now apply S1.
  Qed.
End Real.
