(** * Curve evaluation: the code computes the NURBS formula *)
From Coq Require Import Reals Lra Sorted.
From Verif Require Import Base BaseFacts Scalar RSum BSplineSpec BSpline KnotModel KnotSpec
  KnotFacts KnotProofs VecFacts MiscModel CurveModel CurveSpec.
Open Scope R_scope.

Lemma cox_closed_bs k e n s p i u :
  mono k -> k s < k (S s) -> k s <= u -> e = k (S n) -> (s <= n)%nat ->
  (u < k (S s) \/ (s = n /\ u = k (S s))) ->
  cox_closed k e p i u = bs k s p i u.
Proof.
  intros Hm Hs Hu He Hsn Hor. revert i; induction p as [|q IH]; intros i.
  - cbn [cox_closed bs].
    assert (M : forall a b, (a <= b)%nat -> k a <= k b) by (intros; now apply mono_le).
    pose proof (M (S s) (S n) ltac:(lia)) as Hend.
    destruct (Req_EM_T u e) as [Eu|Eu].
    + assert (s = n) as -> by (destruct Hor as [|[]]; [lra|auto]).
      destruct (Nat.eqb_spec i n) as [->|Hne].
      * destruct (Req_EM_T (k (S n)) e); [|lra].
        destruct (Rlt_dec (k n) (k (S n))); lra.
      * destruct (Req_EM_T (k (S i)) e) as [E1|]; [|reflexivity].
        destruct (Rlt_dec (k i) (k (S i))) as [E2|]; [|reflexivity].
        exfalso. destruct (Nat.lt_ge_cases i n) as [C|C].
        -- pose proof (M (S i) n C). lra.
        -- pose proof (M (S n) i ltac:(lia)). lra.
    + assert (Hlt : u < k (S s)).
      { destruct Hor as [|[-> E]]; [assumption|]. subst e. congruence. }
      destruct (Nat.eqb_spec i s) as [->|Hne].
      * destruct (Rle_dec (k s) u); [|lra].
        destruct (Rlt_dec u (k (S s))); lra.
      * destruct (Rle_dec (k i) u) as [H1|H1]; [|reflexivity].
        destruct (Rlt_dec u (k (S i))) as [H2|H2]; [|reflexivity].
        exfalso. destruct (Nat.lt_ge_cases i s) as [C|C].
        -- pose proof (M (S i) s C). lra.
        -- pose proof (M (S s) i ltac:(lia)). lra.
  - cbn [cox_closed]. rewrite bs_S, !IH. reflexivity.
Qed.

(** away from the end of the domain this is the half-open Cox-de Boor recursion *)
Lemma cox_closed_open k e p i u : u < e -> cox_closed k e p i u = cox_de_boor k p i u.
Proof.
  intros H. revert i; induction p as [|q IH]; intros i; cbn [cox_closed cox_de_boor].
  - destruct (Req_EM_T u e); [lra|reflexivity].
  - now rewrite !IH.
Qed.

Lemma in_span_le k n s u : in_span k n s u -> kf k s <= u <= kf k (S s).
Proof. intros (H1 & H2 & [H3|[_ H3]]); lra. Qed.

Lemma curve_len c : curve_ok c -> length (cknots c) = (length (cpts c) + cdeg c + 1)%nat.
Proof. intros [H1 H2 H3 [H4 _ _ _ _]]. unfold clast in H4. lia. Qed.

Lemma curve_mono c : curve_ok c -> mono (kf (cknots c)).
Proof. intros [_ _ _ [_ _ H _ _]]. now apply sorted_mono. Qed.

Lemma clast_S c : curve_ok c -> S (clast c) = length (cpts c).
Proof. intros [_ _ H _]. unfold clast. lia. Qed.

Section Real.
  Variables eps maxv : R.
  Local Hint Extern 0 (Scalar R) => exact (ROps eps maxv) : typeclass_instances.
  Ltac rr := rs.

  Lemma last_index_ok c : curve_ok c -> last_index c = Ok (clast c).
  Proof.
    intros Hc. pose proof (curve_len c Hc) as Hl. destruct Hc as [_ _ H _].
    unfold last_index. rewrite usub_ok by lia. cbn [bind]. rewrite usub_ok by lia.
    f_equal. unfold clast. lia.
  Qed.

  Lemma cpts_len c j : curve_ok c -> (j < length (cpts c))%nat ->
    length (nth j (cpts c) []) = cdim c.
  Proof.
    intros [_ H _ _] Hj. rewrite Forall_forall in H. apply H. now apply nth_In.
  Qed.

  (** evaluation in a given span (any parameter) *)
  Lemma point_real c u :
    curve_ok c -> 0 < eps ->
    exists s p, find_span (cknots c) (clast c) (cdeg c) u = Ok s /\
      (cdeg c <= s <= clast c)%nat /\ kf (cknots c) s < kf (cknots c) (S s) /\
      point c u = Ok p /\ length p = cdim c /\
      forall i, rc i p = piece (kf (cknots c)) (cdeg c) (length (cpts c)) (cpc c i) s u.
  Proof.
    intros Hc He. pose proof (curve_mono c Hc) as Hm. pose proof (curve_len c Hc) as Hl.
    pose proof (clast_S c Hc) as Hn.
    destruct (find_span_real eps maxv (cknots c) (cdeg c) (clast c) u (co_knots c Hc) He)
      as (s & Es & Hs & Hne & _).
    destruct (basis_functions_real eps maxv (cknots c) s (cdeg c) u Hm Hne ltac:(lia) ltac:(lia))
      as (b & Eb & Lb & Hb).
    exists s. unfold point. rewrite last_index_ok by auto. cbn [bind].
    rewrite Es. cbn [bind].
    rewrite Eb. cbn [bind].
    match goal with |- context [for_incl 0 (cdeg c) ?g _] => set (f := g) end.
    destruct (for_incl_rule
      (fun r pos => length pos = cdim c /\
         forall i, rc i pos = rsum r (fun r => bs (kf (cknots c)) s (cdeg c) (s - cdeg c + r) u
                                               * cpc c i (s - cdeg c + r)))
      0 (cdeg c) f (vzero (cdim c))) as (p & Ep & Lp & Hp).
    - lia.
    - split; [apply vzero_length|]. intros i. cbn. apply rc_vzero.
    - intros r pos Hr [L Hpos]. unfold f. rewrite usub_ok by lia. cbn [bind].
      rewrite (get_ok (cpts c) _ []) by lia. cbn [bind].
      rewrite (get_ok b r 0) by lia. cbn [bind].
      assert (Lp : length (nth (s - cdeg c + r) (cpts c) []) = cdim c)
        by (apply cpts_len; [exact Hc|lia]).
      eexists. split; [reflexivity|]. split.
      + apply vadd_length; [exact L|]. now apply vscale_length.
      + intros i. rewrite rc_vadd by (rewrite (vscale_length _ _ _ Lp); lia).
        rewrite rc_vscale, Hpos. cbn [rsum]. rewrite Hb by lia. unfold cpc. lra.
    - exists p. rewrite Ep. do 3 (split; [first [reflexivity|assumption|lia]|]).
      split; [reflexivity|]. split; [exact Lp|].
      intros i. rewrite Hp. symmetry. apply piece_window; lia.
  Qed.

  (** inside the domain: the piece is the Cox-de Boor sum *)
  Lemma piece_hcoord c s i u :
    curve_ok c -> in_span (cknots c) (clast c) s u -> (s <= clast c)%nat ->
    piece (kf (cknots c)) (cdeg c) (length (cpts c)) (cpc c i) s u = hcoord c i u.
  Proof.
    intros Hc (H1 & H2 & H3) Hs. unfold piece, hcoord. apply rsum_ext. intros j Hj.
    f_equal. symmetry. apply (cox_closed_bs _ _ (clast c)); auto.
    - now apply curve_mono.
    - unfold dom1. now rewrite clast_S.
  Qed.

  Theorem point_spec c u :
    curve_ok c -> curve_eps eps c -> dom0 c <= u <= dom1 c ->
    exists p, point c u = Ok p /\ length p = cdim c /\ forall i, rc i p = hcoord c i u.
  Proof.
    intros Hc He Hu. pose proof (clast_S c Hc) as Hn.
    destruct (point_real c u Hc (proj1 He)) as (s & p & Es & Hs & Hne & Ep & Lp & Hp).
    destruct (find_span_brackets eps maxv (cknots c) (cdeg c) (clast c) u (co_knots c Hc) He)
      as (s' & Es' & Hs' & Hin).
    { unfold dom0, dom1 in Hu. rewrite Nat.add_1_r, Hn. exact Hu. }
    rewrite Es in Es'. inversion Es'; subst s'.
    exists p. split; [exact Ep|]. split; [exact Lp|].
    intros i. rewrite Hp. apply piece_hcoord; auto. lia.
  Qed.

  (** ** Bounds on the basis *)
  Lemma span_of c u :
    curve_ok c -> curve_eps eps c -> dom0 c <= u <= dom1 c ->
    exists s, (cdeg c <= s <= clast c)%nat /\ in_span (cknots c) (clast c) s u /\
      find_span (cknots c) (clast c) (cdeg c) u = Ok s.
  Proof.
    intros Hc He Hu. pose proof (clast_S c Hc) as Hn.
    destruct (find_span_brackets eps maxv (cknots c) (cdeg c) (clast c) u (co_knots c Hc) He)
      as (s' & Es' & Hs' & Hin).
    { unfold dom0, dom1 in Hu. rewrite Nat.add_1_r, Hn. exact Hu. }
    exists s'; auto.
  Qed.

  Lemma wfun_pos c u :
    curve_ok c -> curve_eps eps c -> pos_weights c -> dom0 c <= u <= dom1 c -> 0 < wfun c u.
  Proof.
    intros Hc He Hw Hu. destruct (span_of c u Hc He Hu) as (s & Hs & Hin & _).
    pose proof (clast_S c Hc) as Hn.
    unfold wfun. rewrite <- (piece_hcoord c s) by (auto; lia).
    pose proof (in_span_le _ _ _ _ Hin) as Hle. destruct Hin as (Hne & _ & _).
    pose proof (curve_mono c Hc) as Hm.
    (* the minimum weight times the partition of unity *)
    assert (Hsum : rsum (length (cpts c)) (fun i => bs (kf (cknots c)) s (cdeg c) i u) = 1).
    { apply bs_sum; auto; lia. }
    assert (Hnn : forall i, 0 <= bs (kf (cknots c)) s (cdeg c) i u).
    { intros i. now apply bs_nonneg. }
    unfold piece.
    assert (Hex : exists j, (j < length (cpts c))%nat /\
                       0 < bs (kf (cknots c)) s (cdeg c) j u).
    { clear - Hsum Hnn. 
      assert (G : forall n, 0 < rsum n (fun i => bs (kf (cknots c)) s (cdeg c) i u) ->
                 exists j, (j < n)%nat /\ 0 < bs (kf (cknots c)) s (cdeg c) j u).
      { induction n as [|n IH]; cbn; intros H; [lra|].
        destruct (Rle_lt_dec (bs (kf (cknots c)) s (cdeg c) n u) 0) as [C|C].
        - destruct IH as (j & J1 & J2); [lra|]. exists j; split; auto.
        - exists n; auto. }
      apply G. lra. }
    destruct Hex as (j & Hj & Hpj).
    apply (rsum_pos _ _ j); auto.
    - intros i Hi. apply Rmult_le_pos; [apply Hnn|]. apply Rlt_le. now apply Hw.
    - apply Rmult_lt_0_compat; [exact Hpj|]. now apply Hw.
  Qed.

  (** ** [point_at]: the rational formula *)
  Theorem point_at_spec c u :
    curve_ok c -> curve_eps eps c -> dom0 c <= u <= dom1 c -> wfun c u <> 0 ->
    exists p, point_at c u = Ok p /\ length p = (cdim c - 1)%nat /\
      forall i, (i < cdim c - 1)%nat -> rc i p = nurbs c i u.
  Proof.
    intros Hc He Hu Hw. destruct (point_spec c u Hc He Hu) as (p & Ep & Lp & Hp).
    unfold point_at. rewrite Ep.
    cbn [bind]. unfold dehomogenize.
    assert (Ew : coord (cdim c - 1) p = wfun c u) by (rewrite coord_rc; apply Hp).
    rewrite Ew. rs.
    destruct (Reqb_spec (wfun c u) 0) as [|_]; [contradiction|].
    cbn [unwrap]. eexists. split; [reflexivity|]. split.
    - apply vdivs_length. rewrite firstn_length. lia.
    - intros i Hi. rewrite rc_vdivs, rc_firstn, Hp by lia. reflexivity.
  Qed.

  (** the only failure inside the domain is a vanishing weight function *)
  Theorem point_at_zero_weight c u :
    curve_ok c -> curve_eps eps c -> dom0 c <= u <= dom1 c -> wfun c u = 0 ->
    panics (point_at c u).
  Proof.
    intros Hc He Hu Hw. destruct (point_spec c u Hc He Hu) as (p & Ep & Lp & Hp).
    unfold point_at. rewrite Ep.
    cbn [bind]. unfold dehomogenize.
    assert (Ew : coord (cdim c - 1) p = wfun c u) by (rewrite coord_rc; apply Hp).
    rewrite Ew, Hw. rs. 
    destruct (Reqb_spec 0 0) as [_|]; [eexists; reflexivity|lra].
  Qed.
End Real.
