(** * Interpolation: the curve passes through the points when the linear solver is exact *)
From Coq Require Import Reals Lra Sorted String.
From Verif Require Import Base BaseFacts Scalar RSum BSplineSpec BSpline KnotModel KnotSpec
  KnotFacts KnotProofs VecFacts MiscModel CurveModel CurveSpec CurveProofs CurveGeom CurveGeom2 CurveShapes.
Open Scope list_scope. Open Scope R_scope.

(** the contract of the linear solver: what it returns solves the square system *)
Definition exact_solver (solve : list (list R) -> list R -> option (list R)) : Prop :=
  forall m b x, (forall r, In r m -> length r = length m) -> length b = length m -> solve m b = Some x ->
    length x = length m /\
    forall i, (i < length m)%nat -> rsum (length m) (fun j => nth j (nth i m []) 0 * nth j x 0) = nth i b 0.

(** normalised chord length up to point [i] *)
Definition iparam (pts : list (list R)) (i : nat) : R := chord pts i / chord pts (length pts - 1).

Lemma mapM_at {A B} (f : A -> Res B) l r i a b : mapM f l = Ok r -> (i < length l)%nat -> f (nth i l a) = Ok (nth i r b).
Proof.
  intros E. apply mapM_inv in E. revert i. induction E as [|x y l r H E IH]; intros i Hi; cbn [length] in Hi; [lia|].
  destruct i as [|i]; [exact H|]. apply IH. lia.
Qed.

Section Real.
  Variables eps maxv : R.
  Local Hint Extern 0 (Scalar R) => exact (ROps eps maxv) : typeclass_instances.

  Lemma solve_rows solve m points pts d :
    exact_solver solve -> (1 <= length points)%nat ->
    Forall (fun p => length p = d) points -> length m = length points ->
    (forall r, In r m -> length r = length m) ->
    try_solve_interpolation solve m points true = Ok pts ->
    length pts = length points /\
    (forall j, (j < length points)%nat -> length (nth j pts []) = S d /\ rc d (nth j pts []) = 1) /\
    (forall i l, (i < length points)%nat -> (l < d)%nat ->
       rsum (length points) (fun j => nth j (nth i m []) 0 * rc l (nth j pts [])) = rc l (nth i points [])).
  Proof.
    intros Hs Hn Hd Hm Hr E. unfold try_solve_interpolation in E.
    rewrite (get_ok points 0 []) in E by lia. cbn [bind] in E.
    assert (L0 : length (nth 0 points []) = d) by (rewrite Forall_forall in Hd; apply Hd, nth_In; lia).
    rewrite L0 in E. apply bind_ok in E. destruct E as (cols & Ec & E). apply bind_ok in E. destruct E as (rows & Er & E).
    injection E as <-.
    pose proof (mapM_length _ _ _ Ec) as Lc. rewrite seq_length in Lc.
    pose proof (mapM_length _ _ _ Er) as Lr. rewrite seq_length in Lr.
    assert (C : forall l, (l < d)%nat -> length (nth l cols []) = length points /\
      forall i, (i < length points)%nat ->
        rsum (length points) (fun j => nth j (nth i m []) 0 * nth j (nth l cols []) 0) = rc l (nth i points [])).
    { intros l Hl. pose proof (mapM_at _ _ _ l 0%nat [] Ec ltac:(rewrite seq_length; lia)) as F.
      rewrite seq_nth in F by lia. cbn [Nat.add] in F.
      unfold ok_or in F. destruct (solve m (map (coord l) points)) as [x|] eqn:Ex; [|discriminate].
      injection F as F. rewrite <- F.
      destruct (Hs m (map (coord l) points) x Hr ltac:(rewrite map_length; lia) Ex) as (Lx & Hx). rewrite Hm in Lx, Hx. split; [exact Lx|].
      intros i Hi. rewrite Hx by lia. rewrite (nth_map_lt _ _ i []) by lia. apply coord_rc. }
    assert (Rw : forall j, (j < length points)%nat -> length (nth j rows []) = d /\
      forall l, (l < d)%nat -> nth l (nth j rows []) 0 = nth j (nth l cols []) 0).
    { intros j Hj. pose proof (mapM_at _ _ _ j 0%nat [] Er ltac:(rewrite seq_length; lia)) as F.
      rewrite seq_nth in F by lia. cbn [Nat.add] in F.
      pose proof (mapM_length _ _ _ F) as Lf. split; [lia|]. intros l Hl.
      pose proof (mapM_at _ _ _ l [] 0 F ltac:(lia)) as G.
      apply get_inv in G. destruct G as (_ & G). apply G. }
    rewrite map_length. split; [exact Lr|].
    assert (N : forall j, (j < length points)%nat -> nth j (map (fun cs : list R => cs ++ [1]) rows) [] = nth j rows [] ++ [1]).
    { intros j Hj. rewrite (nth_map_lt _ _ j []) by lia. reflexivity. }
    split.
    - intros j Hj. change (map (fun cs : list R => cs ++ [sone]) rows) with (map (fun cs : list R => cs ++ [1]) rows).
      rewrite N by lia. destruct (Rw j Hj) as (Lj & _). rewrite app_length, Lj. cbn [length]. split; [lia|].
      unfold rc. rewrite app_nth2 by lia. rewrite Lj, Nat.sub_diag. reflexivity.
    - intros i l Hi Hl. destruct (C l Hl) as (_ & <-); [|exact Hi]. apply rsum_ext. intros j Hj. f_equal.
      change (map (fun cs : list R => cs ++ [sone]) rows) with (map (fun cs : list R => cs ++ [1]) rows).
      rewrite N by lia. destruct (Rw j Hj) as (Lj & Hrw). unfold rc. rewrite app_nth1 by lia. apply Hrw, Hl.
  Qed.

  (** evaluation of a curve with unit weights, anywhere *)
  Lemma unit_point_at c u :
    curve_ok c -> 0 < eps -> (forall j, (j < length (cpts c))%nat -> cpc c (cdim c - 1) j = 1) ->
    exists s q, find_span (cknots c) (clast c) (cdeg c) u = Ok s /\ (cdeg c <= s <= clast c)%nat /\
      kf (cknots c) s < kf (cknots c) (S s) /\
      point_at c u = Ok q /\ length q = (cdim c - 1)%nat /\
      forall l, (l < cdim c - 1)%nat -> rc l q = piece (kf (cknots c)) (cdeg c) (length (cpts c)) (cpc c l) s u.
  Proof.
    intros Hc He Hw. destruct (point_real eps maxv c u Hc He) as (s & p & Es & Hs & Hne & Ep & Lp & Hp).
    assert (W : rc (cdim c - 1) p = 1).
    { rewrite Hp. unfold piece. erewrite rsum_ext; [apply (bs_sum (kf (cknots c)) s (curve_mono c Hc) Hne (cdeg c) (length (cpts c)) u)|].
      - lia.
      - pose proof (clast_S c Hc). lia.
      - intros j Hj. cbn beta. rewrite Hw by exact Hj. ring. }
    exists s. eexists. split; [exact Es|]. split; [exact Hs|]. split; [exact Hne|].
    unfold point_at. rewrite Ep. cbn [bind]. unfold dehomogenize. rewrite coord_rc, W. rs.
    destruct (Reqb_spec 1 0); [lra|]. cbn [unwrap]. split; [reflexivity|]. split.
    - apply vdivs_length. rewrite firstn_length. lia.
    - intros l Hl. rewrite <- Hp. unfold rc, vdivs. rs.
      rewrite (nth_map_lt (fun x => x / 1) _ l 0) by (rewrite firstn_length; lia). rewrite nth_firstn by lia. field.
  Qed.

  (** a row of the coefficient matrix holds all the basis functions at the parameter *)
  Lemma interp_row_real k p n u s :
    knots_ok p n k -> find_span k n p u = Ok s -> (p <= s <= n)%nat -> kf k s < kf k (S s) ->
    exists row, interp_row k n p (n - p) u = Ok row /\ length row = S n /\
      forall j, (j <= n)%nat -> nth j row 0 = bs (kf k) s p j u.
  Proof.
    intros Hk Es Hs Hne. destruct Hk as [Hl Hpn Hso Hf Hla].
    destruct (basis_functions_real eps maxv k s p u (sorted_mono _ Hso) Hne ltac:(lia) ltac:(lia)) as (b & Eb & Lb & Hb).
    unfold interp_row. rewrite Es. cbn [bind]. rewrite Eb. cbn [bind]. rewrite usub_ok by lia. cbn [bind].
    rewrite usub_ok by lia. cbn [bind]. eexists. split; [reflexivity|]. split.
    - rewrite !app_length, !repeat_length, Lb. lia.
    - intros j Hj. rs. destruct (Nat.lt_ge_cases j (s - p)) as [C|C].
      + rewrite app_nth1 by (rewrite repeat_length; lia). rewrite nth_repeat. symmetry. apply bs_support. lia.
      + rewrite app_nth2 by (rewrite repeat_length; lia). rewrite repeat_length.
        destruct (Nat.lt_ge_cases s j) as [C2|C2].
        * rewrite app_nth2 by lia. rewrite nth_repeat. symmetry. apply bs_support. lia.
        * rewrite app_nth1 by lia. rewrite Hb by lia. f_equal. lia.
  Qed.

  Lemma chord_params_eq d pts :
    (1 <= length pts)%nat -> Forall (fun p => length p = d) pts ->
    chord_params pts = Ok (map (iparam pts) (seq 0 (length pts))).
  Proof.
    intros Hn Hd. unfold chord_params.
    match goal with |- context [for_range 1 _ ?g _] => set (f := g) end.
    destruct (for_range_rule (fun i st => st = map (chord pts) (seq 0 i)) 1 (length pts) f [0]) as (us & E & ->).
    - exact Hn.
    - reflexivity.
    - intros i st Hi ->. unfold f. rewrite (get_ok pts i []) by lia. cbn [bind]. rewrite usub_ok by lia. cbn [bind].
      rewrite (get_ok pts (i - 1) []) by lia. cbn [bind].
      rewrite (get_ok _ (i - 1) 0) by (rewrite map_length, seq_length; lia). cbn [bind].
      eexists. split; [reflexivity|]. rewrite seq_S, map_app. cbn [map Nat.add]. f_equal. f_equal.
      rewrite (nth_map_lt _ _ _ 0%nat) by (rewrite seq_length; lia). rewrite seq_nth by lia. cbn [Nat.add].
      assert (L : forall j, (j < length pts)%nat -> length (nth j pts []) = d)
        by (intros j Hj; rewrite Forall_forall in Hd; apply Hd, nth_In, Hj).
      rewrite vnorm_rdist by (rewrite !L by lia; reflexivity).
      destruct i as [|i]; [lia|]. replace (S i - 1)%nat with i by lia. unfold chord at 2. cbn [rsum]. fold (chord pts i).
      change (chord pts i + rdist (nth (S i) pts []) (nth i pts []) = chord pts i + rdist (nth i pts []) (nth (S i) pts [])).
      f_equal. unfold rdist. rewrite !L by lia. f_equal. apply rsum_ext. intros l Hl. ring.
    - replace (for_range 1 (length pts) f [szero]) with (for_range 1 (length pts) f [0]) by reflexivity.
      rewrite E. cbn [bind]. rewrite usub_ok by (rewrite map_length, seq_length; lia). cbn [bind].
      rewrite (get_ok _ _ 0) by (rewrite map_length, seq_length; lia). cbn [bind].
      rewrite (nth_map_lt _ _ _ 0%nat) by (rewrite map_length, seq_length; lia).
      rewrite map_length, seq_length, seq_nth by lia. cbn [Nat.add]. f_equal. rewrite map_map. reflexivity.
  Qed.

  Lemma iparam_lt pts i j : distinct_steps pts -> (i < j < length pts)%nat -> iparam pts i < iparam pts j.
  Proof.
    intros Hd Hij. unfold iparam.
    assert (0 < chord pts (length pts - 1)) by (change 0 with (chord pts 0); apply chord_lt; auto; lia).
    apply Rmult_lt_compat_r; [now apply Rinv_0_lt_compat|]. apply chord_lt; auto; lia.
  Qed.
  Lemma iparam_0 pts : iparam pts 0 = 0.
  Proof. unfold iparam, chord at 1. cbn. unfold Rdiv. ring. Qed.
  Lemma iparam_1 pts : distinct_steps pts -> (2 <= length pts)%nat -> iparam pts (length pts - 1) = 1.
  Proof.
    intros Hd Hn. unfold iparam. apply Rinv_r.
    assert (chord pts 0 < chord pts (length pts - 1)) by (apply chord_lt; auto; lia).
    unfold chord at 1 in H. cbn [rsum] in H. lra.
  Qed.

  (** averaged interior knots *)
  Definition iknot (pts : list (list R)) (p i : nat) : R := rsum p (fun j => iparam pts (i + j)) / INR p.
  Definition iknots (pts : list (list R)) (p : nat) : list R :=
    repeat 0 (p + 1) ++ map (iknot pts p) (seq 1 (length pts - p - 1)) ++ repeat 1 (p + 1).

  Lemma averaged_knots_eq pts p :
    (1 <= p)%nat -> (p + 1 <= length pts)%nat ->
    averaged_knots (map (iparam pts) (seq 0 (length pts))) p = Ok (iknots pts p).
  Proof.
    intros Hp Hn. unfold averaged_knots. rewrite map_length, seq_length, usub_ok by lia. cbn [bind].
    match goal with |- context [for_range 1 _ ?g _] => set (f := g) end.
    destruct (for_range_rule (fun i st => st = repeat 0 (p + 1) ++ map (iknot pts p) (seq 1 (i - 1)))
      1 (length pts - p) f (repeat 0 (p + 1))) as (ks & E & ->).
    - lia.
    - cbn. now rewrite app_nil_r.
    - intros i st Hi ->. unfold f.
      match goal with |- context [for_range 0 p ?g _] => set (h := g) end.
      destruct (for_range_rule (fun j s => s = rsum j (fun j => iparam pts (i + j))) 0 p h 0) as (sm & Es & ->).
      + lia.
      + reflexivity.
      + intros j s Hj ->. unfold h. rewrite (get_ok _ _ 0) by (rewrite map_length, seq_length; lia). cbn [bind].
        eexists. split; [reflexivity|]. cbn [rsum]. rewrite (nth_map_lt _ _ _ 0%nat) by (rewrite seq_length; lia).
        rewrite seq_nth by lia. reflexivity.
      + replace (for_range 0 p h szero) with (for_range 0 p h 0) by reflexivity. rewrite Es. cbn [bind].
        eexists. split; [reflexivity|]. replace (S i - 1)%nat with (S (i - 1)) by lia. rewrite seq_S, map_app. cbn [map].
        rewrite app_assoc. f_equal. f_equal. replace (1 + (i - 1))%nat with i by lia. unfold iknot.
        rewrite (sofnat_INR eps maxv). reflexivity.
    - replace (for_range 1 (length pts - p) f (repeat szero (p + 1))) with (for_range 1 (length pts - p) f (repeat 0 (p + 1))) by reflexivity.
      rewrite E. cbn [bind]. unfold iknots. rewrite <- app_assoc. reflexivity.
  Qed.

  Lemma iknots_len pts p : (p + 1 <= length pts)%nat -> length (iknots pts p) = (length pts + p + 1)%nat.
  Proof. intros H. unfold iknots. rewrite !app_length, !repeat_length, map_length, seq_length. lia. Qed.

  Lemma iknots_kf pts p i : (p + 1 <= length pts)%nat ->
    kf (iknots pts p) i = if (i <=? p)%nat then 0 else if (i <? length pts)%nat then iknot pts p (i - p) else 1.
  Proof.
    intros H. unfold kf.
    assert (El : last (iknots pts p) 0 = 1).
    { rewrite last_nth by (unfold iknots; rewrite Nat.add_1_r; discriminate). rewrite iknots_len by exact H. unfold iknots.
      rewrite !app_nth2 by (rewrite ?repeat_length, ?map_length, ?seq_length; lia).
      rewrite repeat_length, map_length, seq_length. apply nth_repeat_lt. lia. }
    rewrite El. unfold iknots. destruct (Nat.leb_spec i p) as [C|C].
    - rewrite app_nth1 by (rewrite repeat_length; lia). apply nth_repeat_lt. lia.
    - rewrite app_nth2 by (rewrite repeat_length; lia). rewrite repeat_length. destruct (Nat.ltb_spec i (length pts)) as [C2|C2].
      + rewrite app_nth1 by (rewrite map_length, seq_length; lia). rewrite (nth_map_lt _ _ _ 0%nat) by (rewrite seq_length; lia).
        rewrite seq_nth by lia. f_equal. lia.
      + rewrite app_nth2 by (rewrite map_length, seq_length; lia). rewrite map_length, seq_length.
        apply nth_repeat.
  Qed.

  Lemma iknot_bounds pts p i : distinct_steps pts -> (1 <= p)%nat -> (1 <= i)%nat -> (i + p < length pts)%nat ->
    0 < iknot pts p i < 1.
  Proof.
    intros Hd Hp Hi Hn. assert (P : 0 < INR p) by (apply lt_0_INR; lia). unfold iknot.
    assert (B : forall j, (j < p)%nat -> 0 < iparam pts (i + j) < 1).
    { intros j Hj. split.
      - rewrite <- (iparam_0 pts). apply iparam_lt; auto; lia.
      - rewrite <- (iparam_1 pts) by (auto; lia). apply iparam_lt; auto; lia. }
    split.
    - apply Rmult_lt_0_compat; [|now apply Rinv_0_lt_compat]. apply (rsum_pos p _ 0%nat); [|lia|apply (B 0%nat); lia].
      intros j Hj. pose proof (B j Hj). lra.
    - apply (Rmult_lt_reg_r (INR p)); [exact P|]. unfold Rdiv. rewrite Rmult_assoc, Rinv_l, Rmult_1_r, Rmult_1_l by lra.
      assert (0 < rsum p (fun j => 1 - iparam pts (i + j))).
      { apply (rsum_pos p _ 0%nat); [|lia|pose proof (B 0%nat ltac:(lia)); lra]. intros j Hj. pose proof (B j Hj). lra. }
      rewrite rsum_minus, rsum_const in H. lra.
  Qed.

  Lemma iknot_lt pts p i : distinct_steps pts -> (1 <= p)%nat -> (i + p < length pts)%nat ->
    iknot pts p i < iknot pts p (S i).
  Proof.
    intros Hd Hp Hn. assert (P : 0 < INR p) by (apply lt_0_INR; lia). unfold iknot.
    apply Rmult_lt_compat_r; [now apply Rinv_0_lt_compat|].
    assert (0 < rsum p (fun j => iparam pts (S i + j) - iparam pts (i + j))).
    { assert (B : forall j, (j < p)%nat -> 0 < iparam pts (S i + j) - iparam pts (i + j)).
      { intros j Hj. assert (iparam pts (i + j) < iparam pts (S i + j)) by (apply iparam_lt; auto; lia). lra. }
      apply (rsum_pos p _ 0%nat); [|lia|apply (B 0%nat); lia]. intros j Hj. pose proof (B j Hj). lra. }
    rewrite rsum_minus in H. lra.
  Qed.

  Lemma iknots_step pts p i : distinct_steps pts -> (1 <= p)%nat -> (p <= i < length pts)%nat ->
    kf (iknots pts p) i < kf (iknots pts p) (S i).
  Proof.
    intros Hd Hp Hi. rewrite !iknots_kf by lia.
    destruct (Nat.leb_spec i p), (Nat.leb_spec (S i) p); try lia.
    - destruct (Nat.ltb_spec (S i) (length pts)); [|lra]. apply iknot_bounds; auto; lia.
    - destruct (Nat.ltb_spec i (length pts)); [|lia]. destruct (Nat.ltb_spec (S i) (length pts)).
      + replace (S i - p)%nat with (S (i - p)) by lia. apply iknot_lt; auto; lia.
      + apply iknot_bounds; auto; lia.
  Qed.

  Lemma iknots_ok pts p : distinct_steps pts -> (1 <= p)%nat -> (p + 1 <= length pts)%nat ->
    knots_ok p (length pts - 1) (iknots pts p).
  Proof.
    intros Hd Hp Hn. constructor.
    - rewrite iknots_len by exact Hn. lia.
    - lia.
    - apply mono_sorted. intros i Hi. rewrite iknots_len in Hi by exact Hn.
      rewrite <- !(kf_nth _ _ 0) by (rewrite iknots_len by exact Hn; lia).
      destruct (Nat.lt_ge_cases i p) as [C|C].
      + rewrite !iknots_kf by exact Hn. destruct (Nat.leb_spec i p), (Nat.leb_spec (S i) p); try lia. lra.
      + destruct (Nat.lt_ge_cases i (length pts)) as [C2|C2].
        * apply Rlt_le. apply iknots_step; auto.
        * rewrite !iknots_kf by exact Hn. destruct (Nat.leb_spec i p), (Nat.leb_spec (S i) p); try lia.
          destruct (Nat.ltb_spec i (length pts)), (Nat.ltb_spec (S i) (length pts)); try lia. lra.
    - replace (p + 1)%nat with (S p) by lia. apply iknots_step; auto; lia.
    - replace (length pts - 1 + 1)%nat with (S (length pts - 1)) by lia. apply iknots_step; auto; lia.
  Qed.

  (** nurbs_curve.rs:720-745: whatever an exact solver returns, the curve interpolates *)
  Theorem interpolate_passes solve D pts p :
    exact_solver solve -> 0 < eps -> (1 <= D)%nat -> (1 <= p)%nat -> (p + 1 <= length pts)%nat ->
    Forall (fun q => length q = (D - 1)%nat) pts -> distinct_steps pts ->
    forall c, try_interpolate solve D pts p = Ok c ->
      curve_ok c /\ cdim c = D /\ cdeg c = p /\ dom0 c = 0 /\ dom1 c = 1 /\
      forall i, (i < length pts)%nat -> point_at c (iparam pts i) = Ok (nth i pts []).
  Proof.
    intros Hs He HD Hp Hn Hl Hd c E. unfold try_interpolate in E. apply bind_ok in E. destruct E as ((q & k) & E & Ec).
    injection Ec as <-. unfold try_interpolate_control_points in E.
    destruct (Nat.ltb_spec (length pts) (p + 1)); [lia|].
    rewrite (chord_params_eq (D - 1)) in E by (auto; lia). cbn [bind] in E.
    rewrite averaged_knots_eq in E by (auto; lia). cbn [bind] in E. rewrite !usub_ok in E by lia. cbn [bind] in E.
    replace (length pts - (p + 1))%nat with (length pts - 1 - p)%nat in E by lia.
    apply bind_ok in E. destruct E as (rows & Er & E). apply bind_ok in E. destruct E as (cp & Es & E). injection E as <- <-.
    pose proof (iknots_ok pts p Hd Hp Hn) as Hk.
    pose proof (mapM_length _ _ _ Er) as Lr. rewrite map_length, seq_length in Lr.
    assert (Row : forall i, (i < length pts)%nat -> exists s,
      find_span (iknots pts p) (length pts - 1) p (iparam pts i) = Ok s /\ length (nth i rows []) = length pts /\
      forall j, (j < length pts)%nat -> nth j (nth i rows []) 0 = bs (kf (iknots pts p)) s p j (iparam pts i)).
    { intros i Hi. destruct (find_span_real eps maxv (iknots pts p) p (length pts - 1) (iparam pts i) Hk He) as (s & Ef & Hsr & Hne & _).
      destruct (interp_row_real _ _ _ _ _ Hk Ef Hsr Hne) as (row & Erow & Lrow & Hrow).
      pose proof (mapM_at _ _ _ i 0 [] Er ltac:(rewrite map_length, seq_length; lia)) as F.
      rewrite (nth_map_lt _ _ _ 0%nat) in F by (rewrite seq_length; lia). rewrite seq_nth in F by lia. cbn [Nat.add] in F.
      rewrite Erow in F. injection F as F. exists s. split; [exact Ef|]. rewrite <- F. split; [lia|].
      intros j Hj. apply Hrow. lia. }
    destruct (solve_rows solve rows pts cp (D - 1) Hs ltac:(lia) Hl ltac:(lia)) as (Lcp & Hcp & Hsys); [|exact Es|].
    { intros r Hr. destruct (In_nth _ _ [] Hr) as (i & Hi & <-). destruct (Row i ltac:(lia)) as (s & _ & L & _). lia. }
    assert (Hc : curve_ok (MkCurve D p cp (iknots pts p))).
    { constructor; cbn [cdim cdeg cpts cknots]; auto.
      - apply Forall_forall. intros x Hx. destruct (In_nth _ _ [] Hx) as (j & Hj & <-).
        destruct (Hcp j ltac:(lia)) as (L & _). lia.
      - lia.
      - unfold clast. cbn [cpts]. now rewrite Lcp. }
    split; [exact Hc|]. split; [reflexivity|]. split; [reflexivity|].
    split; [unfold dom0; cbn [cknots cdeg]; rewrite iknots_kf by lia; now rewrite Nat.leb_refl|].
    split; [unfold dom1; cbn [cknots cpts]; rewrite Lcp, iknots_kf by lia;
            destruct (Nat.leb_spec (length pts) p); [lia|]; now rewrite Nat.ltb_irrefl|].
    intros i Hi. destruct (Row i Hi) as (s & Ef & _ & Hrow).
    destruct (unit_point_at _ (iparam pts i) Hc He) as (s' & x & Ef' & Hs' & Hne & Ex & Lx & Hx).
    { intros j Hj. unfold cpc. cbn [cdim cpts] in *. apply (Hcp j). lia. }
    rewrite Ex. f_equal. unfold clast in Ef'. cbn [cknots cpts cdeg cdim] in *. rewrite Lcp in Ef', Hx.
    rewrite Ef in Ef'. injection Ef' as <-.
    apply (vec_ext _ _ (D - 1)); [exact Lx|rewrite Forall_forall in Hl; now apply Hl, nth_In|].
    intros l Hll. rewrite Hx by exact Hll. rewrite <- (Hsys i l Hi Hll). unfold piece. apply rsum_ext.
    intros j Hj. rewrite Hrow by exact Hj. reflexivity.
  Qed.

  Lemma solve_outcome solve (m : list (list R)) (points : list (list R)) d :
    (forall b x, length b = length points -> solve m b = Some x -> length x = length points) -> (1 <= length points)%nat ->
    Forall (fun p => length p = d) points ->
    (exists pts, try_solve_interpolation solve m points true = Ok pts) \/
    (errs (try_solve_interpolation solve m points true) /\
     exists l, (l < d)%nat /\ solve m (map (coord l) points) = None).
  Proof.
    intros Hs Hn Hd. unfold try_solve_interpolation.
    rewrite (get_ok points 0 []) by lia. cbn [bind].
    assert (L0 : length (nth 0 points []) = d) by (rewrite Forall_forall in Hd; apply Hd, nth_In; lia).
    rewrite L0.
    assert (G : forall a, (exists cols, mapM (fun i => ok_or (solve m (map (coord i) points)) "Solve failed") (seq a (d - a)) = Ok cols /\
               Forall (fun x => length x = length points) cols) \/
             (errs (mapM (fun i => ok_or (solve m (map (coord i) points)) "Solve failed") (seq a (d - a))) /\
               exists l, (l < d)%nat /\ solve m (map (coord l) points) = None)).
    { intros a. remember (d - a)%nat as r eqn:Er. revert a Er. induction r as [|r IH]; intros a Er.
      - left. exists []. split; [reflexivity|constructor].
      - cbn [seq mapM]. destruct (solve m (map (coord a) points)) as [x|] eqn:Ex.
        + cbn [ok_or bind]. destruct (IH (S a) ltac:(lia)) as [(cols & E & F)|(E & l & Hl & El)].
          * left. rewrite E. eexists. split; [reflexivity|]. constructor; [apply (Hs _ x) in Ex; [exact Ex|now rewrite map_length]|exact F].
          * right. split; [|eauto]. destruct E as (e & E). rewrite E. eexists. reflexivity.
        + right. split; [eexists; reflexivity|]. exists a. split; [lia|exact Ex]. }
    destruct (G 0%nat) as [(cols & E & F)|(E & l & Hl & El)].
    - left. rewrite Nat.sub_0_r in E. rewrite E. cbn [bind].
      rewrite (mapM_ok _ (fun j => map (fun xs => nth j xs 0) cols)).
      + eexists. reflexivity.
      + intros j Hj. apply in_seq in Hj. apply mapM_ok. intros xs Hxs. apply get_ok.
        rewrite Forall_forall in F. rewrite (F xs Hxs). lia.
    - right. split; [|eauto]. rewrite Nat.sub_0_r in E. destruct E as (e & E). rewrite E. eexists. reflexivity.
  Qed.

  (** interpolation never panics, and fails only when the solver declares its system singular *)
  Theorem interpolate_outcome solve D pts p :
    exact_solver solve -> 0 < eps -> (1 <= D)%nat -> (1 <= p)%nat -> (p + 1 <= length pts)%nat ->
    Forall (fun q => length q = (D - 1)%nat) pts -> distinct_steps pts ->
    (exists c, try_interpolate solve D pts p = Ok c) \/
    (errs (try_interpolate solve D pts p) /\
     exists m l, length m = length pts /\ (l < D - 1)%nat /\ solve m (map (coord l) pts) = None /\
       (forall i, (i < length pts)%nat -> length (nth i m []) = length pts /\
          rsum (length pts) (fun j => nth j (nth i m []) 0) = 1)).
  Proof.
    intros Hs He HD Hp Hn Hl Hd. unfold try_interpolate, try_interpolate_control_points.
    destruct (Nat.ltb_spec (length pts) (p + 1)); [lia|].
    rewrite (chord_params_eq (D - 1)) by (auto; lia). cbn [bind].
    rewrite averaged_knots_eq by (auto; lia). cbn [bind]. rewrite !usub_ok by lia. cbn [bind].
    replace (length pts - (p + 1))%nat with (length pts - 1 - p)%nat by lia.
    pose proof (iknots_ok pts p Hd Hp Hn) as Hk.
    assert (Row : forall u, exists row, interp_row (iknots pts p) (length pts - 1) p (length pts - 1 - p) u = Ok row /\
      length row = length pts /\ rsum (length pts) (fun j => nth j row 0) = 1).
    { intros u. destruct (find_span_real eps maxv (iknots pts p) p (length pts - 1) u Hk He) as (s & Ef & Hsr & Hne & _).
      destruct (interp_row_real _ _ _ _ _ Hk Ef Hsr Hne) as (row & Erow & Lrow & Hrow).
      exists row. split; [exact Erow|]. split; [lia|].
      rewrite (rsum_ext _ _ (fun j => bs (kf (iknots pts p)) s p j u)) by (intros j Hj; apply Hrow; lia).
      apply bs_sum; auto; try lia. apply sorted_mono. apply (ko_sorted _ _ _ Hk). }
    assert (R : exists rows, mapM (interp_row (iknots pts p) (length pts - 1) p (length pts - 1 - p))
                  (map (iparam pts) (seq 0 (length pts))) = Ok rows /\ length rows = length pts /\
                Forall (fun row => length row = length pts /\ rsum (length pts) (fun j => nth j row 0) = 1) rows).
    { assert (G : forall us, exists rows, mapM (interp_row (iknots pts p) (length pts - 1) p (length pts - 1 - p)) us = Ok rows /\
         length rows = length us /\
         Forall (fun row => length row = length pts /\ rsum (length pts) (fun j => nth j row 0) = 1) rows).
      { induction us as [|u us (rows & E & L & F)].
        - exists []. repeat split. constructor.
        - destruct (Row u) as (row & Er & Lr & Sr). exists (row :: rows). cbn [mapM]. rewrite Er. cbn [bind]. rewrite E.
          split; [reflexivity|]. split; [cbn [length]; lia|]. constructor; auto. }
      destruct (G (map (iparam pts) (seq 0 (length pts)))) as (rows & E & L & F). rewrite map_length, seq_length in L. eauto. }
    destruct R as (rows & Er & Lr & Fr). rewrite Er. cbn [bind].
    destruct (solve_outcome solve rows pts (D - 1)) as [(cp & E)|(E & l & Hll & El)].
    - intros b x C Hb. destruct (Hs rows b x) as (L & _); [|lia|exact Hb|lia].
      intros r Hr. rewrite Forall_forall in Fr. destruct (Fr r Hr). lia.
    - lia.
    - exact Hl.
    - left. rewrite E. eexists. reflexivity.
    - right. split.
      + destruct E as (e & E). rewrite E. eexists. reflexivity.
      + exists rows, l. split; [exact Lr|]. split; [exact Hll|]. split; [exact El|].
        intros i Hi. rewrite Forall_forall in Fr. apply Fr, nth_In. lia.
  Qed.

  Theorem interpolate_too_few solve D (pts : list (list R)) p : (length pts < p + 1)%nat -> errs (try_interpolate solve D pts p).
  Proof.
    intros H. unfold try_interpolate, try_interpolate_control_points. rewrite (proj2 (Nat.ltb_lt _ _) H). eexists. reflexivity.
  Qed.
End Real.
