(** * Periodic interpolation can be impossible: quadratics through an even number of points *)
From Coq Require Import Reals Lra Lia Psatz Sorted String List.
From Verif Require Import Base BaseFacts Scalar RSum BSplineSpec BSpline KnotModel KnotSpec KnotFacts KnotProofs VecFacts MiscModel
  CurveModel CurveSpec CurveProofs CurveGeom CurveGeom2 CurveShapes InterpModel InterpProofs InterpPeriodic.
Import ListNotations.
Open Scope list_scope. Open Scope R_scope.

(** +1, -1, +1, ... *)
Definition alt (i : nat) : R := if Nat.even i then 1 else -1.
Lemma alt_S i : alt (S i) = - alt i.
Proof. unfold alt. rewrite Nat.even_succ, <- Nat.negb_even. destruct (Nat.even i); cbn [negb]; lra. Qed.

(** the quadratic basis functions at the start of a span between two spans of the same length *)
Lemma quadratic_at_knot k s h : (2 <= s)%nat -> 0 < h -> k s = k (s - 1)%nat + h -> k (S s) = k s + h ->
  bs k s 2 (s - 2) (k s) = 1 / 2 /\ bs k s 2 (s - 1) (k s) = 1 / 2 /\ bs k s 2 s (k s) = 0.
Proof.
  intros Hs Hh H1 H2. destruct s as [|[|s]]; try lia. replace (S (S s) - 2)%nat with s by lia. replace (S (S s) - 1)%nat with (S s) in * by lia.
  assert (B00 : bs k (S (S s)) 0 (S (S s)) (k (S (S s))) = 1) by (cbn [bs]; rewrite Nat.eqb_refl; reflexivity).
  assert (Z : forall i q, (i <> S (S s))%nat -> bs k (S (S s)) 0 i q = 0) by (intros i q Hi; cbn [bs]; destruct (Nat.eqb_spec i (S (S s))); [contradiction|reflexivity]).
  assert (B1 : bs k (S (S s)) 1 (S s) (k (S (S s))) = 1).
  { rewrite bs_S. rewrite (Z (S s)) by lia. replace (S s + 1)%nat with (S (S s)) by lia. rewrite B00. unfold wr. 
    replace (S s + 1 + 1)%nat with (S (S (S s))) by lia. replace (S s + 1)%nat with (S (S s)) by lia. rewrite quot0_nz by lra. field. lra. }
  assert (B2 : bs k (S (S s)) 1 (S (S s)) (k (S (S s))) = 0).
  { rewrite bs_S. rewrite (Z (S (S s) + 1)%nat) by lia. unfold wl, quot0. destruct (Req_EM_T _ _); field_simplify; lra. }
  assert (B3 : bs k (S (S s)) 1 s (k (S (S s))) = 0) by (apply bs_support; lia).
  split; [|split].
  - rewrite bs_S, B3. replace (s + 1)%nat with (S s) by lia. rewrite B1. unfold wr.
    replace (s + 2 + 1)%nat with (S (S (S s))) by lia. replace (s + 1)%nat with (S s) by lia. rewrite quot0_nz by lra.
    rewrite H2, H1. field. lra.
  - rewrite bs_S, B1. replace (S s + 1)%nat with (S (S s)) by lia. rewrite B2. unfold wl.
    replace (S s + 2)%nat with (S (S (S s))) by lia. rewrite quot0_nz by lra. rewrite H2, H1. field. lra.
  - rewrite bs_S, B2. replace (S (S s) + 1)%nat with (S (S (S s))) by lia. rewrite (bs_support k (S (S s)) 1 (S (S (S s)))) by lia. ring.
Qed.

Section Real.
  Variables eps maxv : R.
  Local Hint Extern 0 (Scalar R) => exact (ROps eps maxv) : typeclass_instances.

  (** *** the closed quadratic through an even number of uniformly parametrised points exists only if the alternating sum of the points is zero *)
  Theorem periodic_even_quadratic_fails solve D pts l :
    exact_solver solve -> (1 <= D)%nat -> (3 <= length pts)%nat -> Nat.even (length pts) = true ->
    Forall (fun q => length q = (D - 1)%nat) pts -> distinct_loop pts -> 0 < eps <= / INR (length pts - 1) ->
    (l < D - 1)%nat -> rsum (length pts) (fun i => alt i * rc l (nth i pts [])) <> 0 ->
    errs (try_periodic_interpolate solve D pts 2 Uniform).
  Proof.
    intros Hs HD Hn Hev Hl Hd [He He2] Hll Halt. unfold try_periodic_interpolate, try_periodic_interpolate_control_points.
    destruct (Nat.ltb_spec (length pts) (2 + 1)); [lia|].
    rewrite (parameterize_eq eps maxv (D - 1)) by (auto; lia). cbn [bind].
    destruct (periodic_knots_eq eps maxv Uniform pts 2 ltac:(lia) ltac:(lia) Hd) as (K & EK & LK & HK & HK0 & HK1). rewrite EK. cbn [bind].
    set (n := length pts) in *.
    rewrite usub_ok by lia. cbn [bind]. rewrite usub_ok by lia. cbn [bind].
    rewrite usub_ok by lia. cbn [bind]. replace (length K - 2 - 2)%nat with (n + 2 - 1)%nat by lia.
    set (h := / INR (n - 1)).
    assert (HN : 0 < INR (n - 1)) by (apply lt_0_INR; lia).
    assert (Hh : 0 < h) by (apply Rinv_0_lt_compat; exact HN).
    assert (Step : forall i, pstep Uniform pts i = h) by (intros i; unfold pstep, h; fold n; unfold Rdiv; ring).
    assert (LS : forall j, (1 <= j)%nat -> loopk Uniform pts 2 (S j) = loopk Uniform pts 2 j + h) by (intros j Hj; rewrite loopk_S by exact Hj; rewrite Step; reflexivity).
    assert (Hmono : forall i, (i < n + 2 * 2)%nat -> kf K i <= kf K (S i)).
    { intros i Hi. destruct i as [|i]; [exact HK0|]. destruct (Nat.eq_dec (S (S i)) (n + 2 * 2)) as [G|G].
      - rewrite G. replace (S i) with (n + 2 * 2 - 1)%nat by lia. exact HK1.
      - rewrite !HK by lia. rewrite (LS (S i)) by lia. lra. }
    assert (Hsort : Sorted Rle K).
    { apply mono_sorted. intros i Hi. rewrite <- !(kf_nth _ _ 0) by lia. apply Hmono. lia. }
    assert (Hk : knots_ok 2 (n + 2 - 1) K).
    { constructor; try lia; try exact Hsort; try assumption.
      - rewrite !HK by lia. rewrite (Nat.add_1_r 2), (LS 2%nat) by lia. lra.
      - rewrite !HK by lia. rewrite (Nat.add_1_r (n + 2 - 1)), (LS (n + 2 - 1)%nat) by lia. lra. }
    assert (Hke : eps_ok eps 2 (n + 2 - 1) K).
    { split; [exact He|]. rewrite !HK by lia. rewrite (Nat.add_1_r 2), (Nat.add_1_r (n + 2 - 1)), (LS 2%nat), (LS (n + 2 - 1)%nat) by lia. fold h in He2. split; lra. }
    assert (Hm : mono (kf K)) by (apply sorted_mono; exact Hsort).
    assert (Row : forall i, (i < n)%nat -> exists row, periodic_row K (n + 2 - 1) 2 (n - (2 + 1)) i = Ok row /\ length row = n /\
      forall x, rsum n (fun j => nth j row 0 * x j) = (x i + x ((i + 1) mod n)%nat) / 2).
    { intros i Hi. destruct (find_span_brackets eps maxv K 2 (n + 2 - 1) (kf K (i + 2)) Hk Hke) as (s & Ef & Hsr & Hin).
      { split; apply mono_le; try exact Hm; lia. }
      assert (Es : s = (i + 2)%nat).
      { destruct Hin as (I1 & I2 & I3). assert (LT : forall a, (1 <= a <= n + 2)%nat -> kf K a < kf K (S a)) by (intros a Ha; rewrite !HK by lia; rewrite LS by lia; lra).
        destruct (lt_eq_lt_dec s (i + 2)) as [[C|C]|C]; [exfalso|exact C|exfalso].
        - pose proof (mono_le (kf K) (S s) (i + 2) Hm C). destruct I3 as [I3|[I3 I4]]; [lra|].
          subst s. lia.
        - pose proof (LT (i + 2)%nat ltac:(lia)). pose proof (mono_le (kf K) (S (i + 2)) s Hm ltac:(lia)). lra. }
      subst s. destruct (periodic_row_real eps maxv K 2 n i (i + 2) Hk ltac:(lia) Hi Ef Hsr (proj1 Hin)) as (row & Er & Lr & Hr).
      exists row. split; [exact Er|]. split; [exact Lr|]. intros x. rewrite Hr.
      destruct (quadratic_at_knot (kf K) (i + 2) h ltac:(lia) Hh) as (Q0 & Q1 & Q2).
      { replace (i + 2 - 1)%nat with (i + 1)%nat by lia. rewrite !HK by lia. replace (i + 2)%nat with (S (i + 1)) by lia. apply LS. lia. }
      { rewrite !HK by lia. apply LS. lia. }
      rewrite (rsum_window (n + 2) i 3); [|lia|intros j Hj C; rewrite bs_support by lia; ring].
      cbn [rsum]. replace (i + 2 - 2)%nat with i in Q0 by lia. replace (i + 2 - 1)%nat with (i + 1)%nat in Q1 by lia. rewrite !Nat.add_0_r.
      rewrite Q0, Q1, Q2. rewrite (Nat.mod_small i n) by exact Hi. lra. }
    assert (R : exists rows, mapM (periodic_row K (n + 2 - 1) 2 (n - (2 + 1))) (seq 0 n) = Ok rows /\ length rows = n).
    { assert (Q : forall q, (forall i, In i q -> (i < n)%nat) -> exists rows, mapM (periodic_row K (n + 2 - 1) 2 (n - (2 + 1))) q = Ok rows /\ length rows = length q).
      { induction q as [|i q IH]; intros B; [exists []; split; reflexivity|].
        destruct (Row i (B i (or_introl eq_refl))) as (row & Er & _). destruct IH as (rows & E & L); [intros x Hx; apply B; right; exact Hx|].
        exists (row :: rows). cbn [mapM]. rewrite Er. cbn [bind]. rewrite E. split; [reflexivity|cbn [length]; lia]. }
      destruct (Q (seq 0 n)) as (rows & E & L); [intros i Hi; apply in_seq in Hi; lia|]. rewrite seq_length in L. eauto. }
    destruct R as (rows & Er & Lr). rewrite Er. cbn [bind].
    assert (RV : forall i, (i < n)%nat -> length (nth i rows []) = n /\
      forall x, rsum n (fun j => nth j (nth i rows []) 0 * x j) = (x i + x ((i + 1) mod n)%nat) / 2).
    { intros i Hi. pose proof (mapM_at _ _ _ i 0%nat [] Er ltac:(rewrite seq_length; lia)) as F. 
      rewrite seq_nth in F by lia. destruct (Row i Hi) as (row & Erow & L & V). rewrite Nat.add_0_l in F. rewrite Erow in F. injection F as F. rewrite <- F. split; assumption. }
    assert (Sq : forall r, In r rows -> length r = length rows).
    { intros r Hr. destruct (In_nth _ _ [] Hr) as (i & Hi & <-). destruct (RV i ltac:(lia)) as (L & _). lia. }
    destruct (solve_outcome eps maxv solve rows pts (D - 1)) as [(cp & E)|(E & _)].
    - intros b x C Hb. destruct (Hs rows b x Sq) as (L & _); [fold n in C; lia|exact Hb|fold n in C; fold n; lia].
    - fold n; lia.
    - exact Hl.
    - exfalso. destruct (solve_rows eps maxv solve rows pts cp (D - 1) Hs ltac:(fold n; lia) Hl ltac:(fold n; lia) Sq E) as (_ & _ & Hsys).
      fold n in Hsys. apply Halt.
      set (x := fun j => rc l (nth j cp [])).
      set (g := fun i => alt i * x (i mod n)%nat / 2).
      rewrite (rsum_ext n _ (fun i => g i - g (S i))).
      + assert (T : forall m, rsum m (fun i => g i - g (S i)) = g 0%nat - g m).
        { induction m as [|m IH]; [cbn [rsum]; lra|]. cbn [rsum]. rewrite IH. lra. }
        rewrite T. unfold g. rewrite Nat.mod_same, Nat.mod_0_l by lia. unfold alt. rewrite Hev. cbn [Nat.even]. lra.
      + intros i Hi. rewrite <- (Hsys i l Hi Hll). destruct (RV i Hi) as (_ & V). pose proof (V x) as Vx. unfold x in Vx at 1. rewrite Vx. unfold g. rewrite alt_S, (Nat.mod_small i n) by exact Hi.
        rewrite Nat.add_1_r. lra.
    - destruct E as (e & E). rewrite E. eexists. reflexivity.
  Qed.
End Real.
