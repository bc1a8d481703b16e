(** * The quasi-Newton solver over the reals: descent, the secant condition, positive definiteness, best parameters *)
From Coq Require Import Reals Lra Lia.
From Verif Require Import Base BaseFacts Scalar RSum KnotFacts VecFacts TraversalProofs ClosestModel BfgsModel BfgsProofs.
Open Scope R_scope.

(** ** Specification: matrices as functions of their entries *)
Definition mc (h : list (list R)) (i j : nat) : R := rc j (nth i h []).
Definition mat_ok (n : nat) (h : list (list R)) : Prop := length h = n /\ forall i, (i < n)%nat -> length (nth i h []) = n.
Definition symmetric (n : nat) (h : list (list R)) : Prop := forall i j, (i < n)%nat -> (j < n)%nat -> mc h i j = mc h j i.
(** the form sum_ij x_i h_ij y_j *)
Definition form (n : nat) (h : list (list R)) (x y : list R) : R := rsum n (fun i => rc i x * rsum n (fun j => mc h i j * rc j y)).
Definition nonzero (n : nat) (x : list R) : Prop := exists i, (i < n)%nat /\ rc i x <> 0.
Definition posdef (n : nat) (h : list (list R)) : Prop := forall x, length x = n -> nonzero n x -> 0 < form n h x x.
Definition dotp (n : nat) (x y : list R) : R := rsum n (fun i => rc i x * rc i y).

Section Real.
  Variables eps maxv : R.
  Local Hint Extern 0 (Scalar R) => exact (ROps eps maxv) : typeclass_instances.

  Lemma rc_mat_vec n h y i : mat_ok n h -> length y = n -> (i < n)%nat -> rc i (mat_vec h y) = rsum n (fun j => mc h i j * rc j y).
  Proof.
    intros (L & R) Ly Hi. unfold mat_vec, rc at 1. rewrite (nth_map_lt _ _ i [] 0) by lia.
    rewrite vdot_rsum by (rewrite R by auto; now symmetry). rewrite R by auto. reflexivity.
  Qed.
  Lemma mat_vec_length n h (y : list R) : mat_ok n h -> length (mat_vec h y) = n.
  Proof. intros (L & _). unfold mat_vec. now rewrite map_length. Qed.

  Lemma rows_map2 (f : list R -> list R -> list R) (a b : list (list R)) i : length a = length b -> (i < length a)%nat ->
    nth i (map2 f a b) [] = f (nth i a []) (nth i b []).
  Proof.
    revert b i. induction a as [|x a IH]; intros [|y b] i L Hi; cbn [length] in *; try lia. destruct i; [reflexivity|]. cbn [map2 nth]. apply IH; lia.
  Qed.
  Lemma map2_length' {A B C} (f : A -> B -> C) (a : list A) (b : list B) : length a = length b -> length (map2 f a b) = length a.
  Proof. revert b. induction a as [|x a IH]; intros [|y b] L; cbn [length map2] in *; try lia. now rewrite IH by lia. Qed.

  Lemma mat_add_ok n a b : mat_ok n a -> mat_ok n b -> mat_ok n (mat_add a b) /\ forall i j, (i < n)%nat -> (j < n)%nat -> mc (mat_add a b) i j = mc a i j + mc b i j.
  Proof.
    intros (La & Ra) (Lb & Rb). unfold mat_add. split.
    - split; [rewrite map2_length'; lia|]. intros i Hi. rewrite rows_map2 by lia. apply vadd_length; auto.
    - intros i j Hi Hj. unfold mc. rewrite rows_map2 by lia. rewrite rc_vadd by (rewrite ?Ra, ?Rb; auto). reflexivity.
  Qed.
  Lemma mat_sub_ok n a b : mat_ok n a -> mat_ok n b -> mat_ok n (mat_sub a b) /\ forall i j, (i < n)%nat -> (j < n)%nat -> mc (mat_sub a b) i j = mc a i j - mc b i j.
  Proof.
    intros (La & Ra) (Lb & Rb). unfold mat_sub. split.
    - split; [rewrite map2_length'; lia|]. intros i Hi. rewrite rows_map2 by lia. apply vsub_length; auto.
    - intros i j Hi Hj. unfold mc. rewrite rows_map2 by lia. rewrite rc_vsub by (rewrite ?Ra, ?Rb; auto; lia). reflexivity.
  Qed.
  Lemma mat_scale_ok n a k : mat_ok n a -> mat_ok n (mat_scale a k) /\ forall i j, (i < n)%nat -> (j < n)%nat -> mc (mat_scale a k) i j = mc a i j * k.
  Proof.
    intros (La & Ra). unfold mat_scale. split.
    - split; [now rewrite map_length|]. intros i Hi. rewrite (nth_map_lt _ _ i [] []) by lia. apply vscale_length; auto.
    - intros i j Hi Hj. unfold mc. rewrite (nth_map_lt _ _ i [] []) by lia. now rewrite rc_vscale.
  Qed.
  Lemma mat_divs_ok n a k : mat_ok n a -> mat_ok n (mat_divs a k) /\ forall i j, (i < n)%nat -> (j < n)%nat -> mc (mat_divs a k) i j = mc a i j / k.
  Proof.
    intros (La & Ra). unfold mat_divs. split.
    - split; [now rewrite map_length|]. intros i Hi. rewrite (nth_map_lt _ _ i [] []) by lia. apply vdivs_length; auto.
    - intros i j Hi Hj. unfold mc. rewrite (nth_map_lt _ _ i [] []) by lia. now rewrite rc_vdivs.
  Qed.
  Lemma outer_ok n a b : length a = n -> length b = n -> mat_ok n (outer a b) /\ forall i j, (i < n)%nat -> (j < n)%nat -> mc (outer a b) i j = rc i a * rc j b.
  Proof.
    intros La Lb. unfold outer. split.
    - split; [now rewrite map_length|]. intros i Hi. rewrite (nth_map_lt _ _ i 0 []) by lia. now rewrite map_length.
    - intros i j Hi Hj. unfold mc, rc at 1. rewrite (nth_map_lt _ _ i 0 []) by lia. rewrite (nth_map_lt _ _ j 0 0) by lia. reflexivity.
  Qed.

  Lemma vdot_dotp n (a b : list R) : length a = n -> length b = n -> vdot a b = dotp n a b.
  Proof. intros La Lb. rewrite vdot_rsum by congruence. now rewrite La. Qed.

  (** the entries of the update *)
  Lemma update_entries n h y s : mat_ok n h -> length y = n -> length s = n ->
    let ys := dotp n y s in let hy := mat_vec h y in
    mat_ok n (bfgs_update h y s) /\
    forall i j, (i < n)%nat -> (j < n)%nat -> mc (bfgs_update h y s) i j =
      mc h i j + rc i s * rc j s * ((ys + dotp n y hy) / (ys * ys)) - (rc i hy * rc j s + rc i s * rc j hy) / ys.
  Proof.
    intros Hh Ly Ls ys hy. assert (Lhy : length hy = n) by now apply mat_vec_length.
    unfold bfgs_update. fold hy. rewrite (vdot_dotp n y s), (vdot_dotp n y hy) by auto. fold ys. rs.
    destruct (outer_ok n s s Ls Ls) as (O1 & E1). destruct (outer_ok n hy s Lhy Ls) as (O2 & E2). destruct (outer_ok n s hy Ls Lhy) as (O3 & E3).
    destruct (mat_scale_ok n _ ((ys + dotp n y hy) / (ys * ys)) O1) as (O4 & E4). destruct (mat_add_ok n _ _ Hh O4) as (O5 & E5).
    destruct (mat_add_ok n _ _ O2 O3) as (O6 & E6). destruct (mat_divs_ok n _ ys O6) as (O7 & E7). destruct (mat_sub_ok n _ _ O5 O7) as (O8 & E8).
    split; [exact O8|]. intros i j Hi Hj. rewrite E8, E5, E4, E1, E7, E6, E2, E3 by auto. reflexivity.
  Qed.

  (** *** Secant condition: the updated inverse Hessian maps the change of the gradient to the step *)
  Theorem bfgs_secant n h y s : mat_ok n h -> length y = n -> length s = n -> dotp n y s <> 0 ->
    forall i, (i < n)%nat -> rc i (mat_vec (bfgs_update h y s) y) = rc i s.
  Proof.
    intros Hh Ly Ls Hys i Hi. destruct (update_entries n h y s Hh Ly Ls) as (Ok1 & E). rewrite (rc_mat_vec n) by auto.
    set (ys := dotp n y s) in *. set (hy := mat_vec h y) in *.
    rewrite (rsum_ext n _ (fun j => mc h i j * rc j y + (rc i s * ((ys + dotp n y hy) / (ys * ys)) * (rc j y * rc j s)
       - (rc i hy / ys * (rc j y * rc j s) + rc i s / ys * (rc j y * rc j hy))))).
    2:{ intros j Hj. rewrite E by auto. field. exact Hys. }
    rewrite rsum_plus, rsum_minus, rsum_plus, !rsum_scal. fold (dotp n y s). fold (dotp n y hy). fold ys.
    rewrite <- (rc_mat_vec n h y i) by auto. fold hy. field. exact Hys.
  Qed.

  Theorem bfgs_symmetric n h y s : mat_ok n h -> length y = n -> length s = n -> symmetric n h -> symmetric n (bfgs_update h y s).
  Proof.
    intros Hh Ly Ls Hs i j Hi Hj. destruct (update_entries n h y s Hh Ly Ls) as (_ & E). rewrite !E by auto. rewrite (Hs i j) by auto. unfold Rdiv. ring.
  Qed.

  Lemma form_dotp n h x y : mat_ok n h -> length y = n -> form n h x y = dotp n x (mat_vec h y).
  Proof. intros Hh Ly. unfold form, dotp. apply rsum_ext. intros i Hi. now rewrite (rc_mat_vec n h y i). Qed.
  Lemma dotp_comm n x y : dotp n x y = dotp n y x.
  Proof. unfold dotp. apply rsum_ext. intros. ring. Qed.
  Lemma form_sym n h x y : symmetric n h -> form n h x y = form n h y x.
  Proof.
    intros Hs. unfold form.
    rewrite (rsum_ext n (fun i => rc i x * rsum n (fun j => mc h i j * rc j y)) (fun i => rsum n (fun j => rc i x * (mc h i j * rc j y)))) by (intros; now rewrite rsum_scal).
    rewrite (rsum_ext n (fun i => rc i y * rsum n (fun j => mc h i j * rc j x)) (fun i => rsum n (fun j => rc i y * (mc h i j * rc j x)))) by (intros; now rewrite rsum_scal).
    rewrite rsum_swap. apply rsum_ext. intros i Hi. apply rsum_ext. intros j Hj. rewrite (Hs i j) by auto. ring.
  Qed.

  (** x - k y *)
  Definition axpy (n : nat) (x y : list R) (k : R) : list R := map (fun i => rc i x - k * rc i y) (seq 0 n).
  Lemma rc_axpy n x y k i : (i < n)%nat -> rc i (axpy n x y k) = rc i x - k * rc i y.
  Proof. intros Hi. unfold axpy, rc at 1. rewrite (nth_map_lt _ _ i 0%nat 0) by (now rewrite seq_length). now rewrite seq_nth. Qed.
  Lemma form_axpy n h x y k : symmetric n h -> form n h (axpy n x y k) (axpy n x y k) = form n h x x - 2 * k * form n h x y + k * k * form n h y y.
  Proof.
    intros Hs. unfold form at 1.
    rewrite (rsum_ext n _ (fun i => (rc i x * rsum n (fun j => mc h i j * rc j x) - k * (rc i x * rsum n (fun j => mc h i j * rc j y)))
       - (k * (rc i y * rsum n (fun j => mc h i j * rc j x)) - k * k * (rc i y * rsum n (fun j => mc h i j * rc j y))))).
    2:{ intros i Hi. rewrite rc_axpy by auto. rewrite (rsum_ext n _ (fun j => mc h i j * rc j x - k * (mc h i j * rc j y))) by (intros j Hj; rewrite rc_axpy by auto; ring).
        rewrite rsum_minus, rsum_scal. ring. }
    rewrite !rsum_minus, !rsum_scal. fold (form n h x x) (form n h x y) (form n h y x) (form n h y y). rewrite (form_sym n h y x) by auto. ring.
  Qed.

  Lemma zero_or_not n x : nonzero n x \/ forall i, (i < n)%nat -> rc i x = 0.
  Proof.
    induction n as [|n IH]; [right; intros i Hi; lia|]. destruct IH as [(i & Hi & H)|H]; [left; exists i; split; [lia|exact H]|].
    destruct (Req_dec (rc n x) 0) as [Z|Z]; [right|left; exists n; split; [lia|exact Z]].
    intros i Hi. destruct (Nat.eq_dec i n) as [->|]; [exact Z|apply H; lia].
  Qed.

  (** *** Positive definiteness survives the update when the curvature along the step is positive *)
  Theorem bfgs_posdef n h y s : mat_ok n h -> length y = n -> length s = n -> symmetric n h -> posdef n h -> 0 < dotp n y s ->
    posdef n (bfgs_update h y s).
  Proof.
    intros Hh Ly Ls Hs Hp Hys x Lx Hx. destruct (update_entries n h y s Hh Ly Ls) as (_ & E). set (ys := dotp n y s) in *. set (hy := mat_vec h y) in *.
    assert (Ehy : forall z, dotp n z hy = form n h z y) by (intros z; unfold hy; now rewrite form_dotp).
    set (S := dotp n s x). set (k := S / ys).
    assert (Ef : form n (bfgs_update h y s) x x = form n h (axpy n x y k) (axpy n x y k) + S * S / ys).
    { rewrite form_axpy by auto. unfold form at 1.
      rewrite (rsum_ext n _ (fun i => rc i x * rsum n (fun j => mc h i j * rc j x) + ((S * ((ys + dotp n y hy) / (ys * ys))) * (rc i s * rc i x)
         - ((S / ys) * (rc i x * rc i hy) + (dotp n x hy / ys) * (rc i s * rc i x))))).
      2:{ intros i Hi.
          rewrite (rsum_ext n _ (fun j => mc h i j * rc j x + ((rc i s * ((ys + dotp n y hy) / (ys * ys))) * (rc j s * rc j x)
             - ((rc i hy / ys) * (rc j s * rc j x) + (rc i s / ys) * (rc j x * rc j hy))))) by (intros j Hj; rewrite E by auto; unfold Rdiv; ring).
          rewrite rsum_plus, rsum_minus, rsum_plus, !rsum_scal. fold (dotp n s x) (dotp n x hy). fold S. unfold Rdiv. ring. }
      rewrite rsum_plus, rsum_minus, rsum_plus, !rsum_scal. fold (form n h x x). fold (dotp n s x) (dotp n x hy). fold S. rewrite !Ehy. unfold k. field. lra. }
    rewrite Ef. assert (Q : 0 <= S * S / ys) by (apply Rmult_le_pos; [apply Rle_0_sqr|left; now apply Rinv_0_lt_compat]).
    destruct (Req_dec S 0) as [Z|Z].
    - assert (Kz : k = 0) by (unfold k; rewrite Z; unfold Rdiv; ring).
      assert (0 < form n h (axpy n x y k) (axpy n x y k)); [|lra].
      apply Hp; [unfold axpy; now rewrite map_length, seq_length|]. destruct Hx as (i & Hi & Hne). exists i. split; [exact Hi|]. rewrite rc_axpy by auto. rewrite Kz. lra.
    - assert (0 < S * S / ys). { apply Rmult_lt_0_compat; [|now apply Rinv_0_lt_compat]. assert (0 < S \/ S < 0) as [C|C] by lra; nra. }
      assert (0 <= form n h (axpy n x y k) (axpy n x y k)); [|lra].
      destruct (zero_or_not n (axpy n x y k)) as [Hz|Hz].
      + left. apply Hp; auto. unfold axpy. now rewrite map_length, seq_length.
      + right. symmetry. unfold form. apply rsum_0. intros i Hi. rewrite Hz by auto. ring.
  Qed.

  Lemma identity_posdef n : mat_ok n (mat_id n) /\ symmetric n (mat_id n) /\ posdef n (mat_id n).
  Proof.
    assert (E : forall i j, (i < n)%nat -> (j < n)%nat -> mc (mat_id n) i j = if (i =? j)%nat then 1 else 0).
    { intros i j Hi Hj. unfold mc, mat_id, rc. rewrite (nth_map_lt _ _ i 0%nat []) by (now rewrite seq_length). rewrite seq_nth by auto. cbn [Nat.add].
      rewrite (nth_map_lt _ _ j 0%nat 0) by (now rewrite seq_length). rewrite seq_nth by auto. reflexivity. }
    split; [|split].
    - split; [unfold mat_id; now rewrite map_length, seq_length|]. intros i Hi. unfold mat_id. rewrite (nth_map_lt _ _ i 0%nat []) by (now rewrite seq_length).
      now rewrite map_length, seq_length.
    - intros i j Hi Hj. rewrite !E by auto. now rewrite Nat.eqb_sym.
    - intros x Lx (i & Hi & Hx). unfold form.
      rewrite (rsum_ext n _ (fun i => rc i x * rc i x)).
      + apply (rsum_pos n _ i); auto; [intros; apply Rle_0_sqr|]. apply Rsqr_pos_lt in Hx. exact Hx.
      + intros k Hk. f_equal. rewrite (rsum_single n k); [|exact Hk|intros j Hj Hne; rewrite E by auto; destruct (Nat.eqb_spec k j); [congruence|ring]].
        rewrite E by auto. rewrite Nat.eqb_refl. ring.
  Qed.

  (** the search direction -H g *)
  Definition direction (h : list (list R)) (g : list R) : list R := vopp (mat_vec h g).
  Lemma rc_vopp i (a : list R) : rc i (vopp a) = - rc i a.
  Proof. unfold rc, vopp. destruct (Nat.lt_ge_cases i (length a)) as [C|C]; [now rewrite (nth_map_lt _ _ i 0 0)|]. rewrite !nth_overflow by (rewrite ?map_length; auto). rs. ring. Qed.

  (** *** With a positive definite matrix the direction is a descent direction *)
  Theorem direction_descends n h g : mat_ok n h -> length g = n -> posdef n h -> nonzero n g -> dotp n g (direction h g) < 0.
  Proof.
    intros Hh Lg Hp Hg. assert (E : dotp n g (direction h g) = - form n h g g).
    { rewrite form_dotp by auto. unfold dotp. replace (- rsum n (fun i => rc i g * rc i (mat_vec h g))) with (-1 * rsum n (fun i => rc i g * rc i (mat_vec h g))) by ring.
      rewrite <- rsum_scal. apply rsum_ext. intros i Hi. unfold direction. rewrite rc_vopp. ring. }
    rewrite E. specialize (Hp g Lg Hg). lra.
  Qed.

  Lemma halved_R t k : halved t k = t * (/ 2) ^ k.
  Proof. revert t. induction k as [|k IH]; intros t; cbn [halved pow]; [ring|]. rewrite IH. rs. unfold Rdiv. ring. Qed.

  (** *** Sufficient decrease of an accepted step *)
  Definition armijo (cost : list R -> Res R) (x0 : list R) (f0 : R) (step : list R) (df0 t : R) : Prop :=
    exists f, cost (vadd x0 (vscale step t)) = Ok f /\ f < f0 + t * df0 / 10.

  (** every search ends with an accepted factor, a factor whose step is shorter than the tolerance, or after the whole budget;
      all the factors tried before (1, 1/2, 1/4, ...) fail the sufficient decrease *)
  Theorem line_search_outcome cost x0 f0 step norm df0 tol n : answers cost ->
    exists l k, line_search n cost x0 f0 step norm df0 tol (MkLS 1 x0 (Some f0) 0) = Ok l /\
      ls_t l = (/ 2) ^ k /\ (k <= n)%nat /\ (ls_it l <= n)%nat /\
      (forall i, (i < k)%nat -> ~ armijo cost x0 f0 step df0 ((/ 2) ^ i)) /\
      ((armijo cost x0 f0 step df0 (ls_t l) /\ ls_x l = vadd x0 (vscale step (ls_t l)) /\ exists f, ls_f l = Some f /\ cost (ls_x l) = Ok f /\ f < f0 + ls_t l * df0 / 10)
       \/ ls_t l * norm < tol \/ k = n).
  Proof.
    intros Hc. destruct (line_search_ends cost x0 f0 step norm df0 tol n (MkLS 1 x0 (Some f0) 0) Hc) as (l & El & He & L1 & L2).
    cbn [ls_t ls_x ls_f ls_it] in *.
    assert (Rej : forall i, rejected cost x0 f0 step df0 (halved 1 i) -> ~ armijo cost x0 f0 step df0 ((/ 2) ^ i)).
    { intros i. rewrite halved_R, Rmult_1_l. intros [(e & Ee)|(f & Ef & Hf)] (f' & Ef' & Hf').
      - rewrite Ee in Ef'. discriminate.
      - rewrite Ef in Ef'. injection Ef' as <-. revert Hf. rs. destruct (Rleb_spec (1 / 10 * (/ 2) ^ i * df0) (f - f0)); [lra|discriminate]. }
    destruct He as [k v Hk Hr Et Ex Ef Ec Ha Hn|k Hk Hr Et Hs|Hr Et].
    - exists l, k. rewrite halved_R, Rmult_1_l in Et. split; [exact El|]. split; [exact Et|]. split; [lia|]. split; [lia|]. split; [auto|].
      left. assert (Hv : v < f0 + ls_t l * df0 / 10).
      { revert Ha. rs. destruct (Rleb_spec (1 / 10 * ls_t l * df0) (v - f0)); [discriminate|]. intros _. lra. }
      split; [|split; [exact Ex|now exists v]]. exists v. split; [|exact Hv]. rewrite <- Ex. exact Ec.
    - exists l, k. rewrite halved_R, Rmult_1_l in Et. split; [exact El|]. split; [exact Et|]. split; [lia|]. split; [lia|]. split; [auto|].
      right. left. revert Hs. rs. destruct (Rltb_spec (ls_t l * norm) tol); [auto|discriminate].
    - exists l, n. rewrite halved_R, Rmult_1_l in Et. split; [exact El|]. split; [exact Et|]. split; [lia|]. split; [lia|]. split; [auto|]. now right; right.
  Qed.

  (** *** The number of halvings is bounded for a cost with bounded curvature along the direction *)
  Theorem line_search_accepts cost x0 f0 step norm df0 tol n L N : answers cost -> df0 < 0 -> 0 <= norm ->
    (forall t, 0 < t <= 1 -> exists f, cost (vadd x0 (vscale step t)) = Ok f /\ f <= f0 + t * df0 + L * (t * t)) ->
    L * (/ 2) ^ N < 9 / 10 * - df0 -> (N < n)%nat -> tol <= (/ 2) ^ N * norm ->
    exists l k, line_search n cost x0 f0 step norm df0 tol (MkLS 1 x0 (Some f0) 0) = Ok l /\ (k <= N)%nat /\ ls_t l = (/ 2) ^ k /\
      ls_x l = vadd x0 (vscale step (ls_t l)) /\ exists f, ls_f l = Some f /\ cost (ls_x l) = Ok f /\ f < f0.
  Proof.
    intros Hc Hdf Hnorm Hq HN Hn Htol. destruct (line_search_outcome cost x0 f0 step norm df0 tol n Hc) as (l & k & El & Et & Hk & _ & Hrej & Hend).
    assert (Hpow : forall i, 0 < (/ 2) ^ i <= 1).
    { induction i as [|i IH]; cbn [pow]; lra. }
    assert (A : armijo cost x0 f0 step df0 ((/ 2) ^ N)).
    { destruct (Hq ((/ 2) ^ N) (Hpow N)) as (f & Ef & Hf). exists f. split; [exact Ef|]. set (t := (/ 2) ^ N) in *. pose proof (Hpow N) as Hp. fold t in Hp.
      assert (L * (t * t) < 9 / 10 * - df0 * t) by nra. lra. }
    assert (HkN : (k <= N)%nat). { destruct (Nat.le_gt_cases k N) as [C|C]; [exact C|]. exfalso. exact (Hrej N C A). }
    exists l, k. split; [exact El|]. split; [exact HkN|]. split; [exact Et|].
    assert (Mono : (/ 2) ^ N <= (/ 2) ^ k).
    { clear - HkN Hpow. induction HkN as [|m H IH]; [lra|]. cbn [pow]. pose proof (Hpow m). lra. }
    destruct Hend as [(_ & Ex & f & Ef & Ec & Hf)|[Hs|Hs]].
    - split; [exact Ex|]. exists f. split; [exact Ef|]. split; [exact Ec|]. pose proof (Hpow k). rewrite Et in Hf. nra.
    - exfalso. rewrite Et in Hs. nra.
    - lia.
  Qed.

  (** ** The whole run *)
  (** *** The best parameters: never worse than the start, with their true cost *)
  Theorem bfgs_best fuel cost gradient tol ctol max x0 r : bfgs_run fuel cost gradient tol ctol max x0 = Ok r ->
    exists c0 x c, cost x0 = Ok c0 /\ r = Some (x, c) /\ cost x = Ok c /\ c <= c0.
  Proof.
    intros E. unfold bfgs_run in E. apply bind_ok in E. destruct E as (c0 & Ec & E). exists c0.
    cut (exists x c, r = Some (x, c) /\ cost x = Ok c /\ c <= c0); [intros (x & c & H); now exists x, c|].
    apply (loop_partial (fun s : BState => exists x c, bs_best s = Some (x, c) /\ cost x = Ok c /\ c <= c0 /\ c <= bs_cost s)
            (fun r => exists x c, r = Some (x, c) /\ cost x = Ok c /\ c <= c0)) in E; auto.
    - exists x0, c0. cbn [bs_best bs_cost bs_x]. unfold best_update. rs. destruct (Reqb_spec c0 c0); [|congruence]. repeat split; auto; lra.
    - intros s s' (x & c & H1 & H2 & H3 & H4) Es. destruct (bfgs_stop tol ctol s); [discriminate|]. apply bind_ok in Es. destruct Es as (s1 & Es & E1).
      injection E1 as ->. unfold bfgs_next in Es. apply bind_ok in Es. destruct Es as (g0 & _ & Es). apply bind_ok in Es. destruct Es as (l & El & Es).
      apply bind_ok in Es. destruct Es as (g1 & _ & Es). apply bind_ok in Es. destruct Es as (m & _ & Es). injection Es as <-.
      cbn [bs_best bs_cost bs_x]. rewrite H1. unfold best_update. rs.
      destruct (ls_f l) as [f|] eqn:Ef.
      + destruct (Rltb_spec f c) as [C|C].
        * exists (ls_x l), f. split; [reflexivity|].
          assert (Ev : cost (ls_x l) = Ok f \/ (ls_x l = bs_x s /\ f = bs_cost s)).
          { revert f Ef C. refine (fun f Ef _ => line_search_value _ _ _ _ _ _ _ (fun y v => cost y = Ok v \/ (y = bs_x s /\ v = bs_cost s)) _ _ _ El _ _ f Ef).
            - intros y v Hv. now left.
            - cbn [ls_f ls_x]. intros v [= <-]. now right. }
          destruct Ev as [Ev|(_ & ->)]; [|lra]. split; [exact Ev|]. split; lra.
        * exists x, c. split; [reflexivity|]. split; [exact H2|]. split; lra.
      + destruct (Rltb_spec (bs_cost s) c); [lra|]. exists x, c. split; [reflexivity|]. split; [exact H2|]. split; lra.
    - intros s a (x & c & H1 & H2 & H3 & _) Es. destruct (bfgs_stop tol ctol s); [|apply bind_ok in Es; destruct Es as (? & _ & Es); discriminate].
      injection Es as <-. exists x, c. auto.
  Qed.
End Real.
