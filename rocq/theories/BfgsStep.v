(** * One step of the quasi-Newton solver over the reals *)
From Coq Require Import Reals Lra Lia.
From Verif Require Import Base BaseFacts Scalar RSum KnotFacts VecFacts ClosestModel BfgsModel BfgsProofs BfgsReal.
Open Scope R_scope.

(** the state is consistent with the problem: the stored cost and gradient are those of the present point, and the stored inverse
    Hessian (the identity when there is none) is symmetric and positive definite *)
Record state_ok (n : nat) (cost : list R -> Res R) (gradient : list R -> Res (list R)) (s : @BState R) (g : list R) (h : list (list R)) : Prop := {
  so_len : length (bs_x s) = n;
  so_cost : cost (bs_x s) = Ok (bs_cost s);
  so_grad : gradient (bs_x s) = Ok g;
  so_glen : length g = n;
  so_g : bs_g s = None \/ bs_g s = Some g;
  so_h : bs_h s = Some h \/ (bs_h s = None /\ forall i j, (i < n)%nat -> (j < n)%nat -> mc h i j = if (i =? j)%nat then 1 else 0);
  so_mat : mat_ok n h;
  so_sym : symmetric n h;
  so_pos : posdef n h
}.

Section Real.
  Variables eps maxv : R.
  Local Hint Extern 0 (Scalar R) => exact (ROps eps maxv) : typeclass_instances.

  Lemma id_entries n i j : (i < n)%nat -> (j < n)%nat -> mc (mat_id n) i j = if (i =? j)%nat then 1 else 0.
  Proof.
    intros Hi Hj. unfold mc, mat_id, rc. rewrite (nth_map_lt _ _ i 0%nat []) by (now rewrite seq_length). rewrite seq_nth by auto. cbn [Nat.add].
    rewrite (nth_map_lt _ _ j 0%nat 0) by (now rewrite seq_length). rewrite seq_nth by auto. reflexivity.
  Qed.
  Lemma mat_ext n h h' : mat_ok n h -> mat_ok n h' -> (forall i j, (i < n)%nat -> (j < n)%nat -> mc h i j = mc h' i j) -> h = h'.
  Proof.
    intros (L & Lr) (L' & Lr') E. apply (list_ext []); [congruence|]. intros i Hi. apply (list_ext 0); [rewrite Lr, Lr' by lia; reflexivity|].
    intros j Hj. rewrite Lr in Hj by lia. apply (E i j); lia.
  Qed.
  Lemma state_h n cost gradient s g h : state_ok n cost gradient s g h -> match bs_h s with Some h => h | None => mat_id (length (bs_x s)) end = h.
  Proof.
    intros H. destruct (so_h _ _ _ _ _ _ H) as [E|(E & V)]; rewrite E; [reflexivity|]. rewrite (so_len _ _ _ _ _ _ H).
    apply (mat_ext n); [apply identity_posdef|exact (so_mat _ _ _ _ _ _ H)|]. intros i j Hi Hj. rewrite V, id_entries by auto. reflexivity.
  Qed.

  (** the point at factor [t] along the descent direction -H g *)
  Definition descend (n : nat) (h : list (list R)) (x g : list R) (t : R) (y : list R) : Prop :=
    length y = n /\ forall i, (i < n)%nat -> rc i y = rc i x - t * rsum n (fun j => mc h i j * rc j g).

  Lemma trial_descend n h x g t : mat_ok n h -> length x = n -> length g = n -> descend n h x g t (vadd x (vscale (vopp (mat_vec h g)) t)).
  Proof.
    intros Hh Lx Lg. assert (Ls : length (vscale (vopp (mat_vec h g)) t) = n) by (unfold vscale, vopp, mat_vec; rewrite !map_length; apply Hh).
    split; [apply vadd_length; auto|]. intros i Hi. rewrite (rc_vadd eps maxv) by congruence. rewrite (rc_vscale eps maxv), (rc_vopp eps maxv), (rc_mat_vec eps maxv n) by auto. ring.
  Qed.
  Lemma descend_unique n h x g t y y' : descend n h x g t y -> descend n h x g t y' -> y = y'.
  Proof. intros (L & V) (L' & V'). apply (list_ext 0); [congruence|]. intros i Hi. change (rc i y = rc i y'). rewrite V, V' by lia. reflexivity. Qed.

  (** A step from a consistent state whose gradient does not vanish, when the cost along the descent direction is bounded by a parabola and the budget and
      the tolerance admit the halvings this needs: the point moves to x - t H g with t = 1/2^k, the cost decreases, the new cost and gradient are those of the new
      point, and the new inverse Hessian maps the change of the gradient to the change of the point.  It stays symmetric, and positive definite when the gradient
      grows along the step, so that the new state is consistent again. *)
  Theorem bfgs_step n cost gradient tol s g h L N : state_ok n cost gradient s g h -> answers cost -> answers gradient -> nonzero n g ->
    let slope := - form n h g g in
    (forall t y, 0 < t <= 1 -> descend n h (bs_x s) g t y -> exists f, cost y = Ok f /\ f <= bs_cost s + t * slope + L * (t * t)) ->
    L * (/ 2) ^ N < 9 / 10 * - slope -> (N < bs_max s)%nat ->
    tol <= (/ 2) ^ N * sqrt (rsum n (fun i => (rsum n (fun j => mc h i j * rc j g))²)) ->
    (forall t y, 0 < t <= 1 -> descend n h (bs_x s) g t y -> exists g', gradient y = Ok g' /\ length g' = n) ->
    exists s' k g', bfgs_next cost gradient tol s = Ok s' /\ (k <= N)%nat /\ descend n h (bs_x s) g ((/ 2) ^ k) (bs_x s') /\
      cost (bs_x s') = Ok (bs_cost s') /\ bs_cost s' < bs_cost s /\ gradient (bs_x s') = Ok g' /\ bs_g s' = Some g' /\
      (bs_max s' < bs_max s)%nat /\ bs_iter s' = S (bs_iter s) /\ bs_prev s' = Some (bs_cost s) /\
      exists h', bs_h s' = Some h' /\ mat_ok n h' /\ symmetric n h' /\
        let dg i := rc i g' - rc i g in let dx i := rc i (bs_x s') - rc i (bs_x s) in
        (rsum n (fun i => dg i * dx i) <> 0 -> forall i, (i < n)%nat -> rsum n (fun j => mc h' i j * dg j) = dx i) /\
        (0 < rsum n (fun i => dg i * dx i) -> state_ok n cost gradient s' g' h').
  Proof.
    intros Hs Ac Ag Hnz slope Hq HN Hmax Htol Hg'. destruct Hs as [Lx Ec Eg Lg Og Oh Hh Hsym Hpos].
    assert (Hs : state_ok n cost gradient s g h) by (constructor; assumption).
    assert (Hsl : slope < 0) by (unfold slope; specialize (Hpos g Lg Hnz); lra).
    unfold bfgs_next. assert (Eg0 : match bs_g s with Some g => Ok g | None => gradient (bs_x s) end = Ok g) by (destruct Og as [-> | ->]; auto).
    rewrite Eg0. cbn [bind]. rewrite (state_h n cost gradient s g h Hs). set (step := vopp (mat_vec h g)).
    assert (Ls : length step = n) by (unfold step, vopp, mat_vec; rewrite !map_length; apply Hh).
    assert (Es : forall i, (i < n)%nat -> rc i step = - rsum n (fun j => mc h i j * rc j g)).
    { intros i Hi. unfold step. rewrite (rc_vopp eps maxv), (rc_mat_vec eps maxv n) by auto. reflexivity. }
    assert (Edf : vdot g step = slope).
    { rewrite vdot_rsum by congruence. rewrite Lg. unfold slope, form. set (F := fun i => rc i g * rsum n (fun j => mc h i j * rc j g)).
      replace (- rsum n F) with (-1 * rsum n F) by ring. rewrite <- rsum_scal. unfold F.
      apply rsum_ext. intros i Hi. rewrite Es by auto. ring. }
    assert (Enm : vnorm step = sqrt (rsum n (fun i => (rsum n (fun j => mc h i j * rc j g))²))).
    { unfold vnorm, vnorm2. rewrite vdot_rsum, Ls by reflexivity. rs. f_equal. apply rsum_ext. intros i Hi. rewrite Es by auto. unfold Rsqr. ring. }
    rewrite Edf, Enm.
    destruct (line_search_accepts eps maxv cost (bs_x s) (bs_cost s) step (sqrt (rsum n (fun i => (rsum n (fun j => mc h i j * rc j g))²))) slope tol (bs_max s) L N Ac Hsl (sqrt_pos _))
      as (l & k & El & Hk & Et & Ex & f & Ef & Efc & Hf); auto.
    { intros t Ht. apply Hq; [exact Ht|]. apply trial_descend; auto. }
    change (@sone R (ROps eps maxv)) with 1. rewrite El. cbn [bind].
    assert (Hpow : forall i, 0 < (/ 2) ^ i <= 1) by (induction i as [|i IH]; cbn [pow]; lra).
    assert (Dx : descend n h (bs_x s) g ((/ 2) ^ k) (ls_x l)) by (rewrite Ex, Et; apply trial_descend; auto).
    destruct (Hg' _ _ (Hpow k) Dx) as (g' & Eg' & Lg'). rewrite Eg'. cbn [bind].
    assert (Hit : (ls_it l <= bs_max s)%nat /\ (0 < ls_it l)%nat).
    { destruct (line_search_ends cost (bs_x s) (bs_cost s) step (sqrt (rsum n (fun i => (rsum n (fun j => mc h i j * rc j g))²))) slope tol (bs_max s) (MkLS 1 (bs_x s) (Some (bs_cost s)) 0) Ac) as (l' & El' & _ & L1 & L2).
      rewrite El in El'. injection El' as <-. cbn [ls_it] in *. lia. }
    rewrite usub_ok by lia. cbn [bind]. eexists. exists k, g'. split; [reflexivity|]. cbn [bs_x bs_cost bs_g bs_max bs_iter bs_prev bs_h]. rewrite Ef.
    split; [exact Hk|]. split; [exact Dx|]. split; [exact Efc|]. split; [exact Hf|]. split; [exact Eg'|]. split; [reflexivity|]. split; [lia|]. split; [reflexivity|]. split; [reflexivity|].
    eexists. split; [reflexivity|]. set (y := vsub g' g). set (sv := vscale step (ls_t l)).
    assert (Ly : length y = n) by (apply vsub_length; auto). assert (Lsv : length sv = n) by (unfold sv; apply vscale_length; auto).
    assert (Ey : forall i, rc i y = rc i g' - rc i g) by (intros i; apply (rc_vsub eps maxv); congruence).
    assert (Esv : forall i, (i < n)%nat -> rc i sv = rc i (ls_x l) - rc i (bs_x s)).
    { intros i Hi. unfold sv. rewrite (rc_vscale eps maxv), Et, Es by auto. destruct Dx as (_ & V). rewrite V by auto. ring. }
    assert (Ed : dotp n y sv = rsum n (fun i => (rc i g' - rc i g) * (rc i (ls_x l) - rc i (bs_x s)))).
    { unfold dotp. apply rsum_ext. intros i Hi. rewrite Ey, Esv by auto. reflexivity. }
    destruct (update_entries eps maxv n h y sv Hh Ly Lsv) as (Mo & _).
    split; [exact Mo|]. split; [apply (bfgs_symmetric eps maxv); auto|]. cbv zeta. split.
    - intros Hne i Hi. rewrite <- Esv by auto. rewrite <- (bfgs_secant eps maxv n h y sv Hh Ly Lsv) by (auto; rewrite Ed; exact Hne).
      rewrite (rc_mat_vec eps maxv n) by auto. apply rsum_ext. intros j Hj. now rewrite Ey.
    - intros Hp. constructor; cbn [bs_x bs_cost bs_g bs_h]; auto; [apply Dx|apply (bfgs_symmetric eps maxv); auto|apply (bfgs_posdef eps maxv); auto; rewrite Ed; exact Hp].
  Qed.
End Real.
