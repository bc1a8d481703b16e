(** * The intersection solver run with the two curves exchanged takes the mirrored steps *)
From Coq Require Import Reals Lra Lia ZArith List String Bool.
From Verif Require Import Base BaseFacts Scalar KnotModel KnotFacts KnotMisc CurveModel ClosestModel BfgsModel TraversalModel IntersectModel.
Import ListNotations.
Local Open Scope list_scope. Local Open Scope R_scope.

Section Real.
  Variables eps maxv : R.
  Local Hint Extern 0 (Scalar R) => exact (ROps eps maxv) : typeclass_instances.

  Inductive v2 : list R -> Prop := V2 p q : v2 [p; q].
  Inductive m2 : list (list R) -> Prop := M2 p q r s : m2 [[p; q]; [r; s]].
  Definition msw (h : list (list R)) : list (list R) := rev (map (@rev R) h).

  Lemma vdot_rev x y : v2 x -> v2 y -> vdot (rev x) (rev y) = vdot x y.
  Proof. intros [p q] [r s]. unfold vdot, ssum. cbn [rev app map2 fold_left]. rs. ring. Qed.
  Lemma vnorm_rev x : v2 x -> vnorm (rev x) = vnorm x.
  Proof. intros H. unfold vnorm, vnorm2. now rewrite vdot_rev. Qed.
  Lemma mat_vec_rev h x : m2 h -> v2 x -> mat_vec (msw h) (rev x) = rev (mat_vec h x) /\ v2 (mat_vec h x).
  Proof.
    intros [p q r s] Hx. split; [|constructor]. unfold mat_vec, msw. cbn [map rev app].
    change [s; r] with (rev [r; s]). change [q; p] with (rev [p; q]). rewrite !vdot_rev by (auto; constructor). reflexivity.
  Qed.
  Lemma vopp_rev x : v2 x -> vopp (rev x) = rev (vopp x) /\ v2 (vopp x).
  Proof. intros [p q]. split; [reflexivity|constructor]. Qed.
  Lemma vsub_rev x y : v2 x -> v2 y -> vsub (rev x) (rev y) = rev (vsub x y) /\ v2 (vsub x y).
  Proof. intros [p q] [r s]. split; [reflexivity|constructor]. Qed.
  Lemma vadd_rev x y : v2 x -> v2 y -> vadd (rev x) (rev y) = rev (vadd x y) /\ v2 (vadd x y).
  Proof. intros [p q] [r s]. split; [reflexivity|constructor]. Qed.
  Lemma vscale_rev x k : v2 x -> vscale (rev x) k = rev (vscale x k) /\ v2 (vscale x k).
  Proof. intros [p q]. split; [reflexivity|constructor]. Qed.
  Lemma update_rev h y s : m2 h -> v2 y -> v2 s -> bfgs_update (msw h) (rev y) (rev s) = msw (bfgs_update h y s) /\ m2 (bfgs_update h y s).
  Proof.
    intros Hh Hy Hs. unfold bfgs_update. cbv zeta. destruct (mat_vec_rev h y Hh Hy) as (E & V). rewrite E, (vdot_rev y s Hy Hs), (vdot_rev y _ Hy V).
    generalize ((vdot y s + vdot y (mat_vec h y)) / (vdot y s * vdot y s))%S (vdot y s). intros k ys. destruct Hh, Hs, V. split; [reflexivity|constructor].
  Qed.

  (** ** Costs and gradients that agree after the exchange *)
  Variables (cost cost' : list R -> Res R) (gradient gradient' : list R -> Res (list R)).
  Hypothesis costs : forall x, v2 x -> match cost x with Ok f => cost' (rev x) = Ok f | Err _ => exists e, cost' (rev x) = Err e | _ => True end.
  Hypothesis gradients : forall x g, v2 x -> gradient x = Ok g -> gradient' (rev x) = Ok (rev g) /\ v2 g.

  Definition lsw (l : @LS R) : @LS R := MkLS (ls_t l) (rev (ls_x l)) (ls_f l) (ls_it l).
  Lemma line_search_rev n x0 f0 step norm df0 tol : v2 x0 -> v2 step -> forall s l, v2 (ls_x s) -> line_search n cost x0 f0 step norm df0 tol s = Ok l ->
    line_search n cost' (rev x0) f0 (rev step) norm df0 tol (lsw s) = Ok (lsw l) /\ v2 (ls_x l).
  Proof.
    intros H0 Hs. induction n as [|n IH]; intros s l V H; cbn [line_search] in *; [injection H as <-; auto|]. cbv zeta in *. cbn [lsw ls_t ls_it ls_x ls_f].
    destruct (ls_t s * norm <? tol)%S; [injection H as <-; auto|].
    destruct (vscale_rev step (ls_t s) Hs) as (E1 & V1). destruct (vadd_rev x0 _ H0 V1) as (E2 & V2'). rewrite E1, E2.
    pose proof (costs _ V2') as C. revert C H. destruct (cost (vadd x0 (vscale step (ls_t s)))) as [f1|e| |]; intros C H; [rewrite C|destruct C as (e' & ->)| |]; try discriminate H.
    - destruct (f1 - f0 >=? (sone / sofz 10) * ls_t s * df0)%S; [|injection H as <-; auto]. exact (IH (MkLS _ _ _ _) l V2' H).
    - exact (IH (MkLS _ _ _ _) l V2' H).
  Qed.

  Definition osw (b : option (list R * R)) : option (list R * R) := option_map (fun p => (rev (fst p), snd p)) b.
  Definition bsw (s : @BState R) : @BState R :=
    MkBS (rev (bs_x s)) (bs_cost s) (bs_prev s) (option_map (@rev R) (bs_g s)) (option_map msw (bs_h s)) (bs_max s) (bs_iter s) (osw (bs_best s)).
  Definition inv (s : @BState R) : Prop :=
    v2 (bs_x s) /\ (forall g, bs_g s = Some g -> v2 g) /\ (forall h, bs_h s = Some h -> m2 h) /\ (forall y c, bs_best s = Some (y, c) -> v2 y).

  Lemma best_rev b x f : best_update (osw b) (rev x) f = osw (best_update b x f).
  Proof. destruct b as [[y c]|]; unfold best_update, osw; cbn [option_map fst snd]; [destruct (f <? c)%S|destruct (f =? f)%S]; reflexivity. Qed.

  Lemma best_v2 (b : option (list R * R)) x (f : R) : v2 x -> (forall y c, b = Some (y, c) -> v2 y) -> forall y c, best_update b x f = Some (y, c) -> v2 y.
  Proof.
    intros V B y c. unfold best_update. destruct b as [[z d]|]; [destruct (f <? d)%S|destruct (f =? f)%S]; intros Q; try discriminate Q; injection Q as <- <-; eauto.
  Qed.

  Lemma next_rev tol s s' : inv s -> bfgs_next cost gradient tol s = Ok s' -> bfgs_next cost' gradient' tol (bsw s) = Ok (bsw s') /\ inv s'.
  Proof.
    intros (Vx & Vg & Vh & Vb) H. unfold bfgs_next in *. cbv zeta in *. apply bind_ok in H as (g0 & G & H). cbn [bsw bs_x bs_cost bs_g bs_h bs_max bs_iter bs_best bs_prev].
    assert (G' : match option_map (@rev R) (bs_g s) with Some g => Ok g | None => gradient' (rev (bs_x s)) end = Ok (rev g0) /\ v2 g0).
    { destruct (bs_g s) as [g|] eqn:Eg; cbn [option_map]; [injection G as <-; auto|]. now apply gradients. }
    destruct G' as (G' & V0). rewrite G'. cbn [bind].
    set (h0 := match bs_h s with Some h => h | None => mat_id (length (bs_x s)) end) in *.
    assert (Hh : match option_map msw (bs_h s) with Some h => h | None => mat_id (length (rev (bs_x s))) end = msw h0 /\ m2 h0).
    { subst h0. destruct (bs_h s) as [h|] eqn:Eh; cbn [option_map]; [auto|]. destruct Vx. split; [reflexivity|constructor]. }
    destruct Hh as (Eh & Mh). rewrite Eh. clearbody h0.
    destruct (mat_vec_rev h0 g0 Mh V0) as (E1 & V1). destruct (vopp_rev _ V1) as (E2 & W2). rewrite E1, E2.
    set (step := vopp (mat_vec h0 g0)) in *. clearbody step. rewrite (vnorm_rev step W2), (vdot_rev g0 step V0 W2).
    apply bind_ok in H as (l & L & H). destruct (line_search_rev _ _ _ _ _ _ _ Vx W2 (MkLS _ _ _ _) _ Vx L) as (L' & Vl).
    unfold lsw at 1 in L'. cbn [ls_t ls_x ls_f ls_it] in L'. rewrite L'. cbn [bind lsw ls_t ls_x ls_f ls_it].
    apply bind_ok in H as (g1 & G1 & H). destruct (gradients _ _ Vl G1) as (G1' & Vg1). rewrite G1'. cbn [bind].
    apply bind_ok in H as (m & Em & H). rewrite Em. cbn [bind]. injection H as <-.
    destruct (vsub_rev g1 g0 Vg1 V0) as (E3 & V3). destruct (vscale_rev step (ls_t l) W2) as (E4 & V4). rewrite E3, E4.
    destruct (update_rev h0 _ _ Mh V3 V4) as (E5 & M5). rewrite E5, best_rev. split; [reflexivity|].
    split; [exact Vl|]. split; [|split]; cbn [bs_g bs_h bs_best]; [intros ? Q; injection Q as <-; assumption|intros ? Q; injection Q as <-; assumption|]. now apply best_v2.
  Qed.

  Lemma stop_rev tol ctol s : inv s -> bfgs_stop tol ctol (bsw s) = bfgs_stop tol ctol s.
  Proof.
    intros (Vx & Vg & Vh & _). unfold bfgs_stop. cbn [bsw bs_x bs_cost bs_g bs_h bs_max bs_iter bs_best bs_prev].
    f_equal. f_equal; [f_equal; [f_equal|]|].
    - destruct (bs_g s) as [g|]; cbn [option_map]; [|reflexivity]. destruct (Vg g eq_refl). cbn [rev app existsb]. now destruct (negb (sfinite p)), (negb (sfinite q)).
    - destruct (bs_h s) as [h|]; cbn [option_map]; [|reflexivity]. destruct (Vh h eq_refl). unfold msw. cbn [map rev app existsb].
      now destruct (negb (sfinite p)), (negb (sfinite q)), (negb (sfinite r)), (negb (sfinite s0)).
    - destruct (bs_g s) as [g|], (bs_h s) as [h|]; cbn [option_map]; try reflexivity.
      destruct (mat_vec_rev h g (Vh h eq_refl) (Vg g eq_refl)) as (E & V). rewrite E. now rewrite vnorm_rev.
  Qed.

  (** the whole run: the same best cost at the mirrored parameters *)
  Theorem run_rev fuel tol ctol max x0 r : v2 x0 -> bfgs_run fuel cost gradient tol ctol max x0 = Ok r ->
    bfgs_run fuel cost' gradient' tol ctol max (rev x0) = Ok (osw r) /\ forall y c, r = Some (y, c) -> v2 y.
  Proof.
    intros V H. unfold bfgs_run in *. apply bind_ok in H as (c0 & C & H). pose proof (costs _ V) as C'. rewrite C in C'. rewrite C'. cbn [bind].
    assert (EB : best_update None (rev x0) c0 = osw (best_update None x0 c0)) by exact (best_rev None x0 c0). rewrite EB. change (MkBS (rev x0) c0 None None None max 0 (osw (best_update None x0 c0))) with (bsw (MkBS x0 c0 None None None max 0 (best_update None x0 c0))).
    assert (I : inv (MkBS x0 c0 None None None max 0 (best_update None x0 c0))) by (split; [exact V|split; [discriminate|split; [discriminate|]]]; apply best_v2; [exact V|discriminate]).
    revert I H. generalize (MkBS x0 c0 None None None max 0 (best_update None x0 c0)). clear C C' V. induction fuel as [|n IH]; intros s I H; cbn [loop_] in *; [discriminate|].
    rewrite (stop_rev _ _ _ I). destruct (bfgs_stop tol ctol s); cbn [bind] in *; [injection H as <-; split; [reflexivity|apply I]|].
    apply bind_ok in H as (z & Ez & H). apply bind_ok in Ez as (s' & Es & Ez). injection Ez as <-. destruct (next_rev _ _ _ I Es) as (E' & I'). rewrite E'. cbn [bind]. now apply IH.
  Qed.
End Real.

Section Curves.
  Variables eps maxv : R.
  Local Hint Extern 0 (Scalar R) => exact (ROps eps maxv) : typeclass_instances.

  Lemma vdot_flip (x y z : list R) : vdot (vsub x y) z = - vdot (vsub y x) z.
  Proof.
    unfold vdot, ssum. rs.
    assert (G : forall u v w : list R, forall s t, s = - t -> fold_left sadd (map2 smul (vsub u v) w) s = - fold_left sadd (map2 smul (vsub v u) w) t).
    { unfold vsub. induction u as [|a u IH]; intros [|b v] [|c w] s t E; cbn [map2 fold_left]; auto. apply IH. rs. rewrite E. ring. }
    exact (G x y z 0 0 ltac:(ring)).
  Qed.
  Lemma vnorm2_flip (x y : list R) : vnorm2 (vsub x y) = vnorm2 (vsub y x).
  Proof.
    unfold vnorm2, vdot. f_equal. unfold vsub. revert y. induction x as [|a x IH]; intros [|b y]; cbn [map2]; auto. f_equal; [rs; ring|apply IH].
  Qed.
  Lemma gap_flip D (p q : list R) (f : R) : gap_cost D p q = Ok f -> gap_cost D q p = Ok f.
  Proof.
    unfold gap_cost. cbv zeta. rewrite (andb_comm (negb (coord (D - 1) q =? szero)%S)). destruct (negb _ && negb _)%bool; [|discriminate]. now rewrite vnorm2_flip.
  Qed.
  Lemma gap_flip_err D (p q : list R) e : gap_cost D p q = Err e -> exists e', gap_cost D q p = Err e'.
  Proof.
    unfold gap_cost. cbv zeta. rewrite (andb_comm (negb (coord (D - 1) q =? szero)%S)). destruct (negb _ && negb _)%bool; [discriminate|eauto].
  Qed.

  (** exchanging the curves mirrors the answer of the solver *)
  Theorem solver_swap fuel o (a b : Curve R) ta tb : shape_ok a -> shape_ok b -> cdim a = cdim b ->
    bfgs_cc fuel o a b = Ok (Some (ta, tb)) -> bfgs_cc fuel o b a = Ok (Some (tb, ta)).
  Proof.
    intros Ha Hb Ed H. unfold bfgs_cc in *. apply bind_ok in H as ((a0 & a1) & Ea & H). apply bind_ok in H as ((b0 & b1) & Eb & H). rewrite Eb, Ea. cbn [bind].
    destruct (bfgs_run fuel (cc_cost a b) (cc_gradient a b) (op_step o) (op_cost o) (op_iters o) [a0; b0]) as [r|e| |] eqn:Er; try discriminate H.
    assert (C : forall y, v2 y -> match cc_cost a b y with Ok c => cc_cost b a (rev y) = Ok c | Err _ => exists e, cc_cost b a (rev y) = Err e | _ => True end).
    { intros y [p q]. unfold cc_cost. cbn [rev app]. unfold coord. cbn [nth]. destruct (point_total a p Ha) as (pa & Pa & _). destruct (point_total b q Hb) as (pb & Pb & _).
      rewrite Pa, Pb. cbn [bind]. rewrite <- Ed. destruct (gap_cost (cdim a) pa pb) as [c|e| |] eqn:G; [now apply gap_flip|now apply gap_flip_err in G| |]; exact I. }
    assert (Gr : forall y g, v2 y -> cc_gradient a b y = Ok g -> cc_gradient b a (rev y) = Ok (rev g) /\ v2 g).
    { intros y g [p q] G. unfold cc_gradient in *. cbn [rev app]. unfold coord in *. cbn [nth] in *.
      apply bind_ok in G as (du & Du & G). apply bind_ok in G as (dv & Dv & G). rewrite Dv, Du. cbn [bind].
      apply bind_ok in G as (du0 & U0 & G). apply bind_ok in G as (du1 & U1 & G). apply bind_ok in G as (dv0 & W0 & G). apply bind_ok in G as (dv1 & W1 & G).
      rewrite W0, W1, U0, U1. cbn [bind]. cbv zeta in *. injection G as <-. split; [|constructor]. unfold vscale. cbn [map rev app].
      rewrite (vdot_flip dv0 du0 dv1), (vdot_flip dv0 du0 du1). rs. apply f_equal. repeat (apply f_equal2; [ring|]). reflexivity. }
    destruct (run_rev eps maxv _ _ _ _ C Gr fuel (op_step o) (op_cost o) (op_iters o) [a0; b0] r (V2 a0 b0) Er) as (E' & V'). cbn [rev app] in E'. rewrite E'.
    destruct r as [(y & c)|]; [|discriminate]. cbn [osw option_map fst snd]. injection H as <- <-. destruct (V' y c eq_refl). reflexivity.
  Qed.
End Curves.
