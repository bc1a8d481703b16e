(** * The quasi-Newton solver: budget, sufficient decrease, the inverse Hessian, the best parameters *)
From Coq Require Import Reals Lra Lia.
From Verif Require Import Base BaseFacts Scalar RSum KnotFacts VecFacts ClosestModel BfgsModel.

Section Any.
  Context {T : Type} {SO : Scalar T}.
  Open Scope scalar_scope.

  (** evaluations succeed or fail in the ordinary way *)
  Definition answers {A B : Type} (f : A -> Res B) : Prop := forall x, (exists y, f x = Ok y) \/ (exists e, f x = Err e).

  (** the factor after [k] halvings *)
  Fixpoint halved (t : T) (k : nat) : T := match k with O => t | S k => halved (t * (sone / sofz 2)) k end.

  Section Search.
    Variables (cost : list T -> Res T) (x0 : list T) (f0 : T) (step : list T) (norm df0 tol : T).
    Notation trial t := (vadd x0 (vscale step t)).

    (** the trial at [t] is rejected: its cost fails or does not decrease enough *)
    Definition rejected (t : T) : Prop :=
      (exists e, cost (trial t) = Err e) \/ (exists f, cost (trial t) = Ok f /\ (sone / sofz 10 * t * df0 <=? f - f0) = true).

    (** how a search of [n] rounds starting from factor [t] can end *)
    Inductive search_end (n : nat) (t : T) (x : list T) (f : option T) (l : LS) : Prop :=
    | se_accept k v : (k < n)%nat -> (forall i, (i < k)%nat -> rejected (halved t i)) -> ls_t l = halved t k -> ls_x l = trial (ls_t l) ->
        ls_f l = Some v -> cost (ls_x l) = Ok v -> (sone / sofz 10 * ls_t l * df0 <=? v - f0) = false -> (ls_t l * norm <? tol) = false ->
        search_end n t x f l
    | se_short k : (k < n)%nat -> (forall i, (i < k)%nat -> rejected (halved t i)) -> ls_t l = halved t k -> (ls_t l * norm <? tol) = true -> search_end n t x f l
    | se_budget : (forall i, (i < n)%nat -> rejected (halved t i)) -> ls_t l = halved t n -> search_end n t x f l.

    Lemma line_search_ends n s : answers cost -> exists l, line_search n cost x0 f0 step norm df0 tol s = Ok l /\
      search_end n (ls_t s) (ls_x s) (ls_f s) l /\ (ls_it l <= ls_it s + n)%nat /\ (0 < n -> ls_it s < ls_it l)%nat.
    Proof.
      intros Hc. revert s. induction n as [|n IH]; intros s.
      - exists s. split; [reflexivity|]. split; [apply se_budget; [intros i Hi; lia|reflexivity]|]. lia.
      - cbn [line_search]. destruct (ls_t s * norm <? tol) eqn:Et.
        + eexists. split; [reflexivity|]. cbn [ls_t ls_x ls_f ls_it]. split; [|lia].
          apply (se_short _ _ _ _ _ 0); [lia|intros i Hi; lia|reflexivity|exact Et].
        + assert (Rec : rejected (ls_t s) -> forall f, exists l,
            line_search n cost x0 f0 step norm df0 tol (MkLS (ls_t s * (sone / sofz 2)) (trial (ls_t s)) f (S (ls_it s))) = Ok l /\
            search_end (S n) (ls_t s) (ls_x s) (ls_f s) l /\ (ls_it l <= ls_it s + S n)%nat /\ (0 < S n -> ls_it s < ls_it l)%nat).
          { intros Hr f. destruct (IH (MkLS (ls_t s * (sone / sofz 2)) (trial (ls_t s)) f (S (ls_it s)))) as (l & El & He & H1 & H2).
            exists l. cbn [ls_t ls_x ls_f ls_it] in *. split; [exact El|]. split.
            - assert (R' : forall k, (forall i, (i < k)%nat -> rejected (halved (ls_t s * (sone / sofz 2)) i)) ->
                forall i, (i < S k)%nat -> rejected (halved (ls_t s) i)).
              { intros k Hk i Hi. destruct i as [|i]; [exact Hr|]. apply Hk. lia. }
              destruct He as [k v Hk Hrej ? ? ? ? ? ?|k Hk Hrej ? ?|Hrej ?].
              + apply (se_accept _ _ _ _ _ (S k) v); auto; [lia|exact (R' k Hrej)].
              + apply (se_short _ _ _ _ _ (S k)); auto; [lia|exact (R' k Hrej)].
              + apply se_budget; auto. exact (R' n Hrej).
            - destruct n; [cbn [line_search] in El; injection El as <-; cbn [ls_it]; lia|]. specialize (H2 ltac:(lia)). lia. }
          destruct (Hc (trial (ls_t s))) as [(v & Ev)|(e & Ee)].
          * rewrite Ev. destruct (sone / sofz 10 * ls_t s * df0 <=? v - f0) eqn:Ea.
            -- apply Rec. right. eauto.
            -- eexists. split; [reflexivity|]. cbn [ls_t ls_x ls_f ls_it]. split; [|lia].
               apply (se_accept _ _ _ _ _ 0 v); auto; [lia|intros i Hi; lia].
          * rewrite Ee. apply Rec. left. eauto.
    Qed.

    (** the recorded cost is the cost of the recorded point, unless the cost failed there *)
    Lemma line_search_value (P : list T -> T -> Prop) n s l : line_search n cost x0 f0 step norm df0 tol s = Ok l ->
      (forall x v, cost x = Ok v -> P x v) -> (forall v, ls_f s = Some v -> P (ls_x s) v) -> forall v, ls_f l = Some v -> P (ls_x l) v.
    Proof.
      intros El HP. revert s El. induction n as [|n IH]; intros s El Hs; cbn [line_search] in El; [injection El as <-; exact Hs|].
      destruct (_ <? tol); [injection El as <-; exact Hs|].
      destruct (cost (trial (ls_t s))) as [v| e | e |] eqn:Ev; try discriminate.
      - destruct (_ <=? _).
        + refine (IH _ El _). cbn [ls_f ls_x]. intros w [= <-]. now apply HP.
        + injection El as <-. cbn [ls_f ls_x]. intros w [= <-]. now apply HP.
      - refine (IH _ El _). cbn [ls_f]. discriminate.
    Qed.
  End Search.

  (** *** The solver stops: [max] iterations of fuel are enough whatever the problem, and line searches count against the same budget *)
  Theorem bfgs_run_terminates cost gradient tol ctol max x0 : answers cost -> answers gradient ->
    bfgs_run (S max) cost gradient tol ctol max x0 <> OutOfFuel /\ forall e, bfgs_run (S max) cost gradient tol ctol max x0 <> Panic e.
  Proof.
    intros Hc Hg. unfold bfgs_run. destruct (Hc x0) as [(c0 & Ec)|(e & Ee)].
    2:{ rewrite Ee. cbn [bind]. split; [discriminate|intros; discriminate]. }
    rewrite Ec. cbn [bind]. set (s0 := MkBS _ _ _ _ _ _ _ _).
    assert (G : forall fuel s, (bs_max s - bs_iter s < fuel)%nat ->
      let r := loop_ fuel (fun s => if bfgs_stop tol ctol s then Ok (inr (bs_best s)) else s' <- bfgs_next cost gradient tol s ;; Ok (inl s')) s in
      r <> OutOfFuel /\ forall e, r <> Panic e).
    2:{ apply (G (S max) s0). cbn. lia. }
    induction fuel as [|fuel IH]; intros s Hf; [lia|]. cbn [loop_].
    destruct (bfgs_stop tol ctol s) eqn:Es; cbn [bind]; [split; [discriminate|intros; discriminate]|].
    assert (Hlt : (bs_iter s < bs_max s)%nat).
    { unfold bfgs_stop in Es. destruct (Nat.leb_spec (bs_max s) (bs_iter s)); [discriminate|lia]. }
    unfold bfgs_next. assert (Eg : (exists g, match bs_g s with Some g => Ok g | None => gradient (bs_x s) end = Ok g)
      \/ exists e, match bs_g s with Some g => Ok g | None => gradient (bs_x s) end = Err e).
    { destruct (bs_g s); [left; eauto|apply Hg]. }
    destruct Eg as [(g & ->)|(e & ->)]; cbn [bind]; [|split; [discriminate|intros; discriminate]].
    match goal with |- context [line_search ?n ?c ?x ?f ?st ?nm ?df ?t ?ls] => destruct (line_search_ends c x f st nm df t n ls Hc) as (l & El & _ & L1 & L2) end.
    rewrite El. cbn [bind]. destruct (Hg (ls_x l)) as [(g1 & ->)|(e & ->)]; cbn [bind]; [|split; [discriminate|intros; discriminate]].
    cbn [ls_it] in L1, L2. rewrite usub_ok by lia. cbn [bind]. apply IH. cbn [bs_max bs_iter]. lia.
  Qed.
End Any.
