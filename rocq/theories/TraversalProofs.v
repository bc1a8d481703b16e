(** * The bounding box traversal, for any two trees *)
From Coq Require Import Lia.
From Verif Require Import Base BaseFacts Scalar BBoxModel TraversalModel.
Local Open Scope nat_scope.

(** [x] is obtained from [r] by repeated divisions, with random numbers of the stream *)
Inductive descends {T A} (o : TreeOps T A) (rng : nat -> T) (r : A) : A -> Prop :=
| desc_root : descends o rng r r
| desc_left x k x0 x1 : descends o rng r x -> tdividable o x = Ok true ->
    tsplit o x (rng k) = Ok (x0, x1) -> descends o rng r x0
| desc_right x k x0 x1 : descends o rng r x -> tdividable o x = Ok true ->
    tsplit o x (rng k) = Ok (x0, x1) -> descends o rng r x1.

(** loops that return: partial correctness *)
Lemma loop_partial {St A} (I : St -> Prop) (Q : A -> Prop) fuel (step : St -> Res (St + A)) s r :
  I s ->
  (forall s s', I s -> step s = Ok (inl s') -> I s') ->
  (forall s a, I s -> step s = Ok (inr a) -> Q a) ->
  loop_ fuel step s = Ok r -> Q r.
Proof.
  intros HI H1 H2. revert s HI. induction fuel as [|fuel IH]; intros s HI E; cbn in E; [discriminate|].
  apply bind_ok in E. destruct E as (x & Ex & E). destruct x as [s'|a].
  - apply (IH s'); eauto.
  - injection E as ->. eauto.
Qed.

Section Generic.
  Context {T : Type} {SO : Scalar T}.
  Context {A B : Type} (oa : TreeOps T A) (ob : TreeOps T B) (D : nat) (rng : nat -> T).

  (** what is reported: leaves of the two trees whose boxes overlap *)
  Definition leaf_pair (ta : A) (tb : B) (p : A * B) : Prop :=
    descends oa rng ta (fst p) /\ descends ob rng tb (snd p) /\
    tdividable oa (fst p) = Ok false /\ tdividable ob (snd p) = Ok false /\
    exists ba bb, tbox oa (fst p) = Ok ba /\ tbox ob (snd p) = Ok bb /\
                  bb_intersects D ba bb (Some szero) = true.

  Theorem traverse_sound fuel ta tb pairs :
    traverse oa ob D rng fuel ta tb = Ok pairs -> Forall (leaf_pair ta tb) pairs.
  Proof.
    unfold traverse. apply (loop_partial (fun st : list (A * B) * list (A * B) * nat =>
      Forall (fun p => descends oa rng ta (fst p) /\ descends ob rng tb (snd p)) (fst (fst st)) /\
      Forall (leaf_pair ta tb) (snd (fst st)))).
    - cbn. split; [|constructor]. constructor; [|constructor]. split; constructor.
    - intros [[trees pairs0] k] s' (H1 & H2) E. cbn [fst snd] in *. unfold trav_step in E.
      destruct trees as [|[a b] rest]; [discriminate|].
      inversion H1 as [|? ? (Ha & Hb) Hr]; subst. cbn [fst snd] in Ha, Hb.
      apply bind_ok in E. destruct E as (ba & Eba & E). apply bind_ok in E. destruct E as (bb & Ebb & E).
      destruct (bb_intersects D ba bb (Some szero)) eqn:Ei; cbn [negb] in E.
      2:{ injection E as <-. auto. }
      apply bind_ok in E. destruct E as (ai & Eai & E). apply bind_ok in E. destruct E as (bi & Ebi & E).
      destruct ai, bi.
      + apply bind_ok in E. destruct E as ([a0 a1] & Ea & E).
        apply bind_ok in E. destruct E as ([b0 b1] & Eb & E). injection E as <-. cbn [fst snd].
        split; [|exact H2]. repeat (apply Forall_cons); cbn [fst snd]; try exact Hr;
          split; solve [eapply desc_left; eauto|eapply desc_right; eauto].
      + apply bind_ok in E. destruct E as ([a0 a1] & Ea & E). injection E as <-. cbn [fst snd].
        split; [|exact H2]. repeat (apply Forall_cons); cbn [fst snd]; try exact Hr;
          split; auto; solve [eapply desc_left; eauto|eapply desc_right; eauto].
      + apply bind_ok in E. destruct E as ([b0 b1] & Eb & E). injection E as <-. cbn [fst snd].
        split; [|exact H2]. repeat (apply Forall_cons); cbn [fst snd]; try exact Hr;
          split; auto; solve [eapply desc_left; eauto|eapply desc_right; eauto].
      + injection E as <-. cbn [fst snd]. split; [exact Hr|]. apply Forall_app. split; [exact H2|].
        constructor; [|constructor]. unfold leaf_pair; cbn [fst snd].
        repeat split; auto. exists ba, bb. auto.
    - intros [[trees pairs0] k] a (H1 & H2) E. cbn [fst snd] in *. unfold trav_step in E.
      destruct trees as [|[x y] rest]; [injection E as <-; exact H2|]. exfalso.
      apply bind_ok in E. destruct E as (ba & Eba & E). apply bind_ok in E. destruct E as (bb & Ebb & E).
      destruct (negb _); [discriminate|].
      apply bind_ok in E. destruct E as (ai & Eai & E). apply bind_ok in E. destruct E as (bi & Ebi & E).
      destruct ai, bi; repeat (apply bind_ok in E; destruct E as ([? ?] & _ & E)); discriminate.
  Qed.

  (** ** Termination and completeness *)
  (** what is known of the nodes of a tree: [Inv] holds for all of them, [cov x u] says that the
      node [x] covers the parameter [u], and [h] is a height *)
  Record tree_spec {N X : Type} (o : TreeOps T N) (Inv : N -> Prop) (cov : N -> X -> Prop)
         (h : N -> nat) : Prop := {
    ts_box : forall x, Inv x -> exists b, tbox o x = Ok b;
    ts_div : forall x, Inv x -> exists d, tdividable o x = Ok d;
    ts_split : forall x k, Inv x -> tdividable o x = Ok true ->
      exists x0 x1, tsplit o x (rng k) = Ok (x0, x1) /\ Inv x0 /\ Inv x1 /\
        h x0 < h x /\ h x1 < h x /\ forall u, cov x u -> cov x0 u \/ cov x1 u
  }.

  Section Complete.
    Context {X Y : Type} (InvA : A -> Prop) (covA : A -> X -> Prop) (hA : A -> nat).
    Context (InvB : B -> Prop) (covB : B -> Y -> Prop) (hB : B -> nat).
    Hypothesis SA : tree_spec oa InvA covA hA.
    Hypothesis SB : tree_spec ob InvB covB hB.
    (** two parameters whose points coincide *)
    Variable meet : X -> Y -> Prop.
    Hypothesis Hmeet : forall a b u v ba bb, InvA a -> InvB b -> covA a u -> covB b v -> meet u v ->
      tbox oa a = Ok ba -> tbox ob b = Ok bb -> bb_intersects D ba bb (Some szero) = true.

    Fixpoint weight (l : list (A * B)) : nat :=
      match l with [] => 0 | (a, b) :: l => 5 ^ (hA a + hB b) + weight l end.

    Lemma pow_pos n : 0 < 5 ^ n.
    Proof. apply Nat.neq_0_lt_0, Nat.pow_nonzero. lia. Qed.
    Lemma pow_lt m n : m < n -> 5 * 5 ^ m <= 5 ^ n.
    Proof. intros H. change (5 * 5 ^ m) with (5 ^ S m). apply Nat.pow_le_mono_r; lia. Qed.

    (** the pair of parameters is covered by some pair of the list *)
    Definition covered (u : X) (v : Y) (l : list (A * B)) : Prop :=
      exists a b, In (a, b) l /\ covA a u /\ covB b v.

    Theorem traverse_complete ta tb fuel :
      InvA ta -> InvB tb -> 5 ^ (hA ta + hB tb) < fuel ->
      exists pairs, traverse oa ob D rng fuel ta tb = Ok pairs /\
        (forall a b, In (a, b) pairs -> InvA a /\ InvB b) /\
        forall u v, covA ta u -> covB tb v -> meet u v -> covered u v pairs.
    Proof.
      intros Ia Ib Hf. unfold traverse.
      pose proof (loop_rule (fun st : list (A * B) * list (A * B) * nat =>
        (forall a b, In (a, b) (fst (fst st) ++ snd (fst st)) -> InvA a /\ InvB b) /\
        forall u v, covA ta u -> covB tb v -> meet u v ->
          covered u v (fst (fst st) ++ snd (fst st)))
        (fun pairs => (forall a b, In (a, b) pairs -> InvA a /\ InvB b) /\
           forall u v, covA ta u -> covB tb v -> meet u v -> covered u v pairs)
        (fun st => weight (fst (fst st))) fuel (trav_step oa ob D rng) ([(ta, tb)], [], 0)) as L.
      destruct L as (pairs & E & H1 & H2).
      - cbn [fst snd app]. split.
        + intros a b [E|[]]. injection E as <- <-. auto.
        + intros u v Hu Hv _. exists ta, tb. split; [now left|auto].
      - cbn [fst snd weight]. lia.
      - intros [[trees pairs] k] (H1 & H2). cbn [fst snd] in *. unfold trav_step.
        destruct trees as [|[a b] rest]; [eexists; split; [reflexivity|split; [exact H1|exact H2]]|].
        destruct (H1 a b) as (Pa & Pb); [now left|].
        destruct (ts_box _ _ _ _ SA a Pa) as (ba & Eba). destruct (ts_box _ _ _ _ SB b Pb) as (bb & Ebb).
        rewrite Eba, Ebb. cbn [bind].
        destruct (bb_intersects D ba bb (Some szero)) eqn:Ei; cbn [negb].
        2:{ eexists. split; [reflexivity|]. cbn [fst snd weight]. pose proof (pow_pos (hA a + hB b)).
            split; [|lia]. split; [intros a' b' Hin; apply H1; now right|].
            intros u v Hu Hv Hm. destruct (H2 u v Hu Hv Hm) as (a' & b' & Hin & Ca & Cb).
            exists a', b'. destruct Hin as [Hin|Hin]; [|auto]. injection Hin as <- <-. exfalso.
            rewrite (Hmeet a b u v ba bb) in Ei by auto. discriminate. }
        destruct (ts_div _ _ _ _ SA a Pa) as (da & Eda). destruct (ts_div _ _ _ _ SB b Pb) as (db & Edb).
        rewrite Eda, Edb. cbn [bind].
        destruct da, db.
        + destruct (ts_split _ _ _ _ SA a k Pa Eda) as (a0 & a1 & Es & I0 & I1 & L0 & L1 & C).
          destruct (ts_split _ _ _ _ SB b (S k) Pb Edb) as (b0 & b1 & Es' & I0' & I1' & L0' & L1' & C').
          rewrite Es. cbn [bind]. rewrite Es'. cbn [bind]. eexists. split; [reflexivity|].
          cbn [fst snd weight]. split; [split|].
          * intros a' b' Hin. cbn [app In] in Hin.
            destruct Hin as [Q|[Q|[Q|[Q|Q]]]]; try (injection Q as <- <-; auto). apply H1. now right.
          * intros u v Hu Hv Hm. destruct (H2 u v Hu Hv Hm) as (a' & b' & Hin & Ca & Cb).
            destruct Hin as [Hin|Hin].
            { injection Hin as <- <-. destruct (C u Ca) as [?|?], (C' v Cb) as [?|?];
                unfold covered; cbn [app In]; eauto 12. }
            exists a', b'. cbn [app In]. auto 8.
          * pose proof (pow_lt (hA a1 + hB b1) (hA a + hB b) ltac:(lia)).
            pose proof (pow_lt (hA a0 + hB b1) (hA a + hB b) ltac:(lia)).
            pose proof (pow_lt (hA a1 + hB b0) (hA a + hB b) ltac:(lia)).
            pose proof (pow_lt (hA a0 + hB b0) (hA a + hB b) ltac:(lia)).
            pose proof (pow_pos (hA a + hB b)). lia.
        + destruct (ts_split _ _ _ _ SA a k Pa Eda) as (a0 & a1 & Es & I0 & I1 & L0 & L1 & C).
          rewrite Es. cbn [bind]. eexists. split; [reflexivity|].
          cbn [fst snd weight]. split; [split|].
          * intros a' b' Hin. cbn [app In] in Hin.
            destruct Hin as [Q|[Q|Q]]; try (injection Q as <- <-; auto). apply H1. now right.
          * intros u v Hu Hv Hm. destruct (H2 u v Hu Hv Hm) as (a' & b' & Hin & Ca & Cb).
            destruct Hin as [Hin|Hin].
            { injection Hin as <- <-. destruct (C u Ca) as [?|?]; unfold covered; cbn [app In]; eauto 12. }
            exists a', b'. cbn [app In]. auto 8.
          * pose proof (pow_lt (hA a1 + hB b) (hA a + hB b) ltac:(lia)).
            pose proof (pow_lt (hA a0 + hB b) (hA a + hB b) ltac:(lia)).
            pose proof (pow_pos (hA a + hB b)). lia.
        + destruct (ts_split _ _ _ _ SB b k Pb Edb) as (b0 & b1 & Es & I0 & I1 & L0 & L1 & C).
          rewrite Es. cbn [bind]. eexists. split; [reflexivity|].
          cbn [fst snd weight]. split; [split|].
          * intros a' b' Hin. cbn [app In] in Hin.
            destruct Hin as [Q|[Q|Q]]; try (injection Q as <- <-; auto). apply H1. now right.
          * intros u v Hu Hv Hm. destruct (H2 u v Hu Hv Hm) as (a' & b' & Hin & Ca & Cb).
            destruct Hin as [Hin|Hin].
            { injection Hin as <- <-. destruct (C v Cb) as [?|?]; unfold covered; cbn [app In]; eauto 12. }
            exists a', b'. cbn [app In]. auto 8.
          * pose proof (pow_lt (hA a + hB b1) (hA a + hB b) ltac:(lia)).
            pose proof (pow_lt (hA a + hB b0) (hA a + hB b) ltac:(lia)).
            pose proof (pow_pos (hA a + hB b)). lia.
        + eexists. split; [reflexivity|]. cbn [fst snd weight].
          pose proof (pow_pos (hA a + hB b)). split; [|lia].
          assert (P : forall p, In p (rest ++ pairs ++ [(a, b)]) <-> In p (((a, b) :: rest) ++ pairs)).
          { intros p. cbn [app In]. rewrite !in_app_iff. cbn [In]. tauto. }
          split.
          * intros a' b' Hin. apply H1. now apply P.
          * intros u v Hu Hv Hm. destruct (H2 u v Hu Hv Hm) as (a' & b' & Hin & Ca & Cb).
            exists a', b'. split; [now apply P|auto].
      - exists pairs. split; [exact E|auto].
    Qed.
  End Complete.
End Generic.
