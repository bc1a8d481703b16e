(** * Containment by ray casting: the pieces of the traversal and their crossings *)
From Coq Require Import Reals Lra Lia ZArith List Sorted Permutation Classical.
From Verif Require Import Base BaseFacts Scalar RSum BSpline KnotModel KnotSpec KnotFacts KnotProofs
     VecFacts CurveModel CurveKnotModel CurveSpec CurveProofs CurveGeom CurveGeom2 Boehm Refine
     SplitModel SplitProofs BBoxModel BBoxProofs TraversalModel TraversalProofs TraversalCurve CurveShapes
     CompoundModel IntersectModel IntersectProofs ClosestModel ContainsModel CrossingSpec CrossingProofs.
Import ListNotations.
Local Open Scope R_scope.

Lemma fop_perm {A} (P : A -> A -> Prop) l l' : (forall x y, P x y -> P y x) -> Permutation l l' ->
  ForallOrdPairs P l -> ForallOrdPairs P l'.
Proof.
  intros Sy Q. induction Q as [| x l l' Q IH | x y l | l l' l'' Q1 IH1 Q2 IH2]; intros F; auto.
  - inversion F as [|? ? G F']; subst. constructor; [|auto]. rewrite Forall_forall in *. intros z Hz.
    apply G. exact (Permutation_in z (Permutation_sym Q) Hz).
  - inversion F as [|? ? G F']; subst. inversion F' as [|? ? G' F'']; subst. inversion G as [|? ? G1 G2]; subst.
    constructor; [constructor; auto|constructor; assumption].
Qed.
Lemma fop_app_l {A} (P : A -> A -> Prop) l l' : ForallOrdPairs P (l ++ l') -> ForallOrdPairs P l.
Proof.
  induction l as [|x l IH]; cbn; intros H; [constructor|]. inversion H as [|? ? G F]; subst.
  constructor; [|auto]. apply Forall_app in G. tauto.
Qed.
Lemma fop_impl {A} (P Q : A -> A -> Prop) l : (forall x y, P x y -> Q x y) -> ForallOrdPairs P l -> ForallOrdPairs Q l.
Proof. intros H K. induction K as [|x l G F IH]; constructor; auto. eapply Forall_impl; [|exact G]. auto. Qed.

Section Merge.
  Context {T : Type} {SO : Scalar T}.
  Lemma merge_from_id (near : list T * T -> list T * T -> bool) l x :
    ForallOrdPairs (fun x y => near x y = false) (x :: l) -> merge_from near x l = x :: l.
  Proof.
    revert x. induction l as [|y l IH]; intros x H; cbn [merge_from]; [reflexivity|].
    inversion H as [|? ? G F]; subst. inversion G as [|? ? N G']; subst. rewrite N. now rewrite IH.
  Qed.
  Lemma merge_close_id (near : list T * T -> list T * T -> bool) l :
    ForallOrdPairs (fun x y => near x y = false) l -> merge_close near l = l.
  Proof. destruct l as [|x l]; intros H; [reflexivity|]. now apply merge_from_id. Qed.
  (** what is kept was there *)
  Lemma merge_from_in (near : list T * T -> list T * T -> bool) l x y :
    In y (merge_from near x l) -> y = x \/ In y l.
  Proof.
    revert x. induction l as [|z l IH]; intros x; cbn [merge_from].
    - intros [->|[]]. now left.
    - destruct (near x z).
      + intros H. apply IH in H. cbn [In]. tauto.
      + intros [->|H]; [now left|]. apply IH in H. cbn [In]. destruct H as [->|H]; auto.
  Qed.
  Lemma merge_close_in (near : list T * T -> list T * T -> bool) l y : In y (merge_close near l) -> In y l.
  Proof. destruct l as [|x l]; [auto|]. intros H. apply merge_from_in in H. cbn [In]. intuition auto. Qed.
  Lemma somes_in {A} (l : list (option A)) x : In x (somes l) -> In (Some x) l.
  Proof.
    induction l as [|[y|] l IH]; cbn; [auto| |auto]. intros [->|H]; auto.
  Qed.
End Merge.

Definition iv (t : CTree R) : R * R := (dom0 (ct_curve t), dom1 (ct_curve t)).

Section Real.
  Variables eps maxv : R.
  Local Hint Extern 0 (Scalar R) => exact (ROps eps maxv) : typeclass_instances.
  Local Notation node_of := (node_of eps maxv).
  Local Notation box_curve := (box_curve eps maxv).
  Local Notation tree_inv := (tree_inv eps maxv).

  (** ** The traversal against a second tree that is not divided divides the curve into pieces *)
  Section Pieces.
    Variable rng : nat -> R.
    Variable c0 : Curve R.
    Variable tol : R.
    Hypothesis Hrng : forall k, 0 <= rng k <= 1.
    Hypothesis Hbox : box_curve c0.
    Hypothesis Htol : 0 < tol.
    Hypothesis Hoff : divisions_off_knots eps maxv rng c0 tol.
    Variable B : Type.
    Variable ob : TreeOps R B.
    Variable tb : B.
    Variable bb : BBox R.
    Hypothesis Hdivb : tdividable ob tb = Ok false.
    Hypothesis Hboxb : tbox ob tb = Ok bb.
    Variable D : nat.

    (** given up: the box misses the box of the other tree *)
    Definition missed (t : CTree R) : Prop :=
      tree_inv rng c0 tol t /\ exists ba, bb_of_curve (ct_curve t) = Ok ba /\ bb_intersects D ba bb (Some 0) = false.
    Definition kept (t : CTree R) : Prop :=
      tree_inv rng c0 tol t /\ ct_dividable t = Ok false.

    Lemma node_iv t : node_of c0 tol t -> dom0 (ct_curve t) <= dom1 (ct_curve t).
    Proof. intros N. pose proof (dom_le _ (bc_ok _ _ _ (no_box _ _ _ _ _ N))). lra. Qed.

    Theorem traverse_pieces fuel pairs :
      traverse ct_ops ob D rng fuel (MkCTree c0 tol) tb = Ok pairs ->
      exists dead l, pieces (dom0 c0) (dom1 c0) l /\
        Permutation (map iv (map fst pairs) ++ map iv dead) l /\
        Forall missed dead /\ Forall kept (map fst pairs).
    Proof.
      unfold traverse. set (Q0 := fun pairs : list (CTree R * B) => exists dead l, pieces (dom0 c0) (dom1 c0) l /\
        Permutation (map iv (map fst pairs) ++ map iv dead) l /\ Forall missed dead /\ Forall kept (map fst pairs)).
      change (loop_ fuel (trav_step ct_ops ob D rng) ([(MkCTree c0 tol, tb)], [], 0%nat) = Ok pairs -> Q0 pairs).
      apply (loop_partial (fun st : list (CTree R * B) * list (CTree R * B) * nat =>
        exists dead l, pieces (dom0 c0) (dom1 c0) l /\
          Permutation (map iv (map fst (fst (fst st))) ++ map iv (map fst (snd (fst st))) ++ map iv dead) l /\
          Forall missed dead /\ Forall kept (map fst (snd (fst st))) /\
          Forall (fun p => tree_inv rng c0 tol (fst p) /\ snd p = tb) (fst (fst st)))).
      - exists [], [(dom0 c0, dom1 c0)]. cbn [fst snd map app].
        pose proof (dom_le _ (bc_ok _ _ _ Hbox)).
        repeat split; auto; try lra.
        constructor; [|constructor]. split; [|reflexivity]. split; [now apply node_root|constructor].
      - intros [[trees pairs0] k] s' (dead & l & P & Q & Hm & Hk & Ht) E. cbn [fst snd] in *. unfold trav_step in E.
        destruct trees as [|[a b] rest]; [discriminate|].
        inversion Ht as [|? ? (Ha & Hb) Hr]; subst. cbn [fst snd] in *. try subst b.
        destruct Ha as (N & De).
        apply bind_ok in E. destruct E as (ba & Eba & E). rewrite Hboxb in E. cbn [bind] in E.
        destruct (bb_intersects D ba bb (Some szero)) eqn:Ei; cbn [negb] in E.
        2:{ injection E as <-. cbn [fst snd map app] in *. exists (a :: dead), l. split; [exact P|]. split.
            - etransitivity; [|exact Q]. cbn [map]. symmetry. rewrite !app_assoc. apply Permutation_middle.
            - split; [|auto]. constructor; [|exact Hm]. split; [split; auto|]. exists ba. auto. }
        apply bind_ok in E. destruct E as (ai & Eai & E). rewrite Hdivb in E. cbn [bind] in E.
        destruct ai.
        + apply bind_ok in E. destruct E as ([a0 a1] & Ea & E). injection E as <-. cbn [fst snd map app] in *.
          change (ct_dividable a = Ok true) in Eai.
          destruct (node_split eps maxv c0 tol a (rng k) Htol (Hrng k) N Eai (Hoff a k De Eai))
            as (t0 & t1 & Es & N0 & N1 & D1 & D2 & D3 & D4).
          change (ct_split a (rng k) = Ok (a0, a1)) in Ea. rewrite Es in Ea. injection Ea as -> ->.
          assert (In (iv a) l) as Hin by (apply (Permutation_in _ Q); now left).
          apply in_split in Hin. destruct Hin as (l1 & l2 & ->).
          apply Permutation_cons_app_inv in Q.
          pose proof (dividable_ok eps maxv a (bc_ok _ _ _ (no_box _ _ _ _ _ N))) as (dd & Ed & Dd & _).
          change (@ct_dividable R (ROps eps maxv) a) with (ct_dividable a) in Ed. rewrite Eai in Ed. injection Ed as <-.
          specialize (Dd eq_refl). rewrite (no_tol _ _ _ _ _ N) in Dd.
          assert (0 < div_size tol) by (unfold div_size; apply Rmin_glb_lt; lra).
          pose proof (div_param_range (ct_curve a) (rng k) ltac:(lra) (Hrng k)) as Hp.
          exists dead, (l1 ++ iv a0 :: iv a1 :: l2). split.
          { unfold iv at 1 2. rewrite D1, D2, D3, D4. apply pieces_split; [lra|]. exact P. }
          split.
          { etransitivity; [apply perm_swap|]. etransitivity; [|apply Permutation_middle]. apply perm_skip.
            etransitivity; [|apply Permutation_middle]. apply perm_skip. exact Q. }
          split; [exact Hm|]. split; [exact Hk|]. repeat (apply Forall_cons); cbn [fst snd]; auto; split; auto; split; auto.
          * eapply desc_right; [exact De|exact Eai|exact Es].
          * eapply desc_left; [exact De|exact Eai|exact Es].
        + injection E as <-. cbn [fst snd map app] in *. exists dead, l. split; [exact P|]. split.
          { etransitivity; [|exact Q]. rewrite !map_app. cbn [map]. rewrite <- app_assoc. cbn [app].
            rewrite !app_assoc. symmetry. apply Permutation_middle. }
          split; [exact Hm|]. split; [|exact Hr]. rewrite map_app. apply Forall_app. split; [exact Hk|].
          cbn [map fst]. constructor; [|constructor]. split; [split; auto|exact Eai].
      - intros [[trees pairs0] k] a (dead & l & P & Q & Hm & Hk & Ht) E. cbn [fst snd] in *. unfold trav_step in E.
        destruct trees as [|[x y] rest].
        { injection E as <-. exists dead, l. cbn [map app] in Q. auto. }
        exfalso.
        apply bind_ok in E. destruct E as (ba & Eba & E). apply bind_ok in E. destruct E as (b' & Ebb & E).
        destruct (negb _); [discriminate|].
        apply bind_ok in E. destruct E as (ai & Eai & E). apply bind_ok in E. destruct E as (bi & Ebi & E).
        destruct ai, bi; repeat (apply bind_ok in E; destruct E as ([? ?] & _ & E)); discriminate.
    Qed.
  End Pieces.
End Real.
