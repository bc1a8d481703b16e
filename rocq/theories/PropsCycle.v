(** * Compound curves from the shuffled pieces of a closed curve

    Only statements: each theorem is proved elsewhere; its statement is repeated here, followed by
    a concrete case that meets its hypotheses. *)
From Coq Require Import Reals Lra Lia List Sorted Permutation.
From Verif Require Import Base BaseFacts Scalar RSum BSplineSpec BSpline KnotModel KnotSpec KnotFacts VecFacts MiscModel CurveModel CurveKnotModel
  CurveSpec CurveProofs CurveGeom CurveGeom2 KnotMisc Boehm Refine SplitModel SplitProofs Decompose CompoundModel CompoundProofs CompoundCycle Demo.
Import ListNotations.
Local Open Scope R_scope.

(** a segment in the plane *)
Definition seg (a b c d : R) : Curve R := MkCurve 3 1 [[a; b; 1]; [c; d; 1]] [0; 0; 1; 1].
Lemma seg_good a b c d : span_good eps0 (seg a b c d).
Proof.
  split; [|split].
  - constructor; cbn; try lia; [repeat constructor|]. constructor; cbn; try lia; unfold kf; cbn; try lra. repeat constructor; lra.
  - unfold curve_eps, eps_ok, eps0, kf; cbn; lra.
  - intros j Hj. cbn in Hj. unfold cpc, rc. destruct j as [|[|j]]; cbn; try lra; lia.
Qed.
Lemma seg_clamped a b c d : clamped (seg a b c d).
Proof. unfold clamped, dom0, dom1, kf. cbn. lra. Qed.
Lemma seg_cont a b c d : curve_cont (seg a b c d).
Proof. intros t H1 H2. cbn in H1, H2. lia. Qed.
Lemma seg_ends a b c d : st eps0 maxv0 (seg a b c d) = [a; b] /\ en eps0 maxv0 (seg a b c d) = [c; d].
Proof.
  destruct (seg_good a b c d) as (G1 & G2 & G3). set (s := seg a b c d) in *.
  assert (Da : dom0 s < dom1 s) by (unfold dom0, dom1, kf; cbn; lra).
  destruct (good_st eps0 maxv0 s (seg_good a b c d)) as (_ & E0 & E1).
  destruct (point_at_spec eps0 maxv0 s (dom0 s) G1 G2 ltac:(lra)) as (p & P1 & P2 & P3).
  { apply Rgt_not_eq, (wfun_pos eps0 maxv0); auto; lra. }
  destruct (point_at_spec eps0 maxv0 s (dom1 s) G1 G2 ltac:(lra)) as (q & Q1 & Q2 & Q3).
  { apply Rgt_not_eq, (wfun_pos eps0 maxv0); auto; lra. }
  rewrite E0 in P1. injection P1 as ->. rewrite E1 in Q1. injection Q1 as ->.
  assert (Ca : forall t, (length (cpts s) <= t <= length (cpts s) + cdeg s)%nat -> kf (cknots s) t = kf (cknots s) (length (cpts s))).
  { intros t Ht. cbn in Ht. unfold kf. destruct t as [|[|[|[|t]]]]; cbn; try lra; lia. }
  assert (Cb : forall t, (t <= cdeg s)%nat -> kf (cknots s) t = kf (cknots s) (cdeg s)).
  { intros t Ht. cbn in Ht. unfold kf. destruct t as [|[|t]]; cbn; try lra; lia. }
  split; (eapply (vec_ext _ _ 2); [eassumption|reflexivity|]); intros i Hi.
  - rewrite P3 by (cbn; lia). unfold nurbs, wfun. rewrite !(hcoord_start s) by auto. unfold cpc, rc. destruct i as [|[|i]]; cbn; try lra; lia.
  - rewrite Q3 by (cbn; lia). unfold nurbs, wfun. rewrite !(hcoord_end s) by auto. unfold cpc, rc. destruct i as [|[|i]]; cbn; try lra; lia.
Qed.
Section Invert.
  Local Hint Extern 0 (Scalar R) => exact (ROps eps0 maxv0) : typeclass_instances.
  Lemma seg_invert a b c d : invert (seg a b c d) = Ok (seg c d a b).
  Proof. unfold seg. unfold invert. cbn. unfold seg. repeat f_equal; lra. Qed.
End Invert.
Lemma far_sq (a b c d : R) : 1 <= (a - c) * (a - c) + (b - d) * (b - d) -> far eps0 maxv0 [a; b] [c; d].
Proof.
  intros H. unfold far, vnorm, vnorm2, vdot. cbn. rs.
  assert (G : forall x, 1 <= x -> 1 / 10000 <= sqrt x). { intros x Hx. apply Rle_trans with 1; [lra|]. rewrite <- sqrt_1. now apply sqrt_le_1_alt. }
  split; apply G; lra.
Qed.
(** the sides of a triangle; the same sides shuffled and one of them reversed *)
Definition tri : list (Curve R) := [seg 0 0 4 0; seg 4 0 0 3; seg 0 3 0 0].
Definition shuffled : list (Curve R) := [seg 4 0 0 3; seg 0 0 0 3; seg 0 0 4 0].
Definition matched : list (Curve R) := [seg 0 0 4 0; seg 4 0 0 3; seg 0 0 0 3].
Lemma tri_cycle : cycle eps0 maxv0 tri.
Proof.
  unfold tri. split; [repeat (constructor; [apply seg_good|]); constructor|]. split.
  - exists [0; 0]. cbn [run]. rewrite !(proj1 (seg_ends _ _ _ _)), !(proj2 (seg_ends _ _ _ _)). auto.
  - repeat (apply FOP_nil || apply FOP_cons || apply Forall_nil || apply Forall_cons); rewrite !(proj1 (seg_ends _ _ _ _)); apply far_sq; lra.
Qed.
Lemma shuffled_perm : Permutation shuffled matched.
Proof.
  unfold shuffled, matched. apply perm_trans with [seg 4 0 0 3; seg 0 0 4 0; seg 0 0 0 3]; [apply perm_skip, perm_swap|apply perm_swap].
Qed.
Section Oriented.
  Local Hint Extern 0 (Scalar R) => exact (ROps eps0 maxv0) : typeclass_instances.
  Lemma shuffled_oriented : Forall2 oriented matched tri.
  Proof. unfold matched, tri. constructor; [now left|]. constructor; [now left|]. constructor; [|constructor]. right. apply seg_invert. Qed.
End Oriented.

Section C91_compound_new_cycle_statement.
  Variables eps maxv : R.
  Local Hint Extern 0 (Scalar R) => exact (ROps eps maxv) : typeclass_instances.
  Local Notation far := (far eps maxv).
  Local Notation st := (st eps maxv).
  Local Notation en := (en eps maxv).
  Local Notation run := (run eps maxv).
  Local Notation cycle := (cycle eps maxv).
  Local Notation on := (on eps maxv).
  Local Notation span_good := (span_good eps).

  Theorem C91_compound_new_cycle : forall spans keep l,
    spans <> [] -> Forall span_good spans -> cycle l -> Permutation spans keep -> Forall2 oriented keep l ->
    exists keep' ch, compound_new spans = Ok (aligned 0 ch) /\ Permutation spans keep' /\ Forall2 oriented keep' ch /\ cycle ch /\
    forall first rest, spans = first :: rest -> In first ch.
  Proof. first [exact (compound_new_cycle eps maxv) | exact (compound_new_cycle eps) | exact compound_new_cycle]. Qed.
End C91_compound_new_cycle_statement.
Section C91_case_cycle_section.
  Local Hint Extern 0 (Scalar R) => exact (ROps eps0 maxv0) : typeclass_instances.
  Example C91_case_cycle : shuffled <> [] /\ Forall (span_good eps0) shuffled /\ cycle eps0 maxv0 tri /\ Permutation shuffled matched /\ Forall2 oriented matched tri.
  Proof. split; [discriminate|]. split; [unfold shuffled; repeat (constructor; [apply seg_good|]); constructor|]. split; [exact tri_cycle|]. split; [exact shuffled_perm|exact shuffled_oriented]. Qed.
End C91_case_cycle_section.
Print Assumptions C91_compound_new_cycle.

Section C91_compound_new_shuffled_statement.
  Variables eps maxv : R.
  Local Hint Extern 0 (Scalar R) => exact (ROps eps maxv) : typeclass_instances.
  Local Notation far := (far eps maxv).
  Local Notation st := (st eps maxv).
  Local Notation en := (en eps maxv).
  Local Notation run := (run eps maxv).
  Local Notation cycle := (cycle eps maxv).
  Local Notation on := (on eps maxv).
  Local Notation span_good := (span_good eps).

  Theorem C91_compound_new_shuffled : forall spans keep l,
    0 < eps -> spans <> [] -> Forall span_good spans -> Forall clamped spans -> Forall curve_cont spans ->
    cycle l -> Permutation spans keep -> Forall2 oriented keep l ->
    exists cc, compound_new spans = Ok cc /\ length cc = length spans /\ compound_is_closed cc = Ok true /\
    forall p, (exists t, compound_point_at cc t = Ok (Some p)) <-> exists c, In c spans /\ on c p.
  Proof. first [exact (compound_new_shuffled eps maxv) | exact (compound_new_shuffled eps) | exact compound_new_shuffled]. Qed.
End C91_compound_new_shuffled_statement.
Section C91_case_shuffled_section.
  Local Hint Extern 0 (Scalar R) => exact (ROps eps0 maxv0) : typeclass_instances.
  Example C91_case_shuffled : 0 < eps0 /\ Forall clamped shuffled /\ Forall curve_cont shuffled.
  Proof. split; [unfold eps0; lra|]. split; unfold shuffled; repeat (constructor; [apply seg_clamped || apply seg_cont|]); constructor. Qed.
End C91_case_shuffled_section.
Print Assumptions C91_compound_new_shuffled.

Section C91_cycle_reverse_statement.
  Variables eps maxv : R.
  Local Hint Extern 0 (Scalar R) => exact (ROps eps maxv) : typeclass_instances.
  Local Notation far := (far eps maxv).
  Local Notation st := (st eps maxv).
  Local Notation en := (en eps maxv).
  Local Notation run := (run eps maxv).
  Local Notation cycle := (cycle eps maxv).
  Local Notation on := (on eps maxv).
  Local Notation span_good := (span_good eps).

  Theorem C91_cycle_reverse : forall l,
    cycle l -> exists l', Forall2 (fun a b => invert a = Ok b /\ invert b = Ok a) l l' /\ cycle (rev l').
  Proof. first [exact (cycle_reverse eps maxv) | exact (cycle_reverse eps) | exact cycle_reverse]. Qed.
End C91_cycle_reverse_statement.
Section C91_case_reverse_section.
  Local Hint Extern 0 (Scalar R) => exact (ROps eps0 maxv0) : typeclass_instances.
  Example C91_case_reverse : cycle eps0 maxv0 tri.
  Proof. exact tri_cycle. Qed.
End C91_case_reverse_section.
Print Assumptions C91_cycle_reverse.
