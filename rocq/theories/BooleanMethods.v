(** * The three boolean operations of one pair of boundaries *)
From Coq Require Import Reals Lra Lia List Sorted Permutation Bool FunctionalExtensionality.
From Verif Require Import Base BaseFacts Scalar RSum BSplineSpec BSpline KnotModel KnotSpec KnotFacts VecFacts MiscModel CurveModel CurveKnotModel
  CurveSpec CurveProofs SplitModel CompoundModel CompoundCycle BBoxModel BBoxProofs TraversalModel IntersectModel IntersectProofs ClipModel ClipSpec Boolean CompoundArc BooleanCompound BooleanModel BooleanSwap CompoundProofs CurveGeom2 TrimFine.
Import ListNotations.
Local Open Scope R_scope.

Section Real.
  Variables eps maxv : R.
  Local Hint Extern 0 (Scalar R) => exact (ROps eps maxv) : typeclass_instances.
  Variable inter : Curve R -> Curve R -> Res (list (@Hit R)).
  Variable contains : Opd R -> list R -> Res bool.
  Local Notation crossing_case := (crossing_case eps maxv inter contains).
  Local Notation traced := (traced eps maxv).
  Local Notation on_boundary := (on_boundary eps maxv).

  (** a point at which the boundaries cross *)
  Definition crossing_point (a : Opd R) (hits : list (@CHit R)) (p : list R) : Prop :=
    exists x, In x hits /\ compound_point_at (opd_spans a) (ha_t (snd x)) = Ok (Some p).

  (** [union], [intersection] and [difference] of the same pair *)
  Theorem boolean_methods a b hits (inA inB : list R -> bool) : 0 < eps -> crossing_case a b hits inA inB ->
    exists u i d, op_union inter contains a b = Ok u /\ op_intersection inter contains a b = Ok i /\ op_difference inter contains a b = Ok d /\
      (forall p, traced u p <-> crossing_point a hits p \/ on_boundary a p /\ inB p = false \/ on_boundary b p /\ inA p = false) /\
      (forall p, traced i p <-> crossing_point a hits p \/ on_boundary a p /\ inB p = true \/ on_boundary b p /\ inA p = true) /\
      (forall p, traced d p <-> crossing_point a hits p \/ on_boundary a p /\ inB p = false \/ on_boundary b p /\ inA p = true).
  Proof.
    intros He Hc.
    destruct (boolean_trace eps maxv inter contains Union a b hits inA inB He Hc) as (u & Eu & _ & Tu).
    destruct (boolean_trace eps maxv inter contains Intersection a b hits inA inB He Hc) as (i & Ei & _ & Ti).
    destruct (boolean_trace eps maxv inter contains Difference a b hits inA inB He Hc) as (d & Ed & _ & Td).
    exists u, i, d. auto 10.
  Qed.

  (** nothing of the boundaries is lost between the results, and nothing else appears *)
  Theorem boolean_cover a b hits (inA inB : list R -> bool) : 0 < eps -> crossing_case a b hits inA inB ->
    exists u i d, op_union inter contains a b = Ok u /\ op_intersection inter contains a b = Ok i /\ op_difference inter contains a b = Ok d /\
      (forall p, traced u p \/ traced i p <-> on_boundary a p \/ on_boundary b p) /\
      (forall p, on_boundary a p -> traced d p \/ traced i p) /\
      (forall p, on_boundary b p -> traced u p \/ traced d p) /\
      (forall p, traced d p -> on_boundary a p \/ on_boundary b p).
  Proof.
    intros He Hc. destruct (boolean_methods a b hits inA inB He Hc) as (u & i & d & Eu & Ei & Ed & Tu & Ti & Td).
    exists u, i, d. do 3 (split; [assumption|]).
    assert (X : forall p, crossing_point a hits p -> on_boundary a p) by (intros p (x & _ & E); now exists (ha_t (snd x))).
    split; [|split; [|split]]; intros p; rewrite ?Tu, ?Ti, ?Td; specialize (X p); destruct (inA p), (inB p); try tauto.
  Qed.

  (** the point whose containment is tested is the one at the start of the boundary *)
  Theorem boolean_start (o : Opd R) : ring eps maxv (opd_spans o) -> opd_spans o <> [] ->
    exists c rest p, opd_spans o = c :: rest /\ opd_first o = Ok p /\ compound_point_at (opd_spans o) (dom0 c) = Ok (Some p) /\
      forall d, In d (opd_spans o) -> dom0 c <= dom0 d.
  Proof.
    intros Hr Hn. destruct (opd_spans o) as [|c rest] eqn:E; [congruence|].
    pose proof (rg_fine _ _ _ Hr) as F. inversion F as [|? ? Fc Fr]; subst.
    pose proof (fine_dom eps c Fc) as D. destruct (good_point eps maxv c (dom0 c) (proj1 Fc) ltac:(lra)) as (p & Ep & _).
    assert (Ef : first_point c = Ok p) by (unfold first_point; rewrite knots_domain_ok by apply Fc; cbn [bind]; exact Ep).
    exists c, rest, p. split; [reflexivity|]. split; [destruct o as [c0|ss]; cbn [opd_spans] in E; [injection E as -> _|rewrite E]; exact Ef|]. split.
    - cbn [compound_point_at]. rewrite knots_domain_ok by apply Fc. cbn [bind]. fold (dom0 c) (dom1 c). rs.
      destruct (Rleb_spec (dom0 c) (dom0 c)); [|exfalso; lra]. destruct (Rleb_spec (dom0 c) (dom1 c)); [|exfalso; lra]. cbn [andb]. rewrite Ep. reflexivity.
    - intros d [<-|Hd]; [lra|]. pose proof (rg_order _ _ _ Hr) as O. inversion O as [|? ? O1 _]; subst. rewrite Forall_forall in O1. specialize (O1 d Hd). lra.
  Qed.
End Real.
