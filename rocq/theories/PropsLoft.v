(** * Properties of lofted surfaces

    Only statements: each theorem is proved elsewhere; its statement is repeated here, followed by
    a concrete case that meets its hypotheses. *)
From Coq Require Import Floats.
From Coq Require Import Reals Lra Lia ZArith List Sorted.
From Verif Require Import Base BaseFacts Scalar RSum KnotModel KnotSpec KnotFacts KnotMisc VecFacts CurveModel CurveSpec CurveShapes InterpProofs Decompose
  MergeModel MergeProofs SurfaceModel SurfaceSpec LoftModel LoftProofs LoftMissed LoftRefuted LoftCases Demo.
Import ListNotations.
Local Open Scope R_scope.


Section C70_loft_sections_statement.
  Variables eps maxv : R.
  Local Hint Extern 0 (Scalar R) => exact (ROps eps maxv) : typeclass_instances.
  Local Notation spread := (spread eps).

  Theorem C70_loft_sections : forall solve D p cs us dv s,
    exact_solver solve -> 0 < eps -> (2 <= length cs)%nat -> (1 <= p)%nat -> (forall d, dv = Some d -> (1 <= d)%nat) ->
    Forall (fun c => curve_ok c /\ curve_eps eps c /\ pos_weights c /\ clamped c /\ cdeg c = p /\ cdim c = D /\
    curve_eps eps (on_span (max_span cs) c)) cs ->
    separated eps (concat (map (fun c => cknots (on_span (max_span cs) c)) cs)) ->
    unify_knots cs = Ok us -> (forall i, (i < length (cpts (nth 0 us (MkCurve 0 0 [] []))))%nat -> spread (column us i)) ->
    try_loft solve cs dv = Ok s ->
    surf_ok s /\ surf_eps eps s /\ sdim s = D /\ sdu s = p /\
    sdv s = Nat.min (match dv with Some d => d | None => p end) (length cs - 1) /\ u0 s = 0 /\ u1 s = max_span cs /\ v0 s = 0 /\ v1 s = 1 /\
    forall k v, (k < length cs)%nat -> section_at us k v ->
    forall u, let c := nth k cs (MkCurve 0 0 [] []) in dom0 c <= u <= dom1 c ->
    exists q, point_at c u = Ok q /\ surf_point_at s (loft_u cs c u) v = Ok q.
  Proof. first [exact (loft_sections eps maxv) | exact (loft_sections eps)]. Qed.
End C70_loft_sections_statement.
Section C70_case_section.
  Local Hint Extern 0 (Scalar R) => exact (ROps eps0 maxv0) : typeclass_instances.
  Example C70_case : exact_solver solve3 /\ Forall (fun c => curve_ok c /\ curve_eps eps0 c /\ pos_weights c /\ clamped c /\ cdeg c = 1%nat /\ cdim c = 4%nat /\ curve_eps eps0 (on_span (max_span sections) c)) sections /\
    separated eps0 (concat (map (fun c => cknots (on_span (max_span sections) c)) sections)) /\ unify_knots sections = Ok sections /\
    (forall i, (i < 2)%nat -> spread eps0 (column sections i)) /\ try_loft solve3 sections (Some 2%nat) = Ok missing.
  Proof. rewrite case_span. split; [exact solve3_exact|]. split; [repeat (apply Forall_cons; [now apply sec_ok|]); constructor|]. split; [apply sections_sep; intros d [<-|[<-|[<-|[]]]]; repeat split|]. split; [apply unify_sections; unfold eps0; lra|]. split; [exact case_spread|]. apply loft_missing. unfold eps0. lra. Qed.
End C70_case_section.
Print Assumptions C70_loft_sections.

Section C70_loft_ruled_statement.
  Variables eps maxv : R.
  Local Hint Extern 0 (Scalar R) => exact (ROps eps maxv) : typeclass_instances.
  Local Notation spread := (spread eps).

  Theorem C70_loft_ruled : forall solve D p c0 c1 us dv s,
    exact_solver solve -> 0 < eps -> (1 <= p)%nat -> (forall d, dv = Some d -> (1 <= d)%nat) ->
    Forall (fun c => curve_ok c /\ curve_eps eps c /\ pos_weights c /\ clamped c /\ cdeg c = p /\ cdim c = D /\
    curve_eps eps (on_span (max_span [c0; c1]) c)) [c0; c1] ->
    separated eps (concat (map (fun c => cknots (on_span (max_span [c0; c1]) c)) [c0; c1])) ->
    unify_knots [c0; c1] = Ok us -> (forall i, (i < length (cpts (nth 0 us (MkCurve 0 0 [] []))))%nat -> spread (column us i)) ->
    try_loft solve [c0; c1] dv = Ok s ->
    forall t v, 0 <= t <= 1 -> 0 <= v <= 1 ->
    let a := dom0 c0 + t * (dom1 c0 - dom0 c0) in let b := dom0 c1 + t * (dom1 c1 - dom0 c1) in
    exists q, surf_point_at s (t * max_span [c0; c1]) v = Ok q /\ length q = (D - 1)%nat /\
    forall l, (l < D - 1)%nat ->
    rc l q = ((1 - v) * hcoord c0 l a + v * hcoord c1 l b) / ((1 - v) * wfun c0 a + v * wfun c1 b).
  Proof. first [exact (loft_ruled eps maxv) | exact (loft_ruled eps)]. Qed.
End C70_loft_ruled_statement.
Section C70_case_ruled_section.
  Local Hint Extern 0 (Scalar R) => exact (ROps eps0 maxv0) : typeclass_instances.
  Example C70_case_ruled : exact_solver solve2id /\ Forall (fun c => curve_ok c /\ curve_eps eps0 c /\ pos_weights c /\ clamped c /\ cdeg c = 1%nat /\ cdim c = 4%nat /\ curve_eps eps0 (on_span (max_span rails) c)) rails /\
    separated eps0 (concat (map (fun c => cknots (on_span (max_span rails) c)) rails)) /\ unify_knots rails = Ok rails /\
    (forall i, (i < 2)%nat -> spread eps0 (column rails i)) /\ exists s, try_loft solve2id rails None = Ok s.
  Proof. assert (M : max_span rails = 1) by (apply span_one; intros d [<-|[<-|[]]]; split; reflexivity). rewrite M. split; [exact solve2id_exact|]. split; [repeat (apply Forall_cons; [now apply sec_ok|]); constructor|]. split; [apply sections_sep; intros d [<-|[<-|[]]]; repeat split|]. split; [exact rails_unify|]. split; [exact rails_spread|]. eexists. exact rails_loft. Qed.
End C70_case_ruled_section.
Print Assumptions C70_loft_ruled.

Section C70_loft_misses_section_refuted_statement.
  Variables eps maxv : R.
  Local Hint Extern 0 (Scalar R) => exact (ROps eps maxv) : typeclass_instances.

  Theorem C70_loft_misses_section_refuted : 0 < eps <= 1 ->
    exists s q, exact_solver solve3 /\ try_loft solve3 sections (Some 2%nat) = Ok s /\
    point_at (nth 1 sections (MkCurve 0 0 [] [])) (1 / 2) = Ok q /\
    forall u v, in_dom s u v -> surf_point_at s u v <> Ok q.
  Proof. first [exact (loft_misses_section_refuted eps maxv) | exact (loft_misses_section_refuted eps)]. Qed.
End C70_loft_misses_section_refuted_statement.
Section C70_case_misses_section.
  Local Hint Extern 0 (Scalar R) => exact (ROps eps0 maxv0) : typeclass_instances.
  Example C70_case_misses : 0 < eps0 <= 1.
  Proof. unfold eps0. lra. Qed.
End C70_case_misses_section.
Print Assumptions C70_loft_misses_section_refuted.

Section C70_loft_shared_corner_refuted_statement.
  Local Existing Instance FOps.
  Local Open Scope float_scope.
  Theorem C70_loft_shared_corner_refuted : exists s, try_loft cramer [seg 0 0 1 0; seg 0 0 0 1] None = Ok s /\
    existsb (fun p => existsb (fun x => negb (x =? x)) p) (concat (snet s)) = true.
  Proof. exact loft_shared_corner_refuted. Qed.
End C70_loft_shared_corner_refuted_statement.
Print Assumptions C70_loft_shared_corner_refuted.

Section C70_loft_fan_refuted_statement.
  Local Existing Instance FOps.
  Local Open Scope float_scope.
  Theorem C70_loft_fan_refuted : panics (try_loft (fun _ b => Some b) [seg 0 0 1 0; seg 0 0 1 1; seg 0 0 0 1] (Some 1%nat)).
  Proof. exact loft_fan_refuted. Qed.
End C70_loft_fan_refuted_statement.
Print Assumptions C70_loft_fan_refuted.
