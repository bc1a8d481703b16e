(** * Lofting and sweeping succeed

    Only statements: each theorem is proved elsewhere; its statement is repeated here, followed by
    a concrete case that meets its hypotheses. *)
From Coq Require Import Reals Lra Lia ZArith List Sorted.
From Verif Require Import Base BaseFacts Scalar RSum KnotModel KnotSpec KnotFacts KnotMisc VecFacts CurveModel CurveSpec CurveGeom CurveShapes InterpProofs Decompose
  MergeModel MergeProofs SurfaceModel SurfaceSpec LoftModel LoftProofs LoftMissed LoftCases InterpUnique LoftSucceeds
  RevolveSphere ArcMain ArcTheorems CurveProofs ArcModel ArcProofs RevolveModel RevolveProofs FrameModel FrameProofs FrameTheorems FrameSweep FrameCases SweepSucceeds Demo.
Import ListNotations.
Local Open Scope R_scope.


Section C70_loft_succeeds_statement.
  Variables eps maxv : R.
  Local Hint Extern 0 (Scalar R) => exact (ROps eps maxv) : typeclass_instances.
  Local Notation spread := (spread eps).

  Theorem C70_loft_succeeds : forall solve D p cs us dv,
    exact_solver solve -> complete_solver solve -> 0 < eps -> (2 <= length cs)%nat -> (1 <= p)%nat -> (forall d, dv = Some d -> (1 <= d)%nat) ->
    Forall (fun c => curve_ok c /\ curve_eps eps c /\ pos_weights c /\ clamped c /\ cdeg c = p /\ cdim c = D /\
    curve_eps eps (on_span (max_span cs) c)) cs ->
    separated eps (concat (map (fun c => cknots (on_span (max_span cs) c)) cs)) ->
    unify_knots cs = Ok us -> (forall i, (i < length (cpts (nth 0 us (MkCurve 0 0 [] []))))%nat -> spread (column us i)) ->
    exists s, try_loft solve cs dv = Ok s /\
    surf_ok s /\ sdim s = D /\ sdu s = p /\
    sdv s = Nat.min (match dv with Some d => d | None => p end) (length cs - 1) /\ u0 s = 0 /\ u1 s = max_span cs /\ v0 s = 0 /\ v1 s = 1 /\
    forall k v, (k < length cs)%nat -> section_at us k v ->
    forall u, let c := nth k cs (MkCurve 0 0 [] []) in dom0 c <= u <= dom1 c ->
    exists q, point_at c u = Ok q /\ surf_point_at s (loft_u cs c u) v = Ok q.
  Proof. first [exact (loft_succeeds eps maxv) | exact (loft_succeeds eps) | exact loft_succeeds]. Qed.
End C70_loft_succeeds_statement.
Section C70_case_succeeds_section.
  Local Hint Extern 0 (Scalar R) => exact (ROps eps0 maxv0) : typeclass_instances.
  Local Hint Extern 0 (Trig R) => exact TrigR : typeclass_instances.
  Local Hint Extern 0 (Acos R) => exact AcosR : typeclass_instances.
  Example C70_case_succeeds : exact_solver gsolve /\ complete_solver gsolve /\ Forall (fun c => curve_ok c /\ curve_eps eps0 c /\ pos_weights c /\ clamped c /\ cdeg c = 1%nat /\ cdim c = 4%nat /\ curve_eps eps0 (on_span (max_span sections) c)) sections /\
    separated eps0 (concat (map (fun c => cknots (on_span (max_span sections) c)) sections)) /\ unify_knots sections = Ok sections /\
    (forall i, (i < 2)%nat -> spread eps0 (column sections i)).
  Proof. rewrite case_span. split; [exact gsolve_exact|]. split; [exact gsolve_complete|]. split; [repeat (apply Forall_cons; [now apply sec_ok|]); constructor|]. split; [apply sections_sep; intros d [<-|[<-|[<-|[]]]]; repeat split|]. split; [apply unify_sections; unfold eps0; lra|exact case_spread]. Qed.
End C70_case_succeeds_section.
Print Assumptions C70_loft_succeeds.

Section C72_sweep_succeeds_statement.
  Variables eps maxv : R.
  Local Hint Extern 0 (Scalar R) => exact (ROps eps maxv) : typeclass_instances.
  Local Hint Extern 0 (Trig R) => exact TrigR : typeclass_instances.
  Local Hint Extern 0 (Acos R) => exact AcosR : typeclass_instances.

  Theorem C72_sweep_succeeds : forall solve profile rail dv,
    exact_solver solve -> complete_solver solve -> 0 < eps < 1 -> 1 <= maxv -> (forall d, dv = Some d -> (1 <= d)%nat) ->
    curve_ok rail -> curve_eps eps rail -> pos_weights rail -> cdim rail = 4%nat ->
    (forall u t, dom0 rail <= u <= dom1 rail -> tangent_at rail u = Ok t -> dot t t <> 0) ->
    curve_ok profile -> curve_eps eps profile -> pos_weights profile -> clamped profile -> cdim profile = 4%nat -> (1 <= cdeg profile)%nat ->
    separated eps (cknots profile) ->
    exists us fs, length us = (2 * length (cpts rail))%nat /\ nth 0 us 0 = dom0 rail /\ nth (length us - 1) us 0 = dom1 rail /\
    compute_frenet_frames rail us = Ok fs /\ length fs = length us /\
    ((forall i, (i < length (cpts profile))%nat -> spread eps (swept_column eps maxv fs profile i)) ->
    exists s, try_sweep solve profile rail dv = Ok s /\
    surf_ok s /\ sdim s = 4%nat /\ sdu s = cdeg profile /\ u0 s = 0 /\ u1 s = dom1 profile - dom0 profile /\ v0 s = 0 /\ v1 s = 1 /\
    forall u, dom0 profile <= u <= dom1 profile -> exists q, point_at profile u = Ok q /\
    surf_point_at s (u - dom0 profile) 0 = Ok (placed (nth 0 fs frame0) q) /\
    surf_point_at s (u - dom0 profile) 1 = Ok (placed (nth (length fs - 1) fs frame0) q)).
  Proof. first [exact (sweep_succeeds eps maxv) | exact (sweep_succeeds eps) | exact sweep_succeeds]. Qed.
End C72_sweep_succeeds_statement.
Section C72_case_succeeds_section.
  Local Hint Extern 0 (Scalar R) => exact (ROps eps0 1) : typeclass_instances.
  Local Hint Extern 0 (Trig R) => exact TrigR : typeclass_instances.
  Local Hint Extern 0 (Acos R) => exact AcosR : typeclass_instances.
  Example C72_case_succeeds : exact_solver gsolve /\ complete_solver gsolve /\ curve_ok rail1 /\ curve_eps eps0 rail1 /\ pos_weights rail1 /\
    (forall u t, dom0 rail1 <= u <= dom1 rail1 -> tangent_at rail1 u = Ok t -> dot t t <> 0) /\
    curve_ok profile1 /\ curve_eps eps0 profile1 /\ pos_weights profile1 /\ clamped profile1 /\ separated eps0 (cknots profile1) /\
    sweep_parameters rail1 = Ok [0; 1 / 3; 2 / 3; 1] /\ compute_frenet_frames rail1 [0; 1 / 3; 2 / 3; 1] = Ok (map straight [0; 1 / 3; 2 / 3; 1]) /\
    (forall i, (i < 2)%nat -> spread eps0 (swept_column eps0 1 (map straight [0; 1 / 3; 2 / 3; 1]) profile1 i)).
  Proof. split; [exact gsolve_exact|]. split; [exact gsolve_complete|]. destruct (sec_ok 0 0 0 0 0 1 1 eq_refl) as (A & B & C & _). do 3 (split; [assumption|]). split.
    { change (dom0 rail1) with 0. change (dom1 rail1) with 1. intros u t Hu E. rewrite (rail_tangent u Hu) in E. injection E as <-. rewrite dot3. lra. }
    destruct (sec_ok 0 0 0 1 0 0 1 eq_refl) as (A' & B' & C' & D' & _). do 4 (split; [assumption|]). split.
    { intros x y Hx Hy. cbn in Hx, Hy. destruct Hx as [<-|[<-|[<-|[<-|[]]]]], Hy as [<-|[<-|[<-|[<-|[]]]]]; ((left; reflexivity) || (right; unfold eps0, Rabs; destruct (Rcase_abs _); lra)). }
    split; [exact rail_parameters|]. split; [apply straight_frames; [discriminate|repeat (apply Forall_cons; [lra|]); constructor]|exact swept_spread]. Qed.
End C72_case_succeeds_section.
Print Assumptions C72_sweep_succeeds.
