(** * How far the first guess of the closest point search is from the best point of the curve

    Only statements: each theorem is proved elsewhere; its statement is repeated here, followed by
    a concrete case that meets its hypotheses. *)
From Coq Require Import Reals Lra Lia List.
From Verif Require Import Base BaseFacts Scalar RSum BSplineSpec BSpline KnotModel KnotSpec KnotFacts VecFacts CurveModel CurveSpec CurveProofs CurveMore
  CurveGeom ClosestModel NewtonProofs NewtonMain CurveLipschitz ClosestNear Demo PropsLipschitz.
Import ListNotations.
Local Open Scope R_scope.


Section C59_closest_guess_near_statement.
  Variables eps maxv : R.
  Local Hint Extern 0 (Scalar R) => exact (ROps eps maxv) : typeclass_instances.

  Theorem C59_closest_guess_near : forall c p (K : nat -> R),
    0 < eps -> curve_ok c -> curve_eps eps c -> pos_weights c -> curve_cont c -> (1 <= cdeg c)%nat ->
    length p = (cdim c - 1)%nat -> (forall i, (i < cdim c - 1)%nat -> 0 <= K i /\ rational_rate c i (K i)) -> cdist c p (dom0 c) < maxv ->
    exists u, closest_guess c p = Ok u /\ dom0 c <= u <= dom1 c /\
    forall v, dom0 c <= v <= dom1 c ->
    cdist c p u <= cdist c p v + enorm (cdim c - 1) K * ((dom1 c - dom0 c) / (INR (length (cpts c) * cdeg c) - 1)) + eps.
  Proof. first [exact (closest_guess_near eps maxv) | exact (closest_guess_near eps) | exact closest_guess_near]. Qed.
End C59_closest_guess_near_statement.
(** a rational quadratic: every point it looks for is missed by at most 18 * sqrt 2 times the spacing of the samples *)
Example C59_case_near : curve_ok demo /\ curve_eps eps0 demo /\ pos_weights demo /\ curve_cont demo /\ (1 <= cdeg demo)%nat /\ (forall i, (i < cdim demo - 1)%nat -> 0 <= 18 /\ rational_rate demo i 18) /\
  exists maxv, cdist demo [1; 2] (dom0 demo) < maxv.
Proof.
  split; [exact demo_ok|]. split; [exact demo_eps|]. split; [exact demo_pos|]. split; [exact demo_cont|]. split; [cbn; lia|].
  split; [|exists (cdist demo [1; 2] (dom0 demo) + 1); lra]. intros i Hi. split; [lra|]. apply demo_rational. cbn in Hi. lia.
Qed.
Print Assumptions C59_closest_guess_near.
