(** * Closest points and line searches: claims that fail *)
From Coq Require Import Floats List Lia ZArith.
From Verif Require Import Base Scalar CurveModel ClosestModel BfgsModel.
Import ListNotations.
Local Existing Instance FOps.
Local Open Scope float_scope.

(** a closed cubic loop starting and ending in the origin *)
Definition loop3 : Curve float := MkCurve 3 3 [[0; 0; 1]; [4; 0; 1]; [0; 4; 1]; [0; 0; 1]] [0; 0; 0; 0; 1; 1; 1; 1].

(** the closest parameter of a closed curve can lie outside of its domain, because a step below the start is wrapped to beyond the end *)
Theorem closed_closest_in_domain_refuted : exists (c : Curve float) p t,
  is_closed c = Ok true /\ knots_domain c = Ok (0, 1) /\ find_closest_parameter c p = Ok t /\ (1 <? t) = true.
Proof.
  remember (match find_closest_parameter loop3 [-0.25; -0.25] with Ok t => t | _ => 0 end) as t eqn:Et. vm_compute in Et.
  exists loop3, [-0.25; -0.25], t. subst t. vm_compute. repeat split.
Qed.

(** the iteration can leave the point it started from for a point almost three times as far away *)
Theorem closest_improves_guess_refuted : exists (c : Curve float) p u t q q',
  closest_guess c p = Ok u /\ point_at c u = Ok q /\ find_closest_parameter c p = Ok t /\ point_at c t = Ok q' /\
  (2 * vnorm (vsub q p) <? vnorm (vsub q' p)) = true.
Proof.
  remember (match find_closest_parameter loop3 [-1; 0] with Ok t => t | _ => 0 end) as t eqn:Et. vm_compute in Et.
  remember (match point_at loop3 t with Ok t => t | _ => [] end) as q eqn:Eq. rewrite Et in Eq. vm_compute in Eq.
  exists loop3, [-1; 0], 0, t, [0; 0], q. subst t q. vm_compute. repeat split.
Qed.

(** when its budget ends, the line search hands back the last trial although it was rejected: the cost rises *)
Theorem bfgs_step_descends_refuted : exists (cost : list float -> Res float) gradient s s',
  bfgs_next cost gradient 0x1p-30 s = Ok s' /\ (bs_max s <=? bs_iter s)%nat = false /\ cost (bs_x s) = Ok (bs_cost s) /\
  (bs_cost s <? bs_cost s') = true.
Proof.
  set (cost := fun x : list float => Ok (4 * coord 0 x * coord 0 x)).
  set (gradient := fun x : list float => Ok [8 * coord 0 x]).
  exists cost, gradient, (MkBS [1] 4 None None None 1 0 (Some ([1], 4))).
  remember (match bfgs_next cost gradient 0x1p-30 (MkBS [1] 4 None None None 1 0 (Some ([1], 4))) with Ok s => s | _ => MkBS [] 0 None None None 0 0 None end) as s' eqn:Es.
  vm_compute in Es. exists s'. subst s'. vm_compute. repeat split.
Qed.
