(** * Intersections: claims that fail *)
From Coq Require Import Floats List Lia ZArith.
From Verif Require Import Base Scalar CurveModel BfgsModel IntersectModel.
Import ListNotations.
Local Existing Instance FOps.
Local Open Scope float_scope.

(** the library's own pipeline with its default options; the random numbers are all one half *)
Definition intersect (a b : Curve float) : Res (list Hit) :=
  cc_intersections (bfgs_cc 300 default_options) (fun _ => 0.5) 4000 a b default_options.

Definition seg (a b : list float) : Curve float := MkCurve 3 1 [a; b] [0; 0; 1; 1].

(** the parabola y = 2 x^2 parameterised over a short domain, and a line that crosses it twice *)
Definition short_parabola : Curve float := MkCurve 3 2 [[-1; 2; 1]; [0; -2; 1]; [1; 2; 1]] [0; 0; 0; 0x1p-10; 0x1p-10; 0x1p-10].
Definition level : Curve float := seg [-2; 0.5; 1] [2; 0.5; 1].

(** both crossings are genuine and a unit apart, but only one of them is reported *)
Theorem intersections_not_merged_refuted : exists (a b : Curve float) h t0 t1 s0 s1,
  point_at a t0 = Ok [-0.5; 0.5] /\ point_at b s0 = Ok [-0.5; 0.5] /\
  point_at a t1 = Ok [0.5; 0.5] /\ point_at b s1 = Ok [0.5; 0.5] /\
  intersect a b = Ok [h] /\ ha_p h = [-0.5; 0.5].
Proof.
  exists short_parabola, level, (MkHit [-0.5; 0.5] 0x1p-12 [-0.5; 0.5] 0.375), 0x1p-12, 0x1.8p-11, 0.375, 0.625.
  vm_compute. repeat split.
Qed.

(** the end of a segment lies on another segment, at an inner point of it, and nothing is reported *)
Theorem endpoint_intersection_found_refuted : exists (a b : Curve float) s,
  knots_domain a = Ok (0, 1) /\ knots_domain b = Ok (0, 1) /\ point_at a 1 = Ok [2; 0] /\ point_at b s = Ok [2; 0] /\
  (0 <? s) = true /\ (s <? 1) = true /\ intersect a b = Ok [].
Proof. exists (seg [1; 1; 1] [2; 0; 1]), (seg [-1; 0; 1] [3; 0; 1]), 0.75. vm_compute. repeat split. Qed.

(** an open chain of two segments: its first and its last span meet a line in two points almost two units apart, but the hit on the last
    span is dropped because the windows over the spans are circular *)
Theorem open_compound_keeps_hits_refuted : exists (s0 s1 c : Curve float) h0 h1 r,
  point_at s0 1 = point_at s1 0 /\ point_at s0 0 <> point_at s1 1 /\
  intersect s0 c = Ok [h0] /\ intersect s1 c = Ok [h1] /\ (1.75 <? vnorm (vsub (ha_p h0) (ha_p h1))) = true /\
  compound_x_curve intersect [s0; s1] c = Ok r /\ map (fun h => snd h) r = [h0].
Proof.
  set (s0 := seg [0; 0; 1] [1; 1; 1]). set (s1 := seg [1; 1; 1] [2; 0; 1]). set (c := seg [-1; 0x1p-8; 1] [3; 0x1p-8; 1]).
  remember (match intersect s0 c with Ok (h :: _) => h | _ => MkHit [] 0 [] 0 end) as h0 eqn:E0. vm_compute in E0.
  remember (match intersect s1 c with Ok (h :: _) => h | _ => MkHit [] 0 [] 0 end) as h1 eqn:E1. vm_compute in E1.
  exists s0, s1, c, h0, h1, [(s0, c, h0)]. subst h0 h1. split; [reflexivity|]. split.
  { intros H. apply (f_equal (fun r => match r with Ok p => (coord 0 p =? 0)%float | _ => true end)) in H. vm_compute in H. discriminate. }
  vm_compute. repeat split.
Qed.

(** one crossing of two chains, at a joint of the second chain, is reported twice *)
Theorem compound_hits_distinct_refuted : exists (a b0 b1 : Curve float) h0 h1,
  point_at b0 1 = point_at b1 0 /\ compound_x_compound intersect [a] [b0; b1] = Ok [h0; h1] /\
  ha_p (snd h0) = ha_p (snd h1) /\ ha_t (snd h0) = ha_t (snd h1) /\ hb_p (snd h0) = hb_p (snd h1).
Proof.
  set (a := seg [0; -1; 1] [0; 1; 1]). set (b0 := seg [-1; 0; 1] [0; 0; 1]). set (b1 := seg [0; 0; 1] [1; 0; 1]).
  exists a, b0, b1, (a, b0, MkHit [0; 0] 0.5 [0; 0] 1), (a, b1, MkHit [0; 0] 0.5 [0; 0] 0). vm_compute. repeat split.
Qed.
