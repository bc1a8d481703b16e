(** * Properties of circles, arcs and ellipses

    Only statements: each theorem is proved elsewhere; its statement is repeated here, followed by
    a concrete case that meets its hypotheses. *)
From Coq Require Import Reals Lra Lia ZArith List Sorted.
From Verif Require Import Base BaseFacts Scalar RSum KnotModel KnotSpec VecFacts CurveModel CurveSpec CurveShapes
  ArcModel ArcProofs ArcMain ArcTheorems ArcRefuted Demo.
Open Scope R_scope.
Local Hint Extern 0 (Trig R) => exact TrigR : typeclass_instances.


Section C24_arc_traces_statement.
  Variables eps maxv : R.
  Local Hint Extern 0 (Scalar R) => exact (ROps eps maxv) : typeclass_instances.
  Local Notation traces := (traces eps maxv).
  Local Notation on_circle := (on_circle eps maxv).
  Theorem C24_arc_traces : forall D C X Y r start fin,
    axes_ok D C X Y -> dot X Y = 0 -> r <> 0 -> 0 < eps <= 1 / 2 ->
    start < fin <= start + 2 * PI -> (fin - start < PI -> eps <= sin (fin - start) * sin (fin - start)) ->
    exists c, try_arc D C X Y r start fin = Ok c /\
    traces c D C (half_axis X r) (half_axis Y r) start fin /\ on_circle c C r.
  Proof. first [exact (arc_traces eps maxv) | exact (arc_traces eps) | exact arc_traces | exact (arc_traces maxv)]. Qed.
End C24_arc_traces_statement.
Example C24_case_arc : axes_ok 3 [0; 0] [1; 0] [0; 1] /\ dot [1; 0] [0; 1] = 0 /\ 0 < eps0 <= 1 / 2 /\ 0 < PI / 2 <= 0 + 2 * PI /\ eps0 <= sin (PI / 2 - 0) * sin (PI / 2 - 0).
Proof. destruct unit_axes as (U & V); split; [exact U|]; split; [exact V|]; pose proof PI_RGT_0; unfold eps0; split; [lra|]; split; [lra|]; rewrite Rminus_0_r, sin_PI2; lra. Qed.
Print Assumptions C24_arc_traces.

Section C24_circle_traces_statement.
  Variables eps maxv : R.
  Local Hint Extern 0 (Scalar R) => exact (ROps eps maxv) : typeclass_instances.
  Local Notation traces := (traces eps maxv).
  Local Notation on_circle := (on_circle eps maxv).
  Theorem C24_circle_traces : forall D C X Y r,
    axes_ok D C X Y -> dot X Y = 0 -> r <> 0 -> 0 < eps <= 1 / 2 ->
    exists c, try_circle D C X Y r = Ok c /\
    traces c D C (half_axis X r) (half_axis Y r) 0 (2 * PI) /\ on_circle c C r.
  Proof. first [exact (circle_traces eps maxv) | exact (circle_traces eps) | exact circle_traces | exact (circle_traces maxv)]. Qed.
End C24_circle_traces_statement.
Example C24_case_circle : axes_ok 3 [0; 0] [1; 0] [0; 1] /\ dot [1; 0] [0; 1] = 0.
Proof. exact unit_axes. Qed.
Print Assumptions C24_circle_traces.

Section C24_ellipse_traces_statement.
  Variables eps maxv : R.
  Local Hint Extern 0 (Scalar R) => exact (ROps eps maxv) : typeclass_instances.
  Local Notation traces := (traces eps maxv).
  Local Notation on_circle := (on_circle eps maxv).
  Theorem C24_ellipse_traces : forall D C X Y,
    axes_ok D C X Y -> 0 < eps <= 1 / 2 -> dot X Y * dot X Y <= (1 - eps) * (dot X X * dot Y Y) ->
    exists c, try_ellipse D C X Y = Ok c /\ traces c D C X Y 0 (2 * PI).
  Proof. first [exact (ellipse_traces eps maxv) | exact (ellipse_traces eps) | exact ellipse_traces | exact (ellipse_traces maxv)]. Qed.
End C24_ellipse_traces_statement.
Example C24_case_ellipse : axes_ok 4 [1; 2; 3] [2; 0; 0] [1; 1; 0] /\ dot [2; 0; 0] [1; 1; 0] * dot [2; 0; 0] [1; 1; 0] <= (1 - eps0) * (dot [2; 0; 0] [2; 0; 0] * dot [1; 1; 0] [1; 1; 0]).
Proof. unfold axes_ok, dot, eps0; cbn; unfold rc, coord; cbn; repeat split; try lia; lra. Qed.
Print Assumptions C24_ellipse_traces.

Section C24_arc_angle_order_statement.
  Variables eps maxv : R.
  Local Hint Extern 0 (Scalar R) => exact (ROps eps maxv) : typeclass_instances.
  Local Notation traces := (traces eps maxv).
  Local Notation on_circle := (on_circle eps maxv).
  Theorem C24_arc_angle_order : forall D C X Y start fin,
    fin <= start ->
    errs (try_ellipse_arc D C X Y start fin) /\ forall r, errs (try_arc D C X Y r start fin).
  Proof. first [exact (arc_angle_order eps maxv) | exact (arc_angle_order eps) | exact arc_angle_order | exact (arc_angle_order maxv)]. Qed.
End C24_arc_angle_order_statement.
Print Assumptions C24_arc_angle_order.

Section C24_arc_near_half_turn_refuted_statement.
  Variables eps maxv : R.
  Local Hint Extern 0 (Scalar R) => exact (ROps eps maxv) : typeclass_instances.
  Theorem C24_arc_near_half_turn_refuted : 0 < eps <= 1 ->
    exists fin, 0 < fin < PI /\ errs (try_arc 3 [0; 0] [1; 0] [0; 1] 1 0 fin).
  Proof. first [exact (arc_near_half_turn_refuted eps maxv) | exact (arc_near_half_turn_refuted eps) | exact arc_near_half_turn_refuted | exact (arc_near_half_turn_refuted maxv)]. Qed.
End C24_arc_near_half_turn_refuted_statement.
Print Assumptions C24_arc_near_half_turn_refuted.

Section C24_arc_two_turns_refuted_statement.
  Variables eps maxv : R.
  Local Hint Extern 0 (Scalar R) => exact (ROps eps maxv) : typeclass_instances.
  Theorem C24_arc_two_turns_refuted : 0 < eps ->
    errs (try_arc 3 [0; 0] [1; 0] [0; 1] 1 0 (4 * PI)).
  Proof. first [exact (arc_two_turns_refuted eps maxv) | exact (arc_two_turns_refuted eps) | exact arc_two_turns_refuted | exact (arc_two_turns_refuted maxv)]. Qed.
End C24_arc_two_turns_refuted_statement.
Print Assumptions C24_arc_two_turns_refuted.

Section C24_ellipse_arc_refuted_statement.
  Variables eps maxv : R.
  Local Hint Extern 0 (Scalar R) => exact (ROps eps maxv) : typeclass_instances.
  Theorem C24_ellipse_arc_refuted : 0 < eps <= 1 / 2 ->
    exists c u p, try_ellipse_arc 3 [0; 0] [2; 0] [0; 1] 0 (PI / 3) = Ok c /\ dom0 c <= u <= dom1 c /\
    point_at c u = Ok p /\ forall phi, p <> on_ellipse [0; 0] [2; 0] [0; 1] phi.
  Proof. first [exact (ellipse_arc_refuted eps maxv) | exact (ellipse_arc_refuted eps) | exact ellipse_arc_refuted | exact (ellipse_arc_refuted maxv)]. Qed.
End C24_ellipse_arc_refuted_statement.
Print Assumptions C24_ellipse_arc_refuted.
