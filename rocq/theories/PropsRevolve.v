(** * Properties of surfaces of revolution and spheres

    Only statements: each theorem is proved elsewhere; its statement is repeated here, followed by
    a concrete case that meets its hypotheses. *)
From Coq Require Import Reals Lra Lia ZArith List Sorted.
From Verif Require Import Base BaseFacts Scalar RSum KnotModel KnotSpec KnotFacts VecFacts CurveModel CurveSpec CurveShapes SurfaceModel SurfaceSpec
  ArcModel ArcProofs ArcMain ArcTheorems RevolveModel RevolveProofs RevolveColumn RevolveMain RevolveTheorems RevolveSphere RevolveRefuted Demo.
Import ListNotations.
Open Scope R_scope.
Local Hint Extern 0 (Trig R) => exact TrigR : typeclass_instances.

(** the segment from (1, 0, 0) to (2, 0, 0) turned about the third axis *)
Lemma spoke_ok : curve_ok spoke /\ curve_eps eps0 spoke /\ pos_weights spoke /\ cdim spoke = 4%nat /\ clear_of_axis eps0 spoke [0; 0; 0] [0; 0; 1].
Proof.
  split; [|split; [|split; [|split; [reflexivity|]]]].
  - constructor; cbn; try lia.
    + repeat (apply Forall_cons; [reflexivity|]). constructor.
    + constructor; cbn; try lia; try (unfold kf; cbn; lra). repeat constructor; lra.
  - unfold curve_eps, eps_ok, kf, eps0; cbn; lra.
  - intros j Hj. cbn in Hj. destruct j as [|[|]]; [| |lia]; unfold cpc, rc; cbn; lra.
  - intros j Hj. cbn in Hj. right. unfold axis_dist2, dot, ctrl, cpc, rc, eps0.
    destruct j as [|[|]]; [| |lia]; cbn; lra.
Qed.


Section C68_revolve_turns_statement.
  Variables eps maxv : R.
  Local Hint Extern 0 (Scalar R) => exact (ROps eps maxv) : typeclass_instances.
  Local Notation turns := (turns eps maxv).
  Local Notation clear_of_axis := (clear_of_axis eps).

  Theorem C68_revolve_turns : forall c C K theta,
    curve_ok c -> curve_eps eps c -> pos_weights c -> cdim c = 4%nat ->
    length C = 3%nat -> length K = 3%nat -> dot K K = 1 -> clear_of_axis c C K ->
    eps <= 1 / 4 -> - (2 * PI) < theta <= 2 * PI -> (theta <= PI / 2 -> eps <= sin theta * sin theta) ->
    exists s, try_revolve c C K theta = Ok s /\ turns s c C K theta.
  Proof. first [exact (revolve_turns eps maxv) | exact (revolve_turns eps)]. Qed.
End C68_revolve_turns_statement.
Example C68_case : (curve_ok spoke /\ curve_eps eps0 spoke /\ pos_weights spoke /\ cdim spoke = 4%nat /\ clear_of_axis eps0 spoke [0; 0; 0] [0; 0; 1]) /\ dot [0; 0; 1] [0; 0; 1] = 1 /\ eps0 <= 1 / 4 /\ - (2 * PI) < PI <= 2 * PI /\ (PI <= PI / 2 -> eps0 <= sin PI * sin PI).
Proof. split; [exact spoke_ok|]. pose proof PI_RGT_0. unfold eps0, dot, rc. cbn. repeat split; lra. Qed.
Print Assumptions C68_revolve_turns.

Section C68_revolve_rejects_statement.
  Variables eps maxv : R.
  Local Hint Extern 0 (Scalar R) => exact (ROps eps maxv) : typeclass_instances.
  Local Notation clear_of_axis := (clear_of_axis eps).

  Theorem C68_revolve_rejects : forall c C K theta,
    curve_ok c -> pos_weights c -> cdim c = 4%nat -> 0 < eps ->
    length C = 3%nat -> length K = 3%nat -> dot K K = 1 -> clear_of_axis c C K ->
    theta <= PI / 2 -> sin theta * sin theta < eps ->
    (exists j, (j < length (cpts c))%nat /\ eps * eps < axis_dist2 C K (ctrl c j)) ->
    errs (try_revolve c C K theta).
  Proof. first [exact (revolve_rejects eps maxv) | exact (revolve_rejects eps)]. Qed.
End C68_revolve_rejects_statement.
Example C68_case_rejects : (curve_ok spoke /\ curve_eps eps0 spoke /\ pos_weights spoke /\ cdim spoke = 4%nat /\ clear_of_axis eps0 spoke [0; 0; 0] [0; 0; 1]) /\ 0 <= PI / 2 /\ sin 0 * sin 0 < eps0 /\ exists j, (j < length (cpts spoke))%nat /\ eps0 * eps0 < axis_dist2 [0; 0; 0] [0; 0; 1] (ctrl spoke j).
Proof. split; [exact spoke_ok|]. pose proof PI_RGT_0. rewrite sin_0. unfold eps0. split; [lra|]. split; [lra|]. exists 0%nat. split; [cbn; lia|]. unfold axis_dist2, dot, ctrl, cpc, rc. cbn. lra. Qed.
Print Assumptions C68_revolve_rejects.

Section C68_revolve_nonunit_refuted_statement.
  Variables eps maxv : R.
  Local Hint Extern 0 (Scalar R) => exact (ROps eps maxv) : typeclass_instances.

  Theorem C68_revolve_nonunit_refuted : 0 < eps <= 1 / 4 ->
    exists s, try_revolve spoke [0; 0; 0] [0; 0; 2] (PI / 2) = Ok s /\
    point_at spoke 0 = Ok [1; 0; 0] /\ surf_point_at s 1 0 = Ok [0; 2; 0].
  Proof. first [exact (revolve_nonunit_refuted eps maxv) | exact (revolve_nonunit_refuted eps)]. Qed.
End C68_revolve_nonunit_refuted_statement.
Example C68_case_nonunit : 0 < eps0 <= 1 / 4.
Proof. unfold eps0. lra. Qed.
Print Assumptions C68_revolve_nonunit_refuted.

Section C69_sphere_spec_statement.
  Variables eps maxv : R.
  Local Hint Extern 0 (Scalar R) => exact (ROps eps maxv) : typeclass_instances.

  Theorem C69_sphere_spec : forall C K X r,
    length C = 3%nat -> length K = 3%nat -> length X = 3%nat -> dot K K = 1 -> 0 < dot X X -> dot K X = 0 ->
    0 < eps <= 1 / 4 -> eps < r ->
    exists s, try_sphere C K X r = Ok s /\ surf_ok s /\
    (forall u v, in_dom s u v -> exists p, surf_point_at s u v = Ok p /\ length p = 3%nat /\ rdist p C = r) /\
    (forall q, length q = 3%nat -> rdist q C = r -> exists u v, in_dom s u v /\ surf_point_at s u v = Ok q).
  Proof. first [exact (sphere_spec eps maxv) | exact (sphere_spec eps)]. Qed.
End C69_sphere_spec_statement.
Example C69_case : dot [0; 0; 1] [0; 0; 1] = 1 /\ 0 < dot [1; 0; 0] [1; 0; 0] /\ dot [0; 0; 1] [1; 0; 0] = 0 /\ 0 < eps0 <= 1 / 4 /\ eps0 < 1.
Proof. unfold eps0, dot, rc. cbn. lra. Qed.
Print Assumptions C69_sphere_spec.
