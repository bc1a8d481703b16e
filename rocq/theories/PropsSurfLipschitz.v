(** * How fast surfaces move and how dense regular samples are

    Only statements: each theorem is proved elsewhere; its statement is repeated here, followed by
    a concrete case that meets its hypotheses. *)
From Coq Require Import Reals Lra Lia List.
From Verif Require Import Base BaseFacts Scalar RSum BSplineSpec BSpline KnotModel KnotSpec KnotFacts VecFacts CurveModel CurveSpec CurveGeom SurfaceModel SurfaceSpec
  SurfaceProofs SurfaceSample SurfContinuity SurfLipschitz Demo PropsSmooth.
Import ListNotations.
Local Open Scope R_scope.

(** the rational patch moves at most 10 per unit of u and at most 2 per unit of v *)
Ltac patch_rows a := destruct a as [|[|[|[|a]]]]; try lia.
Ltac patch_cols b := destruct b as [|[|b]]; try lia.
Lemma sheet_rate_u i : (i < 3)%nat -> rate_u sheet i 4.
Proof.
  intros Hi a b Ha Hb _. cbn in Ha, Hb. unfold spc, rc, kf.
  destruct i as [|[|[|i]]]; [| | |lia]; patch_rows a; patch_cols b; cbn; unfold Rabs; destruct (Rcase_abs _); lra.
Qed.
Lemma sheet_rate_v i : (i < 3)%nat -> rate_v sheet i 2.
Proof.
  intros Hi a b Ha Hb _. cbn in Ha, Hb. unfold spc, rc, kf.
  destruct i as [|[|[|i]]]; [| | |lia]; patch_rows a; patch_cols b; cbn; unfold Rabs; destruct (Rcase_abs _); lra.
Qed.
Lemma sheet_surf_rate i : (i < 3)%nat -> surf_rate sheet i 10 2.
Proof.
  intros Hi. exists 1, 3, 4, 2, 2, 0. do 6 (split; [lra|]). split; [apply sheet_rate_u; exact Hi|]. split; [apply sheet_rate_v; exact Hi|].
  split; [|split; [|split; [|split; [|lra]]]].
  - intros a b Ha Hb _. cbn in Ha, Hb. unfold spc, rc, kf. patch_rows a; patch_cols b; cbn; unfold Rabs; destruct (Rcase_abs _); lra.
  - intros a b Ha Hb _. cbn in Ha, Hb. unfold spc, rc, kf. patch_rows a; patch_cols b; cbn; unfold Rabs; destruct (Rcase_abs _); lra.
  - intros a b Ha Hb. cbn in Ha, Hb. unfold spc, rc. patch_rows a; patch_cols b; cbn; lra.
  - intros a b Ha Hb. cbn in Ha, Hb. unfold spc, rc. destruct i as [|[|[|i]]]; [| | |lia]; patch_rows a; patch_cols b; cbn; unfold Rabs; destruct (Rcase_abs _); lra.
Qed.

Section C50_surf_lipschitz_statement.
  Variables eps maxv : R.
  Local Hint Extern 0 (Scalar R) => exact (ROps eps maxv) : typeclass_instances.

  Theorem C50_surf_lipschitz : forall s i Lu Lv u v u' v',
    surf_ok s -> surf_eps eps s -> surf_cont s -> (1 <= sdu s)%nat -> (1 <= sdv s)%nat ->
    0 <= Lu -> 0 <= Lv -> rate_u s i Lu -> rate_v s i Lv -> in_dom s u v -> in_dom s u' v' ->
    Rabs (shcoord s i u v - shcoord s i u' v') <= Lu * Rabs (u - u') + Lv * Rabs (v - v').
  Proof. first [exact (surf_lipschitz eps maxv) | exact (surf_lipschitz eps) | exact surf_lipschitz]. Qed.
End C50_surf_lipschitz_statement.
Example C50_case_lipschitz : surf_ok sheet /\ surf_eps eps0 sheet /\ surf_cont sheet /\ (1 <= sdu sheet)%nat /\ (1 <= sdv sheet)%nat /\ rate_u sheet 2 4 /\ rate_v sheet 2 2.
Proof.
  split; [apply sheet_ok|]. split; [apply sheet_ok|]. split; [apply C55_case_surface|]. split; [cbn; lia|]. split; [cbn; lia|].
  split; [apply sheet_rate_u; lia|apply sheet_rate_v; lia].
Qed.
Print Assumptions C50_surf_lipschitz.

Section C50_surf_points_lipschitz_statement.
  Variables eps maxv : R.
  Local Hint Extern 0 (Scalar R) => exact (ROps eps maxv) : typeclass_instances.

  Theorem C50_surf_points_lipschitz : forall s i Ku Kv u v u' v',
    surf_ok s -> surf_eps eps s -> surf_cont s -> (1 <= sdu s)%nat -> (1 <= sdv s)%nat ->
    surf_rate s i Ku Kv -> in_dom s u v -> in_dom s u' v' ->
    Rabs (snurbs s i u v - snurbs s i u' v') <= Ku * Rabs (u - u') + Kv * Rabs (v - v').
  Proof. first [exact (surf_points_lipschitz eps maxv) | exact (surf_points_lipschitz eps) | exact surf_points_lipschitz]. Qed.
End C50_surf_points_lipschitz_statement.
Example C50_case_points : forall i, (i < 3)%nat -> surf_rate sheet i 10 2.
Proof. exact sheet_surf_rate. Qed.
Print Assumptions C50_surf_points_lipschitz.

Section C50_surf_samples_dense_statement.
  Variables eps maxv : R.
  Local Hint Extern 0 (Scalar R) => exact (ROps eps maxv) : typeclass_instances.

  Theorem C50_surf_samples_dense : forall s du dv,
    surf_ok s -> surf_eps eps s -> spos s -> surf_cont s -> (1 <= sdu s)%nat -> (1 <= sdv s)%nat ->
    (1 <= du)%nat -> (1 <= dv)%nat ->
    exists g, regular_sample_points s du dv = Ok g /\
    forall u v, in_dom s u v -> exists row q, In row g /\ In q row /\
    forall i Ku Kv, (i < sdim s - 1)%nat -> 0 <= Ku -> 0 <= Kv -> surf_rate s i Ku Kv ->
    Rabs (snurbs s i u v - rc i q) <= Ku * ((u1 s - u0 s) / INR du / 2) + Kv * ((v1 s - v0 s) / INR dv / 2).
  Proof. first [exact (surf_samples_dense eps maxv) | exact (surf_samples_dense eps) | exact surf_samples_dense]. Qed.
End C50_surf_samples_dense_statement.
Example C50_case_dense : spos sheet /\ surf_cont sheet /\ u0 sheet < u1 sheet /\ v0 sheet < v1 sheet.
Proof. split; [apply sheet_ok|]. split; [apply C55_case_surface|]. unfold u0, u1, v0, v1, kf. cbn. lra. Qed.
Print Assumptions C50_surf_samples_dense.
