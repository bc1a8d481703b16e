(** * Surface evaluation in terms of the public accessors

    Only statements: each theorem is proved elsewhere; its statement is repeated here, followed by
    a concrete case that meets its hypotheses. *)
From Coq Require Import Floats Reals Lra Lia List Sorted Permutation.
From Verif Require Import Base BaseFacts Scalar RSum BSplineSpec BSpline KnotModel KnotSpec KnotFacts VecFacts
  CurveModel CurveSpec CurveProofs CurveGeom CurveGeom2 SurfaceModel AccessorModel SurfaceSpec SurfaceProofs SurfAccessors SurfaceShapes KnotMisc Boehm Refine Unique Unique2 SurfUnique SurfUnique2 SurfFlip Demo PropsSurface PropsSurfUnique.
Import ListNotations.
Local Open Scope R_scope.


Section C48_surf_accessors_statement.
  Variables eps maxv : R.
  Local Hint Extern 0 (Scalar R) => exact (ROps eps maxv) : typeclass_instances.

  Theorem C48_surf_accessors : forall (s : Surf R),
    surf_ok s -> spos s ->
    exists ps, surf_dehomogenized s = Ok ps /\ length ps = nrow s /\
    forall a b, (a < nrow s)%nat -> (b < ncol s)%nat -> length (nth a ps []) = ncol s /\ length (nth b (nth a ps []) []) = (sdim s - 1)%nat /\
    forall i, (i < sdim s - 1)%nat -> rc i (nth b (nth a ps []) []) * spc s (sdim s - 1) a b = spc s i a b.
  Proof. first [exact (surf_accessors eps maxv) | exact (surf_accessors eps)]. Qed.
End C48_surf_accessors_statement.
Example C48_case_accessors : surf_ok dsf /\ spos dsf.
Proof. exact (conj dsf_ok dsf_pos). Qed.
Print Assumptions C48_surf_accessors.

Section C48_surf_evaluation_accessors_statement.
  Variables eps maxv : R.
  Local Hint Extern 0 (Scalar R) => exact (ROps eps maxv) : typeclass_instances.

  Theorem C48_surf_evaluation_accessors : forall (s : Surf R) u v,
    surf_ok s -> surf_eps eps s -> spos s -> in_dom s u v ->
    exists ps p, surf_dehomogenized s = Ok ps /\ surf_point_at s u v = Ok p /\ length p = (sdim s - 1)%nat /\
    let B := fun a b => Nu s a u * Nv s b v * spc s (sdim s - 1) a b in
    0 < rsum (nrow s) (fun a => rsum (ncol s) (B a)) /\
    forall i, (i < sdim s - 1)%nat ->
    rc i p * rsum (nrow s) (fun a => rsum (ncol s) (B a)) = rsum (nrow s) (fun a => rsum (ncol s) (fun b => B a b * rc i (nth b (nth a ps []) []))).
  Proof. first [exact (surf_evaluation_accessors eps maxv) | exact (surf_evaluation_accessors eps)]. Qed.
End C48_surf_evaluation_accessors_statement.
Example C48_case_weighted : surf_ok dsf /\ surf_eps eps0 dsf /\ spos dsf /\ in_dom dsf (1 / 2) (1 / 3).
Proof. split; [exact dsf_ok|]; split; [exact dsf_eps|]; split; [exact dsf_pos|]. apply dsf_dom; lra. Qed.
Print Assumptions C48_surf_evaluation_accessors.

Section C49_flip_involutive_statement.
  Variables eps maxv : R.
  Local Hint Extern 0 (Scalar R) => exact (ROps eps maxv) : typeclass_instances.

  Theorem C49_flip_involutive : forall s f,
    surf_ok s -> exists s', flip s f = Ok s' /\ flip s' f = Ok s.
  Proof. first [exact (flip_involutive eps maxv) | exact (flip_involutive eps)]. Qed.
End C49_flip_involutive_statement.
Example C49_case_twice : surf_ok dsf.
Proof. exact dsf_ok. Qed.
Print Assumptions C49_flip_involutive.

Section C88_surf_refine_flip_statement.
  Variables eps maxv : R.
  Local Hint Extern 0 (Scalar R) => exact (ROps eps maxv) : typeclass_instances.
  Local Notation insertable := (insertable eps).

  Theorem C88_surf_refine_flip : forall s zs d f,
    surf_ok s -> surf_eps eps s -> insertable (match d with DirU => ucol s 0 | DirV => vrow s 0 end) zs ->
    exists s1 s2 s', surf_refine s zs d = Ok s1 /\ flip s1 f = Ok s' /\ flip s f = Ok s2 /\ surf_refine s2 (reflected s d f zs) d = Ok s'.
  Proof. first [exact (surf_refine_flip eps maxv) | exact (surf_refine_flip eps)]. Qed.
End C88_surf_refine_flip_statement.
Section C88_case_flip_section.
  Local Hint Extern 0 (Scalar R) => exact (ROps eps0 maxv0) : typeclass_instances.
  Example C88_case_flip : exists s1 s2 s', surf_refine net [1 / 2; 3 / 2] DirU = Ok s1 /\ flip s1 FlipUV = Ok s' /\ flip net FlipUV = Ok s2 /\
    surf_refine s2 [umirror net - 3 / 2; umirror net - 1 / 2] DirU = Ok s'.
  Proof. apply (surf_refine_flip eps0 maxv0 net [1 / 2; 3 / 2] DirU FlipUV); [exact net_ok|exact net_eps|exact net_ins_u]. Qed.
End C88_case_flip_section.
Print Assumptions C88_surf_refine_flip.
