(** * Regions are meshed from their loops, in their order

    Only statements: each theorem is proved elsewhere; its statement is repeated here, followed by
    a concrete case that meets its hypotheses. *)
From Coq Require Import Reals Lra Lia List.
From Verif Require Import Base BaseFacts Scalar RSum KnotFacts VecFacts MiscModel CurveModel TessCurveModel CompoundModel ContainsModel ClipModel SerdeModel MergeModel AdaptModel
  TrimModel TrimSpec TrimProofs TrimTheorems TrimDemo TrimOrder Demo.
Import ListNotations.
Local Open Scope R_scope.


Section C74_region_tessellate_order_statement.
  Variables eps maxv : R.
  Local Hint Extern 0 (Scalar R) => exact (ROps eps maxv) : typeclass_instances.
  Local Notation chosen := (chosen eps maxv).
  Local Notation fills := (fills eps maxv).

  Theorem C74_region_tessellate_order : forall (D : Delaunay (list R)) wall rng fuel r tol m,
    lawful D (fun p => p) wall -> region_tessellate D rng fuel r tol = Ok m ->
    exists ext ints k, sampled rng fuel tol (rexterior r :: rinteriors r) (ext :: ints) 0 k /\
    ((forall l v, In l (ext :: ints) -> In v l -> length v = 2%nat) ->
    exists t, mverts m = dt_vertices D t /\ (forall v, In v (mverts m) -> exists l, In l (ext :: ints) /\ In v l) /\
    chosen (fun p => p) (Some ext) ints (dt_faces D t) m /\
    (0 < eps -> loops_accepted D (dt_empty D) (ext :: ints) ->
    (forall l v, In l (ext :: ints) -> In v l -> In v (mverts m)) /\ fills (fun p => p) (Some ext) ints (dt_faces D t) m)).
  Proof. exact (region_tessellate_order eps maxv). Qed.
End C74_region_tessellate_order_statement.
Section C74_case_order_section.
  Local Hint Extern 0 (Scalar R) => exact (ROps eps0 maxv0) : typeclass_instances.
  Example C74_case_order : exists m ext ints k, region_tessellate (toy (fun p => p) faces6) (fun _ => 1 / 2) 0 holed None = Ok m /\
    sampled (fun _ => 1 / 2) 0 None (rexterior holed :: rinteriors holed) (ext :: ints) 0 k /\ length ints = 1%nat.
  Proof.
    destruct holed_case as (ext & ints & E1 & E2 & Hl & L & _).
    destruct (region_tessellate_spec eps0 maxv0 _ _ _ _ holed None ext ints 0 0 L E1 E2 Hl) as (m & t & E & _).
    exists m, ext, ints, 0%nat. split; [exact E|]. pose proof (loops_sampled _ _ _ _ _ _ _ E2) as Q. split; [exact (sampled_cons _ _ _ _ _ _ _ _ _ _ E1 Q)|].
    destruct Q as (ks & Q & _). exact Q.
  Qed.
End C74_case_order_section.
Print Assumptions C74_region_tessellate_order.
