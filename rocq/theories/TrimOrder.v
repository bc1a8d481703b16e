(** * Regions: the mesh is made from the loops of the region, each sampled in its turn *)
From Coq Require Import Reals Lra Lia List.
From Verif Require Import Base BaseFacts Scalar RSum KnotFacts VecFacts MiscModel CurveModel TessCurveModel CompoundModel ContainsModel ClipModel SerdeModel MergeModel AdaptModel TrimModel TrimSpec TrimProofs TrimTheorems.
Import ListNotations.

Section Any.
  Context {T : Type} {SO : Scalar T}.

  (** loop number [i] is sampled with the random numbers left by the loops before it *)
  Definition sampled (rng : nat -> T) (fuel : nat) (tol : option T) (loops : list (list (Curve T))) (pts : list (list (list T))) (k k' : nat) : Prop :=
    exists ks, length pts = length loops /\ length ks = S (length loops) /\ nth 0 ks 0%nat = k /\ nth (length loops) ks 0%nat = k' /\
      forall i, (i < length loops)%nat -> tessellate_compound rng fuel (nth i loops []) tol (nth i ks 0%nat) = Ok (nth i pts [], nth (S i) ks 0%nat).

  Lemma sampled_cons rng fuel tol l loops q pts k k1 k' : tessellate_compound rng fuel l tol k = Ok (q, k1) -> sampled rng fuel tol loops pts k1 k' ->
    sampled rng fuel tol (l :: loops) (q :: pts) k k'.
  Proof.
    intros E (ks & L1 & L2 & H0 & H1 & H). exists (k :: ks). cbn [length nth]. split; [lia|]. split; [lia|]. split; [reflexivity|]. split; [exact H1|].
    intros [|i] Hi; cbn [nth]; [rewrite H0; exact E|]. apply H. lia.
  Qed.

  Lemma loops_sampled rng fuel tol loops : forall k pts k', tessellate_loops rng fuel loops tol k = Ok (pts, k') -> sampled rng fuel tol loops pts k k'.
  Proof.
    induction loops as [|l loops IH]; intros k pts k' E; cbn [tessellate_loops] in E.
    - assert (pts = [] /\ k' = k) as (-> & ->) by (split; congruence). exists [k]. cbn. split; [reflexivity|]. split; [reflexivity|]. split; [reflexivity|]. split; [reflexivity|]. intros i Hi. lia.
    - apply bind_ok in E. destruct E as ((q, k1) & E1 & E). apply bind_ok in E. destruct E as ((rest, k2) & E2 & E).
      assert (pts = q :: rest /\ k' = k2) as (-> & ->) by (split; congruence). apply (sampled_cons _ _ _ _ _ _ _ _ _ _ E1), IH, E2.
  Qed.
End Any.

Open Scope R_scope.
Section Real.
  Variables eps maxv : R.
  Local Hint Extern 0 (Scalar R) => exact (ROps eps maxv) : typeclass_instances.
  Local Notation chosen := (chosen eps maxv).
  Local Notation fills := (fills eps maxv).

  Theorem region_tessellate_order (D : Delaunay (list R)) wall rng fuel r tol m : lawful D (fun p => p) wall -> region_tessellate D rng fuel r tol = Ok m ->
    exists ext ints k, sampled rng fuel tol (rexterior r :: rinteriors r) (ext :: ints) 0 k /\
      ((forall l v, In l (ext :: ints) -> In v l -> length v = 2%nat) ->
       exists t, mverts m = dt_vertices D t /\ (forall v, In v (mverts m) -> exists l, In l (ext :: ints) /\ In v l) /\
         chosen (fun p => p) (Some ext) ints (dt_faces D t) m /\
         (0 < eps -> loops_accepted D (dt_empty D) (ext :: ints) ->
          (forall l v, In l (ext :: ints) -> In v l -> In v (mverts m)) /\ fills (fun p => p) (Some ext) ints (dt_faces D t) m)).
  Proof.
    intros L E. pose proof E as E'. unfold region_tessellate in E'. apply bind_ok in E'. destruct E' as ((ext, k) & E1 & E'). apply bind_ok in E'. destruct E' as ((ints, k') & E2 & _).
    exists ext, ints, k'. split; [apply (sampled_cons _ _ _ _ _ _ _ _ _ _ E1), loops_sampled, E2|]. intros Hl.
    destruct (region_tessellate_spec eps maxv D wall rng fuel r tol ext ints k k' L E1 E2 Hl) as (m' & t & Em & H). exists t.
    assert (m' = m) as -> by congruence. exact H.
  Qed.
End Real.
