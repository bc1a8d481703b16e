(** * The vertex normals of adaptive meshes, in real arithmetic *)
From Coq Require Import Reals Lra Lia List.
From Verif Require Import Base BaseFacts Scalar RSum BSpline KnotFacts KnotSpec KnotModel VecFacts MiscModel CurveModel SurfaceModel SurfaceSpec SurfaceProofs SurfaceDeriv SurfaceRational SurfaceTess MiscProofs
  AdaptModel AdaptProofs AdaptSurface AdaptConstr AdaptNormals.
Import ListNotations.
Open Scope R_scope.

(** the cross product of two vectors given by their coordinates *)
Definition crossf (a b : nat -> R) (i : nat) : R :=
  match i with O => a 1%nat * b 2%nat - a 2%nat * b 1%nat | 1%nat => a 2%nat * b 0%nat - a 0%nat * b 2%nat | _ => a 0%nat * b 1%nat - a 1%nat * b 0%nat end.
Definition sq3 (f : nat -> R) : R := rsum 3 (fun i => f i * f i).

Section Real.
  Variables eps maxv : R.
  Local Hint Extern 0 (Scalar R) => exact (ROps eps maxv) : typeclass_instances.

  Lemma forall2_impl {A B} (P Q : A -> B -> Prop) l l' : (forall a b, P a b -> Q a b) -> Forall2 P l l' -> Forall2 Q l l'.
  Proof. induction 2; constructor; auto. Qed.
  Lemma normal_length (s : Surf R) u v n : normal_at s u v = Ok n -> length n = 3%nat.
  Proof.
    unfold normal_at. intros E. do 3 (apply bind_ok in E; destruct E as (? & _ & E)). injection E as <-. reflexivity.
  Qed.
  Lemma normalize_coords (n : list R) i : length n = 3%nat -> (i < 3)%nat -> rc i (vnormalize n) = rc i n / sqrt (sq3 (fun i => rc i n)).
  Proof.
    intros L Hi. destruct n as [|x [|y [|z [|]]]]; try discriminate L. unfold vnormalize, vdivs, vnorm, vnorm2, sq3. unfold vdot. cbn [map2 map fold_left ssqrt ROps sdiv rsum].
    destruct i as [|[|[|]]]; [..|lia]; unfold rc; cbn [nth map fold_left map2]; rs; f_equal; f_equal; cbn; ring.
  Qed.
  Lemma vnorm2_sq3 (n : list R) : length n = 3%nat -> vnorm2 n = sq3 (fun i => rc i n).
  Proof.
    intros L. destruct n as [|x [|y [|z [|]]]]; try discriminate L. unfold vnorm2, vdot, sq3. unfold rc. cbn [map2 fold_left rsum nth]. rs. cbn. ring.
  Qed.

  (** ** A vertex of the unconstrained mesh has the unit normal of the surface there, unless its partial derivatives are nearly parallel *)
  Theorem adaptive_unit_normals s opts m : 0 < eps -> adaptive_tessellate s None opts = Ok m ->
    Forall2 (fun uv nm => exists n, normal_at s (fst uv) (snd uv) = Ok n /\
      (eps <= sq3 (fun i => rc i n) -> sq3 (fun i => rc i nm) = 1 /\ forall i, (i < 3)%nat -> rc i nm = rc i n / sqrt (sq3 (fun i => rc i n)))) (tuvs m) (tnormals m).
  Proof.
    intros He E. pose proof (adaptive_normals s None opts m E) as F. eapply forall2_impl; [|exact F].
    intros uv nm (n & En & H). exists n. split; [exact En|]. intros Hn. pose proof (normal_length s _ _ n En) as L.
    destruct H as [H|[(H & _)|(H & _)]]; [|congruence|].
    - assert (C : forall i, (i < 3)%nat -> rc i nm = rc i n / sqrt (sq3 (fun i => rc i n))) by (intros i Hi; subst nm; now apply normalize_coords).
      split; [|exact C].
      assert (P : 0 < sq3 (fun i => rc i n)) by lra. pose proof (sqrt_lt_R0 _ P) as P'. pose proof (sqrt_sqrt _ (Rlt_le _ _ P)) as Q.
      unfold sq3 at 1. cbn [rsum]. rewrite !C by lia. set (r := sqrt (sq3 (fun i => rc i n))) in *.
      transitivity ((0 + rc 0 n * rc 0 n + rc 1 n * rc 1 n + rc 2 n * rc 2 n) / (r * r)); [field; lra|]. rewrite Q. unfold sq3 at 1. cbn [rsum]. field.
      unfold sq3 in P. cbn [rsum] in P. lra.
    - exfalso. rewrite vnorm2_sq3 in H by exact L. cbn [sltb ROps seps] in H. apply Rltb_true in H. lra.
  Qed.

  (** in terms of the true partial derivatives, wherever these exist: the normal is their normalised cross product *)
  Theorem adaptive_true_normals s opts m : surf_ok s -> surf_eps eps s -> spos s -> sdim s = 4%nat -> adaptive_tessellate s None opts = Ok m ->
    Forall2 (fun uv nm => forall su sv a b, (sdu s <= su <= nrow s - 1)%nat -> (sdv s <= sv <= ncol s - 1)%nat ->
      kf (suk s) su < fst uv < kf (suk s) (S su) -> kf (svk s) sv < snd uv < kf (svk s) (S sv) ->
      (forall i, (i < 3)%nat -> derivable_pt_lim (fun x => snurbs s i x (snd uv)) (fst uv) (a i) /\ derivable_pt_lim (fun y => snurbs s i (fst uv) y) (snd uv) (b i)) ->
      eps <= sq3 (crossf a b) ->
      forall i, (i < 3)%nat -> rc i nm = crossf a b i / sqrt (sq3 (crossf a b))) (tuvs m) (tnormals m).
  Proof.
    intros Hs He Hw HD E. assert (H0 : 0 < eps) by (destruct He as ((H & _) & _); exact H).
    eapply forall2_impl; [|exact (adaptive_unit_normals s opts m H0 E)]. intros uv nm (n & En & H) su sv a b Hsu Hsv Hu Hv D Hn.
    destruct (normal_at_spec eps maxv s su sv (fst uv) (snd uv) Hs He Hw HD Hsu Hsv Hu Hv) as (n' & a' & b' & En' & _ & D' & N0 & N1 & N2 & _).
    assert (n' = n) as -> by congruence.
    assert (A : forall i, (i < 3)%nat -> a' i = a i /\ b' i = b i).
    { intros i Hi. destruct (D i Hi) as (D1 & D2), (D' i Hi) as (D3 & D4). split; eapply uniqueness_limite; eassumption. }
    assert (C : forall i, (i < 3)%nat -> rc i n = crossf a b i).
    { intros i Hi. destruct (A 0%nat ltac:(lia)) as (A0 & B0), (A 1%nat ltac:(lia)) as (A1 & B1), (A 2%nat ltac:(lia)) as (A2 & B2).
      destruct i as [|[|[|]]]; [..|lia]; cbn [crossf]; congruence. }
    assert (Q : sq3 (fun i => rc i n) = sq3 (crossf a b)) by (unfold sq3; apply rsum_ext; intros i Hi; rewrite C by exact Hi; reflexivity).
    rewrite Q in H. intros i Hi. rewrite <- C by exact Hi. now apply H.
  Qed.
End Real.
