(** * Properties of list merging, knot unification and meshes

    Only statements: each theorem is proved elsewhere; its statement is repeated here, followed by
    a concrete case that meets its hypotheses. *)
From Coq Require Import Reals Lra Lia Psatz ZArith Sorted Permutation.
From Verif Require Import Base BaseFacts Scalar RSum BSplineSpec BSpline KnotModel KnotSpec KnotFacts VecFacts
  CurveModel CurveKnotModel CurveSpec CurveProofs CurveGeom2 KnotMisc Boehm Refine Decompose MergeModel MergeProofs Demo.
Open Scope R_scope.

Section C54_union_spec_statement.
  Variables eps maxv : R.
  Local Hint Extern 0 (Scalar R) => exact (ROps eps maxv) : typeclass_instances.
  Theorem C54_union_spec : 0 < eps -> forall (a b : list R),
    Sorted Rle a -> Sorted Rle b -> separated eps (a ++ b) ->
    Sorted Rle (sorted_set_union a b) /\ forall x, cnt (sorted_set_union a b) x = Nat.max (cnt a x) (cnt b x).
  Proof. intros He. first [exact (union_spec eps maxv He) | exact (union_spec eps He)]. Qed.
End C54_union_spec_statement.
Example C54_case_union : 0 < eps0 /\ Sorted Rle [0; 0; 1] /\ Sorted Rle [0; 1 / 2; 1] /\ separated eps0 ([0; 0; 1] ++ [0; 1 / 2; 1]).
Proof. unfold eps0. split; [lra|]. split; [repeat constructor; lra|]. split; [repeat constructor; lra|]. intros x y Hx Hy. in_cases; first [left; reflexivity | right; abs_lra]. Qed.
Print Assumptions C54_union_spec.

Section C54_sub_spec_statement.
  Variables eps maxv : R.
  Local Hint Extern 0 (Scalar R) => exact (ROps eps maxv) : typeclass_instances.
  Theorem C54_sub_spec : 0 < eps -> forall (a b : list R),
    Sorted Rle a -> Sorted Rle b -> separated eps a ->
    (forall x, (cnt b x <= cnt a x)%nat) ->
    Sorted Rle (sorted_set_sub a b) /\ forall x, (cnt (sorted_set_sub a b) x + cnt b x = cnt a x)%nat.
  Proof. intros He. first [exact (sub_spec eps maxv He) | exact (sub_spec eps He)]. Qed.
End C54_sub_spec_statement.
Example C54_case_sub : forall x, (count_occ Req_EM_T [0; 1]%R x <= count_occ Req_EM_T [0; 0; 1]%R x)%nat.
Proof. intros x. cbn. repeat destruct (Req_EM_T _ _); lia. Qed.
Print Assumptions C54_sub_spec.

Section C54_sub_perm_statement.
  Variables eps maxv : R.
  Local Hint Extern 0 (Scalar R) => exact (ROps eps maxv) : typeclass_instances.
  Theorem C54_sub_perm : 0 < eps -> forall (a b : list R),
    Sorted Rle a -> Sorted Rle b -> separated eps a -> (forall x, (cnt b x <= cnt a x)%nat) ->
    Permutation (b ++ sorted_set_sub a b) a.
  Proof. intros He. first [exact (sub_perm eps maxv He) | exact (sub_perm eps He)]. Qed.
End C54_sub_perm_statement.
Print Assumptions C54_sub_perm.

Definition un_a : Curve R := MkCurve 3 1 [[0; 0; 1]; [1; 1; 1]; [2; 2; 1]] [0; 0; 1 / 2; 1; 1].
Definition un_b : Curve R := MkCurve 3 1 [[0; 5; 1]; [2; 7; 1]] [1; 1; 3; 3].


Section C54_unify_spec_statement.
  Variables eps maxv : R.
  Local Hint Extern 0 (Scalar R) => exact (ROps eps maxv) : typeclass_instances.
  Theorem C54_unify_spec : 0 < eps -> forall p (cs : list (Curve R)),
    Forall (fun c => curve_ok c /\ clamped c /\ cdeg c = p /\ curve_eps eps (on_span (max_span cs) c)) cs ->
    separated eps (concat (map (fun c => cknots (on_span (max_span cs) c)) cs)) ->
    exists cs' ks, unify_knots cs = Ok cs' /\ Sorted Rle ks /\
    (forall x n, (n <= cnt ks x)%nat <-> (n = 0)%nat \/ exists c, In c cs /\ (n <= cnt (cknots (on_span (max_span cs) c)) x)%nat) /\
    Forall2 (fun c c' => cknots c' = ks /\ cdeg c' = p /\ cdim c' = cdim c /\ curve_ok c' /\
    dom0 c' = 0 /\ dom1 c' = max_span cs /\
    forall i u, dom0 c <= u <= dom1 c ->
    hcoord c' i ((u - dom0 c) * (max_span cs / (dom1 c - dom0 c))) = hcoord c i u) cs cs'.
  Proof. intros He. first [exact (unify_spec eps maxv He) | exact (unify_spec eps He)]. Qed.
End C54_unify_spec_statement.
Example C54_case_unify : Forall (fun c => curve_ok c /\ clamped c /\ cdeg c = 1%nat /\ curve_eps eps0 (on_span (max_span [un_a; un_b]) c)) [un_a; un_b] /\
  separated eps0 (concat (map (fun c => cknots (on_span (max_span [un_a; un_b]) c)) [un_a; un_b])).
Proof. 
  assert (ES : max_span [un_a; un_b] = 2).
  { unfold max_span, dom0, dom1, kf. cbn. unfold Rmax. repeat destruct (Rle_dec _ _); lra. }
  rewrite ES.
  assert (Ka : cknots (on_span 2 un_a) = [0; 0; 1; 2; 2]).
  { unfold on_span, reparam, dom0, dom1, kf. cbn. repeat (f_equal; try lra). }
  assert (Kb : cknots (on_span 2 un_b) = [0; 0; 2; 2]).
  { unfold on_span, reparam, dom0, dom1, kf. cbn. repeat (f_equal; try lra). }
  assert (Oa : curve_ok un_a) by (constructor; cbn; try lia; [repeat constructor|]; constructor; cbn; try lia; unfold kf; cbn; try lra; repeat constructor; lra).
  assert (Ob : curve_ok un_b) by (constructor; cbn; try lia; [repeat constructor|]; constructor; cbn; try lia; unfold kf; cbn; try lra; repeat constructor; lra).
  split.
  - constructor; [|constructor; [|constructor]].
    + split; [exact Oa|]. split; [unfold clamped, dom0, dom1, kf; cbn; lra|]. split; [reflexivity|].
      unfold curve_eps, eps_ok. rewrite Ka. unfold eps0, kf. cbn. lra.
    + split; [exact Ob|]. split; [unfold clamped, dom0, dom1, kf; cbn; lra|]. split; [reflexivity|].
      unfold curve_eps, eps_ok. rewrite Kb. unfold eps0, kf. cbn. lra.
  - cbn [map concat]. rewrite Ka, Kb. intros x y Hx Hy. cbn in Hx, Hy. unfold eps0.
    repeat match goal with H : _ \/ _ |- _ => destruct H as [H|H] end; try contradiction; subst; first [left; reflexivity | right; abs_lra]. Qed.
Print Assumptions C54_unify_spec.

Section C56_merge_in_statement.
  Variables eps maxv : R.
  Local Hint Extern 0 (Scalar R) => exact (ROps eps maxv) : typeclass_instances.
  Theorem C56_merge_in : forall (a b : list R) x,
    In x (merge_sorted a b) <-> In x a \/ In x b.
  Proof. first [exact (merge_in eps maxv) | exact (merge_in eps) | exact merge_in | exact (merge_in maxv)]. Qed.
End C56_merge_in_statement.
Print Assumptions C56_merge_in.

Section C56_merge_sorted_sorted_statement.
  Variables eps maxv : R.
  Local Hint Extern 0 (Scalar R) => exact (ROps eps maxv) : typeclass_instances.
  Theorem C56_merge_sorted_sorted : forall (a b : list R),
    Sorted Rle a -> Sorted Rle b -> Sorted Rle (merge_sorted a b).
  Proof. first [exact (merge_sorted_sorted eps maxv) | exact (merge_sorted_sorted eps) | exact merge_sorted_sorted | exact (merge_sorted_sorted maxv)]. Qed.
End C56_merge_sorted_sorted_statement.
Print Assumptions C56_merge_sorted_sorted.

Section C56_merge_strict_statement.
  Variables eps maxv : R.
  Local Hint Extern 0 (Scalar R) => exact (ROps eps maxv) : typeclass_instances.
  Theorem C56_merge_strict : forall (a b : list R),
    StronglySorted Rlt a -> StronglySorted Rlt b -> StronglySorted Rlt (merge_sorted a b).
  Proof. first [exact (merge_strict eps maxv) | exact (merge_strict eps) | exact merge_strict | exact (merge_strict maxv)]. Qed.
End C56_merge_strict_statement.
Example C56_case : StronglySorted Rlt [0; 1; 2] /\ StronglySorted Rlt [1; 3 / 2].
Proof. split; repeat constructor; lra. Qed.
Print Assumptions C56_merge_strict.
Local Open Scope nat_scope.

Section C52_triangles_ok_statement.
  Context {V : Type}.
  Theorem C52_triangles_ok : forall (m : Mesh V),
    mesh_ok m <-> is_ok (triangles m).
  Proof. exact triangles_ok. Qed.
End C52_triangles_ok_statement.
Print Assumptions C52_triangles_ok.

Section C52_mesh_add_triangles_statement.
  Context {V : Type}.
  Theorem C52_mesh_add_triangles : forall (a b : Mesh V) ta tb,
    triangles a = Ok ta -> triangles b = Ok tb ->
    triangles (mesh_add a b) = Ok (ta ++ tb) /\ mverts (mesh_add a b) = mverts a ++ mverts b /\
    length (mfaces (mesh_add a b)) = length (mfaces a) + length (mfaces b).
  Proof. exact mesh_add_triangles. Qed.
End C52_mesh_add_triangles_statement.
Example C52_case : triangles (MkMesh [1; 2; 3] [(0, 1, 2)]) = Ok [(1, 2, 3)] /\ triangles (mesh_add (MkMesh [1; 2; 3] [(0, 1, 2)]) (MkMesh [4; 5; 6] [(2, 1, 0)])) = Ok [(1, 2, 3); (6, 5, 4)].
Proof. split; reflexivity. Qed.
Print Assumptions C52_mesh_add_triangles.

Section C52_mesh_sum_triangles_statement.
  Context {V : Type}.
  Theorem C52_mesh_sum_triangles : forall (l : list (Mesh V)) ts,
    mapM triangles l = Ok ts -> triangles (mesh_sum l) = Ok (concat ts).
  Proof. exact mesh_sum_triangles. Qed.
End C52_mesh_sum_triangles_statement.
Print Assumptions C52_mesh_sum_triangles.

Section C52_mesh_add_assoc_statement.
  Context {V : Type}.
  Theorem C52_mesh_add_assoc : forall (a b c : Mesh V),
    mesh_add (mesh_add a b) c = mesh_add a (mesh_add b c).
  Proof. exact mesh_add_assoc. Qed.
End C52_mesh_add_assoc_statement.
Print Assumptions C52_mesh_add_assoc.
Local Open Scope R_scope.

Section C52_mesh_area2_add_statement.
  Variables eps maxv : R.
  Local Hint Extern 0 (Scalar R) => exact (ROps eps maxv) : typeclass_instances.
  Theorem C52_mesh_area2_add : forall (a b : Mesh (list R)) x y,
    mesh_area2 a = Ok x -> mesh_area2 b = Ok y -> mesh_area2 (mesh_add a b) = Ok (x + y).
  Proof. first [exact (mesh_area2_add eps maxv) | exact (mesh_area2_add eps) | exact mesh_area2_add | exact (mesh_area2_add maxv)]. Qed.
End C52_mesh_area2_add_statement.
Print Assumptions C52_mesh_area2_add.

Section C52_mesh_area3_add_statement.
  Variables eps maxv : R.
  Local Hint Extern 0 (Scalar R) => exact (ROps eps maxv) : typeclass_instances.
  Theorem C52_mesh_area3_add : forall (a b : Mesh (list R)) x y,
    mesh_area3 a = Ok x -> mesh_area3 b = Ok y -> mesh_area3 (mesh_add a b) = Ok (x + y).
  Proof. first [exact (mesh_area3_add eps maxv) | exact (mesh_area3_add eps) | exact mesh_area3_add | exact (mesh_area3_add maxv)]. Qed.
End C52_mesh_area3_add_statement.
Print Assumptions C52_mesh_area3_add.
