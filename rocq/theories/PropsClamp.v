(** * Clamping, adding knots outside the domain, and adaptive division

    Only statements: each theorem is proved elsewhere; its statement is repeated here, followed by
    a concrete case that meets its hypotheses. *)
From Coq Require Import Floats.
From Coq Require Import Reals Lra Lia List Sorted Permutation.
From Verif Require Import Base BaseFacts Scalar RSum BSplineSpec BSpline KnotModel KnotSpec KnotFacts VecFacts MiscModel CurveModel CurveKnotModel
  CurveSpec CurveProofs CurveGeom CurveGeom2 KnotMisc Boehm AddKnot ClampProofs ClipModel ClipReal SurfaceModel AdaptModel AdaptProofs AdaptForest AdaptFlat AdaptRefuted Demo.
Import ListNotations.
Local Open Scope R_scope.

(** an unclamped quadratic with equal weights *)
Definition uni : Curve R := MkCurve 3 2 [[0; 0; 1]; [1; 2; 1]; [3; 1; 1]; [4; 3; 1]; [6; 0; 1]] [0; 1; 2; 3; 4; 5; 6; 7].
Lemma uni_ok : curve_ok uni.
Proof. constructor; cbn; try lia; [repeat constructor|]. constructor; cbn; try lia; unfold kf; cbn; try lra. repeat constructor; lra. Qed.
Lemma uni_wf : curve_wf uni.
Proof. constructor; cbn; try lia; [repeat constructor|]. repeat constructor; lra. Qed.
Lemma uni_weights : weights uni 1.
Proof. intros t Ht. cbn in Ht. unfold cpc, rc. destruct t as [|[|[|[|[|t]]]]]; cbn; try reflexivity; lia. Qed.
Lemma uni_separated : separated eps0 (cknots uni).
Proof.
  unfold separated, uni, eps0. cbn [cknots]. intros x y Hx Hy. cbn in Hx, Hy.
  assert (G : forall l : list Z, In x (map IZR l) -> exists a, x = IZR a) by (intros l H; apply in_map_iff in H; destruct H as (a & <- & _); eauto).
  assert (G' : forall l : list Z, In y (map IZR l) -> exists a, y = IZR a) by (intros l H; apply in_map_iff in H; destruct H as (a & <- & _); eauto).
  destruct (G [0; 1; 2; 3; 4; 5; 6; 7]%Z Hx) as (m & ->). destruct (G' [0; 1; 2; 3; 4; 5; 6; 7]%Z Hy) as (n & ->).
  destruct (Z.eq_dec m n) as [->|N]; [now left|right].
  rewrite <- minus_IZR, <- abs_IZR. apply Rlt_le_trans with 1; [lra|]. apply IZR_le. lia.
Qed.

Section C14_add_knot_anywhere_statement.
  Variables eps maxv : R.
  Local Hint Extern 0 (Scalar R) => exact (ROps eps maxv) : typeclass_instances.

  Theorem C14_add_knot_anywhere : forall c x,
    curve_wf c -> kf (cknots c) 0 <= x <= last (cknots c) 0 ->
    exists c' j, try_add_knot c x = Ok c' /\ (j < length (cknots c))%nat /\
    kf (cknots c) j <= x <= kf (cknots c) (S j) /\ ((S j < length (cknots c))%nat -> x < kf (cknots c) (S j)) /\
    cdim c' = cdim c /\ cdeg c' = cdeg c /\ cknots c' = ins_knots (cknots c) j x /\
    length (cpts c') = S (length (cpts c)) /\
    Forall (fun p => length p = cdim c) (cpts c') /\
    (forall i t, (t + cdeg c <= j)%nat -> (t < length (cpts c))%nat -> cpc c' i t = cpc c i t) /\
    (forall i t, (j < t + cdeg c)%nat -> (t <= j)%nat -> (1 <= t < length (cpts c))%nat -> cpc c' i t = addk c j x i t) /\
    (forall i t, (j < t <= length (cpts c))%nat -> cpc c' i t = cpc c i (t - 1)) /\
    (forall t, (t <= length (cpts c))%nat -> cpc c' (cdim c - 1) t = cpc c (cdim c - 1) (if (t <=? j)%nat && (t <? length (cpts c))%nat then t else t - 1)).
  Proof. first [exact (add_knot_anywhere eps maxv) | exact (add_knot_anywhere eps) | exact add_knot_anywhere]. Qed.
End C14_add_knot_anywhere_statement.
Section C14_case_anywhere_section.
  Local Hint Extern 0 (Scalar R) => exact (ROps eps0 maxv0) : typeclass_instances.
  Example C14_case_anywhere : curve_wf uni /\ kf (cknots uni) 0 <= 1 / 2 <= last (cknots uni) 0 /\ 1 / 2 < dom0 uni.
  Proof. split; [exact uni_wf|]. unfold dom0, kf; cbn; lra. Qed.
End C14_case_anywhere_section.
Print Assumptions C14_add_knot_anywhere.

Section C14_add_knot_extends_statement.
  Variables eps maxv : R.
  Local Hint Extern 0 (Scalar R) => exact (ROps eps maxv) : typeclass_instances.

  Theorem C14_add_knot_extends : forall c x w,
    curve_wf c -> weights c w -> kf (cknots c) 0 <= x <= last (cknots c) 0 ->
    exists c', try_add_knot c x = Ok c' /\ extends c c' /\ weights c' w /\ Permutation (cknots c') (x :: cknots c).
  Proof. first [exact (add_knot_extends eps maxv) | exact (add_knot_extends eps) | exact add_knot_extends]. Qed.
End C14_add_knot_extends_statement.
Section C14_case_extends_section.
  Local Hint Extern 0 (Scalar R) => exact (ROps eps0 maxv0) : typeclass_instances.
  Example C14_case_extends : curve_wf uni /\ weights uni 1 /\ kf (cknots uni) 0 <= 1 / 2 <= last (cknots uni) 0.
  Proof. split; [exact uni_wf|]. split; [exact uni_weights|]. unfold kf; cbn; lra. Qed.
End C14_case_extends_section.
Print Assumptions C14_add_knot_extends.

Section C66_try_clamp_extends_statement.
  Variables eps maxv : R.
  Local Hint Extern 0 (Scalar R) => exact (ROps eps maxv) : typeclass_instances.

  Theorem C66_try_clamp_extends : forall c w,
    0 < eps -> curve_ok c -> separated eps (cknots c) -> weights c w ->
    exists c' a b, try_clamp c = Ok c' /\
    cknots c' = repeat (kf (cknots c) 0) a ++ cknots c ++ repeat (last (cknots c) 0) b /\
    curve_ok c' /\ cdim c' = cdim c /\ cdeg c' = cdeg c /\ weights c' w /\
    (forall j, (j <= cdeg c)%nat -> kf (cknots c') j = kf (cknots c) 0) /\
    (forall j, (length (cpts c') <= j)%nat -> kf (cknots c') j = last (cknots c) 0) /\
    dom0 c' <= dom0 c /\ dom1 c <= dom1 c' /\
    forall u, dom0 c <= u < dom1 c -> point_at c' u = point_at c u.
  Proof. first [exact (try_clamp_extends eps maxv) | exact (try_clamp_extends eps) | exact try_clamp_extends]. Qed.
End C66_try_clamp_extends_statement.
Section C66_case_extends_section.
  Local Hint Extern 0 (Scalar R) => exact (ROps eps0 maxv0) : typeclass_instances.
  Example C66_case_extends : 0 < eps0 /\ curve_ok uni /\ separated eps0 (cknots uni) /\ weights uni 1 /\ dom0 uni = 2 /\ dom1 uni = 5.
  Proof. split; [unfold eps0; lra|]. split; [exact uni_ok|]. split; [exact uni_separated|]. split; [exact uni_weights|]. split; reflexivity. Qed.
End C66_case_extends_section.
Print Assumptions C66_try_clamp_extends.

Section C43_clip_select_extra_statement.
  Variables eps maxv : R.
  Local Hint Extern 0 (Scalar R) => exact (ROps eps maxv) : typeclass_instances.

  Theorem C43_clip_select_extra : forall {X} (l : list (X * Degeneracy R)),
    Nat.odd (length (filter is_regular l)) = true ->
    (exists x, In x l /\ is_regular x = false) -> (forall x d, In (x, d) l -> d = DNone \/ exists a, d = DAngle a) ->
    exists m a, clip_select l = Ok (map fst (filter is_regular l) ++ [m]) /\ In (m, DAngle a) l /\
    forall x b, In (x, DAngle b) l -> b <= a.
  Proof. first [exact (@clip_select_extra eps maxv) | exact (@clip_select_extra eps) | exact @clip_select_extra]. Qed.
End C43_clip_select_extra_statement.
Section C43_case_extra_section.
  Local Hint Extern 0 (Scalar R) => exact (ROps eps0 maxv0) : typeclass_instances.
  Example C43_case_extra : let l := [(0%nat, DNone); (1%nat, DAngle (3 / 4)); (2%nat, DAngle (7 / 8))] in Nat.odd (length (filter (is_regular (T := R)) l)) = true /\ (exists x, In x l /\ is_regular x = false) /\ forall x d, In (x, d) l -> d = DNone \/ exists a, d = DAngle a.
  Proof. split; [reflexivity|]. split; [exists (1%nat, DAngle (3 / 4)); split; [right; now left|reflexivity]|]. intros x d H. cbn in H. destruct H as [H|[H|[H|[]]]]; injection H as <- <-; [now left|right|right]; eexists; reflexivity. Qed.
End C43_case_extra_section.
Print Assumptions C43_clip_select_extra.

Section C93_adaptive_divides_statement.
  Context {T : Type} {SO : Scalar T}.
  Local Open Scope nat_scope.

  Theorem C93_adaptive_divides : forall s c opts nodes,
    adaptive_nodes s c opts = Ok nodes ->
    exists us vs du dv, let o := match opts with Some o => o | None => ao_default end in
    adaptive_grid s c o = Ok (us, vs) /\ length us = S du /\ length vs = S dv /\
    match opts with
    | Some o => exists b, divided o nodes (dv * du) (cell_rect us vs du dv) b
    | None => length nodes = dv * du /\ forall i, i < dv * du -> exists n,
    nth_error nodes i = Some n /\ an_children n = None /\ shaped (an_corners n) (cell_rect us vs du dv i)
    end.
  Proof. exact adaptive_divides. Qed.
End C93_adaptive_divides_statement.
Section C93_cases.
  Local Existing Instance FOps.
  (** no options: the two cells of the grid; a loose tolerance divides as asked by the least depth only; a tight one divides further *)
  Example C93_case : match adaptive_nodes two_patches None None, adaptive_nodes two_patches None (Some (MkAOpts 100%float 1 1 1 3)), adaptive_nodes two_patches None (Some (MkAOpts 0.25%float 1 1 0 2)) with
    | Ok a, Ok b, Ok c => forallb (fun n => match an_children n with None => true | _ => false end) a = true /\ length b = (3 * length a)%nat /\ (length b < length c)%nat | _, _, _ => False end.
  Proof. vm_compute. split; [reflexivity|]. split; [reflexivity|]. repeat constructor. Qed.
End C93_cases.
Print Assumptions C93_adaptive_divides.

Section C93_adaptive_default_statement.
  Context {T : Type} {SO : Scalar T}.
  Local Open Scope nat_scope.

  Theorem C93_adaptive_default : forall s c nodes,
    adaptive_nodes s c (Some ao_default) = Ok nodes ->
    exists us vs du dv b, adaptive_grid s c ao_default = Ok (us, vs) /\ length us = S du /\ length vs = S dv /\
    divided (MkAOpts (slit 25 1000) 1 1 0 8) nodes (dv * du) (cell_rect us vs du dv) b.
  Proof. exact adaptive_default. Qed.
End C93_adaptive_default_statement.
Section C93_default_cases.
  Local Existing Instance FOps.
  Example C93_case_default : match adaptive_nodes two_patches None (Some ao_default), adaptive_nodes two_patches None None with Ok n, Ok m => (length m < length n)%nat | _, _ => False end.
  Proof. vm_compute. repeat constructor. Qed.
End C93_default_cases.
Print Assumptions C93_adaptive_default.
