(** * Properties of containment by ray casting

    Only statements: each theorem is proved elsewhere; its statement is repeated here, followed by
    a concrete case that meets its hypotheses. *)
From Coq Require Import Floats.
From Coq Require Import Reals Lra Lia ZArith List Sorted.
From Verif Require Import Base BaseFacts Scalar RSum KnotModel KnotSpec KnotFacts KnotMisc VecFacts CurveModel CurveSpec CurveGeom2 CurveShapes
  BBoxModel CompoundModel TraversalModel TraversalProofs TraversalCurve IntersectModel ClosestModel ContainsModel CrossingSpec CrossingProofs ContainsProofs ContainsMain ContainsTheorems ContainsCases ContainsRefuted Demo.
Import ListNotations.
Local Open Scope R_scope.


Section C73_curve_contains_parity_statement.
  Variables eps maxv : R.
  Local Hint Extern 0 (Scalar R) => exact (ROps eps maxv) : typeclass_instances.
  Local Notation clear_of := (clear_of eps maxv).
  Local Notation near_or := (near_or eps maxv).

  Theorem C73_curve_contains_parity : forall rng c px py opt,
    (0 < op_div (options_or_default opt))%nat -> (0 < op_iters (options_or_default opt))%nat ->
    clear_of rng c px py (options_or_default opt) -> (forall k, 0 <= rng k <= 1) ->
    is_closed c = Ok true -> has_width [c] -> in_control_box [c] [px; py] ->
    exists fuel0 b, crossing_parity (nurbs c 0) (nurbs c 1) px py (dom0 c) (dom1 c) b /\
    forall fuel, (fuel0 <= fuel)%nat ->
    curve_contains rng fuel c [px; py] opt =
    near_or (find_closest_point c [px; py]) [px; py] opt b.
  Proof. first [exact (curve_contains_parity eps maxv) | exact (curve_contains_parity eps) | exact curve_contains_parity]. Qed.
End C73_curve_contains_parity_statement.
Section C73_case_section.
  Local Hint Extern 0 (Scalar R) => exact (ROps eps0 maxv0) : typeclass_instances.
  Example C73_case : (0 < op_div opts)%nat /\ (0 < op_iters opts)%nat /\ clear_of eps0 maxv0 half drop 0 (1 / 2) opts /\ (forall k, 0 <= half k <= 1) /\ is_closed drop = Ok true /\ has_width [drop] /\ in_control_box [drop] [0; 1 / 2] /\
    exists fuel0, forall fuel, (fuel0 <= fuel)%nat -> curve_contains half fuel drop [0; 1 / 2] (Some opts) =
      near_or eps0 maxv0 (find_closest_point drop [0; 1 / 2]) [0; 1 / 2] (Some opts) true.
  Proof. split; [cbn; lia|]. split; [cbn; lia|]. split; [exact drop_clear|]. split; [intros k; unfold half; lra|]. split; [exact drop_closed|]. split; [exact drop_width|]. split; [exact drop_in|exact drop_contains]. Qed.
End C73_case_section.
Print Assumptions C73_curve_contains_parity.

Section C73_compound_contains_parity_statement.
  Variables eps maxv : R.
  Local Hint Extern 0 (Scalar R) => exact (ROps eps maxv) : typeclass_instances.
  Local Notation clear_of := (clear_of eps maxv).
  Local Notation near_or := (near_or eps maxv).

  Theorem C73_compound_contains_parity : forall rng spans px py opt,
    (0 < op_div (options_or_default opt))%nat -> (0 < op_iters (options_or_default opt))%nat -> spans <> [] ->
    (forall i, (i < length spans)%nat -> clear_of (rng i) (nth i spans (MkCurve 0 0 [] [])) px py (options_or_default opt)) ->
    (forall i k, 0 <= rng i k <= 1) -> has_width spans -> in_control_box spans [px; py] ->
    exists fuel0 bs, Forall2 (fun c b => crossing_parity (nurbs c 0) (nurbs c 1) px py (dom0 c) (dom1 c) b) spans bs /\
    forall fuel, (fuel0 <= fuel)%nat ->
    compound_contains rng fuel spans [px; py] opt =
    near_or (compound_closest_point find_closest_point spans [px; py]) [px; py] opt (fold_right xorb false bs).
  Proof. first [exact (compound_contains_parity eps maxv) | exact (compound_contains_parity eps) | exact compound_contains_parity]. Qed.
End C73_compound_contains_parity_statement.
Section C73_case_compound_section.
  Local Hint Extern 0 (Scalar R) => exact (ROps eps0 maxv0) : typeclass_instances.
  Example C73_case_compound : (forall i, (i < length [drop])%nat -> clear_of eps0 maxv0 half (nth i [drop] (MkCurve 0 0 [] [])) 0 (1 / 2) opts) /\ has_width [drop] /\ in_control_box [drop] [0; 1 / 2].
  Proof. split; [|split; [exact drop_width|exact drop_in]]. intros [|i] Hi; [exact drop_clear|cbn in Hi; lia]. Qed.
End C73_case_compound_section.
Print Assumptions C73_compound_contains_parity.

Theorem C73_parity_unique : forall c px py M b b',
    height_lipschitz c M ->
    crossing_parity (nurbs c 0) (nurbs c 1) px py (dom0 c) (dom1 c) b ->
    crossing_parity (nurbs c 0) (nurbs c 1) px py (dom0 c) (dom1 c) b' -> b = b'.
Proof. exact (@parity_unique). Qed.
Section C73_case_unique_section.
  Local Hint Extern 0 (Scalar R) => exact (ROps eps0 maxv0) : typeclass_instances.
  Example C73_case_unique : height_lipschitz drop 3 /\ crossing_parity (nurbs drop 0) (nurbs drop 1) 0 (1 / 2) (dom0 drop) (dom1 drop) true /\ ~ crossing_parity (nurbs drop 0) (nurbs drop 1) 0 (1 / 2) (dom0 drop) (dom1 drop) false.
  Proof. split; [exact drop_lipschitz|]. split; [exact drop_parity|]. intros H. discriminate (parity_unique drop 0 (1 / 2) 3 true false drop_lipschitz drop_parity H). Qed.
End C73_case_unique_section.
Print Assumptions C73_parity_unique.

Section C73_contains_outside_statement.
  Variables eps maxv : R.
  Local Hint Extern 0 (Scalar R) => exact (ROps eps maxv) : typeclass_instances.
  Local Notation box_curve := (box_curve eps maxv).

  Theorem C73_contains_outside : forall rng fuel c p opt,
    box_curve c -> cdim c = 3%nat -> is_closed c = Ok true ->
    ~ in_control_box [c] p -> curve_contains rng fuel c p opt = Ok false.
  Proof. first [exact (contains_outside eps maxv) | exact (contains_outside eps) | exact contains_outside]. Qed.
End C73_contains_outside_statement.
Section C73_case_outside_section.
  Local Hint Extern 0 (Scalar R) => exact (ROps eps0 maxv0) : typeclass_instances.
  Example C73_case_outside : box_curve eps0 maxv0 drop /\ cdim drop = 3%nat /\ is_closed drop = Ok true /\ ~ in_control_box [drop] [5; 0].
  Proof. split; [exact drop_box|]. split; [reflexivity|]. split; [exact drop_closed|]. intros H. destruct (H 0%nat ltac:(lia)) as (_ & c & j & [<-|[]] & Hj & K). cbn in Hj. unfold cpc, rc in K.
    destruct j as [|[|[|[|j]]]]; [| | | |lia]; cbn in K; lra. Qed.
End C73_case_outside_section.
Print Assumptions C73_contains_outside.

Section C73_contains_open_statement.
  Context {T : Type} {SO : Scalar T}.
  Theorem C73_contains_open : forall rng fuel (c : Curve T) p opt,
    is_closed c = Ok false -> errs (curve_contains rng fuel c p opt).
  Proof. exact contains_open. Qed.
End C73_contains_open_statement.
(** the open segment *)
Example C73_case_open : @is_closed PrimFloat.float FOps slope = Ok false.
Proof. vm_compute. reflexivity. Qed.
Print Assumptions C73_contains_open.

Section C73_crossings_sound_statement.
  Context {T : Type} {SO : Scalar T}.
  Local Open Scope scalar_scope.
  Theorem C73_crossings_sound : forall rng fuel (c : Curve T) p len opt its q,
    x_ray_intersection rng fuel c p len opt = Ok its -> In q its ->
    exists ta leaf u, ct_curve ta = c /\ descends ct_ops rng ta leaf /\ point_at (ct_curve leaf) u = Ok q /\
    sabs (coord 1 q - coord 1 p) <? op_min (options_or_default opt) = true /\ coord 0 p <=? coord 0 q = true.
  Proof. exact crossings_sound. Qed.
End C73_crossings_sound_statement.
(** one crossing of the segment *)
Example C73_case_sound : exists q, @x_ray_intersection PrimFloat.float FOps mid 100 slope [0.25; 0.375]%float 2%float None = Ok [q].
Proof. eexists. vm_compute. reflexivity. Qed.
Print Assumptions C73_crossings_sound.

Section C73_contains_open_compound_refuted_statement.
  Local Existing Instance FOps.
  Local Open Scope float_scope.
  Theorem C73_contains_open_compound_refuted : try_new 3 1 (cpts slope) (cknots slope) = Ok slope /\ compound_is_closed [slope] = Ok false /\
    compound_contains (fun _ => mid) 1000 [slope] [0.25; 0.375] None = Ok true.
  Proof. exact contains_open_compound_refuted. Qed.
End C73_contains_open_compound_refuted_statement.
Print Assumptions C73_contains_open_compound_refuted.

Section C73_contains_merged_refuted_statement.
  Local Existing Instance FOps.
  Local Open Scope float_scope.
  Theorem C73_contains_merged_refuted : exists c, polyline 3 spiked false = Ok c /\ is_closed c = Ok true /\
    curve_contains mid 1000 c [1; 0.375] None = Ok true /\ curve_contains mid 1000 c [1; 0.375] (Some fine) = Ok false.
  Proof. exact contains_merged_refuted. Qed.
End C73_contains_merged_refuted_statement.
Print Assumptions C73_contains_merged_refuted.
