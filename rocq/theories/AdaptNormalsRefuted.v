(** * What the vertex normals of adaptive meshes do not guarantee *)
From Coq Require Import Floats List Arith String.
From Verif Require Import Base Scalar KnotModel CurveModel SurfaceModel AdaptModel AdaptRefuted.
Import ListNotations.
Open Scope float_scope.
Local Existing Instance FOps.

(** a triangle: the bilinear patch whose first row is collapsed to one point *)
Definition cone : Surf float := MkSurf 4 1 1 [0; 0; 1; 1] [0; 0; 1; 1] [[hp 0 0 0; hp 0 0 0]; [hp 1 0 0; hp 1 1 0]].
(** a square of side 2 *)
Definition big_square : Surf float := MkSurf 4 1 1 [0; 0; 1; 1] [0; 0; 1; 1] [[hp 0 0 0; hp 0 2 0]; [hp 2 0 0; hp 2 2 0]].

(** at a pole on a grid line the normal is not a number *)
Theorem adaptive_pole_refuted : exists (s : Surf float) m, adaptive_tessellate s None None = Ok m /\
  exists uv nm, In (uv, nm) (combine (tuvs m) (tnormals m)) /\ length nm = 3%nat /\ Forall (fun x => (x =? x) = false) nm.
Proof.
  assert (H : match adaptive_tessellate cone None None with
              | Ok m => In ((0, 0), [nan; nan; nan]) (combine (tuvs m) (tnormals m)) | _ => False end) by (vm_compute; auto).
  destruct (adaptive_tessellate cone None None) as [m| | |] eqn:E; [|contradiction..].
  exists cone, m. split; [exact E|]. exists (0, 0), [nan; nan; nan]. split; [exact H|]. split; [reflexivity|]. repeat constructor.
Qed.

(** between the grid lines the normal of a vertex at the pole may remain zero *)
Theorem adaptive_zero_normal_refuted : exists (s : Surf float) o m, adaptive_tessellate s None (Some o) = Ok m /\
  exists uv nm, In (uv, nm) (combine (tuvs m) (tnormals m)) /\ length nm = 3%nat /\ Forall (fun x => (x =? 0) = true) nm.
Proof.
  assert (H : match adaptive_tessellate cone None (Some (MkAOpts 0.25 1 1 2 2)) with
              | Ok m => In ((0, 0.5), [0; 0; 0]) (combine (tuvs m) (tnormals m)) | _ => False end) by (vm_compute; tauto).
  destruct (adaptive_tessellate cone None (Some (MkAOpts 0.25 1 1 2 2))) as [m| | |] eqn:E; [|contradiction..].
  exists cone, (MkAOpts 0.25 1 1 2 2), m. split; [exact E|]. exists (0, 0.5), [0; 0; 0]. split; [exact H|]. split; [reflexivity|]. repeat constructor.
Qed.

(** the normals of the vertices moved onto a constrained side are not normalised *)
Theorem adaptive_constrained_normal_refuted : exists (s : Surf float) c m, adaptive_tessellate s (Some c) None = Ok m /\
  exists uv nm, In (uv, nm) (combine (tuvs m) (tnormals m)) /\ nm = [0; 0; 4].
Proof.
  assert (H : match adaptive_tessellate big_square (Some (MkBCons None (Some [0; 0.5; 1]) None None)) None with
              | Ok m => In ((0.5, 0), [0; 0; 4]) (combine (tuvs m) (tnormals m)) | _ => False end) by (vm_compute; tauto).
  destruct (adaptive_tessellate big_square (Some (MkBCons None (Some [0; 0.5; 1]) None None)) None) as [m| | |] eqn:E; [|contradiction..].
  exists big_square, (MkBCons None (Some [0; 0.5; 1]) None None), m. split; [exact E|]. exists (0.5, 0), [0; 0; 4]. split; [exact H|reflexivity].
Qed.

(** a cell with one good corner, opposite the first: the first corner keeps a degenerate normal after the repair *)
Definition corner (n : list float) (d : bool) : SPoint float := MkSP (0, 0) [0; 0; 0] n d false false false false false false.
Theorem fix_normals_refuted : exists c : Four (SPoint float), sp_degen (f2 c) = false /\ sp_normal (f2 c) = [0; 0; 1] /\
  sp_degen (f0 c) = true /\ sp_normal (f0 (fix_normals c)) = [0; 0; 0].
Proof.
  exists (MkFour (corner [0; 0; 0] true) (corner [0; 0; 0] true) (corner [0; 0; 1] false) (corner [0; 0; 0] true)). vm_compute. auto.
Qed.
