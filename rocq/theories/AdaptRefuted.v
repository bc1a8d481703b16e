(** * What adaptive tessellation does not guarantee *)
From Coq Require Import Floats List Arith String.
From Verif Require Import Base Scalar KnotModel CurveModel SurfaceModel AdaptModel.
Import ListNotations.
Open Scope float_scope.
Local Existing Instance FOps.

Definition hp (x y z : float) : list float := [x; y; z; 1].

(** a surface of degree (1, 2) made of two patches, the left one more strongly curved *)
Definition two_patches : Surf float :=
  MkSurf 4 1 2 [0; 0; 1; 2; 2] [0; 0; 0; 1; 1; 1]
    [[hp 0 0 0; hp 0 1 4; hp 0 2 0]; [hp 1 0 0; hp 1 1 1; hp 1 2 0]; [hp 2 0 0; hp 2 1 0; hp 2 2 0]].

(** [q] is a vertex strictly inside the edge [a b] of a triangle (in parameter space, on a line of constant
    u), but not a corner of that triangle, and its point is not on the edge in space *)
Definition hangs (m : Tess float) (f : list nat) (a b q : nat) : Prop :=
  In f (tfaces m) /\ In a f /\ In b f /\ ~ In q f /\
  (exists u va vb vq pa pb pq, nth_error (tuvs m) a = Some (u, va) /\ nth_error (tuvs m) b = Some (u, vb) /\ nth_error (tuvs m) q = Some (u, vq) /\
     (va <? vq) = true /\ (vq <? vb) = true /\ (vq =? (va + vb) / 2) = true /\
     nth_error (tpts m) a = Some pa /\ nth_error (tpts m) b = Some pb /\ nth_error (tpts m) q = Some pq /\
     (nth 2 pq 0 =? (nth 2 pa 0 + nth 2 pb 0) / 2) = false).

Theorem adaptive_crack_refuted : exists (s : Surf float) o m f a b q,
  adaptive_tessellate s None (Some o) = Ok m /\ hangs m f a b q.
Proof.
  assert (H : match adaptive_tessellate two_patches None (Some (MkAOpts 0.25 1 1 0 2)) with
              | Ok m => hangs m [30; 31; 33]%nat 30 33 24 | _ => False end).
  { vm_compute. split; [tauto|]. split; [tauto|]. split; [tauto|]. split; [intros [H|[H|[H|[]]]]; discriminate H|].
    eexists _, _, _, _, _, _, _. repeat (split; [reflexivity|]). reflexivity. }
  destruct (adaptive_tessellate two_patches None (Some (MkAOpts 0.25 1 1 0 2))) as [m| | |] eqn:E; [|contradiction..].
  exists two_patches, (MkAOpts 0.25 1 1 0 2), m, [30; 31; 33]%nat, 30%nat, 33%nat, 24%nat. auto.
Qed.

Definition unit_square : Surf float := MkSurf 4 1 1 [0; 0; 1; 1] [0; 0; 1; 1] [[hp 0 0 0; hp 0 1 0]; [hp 1 0 0; hp 1 1 0]].

(** constraining the side v = 1 moves the side v = 0 onto it: the mesh of the square has no area *)
Theorem adaptive_constrained_refuted : exists (s : Surf float) (c : BCons float) m,
  is_ok (surf_point_at s 0 0) /\ adaptive_tessellate s (Some c) None = Ok m /\ tfaces m <> [] /\ Forall (fun p => (nth 1 p 0 =? 1) = true) (tpts m).
Proof.
  assert (H : match adaptive_tessellate unit_square (Some (MkBCons None None None (Some [0; 1]))) None with
              | Ok m => tfaces m <> [] /\ Forall (fun p => (nth 1 p 0 =? 1) = true) (tpts m) | _ => False end).
  { vm_compute. split; [discriminate|]. repeat (apply Forall_cons || apply Forall_nil); reflexivity. }
  destruct (adaptive_tessellate unit_square (Some (MkBCons None None None (Some [0; 1]))) None) as [m| | |] eqn:E; [|contradiction..].
  exists unit_square, (MkBCons None None None (Some [0; 1])), m. split; [eexists; vm_compute; reflexivity|]. auto.
Qed.

(** an empty list of constraint parameters panics *)
Theorem adaptive_empty_constraint_refuted : exists (s : Surf float) (c : BCons float), is_ok (adaptive_tessellate s None None) /\ panics (adaptive_tessellate s (Some c) None).
Proof.
  exists unit_square, (MkBCons None None None (Some [])). split; eexists; vm_compute; reflexivity.
Qed.

(** the constraint of the side v = 1 has no effect there: a vertex of that side has a parameter that is not listed *)
Theorem adaptive_max_side_refuted : exists (s : Surf float) (c : BCons float) m,
  bc_u_vmax c = Some [0; 1] /\ adaptive_tessellate s (Some c) None = Ok m /\
  exists uv, In uv (tuvs m) /\ (snd uv =? 1) = true /\ Forall (fun t => (fst uv =? t) = false) [0; 1].
Proof.
  assert (H : match adaptive_tessellate unit_square (Some (MkBCons None (Some [0; 0.5; 1]) None (Some [0; 1]))) None with
              | Ok m => In (0.5, 1) (tuvs m) | _ => False end) by (vm_compute; tauto).
  destruct (adaptive_tessellate unit_square (Some (MkBCons None (Some [0; 0.5; 1]) None (Some [0; 1]))) None) as [m| | |] eqn:E; [|contradiction..].
  exists unit_square, (MkBCons None (Some [0; 0.5; 1]) None (Some [0; 1])), m. split; [reflexivity|]. split; [exact E|].
  exists (0.5, 1). split; [exact H|]. split; [reflexivity|]. repeat constructor.
Qed.
