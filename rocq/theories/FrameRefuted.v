(** * Frames that do not exist *)
From Coq Require Import Floats String.
From Verif Require Import Base BaseFacts Scalar KnotModel CurveModel MiscModel ArcModel FrameModel.
Open Scope list_scope.

(** no parameter, no frame: the first tangent is read unconditionally *)
Theorem frames_empty_refuted {T} {SO : Scalar T} {TO : Trig T} {AO : Acos T} (c : Curve T) :
  panics (compute_frenet_frames c []).
Proof. eexists. reflexivity. Qed.

Local Existing Instance FOps.
Local Open Scope float_scope.

(** a parabola whose first two control points coincide: its tangent at the start vanishes *)
Definition cusped : Curve float := MkCurve 4 2 [[0; 0; 0; 1]; [0; 0; 0; 1]; [1; 1; 0; 1]] [0; 0; 0; 1; 1; 1].

Definition all_nan (v : list float) : Prop := Forall (fun x => (x =? x) = false) v.

Theorem frames_cusp_refuted (TO : Trig float) (AO : Acos float) :
  try_new 4 2 (cpts cusped) (cknots cusped) = Ok cusped /\ tangent_at cusped 0 = Ok [0; 0; 0] /\ point_at cusped 0 = Ok [0; 0; 0] /\
  exists f, compute_frenet_frames cusped [0] = Ok [f] /\ all_nan (fr_tan f) /\ all_nan (fr_nor f) /\ all_nan (fr_bin f).
Proof.
  split; [vm_compute; reflexivity|]. split; [vm_compute; reflexivity|]. split; [vm_compute; reflexivity|].
  eexists. split; [vm_compute; reflexivity|]. cbn [fr_tan fr_nor fr_bin]. repeat split; repeat (apply Forall_cons; [vm_compute; reflexivity|]); constructor.
Qed.
