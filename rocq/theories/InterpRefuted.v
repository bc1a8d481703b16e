(** * Interpolation of degenerate data, executed in binary64 *)
From Coq Require Import Floats ZArith List.
From Verif Require Import Base Scalar KnotModel CurveModel InterpModel.
Import ListNotations.
Local Existing Instance FOps.
Local Open Scope float_scope.

(** coincident points are not rejected: the knot vector of the returned curve contains a NaN *)
Theorem interpolate_coincident_refuted :
  exists (pts : list (list float)) (solve : list (list float) -> list float -> option (list float)) c,
    (forall q, In q pts -> q = [1; 2]) /\ try_interpolate solve 3 pts 1 = Ok c /\
    existsb (fun x => negb (x =? x)) (cknots c) = true.
Proof.
  exists [[1; 2]; [1; 2]; [1; 2]], (fun _ b => Some b). eexists. split; [|split].
  - intros q [<-|[<-|[<-|[]]]]; reflexivity.
  - vm_compute. reflexivity.
  - vm_compute. reflexivity.
Qed.

(** degree 0 is accepted, with a NaN knot *)
Theorem interpolate_degree_zero_refuted :
  exists (pts : list (list float)) (solve : list (list float) -> list float -> option (list float)) c,
    try_interpolate solve 2 pts 0 = Ok c /\ existsb (fun x => negb (x =? x)) (cknots c) = true.
Proof.
  exists [[1]; [2]; [4]], (fun _ b => Some b). eexists. split.
  - vm_compute. reflexivity.
  - vm_compute. reflexivity.
Qed.
