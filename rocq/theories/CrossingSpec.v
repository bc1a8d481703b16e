(** * The crossing number of a level by a curve, to the right of a point

    Specification only: no model function is used. *)
From Coq Require Import Reals Lra Lia List.
Import ListNotations.
Local Open Scope R_scope.

(** consecutive intervals from [a] to [b] *)
Fixpoint pieces (a b : R) (l : list (R * R)) : Prop :=
  match l with
  | [] => a = b
  | (s, t) :: l => s = a /\ s <= t /\ pieces t b l
  end.

(** [n] elements of [l] have the property *)
Inductive tally {A : Type} (P : A -> Prop) : list A -> nat -> Prop :=
| tally_nil : tally P [] 0
| tally_yes x l n : P x -> tally P l n -> tally P (x :: l) (S n)
| tally_no x l n : ~ P x -> tally P l n -> tally P (x :: l) n.

Section Crossing.
  (** the coordinates of the curve and of the point *)
  Variables X Y : R -> R.
  Variables px py : R.

  (** above the level of the point *)
  Definition above (u : R) : Prop := py < Y u.

  (** where the curve meets the level between [s] and [t], it does so at or to the right of the point; to its left *)
  Definition level_right (s t : R) : Prop := forall u, s <= u <= t -> Y u = py -> px <= X u.
  Definition level_left (s t : R) : Prop := forall u, s <= u <= t -> Y u = py -> X u < px.

  (** the piece changes sides, to the right of the point *)
  Definition crosses (st : R * R) : Prop :=
    ~ (above (fst st) <-> above (snd st)) /\ level_right (fst st) (snd st).

  (** some division of [a, b] into pieces that meet the level on one side of the point only has an odd ([true]) or
      even ([false]) number of crossings *)
  Definition crossing_parity (a b : R) (odd : bool) : Prop :=
    exists l n, pieces a b l /\ (forall s t, In (s, t) l -> level_right s t \/ level_left s t) /\
      tally crosses l n /\ odd = Nat.odd n.
End Crossing.
