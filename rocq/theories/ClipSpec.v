(** * What a boolean operation on two closed boundaries has to do

    Independent of the linked nodes of the implementation.  The crossings are numbered; [oa] and
    [ob] list them in the order in which the subject ([true]) and the clip curve ([false]) meet
    them.  The crossings cut each curve into as many segments; segment [k] runs from the [k]-th to
    the next crossing, the last one through the start of the curve. *)
From Verif Require Import Base Scalar ClipModel.

Section Spec.
  Variable n : nat.
  Variables oa ob : list nat.

  Definition next_pos (k : nat) : nat := if S k =? n then 0 else S k.
  Definition crossing (side : bool) (k : nat) : nat := nth k (if side then oa else ob) 0.

  (** whether segment [k] of a curve lies inside the other region, when the curve starts inside
      ([start_inside]) and changes sides at every crossing *)
  Definition segment_inside (start_inside : bool) (k : nat) : bool :=
    xorb start_inside (Nat.odd (S k)).

  (** which segments bound the result of the operation *)
  Definition segment_kept (op : BooleanOperation) (side inside : bool) : bool :=
    match op with
    | Intersection => inside
    | Union => negb inside
    | Difference => if side then negb inside else inside
    end.

  (** a segment together with the direction in which a boundary runs through it *)
  Record Seg := MkSeg { sgside : bool; sgpos : nat; sgfwd : bool }.
  Definition seg_from (s : Seg) : nat :=
    crossing (sgside s) (if sgfwd s then sgpos s else next_pos (sgpos s)).
  Definition seg_to (s : Seg) : nat :=
    crossing (sgside s) (if sgfwd s then next_pos (sgpos s) else sgpos s).

  (** consecutive segments meet at a crossing, where the boundary changes curves *)
  Definition seg_joined (s s' : Seg) : Prop :=
    seg_to s = seg_from s' /\ sgside s' = negb (sgside s).
  Fixpoint seg_path (s : Seg) (l : list Seg) : Prop :=
    match l with
    | [] => True
    | s' :: t => seg_joined s s' /\ seg_path s' t
    end.
  Definition closed_loop (l : list Seg) : Prop :=
    match l with
    | [] => False
    | s :: t => seg_path s t /\ seg_joined (last t s) s
    end.

  Definition kept_segments (op : BooleanOperation) (side start_inside : bool) : list (bool * nat) :=
    map (fun k => (side, k))
      (filter (fun k => segment_kept op side (segment_inside start_inside k)) (seq 0 n)).
End Spec.

(** ** Assembling the pieces of the loops *)
Section Assemble.
  Context {T C CC : Type}.
  Variable n : nat.
  Variable par : bool -> nat -> T.
  Variable trim : bool -> T -> T -> Res (list C).
  Variable mk_compound : list C -> Res CC.

  Fixpoint loop_spans (l : list Seg) : Res (list C) :=
    match l with
    | [] => Ok []
    | s :: t =>
        x <- trim (sgside s) (par (sgside s) (sgpos s)) (par (sgside s) (next_pos n (sgpos s))) ;;
        r <- loop_spans t ;;
        Ok (x ++ r)
    end.
  Fixpoint assemble (loops : list (list Seg)) (regions : list (Region CC))
    : Res (list (Region CC)) :=
    match loops with
    | [] => Ok regions
    | l :: t =>
        spans <- loop_spans l ;;
        match spans with
        | [] => assemble t regions
        | _ => c <- mk_compound spans ;; assemble t (regions ++ [MkRegion c []])
        end
    end.
End Assemble.
