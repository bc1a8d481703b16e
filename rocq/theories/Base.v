(** * Base: error monad, arrays and loops

    Rust control flow is transcribed with these combinators.  A Rust panic (index out of
    bounds, [unwrap] on [None], usize underflow in a debug build, empty [remove(0)], ...) is
    the explicit value [Panic]; an [anyhow] error is [Err]; a [while] loop that runs out of
    its explicit fuel is [OutOfFuel] (termination theorems exclude it). *)
From Coq Require Export String Arith Lia Bool List.
Export ListNotations.
Open Scope list_scope.

Inductive Res (A : Type) : Type :=
| Ok (a : A)
| Err (msg : string)
| Panic (msg : string)
| OutOfFuel.
Arguments Ok {A} a.
Arguments Err {A} msg.
Arguments Panic {A} msg.
Arguments OutOfFuel {A}.

Definition bind {A B} (x : Res A) (f : A -> Res B) : Res B :=
  match x with
  | Ok a => f a
  | Err e => Err e
  | Panic e => Panic e
  | OutOfFuel => OutOfFuel
  end.

Notation "x <- e1 ;; e2" := (bind e1 (fun x => e2))
  (at level 61, e1 at next level, right associativity).
Notation "' pat <- e1 ;; e2" := (bind e1 (fun x => match x with pat => e2 end))
  (at level 61, pat pattern, e1 at next level, right associativity).

Definition rmap {A B} (f : A -> B) (x : Res A) : Res B := bind x (fun a => Ok (f a)).

(** [anyhow::ensure!(b, msg)] *)
Definition ensure (b : bool) (msg : string) : Res unit :=
  if b then Ok tt else Err msg.

(** [Option::unwrap] *)
Definition unwrap {A} (o : option A) : Res A :=
  match o with Some a => Ok a | None => Panic "unwrap on None" end.

(** [ok_or] *)
Definition ok_or {A} (o : option A) (msg : string) : Res A :=
  match o with Some a => Ok a | None => Err msg end.

(** usize subtraction (debug profile: underflow panics) *)
Definition usub (a b : nat) : Res nat :=
  if b <=? a then Ok (a - b) else Panic "usize underflow".

(** ** Vec indexing *)
Definition get {A} (l : list A) (i : nat) : Res A :=
  match nth_error l i with Some a => Ok a | None => Panic "index out of bounds" end.

Fixpoint upd {A} (l : list A) (i : nat) (v : A) : list A :=
  match l, i with
  | [], _ => []
  | _ :: t, O => v :: t
  | h :: t, S i' => h :: upd t i' v
  end.

Definition set_ {A} (l : list A) (i : nat) (v : A) : Res (list A) :=
  if i <? length l then Ok (upd l i v) else Panic "index out of bounds".

(** [&l[a..b]] : panics when [a > b] or [b > len] *)
Definition slice {A} (l : list A) (a b : nat) : Res (list A) :=
  if (a <=? b) && (b <=? length l) then Ok (firstn (b - a) (skipn a l))
  else Panic "slice out of range".

(** [Vec::insert(i, v)] : panics when [i > len] *)
Definition insert_at {A} (l : list A) (i : nat) (v : A) : Res (list A) :=
  if i <=? length l then Ok (firstn i l ++ v :: skipn i l) else Panic "insertion index".

(** ** Loops *)
(** [for i in lo..lo+n { s = f(i, s) }] *)
Fixpoint for_ {St} (n lo : nat) (f : nat -> St -> Res St) (s : St) : Res St :=
  match n with
  | O => Ok s
  | S n' => s' <- f lo s ;; for_ n' (S lo) f s'
  end.

(** [for i in lo..hi] *)
Definition for_range {St} (lo hi : nat) (f : nat -> St -> Res St) (s : St) : Res St :=
  for_ (hi - lo) lo f s.

(** [for i in lo..=hi] *)
Definition for_incl {St} (lo hi : nat) (f : nat -> St -> Res St) (s : St) : Res St :=
  for_ (S hi - lo) lo f s.

(** [for i in (lo..lo+n).rev()] *)
Fixpoint for_rev {St} (n lo : nat) (f : nat -> St -> Res St) (s : St) : Res St :=
  match n with
  | O => Ok s
  | S n' => s' <- f (lo + n') s ;; for_rev n' lo f s'
  end.

(** general loop: the step continues with [inl s] or leaves the loop with [inr r] *)
Fixpoint loop_ {St A} (fuel : nat) (step : St -> Res (St + A)) (s : St) : Res A :=
  match fuel with
  | O => OutOfFuel
  | S fuel' =>
      r <- step s ;;
      match r with
      | inl s' => loop_ fuel' step s'
      | inr a => Ok a
      end
  end.

(** [while cond { body }] *)
Definition while_ {St} (fuel : nat) (cond : St -> Res bool) (body : St -> Res St) (s : St)
  : Res St :=
  loop_ fuel (fun s => b <- cond s ;; if b then s' <- body s ;; Ok (inl s') else Ok (inr s)) s.

(** [iter().map(f).collect::<Result<_>>()] and [for x in l] *)
Fixpoint mapM {A B} (f : A -> Res B) (l : list A) : Res (list B) :=
  match l with
  | [] => Ok []
  | x :: t => y <- f x ;; ys <- mapM f t ;; Ok (y :: ys)
  end.

Fixpoint foldM {A St} (f : St -> A -> Res St) (l : list A) (s : St) : Res St :=
  match l with
  | [] => Ok s
  | x :: t => s' <- f s x ;; foldM f t s'
  end.

(** last index satisfying a predicate: [rposition] *)
Fixpoint rposition {A} (f : A -> bool) (l : list A) : option nat :=
  match l with
  | [] => None
  | x :: t =>
      match rposition f t with
      | Some i => Some (S i)
      | None => if f x then Some 0 else None
      end
  end.

(** first index satisfying a predicate: [position] *)
Fixpoint position {A} (f : A -> bool) (l : list A) : option nat :=
  match l with
  | [] => None
  | x :: t => if f x then Some 0 else option_map S (position f t)
  end.

(** is the outcome a plain value? *)
Definition is_ok {A} (r : Res A) : Prop := exists a, r = Ok a.
Definition panics {A} (r : Res A) : Prop := exists m, r = Panic m.
Definition errs {A} (r : Res A) : Prop := exists m, r = Err m.
Definition no_panic {A} (r : Res A) : Prop := ~ panics r /\ r <> OutOfFuel.
