(** * Scalars and vectors

    curvo is generic over [T: FloatingPoint] (src/misc/floating_point.rs), i.e. f32/f64.  The
    model is generic over the operations the code uses.  Instances: [ROps] (exact real
    arithmetic with an arbitrary epsilon) and [FOps] (IEEE binary64). *)
From Coq Require Import Reals ZArith Floats Uint63.
From Verif Require Import Base.

Class Scalar (T : Type) : Type := MkScalar {
  szero : T;
  sone : T;
  sadd : T -> T -> T;
  ssub : T -> T -> T;
  smul : T -> T -> T;
  sdiv : T -> T -> T;
  sopp : T -> T;
  sabs : T -> T;
  ssqrt : T -> T;
  sltb : T -> T -> bool;      (* < *)
  sleb : T -> T -> bool;      (* <= *)
  seqb : T -> T -> bool;      (* == *)
  seps : T;                   (* T::default_epsilon() *)
  smax_value : T;             (* T::max_value() *)
  sofz : Z -> T               (* exact integer literal *)
}.

Declare Scope scalar_scope.
Delimit Scope scalar_scope with S.
Infix "+" := sadd : scalar_scope.
Infix "-" := ssub : scalar_scope.
Infix "*" := smul : scalar_scope.
Infix "/" := sdiv : scalar_scope.
Notation "- x" := (sopp x) : scalar_scope.
Infix "<?" := sltb : scalar_scope.
Infix "<=?" := sleb : scalar_scope.
Infix "=?" := seqb : scalar_scope.
Notation "x >? y" := (sltb y x) (at level 70, only parsing) : scalar_scope.
Notation "x >=? y" := (sleb y x) (at level 70, only parsing) : scalar_scope.

Section Derived.
  Context {T : Type} {SO : Scalar T}.
  Open Scope scalar_scope.

  (** [T::from_usize] *)
  Definition sofnat (n : nat) : T := sofz (Z.of_nat n).

  (** the literal n/d (correctly rounded quotient of exact integers) *)
  Definition slit (n d : Z) : T := sofz n / sofz d.

  Definition stwo : T := sofz 2.

  (** [f64::min]/[f64::max] as used by curvo on finite values *)
  Definition smin (a b : T) : T := if b <? a then b else a.
  Definition smax (a b : T) : T := if a <? b then b else a.

  (** [RealField::clamp(min, max)] (simba): [if x < min {min} else if x > max {max} else {x}] *)
  Definition sclamp (x lo hi : T) : T :=
    if x <? lo then lo else if hi <? x then hi else x.

  (** sum in index order starting from zero *)
  Definition ssum (l : list T) : T := fold_left sadd l szero.

  (** ** Vectors: lists of coordinates *)


  Fixpoint map2 {A B C} (f : A -> B -> C) (l1 : list A) (l2 : list B) : list C :=
    match l1, l2 with
    | a :: t1, b :: t2 => f a b :: map2 f t1 t2
    | _, _ => []
    end.

  Definition vzero (D : nat) : list T := repeat szero D.
  Definition vadd (a b : list T) : list T := map2 sadd a b.
  Definition vsub (a b : list T) : list T := map2 ssub a b.
  Definition vscale (a : list T) (k : T) : list T := map (fun x => x * k) a.
  Definition vdivs (a : list T) (k : T) : list T := map (fun x => x / k) a.
  Definition vopp (a : list T) : list T := map sopp a.
  Definition vdot (a b : list T) : T := ssum (map2 smul a b).
  Definition vnorm2 (a : list T) : T := vdot a a.
  Definition vnorm (a : list T) : T := ssqrt (vnorm2 a).
  Definition vnormalize (a : list T) : list T := vdivs a (vnorm a).
  (** nalgebra [lerp]: [self * (1 - t) + rhs * t] *)
  Definition vlerp (a b : list T) (t : T) : list T :=
    vadd (vscale a (sone - t)) (vscale b t).
  Definition coord (i : nat) (p : list T) : T := nth i p szero.
End Derived.

(** ** Exact reals, with an arbitrary epsilon and largest value *)
Definition Rltb (a b : R) : bool := if Rlt_dec a b then true else false.
Definition Rleb (a b : R) : bool := if Rle_dec a b then true else false.
Definition Reqb (a b : R) : bool := if Req_EM_T a b then true else false.

Definition ROps (eps maxv : R) : Scalar R := {|
  szero := 0%R; sone := 1%R;
  sadd := Rplus; ssub := Rminus; smul := Rmult; sdiv := Rdiv;
  sopp := Ropp; sabs := Rabs; ssqrt := R_sqrt.sqrt;
  sltb := Rltb; sleb := Rleb; seqb := Reqb;
  seps := eps; smax_value := maxv;
  sofz := IZR |}.

(** ** IEEE binary64 *)
Definition float_of_Z (z : Z) : float :=
  match z with
  | Z0 => 0%float
  | Zpos _ => PrimFloat.of_uint63 (Uint63.of_Z z)
  | Zneg p => PrimFloat.opp (PrimFloat.of_uint63 (Uint63.of_Z (Zpos p)))
  end.

Definition FOps : Scalar float := {|
  szero := 0%float; sone := 1%float;
  sadd := PrimFloat.add; ssub := PrimFloat.sub; smul := PrimFloat.mul; sdiv := PrimFloat.div;
  sopp := PrimFloat.opp; sabs := PrimFloat.abs; ssqrt := PrimFloat.sqrt;
  sltb := PrimFloat.ltb; sleb := PrimFloat.leb; seqb := PrimFloat.eqb;
  seps := 0x1p-52%float;                       (* f64::EPSILON *)
  smax_value := 0x1.fffffffffffffp+1023%float; (* f64::MAX *)
  sofz := float_of_Z |}.
