(** * Model of src/misc: binomial, ray, transpose, trigonometry, orientation *)
From Coq Require Import ZArith.
From Verif Require Import Base Scalar.

Section Misc.
  Context {T : Type} {SO : Scalar T}.
  Open Scope scalar_scope.

  (** binomial.rs:7-20 [binomial] *)
  Definition binomial_fn (n k : nat) : T :=
    if (k =? 0)%nat || (k =? n)%nat then sone
    else if (n =? 0)%nat || (n <? k)%nat then szero
    else
      let k := Nat.min k (n - k) in
      fold_left (fun r i => r * sofnat (n - i) / sofnat (i + 1)) (seq 0 k) sone.

  (** binomial.rs:24-26: the memo map, as an association list keyed by (n, k) *)
  Definition memo := list (nat * nat * T).

  (** binomial.rs:61-68 [memo] *)
  Fixpoint memo_get (m : memo) (n k : nat) : option T :=
    match m with
    | [] => None
    | (n', k', v) :: t =>
        if (n =? n')%nat && (k =? k')%nat then Some v else memo_get t n k
    end.

  (** binomial.rs:71-79 [memoize]: later insertions shadow earlier ones *)
  Definition memo_put (m : memo) (n k : nat) (v : T) : memo := (n, k, v) :: m.

  (** binomial.rs:43-58 [Binomial::get] (value, new memo).  The recursion is on [n - 1]. *)
  Fixpoint bin_get (n k : nat) (m : memo) {struct n} : T * memo :=
    if (k =? 0)%nat || (k =? n)%nat then (sone, m)
    else if (n =? 0)%nat || (n <? k)%nat then (szero, m)
    else
      let k := Nat.min k (n - k) in
      match memo_get m n k with
      | Some v => (v, m)
      | None =>
          match n with
          | O => (szero, m)
          | S n' =>
              let '(a, m1) := bin_get n' k m in
              let '(b, m2) := bin_get n' (k - 1) m1 in
              let r := a + b in
              (r, memo_put m2 n k r)
          end
      end.

  (** ** ray.rs:20-40 [Ray] *)
  Record Ray := MkRay { ray_o : list T; ray_d : list T }.

  (** ray.rs:44-46 [point_at] *)
  Definition ray_point_at (r : Ray) (t : T) : list T := vadd (ray_o r) (vscale (ray_d r) t).

  (** ray.rs:49-73 [find_intersection]: ((point on self, t), (point on other, w)) *)
  Definition ray_intersection (a b : Ray) : option ((list T * T) * (list T * T)) :=
    let dab := vdot (ray_d a) (ray_d b) in
    let daa := vdot (ray_d a) (ray_d a) in
    let dbb := vdot (ray_d b) (ray_d b) in
    let div := daa * dbb - dab * dab in
    if sabs div <? seps then None else
    let dab0 := vdot (ray_d a) (ray_o b) in
    let daa0 := vdot (ray_d a) (ray_o a) in
    let dbb0 := vdot (ray_d b) (ray_o b) in
    let dba0 := vdot (ray_d b) (ray_o a) in
    let num := dab * (dab0 - daa0) - daa * (dbb0 - dba0) in
    let w := num / div in
    let t := (dab0 - daa0 + w * dab) / daa in
    Some ((ray_point_at a t, t), (ray_point_at b w, w)).

  (** ** transpose.rs:6-19 [transpose_control_points] (generic in the element) *)
  Fixpoint push_row {A} (cols : list (list A)) (row : list A) : Res (list (list A)) :=
    match row, cols with
    | [], _ => Ok cols
    | _ :: _, [] => Panic "index out of bounds"
    | p :: row', c :: cols' => r <- push_row cols' row' ;; Ok ((c ++ [p]) :: r)
    end.

  Definition transpose {A} (points : list (list A)) : Res (list (list A)) :=
    first <- get points 0 ;;
    foldM push_row points (repeat [] (length first)).

  (** ** trigonometry.rs *)
  (** nalgebra [cross] in 3D *)
  Definition cross3 (a b : list T) : list T :=
    [ coord 1 a * coord 2 b - coord 2 a * coord 1 b;
      coord 2 a * coord 0 b - coord 0 a * coord 2 b;
      coord 0 a * coord 1 b - coord 1 a * coord 0 b ].

  (** trigonometry.rs:3-21 [three_points_are_flat] ([D] is the dimension) *)
  Definition three_points_are_flat (D : nat) (p1 p2 p3 : list T) (tol : T) : bool :=
    let p21 := vsub p2 p1 in
    let p31 := vsub p3 p1 in
    if (D =? 2)%nat then
      sabs (coord 0 p21 * coord 1 p31 - coord 1 p21 * coord 0 p31) <? tol
    else
      let norm := cross3 p21 p31 in
      vdot norm norm <? tol.

  (** trigonometry.rs:29-58 [segment_closest_point] *)
  Definition segment_closest_point (pt start end_ : list T) (u0 u1 : T) : T * list T :=
    let dif := vsub end_ start in
    let l := vnorm dif in
    if l <? seps then (u0, start) else
    let r := vdivs dif l in
    let o2pt := vsub pt start in
    let d := vdot o2pt r in
    if d <? szero then (u0, start)
    else if l <? d then (u1, end_)
    else (u0 + (u1 - u0) * d / l, vadd (vscale r d) start).

  (** ** orientation.rs:16-39.  [orient2d] of the crate [robust] computes the sign of the exact
      determinant; the model takes the determinant in the scalar type (exact over R). *)
  Inductive Orientation := CounterClockwise | Clockwise | Collinear.

  Definition orient2d (p q r : list T) : T :=
    (coord 0 p - coord 0 r) * (coord 1 q - coord 1 r)
    - (coord 1 p - coord 1 r) * (coord 0 q - coord 0 r).

  Definition orientation (p q r : list T) : Orientation :=
    let o := orient2d p q r in
    if o <? szero then Clockwise else if szero <? o then CounterClockwise else Collinear.

  Definition orient_eqb (a b : Orientation) : bool :=
    match a, b with
    | CounterClockwise, CounterClockwise | Clockwise, Clockwise | Collinear, Collinear => true
    | _, _ => false
    end.

  (** ** polygon_boundary.rs:56-77 [contains] *)
  Definition wind_step (c : list T) (w : Z) (e : list T * list T) : Z :=
    let '(p0, p1) := e in
    if coord 1 p0 <=? coord 1 c then
      if coord 1 c <=? coord 1 p1 then
        if orient_eqb (orientation p0 p1 c) CounterClockwise && negb (coord 1 p1 =? coord 1 c)
        then (w + 1)%Z else w
      else w
    else if coord 1 p1 <=? coord 1 c then
      if orient_eqb (orientation p0 p1 c) Clockwise then (w - 1)%Z else w
    else w.

  (** polygon_boundary.rs:56-77; itertools [circular_tuple_windows]: consecutive pairs, then (last, first) *)
  Definition circular_pairs {A} (l : list A) : list (A * A) :=
    match l with
    | [] => []
    | h :: t => combine l (t ++ [h])
    end.

  Definition winding (vs : list (list T)) (c : list T) : Z :=
    fold_left (wind_step c) (circular_pairs vs) 0%Z.

  Definition polygon_contains (vs : list (list T)) (c : list T) : bool :=
    negb (winding vs c =? 0)%Z.
End Misc.
