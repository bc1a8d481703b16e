(** * Model of src/bounding_box/mod.rs and src/misc/line.rs *)
From Coq Require Import ZArith.
From Verif Require Import Base Scalar KnotModel MiscModel CurveModel.

(** bounding_box/mod.rs:23-29 *)
Record BBox (T : Type) := MkBox { bmin : list T; bmax : list T }.
Arguments MkBox {T}. Arguments bmin {T}. Arguments bmax {T}.

Section BBox.
  Context {T : Type} {SO : Scalar T}.
  Open Scope scalar_scope.

  (** mod.rs:36-49 [new] ([D] is the dimension of the space) *)
  Definition bb_new (D : nat) (mn mx : list T) : BBox T :=
    MkBox (map (fun i => smin (smin smax_value (coord i mn)) (coord i mx)) (seq 0 D))
          (map (fun i => smax (smax (- smax_value) (coord i mx)) (coord i mn)) (seq 0 D)).

  (** mod.rs:57-60: the inner loop of [new_with_points] *)
  Definition bb_add (D : nat) (b : BBox T) (p : list T) : BBox T :=
    MkBox (map (fun i => smin (coord i (bmin b)) (coord i p)) (seq 0 D))
          (map (fun i => smax (coord i (bmax b)) (coord i p)) (seq 0 D)).

  (** mod.rs:52-64 [new_with_points] *)
  Definition bb_points (D : nat) (pts : list (list T)) : BBox T :=
    fold_left (bb_add D) pts (MkBox (repeat smax_value D) (repeat (- smax_value) D)).

  (** mod.rs:74-76 [center], 78-80 [size] *)
  Definition bb_center (b : BBox T) : list T := vdivs (vadd (bmin b) (bmax b)) (sofnat 2).
  Definition bb_size (b : BBox T) : list T := vsub (bmax b) (bmin b).

  (** mod.rs:103-120: one axis of [intersects] *)
  Definition bb_axis (tol min0 max0 min1 max1 : T) : bool :=
    let a0 := min0 - tol in
    let a1 := max0 + tol in
    let b0 := min1 - tol in
    let b1 := max1 + tol in
    let d0 := b0 - a1 in
    let d1 := b1 - a0 in
    negb (szero <? d0 * d1).

  (** mod.rs:99-124 [intersects] *)
  Definition bb_intersects (D : nat) (a b : BBox T) (tolerance : option T) : bool :=
    let tol := match tolerance with Some t => t | None => seps end in
    forallb (fun i => bb_axis tol (coord i (bmin a)) (coord i (bmax a))
                                  (coord i (bmin b)) (coord i (bmax b))) (seq 0 D).

  (** mod.rs:136-138 [contains] *)
  Definition bb_contains (D : nat) (b : BBox T) (p : list T) : bool :=
    forallb (fun i => (coord i (bmin b) <=? coord i p) && (coord i p <=? coord i (bmax b)))
            (seq 0 D).

  (** mod.rs:152-167 [corners] *)
  Definition bb_corner (D : nat) (b : BBox T) (i : nat) : list T :=
    map (fun j => if Nat.testbit i j then coord j (bmax b) else coord j (bmin b)) (seq 0 D).
  Definition bb_corners (D : nat) (b : BBox T) : list (list T) :=
    map (bb_corner D b) (seq 0 (2 ^ D)).

  (** mod.rs:170-182 [lines] *)
  Definition bb_lines (D : nat) (b : BBox T) : Res (list (list T * list T)) :=
    let cs := bb_corners D b in
    ls <- mapM (fun i => mapM (fun j => a <- get cs j ;;
                                        b <- get cs (Nat.lxor j (2 ^ i)) ;; Ok (a, b))
                              (seq 0 (2 ^ D))) (seq 0 D) ;;
    Ok (concat ls).

  (** mod.rs:201-204 [From<&NurbsCurve>] *)
  Definition bb_of_curve (c : Curve T) : Res (BBox T) :=
    pts <- dehomogenized_control_points c ;;
    Ok (bb_points (cdim c - 1) pts).

  (** misc/line.rs:9-12 *)
  Record Line := MkLine { lstart : list T; lend : list T }.

  (** line.rs:79-81 [bounding_rect] *)
  Definition line_rect (l : Line) : BBox T := bb_new 2 (lstart l) (lend l).

  (** both strictly on the same side, line.rs:31-76 *)
  Definition same_side (a b : Orientation) : bool :=
    match a, b with
    | Clockwise, Clockwise | CounterClockwise, CounterClockwise => true
    | _, _ => false
    end.

  (** line.rs:31-76 [intersects] *)
  Definition line_intersects (l m : Line) : bool :=
    if negb (bb_intersects 2 (line_rect l) (line_rect m) None) then false else
    let p_q1 := orientation (lstart l) (lend l) (lstart m) in
    let p_q2 := orientation (lstart l) (lend l) (lend m) in
    if same_side p_q1 p_q2 then false else
    let q_p1 := orientation (lstart m) (lend m) (lstart l) in
    let q_p2 := orientation (lstart m) (lend m) (lend l) in
    if same_side q_p1 q_p2 then false else
    negb (orient_eqb p_q1 Collinear && orient_eqb p_q2 Collinear
          && orient_eqb q_p1 Collinear && orient_eqb q_p2 Collinear).
End BBox.
Arguments Line : clear implicits.
