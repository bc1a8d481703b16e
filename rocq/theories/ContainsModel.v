(** * Model of point containment by ray casting (src/contains/)

    The random numbers of the traversal come from a stream; the fuel bounds its [while] loop. *)
From Coq Require Import String ZArith.
From Verif Require Import Base Scalar KnotModel CurveModel CurveKnotModel BBoxModel CompoundModel
     TraversalModel IntersectModel ClosestModel.

Section Contains.
  Context {T : Type} {SO : Scalar T}.
  Open Scope scalar_scope.

  (** contains_curve.rs:104-123: the bisection for the height of the point; [n] iterations are left *)
  Fixpoint level_search (n : nat) (c : Curve T) (py md : T) (forward : bool) (mn mx : T) : Res (option (list T * T)) :=
    match n with
    | O => Ok None
    | S n =>
        let t := (mn + mx) / stwo in
        p <- point_at c t ;;
        let dy := coord 1 p - py in
        if sabs dy <? md then Ok (Some (p, t))
        else
          let over := szero <? dy in
          if (if forward then over else negb over)
          then level_search n c py md forward mn t
          else level_search n c py md forward t mx
    end.

  (** contains_curve.rs:85-124: the crossing of one leaf of the curve *)
  Definition leaf_crossing (c : Curve T) (p : list T) (o : @Options T) : Res (option (list T * T)) :=
    '(start, end_) <- knots_domain c ;;
    ps <- point_at c start ;;
    pe <- point_at c end_ ;;
    if (coord 0 ps <? coord 0 p) && (coord 0 pe <? coord 0 p) then Ok None
    else
      match coord 1 p <? coord 1 ps, coord 1 p <? coord 1 pe with
      | true, true | false, false => Ok None
      | false, true => level_search (op_iters o) c (coord 1 p) (op_min o) true start end_
      | true, false => level_search (op_iters o) c (coord 1 p) (op_min o) false start end_
      end.

  (** contains_curve.rs:131-141: [coalesce] keeps the first of two close crossings *)
  Fixpoint merge_from (near : list T * T -> list T * T -> bool) (x : list T * T) (l : list (list T * T)) : list (list T * T) :=
    match l with
    | [] => [x]
    | y :: t => if near x y then merge_from near x t else x :: merge_from near y t
    end.
  Definition merge_close (near : list T * T -> list T * T -> bool) (l : list (list T * T)) : list (list T * T) :=
    match l with [] => [] | x :: t => merge_from near x t end.

  Fixpoint somes {A : Type} (l : list (option A)) : list A :=
    match l with [] => [] | Some x :: l => x :: somes l | None :: l => somes l end.

  Definition options_or_default (o : option (@Options T)) : @Options T :=
    match o with Some o => o | None => default_options end.

  (** contains_curve.rs:65-148 [x_ray_intersection] *)
  Definition x_ray_intersection (rng : nat -> T) (fuel : nat) (c : Curve T) (p : list T) (len : T)
    (option : option (@Options T)) : Res (list (list T)) :=
    let o := options_or_default option in
    ray <- polyline 3 [p; vadd p (vscale [sone; szero] len)] true ;;
    ic <- knots_domain_interval c ;;
    ta <- ct_new c (Some (ic / sofnat (op_div o))) ;;
    ir <- knots_domain_interval ray ;;
    tb <- ct_new ray (Some (ir / sofnat 1)) ;;
    pairs <- traverse ct_ops ct_ops 2 rng fuel ta tb ;;
    found <- mapM (fun pr => leaf_crossing (ct_curve (fst pr)) p o) pairs ;;
    let hits := filter (fun h => coord 0 p <=? coord 0 (fst h)) (somes found) in
    let near x y := vnorm (vsub (fst x) (fst y)) <? op_min o in
    Ok (map fst (merge_close near (sort_by snd hits))).

  (** contains_curve.rs:39-50, contains_compound_curve.rs:42-53: the test for the boundary, on the
      result of the search for the closest point *)
  Definition on_boundary (closest : Res (list T)) (p : list T) (option : option (@Options T)) : Res bool :=
    match closest with
    | Ok q => Ok (vnorm (vsub q p) <?
                  match option with Some o => op_min o | None => sone / sofz 1000000 end)
    | Err _ => Ok false
    | Panic m => Panic m
    | OutOfFuel => OutOfFuel
    end.

  (** contains_curve.rs:31-62 [contains] *)
  Definition curve_contains (rng : nat -> T) (fuel : nat) (c : Curve T) (p : list T)
    (option : option (@Options T)) : Res bool :=
    closed <- is_closed c ;;
    if negb closed then Err "Curve must be closed"
    else
      bb <- bb_of_curve c ;;
      if negb (bb_contains 2 bb p) then Ok false
      else
        ob <- on_boundary (find_closest_point c p) p option ;;
        if (ob : bool) then Ok true
        else
          its <- x_ray_intersection rng fuel c p (coord 0 (bb_size bb) * stwo) option ;;
          Ok (Nat.odd (length its)).

  (** contains_compound_curve.rs:33-67 [contains]; [rng i] are the random numbers drawn for span [i] *)
  Definition compound_contains (rng : nat -> nat -> T) (fuel : nat) (spans : list (Curve T)) (p : list T)
    (option : option (@Options T)) : Res bool :=
    bb <- bb_of_compound 2 spans ;;
    if negb (bb_contains 2 bb p) then Ok false
    else
      ob <- on_boundary (compound_closest_point find_closest_point spans p) p option ;;
      if (ob : bool) then Ok true
      else
        let sx := coord 0 (bb_size bb) * stwo in
        its <- mapM (fun ic => x_ray_intersection (rng (fst ic)) fuel (snd ic) p sx option)
                    (combine (seq 0 (length spans)) spans) ;;
        Ok (Nat.odd (fold_right Nat.add 0%nat (map (@length _) its))).
End Contains.
