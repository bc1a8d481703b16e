(** * Model of src/region/compound_curve.rs, src/region/curve_direction.rs and the compound part
    of src/trim/mod.rs and src/bounding_box/mod.rs

    A compound curve is the list of its spans. *)
From Coq Require Import ZArith.
From Verif Require Import Base Scalar KnotModel MiscModel CurveModel CurveKnotModel SplitModel BBoxModel.

(** curve_direction.rs:8-14 *)
Inductive CurveDirection := Forward | Backward | Facing | Opposite.

Section Compound.
  Context {T : Type} {SO : Scalar T}.
  Open Scope scalar_scope.

  (** compound_curve.rs:227, curve_direction.rs:40: [Iterator::min_by] with [partial_cmp().unwrap_or(Equal)]: the first minimum wins, and an
      element that is not comparable never replaces the current one *)
  Definition pick_min {A : Type} (x y : T * A) : T * A := if fst y <? fst x then y else x.
  Definition min_by {A : Type} (l : list (T * A)) : option (T * A) :=
    match l with [] => None | x :: t => Some (fold_left pick_min t x) end.

  (** the two end points of a span: [point_at] at both ends of [knots_domain] *)
  Definition span_ends (c : Curve T) : Res (list T * list T) :=
    '(d0, d1) <- knots_domain c ;;
    p0 <- point_at c d0 ;;
    p1 <- point_at c d1 ;;
    Ok (p0, p1).

  (** curve_direction.rs:17-42 [CurveDirection::new] *)
  Definition curve_direction (a b : Curve T) (epsilon : T) : Res (option CurveDirection) :=
    '(a0, a1) <- span_ends a ;;
    '(b0, b1) <- span_ends b ;;
    let directions :=
      [ (vnorm (vsub a1 b0), Forward); (vnorm (vsub a0 b1), Backward);
        (vnorm (vsub a1 b1), Facing); (vnorm (vsub a0 b0), Opposite) ] in
    Ok (match min_by directions with
        | Some m => if fst m <? epsilon then Some (snd m) else None
        | None => None
        end).

  (** compound_curve.rs:48-50: [curves.iter().enumerate().find_map(..)], the first curve with a
      direction, together with the list without it ([curves.remove(index)]) *)
  Fixpoint find_next (last : Curve T) (epsilon : T) (curves : list (Curve T))
    : Res (option (CurveDirection * Curve T * list (Curve T))) :=
    match curves with
    | [] => Ok None
    | c :: rest =>
        d <- curve_direction last c epsilon ;;
        match d with
        | Some d => Ok (Some (d, c, rest))
        | None =>
            r <- find_next last epsilon rest ;;
            match r with
            | Some (d, c', rest') => Ok (Some (d, c', c :: rest'))
            | None => Ok None
            end
        end
    end.

  (** compound_curve.rs:42-76: the connecting loop.  Each round removes one curve, so [length
      curves] rounds are enough; [println!] is dropped. *)
  Fixpoint connect (fuel : nat) (epsilon : T) (curves connected : list (Curve T))
    : Res (list (Curve T)) :=
    match curves with
    | [] => Ok connected
    | _ =>
        match fuel with
        | O => OutOfFuel
        | S fuel =>
            current <- usub (length connected) 1 ;;
            last <- get connected current ;;
            found <- find_next last epsilon curves ;;
            match found with
            | Some (Forward, next, rest) => connect fuel epsilon rest (connected ++ [next])
            | Some (Backward, next, rest) =>
                connected <- insert_at connected current next ;;
                connect fuel epsilon rest connected
            | Some (Facing, next, rest) =>
                next <- invert next ;;
                connect fuel epsilon rest (connected ++ [next])
            | Some (Opposite, next, rest) =>
                if current =? 0 then
                  next <- invert next ;;
                  connected <- insert_at connected current next ;;
                  connect fuel epsilon rest connected
                else connect fuel epsilon rest connected
            | None => Ok connected
            end
        end
    end%nat.

  (** compound_curve.rs:78-86: every knot vector is shifted to start where the previous ends *)
  Definition shift_knots (offset : T) (c : Curve T) : Res (Curve T) :=
    start <- get (cknots c) 0 ;;
    Ok (MkCurve (cdim c) (cdeg c) (cpts c) (map (fun v => v - start + offset) (cknots c))).
  Fixpoint align (offset : T) (l : list (Curve T)) : Res (list (Curve T)) :=
    match l with
    | [] => Ok []
    | c :: t =>
        c' <- shift_knots offset c ;;
        i <- usub (length (cknots c')) 1 ;;
        last <- get (cknots c') i ;;
        t' <- align last t ;;
        Ok (c' :: t')
    end.

  (** compound_curve.rs:31-89 [CompoundCurve::new] *)
  Definition connect_eps : T := sone / sofz 10000.
  Definition compound_new (spans : list (Curve T)) : Res (list (Curve T)) :=
    match spans with
    | [] => Panic "removal index (is 0) should be < len (is 0)"
    | first :: curves =>
        connected <- connect (length curves) connect_eps curves [first] ;;
        align szero connected
    end.

  (** compound_curve.rs:118-128 [point_at] *)
  Fixpoint compound_point_at (spans : list (Curve T)) (t : T) : Res (option (list T)) :=
    match spans with
    | [] => Ok None
    | c :: rest =>
        '(d0, d1) <- knots_domain c ;;
        if (d0 <=? t) && (t <=? d1) then p <- point_at c t ;; Ok (Some p)
        else compound_point_at rest t
    end.

  (** compound_curve.rs:145-160 [is_closed] *)
  Definition compound_is_closed (spans : list (Curve T)) : Res bool :=
    match spans with
    | [] => Ok false
    | c :: _ =>
        let l := List.last spans c in
        '(d0, _) <- knots_domain c ;;
        start <- point_at c d0 ;;
        '(_, d1) <- knots_domain l ;;
        end_ <- point_at l d1 ;;
        Ok (vnorm (vsub start end_) <? seps * sofz 10)
    end.

  (** compound_curve.rs:178-188 [try_length], over a measured length of one span *)
  Definition compound_length (len : Curve T -> Res T) (spans : list (Curve T)) : Res T :=
    ls <- mapM len spans ;;
    Ok (fold_left sadd ls szero).

  (** compound_curve.rs:205-232 [find_closest_point], over the search on one span *)
  Definition compound_closest_point (closest : Curve T -> list T -> Res (list T))
    (spans : list (Curve T)) (p : list T) : Res (list T) :=
    res <- mapM (fun c => closest c p) spans ;;
    m <- ok_or (min_by (map (fun q => (vnorm2 (vsub q p), q)) res)) "Failed to find the closest point" ;;
    Ok (snd m).

  (** compound_curve.rs:260-264 [transform] *)
  Definition compound_transform (m : list (list T)) (spans : list (Curve T)) : list (Curve T) :=
    map (transform m) spans.

  (** compound_curve.rs:271-274 [invert] *)
  Definition compound_invert (spans : list (Curve T)) : Res (list (Curve T)) :=
    l <- mapM invert spans ;;
    Ok (rev l).

  (** bounding_box/mod.rs:214-228 [From<&CompoundCurve>] *)
  Definition bb_of_compound (D : nat) (spans : list (Curve T)) : Res (BBox T) :=
    pts <- mapM dehomogenized_control_points spans ;;
    Ok (bb_points D (concat pts)).

  (** trim/mod.rs:55-101: one span of the compound trim *)
  Definition trim_span (p0 p1 : T) (c : Curve T) : Res (list (Curve T)) :=
    let mn := smin p0 p1 in
    let mx := smax p0 p1 in
    let inside := p0 <? p1 in
    '(d0, d1) <- knots_domain c ;;
    let has x := (d0 + seps <=? x) && (x <=? d1 - seps) in
    match has mn, has mx with
    | true, true =>
        if inside then try_trim_range c mn mx
        else
          '(hd, tail) <- try_split c mn ;;
          '(_, tail2) <- try_split tail mx ;;
          Ok [hd; tail2]
    | true, false =>
        '(hd, tail) <- try_split c mn ;;
        Ok (if inside then [tail] else [hd])
    | false, true =>
        '(hd, tail) <- try_split c mx ;;
        Ok (if inside then [hd] else [tail])
    | false, false =>
        let contains := (mn <=? d0) && (d0 <=? mx) in
        Ok (if Bool.eqb inside contains then [c] else [])
    end.

  (** trim/mod.rs:42-109 [TrimRange::try_trim_range] for [CompoundCurve] *)
  Definition compound_trim (spans : list (Curve T)) (p0 p1 : T) : Res (list (Curve T)) :=
    l <- mapM (trim_span p0 p1) spans ;;
    Ok (concat l).
End Compound.
