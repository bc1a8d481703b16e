(** * Model of src/boolean/boolean_region.rs

    Generic in the boundary curves: [cbool] is the boolean operation on two boundary curves
    (boolean_compound_curve.rs:31-46, i.e. [clip]), [contains] the containment test of a point
    and [first_point] the start of a boundary.  Points have type [P]. *)
From Verif Require Import Base Scalar ClipModel.

Section Region.
  Context {CC P : Type}.
  Variable cbool : BooleanOperation -> CC -> CC -> Res (list (Region CC)).
  Variable contains : CC -> P -> Res bool.
  Variable first_point : CC -> P.

  (** [Vec::remove], boolean_region.rs:192 *)
  Definition vec_remove {A} (i : nat) (l : list A) : list A := firstn i l ++ skipn (S i) l.

  (** boolean_region.rs:181-203, the inner loop: [i] runs downwards from [n - 1] *)
  Fixpoint distribute_one (n : nat) (r : Region CC) (ints : list CC)
    : Res (Region CC * list CC) :=
    match n with
    | O => Ok (r, ints)
    | S i =>
        c <- get ints i ;;
        b <- contains (rexterior r) (first_point c) ;;
        if b : bool
        then distribute_one i (MkRegion (rexterior r) (rinteriors r ++ [c])) (vec_remove i ints)
        else distribute_one i r ints
    end.
  (** boolean_region.rs:181-203 [distribute_interiors_to_regions] *)
  Fixpoint distribute (regions : list (Region CC)) (ints : list CC)
    : Res (list (Region CC) * list CC) :=
    match regions with
    | [] => Ok ([], ints)
    | r :: t =>
        '(r, ints) <- distribute_one (length ints) r ints ;;
        '(t, ints) <- distribute t ints ;;
        Ok (r :: t, ints)
    end.

  (** boolean_region.rs:43-74 *)
  Definition region_union (self : Region CC) (other : CC) : Res (list (Region CC)) :=
    ext <- cbool Union (rexterior self) other ;;
    exterior <- ok_or (option_map rexterior (nth_error ext 0)) "No exterior region found" ;;
    diffs <- mapM (fun it => cbool Difference it other) (rinteriors self) ;;
    Ok [MkRegion exterior (map rexterior (concat diffs))].

  (** boolean_region.rs:119-142 *)
  Definition absorb (st : CC * list CC) (interior : CC) : Res (CC * list CC) :=
    u <- cbool Union (fst st) interior ;;
    Ok match u with
       | [] => st
       | h :: t => (rexterior h, snd st ++ map rexterior t)
       end.
  Definition region_difference (self : Region CC) (other : CC) : Res (list (Region CC)) :=
    '(current, ints) <- foldM absorb (rinteriors self) (other, []) ;;
    regions <- cbool Difference (rexterior self) current ;;
    '(regions, _) <- distribute regions ints ;;
    Ok regions.

  (** boolean_region.rs:75-118 *)
  Definition subtract_hole (clips : list (Region CC)) (it : CC) : Res (list (Region CC)) :=
    l <- mapM (fun clip =>
                 regions <- region_difference clip it ;;
                 '(regions, _) <- distribute regions (rinteriors clip) ;;
                 Ok regions) clips ;;
    Ok (concat l).
  Definition region_intersection (self : Region CC) (other : CC) : Res (list (Region CC)) :=
    clips <- foldM subtract_hole (rinteriors self) [MkRegion other []] ;;
    l <- mapM (fun clip =>
                 regions <- cbool Intersection (rexterior self) (rexterior clip) ;;
                 '(regions, _) <- distribute regions (rinteriors clip) ;;
                 Ok regions) clips ;;
    Ok (concat l).

  (** boolean_region.rs:33-147, a region and a curve *)
  Definition region_curve_boolean (op : BooleanOperation) (self : Region CC) (other : CC)
    : Res (list (Region CC)) :=
    match op with
    | Union => region_union self other
    | Intersection => region_intersection self other
    | Difference => region_difference self other
    end.

  (** boolean_region.rs:149-178, two regions *)
  Definition region_boolean (op : BooleanOperation) (self other : Region CC)
    : Res (list (Region CC)) :=
    regions <- region_curve_boolean op self (rexterior other) ;;
    foldM (fun regions interior =>
             match op with
             | Union | Intersection =>
                 l <- mapM (fun r => region_curve_boolean Difference r interior) regions ;;
                 Ok (concat l)
             | Difference => Ok regions
             end) (rinteriors other) regions.
End Region.
