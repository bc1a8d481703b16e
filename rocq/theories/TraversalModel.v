(** * Model of the bounding box trees and their traversal (src/bounding_box/) *)
From Coq Require Import ZArith.
From Verif Require Import Base Scalar KnotModel CurveModel CurveKnotModel SplitModel BBoxModel
     SurfaceModel SurfaceBoxModel.

Section Traversal.
  Context {T : Type} {SO : Scalar T}.
  Open Scope scalar_scope.

  (** bounding_box_tree.rs:9-16 [BoundingBoxTree]: the three methods of a tree. [tsplit] takes the
      random number in [0, 1) drawn by the call; a tree that draws none ignores it. *)
  Record TreeOps (A : Type) : Type := MkTreeOps {
    tbox : A -> Res (BBox T);
    tdividable : A -> Res bool;
    tsplit : A -> T -> Res (A * A)
  }.
  Arguments tbox {A}. Arguments tdividable {A}. Arguments tsplit {A}.

  Section Generic.
    Context {A B : Type} (oa : TreeOps A) (ob : TreeOps B).
    (** dimension of the boxes and the stream of random numbers *)
    Variable D : nat.
    Variable rng : nat -> T.

    (** bounding_box_traversal.rs:35-63: one iteration of the [while]; the state is the stack (top
        first), the pairs found and the number of random numbers drawn *)
    Definition trav_step (st : list (A * B) * list (A * B) * nat)
      : Res ((list (A * B) * list (A * B) * nat) + list (A * B)) :=
      let '(trees, pairs, k) := st in
      match trees with
      | [] => Ok (inr pairs)
      | (a, b) :: rest =>
          ba <- tbox oa a ;;
          bb <- tbox ob b ;;
          if negb (bb_intersects D ba bb (Some szero)) then Ok (inl (rest, pairs, k))
          else
            ai <- tdividable oa a ;;
            bi <- tdividable ob b ;;
            match (ai : bool), (bi : bool) with
            | false, false => Ok (inl (rest, pairs ++ [(a, b)], k))
            | true, false =>
                '(a0, a1) <- tsplit oa a (rng k) ;;
                Ok (inl ((a1, b) :: (a0, b) :: rest, pairs, S k))
            | false, true =>
                '(b0, b1) <- tsplit ob b (rng k) ;;
                Ok (inl ((a, b1) :: (a, b0) :: rest, pairs, S k))
            | true, true =>
                '(a0, a1) <- tsplit oa a (rng k) ;;
                '(b0, b1) <- tsplit ob b (rng (S k)) ;;
                Ok (inl ((a1, b1) :: (a0, b1) :: (a1, b0) :: (a0, b0) :: rest, pairs, S (S k)))
            end
      end.

    (** bounding_box_traversal.rs:28-71 [try_traverse] *)
    Definition traverse (fuel : nat) (ta : A) (tb : B) : Res (list (A * B)) :=
      loop_ fuel trav_step ([(ta, tb)], [], 0%nat).
  End Generic.

  (** curve_bounding_box_tree.rs:12-18 [CurveBoundingBoxTree] *)
  Record CTree : Type := MkCTree { ct_curve : Curve T; ct_tol : T }.

  (** curve_bounding_box_tree.rs:27-36 [new] *)
  Definition ct_new (c : Curve T) (tol : option T) : Res CTree :=
    match tol with
    | Some t => Ok (MkCTree c t)
    | None => i <- knots_domain_interval c ;; Ok (MkCTree c (i / sofnat 64))
    end.

  (** curve_bounding_box_tree.rs:54-72 [is_dividable] *)
  Definition ct_dividable (t : CTree) : Res bool :=
    i <- knots_domain_interval (ct_curve t) ;;
    if ct_tol t <? i then Ok true
    else if (cdeg (ct_curve t) =? 1)%nat
         then Ok ((sone / sofz 10000 <=? i) && (3 <=? length (cpts (ct_curve t)))%nat)
         else Ok false.

  (** curve_bounding_box_tree.rs:75-81: the parameter of the division *)
  Definition ct_param (c : Curve T) (r : T) : Res T :=
    '(mn, mx) <- knots_domain c ;;
    let interval := mx - mn in
    let mid := (mn + mx) / sofnat 2 in
    Ok (mid + interval * (sone / sofz 10 * (r - sone / sofnat 2))).

  (** curve_bounding_box_tree.rs:75-95 [try_divide] *)
  Definition ct_split (t : CTree) (r : T) : Res (CTree * CTree) :=
    u <- ct_param (ct_curve t) r ;;
    '(hd, tl) <- try_split (ct_curve t) u ;;
    Ok (MkCTree hd (ct_tol t), MkCTree tl (ct_tol t)).

  (** curve_bounding_box_tree.rs:98-100 [bounding_box] *)
  Definition ct_ops : TreeOps CTree :=
    MkTreeOps CTree (fun t => bb_of_curve (ct_curve t)) ct_dividable ct_split.

  (** surface_bounding_box_tree.rs:14-22 [SurfaceBoundingBoxTree] *)
  Record STree : Type := MkSTree { st_surf : Surf T; st_utol : T; st_vtol : T; st_dir : UV }.

  (** nurbs_surface.rs:84-106 [knots_domain] *)
  Definition surf_domain (s : Surf T) : Res ((T * T) * (T * T)) :=
    u <- domain (suk s) (sdu s) ;; v <- domain (svk s) (sdv s) ;; Ok (u, v).

  (** nurbs_surface.rs [knots_domain_interval] *)
  Definition surf_interval (s : Surf T) : Res (T * T) :=
    '((a, b), (c, d)) <- surf_domain s ;; Ok (b - a, d - c).

  (** surface_bounding_box_tree.rs:31-46 [new] *)
  Definition st_new (s : Surf T) (d : UV) (tol : option (T * T)) : Res STree :=
    match tol with
    | Some (u, v) => Ok (MkSTree s u v d)
    | None => '(u, v) <- surf_interval s ;; Ok (MkSTree s (u / sofnat 64) (v / sofnat 64) d)
    end.

  (** surface_bounding_box_tree.rs:64-68 [is_dividable] *)
  Definition st_dividable (t : STree) : Res bool :=
    '(u, v) <- surf_interval (st_surf t) ;;
    Ok ((st_utol t <? u) || (st_vtol t <? v))%bool.

  (** surface_bounding_box_tree.rs:71-91 [try_divide] (deterministic) *)
  Definition st_split (t : STree) (_ : T) : Res (STree * STree) :=
    '((a, b), (c, d)) <- surf_domain (st_surf t) ;;
    let '(lo, hi) := match st_dir t with DirU => (a, b) | DirV => (c, d) end in
    let mid := (lo + hi) * (sone / sofnat 2) in
    '(l, r) <- surf_split (st_surf t) mid (st_dir t) ;;
    let next := match st_dir t with DirU => DirV | DirV => DirU end in
    Ok (MkSTree l (st_utol t) (st_vtol t) next, MkSTree r (st_utol t) (st_vtol t) next).

  Definition st_ops : TreeOps STree :=
    MkTreeOps STree (fun t => bb_of_surf (st_surf t)) st_dividable st_split.
End Traversal.
Arguments TreeOps : clear implicits.
Arguments CTree : clear implicits.
Arguments STree : clear implicits.
Arguments tbox {T A}. Arguments tdividable {T A}. Arguments tsplit {T A}.
