(** * Model: merging of sorted parameter lists, unification of knot vectors, polygon meshes *)
From Coq Require Import ZArith.
From Verif Require Import Base Scalar KnotModel CurveModel CurveKnotModel ElevateModel.

Section Merge.
  Context {T : Type} {SO : Scalar T}.
  Local Open Scope scalar_scope.

  (** surface/nurbs_surface.rs 1385-1422 [sorted_set_union]; the two cursors are the two lists *)
  Fixpoint sorted_set_union (a : list T) : list T -> list T :=
    fix go (b : list T) : list T :=
      match a, b with
      | [], [] => []
      | [], y :: b' => y :: go b'
      | x :: a', [] => x :: sorted_set_union a' []
      | x :: a', y :: b' =>
          let diff := x - y in
          if sabs diff <? seps then x :: sorted_set_union a' b'
          else if szero <? diff then y :: go b'
          else x :: sorted_set_union a' b
      end.

  (** nurbs_surface.rs:1424-1447 [sorted_set_sub] *)
  Fixpoint sorted_set_sub (a b : list T) : list T :=
    match a with
    | [] => []
    | x :: a' =>
        match b with
        | [] => x :: sorted_set_sub a' []
        | y :: b' => if sabs (x - y) <? seps then sorted_set_sub a' b' else x :: sorted_set_sub a' b
        end
    end.

  (** tessellation/surface.rs 233-259 [merge_sorted_parameters] *)
  Fixpoint merge_sorted (a : list T) : list T -> list T :=
    fix go (b : list T) : list T :=
      match a, b with
      | [], _ => b
      | _, [] => a
      | x :: a', y :: b' =>
          if x <? y then x :: merge_sorted a' b
          else if y <? x then y :: go b'
          else x :: merge_sorted a' b'
      end.

  (** nurbs_surface.rs:1318-1383 [try_unify_curve_knot_vectors] *)
  Definition shift_knots (m : T) (c : Curve T) : Curve T :=
    MkCurve (cdim c) (cdeg c) (cpts c) (map (fun x => x - m) (cknots c)).
  Definition scale_knots (s : T) (c : Curve T) : Curve T :=
    MkCurve (cdim c) (cdeg c) (cpts c) (map (fun x => x * s) (cknots c)).

  Definition unify_knots (curves : list (Curve T)) : Res (list (Curve T)) :=
    let max_degree := fold_left (fun d c => Nat.max d (cdeg c)) curves 0%nat in
    curves <- mapM (fun c => if (cdeg c <? max_degree)%nat then try_elevate_degree c max_degree else Ok c) curves ;;
    intervals <- mapM (fun c => mn <- get (cknots c) 0 ;; l <- usub (length (cknots c)) 1 ;;
                                mx <- get (cknots c) l ;; Ok (mn, mx)) curves ;;
    let curves := map (fun '(c, (mn, _)) => shift_knots mn c) (combine curves intervals) in
    let spans := map (fun '(mn, mx) => mx - mn) intervals in
    let max_span := fold_left (fun x a => if x <? a then a else x) spans szero in
    let curves := map (fun '(c, s) => scale_knots (max_span / s) c) (combine curves spans) in
    let merged := fold_left (fun a c => sorted_set_union (cknots c) a) curves [] in
    mapM (fun c => match sorted_set_sub merged (cknots c) with
                   | [] => Ok c
                   | rem => try_refine_knot c rem
                   end) curves.
End Merge.

(** polygon_mesh/mod.rs 7-15 *)
Record Mesh (V : Type) := MkMesh { mverts : list V; mfaces : list (nat * nat * nat) }.
Arguments MkMesh {V}. Arguments mverts {V}. Arguments mfaces {V}.

(** polygon_mesh/mod.rs:83-95: concatenation *)
Definition mesh_add {V} (a b : Mesh V) : Mesh V :=
  let v0 := length (mverts a) in
  MkMesh (mverts a ++ mverts b)
         (mfaces a ++ map (fun '(x, y, z) => (x + v0, y + v0, z + v0)%nat) (mfaces b)).
(** polygon_mesh/mod.rs:103 *)
Definition mesh_sum {V} (l : list (Mesh V)) : Mesh V := fold_left mesh_add l (MkMesh [] []).
(** polygon_mesh/mod.rs:31-43: indexing panics on a face that points outside the vertices *)
Definition triangles {V} (m : Mesh V) : Res (list (V * V * V)) :=
  mapM (fun '(x, y, z) => a <- get (mverts m) x ;; b <- get (mverts m) y ;; c <- get (mverts m) z ;;
                          Ok (a, b, c)) (mfaces m).

Section Area.
  Context {T : Type} {SO : Scalar T}.
  Local Open Scope scalar_scope.
  (** polygon_mesh/mod.rs:46-57: planar area *)
  Definition mesh_area2 (m : Mesh (list T)) : Res T :=
    ts <- triangles m ;;
    Ok (fold_left sadd (map (fun '(a, b, c) =>
          let ab := vsub b a in let ac := vsub c a in
          sabs (coord 0 ab * coord 1 ac - coord 1 ab * coord 0 ac)) ts) szero / sofz 2%Z).
  (** polygon_mesh/mod.rs:61-73: area in space *)
  Definition mesh_area3 (m : Mesh (list T)) : Res T :=
    ts <- triangles m ;;
    Ok (fold_left sadd (map (fun '(a, b, c) =>
          let ab := vsub b a in let ac := vsub c a in
          vnorm [coord 1 ab * coord 2 ac - coord 2 ab * coord 1 ac;
                 coord 2 ab * coord 0 ac - coord 0 ab * coord 2 ac;
                 coord 0 ab * coord 1 ac - coord 1 ab * coord 0 ac]) ts) szero / sofz 2%Z).
End Area.
