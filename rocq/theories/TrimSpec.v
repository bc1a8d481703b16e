(** * What the triangulation of a trimmed domain relies on, and what it has to deliver *)
From Coq Require Import Reals Lra Lia List.
From Verif Require Import Base RSum VecFacts PolygonProofs PolygonConnected TrimModel.
Import ListNotations.
Open Scope R_scope.

(** strictly inside the triangle *)
Definition in_triangle (p q r x : list R) : Prop :=
  exists a b c, 0 < a /\ 0 < b /\ 0 < c /\ a + b + c = 1 /\
    rc 0 x = a * rc 0 p + b * rc 0 q + c * rc 0 r /\ rc 1 x = a * rc 1 p + b * rc 1 q + c * rc 1 r.

Section Spec.
  Context {V : Type} (D : Delaunay V) (pos : V -> list R).

  (** The contract of the triangulation.  [wall t x]: the point [x] lies on a constraint edge of [t].
      A vertex is inserted as a new one or replaces one at the same position; constraints are never lost, an accepted
      constraint is covered by constraint edges, and no constraint runs through the inside of a face. *)
  Record lawful (wall : dt D -> list R -> Prop) : Prop := {
    lw_empty : dt_vertices D (dt_empty D) = [];
    lw_insert : forall t v t' h, dt_insert D t v = (t', Some h) ->
      (dt_vertices D t' = dt_vertices D t ++ [v] /\ h = length (dt_vertices D t)) \/
      (exists l1 w l2, dt_vertices D t = l1 ++ w :: l2 /\ h = length l1 /\ pos w = pos v /\ dt_vertices D t' = l1 ++ v :: l2);
    lw_refuse : forall t v t', dt_insert D t v = (t', None) -> dt_vertices D t' = dt_vertices D t;
    lw_add : forall t a b, dt_vertices D (dt_add D t a b) = dt_vertices D t;
    lw_keep_insert : forall t v x, wall t x -> wall (fst (dt_insert D t v)) x;
    lw_keep_add : forall t a b x, wall t x -> wall (dt_add D t a b) x;
    lw_wall : forall t a b p q x, dt_can_add D t a b = true -> nth_error (dt_vertices D t) a = Some p -> nth_error (dt_vertices D t) b = Some q ->
      on_seg (pos p) (pos q) x -> wall (dt_add D t a b) x;
    lw_range : forall t a b c, In (a, b, c) (dt_faces D t) ->
      (a < length (dt_vertices D t))%nat /\ (b < length (dt_vertices D t))%nat /\ (c < length (dt_vertices D t))%nat;
    lw_clear : forall t a b c p q r x, In (a, b, c) (dt_faces D t) -> nth_error (dt_vertices D t) a = Some p ->
      nth_error (dt_vertices D t) b = Some q -> nth_error (dt_vertices D t) c = Some r ->
      turn (pos p) (pos q) (pos r) <> 0 -> in_triangle (pos p) (pos q) (pos r) x -> ~ wall t x
  }.

  (** every edge of the loop is accepted as a constraint (an edge between equal vertices needs none) *)
  Fixpoint edges_accepted (t : dt D) (l : list (option nat * option nat)) : Prop :=
    match l with
    | [] => True
    | e :: l => (exists a b, e = (Some a, Some b) /\ (a = b \/ dt_can_add D t a b = true)) /\ edges_accepted (add_edge D t e) l
    end.
  Definition loop_accepted (t : dt D) (vs : list V) : Prop :=
    let '(t', hs) := insert_all D t vs in
    edges_accepted t' (match hs with [] => [] | h :: r => combine hs (r ++ [h]) end).
  Fixpoint loops_accepted (t : dt D) (loops : list (list V)) : Prop :=
    match loops with
    | [] => True
    | l :: loops => loop_accepted t l /\ loops_accepted (insert_loop D t l) loops
    end.
End Spec.
