(** * Trimmed surfaces that are tessellated wrongly *)
From Coq Require Import Floats List ZArith Bool.
From Verif Require Import Base Scalar KnotModel MiscModel CurveModel SurfaceModel MergeModel ClipModel AdaptModel SerdeModel IntersectModel ClosestModel TrimModel.
Import ListNotations.

Section Refuted.
  Local Existing Instance FOps.
  Local Open Scope float_scope.
  Local Notation V := (@Vertex float).

  (** a triangulation that lists the vertices it is given and has no faces *)
  Definition listing : Delaunay V := {|
    dt := list V; dt_empty := []; dt_insert := fun t v => (t ++ [v], Some (length t));
    dt_can_add := fun _ _ _ => true; dt_add := fun t _ _ => t; dt_vertices := fun t => t; dt_faces := fun _ => []
  |}.

  (** a tube of triangular section, closed in u, twice as high as its parameter *)
  Definition tube : Surf float := MkSurf 4 1 1 [0; 0; 1; 2; 3; 3] [0; 0; 1; 1]
    [ [[0; 0; 0; 1]; [0; 0; 2; 1]]; [[1; 0; 0; 1]; [1; 0; 2; 1]]; [[0; 1; 0; 1]; [0; 1; 2; 1]]; [[0; 0; 0; 1]; [0; 0; 2; 1]] ].
  (** from the seam around the tube to the seam *)
  Definition around : Curve float := MkCurve 3 1 [[0; 0.3125; 1]; [1.5; 0.6875; 1]; [3; 0.3125; 1]] [0; 0; 1; 2; 2].
  Definition belt : Trimmed float := MkTrimmed tube (Some around) [].

  Definition feqb (a b : list float) : bool := forallb (fun '(x, y) => PrimFloat.eqb x y) (combine a b).


  Lemma belt_loop : match trim_loops 30 belt None (slit 1 100) with
    | Ok (Some (v :: l), []) => vx_uv v = [0; 0.3125] | _ => False end.
  Proof. vm_compute. reflexivity. Qed.
  Definition no_vertex : V := MkVx [] [] [].
  Lemma belt_mesh : match trimmed_tessellate listing 30 belt None None with
    | Ok m => forallb (fun w => negb (feqb (vx_uv w) [0; 0.3125])) (mverts m) = true /\ mverts m <> [] /\
              vnorm (vx_normal (hd no_vertex (mverts m))) = 1 /\ vnorm (vx_normal (last (mverts m) no_vertex)) = 2
    | _ => False end.
  Proof. vm_compute. repeat split. discriminate. Qed.

  (** *** Refuted: every boundary point is a vertex of the mesh (the loop closes in space across the seam, its first vertex is dropped) *)
  Theorem trim_seam_refuted : exists (D : Delaunay V) (ts : Trimmed float) l v m,
    (forall t x, In x (dt_vertices D (fst (dt_insert D t x)))) /\ (forall t a b, dt_vertices D (dt_add D t a b) = dt_vertices D t) /\
    trim_loops 30 ts None (slit 1 100) = Ok (Some l, []) /\ In v l /\ trimmed_tessellate D 30 ts None None = Ok m /\
    forall w, In w (mverts m) -> feqb (vx_uv w) (vx_uv v) = false.
  Proof.
    pose proof belt_loop as H. pose proof belt_mesh as H'.
    destruct (trim_loops 30 belt None (slit 1 100)) as [[[[|v l]|] [|]]| | |] eqn:E1; [destruct H|destruct H| |destruct H..].
    destruct (trimmed_tessellate listing 30 belt None None) as [m| | |] eqn:E2; [|destruct H'..]. destruct H' as (H' & _).
    exists listing, belt, (v :: l), v, m. split; [intros t x; cbn; apply in_or_app; right; now left|]. split; [reflexivity|].
    split; [exact E1|]. split; [now left|]. split; [exact E2|]. rewrite forallb_forall in H'.
    intros w Hw. rewrite H. specialize (H' w Hw). now apply negb_true_iff in H'.
  Qed.

  (** *** Refuted: the normals of the mesh of a trimmed surface are unit vectors (those on the trimming curves are not normalised) *)
  Theorem trim_normals_refuted : exists (D : Delaunay V) (ts : Trimmed float) v w m,
    trimmed_tessellate D 30 ts None None = Ok m /\ In v (mverts m) /\ In w (mverts m) /\ vnorm (vx_normal v) = 1 /\ vnorm (vx_normal w) = 2.
  Proof.
    pose proof belt_mesh as H. destruct (trimmed_tessellate listing 30 belt None None) as [m| | |] eqn:E2; [|destruct H..].
    destruct H as (_ & H0 & H1 & H2). exists listing, belt, (hd no_vertex (mverts m)), (last (mverts m) no_vertex), m.
    split; [exact E2|]. split; [destruct (mverts m); [now elim H0|now left]|]. split; [|split; assumption].
    destruct (mverts m) as [|v r]; [now elim H0|]. clear. revert v. induction r as [|x r IH]; intros v; [now left|]. right. exact (IH x).
  Qed.

  (** ** A run of the trimming by closest points, on a sheet *)
  Definition cramer (a b c : float) (r : float * float) : option (float * float) :=
    let d := a * c - b * b in
    if PrimFloat.eqb d 0 then None else Some ((fst r * c - b * snd r) / d, (a * snd r - b * fst r) / d).
  Definition sheetf : Surf float := MkSurf 4 1 1 [0; 0; 1; 1] [0; 0; 1; 1] [ [[0; 0; 0; 1]; [0; 1; 0; 1]]; [[1; 0; 0; 1]; [1; 1; 0; 1]] ].
  Definition spacef : Curve float := MkCurve 4 2 [[0.25; 0.25; 0; 1]; [1; 0.5; 0; 2]; [0.25; 0.75; 0; 1]] [0; 0; 0; 1; 1; 1].
  Example map_closest_run : try_map_closest_point cramer sheetf (Some spacef) [] =
    Ok (MkTrimmed sheetf (Some (MkCurve 3 2 [[0.25; 0.25; 1]; [1; 0.5; 2]; [0.25; 0.75; 1]] [0; 0; 0; 1; 1; 1])) []).
  Proof. vm_compute. reflexivity. Qed.

  (** the same sheet, with parameters that run unevenly along x *)
  Definition uneven : Surf float := MkSurf 4 2 1 [0; 0; 0; 1; 1; 1] [0; 0; 1; 1]
    [ [[0; 0; 0; 1]; [0; 1; 0; 1]]; [[0.25; 0; 0; 1]; [0.25; 1; 0; 1]]; [[1; 0; 0; 1]; [1; 1; 0; 1]] ].
  Definition diagonal : Curve float := MkCurve 4 1 [[0; 0; 0; 1]; [1; 1; 0; 1]] [0; 0; 1; 1].
  (** *** Refuted: a curve lying on the surface, mapped to its closest points, is traced by the trimming curve (only its control points are mapped) *)
  Theorem map_uneven_refuted : exists solve2 ts c2 q,
    try_map_closest_point solve2 uneven (Some diagonal) [] = Ok ts /\ tr_exterior ts = Some c2 /\
    point_at diagonal 0 = Ok [0; 0; 0] /\ point_at diagonal 0.5 = Ok [0.5; 0.5; 0] /\ point_at diagonal 1 = Ok [1; 1; 0] /\
    point_at c2 0.5 = Ok q /\ surf_point_at uneven (coord 0 q) (coord 1 q) = Ok [0.375; 0.5; 0].
  Proof.
    exists cramer, (MkTrimmed uneven (Some (MkCurve 3 1 [[0; 0; 1]; [1; 1; 1]] [0; 0; 1; 1])) []), (MkCurve 3 1 [[0; 0; 1]; [1; 1; 1]] [0; 0; 1; 1]), [0.5; 0.5].
    repeat split; vm_compute; reflexivity.
  Qed.
End Refuted.
