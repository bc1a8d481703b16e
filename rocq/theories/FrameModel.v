(** * Moving frames along a curve, and sweeping a profile along a rail *)
From Coq Require Import String.
From Verif Require Import Base Scalar KnotModel CurveModel MiscModel SurfaceModel ArcModel LoftModel.
Local Open Scope scalar_scope.

(** the arc cosine, used only between -1 and 1 *)
Class Acos (T : Type) := { sacos : T -> T }.

Section Frame.
  Context {T : Type} {SO : Scalar T} {TO : Trig T} {AO : Acos T}.

  (** nurbs_curve.rs:1868-1884: the coordinate axis the tangent is least aligned with *)
  Definition least_axis (t : list T) : list T :=
    let tx := sabs (coord 0 t) in
    let ty := sabs (coord 1 t) in
    let tz := sabs (coord 2 t) in
    let '(m, n) := (smax_value, [szero; szero; szero]) in
    let '(m, n) := if tx <=? m then (tx, [sone; szero; szero]) else (m, n) in
    let '(m, n) := if ty <=? m then (ty, [szero; sone; szero]) else (m, n) in
    if tz <=? m then [szero; szero; sone] else n.

  (** nurbs_curve.rs:1886-1887: the first normal *)
  Definition first_normal (t : list T) : list T :=
    let v := vnormalize (cross3 t (least_axis t)) in
    vnormalize (cross3 t v).

  (** nalgebra [Rotation3::from_axis_angle] applied to a vector, nurbs_curve.rs:1897 *)
  Definition rotate3 (axis : list T) (angle : T) (x : list T) : list T :=
    if seqb angle szero then x
    else
      let ux := coord 0 axis in let uy := coord 1 axis in let uz := coord 2 axis in
      let s := ssin angle in let c := scos angle in let o := sone - c in
      [ vdot [ux * ux + (sone - ux * ux) * c; ux * uy * o - uz * s; ux * uz * o + uy * s] x;
        vdot [ux * uy * o + uz * s; uy * uy + (sone - uy * uy) * c; uy * uz * o - ux * s] x;
        vdot [ux * uz * o - uy * s; uy * uz * o + ux * s; uz * uz + (sone - uz * uz) * c] x ].

  (** nurbs_curve.rs:1891-1903: carry the normal from the tangent [t0] to the tangent [t1] *)
  Definition next_normal (t0 t1 n0 : list T) : list T :=
    let v := vnormalize (cross3 t0 t1) in
    if seps <? vnorm v then
      rotate3 (vnormalize v) (sacos (sclamp (vdot t0 t1) (sopp sone) sone)) n0
    else n0.

  Record Frame := MkFrame { fr_pos : list T; fr_tan : list T; fr_nor : list T; fr_bin : list T }.

  (** nurbs_curve.rs:1890-1906: the remaining normals; the vectors at index [i - 1] are carried along *)
  Fixpoint carry_normals (t0 n0 : list T) (ts : list (list T)) : list (list T) :=
    match ts with
    | [] => []
    | t1 :: ts' => let n1 := next_normal t0 t1 n0 in n1 :: carry_normals t1 n1 ts'
    end.

  (** nurbs_curve.rs:1858-1914 [compute_frenet_frames] *)
  Definition compute_frenet_frames (c : Curve T) (parameters : list T) : Res (list Frame) :=
    tangents <- mapM (fun u => t <- tangent_at c u ;; Ok (vnormalize t)) parameters ;;
    t0 <- get tangents 0 ;;
    let n0 := first_normal t0 in
    let normals := n0 :: carry_normals t0 n0 (skipn 1 tangents) in
    positions <- mapM (point_at c) parameters ;;
    Ok (map (fun '(p, (t, n)) => MkFrame p t n (vnormalize (cross3 t n))) (combine positions (combine tangents normals))).

  (** frenet_frame.rs:48-50 [rotation] (nalgebra [face_towards]: the columns are the images of the
      coordinate axes) and 53-57 [matrix] *)
  Definition frame_axes (f : Frame) : list T * list T * list T :=
    let z := vnormalize (fr_tan f) in
    let x := vnormalize (cross3 (fr_nor f) z) in
    let y := vnormalize (cross3 z x) in
    (x, y, z).
  Definition frame_matrix (f : Frame) : list (list T) :=
    let '(x, y, z) := frame_axes f in
    map (fun i => [coord i x; coord i y; coord i z; coord i (fr_pos f)]) (seq 0 3) ++ [[szero; szero; szero; sone]].

  Variable solve : list (list T) -> list T -> option (list T).

  (** nurbs_surface.rs:1112-1119: the parameters of the frames *)
  Definition sweep_parameters (rail : Curve T) : Res (list T) :=
    '(start, fin) <- knots_domain rail ;;
    let samples := (length (cpts rail) * 2)%nat in
    sm <- usub samples 1 ;;
    let span := (fin - start) / sofnat sm in
    Ok (map (fun i => start + sofnat i * span) (seq 0 samples)).

  (** nurbs_surface.rs:1107-1131 [try_sweep] *)
  Definition try_sweep (profile rail : Curve T) (degree_v : option nat) : Res (Surf T) :=
    parameters <- sweep_parameters rail ;;
    frames <- compute_frenet_frames rail parameters ;;
    try_loft solve (map (fun f => transform (frame_matrix f) profile) frames) degree_v.
End Frame.
Arguments Frame T : clear implicits.
