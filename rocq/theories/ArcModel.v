(** * Circles, ellipses and arcs *)
From Coq Require Import String ZArith.
From Verif Require Import Base Scalar KnotModel CurveModel MiscModel.
Local Open Scope scalar_scope.

(** trigonometry of the scalar type; [sfloor] is [floor().to_usize()] *)
Class Trig (T : Type) := {
  scos : T -> T;
  ssin : T -> T;
  shalf_pi : T;
  stau : T;
  sfloor : T -> option nat
}.

Section Arc.
  Context {T : Type} {SO : Scalar T} {TO : Trig T}.

  (** nurbs_curve.rs:951-953, 968: a point of the ellipse *)
  Definition ellipse_at (center x y : list T) (rx ry angle : T) : list T :=
    vadd (vadd center (vscale (vscale x rx) (scos angle))) (vscale (vscale y ry) (ssin angle)).
  (** nurbs_curve.rs:954, 970: the direction used as tangent *)
  Definition ellipse_dir (x y : list T) (angle : T) : list T :=
    vsub (vscale y (scos angle)) (vscale x (ssin angle)).

  (** nurbs_curve.rs:948-949: number of pieces *)
  Definition arc_count (theta : T) : nat :=
    let a := match sfloor (theta / shalf_pi) with Some a => a | None => 1%nat end in
    Nat.min (Nat.max a 1) 4.

  Record ArcState := MkArcState {
    as_p0 : list T; as_t0 : list T; as_angle : T; as_index : nat;
    as_pts : list (list T); as_ws : list T }.

  (** nurbs_curve.rs:965-992: one piece *)
  Definition arc_step (center x y : list T) (rx ry dtheta w1 : T) (arcs i : nat) (st : ArcState) : Res ArcState :=
    let angle := as_angle st + dtheta in
    let p2 := ellipse_at center x y rx ry angle in
    let t2 := ellipse_dir x y angle in
    '(i0, _) <- ok_or (ray_intersection (MkRay (as_p0 st) (vnormalize (as_t0 st))) (MkRay p2 (vnormalize t2))) "No intersection" ;;
    let p1 := vadd (as_p0 st) (vscale (as_t0 st) (snd i0)) in
    let index := as_index st in
    pts <- set_ (as_pts st) (index + 2) p2 ;;
    ws <- set_ (as_ws st) (index + 2) sone ;;
    pts <- set_ pts (index + 1) p1 ;;
    ws <- set_ ws (index + 1) w1 ;;
    if (i <? arcs)%nat then Ok (MkArcState p2 t2 angle (index + 2) pts ws)
    else Ok (MkArcState (as_p0 st) (as_t0 st) angle (index + 2) pts ws).

  (** nurbs_curve.rs:994-1026: the normalised knots *)
  Definition arc_knots (n arcs : nat) : Res (list T) :=
    let knots := repeat szero (n + 2 + 1) in
    knots <- for_range 0 3 (fun i k => set_ k (n + i) sone) knots ;;
    match arcs with
    | 2%nat => let v := slit 1 2 in
        k <- set_ knots 3 v ;; set_ k 4 v
    | 3%nat => let v1 := slit 1 3 in let v2 := slit 2 3 in
        k <- set_ knots 3 v1 ;; k <- set_ k 4 v1 ;; k <- set_ k 5 v2 ;; set_ k 6 v2
    | 4%nat => let v1 := slit 1 4 in let v2 := slit 2 4 in let v3 := slit 3 4 in
        k <- set_ knots 3 v1 ;; k <- set_ k 4 v1 ;; k <- set_ k 5 v2 ;; k <- set_ k 6 v2 ;;
        k <- set_ k 7 v3 ;; set_ k 8 v3
    | _ => Ok knots
    end.

  (** nurbs_curve.rs:926-1051 [try_ellipse_arc]; [D] counts the weight *)
  Definition try_ellipse_arc (D : nat) (center x_axis y_axis : list T) (start_angle end_angle : T) : Res (Curve T) :=
    let rx := vnorm x_axis in
    let ry := vnorm y_axis in
    let x := vnormalize x_axis in
    let y := vnormalize y_axis in
    _ <- ensure (start_angle <? end_angle) "`end_angle` must be greater than `start_angle`" ;;
    let theta := end_angle - start_angle in
    let arcs := arc_count theta in
    let dtheta := theta / sofnat arcs in
    let w1 := scos (dtheta / stwo) in
    let p0 := ellipse_at center x y rx ry start_angle in
    let t0 := ellipse_dir x y start_angle in
    let n := (2 * arcs + 1)%nat in
    st <- for_range 1 (arcs + 1) (arc_step center x y rx ry dtheta w1 arcs)
            (MkArcState p0 t0 start_angle 0 (repeat p0 n) (repeat sone n)) ;;
    knots <- arc_knots n arcs ;;
    let knots := map (fun v => theta * v + start_angle) knots in
    Ok (MkCurve D 2 (map2 (fun p w => vscale p w ++ [w]) (as_pts st) (as_ws st)) knots).

  (** nurbs_curve.rs:890-905 [try_arc] *)
  Definition try_arc (D : nat) (center x_axis y_axis : list T) (radius start_angle end_angle : T) : Res (Curve T) :=
    try_ellipse_arc D center (vscale (vnormalize x_axis) radius) (vscale (vnormalize y_axis) radius) start_angle end_angle.

  (** nurbs_curve.rs:819-838 [try_circle] *)
  Definition try_circle (D : nat) (center x_axis y_axis : list T) (radius : T) : Res (Curve T) :=
    try_arc D center x_axis y_axis radius szero stau.

  (** nurbs_curve.rs:858-868 [try_ellipse] *)
  Definition try_ellipse (D : nat) (center x_axis y_axis : list T) : Res (Curve T) :=
    try_ellipse_arc D center x_axis y_axis szero stau.
End Arc.
