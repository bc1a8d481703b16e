(** * Surfaces of revolution and spheres *)
From Coq Require Import String ZArith.
From Verif Require Import Base Scalar KnotModel CurveModel MiscModel SurfaceModel ArcModel.
Local Open Scope scalar_scope.

Section Revolve.
  Context {T : Type} {SO : Scalar T} {TO : Trig T}.

  (** [T::pi()], nurbs_surface.rs:1161-1169 *)
  Definition spi : T := stau / stwo.

  (** nurbs_surface.rs:1161-1191: number of arcs and the knot vector before its ends are filled *)
  Definition revolve_arcs (theta : T) : Res (nat * list T) :=
    if theta <=? spi / stwo then Ok (1%nat, repeat szero 6)
    else if theta <=? spi then
      let half := slit 1 2 in
      k <- set_ (repeat szero 8) 3 half ;; k <- set_ k 4 half ;; Ok (2%nat, k)
    else if theta <=? sofz 3 * spi / stwo then
      let a := slit 1 3 in let b := slit 2 3 in
      k <- set_ (repeat szero 10) 3 a ;; k <- set_ k 4 a ;; k <- set_ k 5 b ;; k <- set_ k 6 b ;; Ok (3%nat, k)
    else
      let a := slit 1 4 in let b := slit 1 2 in let c := slit 3 4 in
      k <- set_ (repeat szero 12) 3 a ;; k <- set_ k 4 a ;; k <- set_ k 5 b ;; k <- set_ k 6 b ;;
      k <- set_ k 7 c ;; k <- set_ k 8 c ;; Ok (4%nat, k).

  (** nurbs_surface.rs:1194-1199: the ends of the knot vector *)
  Definition revolve_ends (narcs : nat) (knots : list T) : Res (list T) :=
    let j := (3 + 2 * (narcs - 1))%nat in
    for_range 0 3 (fun i k => k <- set_ k i szero ;; set_ k (j + i) sone) knots.

  (** nurbs_surface.rs:1203-1210: cosines and sines of the multiples of [dtheta] *)
  Definition revolve_trig (narcs : nat) (dtheta : T) : Res (list T * list T) :=
    '(_, cs, ss) <- for_incl 0 narcs (fun i '(angle, cs, ss) =>
        cs <- set_ cs i (scos angle) ;;
        ss <- set_ ss i (ssin angle) ;;
        Ok (angle + dtheta, cs, ss))
      (szero, repeat szero (narcs + 1), repeat szero (narcs + 1)) ;;
    Ok (cs, ss).

  Record RevState := MkRevState {
    rv_p0 : list T; rv_t0 : list T; rv_index : nat; rv_col : list (list T * T) }.

  (** nurbs_surface.rs:1240-1282: one arc of the circle described by one control point; the column
      collects points together with their weights *)
  Definition revolve_step (o x y : list T) (r w wm : T) (cosines sines : list T) (narcs i : nat) (st : RevState)
    : Res RevState :=
    ci <- get cosines i ;;
    si <- get sines i ;;
    let index := rv_index st in
    let p2 := if r <=? seps then o
              else vadd (vadd o (vscale (vscale x ci) r)) (vscale (vscale y si) r) in
    col <- set_ (rv_col st) (index + 2) (p2, w) ;;
    let t2 := vsub (vscale y ci) (vscale x si) in
    p1 <- (if r <=? seps then Ok o
           else '(i0, _) <- ok_or (ray_intersection (MkRay (rv_p0 st) (vnormalize (rv_t0 st)))
                                                    (MkRay p2 (vnormalize t2)))
                                  "No intersection between rays" ;;
                Ok (fst i0)) ;;
    col <- set_ col (index + 1) (p1, wm * w) ;;
    if (i <? narcs)%nat then Ok (MkRevState p2 t2 (index + 2) col)
    else Ok (MkRevState (rv_p0 st) (rv_t0 st) (index + 2) col).

  (** nurbs_surface.rs:1214-1283: the column of the net above the control point [p] of weight [w] *)
  Definition revolve_column (center axis : list T) (wm : T) (cosines sines : list T) (narcs : nat) (p : list T) (w : T)
    : Res (list (list T * T)) :=
    let s := vdot (vsub p center) axis in
    let o := vadd center (vscale axis s) in
    let x := vsub p o in
    let r := vnorm x in
    let y := cross3 axis x in
    let '(x, y) := if seps <? r then (vscale x (sone / r), vscale y (sone / r)) else (x, y) in
    col <- set_ (repeat ([szero; szero; szero], sone) (2 * narcs + 1)) 0 (p, w) ;;
    st <- for_incl 1 narcs (revolve_step o x y r w wm cosines sines narcs) (MkRevState p y 0 col) ;;
    Ok (rv_col st).

  (** nurbs_surface.rs:1286-1293: multiply by the weight *)
  Definition weighted (e : list T * T) : list T := let '(p, w) := e in vscale p w ++ [w].

  (** nurbs_surface.rs:1151-1302 [try_revolve]; the code fills the net column by column, the
      columns are transposed here at the end *)
  Definition try_revolve (profile : Curve T) (center axis : list T) (theta : T) : Res (Surf T) :=
    pts <- dehomogenized_control_points profile ;;
    let ws := weights profile in
    '(narcs, knots) <- revolve_arcs theta ;;
    let dtheta := theta / sofnat narcs in
    knots <- revolve_ends narcs knots ;;
    let wm := scos (dtheta / stwo) in
    '(cosines, sines) <- revolve_trig narcs dtheta ;;
    cols <- mapM (fun '(p, w) => revolve_column center axis wm cosines sines narcs p w) (combine pts ws) ;;
    let net := map (fun a => map (fun col => weighted (nth a col ([], szero))) cols) (seq 0 (2 * narcs + 1)) in
    Ok (MkSurf 4 2 (cdeg profile) knots (cknots profile) net).

  (** nurbs_surface.rs:1305-1313 [try_sphere] *)
  Definition try_sphere (center axis x_axis : list T) (radius : T) : Res (Surf T) :=
    arc <- try_arc 4 center (map sopp axis) x_axis radius szero spi ;;
    try_revolve arc center axis stau.
End Revolve.
