(** * Model of src/tessellation/tessellation_curve.rs and tessellation_compound_curve.rs

    [rng k] is the k-th number drawn from the random generator; the position in the stream is threaded. *)
From Coq Require Import ZArith String.
From Verif Require Import Base Scalar KnotModel MiscModel CurveModel CurveKnotModel CompoundModel.

Section Tess.
  Context {T : Type} {SO : Scalar T}.
  Open Scope scalar_scope.
  Variable rng : nat -> T.

  (** tessellation_curve.rs:47: the smallest interval that is divided *)
  Definition tess_min : T := sone / sofz 100000000.

  (** trigonometry.rs:3-21 as called: nalgebra's [cross] panics outside three dimensions *)
  Definition flat_check (D : nat) (p1 p2 p3 : list T) (tol : T) : Res bool :=
    if ((D =? 2) || (D =? 3))%nat%bool then Ok (three_points_are_flat D p1 p2 p3 tol) else Panic "Vector cross product dimensions must match".

  (** tessellation_curve.rs:52-61: the condition to divide *)
  Definition should_split (D : nat) (p1 p2 p3 : list T) (tol : T) : Res bool :=
    let diff := vsub p1 p3 in
    let diff2 := vsub p1 p2 in
    if (vdot diff diff <? tol) && (tol <? vdot diff2 diff2) then Ok true
    else f <- flat_check D p1 p2 p3 tol ;; Ok (negb f).

  (** tessellation_curve.rs:37-74 [tessellate_adaptive] *)
  Fixpoint tessellate_adaptive (fuel : nat) (c : Curve T) (start end_ tol : T) (k : nat) : Res (list (list T) * nat) :=
    match fuel with
    | O => OutOfFuel
    | S fuel =>
        p1 <- point_at c start ;;
        let delta := end_ - start in
        if delta <? tess_min then Ok ([p1], k)
        else
          p3 <- point_at c end_ ;;
          let t := sone / sofz 2 + sone / sofz 5 * rng k in
          let mid := start + delta * t in
          p2 <- point_at c mid ;;
          b <- should_split (cdim c - 1) p1 p2 p3 tol ;;
          if (b : bool) then
            let exact_mid := start + (end_ - start) * (sone / sofz 2) in
            '(lpts, k) <- tessellate_adaptive fuel c start exact_mid tol (S k) ;;
            '(rpts, k) <- tessellate_adaptive fuel c exact_mid end_ tol k ;;
            Ok (removelast lpts ++ rpts, k)
          else Ok ([p1; p3], S k)
    end.

  (** tessellation_curve.rs:23-33 [tessellate] *)
  Definition tessellate (fuel : nat) (c : Curve T) (tolerance : option T) (k : nat) : Res (list (list T) * nat) :=
    if (cdeg c =? 1)%nat then pts <- dehomogenized_control_points c ;; Ok (pts, k)
    else
      let tol := match tolerance with Some t => t | None => sone / sofz 1000 end in
      '(start, end_) <- knots_domain c ;;
      tessellate_adaptive fuel c start end_ tol k.

  (** tessellation_compound_curve.rs:19-47: all the spans in order *)
  Fixpoint tessellate_spans (fuel : nat) (cs : list (Curve T)) (tolerance : option T) (k : nat) : Res (list (list (list T)) * nat) :=
    match cs with
    | [] => Ok ([], k)
    | c :: cs =>
        '(pts, k) <- tessellate fuel c tolerance k ;;
        '(rest, k) <- tessellate_spans fuel cs tolerance k ;;
        Ok (pts :: rest, k)
    end.

  (** tessellation_compound_curve.rs:19-47 *)
  Fixpoint join_open {A : Type} (tess : list (list A)) : list A :=
    match tess with
    | [] => []
    | [t] => t
    | t :: rest => removelast t ++ join_open rest
    end.
  Definition join_closed {A : Type} (tess : list (list A)) : list A :=
    let pts := flat_map (@removelast A) tess in
    match pts with [] => [] | p :: _ => pts ++ [p] end.
  Definition tessellate_compound (fuel : nat) (cs : list (Curve T)) (tolerance : option T) (k : nat)
    : Res (list (list T) * nat) :=
    closed <- compound_is_closed cs ;;
    '(tess, k) <- tessellate_spans fuel cs tolerance k ;;
    Ok (if (closed : bool) then join_closed tess else join_open tess, k).
End Tess.
