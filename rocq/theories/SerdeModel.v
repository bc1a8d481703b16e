(** * Model of the serde implementations (feature "serde")

    A document is a value tree of a self-describing format: numbers, null, arrays and objects,
    objects being lists of key/value pairs in document order (a key may repeat).  The format itself
    (text of a JSON file, ...) is not modelled, nor the case where an error in the middle of a
    streamed value leaves the reader in the middle of the text.  [VNum] is a number that the
    format keeps apart from the unsigned integers [VInt]; as in serde, reading a float accepts both.

    [None] is written as null and [Some x] as x (serde's data model for self-describing formats);
    a newtype struct (KnotVector) is written as its content; a point is written as the array of its
    coordinates and read back only if the array has as many entries as the dimension (nalgebra). *)
From Coq Require Import String.
From Verif Require Import Base Scalar CurveModel SurfaceModel ClipModel.
Local Open Scope string_scope.

Inductive Val (T : Type) : Type :=
| VNull
| VInt (n : nat)
| VNum (x : T)
| VArr (l : list (Val T))
| VObj (kv : list (string * Val T)).
Arguments VNull {T}. Arguments VInt {T}. Arguments VNum {T}. Arguments VArr {T}. Arguments VObj {T}.

(** surface/trimmed_surface.rs:16-22 *)
Record Trimmed (T : Type) := MkTrimmed {
  tr_surface : Surf T; tr_exterior : option (Curve T); tr_interiors : list (Curve T) }.
Arguments MkTrimmed {T}. Arguments tr_surface {T}. Arguments tr_exterior {T}. Arguments tr_interiors {T}.

Section Serde.
  Context {T : Type} {SO : Scalar T}.
  Local Notation V := (Val T).

  (** ** Writing *)
  Definition enc_seq {A} (enc : A -> V) (l : list A) : V := VArr (map enc l).
  Definition enc_knots (k : list T) : V := enc_seq VNum k.
  Definition enc_point (p : list T) : V := enc_seq VNum p.
  (** nurbs_curve.rs:2199-2216 *)
  Definition enc_curve (c : Curve T) : V :=
    VObj [("control_points", enc_seq enc_point (cpts c)); ("degree", VInt (cdeg c)); ("knots", enc_knots (cknots c))].
  (** nurbs_surface.rs:1503-1523 *)
  Definition enc_surface (s : Surf T) : V :=
    VObj [("control_points", enc_seq (enc_seq enc_point) (snet s)); ("u_degree", VInt (sdu s)); ("v_degree", VInt (sdv s));
          ("u_knots", enc_knots (suk s)); ("v_knots", enc_knots (svk s))].
  (** compound_curve.rs:277-293 *)
  Definition enc_compound (spans : list (Curve T)) : V := VObj [("spans", enc_seq enc_curve spans)].
  (** region/mod.rs:13 (derived) *)
  Definition enc_region (r : Region (list (Curve T))) : V :=
    VObj [("exterior", enc_compound (rexterior r)); ("interiors", enc_seq enc_compound (rinteriors r))].
  Definition enc_option {A} (enc : A -> V) (o : option A) : V := match o with None => VNull | Some x => enc x end.
  (** trimmed_surface.rs:201-217 *)
  Definition enc_trimmed (t : Trimmed T) : V :=
    VObj [("surface", enc_surface (tr_surface t)); ("exterior", enc_option enc_curve (tr_exterior t));
          ("interiors", enc_seq enc_curve (tr_interiors t))].

  (** ** Reading *)
  Definition dec_num (v : V) : Res T :=
    match v with VNum x => Ok x | VInt n => Ok (sofnat n) | _ => Err "invalid type" end.
  Definition dec_nat (v : V) : Res nat := match v with VInt n => Ok n | _ => Err "invalid type" end.
  Definition dec_seq {A} (dec : V -> Res A) (v : V) : Res (list A) :=
    match v with VArr l => mapM dec l | _ => Err "invalid type" end.
  Definition dec_knots : V -> Res (list T) := dec_seq dec_num.
  (** nalgebra's array storage: exactly [D] entries *)
  Definition dec_point (D : nat) (v : V) : Res (list T) :=
    p <- dec_seq dec_num v ;; _ <- ensure (length p =? D)%nat "invalid length" ;; Ok p.

  (** [if x.is_some() return duplicate_field; x = Some(next_value()?)] *)
  Definition slot {A} (dec : V -> Res A) (o : option A) (v : V) : Res (option A) :=
    match o with Some _ => Err "duplicate field" | None => x <- dec v ;; Ok (Some x) end.

  (** nurbs_curve.rs:2291-2319: the key loop *)
  Definition curve_key (D : nat) (st : option (list (list T)) * option nat * option (list T)) (kv : string * V) :
      Res (option (list (list T)) * option nat * option (list T)) :=
    let '(pts, deg, kn) := st in
    let '(k, v) := kv in
    if k =? "control_points" then p <- slot (dec_seq (dec_point D)) pts v ;; Ok (p, deg, kn)
    else if k =? "degree" then d <- slot dec_nat deg v ;; Ok (pts, d, kn)
    else if k =? "knots" then n <- slot dec_knots kn v ;; Ok (pts, deg, n)
    else Err "unknown field".

  (** nurbs_curve.rs:2219-2336 *)
  Definition dec_curve (D : nat) (v : V) : Res (Curve T) :=
    match v with
    | VObj kv =>
        '(pts, deg, kn) <- foldM (curve_key D) kv (None, None, None) ;;
        pts <- ok_or pts "missing field `control_points`" ;;
        deg <- ok_or deg "missing field `degree`" ;;
        kn <- ok_or kn "missing field `knots`" ;;
        Ok (MkCurve D deg pts kn)
    | _ => Err "invalid type"
    end.

  Definition SurfSlots : Type :=
    (option (list (list (list T))) * option nat * option nat * option (list T) * option (list T))%type.
  (** nurbs_surface.rs:1607-1643 *)
  Definition surface_key (D : nat) (st : SurfSlots) (kv : string * V) : Res SurfSlots :=
    let '(net, du, dv, ku, kw) := st in
    let '(k, v) := kv in
    if k =? "control_points" then x <- slot (dec_seq (dec_seq (dec_point D))) net v ;; Ok (x, du, dv, ku, kw)
    else if k =? "u_degree" then x <- slot dec_nat du v ;; Ok (net, x, dv, ku, kw)
    else if k =? "v_degree" then x <- slot dec_nat dv v ;; Ok (net, du, x, ku, kw)
    else if k =? "u_knots" then x <- slot dec_knots ku v ;; Ok (net, du, dv, x, kw)
    else if k =? "v_knots" then x <- slot dec_knots kw v ;; Ok (net, du, dv, ku, x)
    else Err "unknown field".

  (** nurbs_surface.rs:1525-1670 *)
  Definition dec_surface (D : nat) (v : V) : Res (Surf T) :=
    match v with
    | VObj kv =>
        '(net, du, dv, ku, kw) <- foldM (surface_key D) kv (None, None, None, None, None) ;;
        net <- ok_or net "missing field `control_points`" ;;
        du <- ok_or du "missing field `u_degree`" ;;
        dv <- ok_or dv "missing field `v_degree`" ;;
        ku <- ok_or ku "missing field `u_knots`" ;;
        kw <- ok_or kw "missing field `v_knots`" ;;
        Ok (MkSurf D du dv ku kw net)
    | _ => Err "invalid type"
    end.

  (** compound_curve.rs:295-388 *)
  Definition compound_key (D : nat) (st : option (list (Curve T))) (kv : string * V) : Res (option (list (Curve T))) :=
    let '(k, v) := kv in
    if k =? "spans" then slot (dec_seq (dec_curve D)) st v else Err "unknown field".
  Definition dec_compound (D : nat) (v : V) : Res (list (Curve T)) :=
    match v with
    | VObj kv => s <- foldM (compound_key D) kv None ;; ok_or s "missing field `spans`"
    | _ => Err "invalid type"
    end.

  (** region/mod.rs:13: the derived reader ignores unknown fields and also takes an array *)
  Definition region_key (st : option (list (Curve T)) * option (list (list (Curve T)))) (kv : string * V) :
      Res (option (list (Curve T)) * option (list (list (Curve T)))) :=
    let '(e, i) := st in
    let '(k, v) := kv in
    if k =? "exterior" then x <- slot (dec_compound 3) e v ;; Ok (x, i)
    else if k =? "interiors" then x <- slot (dec_seq (dec_compound 3)) i v ;; Ok (e, x)
    else Ok st.
  Definition dec_region (v : V) : Res (Region (list (Curve T))) :=
    match v with
    | VObj kv =>
        '(e, i) <- foldM region_key kv (None, None) ;;
        e <- ok_or e "missing field `exterior`" ;;
        i <- ok_or i "missing field `interiors`" ;;
        Ok (MkRegion e i)
    | VArr [e; i] => e <- dec_compound 3 e ;; i <- dec_seq (dec_compound 3) i ;; Ok (MkRegion e i)
    | VArr _ => Err "invalid length"
    | _ => Err "invalid type"
    end.

  (** trimmed_surface.rs:288-318; the exterior's reader is [next_value().ok()] *)
  Definition trimmed_key (st : option (Surf T) * option (Curve T) * option (list (Curve T))) (kv : string * V) :
      Res (option (Surf T) * option (Curve T) * option (list (Curve T))) :=
    let '(s, e, i) := st in
    let '(k, v) := kv in
    if k =? "surface" then x <- slot (dec_surface 4) s v ;; Ok (x, e, i)
    else if k =? "exterior" then
      match e with
      | Some _ => Err "duplicate field"
      | None => match dec_curve 3 v with Ok c => Ok (s, Some c, i) | Err _ => Ok (s, None, i) | Panic m => Panic m | OutOfFuel => OutOfFuel end
      end
    else if k =? "interiors" then x <- slot (dec_seq (dec_curve 3)) i v ;; Ok (s, e, x)
    else Err "unknown field".
  (** trimmed_surface.rs:219-327 *)
  Definition dec_trimmed (v : V) : Res (Trimmed T) :=
    match v with
    | VObj kv =>
        '(s, e, i) <- foldM trimmed_key kv (None, None, None) ;;
        s <- ok_or s "missing field `surface`" ;;
        i <- ok_or i "missing field `interiors`" ;;
        Ok (MkTrimmed s e i)
    | _ => Err "invalid type"
    end.
End Serde.
