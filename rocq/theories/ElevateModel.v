(** * Model of [NurbsCurve::try_elevate_degree] (src/curve/nurbs_curve.rs:1100-1282)

    [usize] subtractions that underflow are panics (debug build); [isize] values are [Z]; the
    floating-point floors of lines 1120, 1168-1187 act on small integers and are integer
    divisions here. *)
From Coq Require Import ZArith.
From Verif Require Import Base Scalar KnotModel MiscModel CurveModel.

(** mutable state of the main loop (nurbs_curve.rs:1112-1155) *)
Record ElSt (T : Type) := MkEl {
  e_bpts : list (list T);   (* bpts *)
  e_ebpts : list (list T);  (* e_bpts *)
  e_next : list (list T);   (* next_bpts *)
  e_qw : list (list T);     (* q_w *)
  e_uh : list T;            (* u_h *)
  e_kind : nat; e_r : Z; e_a : nat; e_b : nat; e_cind : nat; e_ua : T
}.
Arguments MkEl {T}. Arguments e_bpts {T}. Arguments e_ebpts {T}. Arguments e_next {T}.
Arguments e_qw {T}. Arguments e_uh {T}. Arguments e_kind {T}. Arguments e_r {T}.
Arguments e_a {T}. Arguments e_b {T}. Arguments e_cind {T}. Arguments e_ua {T}.

Section Elevate.
  Context {T : Type} {SO : Scalar T}.
  Open Scope scalar_scope.

  (** [x as usize] used as an index: a negative value is an enormous index, so every use panics *)
  Definition as_usize (z : Z) : Res nat :=
    if (z <? 0)%Z then Panic "index out of bounds" else Ok (Z.to_nat z).

  Definition get2e (l : list (list T)) (i j : nat) : Res T := r <- get l i ;; get r j.
  Definition set2e (l : list (list T)) (i j : nat) (v : T) : Res (list (list T)) :=
    r <- get l i ;; r <- set_ r j v ;; set_ l i r.

  (** nurbs_curve.rs:1133-1139, one row of the first table loop *)
  Definition bez_row1 (degree inc ph i : nat) (st : list (list T) * @memo T)
    : Res (list (list T) * @memo T) :=
    let '(bz, m) := st in
    let '(bi, m) := bin_get ph i m in
    let inv := sone / bi in
    lo <- usub i inc ;;
    for_incl lo (Nat.min degree i) (fun j '(bz, m) =>
      let '(b1, m) := bin_get degree j m in
      ij <- usub i j ;;
      let '(b2, m) := bin_get inc ij m in
      bz <- set2e bz i j (inv * b1 * b2) ;;
      Ok (bz, m)) (bz, m).

  (** nurbs_curve.rs:1141-1146, one row of the second table loop *)
  Definition bez_row2 (degree inc ph i : nat) (bz : list (list T)) : Res (list (list T)) :=
    lo <- usub i inc ;;
    for_incl lo (Nat.min degree i) (fun j bz =>
      pi <- usub ph i ;;
      dj <- usub degree j ;;
      v <- get2e bz pi dj ;;
      set2e bz i j v) bz.

  (** nurbs_curve.rs:1112-1146: the table [bezalfs] *)
  Definition bezalfs (degree inc : nat) : Res (list (list T)) :=
    let ph := (degree + inc)%nat in
    let bz := repeat (repeat szero (degree + 1)) (degree + inc + 1) in
    bz <- set2e bz 0 0 sone ;;
    bz <- set2e bz ph degree sone ;;
    '(bz, _) <- for_incl 1 (ph / 2) (bez_row1 degree inc ph) (bz, []) ;;
    for_range (ph / 2 + 1) ph (bez_row2 degree inc ph) bz.

  (** nurbs_curve.rs:1162-1165 *)
  Definition run_end (knots : list T) (m b : nat) : Res nat :=
    while_ (S m) (fun b => if (b <? m)%nat then x <- get knots b ;; y <- get knots (b + 1) ;; Ok (x =? y)
                           else Ok false)
           (fun b => Ok (b + 1)%nat) b.

  (** nurbs_curve.rs:1189-1205: insert the knot [ub] [r] times (only when [r > 0]) *)
  Definition el_insert (degree : nat) (knots : list T) (a mul : nat) (ua ub : T) (r : nat)
             (bpts next : list (list T)) : Res (list (list T) * list (list T)) :=
    let numer := ub - ua in
    alfs <- for_rev (degree - mul) (mul + 1) (fun k alfs =>
      i <- usub (k - mul) 1 ;;
      u <- get knots (a + k) ;;
      set_ alfs i (numer / (u - ua))) (repeat szero degree) ;;
    for_incl 1 r (fun j '(bpts, next) =>
      let save := (r - j)%nat in
      let s := (mul + j)%nat in
      bpts <- for_rev (S degree - s) s (fun k bpts =>
        p <- get bpts k ;;
        k1 <- usub k 1 ;;
        q <- get bpts k1 ;;
        al <- get alfs (k - s) ;;
        set_ bpts k (vlerp p q (sone - al))) bpts ;;
      p <- get bpts degree ;;
      next <- set_ next save p ;;
      Ok (bpts, next)) (bpts, next).

  (** nurbs_curve.rs:1207-1213: degree-elevate the Bezier segment *)
  Definition el_bezier (D degree inc ph lbz : nat) (bz : list (list T)) (bpts ebpts : list (list T))
    : Res (list (list T)) :=
    for_incl lbz ph (fun i eb =>
      eb <- set_ eb i (vzero D) ;;
      lo <- usub i inc ;;
      for_incl lo (Nat.min degree i) (fun j eb =>
        e <- get eb i ;;
        p <- get bpts j ;;
        al <- get2e bz i j ;;
        set_ eb i (vadd e (vscale p al))) eb) ebpts.

  (** nurbs_curve.rs:1215-1247: remove the knot [ua] [oldr] times (only when [oldr > 1]) *)
  Definition el_remove (ph lbz kind cind : nat) (oldr : Z) (ua ub : T) (uh : list T)
             (qw ebpts : list (list T)) : Res (list (list T) * list (list T)) :=
    first <- usub kind 2 ;;
    let last := kind in
    let den := ub - ua in
    k1 <- usub kind 1 ;;
    uk <- get uh k1 ;;
    let bet := (ub - uk) / den in
    '(_, _, qw, eb) <- for_range 1 (Z.to_nat oldr) (fun tr '(first, last, qw, eb) =>
      jk <- usub last kind ;;
      '(_, _, _, qw, eb) <- while_ (S (S last))
        (fun '(i, j, _, _, _) => Ok (Z.of_nat tr <? Z.of_nat j - Z.of_nat i)%Z)
        (fun '(i, j, kj, qw, eb) =>
          qw <- (if (i <? cind)%nat then
                   ui <- get uh i ;;
                   let alf := (ub - ui) / (ua - ui) in
                   p <- get qw i ;;
                   i1 <- usub i 1 ;;
                   q <- get qw i1 ;;
                   set_ qw i (vlerp p q (sone - alf))
                 else Ok qw) ;;
          eb <- (if (lbz <=? j)%nat then
                   if (Z.of_nat j - Z.of_nat tr <=? Z.of_nat kind - Z.of_nat ph + oldr)%Z then
                     jt <- usub j tr ;;
                     uj <- get uh jt ;;
                     let gam := (ub - uj) / den in
                     p <- get eb kj ;;
                     q <- get eb (kj + 1) ;;
                     set_ eb kj (vlerp p q (sone - gam))
                   else Ok eb
                 else
                   p <- get eb kj ;;
                   q <- get eb (kj + 1) ;;
                   set_ eb kj (vlerp p q (sone - bet))) ;;
          j' <- usub j 1 ;;
          kj' <- usub kj 1 ;;
          Ok ((i + 1)%nat, j', kj', qw, eb))
        (first, last, (jk + 1)%nat, qw, eb) ;;
      first <- usub first 1 ;;
      Ok (first, (last + 1)%nat, qw, eb)) (first, last, qw, ebpts) ;;
    Ok (qw, eb).

  (** nurbs_curve.rs:1160-1275: one iteration of [while b < m] *)
  Definition el_step (c : Curve T) (inc ph m : nat) (bz : list (list T)) (st : ElSt T)
    : Res (ElSt T) :=
    let degree := cdeg c in
    let knots := cknots c in
    let i := e_b st in
    b <- run_end knots m i ;;
    let mul := (b - i + 1)%nat in
    ub <- get knots b ;;
    let oldr := e_r st in
    let r := (Z.of_nat degree - Z.of_nat mul)%Z in
    let lbz := if (0 <? oldr)%Z then Z.to_nat ((oldr + 2) / 2) else 1%nat in
    let rbz := if (0 <? r)%Z then Z.to_nat ((2 * Z.of_nat ph - (r + 1)) / 2) else ph in
    '(bpts, next) <- (if (0 <? r)%Z
                      then el_insert degree knots (e_a st) mul (e_ua st) ub (Z.to_nat r) (e_bpts st) (e_next st)
                      else Ok (e_bpts st, e_next st)) ;;
    eb <- el_bezier (cdim c) degree inc ph lbz bz bpts (e_ebpts st) ;;
    '(qw, eb) <- (if (1 <? oldr)%Z
                  then el_remove ph lbz (e_kind st) (e_cind st) oldr (e_ua st) ub (e_uh st) (e_qw st) eb
                  else Ok (e_qw st, eb)) ;;
    '(uh, kind) <- (if (e_a st =? degree)%nat then Ok (e_uh st, e_kind st)
                    else for_range 0 (Z.to_nat (Z.of_nat ph - oldr)) (fun _ '(uh, kind) =>
                           uh <- set_ uh kind (e_ua st) ;; Ok (uh, (kind + 1)%nat)) (e_uh st, e_kind st)) ;;
    '(qw, cind) <- for_incl lbz rbz (fun j '(qw, cind) =>
        p <- get eb j ;;
        qw <- set_ qw cind p ;;
        Ok (qw, (cind + 1)%nat)) (qw, e_cind st) ;;
    if (b <? m)%nat then
      ur <- as_usize r ;;
      _ <- slice bpts 0 ur ;;
      head <- slice next 0 ur ;;
      let bpts := head ++ skipn ur bpts in
      bpts <- for_incl ur degree (fun j bpts =>
        bd <- usub b degree ;;
        p <- get (cpts c) (bd + j) ;;
        set_ bpts j p) bpts ;;
      Ok (MkEl bpts eb next qw uh kind r b (b + 1) cind ub)
    else
      uh <- for_incl 0 ph (fun i uh => set_ uh (kind + i) ub) uh ;;
      Ok (MkEl bpts eb next qw uh kind r (e_a st) b cind (e_ua st)).

  (** nurbs_curve.rs:1100-1282 [try_elevate_degree] *)
  Definition try_elevate_degree (c : Curve T) (target : nat) : Res (Curve T) :=
    let degree := cdeg c in
    if (target <=? degree)%nat then Ok c else
    n0 <- usub (length (cknots c)) degree ;;
    n <- usub n0 2 ;;
    let inc := (target - degree)%nat in
    let cnt := (length (cpts c) + inc + 3)%nat in
    let m := (n + degree + 1)%nat in
    let ph := target in
    bz <- bezalfs degree inc ;;
    ua <- get (cknots c) 0 ;;
    p0 <- get (cpts c) 0 ;;
    let zs := repeat (vzero (cdim c)) cnt in
    qw <- set_ zs 0 p0 ;;
    uh <- for_incl 0 ph (fun i uh => set_ uh i ua) (repeat szero (cnt + target + 1)) ;;
    head <- slice (cpts c) 0 (degree + 1) ;;
    _ <- slice zs 0 (degree + 1) ;;
    let bpts := head ++ skipn (degree + 1) zs in
    st <- while_ (S m) (fun st => Ok (e_b st <? m)%nat) (el_step c inc ph m bz)
            (MkEl bpts zs zs qw uh (ph + 1) (-1) degree (degree + 1) 1 ua) ;;
    Ok (MkCurve (cdim c) target (e_qw st) (e_uh st)).
End Elevate.
