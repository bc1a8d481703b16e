(** * Model of src/curve/nurbs_curve.rs: knot insertion, refinement, removal, clamping,
      Bezier decomposition and degree elevation *)
From Coq Require Import ZArith.
From Verif Require Import Base Scalar KnotModel MiscModel CurveModel.

Section CurveKnot.
  Context {T : Type} {SO : Scalar T}.
  Open Scope scalar_scope.

  (** nurbs_curve.rs:1315-1332: one iteration of the loop of [try_add_knot] *)
  Definition add_knot_step (D : nat) (knots : list T) (k idx start end_ i : nat)
             (pts : list (list T)) : Res (list (list T)) :=
    x <- usub (end_ + start) i ;;
    i0 <- usub x 1 ;;
    ka <- get knots (i0 + k + 1) ;;
    kb <- get knots i0 ;;
    let delta := ka - kb in
    let inv := if delta =? szero then szero else sone / delta in
    kx <- get knots idx ;;
    let a := (kx - kb) * inv in
    dp <- (if (i0 =? 0)%nat then get pts i0
           else if (i0 =? length pts)%nat then p <- get pts (i0 - 1)%nat ;; Ok (vopp p)
           else p <- get pts i0 ;; q <- get pts (i0 - 1)%nat ;; Ok (vsub p q)) ;;
    let p := vscale dp (sone - a) in
    p <- set_ p (D - 1)%nat szero ;;
    c <- get pts i0 ;;
    set_ pts i0 (vsub c p).

  (** nurbs_curve.rs:1285-1335 [try_add_knot] *)
  Definition try_add_knot (c : Curve T) (knot : T) : Res (Curve T) :=
    k0 <- get (cknots c) 0 ;;
    _ <- ensure (k0 <=? knot) "Knot is smaller than the first knot" ;;
    li <- usub (length (cknots c)) 1 ;;
    kl <- get (cknots c) li ;;
    _ <- ensure (knot <=? kl) "Knot is larger than the last knot" ;;
    let k := cdeg c in
    let n := length (cpts c) in
    '(knots, idx) <- kadd (cknots c) knot ;;
    let start := (idx - k)%nat in
    '(pts, end_) <- (if (n <? idx)%nat then
                       l <- unwrap (last (map Some (cpts c)) None) ;;
                       Ok (cpts c ++ [l], n + 1)%nat
                     else
                       im <- usub idx 1 ;;
                       p <- get (cpts c) im ;;
                       ps <- insert_at (cpts c) im p ;;
                       Ok (ps, idx)) ;;
    pts <- for_range start end_ (add_knot_step (cdim c) knots k idx start end_) pts ;;
    Ok (MkCurve (cdim c) (cdeg c) pts knots).

  (** nurbs_curve.rs:1615-1620: the [while] loop of [try_refine_knot]; state
      (control_points_post, knots_post, i, k) *)
  Definition refine_shift (old : list T) (pts : list (list T)) (degree a : nat) (x : T)
    : list (list T) * list T * nat * nat -> Res (list (list T) * list T * nat * nat) :=
    while_ (length old + 1)
      (fun '(_, _, i, _) => ki <- get old i ;; Ok ((x <=? ki) && (a <? i)%nat))
      (fun '(cp, kp, i, k) =>
         y <- usub k degree ;; y <- usub y 1 ;;
         z <- usub i degree ;; z <- usub z 1 ;;
         p <- get pts z ;;
         cp <- set_ cp y p ;;
         ki <- get old i ;;
         kp <- set_ kp k ki ;;
         k <- usub k 1 ;;
         i <- usub i 1 ;;
         Ok (cp, kp, i, k)).

  (** nurbs_curve.rs:1622-1642: the inner [for] loop of [try_refine_knot] *)
  Definition refine_blend (old : list T) (degree : nat) (x : T) (kp : list T) (i k l : nat)
             (cp : list (list T)) : Res (list (list T)) :=
    y <- usub k degree ;;
    let ind := (y + l)%nat in
    if (ind <? length cp)%nat then
      kl <- get kp (k + l) ;;
      let alpha := kl - x in
      im <- usub ind 1 ;;
      if sabs alpha <? seps then
        p <- get cp ind ;; set_ cp im p
      else
        z <- usub i degree ;;
        ki <- get old (z + l) ;;
        let denom := kl - ki in
        let weight := if denom =? szero then szero else alpha / denom in
        p <- get cp im ;;
        q <- get cp ind ;;
        set_ cp im (vlerp p q (sone - weight))
    else Ok cp.

  (** nurbs_curve.rs:1614-1645: one iteration for the knot [x = knots_to_insert[j]] *)
  Definition refine_step (old : list T) (pts : list (list T)) (degree a : nat) (xs : list T)
             (j : nat) (st : list (list T) * list T * nat * nat)
    : Res (list (list T) * list T * nat * nat) :=
    x <- get xs j ;;
    '(cp, kp, i, k) <- refine_shift old pts degree a x st ;;
    y <- usub k degree ;;
    y1 <- usub y 1 ;;
    p <- get cp y ;;
    cp <- set_ cp y1 p ;;
    cp <- for_incl 1 degree (refine_blend old degree x kp i k) cp ;;
    kp <- set_ kp k x ;;
    k <- usub k 1 ;;
    Ok (cp, kp, i, k).

  (** nurbs_curve.rs:1579-1655 [try_refine_knot] *)
  Definition try_refine_knot (c : Curve T) (xs : list T) : Res (Curve T) :=
    match xs with
    | [] => Ok c
    | _ =>
      let degree := cdeg c in
      n <- usub (length (cpts c)) 1 ;;
      let m := (n + degree + 1)%nat in
      r <- usub (length xs) 1 ;;
      x0 <- get xs 0 ;;
      a <- find_span (cknots c) n degree x0 ;;
      xr <- get xs r ;;
      b0 <- find_span (cknots c) n degree xr ;;
      let b := (b0 + 1)%nat in
      ad <- usub a degree ;;
      head <- slice (cpts c) 0 (ad + 1) ;;
      let cp := repeat (vzero (cdim c)) (n + r + 2) in
      (* clone_from_slice: the destination slice panics when too long *)
      _ <- slice cp 0 (ad + 1) ;;
      let cp := head ++ skipn (ad + 1) cp in
      cp <- for_incl (b - 1)%nat n (fun i cp =>
              p <- get (cpts c) i ;; set_ cp (i + r + 1) p) cp ;;
      let kp := repeat szero (m + 1 + r + 1) in
      kp <- for_incl 0 a (fun i kp => k <- get (cknots c) i ;; set_ kp i k) kp ;;
      kp <- for_incl (b + degree) m (fun i kp =>
              k <- get (cknots c) i ;; set_ kp (i + r + 1) k) kp ;;
      '(cp, kp, _, _) <- for_rev (r + 1) 0 (refine_step (cknots c) (cpts c) degree a xs)
                          (cp, kp, (b + degree - 1)%nat, (b + degree + r)%nat) ;;
      Ok (MkCurve (cdim c) degree cp kp)
    end.

  (** nurbs_curve.rs:1720-1745 [try_clamp] *)
  Definition knot_count (m : list (T * nat)) (knot : T) : option nat :=
    option_map snd (find (fun e => seqb (fst e) knot) m).

  Definition try_clamp (c : Curve T) : Res (Curve T) :=
    start <- kfirst (cknots c) ;;
    end_ <- klast (cknots c) ;;
    mult <- multiplicity (cknots c) ;;
    sc <- ok_or (knot_count mult start) "Start knot not found" ;;
    ec <- ok_or (knot_count mult end_) "End knot not found" ;;
    c <- for_incl sc (cdeg c) (fun _ c => try_add_knot c start) c ;;
    for_incl ec (cdeg c) (fun _ c => try_add_knot c end_) c.

  (** nurbs_curve.rs:1748-1785 [try_decompose_bezier_segments] *)
  Definition try_decompose_bezier_segments (c : Curve T) : Res (list (Curve T)) :=
    cl <- curve_is_clamped c ;;
    cloned <- (if (cl : bool) then Ok c else try_clamp c) ;;
    mults <- multiplicity (cknots cloned) ;;
    let req := (cdeg cloned + 1)%nat in
    cloned <- foldM (fun cc (m : T * nat) =>
                if (snd m <? req)%nat
                then try_refine_knot cc (repeat (fst m) (req - snd m)%nat)
                else Ok cc) mults cloned ;;
    div <- usub (length (cknots cloned) / req)%nat 1 ;;
    segs <- mapM (fun i =>
              let start := (i * req)%nat in
              ks <- slice (cknots cloned) start (start + req * 2) ;;
              ps <- slice (cpts cloned) start (start + req) ;;
              Ok (MkCurve (cdim c) (cdeg c) ps ks)) (seq 0 div) ;;
    if (length segs <=? 1)%nat then Ok [cloned] else Ok segs.

  (** ** Knot removal: nurbs_curve.rs:1362-1515 *)
  (** nurbs_curve.rs:1418-1450: state (temp, i, j, ii, jj); usize arithmetic underflows panic *)
  Definition remove_inner (knot : T) (ks : list T) (ps : list (list T)) (ord t : nat)
    : list (list T) * nat * nat * nat * nat -> Res (list (list T) * nat * nat * nat * nat) :=
    while_ (length ps + 2)
      (fun '(_, i, j, _, _) => Ok ((i <=? j)%nat && (t <? j - i)%nat))
      (fun '(temp, i, j, ii, jj) =>
         ki <- get ks i ;; kio <- get ks (i + ord + t) ;;
         let alfi := (knot - ki) / (kio - ki) in
         jt <- usub j t ;; kj <- get ks jt ;; kjo <- get ks (j + ord) ;;
         let alfj := (knot - kj) / (kjo - kj) in
         iim <- usub ii 1 ;;
         lft <- get temp iim ;; rgt <- get temp (jj + 1) ;;
         pi <- get ps i ;; pj <- get ps j ;;
         temp <- set_ temp ii (vdivs (vsub pi (vscale lft (sone - alfi))) alfi) ;;
         temp <- set_ temp jj (vdivs (vsub pj (vscale rgt alfj)) (sone - alfj)) ;;
         j <- usub j 1 ;; jj <- usub jj 1 ;;
         Ok (temp, (i + 1)%nat, j, (ii + 1)%nat, jj)).

  (** nurbs_curve.rs:1471-1478: write back *)
  Definition remove_writeback (temp : list (list T)) (off t : nat)
    : list (list T) * nat * nat -> Res (list (list T) * nat * nat) :=
    while_ (length temp + 2)
      (fun '(_, i, j) => Ok ((i <=? j)%nat && (t <? j - i)%nat))
      (fun '(ps, i, j) =>
         a <- usub i off ;; b <- usub j off ;;
         ta <- get temp a ;; ps <- set_ ps i ta ;;
         tb <- get temp b ;; ps <- set_ ps j tb ;;
         j <- usub j 1 ;;
         Ok (ps, (i + 1)%nat, j)).

  (** nurbs_curve.rs:1404-1485: the removal loop; state (ps, temp, first, last, t); [inr] = break *)
  Definition remove_step (knot tol : T) (ks : list T) (ord : nat)
             (st : nat * (list (list T) * list (list T) * nat * nat * nat))
    : Res ((nat * (list (list T) * list (list T) * nat * nat * nat))
           + (list (list T) * nat)) :=
    let '(todo, (ps, temp, first, last, t)) := st in
    match todo with
    | O => Ok (inr (ps, t))
    | S todo' =>
      off <- usub first 1 ;;
      po <- get ps off ;;
      temp <- set_ temp 0 po ;;
      itr <- usub (last + 1) off ;;
      pr <- get ps (last + 1) ;;
      temp <- set_ temp itr pr ;;
      jj0 <- usub itr 1 ;;
      '(temp, i, j, ii, jj) <- remove_inner knot ks ps ord t (temp, first, last, 1%nat, jj0) ;;
      remove <- (if (i <=? j)%nat && (j - i <? t)%nat then
                   iim <- usub ii 1 ;;
                   l <- get temp iim ;; r <- get temp (jj + 1) ;;
                   Ok (vnorm (vsub l r) <=? tol)
                 else
                   ki <- get ks i ;; kio <- get ks (i + ord + t) ;;
                   let alfi := (knot - ki) / (kio - ki) in
                   pwi <- get ps i ;;
                   iim <- usub ii 1 ;;
                   lo <- get temp iim ;;
                   hi <- get temp (ii + t + 1) ;;
                   let ip := vadd (vscale hi alfi) (vscale lo (sone - alfi)) in
                   Ok (vnorm (vsub pwi ip) <=? tol)) ;;
      if negb remove then Ok (inr (ps, t)) else
      '(ps, _, _) <- remove_writeback temp off t (ps, first, last) ;;
      first <- usub first 1 ;;
      Ok (inl (todo', (ps, temp, first, (last + 1)%nat, (t + 1)%nat)))
    end.

  (** nurbs_curve.rs:1489-1511: shift and truncate *)
  Definition remove_shift (ks : list T) (ps : list (list T)) (n m r s p t : nat)
    : Res (list T * list (list T)) :=
    ks <- for_incl (r + 1) m (fun k ks =>
            kt <- usub k t ;; x <- get ks k ;; set_ ks kt x) ks ;;
    lk <- usub (m + 1) t ;;
    let ks := firstn lk ks in
    x <- usub (2 * r) s ;; x <- usub x p ;;
    let fout := (x / 2)%nat in
    let '(i, j) := fold_left (fun '(i, j) k =>
         if (k mod 2 =? 1)%nat then (i + 1, j)%nat else (i, j - 1)%nat)
         (seq 1 (t - 1)%nat) (fout, fout) in
    '(ps, _) <- for_incl (i + 1) n (fun k '(ps, j) =>
                  x <- get ps k ;; ps <- set_ ps j x ;; Ok (ps, (j + 1)%nat)) (ps, j) ;;
    lp <- usub (n + 1) t ;;
    Ok (ks, firstn lp ps).

  Definition try_remove_knot (c : Curve T) (knot : T) (tolerance : option T)
    : Res (Curve T * nat) :=
    let tol := match tolerance with Some t => t | None => slit 1 1000000 end in
    n <- usub (length (cpts c)) 1 ;;
    let m := (n + cdeg c + 1)%nat in
    r <- ok_or (position (fun k => k =? knot) (cknots c)) "Knot not found" ;;
    mults <- multiplicity (cknots c) ;;
    s <- ok_or (knot_count mults knot) "Knot not found" ;;
    let p := cdeg c in
    let ord := (p + 1)%nat in
    if (r <=? p)%nat then Err "Knot is too close to the start of the curve" else
    first <- usub r p ;;
    if (r <=? s)%nat then Err "Knot is not removable" else
    last <- usub r s ;;
    let temp := repeat (vzero (cdim c)) (2 * (m + 1)) in
    '(ps, t) <- loop_ (s + 1) (remove_step knot tol (cknots c) ord)
                  (s, (cpts c, temp, first, last, 0%nat)) ;;
    if (0 <? t)%nat then
      '(ks, ps) <- remove_shift (cknots c) ps n m r s p t ;;
      Ok (MkCurve (cdim c) (cdeg c) ps ks, t)
    else Ok (c, t).
End CurveKnot.
