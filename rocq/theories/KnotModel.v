(** * Model of src/knot/knot_vector.rs

    A knot vector is a list of scalars.  [get] panics when out of bounds, as [Index] does. *)
From Coq Require Import ZArith.
From Verif Require Import Base Scalar.

Section Knot.
  Context {T : Type} {SO : Scalar T}.

  (** knot_vector.rs:26-35 [KnotVector::uniform].  [n - 1] is evaluated unconditionally. *)
  Definition uniform (n degree : nat) : Res (list T) :=
    last <- usub n 1 ;;
    Ok (repeat szero degree ++ map sofnat (seq 0 n) ++ repeat (sofnat last) degree).

  (** knot_vector.rs:49-55 [first], [last] *)
  Definition kfirst (k : list T) : Res T := get k 0.
  Definition klast (k : list T) : Res T := i <- usub (length k) 1 ;; get k i.

  (** knot_vector.rs:70-72 [domain] *)
  Definition domain (k : list T) (degree : nat) : Res (T * T) :=
    a <- get k degree ;;
    i <- usub (length k) 1 ;;
    j <- usub i degree ;;
    b <- get k j ;;
    Ok (a, b).

  (** knot_vector.rs:74-77 [clamp] *)
  Definition kclamp (k : list T) (degree : nat) (u : T) : Res T :=
    '(lo, hi) <- domain k degree ;;
    Ok (sclamp u lo hi).

  (** knot_vector.rs:80-82 [floor] *)
  Definition kfloor (k : list T) (knot : T) : option nat :=
    rposition (fun t => sleb t knot) k.

  (** knot_vector.rs:85-96 [add]: new vector and index of the added knot *)
  Definition kadd (k : list T) (knot : T) : Res (list T * nat) :=
    match kfloor k knot with
    | Some idx => k' <- insert_at k (idx + 1) knot ;; Ok (k', idx + 1)
    | None => k' <- insert_at k 0 knot ;; Ok (k', 0)
    end.

  (** knot_vector.rs:113-119, one iteration of the run-length loop: state = finished runs, the
      current run's knot and its count *)
  Definition mult_step (st : list (T * nat) * (T * nat)) (knot : T)
    : list (T * nat) * (T * nat) :=
    let '(done, (cur, c)) := st in
    let '(done, (cur, c)) :=
      if sltb seps (sabs (ssub knot cur)) then (done ++ [(cur, c)], (knot, 0))
      else (done, (cur, c)) in
    (done, (cur, S c)).

  (** knot_vector.rs:109-123 [multiplicity] *)
  Definition multiplicity (k : list T) : Res (list (T * nat)) :=
    k0 <- get k 0 ;;
    let '(done, cur) := fold_left mult_step k ([], (k0, 0)) in
    Ok (done ++ [cur]).

  (** knot_vector.rs:128-138 [is_clamped] *)
  Definition is_clamped (k : list T) (degree : nat) : Res bool :=
    m <- multiplicity k ;;
    match head m, last (map Some m) None with
    | Some s, Some e => Ok (Nat.ltb degree (snd s) && Nat.ltb degree (snd e))
    | _, _ => Ok false
    end.

  (** knot_vector.rs:141-147 [find_knot_span_linear] *)
  Definition find_span_linear (k : list T) (n degree : nat) (u : T) : Res nat :=
    sp <- while_ (n + 2)
            (fun span => if span <? n then ks <- get k span ;; Ok (sleb ks u) else Ok false)
            (fun span => Ok (S span))
            (degree + 1) ;;
    usub sp 1.

  (** knot_vector.rs:171-182, one iteration of the binary search *)
  Definition span_step (k : list T) (u : T) (st : nat * nat * nat)
    : Res ((nat * nat * nat) + nat) :=
    let '(low, high, mid) := st in
    km <- get k mid ;;
    c <- (if sltb u km then Ok true else km1 <- get k (mid + 1) ;; Ok (sleb km1 u)) ;;
    if (c : bool) then
      let '(low, high) := if sltb u km then (low, mid) else (mid, high) in
      let next := (low + high) / 2 in
      if mid =? next then Ok (inr mid) else Ok (inl (low, high, next))
    else Ok (inr mid).

  (** knot_vector.rs:158-185 [find_knot_span_index].
      [((low + high) as f64 / 2.).floor() as usize] is the integer half (exact below 2^53). *)
  Definition find_span (k : list T) (n degree : nat) (u : T) : Res nat :=
    kn1 <- get k (n + 1) ;;
    if sltb (ssub kn1 seps) u then Ok n else
    kd <- get k degree ;;
    if sltb u (sadd kd seps) then Ok degree else
    loop_ (n + 3) (span_step k u) (degree, n + 1, (degree + (n + 1)) / 2).

  (** knot_vector.rs:201-205, inner loop body of [basis_functions] *)
  Definition basis_inner (lft rgt : list T) (j r : nat) (st : list T * T)
    : Res (list T * T) :=
    let '(b, saved) := st in
    br <- get b r ;;
    rr <- get rgt (r + 1) ;;
    jr <- usub j r ;;
    lj <- get lft jr ;;
    let temp := sdiv br (sadd rr lj) in
    b' <- set_ b r (sadd saved (smul rr temp)) ;;
    Ok (b', smul lj temp).

  (** knot_vector.rs:196-208, outer loop body of [basis_functions] *)
  Definition basis_outer (k : list T) (s : nat) (u : T) (j : nat)
             (st : list T * list T * list T) : Res (list T * list T * list T) :=
    let '(b, lft, rgt) := st in
    i1 <- usub (s + 1) j ;;
    k1 <- get k i1 ;;
    lft <- set_ lft j (ssub u k1) ;;
    k2 <- get k (s + j) ;;
    rgt <- set_ rgt j (ssub k2 u) ;;
    '(b, saved) <- for_range 0 j (basis_inner lft rgt j) (b, szero) ;;
    b <- set_ b j saved ;;
    Ok (b, lft, rgt).

  (** knot_vector.rs:189-211 [basis_functions] *)
  Definition basis_functions (k : list T) (s : nat) (u : T) (degree : nat) : Res (list T) :=
    let z := repeat szero (degree + 1) in
    b <- set_ z 0 sone ;;
    '(b, _, _) <- for_incl 1 degree (basis_outer k s u) (b, z, z) ;;
    Ok b.

  (** ** Derivatives: knot_vector.rs:215-305 *)
  Definition get2 {A} (m : list (list A)) (i j : nat) : Res A := r <- get m i ;; get r j.
  Definition set2 {A} (m : list (list A)) (i j : nat) (v : A) : Res (list (list A)) :=
    r <- get m i ;; r' <- set_ r j v ;; set_ m i r'.

  (** [x as usize] used as an index: a negative isize becomes huge and the index panics *)
  Definition zidx (z : Z) : Res nat :=
    if (z <? 0)%Z then Panic "negative index" else Ok (Z.to_nat z).

  Definition get2z {A} (m : list (list A)) (i j : Z) : Res A :=
    i' <- zidx i ;; j' <- zidx j ;; get2 m i' j'.

  (** knot_vector.rs:233-241 *)
  Definition ndu_inner (lft rgt : list T) (j r : nat) (st : list (list T) * T)
    : Res (list (list T) * T) :=
    let '(ndu, saved) := st in
    rr <- get rgt (r + 1) ;;
    jr <- usub j r ;;
    lj <- get lft jr ;;
    ndu <- set2 ndu j r (sadd rr lj) ;;
    j1 <- usub j 1 ;;
    a <- get2 ndu r j1 ;;
    b <- get2 ndu j r ;;
    let temp := sdiv a b in
    ndu <- set2 ndu r j (sadd saved (smul rr temp)) ;;
    Ok (ndu, smul lj temp).

  (** knot_vector.rs:228-243 *)
  Definition ndu_outer (k : list T) (s : nat) (u : T) (j : nat)
             (st : list (list T) * list T * list T)
    : Res (list (list T) * list T * list T) :=
    let '(ndu, lft, rgt) := st in
    i1 <- usub (s + 1) j ;;
    k1 <- get k i1 ;;
    lft <- set_ lft j (ssub u k1) ;;
    k2 <- get k (s + j) ;;
    rgt <- set_ rgt j (ssub k2 u) ;;
    '(ndu, saved) <- for_range 0 j (ndu_inner lft rgt j) (ndu, szero) ;;
    ndu <- set2 ndu j j saved ;;
    Ok (ndu, lft, rgt).

  Definition ndu_table (k : list T) (s : nat) (u : T) (degree : nat) : Res (list (list T)) :=
    let z := repeat szero (degree + 1) in
    ndu <- set2 (repeat z (degree + 1)) 0 0 sone ;;
    '(ndu, _, _) <- for_incl 1 degree (ndu_outer k s u) (ndu, z, z) ;;
    Ok ndu.

  (** knot_vector.rs:277-281 (body for isize j) *)
  Definition ders_inner (ndu : list (list T)) (s1 s2 : nat) (rk pk : Z) (j : nat)
             (st : list (list T) * T) : Res (list (list T) * T) :=
    let '(a, d) := st in
    x <- get2 a s1 j ;;
    jm <- usub j 1 ;;
    y <- get2 a s1 jm ;;
    nd <- get2z ndu (pk + 1) (rk + Z.of_nat j) ;;
    a <- set2 a s2 j (sdiv (ssub x y) nd) ;;
    v <- get2 a s2 j ;;
    w <- get2z ndu (rk + Z.of_nat j) pk ;;
    Ok (a, sadd d (smul v w)).

  (** knot_vector.rs:264-294: k-th derivative for column r; state (a, s1, s2, ders) *)
  Definition ders_k (ndu : list (list T)) (degree : nat) (r : nat) (k : nat)
             (st : list (list T) * nat * nat * list (list T))
    : Res (list (list T) * nat * nat * list (list T)) :=
    let '(a, s1, s2, ders) := st in
    let zr := Z.of_nat r in
    let zk := Z.of_nat k in
    let rk := (zr - zk)%Z in
    let pk := (Z.of_nat degree - zk)%Z in
    '(a, d) <- (if (zk <=? zr)%Z then
                  x <- get2 a s1 0 ;;
                  nd <- get2z ndu (pk + 1) rk ;;
                  a <- set2 a s2 0 (sdiv x nd) ;;
                  v <- get2 a s2 0 ;;
                  w <- get2z ndu rk pk ;;
                  Ok (a, smul v w)
                else Ok (a, szero)) ;;
    let j1 := if (-1 <=? rk)%Z then 1%Z else (- rk)%Z in
    let j2 := if (zr - 1 <=? pk)%Z then (zk - 1)%Z else (Z.of_nat degree - zr)%Z in
    '(a, d) <- (if (j1 <=? j2)%Z
                then for_incl (Z.to_nat j1) (Z.to_nat j2) (ders_inner ndu s1 s2 rk pk) (a, d)
                else Ok (a, d)) ;;
    '(a, d) <- (if (zr <=? pk)%Z then
                  km <- usub k 1 ;;
                  x <- get2 a s1 km ;;
                  nd <- get2z ndu (pk + 1) zr ;;
                  a <- set2 a s2 k (sdiv (sopp x) nd) ;;
                  v <- get2 a s2 k ;;
                  w <- get2z ndu zr pk ;;
                  Ok (a, sadd d (smul v w))
                else Ok (a, d)) ;;
    ders <- set2 ders k r d ;;
    Ok (a, s2, s1, ders).

  (** knot_vector.rs:257-295: column r; [a] is kept across columns; [a[0][0] = 1] *)
  Definition ders_r (ndu : list (list T)) (degree n : nat) (r : nat)
             (st : list (list T) * list (list T))
    : Res (list (list T) * list (list T)) :=
    let '(a, ders) := st in
    a <- set2 a 0 0 sone ;;
    '(a, _, _, ders) <- for_incl 1 n (ders_k ndu degree r) (a, 0, 1, ders) ;;
    Ok (a, ders).

  (** knot_vector.rs:297-303: multiply by degree!/(degree-k)! ; state (ders, acc) *)
  Definition ders_scale (degree : nat) (k : nat) (st : list (list T) * Z)
    : Res (list (list T) * Z) :=
    let '(ders, acc) := st in
    ders <- for_incl 0 degree
              (fun j ders => x <- get2 ders k j ;; set2 ders k j (smul x (sofz acc))) ders ;;
    Ok (ders, (acc * (Z.of_nat degree - Z.of_nat k))%Z).

  (** knot_vector.rs:215-305 [derivative_basis_functions] *)
  Definition derivative_basis_functions (k : list T) (s : nat) (u : T) (degree n : nat)
    : Res (list (list T)) :=
    ndu <- ndu_table k s u degree ;;
    let z := repeat szero (degree + 1) in
    ders <- for_incl 0 degree
              (fun j ders => v <- get2 ndu j degree ;; set2 ders 0 j v) (repeat z (n + 1)) ;;
    '(_, ders) <- for_incl 0 degree (ders_r ndu degree n) (repeat z 2, ders) ;;
    '(ders, _) <- for_incl 1 n (ders_scale degree) (ders, Z.of_nat degree) ;;
    Ok ders.

  (** ** Regularly spaced evaluation *)
  (** knot_vector.rs:362-367 *)
  Definition regularly_spaced_span (k : list T) (degree divs : nat) : Res (T * T * T * nat) :=
    x <- usub (length k) degree ;;
    n <- usub x 2 ;;
    '(start, end_) <- domain k degree ;;
    Ok (start, end_, sdiv (ssub end_ start) (sofnat divs), n).

  (** knot_vector.rs:323-325: advance the knot index while [u >= k[index+1] && index < n] *)
  Definition advance_span (k : list T) (n : nat) (u : T) (idx : nat) : Res nat :=
    while_ (n + 2)
      (fun i => k1 <- get k (i + 1) ;; Ok (sleb k1 u && Nat.ltb i n))
      (fun i => Ok (S i)) idx.

  (** knot_vector.rs:309-332 [regulary_spaced_basis_functions] *)
  Definition regularly_spaced_basis_functions (k : list T) (degree divs : nat)
    : Res (list nat * list (list T)) :=
    '(start, _, span, n) <- regularly_spaced_span k degree divs ;;
    idx <- find_span k n degree start ;;
    '(spans, bases, _, _) <-
      for_incl 0 divs (fun _ '(spans, bases, idx, u) =>
        idx <- advance_span k n u idx ;;
        b <- basis_functions k idx u degree ;;
        Ok (spans ++ [idx], bases ++ [b], idx, sadd u span)) ([], [], idx, start) ;;
    Ok (spans, bases).

  (** knot_vector.rs:336-359 [regularly_spaced_derivative_basis_functions] *)
  Definition regularly_spaced_derivative_basis_functions (k : list T) (degree divs : nat)
    : Res (list nat * list (list (list T))) :=
    '(start, _, span, n) <- regularly_spaced_span k degree divs ;;
    idx <- find_span k n degree start ;;
    '(spans, bases, _, _) <-
      for_incl 0 divs (fun _ '(spans, bases, idx, u) =>
        idx <- advance_span k n u idx ;;
        b <- derivative_basis_functions k idx u degree n ;;
        Ok (spans ++ [idx], bases ++ [b], idx, sadd u span)) ([], [], idx, start) ;;
    Ok (spans, bases).

  (** knot_vector.rs:408-418 [invert] *)
  Definition kinvert (k : list T) : Res (list T) :=
    mn <- unwrap (head k) ;;
    let len := length k in
    for_range 1 len (fun i next =>
      im <- usub i 1 ;;
      p <- get next im ;;
      x <- usub len i ;;
      a <- get k x ;;
      y <- usub x 1 ;;
      b <- get k y ;;
      Ok (next ++ [sadd p (ssub a b)])) [mn].
End Knot.
