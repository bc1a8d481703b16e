(** * Model of src/boolean/clip.rs, status.rs, node.rs, operation.rs, degeneracies.rs

    The two boundaries enter through: the list of crossings (a pair of parameters each), the two
    containment answers, the trimming function and the constructor of a compound curve.  The
    linked nodes ([Rc<RefCell<Node>>]) are stored in one array: the nodes of the subject first, in
    the order of their parameters, then those of the clip curve; [prev], [next] and [neighbor] are
    indices.  The [visited] flags, the only part that changes during the walk, are kept in a list
    of their own. *)
From Coq Require Import ZArith.
From Verif Require Import Base Scalar MiscModel CurveModel BBoxModel.

(** operation.rs:3-8 *)
Inductive BooleanOperation := Union | Intersection | Difference.
Definition op_eqb (a b : BooleanOperation) : bool :=
  match a, b with
  | Union, Union | Intersection, Intersection | Difference, Difference => true
  | _, _ => false
  end.

(** status.rs:1-16 *)
Inductive Status := StNone | Enter | Exit.
Definition st_invert (s : Status) : Status :=
  match s with Enter => Exit | Exit => Enter | StNone => StNone end.

(** degeneracies.rs:9-14 *)
Inductive Degeneracy (T : Type) := DAngle (x : T) | DLine | DNone.
Arguments DAngle {T} x.
Arguments DLine {T}.
Arguments DNone {T}.

(** region/mod.rs:13-18 *)
Record Region (CC : Type) := MkRegion { rexterior : CC; rinteriors : list CC }.
Arguments MkRegion {CC}. Arguments rexterior {CC}. Arguments rinteriors {CC}.

(** node.rs:8-17 (without [visited]); the vertex is reduced to its parameter *)
Record Node (T : Type) := MkNode {
  nsubject : bool; nparam : T; nprev : option nat; nnext : option nat;
  nneighbor : option nat; nstatus : Status }.
Arguments MkNode {T}. Arguments nsubject {T}. Arguments nparam {T}. Arguments nprev {T}.
Arguments nnext {T}. Arguments nneighbor {T}. Arguments nstatus {T}.

Section Clip.
  Context {T : Type} {SO : Scalar T}.
  Open Scope scalar_scope.

  (** degeneracies.rs:17-46 [Degeneracy::new] on two planar curves *)
  Definition degeneracy (a b : Curve T) (ta tb : T) : Res (Degeneracy T) :=
    let e := sone / sofz 10000 in
    let threshold := sofz 9975 / sofz 10000 in
    a0 <- point_at a (ta - e) ;;
    a1 <- point_at a (ta + e) ;;
    b0 <- point_at b (tb - e) ;;
    b1 <- point_at b (tb + e) ;;
    if negb (line_intersects (MkLine a0 a1) (MkLine b0 b1)) then Ok DLine
    else
      let da := vnormalize (vsub a1 a0) in
      let db := vnormalize (vsub b1 b0) in
      let dot := sabs (vdot da db) in
      Ok (if dot <? threshold then DNone else DAngle dot).

  (** clip.rs:116-129: [max_by] keeps the later element unless the comparison says [Greater] *)
  Definition deg_gt (x y : Degeneracy T) : bool :=
    match x, y with DAngle a, DAngle b => b <? a | _, _ => false end.
  Definition deg_max {X : Type} (l : list (X * Degeneracy T)) : option (X * Degeneracy T) :=
    match l with
    | [] => None
    | x :: t => Some (fold_left (fun m y => if deg_gt (snd m) (snd y) then m else y) t x)
    end.
  Definition is_regular {X : Type} (x : X * Degeneracy T) : bool :=
    match snd x with DNone => true | _ => false end.

  (** clip.rs:107-139: drop degenerate crossings, add one back when an odd number is left *)
  Definition clip_select {X : Type} (l : list (X * Degeneracy T)) : Res (list X) :=
    let regular := map fst (filter is_regular l) in
    let deg := filter (fun x => negb (is_regular x)) l in
    let r :=
      if Nat.even (length regular) then regular
      else match deg_max deg with
           | Some (m, _) => regular ++ [m]
           | None => regular
           end in
    _ <- ensure (Nat.even (length r)) "found odd number of intersections" ;;
    Ok r.

  (** clip.rs:147-186: boundaries that do not cross *)
  Definition clip_table {CC : Type} (subject clip : CC) (op : BooleanOperation)
    (subject_contains_clip clip_contains_subject : bool) : Res (list (Region CC)) :=
    match subject_contains_clip, clip_contains_subject with
    | true, false =>
        Ok match op with
           | Union => [MkRegion subject []]
           | Intersection => [MkRegion clip []]
           | Difference => [MkRegion subject [clip]]
           end
    | false, true =>
        Ok match op with
           | Union => [MkRegion clip []]
           | Intersection => [MkRegion subject []]
           | Difference => []
           end
    | false, false =>
        Ok match op with
           | Union => [MkRegion subject []; MkRegion clip []]
           | Intersection => []
           | Difference => [MkRegion subject []]
           end
    | true, true => Err "Invalid case"
    end.

  (** clip.rs:191 and 201: [sorted_by] (stable) with [partial_cmp().unwrap()]: panics on an incomparable key *)
  Fixpoint insert_key (x : nat * T) (l : list (nat * T)) : list (nat * T) :=
    match l with
    | [] => [x]
    | y :: t => if snd x <? snd y then x :: y :: t else y :: insert_key x t
    end.
  Definition sort_keys (l : list (nat * T)) : Res (list (nat * T)) :=
    if (2 <=? length l)%nat && existsb (fun x => negb (seqb (snd x) (snd x))) l
    then Panic "called unwrap() on a None value"
    else Ok (fold_left (fun acc x => insert_key x acc) l []).

  (** clip.rs:189-236: positions of the crossings along both curves, neighbours, cyclic links *)
  Definition find_index (i : nat) (l : list (nat * T)) : option nat :=
    position (fun x => (fst x =? i)%nat) l.
  Definition link_side (subject : bool) (off noff n : nat) (own other : list (nat * T))
    : list (Node T) :=
    map (fun kx => let '(k, (i, t)) := kx in
           MkNode subject t
             (Some (off + (k + n - 1) mod n)%nat) (Some (off + (k + 1) mod n)%nat)
             (option_map (fun j => (noff + j)%nat) (find_index i other)) StNone)
        (combine (seq 0 n) own).

  (** clip.rs:240-253: alternating flags along a list *)
  Definition set_status (s : Status) (v : Node T) : Node T :=
    MkNode (nsubject v) (nparam v) (nprev v) (nnext v) (nneighbor v) s.
  Fixpoint set_flags (flag : bool) (l : list (Node T)) : list (Node T) :=
    match l with
    | [] => []
    | v :: t => set_status (if flag then Enter else Exit) v :: set_flags (negb flag) t
    end.
  (** clip.rs:255-270 *)
  Definition invert_side (l : list (Node T)) : list (Node T) :=
    map (fun v => set_status (st_invert (nstatus v)) v) l.

  Definition build_nodes (crossings : list (T * T)) (op : BooleanOperation)
    (clip_contains_subject subject_contains_clip : bool) : Res (list (Node T)) :=
    let n := length crossings in
    let indexed := combine (seq 0 n) crossings in
    a <- sort_keys (map (fun x => (fst x, fst (snd x))) indexed) ;;
    b <- sort_keys (map (fun x => (fst x, snd (snd x))) indexed) ;;
    let la := set_flags (negb clip_contains_subject) (link_side true 0 n n a b) in
    let lb := set_flags (negb subject_contains_clip) (link_side false n 0 n b a) in
    let la := match op with Union | Difference => invert_side la | Intersection => la end in
    let lb := if op_eqb op Union then invert_side lb else lb in
    Ok (la ++ lb).

  (** clip.rs:274-294 [non_visited]; a missing link makes it return [None] (the [?]) *)
  Fixpoint non_visited_loop (fuel : nat) (nodes : list (Node T)) (vis : list bool)
    (start cur : nat) : Res (option nat) :=
    match fuel with
    | O => OutOfFuel
    | S fuel =>
        v <- get nodes cur ;;
        match nnext v with
        | None => Ok None
        | Some nx =>
            b <- get vis nx ;;
            if (start =? nx)%nat || negb b then Ok (Some nx)
            else non_visited_loop fuel nodes vis start nx
        end
    end.
  Definition non_visited (nodes : list (Node T)) (vis : list bool) (node : nat)
    : Res (option nat) :=
    b <- get vis node ;;
    if negb b then Ok (Some node)
    else
      r <- non_visited_loop (length nodes) nodes vis node node ;;
      match r with
      | None => Ok None
      | Some x => bx <- get vis x ;; Ok (if bx : bool then None else Some x)
      end.

  (** clip.rs:317-346: one closed walk *)
  Fixpoint walk (fuel : nat) (nodes : list (Node T)) (vis : list bool) (cur : nat)
    (acc : list nat) : Res (list bool * list nat) :=
    match fuel with
    | O => OutOfFuel
    | S fuel =>
        b <- get vis cur ;;
        if b : bool then Ok (vis, acc)
        else
          vis <- set_ vis cur true ;;
          let acc := acc ++ [cur] in
          v <- get nodes cur ;;
          match nstatus v with
          | StNone => Panic "not yet implemented"
          | st =>
              match (match st with Enter => nnext v | _ => nprev v end) with
              | None => Ok (vis, acc)
              | Some nx =>
                  vis <- set_ vis nx true ;;
                  let acc := acc ++ [nx] in
                  w <- get nodes nx ;;
                  match nneighbor w with
                  | None => Ok (vis, acc)
                  | Some nb => walk fuel nodes vis nb acc
                  end
              end
          end
    end.

  Context {C CC : Type}.
  Variable trim : bool -> T -> T -> Res (list C).
  Variable mk_compound : list C -> Res CC.

  (** clip.rs:350-388: the pieces of one walk; [chunks(2)], a last odd element ends the loop *)
  Fixpoint walk_spans (nodes : list (Node T)) (l : list nat) : Res (list C) :=
    match l with
    | i0 :: i1 :: rest =>
        n0 <- get nodes i0 ;;
        n1 <- get nodes i1 ;;
        params <- match nstatus n0, nstatus n1 with
                  | Enter, Exit => Ok (nparam n0, nparam n1)
                  | Exit, Enter => Ok (nparam n1, nparam n0)
                  | _, _ => Err "Invalid status"
                  end ;;
        _ <- ensure (Bool.eqb (nsubject n0) (nsubject n1)) "Invalid condition" ;;
        s <- trim (nsubject n0) (fst params) (snd params) ;;
        r <- walk_spans nodes rest ;;
        Ok (s ++ r)
    | _ => Ok []
    end.

  (** clip.rs:316-396: walks until every node of the subject's list is visited *)
  Fixpoint walks (fuel : nat) (nodes : list (Node T)) (vis : list bool) (regions : list (Region CC))
    : Res (list (Region CC)) :=
    match fuel with
    | O => OutOfFuel
    | S fuel =>
        start <- non_visited nodes vis 0 ;;
        match start with
        | None => Ok regions
        | Some s =>
            '(vis, l) <- walk (S (length nodes)) nodes vis s [] ;;
            spans <- walk_spans nodes l ;;
            match spans with
            | [] => walks fuel nodes vis regions
            | _ => c <- mk_compound spans ;; walks fuel nodes vis (regions ++ [MkRegion c []])
            end
        end
    end.

  (** clip.rs:88-399 [clip], after the crossings have been classified *)
  Definition clip (subject clip_ : CC) (op : BooleanOperation)
    (clip_contains_subject subject_contains_clip : Res bool)
    (crossings : list ((T * T) * Degeneracy T)) : Res (list (Region CC)) :=
    sel <- clip_select crossings ;;
    ccs <- clip_contains_subject ;;
    scc <- subject_contains_clip ;;
    match sel with
    | [] => clip_table subject clip_ op scc ccs
    | _ =>
        nodes <- build_nodes sel op ccs scc ;;
        walks (S (length nodes)) nodes (repeat false (length nodes)) []
    end.
End Clip.
