(** * The nodes of a tessellation: one subdivision per cell of the grid *)
From Coq Require Import String ZArith Lia.
From Verif Require Import Base BaseFacts Scalar KnotModel MiscModel CurveModel SurfaceModel AdaptModel AdaptProofs.
Local Open Scope nat_scope.

Section Forest.
  Context {T : Type} {SO : Scalar T}.

  (** the cell number [i]; the rows of cells run from the top down *)
  Definition cell_rect (us vs : list T) (du dv i : nat) : Rect T :=
    MkRect (nth (i mod du) us szero) (nth (dv - i / du - 1) vs szero)
           (nth (S (i mod du)) us szero) (nth (dv - i / du) vs szero).
  Definition cell_nb (du dv i : nat) : Four (option nat) :=
    MkFour (if i / du =? dv - 1 then None else Some (i + du))
           (if i mod du =? du - 1 then None else Some (i + 1))
           (if i / du =? 0 then None else Some (i - du))
           (if i / du =? 0 then None else Some (i - 1)).

  Lemma mapM_nth_error {A B} (f : A -> Res B) : forall l r i b, mapM f l = Ok r -> nth_error r i = Some b ->
    exists a, nth_error l i = Some a /\ f a = Ok b.
  Proof.
    induction l as [|x l IH]; intros r i b E N; cbn [mapM] in E.
    - injection E as <-. destruct i; discriminate.
    - apply bind_ok in E. destruct E as (y & Ey & E). apply bind_ok in E. destruct E as (t & Et & E). injection E as <-.
      destruct i as [|i]; cbn [nth_error] in *; [injection N as <-; eauto|]. eapply IH; eauto.
  Qed.
  Lemma combine_seq {A} (l : list A) : forall k i x, nth_error (combine (seq k (length l)) l) i = Some x ->
    fst x = k + i /\ nth_error l i = Some (snd x).
  Proof.
    induction l as [|a l IH]; intros k i x E; cbn [length seq combine] in E; [destruct i; discriminate|].
    destruct i as [|i]; cbn [nth_error] in *; [injection E as <-; split; [cbn; lia|reflexivity]|].
    apply IH in E. destruct E as (E1 & E2). split; [lia|exact E2].
  Qed.
  Lemma nth_error_nth_some {A} (l : list A) i x d : nth_error l i = Some x -> nth i l d = x.
  Proof. apply nth_error_nth. Qed.

  Lemma grid_points_uv s c us vs du dv pts iv iu p : grid_points s c us vs du dv = Ok pts ->
    get2 pts iv iu = Ok p -> sp_uv p = (nth iu us szero, nth iv vs szero).
  Proof.
    unfold grid_points, get2. intros E G. apply bind_ok in G. destruct G as (row & Gr & Gp). apply nth_error_get in Gr, Gp.
    destruct (mapM_nth_error _ _ _ _ _ E Gr) as ([jv v] & Nv & Ev). apply combine_seq in Nv. cbn [fst snd] in Nv. destruct Nv as (_ & Nv).
    destruct (mapM_nth_error _ _ _ _ _ Ev Gp) as ([ju u] & Nu & Eu). apply combine_seq in Nu. cbn [fst snd] in Nu. destruct Nu as (_ & Nu).
    rewrite (nth_error_nth_some _ _ _ _ Nv), (nth_error_nth_some _ _ _ _ Nu).
    unfold grid_point in Eu. do 6 (apply bind_ok in Eu; destruct Eu as (? & _ & Eu)). now injection Eu as <-.
  Qed.

  Lemma grid_cell_ok s c us vs du dv pts i n : grid_points s c us vs du dv = Ok pts -> 0 < du ->
    grid_cell pts du dv i = Ok n -> node_ok n (cell_rect us vs du dv i) (cell_nb du dv i) /\ an_children n = None.
  Proof.
    intros Ep Hdu E. unfold grid_cell in E. cbv zeta in E.
    apply bind_ok in E; destruct E as (r & Er & E). apply bind_ok in E; destruct E as (r1 & Er1 & E).
    apply usub_inv in Er, Er1. destruct Er as (Hr & ->), Er1 as (Hr1 & ->).
    apply bind_ok in E; destruct E as (a & Ea & E). apply bind_ok in E; destruct E as (b & Eb & E).
    apply bind_ok in E; destruct E as (cc & Ec & E). apply bind_ok in E; destruct E as (dd & Ed & E).
    apply bind_ok in E; destruct E as (cs & Es & E). apply bind_ok in E; destruct E as (ce & Ee & E).
    apply bind_ok in E; destruct E as (cn & En & E). apply bind_ok in E; destruct E as (cw & Ew & E). injection E as <-.
    apply (grid_points_uv _ _ _ _ _ _ _ _ _ _ Ep) in Ea, Eb, Ec, Ed. rewrite Nat.add_1_r in *.
    unfold cell_south in Es. apply bind_ok in Es. destruct Es as (l & El & Es). apply usub_inv in El. destruct El as (_ & ->). injection Es as <-.
    unfold cell_east in Ee. apply bind_ok in Ee. destruct Ee as (l & El & Ee). apply usub_inv in El. destruct El as (_ & ->). injection Ee as <-.
    unfold cell_north in En. unfold cell_west in Ew.
    split; [|reflexivity]. split; [|split].
    - unfold an_new, shaped, cell_rect. cbn [an_corners f0 f1 f2 f3 rl rb rr rt]. auto.
    - unfold an_new, cell_nb. cbn [an_nb]. destruct (i / du =? 0).
      + injection En as <-. injection Ew as <-. reflexivity.
      + apply bind_ok in En. destruct En as (x & Ex & En). apply usub_inv in Ex. destruct Ex as (_ & ->). injection En as <-.
        apply bind_ok in Ew. destruct Ew as (x & Ex & Ew). apply usub_inv in Ex. destruct Ex as (_ & ->). injection Ew as <-. reflexivity.
    - unfold an_new. cbn [an_center f0 f2]. rewrite Ea, Ec. reflexivity.
  Qed.

  (** the node store: cell [i] is the root of a subdivision whose other nodes are [b i .. b (i + 1))] *)
  Definition forest (nodes : list (ANode T)) (h N : nat) (rect : nat -> Rect T) (nb : nat -> Four (option nat)) (b : nat -> nat) : Prop :=
    b 0 = N /\ b N = length nodes /\ forall i, i < N -> b i <= b (S i) /\ tree nodes h i (b i) (b (S i)) (rect i) (nb i).

  Lemma forest_mono nodes h N rect nb b i j : forest nodes h N rect nb b -> i <= j <= N -> b i <= b j.
  Proof.
    intros (_ & _ & H) (Hij & HN). induction Hij as [|j Hij IH]; [lia|]. destruct (H j ltac:(lia)). lia.
  Qed.

  Lemma divide_forest s o rect nb N : forall cells nodes, length cells = N ->
    (forall i, i < N -> exists n, nth_error cells i = Some n /\ node_ok n (rect i) (nb i) /\ an_children n = None) ->
    foldM (divide s o) (seq 0 N) cells = Ok nodes ->
    exists b, forest nodes (adapt_fuel o - 1) N rect nb b.
  Proof.
    intros cells nodes L0 HC E.
    assert (G : forall k j nodes0, j + k = N ->
      (exists b, b 0 = N /\ b j = length nodes0 /\
        (forall i, i < j -> b i <= b (S i) /\ tree nodes0 (adapt_fuel o - 1) i (b i) (b (S i)) (rect i) (nb i)) /\
        (forall i, j <= i < N -> exists n, nth_error nodes0 i = Some n /\ node_ok n (rect i) (nb i) /\ an_children n = None)) ->
      foldM (divide s o) (seq j k) nodes0 = Ok nodes -> exists b, forest nodes (adapt_fuel o - 1) N rect nb b).
    { induction k as [|k IH]; intros j nodes0 Hj (b & B0 & Bj & Bt & Bl) F; cbn [seq foldM] in F.
      - injection F as <-. exists b. replace N with j in * by lia. split; [exact B0|]. split; [exact Bj|]. intros i Hi. now apply Bt.
      - apply bind_ok in F. destruct F as (nodes1 & F1 & F).
        destruct (Bl j ltac:(lia)) as (n & En & Hn & Cn). unfold divide in F1.
        destruct (iterate_tree _ _ _ _ _ _ _ _ _ _ _ F1 En Cn Hn) as (Tj & Fr). pose proof (tree_le _ _ _ _ _ _ _ Tj) as LE.
        assert (LN : N <= length nodes0).
        { rewrite <- Bj, <- B0. clear - Bt. induction j as [|j IHj]; [lia|]. destruct (Bt j ltac:(lia)).
          etransitivity; [apply IHj; intros; apply Bt; lia|lia]. }
        assert (MB : forall i, i <= j -> N <= b i <= length nodes0).
        { intros i Hi. rewrite <- Bj, <- B0. clear - Bt Hi. split.
          - induction i as [|i IHi]; [lia|]. destruct (Bt i ltac:(lia)). etransitivity; [apply IHi; lia|lia].
          - induction Hi as [|j Hi IHi]; [lia|]. destruct (Bt j ltac:(lia)). etransitivity; [apply IHi; intros; apply Bt; lia|lia]. }
        apply (IH (S j) nodes1); [lia| |exact F].
        exists (fun i => if i <=? j then b i else length nodes1). cbv beta. split; [exact B0|].
        rewrite (proj2 (Nat.leb_gt (S j) j)) by lia. split; [reflexivity|]. split.
        + intros i Hi. rewrite (proj2 (Nat.leb_le i j)) by lia. destruct (Nat.eq_dec i j) as [->|Nij].
          * rewrite (proj2 (Nat.leb_gt (S j) j)) by lia. rewrite Bj. split; [exact LE|exact Tj].
          * rewrite (proj2 (Nat.leb_le (S i) j)) by lia. destruct (Bt i ltac:(lia)) as (Bi & Ti). split; [exact Bi|].
            eapply tree_frame; [exact Ti|]. intros x Hx. pose proof (MB i ltac:(lia)). pose proof (MB (S i) ltac:(lia)). apply Fr; lia.
        + intros i Hi. destruct (Bl i ltac:(lia)) as (n' & En' & Hn' & Cn'). exists n'. rewrite Fr by lia. auto. }
    apply (G N 0 cells); [lia| |exact E]. exists (fun _ => N). split; [reflexivity|]. split; [auto|]. split; [intros; lia|]. intros i Hi. apply HC. lia.
  Qed.

  Theorem adaptive_forest s c opts nodes : adaptive_nodes s c opts = Ok nodes ->
    exists us vs du dv b, let o := match opts with Some o => o | None => ao_default end in
      adaptive_grid s c o = Ok (us, vs) /\ length us = S du /\ length vs = S dv /\
      forest nodes (Nat.max (ao_min_depth o) (ao_max_depth o)) (dv * du) (cell_rect us vs du dv) (cell_nb du dv) b.
  Proof.
    unfold adaptive_nodes. intros E. set (o := match opts with Some o => o | None => ao_default end) in *.
    apply bind_ok in E. destruct E as ([us vs] & Eg & E). apply bind_ok in E. destruct E as (du & Edu & E).
    apply bind_ok in E. destruct E as (dv & Edv & E). apply usub_inv in Edu, Edv. destruct Edu as (Lu & ->), Edv as (Lv & ->).
    apply bind_ok in E. destruct E as (pts & Ep & E). apply bind_ok in E. destruct E as (cells & Ec & E).
    set (du := length us - 1) in *. set (dv := length vs - 1) in *.
    exists us, vs, du, dv.
    assert (LC : length cells = dv * du) by (erewrite <- (Forall2_len _ _ _ (mapM_inv _ _ _ Ec)); apply seq_length).
    assert (HC : forall i, i < dv * du -> exists n, nth_error cells i = Some n /\ node_ok n (cell_rect us vs du dv i) (cell_nb du dv i) /\ an_children n = None).
    { intros i Hi. destruct (nth_error cells i) as [n|] eqn:En; [|apply nth_error_None in En; lia].
      exists n. split; [reflexivity|]. destruct (mapM_nth_error _ _ _ _ _ Ec En) as (i' & Ei & Eb).
      assert (i' = i) as ->.
      { apply (nth_error_nth_some _ _ _ 0) in Ei. rewrite seq_nth in Ei by exact Hi. lia. }
      apply (grid_cell_ok s c us vs du dv pts i n Ep); [|exact Eb]. destruct du; lia. }
    destruct opts as [o'|].
    - destruct (divide_forest _ _ _ _ _ _ _ LC HC E) as (b & Fb). exists b. cbv zeta. split; [exact Eg|]. split; [lia|]. split; [lia|].
      unfold adapt_fuel in Fb. cbn [Nat.sub] in Fb. rewrite Nat.sub_0_r in Fb. exact Fb.
    - injection E as <-. exists (fun _ => dv * du). cbv zeta. split; [exact Eg|]. split; [lia|]. split; [lia|].
      split; [reflexivity|]. split; [auto|]. intros i Hi. split; [lia|]. destruct (HC i Hi) as (n & En & Hn & Cn).
      now apply (tree_leaf _ _ _ _ _ _ n).
  Qed.

  (** ** Termination *)
  Lemma mapM_fuel {A B} (f : A -> Res B) : forall l, mapM f l = OutOfFuel -> exists a, f a = OutOfFuel.
  Proof.
    induction l as [|x l IH]; cbn [mapM]; intros E; [discriminate|]. apply bind_fuel in E. destruct E as [E|(y & _ & E)]; [eauto|].
    apply bind_fuel in E. destruct E as [E|(z & _ & E)]; [auto|discriminate].
  Qed.
  Lemma foldM_fuel {A St} (f : St -> A -> Res St) : forall l s, foldM f l s = OutOfFuel -> exists s' a, In a l /\ f s' a = OutOfFuel.
  Proof.
    induction l as [|x l IH]; cbn [foldM]; intros s E; [discriminate|]. apply bind_fuel in E. destruct E as [E|(y & _ & E)].
    - exists s, x. cbn. auto.
    - destruct (IH _ E) as (s' & a & H & H'). exists s', a. cbn. auto.
  Qed.

  Lemma tree_sub nodes h id lo hi r nb : tree nodes h id lo hi r nb -> forall j, j = id \/ lo <= j < hi ->
    exists h' lo' hi' r' nb', tree nodes h' j lo' hi' r' nb' /\ lo <= lo' /\ hi' <= hi.
  Proof.
    induction 1 as [h id lo r nb n E1 E2 E3|h id lo m hi r nb n d En Ec Ed Hn T0 IH0 T1 IH1]; intros j Hj.
    - exists h, lo, lo, r, nb. assert (j = id) as -> by lia. split; [now apply (tree_leaf _ _ _ _ _ _ n)|]. lia.
    - pose proof (tree_le _ _ _ _ _ _ _ T0). pose proof (tree_le _ _ _ _ _ _ _ T1).
      destruct (Nat.eq_dec j id) as [->|N].
      + exists (S h), lo, hi, r, nb. split; [now apply (tree_split _ _ _ _ m _ _ _ n d)|]. lia.
      + assert (C : (j = lo \/ S (S lo) <= j < m) \/ (j = S lo \/ m <= j < hi)) by lia.
        destruct C as [C|C]; [destruct (IH0 j C) as (h' & lo' & hi' & r' & nb' & X & Y)|destruct (IH1 j C) as (h' & lo' & hi' & r' & nb' & X & Y)];
          exists h', lo', hi', r', nb'; (split; [exact X|lia]).
  Qed.
  Lemma forest_locate nodes h N rect nb b : forest nodes h N rect nb b -> forall j, j < length nodes ->
    exists i, i < N /\ (j = i \/ b i <= j < b (S i)).
  Proof.
    intros F j Hj. destruct (Nat.lt_ge_cases j N) as [L|L]; [exists j; auto|].
    destruct F as (B0 & BN & B).
    assert (G : forall k, k <= N -> N <= j < b k -> exists i, i < k /\ b i <= j < b (S i)).
    { induction k as [|k IH]; intros Hk H; [lia|]. destruct (Nat.lt_ge_cases j (b k)) as [L'|L'].
      - destruct (IH ltac:(lia) ltac:(lia)) as (i & Hi & H'). exists i. split; [lia|exact H'].
      - exists k. split; [lia|lia]. }
    destruct (G N ltac:(lia) ltac:(lia)) as (i & Hi & H'). exists i. auto.
  Qed.
  Lemma forest_tree nodes h N rect nb b : forest nodes h N rect nb b -> forall j, j < length nodes ->
    exists h' lo hi r' nb', tree nodes h' j lo hi r' nb' /\ hi <= length nodes.
  Proof.
    intros F j Hj. destruct (forest_locate _ _ _ _ _ _ F j Hj) as (i & Hi & H). pose proof (forest_mono _ _ _ _ _ _ (S i) N F ltac:(lia)) as M.
    destruct F as (_ & BN & B). destruct (B i Hi) as (_ & Ti).
    destruct (tree_sub _ _ _ _ _ _ _ Ti j H) as (h' & lo & hi & r' & nb' & X & _ & Y). exists h', lo, hi, r', nb'. split; [exact X|lia].
  Qed.
  Lemma edge_corners_fuel nodes h N rect nb b : forest nodes h N rect nb b -> forall j e, get_edge_corners (S (length nodes)) nodes j e <> OutOfFuel.
  Proof.
    intros F j e. destruct (Nat.lt_ge_cases j (length nodes)) as [L|L].
    - destruct (forest_tree _ _ _ _ _ _ F j L) as (h' & lo & hi & r' & nb' & X & Y).
      destruct (edge_corners_ok _ _ _ _ _ _ _ X (S (length nodes)) e ltac:(lia)) as (l & ->). discriminate.
    - cbn [get_edge_corners]. unfold get. rewrite (proj2 (nth_error_None nodes j)) by exact L. discriminate.
  Qed.

  Lemma usub_fuel a b : usub a b <> OutOfFuel.
  Proof. unfold usub. destruct (Nat.leb b a); discriminate. Qed.
  Lemma get2_fuel {A} (m : list (list A)) i j : get2 m i j <> OutOfFuel.
  Proof. unfold get2. intros E. apply bind_fuel in E. destruct E as [E|(r & _ & E)]; now apply get_fuel in E. Qed.
  Lemma domain_fuel (k : list T) p : domain k p <> OutOfFuel.
  Proof.
    unfold domain. intros E. repeat (apply bind_fuel in E; destruct E as [E|(? & _ & E)];
      [first [now apply get_fuel in E|now apply usub_fuel in E|idtac]|]); try discriminate; try (now apply get_fuel in E).
  Qed.

  Definition stuck (s : Surf T) : Prop := exists u v, surf_rational_derivatives s u v 1 = OutOfFuel.
  Lemma evaluate_fuel s uv : evaluate_surface s uv = OutOfFuel -> stuck s.
  Proof.
    unfold evaluate_surface. intros E. apply bind_fuel in E. destruct E as [E|(ds & _ & E)]; [eexists _, _; exact E|].
    do 3 (apply bind_fuel in E; destruct E as [E|(? & _ & E)]; [now apply get2_fuel in E|]). discriminate.
  Qed.
  Lemma boundary_point_fuel s uv : boundary_point s uv = OutOfFuel -> stuck s.
  Proof.
    unfold boundary_point. intros E. apply bind_fuel in E. destruct E as [E|(ds & _ & E)]; [eexists _, _; exact E|].
    do 3 (apply bind_fuel in E; destruct E as [E|(? & _ & E)]; [now apply get2_fuel in E|]). discriminate.
  Qed.
  Lemma boundary_points_fuel s f ps : boundary_points s f ps = OutOfFuel -> stuck s.
  Proof.
    unfold boundary_points. destruct ps as [l|]; [|discriminate]. intros E. apply bind_fuel in E. destruct E as [E|(r & _ & E)]; [|discriminate].
    apply mapM_fuel in E. destruct E as (t & E). now apply boundary_point_fuel in E.
  Qed.
  Lemma snap_fuel b p : snap b p <> OutOfFuel.
  Proof.
    assert (C : forall p l, closest_of p l <> (OutOfFuel : Res (SPoint T))) by (intros q [|x l]; discriminate).
    unfold snap. destruct (sp_umin p), (sp_umax p), (sp_vmin p), (sp_vmax p), (be_u_vmin b), (be_u_vmax b), (be_v_umin b), (be_v_umax b);
      first [apply C|discriminate].
  Qed.

  Theorem adaptive_terminates s c opts : adaptive_tessellate s c opts = OutOfFuel -> stuck s.
  Proof.
    unfold adaptive_tessellate. intros E. apply bind_fuel in E. destruct E as [E|(nodes & En & E)].
    - unfold adaptive_nodes in E. apply bind_fuel in E. destruct E as [E|([us vs] & _ & E)].
      { exfalso. assert (G : forall k p n a b, grid_params k p n a b <> (OutOfFuel : Res (list T))).
        { intros k p n a b. unfold grid_params. destruct (p <=? 1); intros X; apply bind_fuel in X; destruct X as [X|(x & _ & X)];
            try (now apply usub_fuel in X); try discriminate. apply bind_fuel in X. destruct X as [X|([lo hi] & _ & X)]; [now apply domain_fuel in X|discriminate]. }
        unfold adaptive_grid in E. apply bind_fuel in E. destruct E as [E|(us & _ & E)]; [now apply G in E|].
        apply bind_fuel in E. destruct E as [E|(row & _ & E)]; [destruct (sdv s <=? 1); [discriminate|now apply get_fuel in E]|].
        apply bind_fuel in E. destruct E as [E|(vs & _ & E)]; [now apply G in E|]. destruct c; discriminate. }
      do 2 (apply bind_fuel in E; destruct E as [E|(? & _ & E)]; [now apply usub_fuel in E|]).
      apply bind_fuel in E. destruct E as [E|(pts & _ & E)].
      { unfold grid_points in E. apply mapM_fuel in E. destruct E as ([iv v] & E). apply mapM_fuel in E. destruct E as ([iu u] & E).
        unfold grid_point in E. apply bind_fuel in E. destruct E as [E|(? & _ & E)]; [now apply usub_fuel in E|].
        apply bind_fuel in E. destruct E as [E|(? & _ & E)]; [eexists _, _; exact E|].
        do 3 (apply bind_fuel in E; destruct E as [E|(? & _ & E)]; [now apply get2_fuel in E|]).
        apply bind_fuel in E. destruct E as [E|(? & _ & E)]; [now apply usub_fuel in E|discriminate]. }
      apply bind_fuel in E. destruct E as [E|(cells & _ & E)].
      { exfalso. apply mapM_fuel in E. destruct E as (i & E). unfold grid_cell in E. cbv zeta in E.
        do 2 (apply bind_fuel in E; destruct E as [E|(? & _ & E)]; [now apply usub_fuel in E|]).
        do 4 (apply bind_fuel in E; destruct E as [E|(? & _ & E)]; [now apply get2_fuel in E|]).
        apply bind_fuel in E; destruct E as [E|(? & _ & E)].
        { unfold cell_south in E. apply bind_fuel in E; destruct E as [E|(? & _ & E)]; [now apply usub_fuel in E|discriminate]. }
        apply bind_fuel in E; destruct E as [E|(? & _ & E)].
        { unfold cell_east in E. apply bind_fuel in E; destruct E as [E|(? & _ & E)]; [now apply usub_fuel in E|discriminate]. }
        apply bind_fuel in E; destruct E as [E|(? & _ & E)].
        { unfold cell_north in E. destruct (_ =? 0) in E; [discriminate|]. apply bind_fuel in E; destruct E as [E|(? & _ & E)]; [now apply usub_fuel in E|discriminate]. }
        apply bind_fuel in E; destruct E as [E|(? & _ & E)]; [|discriminate].
        unfold cell_west in E. destruct (_ =? 0) in E; [discriminate|]. apply bind_fuel in E; destruct E as [E|(? & _ & E)]; [now apply usub_fuel in E|discriminate]. }
      destruct opts as [o|]; [|discriminate]. apply foldM_fuel in E. destruct E as (nodes & id & _ & E). unfold divide in E.
      apply iterate_fuel in E; [|unfold adapt_fuel; lia]. destruct E as (uv & E). now apply evaluate_fuel in E.
    - destruct (adaptive_forest _ _ _ _ En) as (us & vs & du & dv & b & _ & _ & _ & F).
      unfold tess_new in E. apply bind_fuel in E. destruct E as [E|(bo & _ & E)].
      { destruct c as [c|]; [|discriminate]. apply bind_fuel in E. destruct E as [E|(? & _ & E)]; [|discriminate].
        unfold boundary_evaluation in E. apply bind_fuel in E. destruct E as [E|([? ?] & _ & E)]; [now apply domain_fuel in E|].
        apply bind_fuel in E. destruct E as [E|([? ?] & _ & E)]; [now apply domain_fuel in E|].
        do 4 (apply bind_fuel in E; destruct E as [E|(? & _ & E)]; [now apply boundary_points_fuel in E|]). discriminate. }
      apply foldM_fuel in E. destruct E as (m & n & _ & E). unfold triangulate in E. destruct (an_children n); [discriminate|].
      apply bind_fuel in E. destruct E as [E|([sid pts] & _ & E)].
      { exfalso. unfold leaf_polygon in E. apply bind_fuel in E. destruct E as [E|(cs & _ & E)].
        - apply mapM_fuel in E. destruct E as (e & E). unfold get_all_corners in E. destruct (four (an_nb n) e) as [j|]; [|discriminate].
          apply bind_fuel in E. destruct E as [E|(? & _ & E)]; [|discriminate]. now apply (edge_corners_fuel _ _ _ _ _ _ F) in E.
        - cbv zeta in E. apply bind_fuel in E. destruct E as [E|(? & _ & E)]; [|discriminate].
          destruct bo; [|discriminate]. apply mapM_fuel in E. destruct E as (p & E). now apply snap_fuel in E. }
      cbv zeta in E. destruct (length pts =? 4); [discriminate|]. destruct (length pts =? 5).
      { apply bind_fuel in E. destruct E as [E|(? & _ & E)]; [now apply get_fuel in E|discriminate]. }
      apply bind_fuel in E. destruct E as [E|(? & _ & E)]; [now apply evaluate_fuel in E|].
      apply bind_fuel in E. destruct E as [E|(? & _ & E)]; [now apply usub_fuel in E|discriminate].
  Qed.

  (** the number of nodes *)
  Theorem adaptive_node_count s c opts nodes : adaptive_nodes s c opts = Ok nodes ->
    exists us vs, let o := match opts with Some o => o | None => ao_default end in
      adaptive_grid s c o = Ok (us, vs) /\
      length nodes <= (length vs - 1) * (length us - 1) * (2 ^ S (Nat.max (ao_min_depth o) (ao_max_depth o)) - 1).
  Proof.
    intros E. destruct (adaptive_forest _ _ _ _ E) as (us & vs & du & dv & b & Eg & Lu & Lv & F). exists us, vs. cbv zeta in *.
    set (h := Nat.max _ _) in *. split; [exact Eg|]. rewrite Lu, Lv. replace (S dv - 1) with dv by lia. replace (S du - 1) with du by lia.
    set (N := dv * du) in *. destruct F as (B0 & BN & B). rewrite <- BN.
    assert (P : 2 <= 2 ^ S h) by (cbn [Nat.pow]; pose proof (Nat.pow_nonzero 2 h); lia).
    assert (G : forall k, k <= N -> b k <= N + k * (2 ^ S h - 2)).
    { induction k as [|k IH]; intros Hk; [lia|]. destruct (B k ltac:(lia)) as (_ & Tk). apply tree_count in Tk. specialize (IH ltac:(lia)). cbn [Nat.mul]. lia. }
    specialize (G N ltac:(lia)). replace (2 ^ S h - 1) with (1 + (2 ^ S h - 2)) by lia. rewrite Nat.mul_add_distr_l. lia.
  Qed.
End Forest.
