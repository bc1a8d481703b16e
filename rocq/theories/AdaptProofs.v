(** * The store of nodes is a forest of binary subdivisions *)
From Coq Require Import String ZArith Lia.
From Verif Require Import Base BaseFacts Scalar KnotModel MiscModel CurveModel SurfaceModel AdaptModel.
Local Open Scope nat_scope.

(** a rectangle of parameters: left, bottom, right, top *)
Record Rect (T : Type) := MkRect { rl : T; rb : T; rr : T; rt : T }.
Arguments MkRect {T}. Arguments rl {T}. Arguments rb {T}. Arguments rr {T}. Arguments rt {T}.

Section Tree.
  Context {T : Type} {SO : Scalar T}.

  Definition half_u (r : Rect T) : T := ((rl r + rr r) * slit 1 2)%S.
  Definition half_v (r : Rect T) : T := ((rb r + rt r) * slit 1 2)%S.
  (** division along u puts a lower and an upper half, along v a left and a right half *)
  Definition lower (d : UV) (r : Rect T) : Rect T :=
    match d with DirU => MkRect (rl r) (rb r) (rr r) (half_v r) | DirV => MkRect (rl r) (rb r) (half_u r) (rt r) end.
  Definition upper (d : UV) (r : Rect T) : Rect T :=
    match d with DirU => MkRect (rl r) (half_v r) (rr r) (rt r) | DirV => MkRect (half_u r) (rb r) (rr r) (rt r) end.
  Definition lower_nb (d : UV) (nb : Four (option nat)) (lo : nat) : Four (option nat) :=
    match d with
    | DirU => MkFour (f0 nb) (f1 nb) (Some (S lo)) (f3 nb)
    | DirV => MkFour (f0 nb) (Some (S lo)) (f2 nb) (f3 nb)
    end.
  Definition upper_nb (d : UV) (nb : Four (option nat)) (lo : nat) : Four (option nat) :=
    match d with
    | DirU => MkFour (Some lo) (f1 nb) (f2 nb) (f3 nb)
    | DirV => MkFour (f0 nb) (f1 nb) (f2 nb) (Some lo)
    end.

  Definition shaped (c : Four (SPoint T)) (r : Rect T) : Prop :=
    sp_uv (f0 c) = (rl r, rb r) /\ sp_uv (f1 c) = (rr r, rb r) /\ sp_uv (f2 c) = (rr r, rt r) /\ sp_uv (f3 c) = (rl r, rt r).
  Definition node_ok (n : ANode T) (r : Rect T) (nb : Four (option nat)) : Prop :=
    shaped (an_corners n) r /\ an_nb n = nb /\ an_center n = (half_u r, half_v r).

  (** the node [id] with the nodes [lo..hi) below it is a subdivision of [r] of height at most [h] *)
  Inductive tree (nodes : list (ANode T)) : nat -> nat -> nat -> nat -> Rect T -> Four (option nat) -> Prop :=
  | tree_leaf h id lo r nb n : nth_error nodes id = Some n -> an_children n = None -> node_ok n r nb ->
      tree nodes h id lo lo r nb
  | tree_split h id lo m hi r nb n d : nth_error nodes id = Some n -> an_children n = Some (lo, S lo) -> an_dir n = d ->
      node_ok n r nb ->
      tree nodes h lo (S (S lo)) m (lower d r) (lower_nb d nb lo) ->
      tree nodes h (S lo) m hi (upper d r) (upper_nb d nb lo) ->
      tree nodes (S h) id lo hi r nb.

  Lemma tree_le nodes h id lo hi r nb : tree nodes h id lo hi r nb -> lo <= hi.
  Proof. induction 1; lia. Qed.
  Lemma tree_count nodes h id lo hi r nb : tree nodes h id lo hi r nb -> hi - lo + 2 <= 2 ^ S h.
  Proof.
    induction 1 as [h id lo r nb n|h id lo m hi r nb n d En Ec Ed Hn T0 IH0 T1 IH1].
    - pose proof (Nat.pow_nonzero 2 h). cbn [Nat.pow]. lia.
    - pose proof (tree_le _ _ _ _ _ _ _ T0). pose proof (tree_le _ _ _ _ _ _ _ T1). cbn [Nat.pow] in *. lia.
  Qed.
  Lemma tree_frame nodes nodes' h id lo hi r nb : tree nodes h id lo hi r nb ->
    (forall j, j = id \/ lo <= j < hi -> nth_error nodes' j = nth_error nodes j) -> tree nodes' h id lo hi r nb.
  Proof.
    induction 1 as [h id lo r nb n E1 E2 E3|h id lo m hi r nb n d En Ec Ed Hn T0 IH0 T1 IH1]; intros F.
    - apply (tree_leaf _ _ _ _ _ _ n); auto. rewrite F; auto.
    - pose proof (tree_le _ _ _ _ _ _ _ T0). pose proof (tree_le _ _ _ _ _ _ _ T1).
      apply (tree_split _ _ _ _ m _ _ _ n d); auto.
      + rewrite F; auto.
      + apply IH0. intros j Hj. apply F. lia.
      + apply IH1. intros j Hj. apply F. lia.
  Qed.

  (** ** One division *)
  Lemma fix_normal_uv (p a b : SPoint T) : sp_uv (fix_normal p a b) = sp_uv p.
  Proof. unfold fix_normal. now destruct (sp_degen p). Qed.
  Lemma should_divide_ok o depth (n : ANode T) n' d r nb : node_ok n r nb -> should_divide o depth n = (n', d) ->
    node_ok n' r nb /\ an_children n' = an_children n /\ (depth >= Nat.max (ao_min_depth o) (ao_max_depth o) -> d = None).
  Proof.
    intros H E. unfold should_divide in E.
    destruct (Nat.ltb_spec depth (ao_min_depth o)) as [G1|G1]; [injection E as <- <-; split; [exact H|]; split; [reflexivity|lia]|].
    destruct (Nat.leb_spec (ao_max_depth o) depth) as [G2|G2]; [injection E as <- <-; auto|].
    assert (N : depth >= Nat.max (ao_min_depth o) (ao_max_depth o) -> d = None) by lia.
    destruct (has_bad_normals (an_corners n)).
    - injection E as <- <-. split; [|auto]. destruct H as ((H0 & H1 & H2 & H3) & Hn & Hc). split; [|auto].
      cbn [an_corners]. unfold shaped, fix_normals. cbv zeta. cbn [f0 f1 f2 f3]. rewrite !fix_normal_uv. auto.
    - destruct (_ && _)%bool in E; destruct (_ && _)%bool in E; injection E as <- <-; auto.
  Qed.
  Lemma evaluate_uv s uv p : evaluate_surface s uv = Ok p -> sp_uv p = uv.
  Proof.
    unfold evaluate_surface. intros E. do 4 (apply bind_ok in E; destruct E as (? & _ & E)). now injection E as <-.
  Qed.
  Lemma split_node_ok s n d id0 c0 c1 r nb : node_ok n r nb -> split_node s n d id0 (S id0) = Ok (c0, c1) ->
    (node_ok c0 (lower d r) (lower_nb d nb id0) /\ an_children c0 = None) /\
    (node_ok c1 (upper d r) (upper_nb d nb id0) /\ an_children c1 = None).
  Proof.
    intros ((H0 & H1 & H2 & H3) & Hn & Hc) E. unfold split_node in E.
    destruct d; apply bind_ok in E; destruct E as (p & Ep & E); apply bind_ok in E; destruct E as (q & Eq & E);
      injection E as <- <-; apply evaluate_uv in Ep, Eq; unfold mid_uv in Ep, Eq; rewrite ?H0, ?H1, ?H2, Hc in Ep, Eq;
      cbn [fst snd] in Ep, Eq; subst nb; repeat split; unfold an_new; cbn [f0 f1 f2 f3 an_corners an_nb an_center an_children lower upper rl rb rr rt lower_nb upper_nb];
      rewrite ?Ep, ?Eq, ?H0, ?H1, ?H2, ?H3; reflexivity.
  Qed.

  Lemma nth_error_get {A} (l : list A) i a : get l i = Ok a <-> nth_error l i = Some a.
  Proof. unfold get. destruct (nth_error l i); split; intros H; try discriminate; injection H as ->; reflexivity. Qed.
  Lemma nth_error_upd_same {A} (l : list A) i v : i < length l -> nth_error (upd l i v) i = Some v.
  Proof. revert i. induction l as [|a l IH]; intros [|i] H; cbn [length] in H; try lia; cbn; [reflexivity|]. apply IH. lia. Qed.
  Lemma nth_error_upd_other {A} (l : list A) i j v : i <> j -> nth_error (upd l i v) j = nth_error l j.
  Proof.
    revert i j. induction l as [|a l IH]; intros [|i] [|j] H; cbn; try reflexivity; try lia. apply IH. lia.
  Qed.

  Lemma iterate_tree s o : forall fuel nodes id depth dir nodes' n r nb,
    iterate fuel s o nodes id depth dir = Ok nodes' ->
    nth_error nodes id = Some n -> an_children n = None -> node_ok n r nb ->
    tree nodes' (fuel - 1) id (length nodes) (length nodes') r nb /\
    (forall j, j <> id -> j < length nodes -> nth_error nodes' j = nth_error nodes j).
  Proof.
    induction fuel as [|fuel IH]; intros nodes id depth dir nodes' n r nb E En Ec Hn; [discriminate|].
    cbn [iterate] in E. rewrite (proj2 (nth_error_get _ _ _) En) in E. cbn [bind] in E.
    destruct (should_divide o depth n) as [n' dv] eqn:Es.
    destruct (should_divide_ok _ _ _ _ _ _ _ Hn Es) as (Hn' & Ec' & _). rewrite Ec in Ec'.
    assert (Hid : id < length nodes) by (apply nth_error_Some; congruence).
    replace (S fuel - 1) with fuel by lia.
    destruct dv as [dv|].
    - set (d := match dv with DivBoth => dir | DivU => DirU | DivV => DirV end) in E.
      apply bind_ok in E. destruct E as ([c0 c1] & Esp & E).
      destruct (split_node_ok _ _ _ _ _ _ _ _ Hn' Esp) as ((K0 & L0) & (K1 & L1)).
      apply bind_ok in E. destruct E as (nodes1 & E1 & E). apply set_inv in E1. destruct E1 as (_ & ->).
      apply bind_ok in E. destruct E as (nodes2 & E2 & E3).
      set (n1 := MkANode (Some (length nodes, S (length nodes))) (an_corners n') (an_nb n') d (an_center n')) in *.
      set (base := upd nodes id n1 ++ [c0; c1]) in *.
      assert (Lb : length base = S (S (length nodes))) by (unfold base; rewrite app_length, upd_length; cbn; lia).
      assert (B0 : nth_error base (length nodes) = Some c0).
      { unfold base. rewrite nth_error_app2; rewrite upd_length; [|lia]. now rewrite Nat.sub_diag. }
      assert (B1 : nth_error base (S (length nodes)) = Some c1).
      { unfold base. rewrite nth_error_app2; rewrite upd_length; [|lia]. now replace (S (length nodes) - length nodes) with 1 by lia. }
      destruct (IH _ _ _ _ _ _ _ _ E2 B0 L0 K0) as (T0 & F0). rewrite Lb in T0, F0.
      pose proof (tree_le _ _ _ _ _ _ _ T0) as LE0.
      assert (B1' : nth_error nodes2 (S (length nodes)) = Some c1) by (rewrite F0 by lia; exact B1).
      destruct (IH _ _ _ _ _ _ _ _ E3 B1' L1 K1) as (T1 & F1). pose proof (tree_le _ _ _ _ _ _ _ T1) as LE1.
      assert (O : forall j, j < length nodes -> nth_error nodes' j = nth_error (upd nodes id n1) j).
      { intros j Hj. rewrite F1 by lia. rewrite F0 by lia. unfold base. rewrite nth_error_app1; [reflexivity|]. rewrite upd_length. exact Hj. }
      split.
      + destruct fuel as [|fuel']; [discriminate|]. cbn [Nat.sub] in *. rewrite Nat.sub_0_r in *.
        apply (tree_split _ _ _ _ (length nodes2) _ _ _ n1 d).
        * rewrite O by exact Hid. now apply nth_error_upd_same.
        * reflexivity.
        * reflexivity.
        * exact Hn'.
        * eapply tree_frame; [exact T0|]. intros j Hj. apply F1; lia.
        * exact T1.
      + intros j Hj Lj. rewrite O by exact Lj. apply nth_error_upd_other; auto.
    - apply set_inv in E. destruct E as (_ & ->). rewrite upd_length. split.
      + apply (tree_leaf _ _ _ _ _ _ n'); [now apply nth_error_upd_same|exact Ec'|exact Hn'].
      + intros j Hj _. apply nth_error_upd_other; auto.
  Qed.

  (** the recursion stops by itself *)
  Lemma bind_fuel {A B} (x : Res A) (f : A -> Res B) : bind x f = OutOfFuel -> x = OutOfFuel \/ exists a, x = Ok a /\ f a = OutOfFuel.
  Proof. destruct x; cbn [bind]; intros H; try discriminate; eauto. Qed.
  Lemma get_fuel {A} (l : list A) i : get l i <> OutOfFuel.
  Proof. unfold get. destruct (nth_error l i); discriminate. Qed.
  Lemma set_fuel {A} (l : list A) i v : set_ l i v <> OutOfFuel.
  Proof. unfold set_. destruct (Nat.ltb i (length l)); discriminate. Qed.
  Lemma iterate_fuel s o : forall fuel nodes id depth dir,
    depth <= Nat.max (ao_min_depth o) (ao_max_depth o) < fuel + depth ->
    iterate fuel s o nodes id depth dir = OutOfFuel -> exists uv, evaluate_surface s uv = OutOfFuel.
  Proof.
    induction fuel as [|fuel IH]; intros nodes id depth dir Hf E; [lia|]. cbn [iterate] in E.
    apply bind_fuel in E. destruct E as [E|(n & _ & E)]; [now apply get_fuel in E|].
    destruct (should_divide o depth n) as [n' [dv|]] eqn:Es; [|now apply set_fuel in E].
    assert (Hd : depth < Nat.max (ao_min_depth o) (ao_max_depth o)).
    { unfold should_divide in Es. destruct (Nat.ltb_spec depth (ao_min_depth o)); [lia|].
      destruct (Nat.leb_spec (ao_max_depth o) depth); [discriminate|lia]. }
    apply bind_fuel in E. destruct E as [E|([c0 c1] & _ & E)].
    - unfold split_node in E. destruct (match dv with DivBoth => dir | DivU => DirU | DivV => DirV end);
        (apply bind_fuel in E; destruct E as [E|(p & _ & E)]; [eexists; exact E|]);
        (apply bind_fuel in E; destruct E as [E|(q & _ & E)]; [eexists; exact E|discriminate]).
    - apply bind_fuel in E. destruct E as [E|(nodes1 & _ & E)]; [now apply set_fuel in E|].
      apply bind_fuel in E. destruct E as [E|(nodes2 & _ & E)]; [|]; eapply IH; try exact E; lia.
  Qed.

  (** ** Edges *)
  (** the points along an edge of a subdivided node; [d] across the edge means both halves touch it *)
  Lemma edge_corners_ok nodes h id lo hi r nb : tree nodes h id lo hi r nb -> forall fuel e, hi - lo < fuel ->
    exists l, get_edge_corners fuel nodes id e = Ok l.
  Proof.
    induction 1 as [h id lo r nb n E1 E2 E3|h id lo m hi r nb n d En Ec Ed Hn T0 IH0 T1 IH1]; intros fuel e Hf; (destruct fuel as [|fuel]; [lia|]);
      cbn [get_edge_corners].
    - rewrite (proj2 (nth_error_get _ _ _) E1). cbn [bind]. rewrite E2. eauto.
    - pose proof (tree_le _ _ _ _ _ _ _ T0). pose proof (tree_le _ _ _ _ _ _ _ T1).
      rewrite (proj2 (nth_error_get _ _ _) En). cbn [bind]. rewrite Ec, Ed.
      destruct d, e; try (apply IH0; lia); try (apply IH1; lia);
        match goal with |- context [get_edge_corners fuel nodes lo ?e] =>
          destruct (IH0 fuel e ltac:(lia)) as (l0 & ->); destruct (IH1 fuel e ltac:(lia)) as (l1 & ->); cbn [bind]; eauto end.
  Qed.

  (** ** The mesh *)
  Definition mesh_ok (m : Tess T) : Prop :=
    length (tnormals m) = length (tpts m) /\ length (tuvs m) = length (tpts m) /\
    Forall (fun f => length f = 3 /\ Forall (fun i => i < length (tpts m)) f) (tfaces m).

  Lemma faces_grow (fs : list (list nat)) a b : a <= b ->
    Forall (fun f => length f = 3 /\ Forall (fun i => i < a) f) fs -> Forall (fun f => length f = 3 /\ Forall (fun i => i < b) f) fs.
  Proof.
    intros Hab. apply Forall_impl. intros f (L & F). split; [exact L|]. eapply Forall_impl; [|exact F]. intros i Hi. cbv beta in *. lia.
  Qed.
  Lemma fan_ok c N : c < N -> forall ids j, j < N -> Forall (fun i => i < N) ids ->
    Forall (fun f => length f = 3 /\ Forall (fun i => i < N) f) (fan c j ids).
  Proof.
    intros Hc. induction ids as [|i ids IH]; intros j Hj F; [constructor|]. inversion F; subst. cbn [fan].
    constructor; [split; [reflexivity|repeat (apply Forall_cons; [assumption|]); constructor]|]. now apply IH.
  Qed.

  Lemma triangulate_ok s nodes b m n m' : mesh_ok m -> triangulate s nodes b m n = Ok m' -> mesh_ok m'.
  Proof.
    intros (HN & HU & HF) E. unfold triangulate in E. cbv beta zeta in E. destruct (an_children n); [injection E as <-; repeat split; auto|].
    apply bind_ok in E. destruct E as ([sid pts] & _ & E).
    assert (G : forall k, Forall (fun f => length f = 3 /\ Forall (fun i => i < length (tpts m) + k) f) (tfaces m)).
    { intros k. eapply faces_grow; [|exact HF]. lia. }
    destruct (Nat.eqb_spec (length pts) 4) as [K4|K4]; [|destruct (Nat.eqb_spec (length pts) 5) as [K5|K5]].
    - injection E as <-. unfold mesh_ok. cbn [tpts tnormals tuvs tfaces]. rewrite !app_length, !map_length.
      split; [lia|]. split; [lia|]. apply Forall_app. split; [apply G|].
      repeat (apply Forall_cons; [split; [reflexivity|repeat (apply Forall_cons; [cbv beta; lia|]); constructor]|]). constructor.
    - apply bind_ok in E. destruct E as (a & Ea & E). injection E as <-. apply get_inv in Ea. destruct Ea as (Ls & Ea).
      rewrite map_length, seq_length in Ls. specialize (Ea 0). unfold mesh_ok. cbn [tpts tnormals tuvs tfaces]. rewrite !app_length, !map_length.
      assert (La : a < length (tpts m) + length pts).
      { rewrite Ea. rewrite (nth_map_lt _ _ _ 0) by (now rewrite seq_length). rewrite seq_nth by exact Ls. lia. }
      assert (M : forall i, length (tpts m) + (sid + i) mod 5 < length (tpts m) + length pts).
      { intros i. pose proof (Nat.mod_upper_bound (sid + i) 5). lia. }
      split; [lia|]. split; [lia|]. apply Forall_app. split; [apply G|].
      repeat (apply Forall_cons; [split; [reflexivity|repeat (apply Forall_cons; [first [exact La|apply M]|]); constructor]|]). constructor.
    - apply bind_ok in E. destruct E as (c & Ec & E). apply bind_ok in E. destruct E as (k & Ek & E). injection E as <-.
      apply usub_inv in Ek. destruct Ek as (Ek & ->). unfold mesh_ok. cbn [tpts tnormals tuvs tfaces]. rewrite !app_length, !map_length. cbn [length].
      split; [lia|]. split; [lia|]. apply Forall_app. split; [rewrite <- Nat.add_assoc; apply G|].
      apply fan_ok; [lia|lia|]. apply Forall_forall. intros i Hi. apply in_map_iff in Hi. destruct Hi as (x & <- & Hx). apply in_seq in Hx. lia.
  Qed.

  Theorem adaptive_indices s c opts m : adaptive_tessellate s c opts = Ok m ->
    length (tnormals m) = length (tpts m) /\ length (tuvs m) = length (tpts m) /\
    Forall (fun f => length f = 3 /\ Forall (fun i => i < length (tpts m)) f) (tfaces m).
  Proof.
    unfold adaptive_tessellate, tess_new. intros E. apply bind_ok in E. destruct E as (nodes & _ & E).
    apply bind_ok in E. destruct E as (b & _ & E). change (mesh_ok m).
    assert (I : mesh_ok (MkTess [] [] [] [] : Tess T)) by (split; [|split]; [reflexivity|reflexivity|constructor]).
    revert E I. generalize (MkTess [] [] [] [] : Tess T). generalize nodes at 2. intros l. induction l as [|n l IH]; intros m0 E I.
    - injection E as <-. exact I.
    - cbn [foldM] in E. apply bind_ok in E. destruct E as (m1 & E1 & E). eapply IH; [exact E|]. eapply triangulate_ok; eauto.
  Qed.
End Tree.
