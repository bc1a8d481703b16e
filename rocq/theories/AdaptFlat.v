(** * Adaptive tessellation divides a cell exactly when the options ask for it *)
From Coq Require Import String ZArith Lia.
From Verif Require Import Base BaseFacts Scalar KnotModel MiscModel CurveModel SurfaceModel AdaptModel AdaptProofs AdaptForest.
Local Open Scope nat_scope.

Section Flat.
  Context {T : Type} {SO : Scalar T}.

  (** the normals at two corners differ by more than the tolerance *)
  Definition bent (o : AOpts T) (a b : SPoint T) : Prop := (ao_tol o <? vnorm2 (vsub (sp_normal a) (sp_normal b)))%S = true.
  (** corners 0, 1 are the lower side and 2, 3 the upper side; 1, 2 the right side and 3, 0 the left side *)
  Definition bent_along_u (o : AOpts T) (c : Four (SPoint T)) : Prop := bent o (f0 c) (f1 c) \/ bent o (f2 c) (f3 c).
  Definition bent_along_v (o : AOpts T) (c : Four (SPoint T)) : Prop := bent o (f1 c) (f2 c) \/ bent o (f3 c) (f0 c).
  Definition corner (c : Four (SPoint T)) (p : SPoint T) : Prop := p = f0 c \/ p = f1 c \/ p = f2 c \/ p = f3 c.
  (** constrained sides are not divided *)
  Definition free_u (c : Four (SPoint T)) : Prop := forall p, corner c p -> sp_ucon p = false.
  Definition free_v (c : Four (SPoint T)) : Prop := forall p, corner c p -> sp_vcon p = false.
  Definition degenerate (c : Four (SPoint T)) : Prop := exists p, corner c p /\ sp_degen p = true.
  Definition cut_u (o : AOpts T) (c : Four (SPoint T)) : Prop := bent_along_u o c /\ free_u c.
  Definition cut_v (o : AOpts T) (c : Four (SPoint T)) : Prop := bent_along_v o c /\ free_v c.

  (** node [id], at depth [d], with the nodes [lo..hi) below it, covers [r]: it is a leaf only if it is deep enough and
      too deep, degenerate or flat; it is divided only if it is too shallow, or neither too deep nor degenerate and bent
      across the division *)
  Inductive cell (o : AOpts T) (nodes : list (ANode T)) : nat -> nat -> nat -> nat -> Rect T -> Prop :=
  | cell_leaf d id lo r n : nth_error nodes id = Some n -> an_children n = None -> shaped (an_corners n) r ->
      ao_min_depth o <= d ->
      (ao_max_depth o <= d \/ degenerate (an_corners n) \/ (~ cut_u o (an_corners n) /\ ~ cut_v o (an_corners n))) ->
      cell o nodes d id lo lo r
  | cell_split d id lo m hi r n : nth_error nodes id = Some n -> an_children n = Some (lo, S lo) -> shaped (an_corners n) r ->
      (d < ao_min_depth o \/
       (d < ao_max_depth o /\ ~ degenerate (an_corners n) /\
        match an_dir n with DirU => cut_v o (an_corners n) | DirV => cut_u o (an_corners n) end)) ->
      cell o nodes (S d) lo (S (S lo)) m (lower (an_dir n) r) ->
      cell o nodes (S d) (S lo) m hi (upper (an_dir n) r) ->
      cell o nodes d id lo hi r.

  Lemma cell_le o nodes d id lo hi r : cell o nodes d id lo hi r -> lo <= hi.
  Proof. induction 1; lia. Qed.
  Lemma cell_frame o nodes nodes' d id lo hi r : cell o nodes d id lo hi r ->
    (forall j, j = id \/ lo <= j < hi -> nth_error nodes' j = nth_error nodes j) -> cell o nodes' d id lo hi r.
  Proof.
    induction 1 as [d id lo r n E1 E2 E3 E4 E5|d id lo m hi r n E1 E2 E3 E4 T0 IH0 T1 IH1]; intros F.
    - apply (cell_leaf _ _ _ _ _ _ n); auto. rewrite F; auto.
    - pose proof (cell_le _ _ _ _ _ _ _ T0). pose proof (cell_le _ _ _ _ _ _ _ T1).
      apply (cell_split _ _ _ _ _ m _ _ n); auto; [rewrite F; auto| |].
      + apply IH0. intros j Hj. apply F. lia.
      + apply IH1. intros j Hj. apply F. lia.
  Qed.

  Lemma corners_all (c : Four (SPoint T)) (f : SPoint T -> bool) : negb (f (f0 c)) && negb (f (f1 c)) && negb (f (f2 c)) && negb (f (f3 c)) = true <->
    forall p, corner c p -> f p = false.
  Proof.
    split.
    - intros H p Hp. repeat (apply andb_prop in H; destruct H as (H & ?)). destruct Hp as [->|[->|[->| ->]]]; now apply Bool.negb_true_iff.
    - intros H. rewrite !(H _) by (unfold corner; auto). reflexivity.
  Qed.
  Lemma bad_iff (c : Four (SPoint T)) : has_bad_normals c = true <-> degenerate c.
  Proof.
    unfold has_bad_normals, degenerate, corner. split.
    - intros H. repeat (apply Bool.orb_true_iff in H; destruct H as [H|H]); eauto 7.
    - intros (p & [->|[->|[->| ->]]] & ->); rewrite ?Bool.orb_true_r; reflexivity.
  Qed.
  Lemma fix_degen c : degenerate c -> degenerate (fix_normals c).
  Proof.
    assert (G : forall p v w : SPoint T, sp_degen (fix_normal p v w) = sp_degen p) by (intros p v w; unfold fix_normal; destruct (sp_degen p) eqn:E; [exact E|exact E]).
    rewrite <- !bad_iff. unfold has_bad_normals, fix_normals. cbn [f0 f1 f2 f3]. now rewrite !G.
  Qed.

  Lemma should_divide_spec o d n n' dv : should_divide o d n = (n', dv) ->
    match dv with
    | None => ao_min_depth o <= d /\ (ao_max_depth o <= d \/ degenerate (an_corners n') \/ (~ cut_u o (an_corners n') /\ ~ cut_v o (an_corners n')))
    | Some dv => n' = n /\ (d < ao_min_depth o \/ (d < ao_max_depth o /\ ~ degenerate (an_corners n) /\
                   match dv with DivBoth => cut_u o (an_corners n) /\ cut_v o (an_corners n) | DivU => cut_v o (an_corners n) | DivV => cut_u o (an_corners n) end))
    end.
  Proof.
    unfold should_divide. destruct (Nat.ltb_spec d (ao_min_depth o)) as [H|H]; [intros E; injection E as <- <-; auto|].
    destruct (Nat.leb_spec (ao_max_depth o) d) as [H2|H2]; [intros E; injection E as <- <-; auto|].
    set (c := an_corners n). destruct (has_bad_normals c) eqn:B.
    { intros E; injection E as <- <-. cbn [an_corners]. apply bad_iff, fix_degen in B. auto. }
    assert (ND : ~ degenerate c) by (rewrite <- bad_iff; congruence).
    cbv zeta.
    assert (GV : ((normals_differ (ao_tol o) (f1 c) (f2 c) || normals_differ (ao_tol o) (f3 c) (f0 c)) &&
          (negb (sp_vcon (f0 c)) && negb (sp_vcon (f1 c)) && negb (sp_vcon (f2 c)) && negb (sp_vcon (f3 c)))) = true <-> cut_v o c).
    { unfold cut_v, bent_along_v, bent, free_v, normals_differ. rewrite Bool.andb_true_iff, Bool.orb_true_iff, (corners_all c sp_vcon). reflexivity. }
    assert (GU : ((normals_differ (ao_tol o) (f0 c) (f1 c) || normals_differ (ao_tol o) (f2 c) (f3 c)) &&
          (negb (sp_ucon (f0 c)) && negb (sp_ucon (f1 c)) && negb (sp_ucon (f2 c)) && negb (sp_ucon (f3 c)))) = true <-> cut_u o c).
    { unfold cut_u, bent_along_u, bent, free_u, normals_differ. rewrite Bool.andb_true_iff, Bool.orb_true_iff, (corners_all c sp_ucon). reflexivity. }
    destruct ((normals_differ (ao_tol o) (f1 c) (f2 c) || _) && _), ((normals_differ (ao_tol o) (f0 c) (f1 c) || _) && _); intros E; injection E as <- <-.
    - split; [reflexivity|]. right. split; [exact H2|]. split; [exact ND|]. split; [now apply GU|now apply GV].
    - split; [reflexivity|]. right. split; [exact H2|]. split; [exact ND|]. now apply GV.
    - split; [reflexivity|]. right. split; [exact H2|]. split; [exact ND|]. now apply GU.
    - split; [exact H|]. right. right. fold c. split; [rewrite <- GU|rewrite <- GV]; discriminate.
  Qed.

  Lemma iterate_cell s o : forall fuel nodes id depth dir nodes' n r nb,
    iterate fuel s o nodes id depth dir = Ok nodes' ->
    nth_error nodes id = Some n -> an_children n = None -> node_ok n r nb ->
    cell o nodes' depth id (length nodes) (length nodes') r /\
    (forall j, j <> id -> j < length nodes -> nth_error nodes' j = nth_error nodes j).
  Proof.
    induction fuel as [|fuel IH]; intros nodes id depth dir nodes' n r nb E En Ec Hn; [discriminate|].
    cbn [iterate] in E. rewrite (proj2 (nth_error_get _ _ _) En) in E. cbn [bind] in E.
    destruct (should_divide o depth n) as [n' dv] eqn:Es.
    destruct (should_divide_ok _ _ _ _ _ _ _ Hn Es) as (Hn' & Ec' & _). rewrite Ec in Ec'. apply should_divide_spec in Es.
    assert (Hid : id < length nodes) by (apply nth_error_Some; congruence).
    destruct dv as [dv|].
    - destruct Es as (-> & Es). set (d := match dv with DivBoth => dir | DivU => DirU | DivV => DirV end) in E.
      apply bind_ok in E. destruct E as ([c0 c1] & Esp & E).
      destruct (split_node_ok _ _ _ _ _ _ _ _ Hn' Esp) as ((K0 & L0) & (K1 & L1)).
      apply bind_ok in E. destruct E as (nodes1 & E1 & E). apply set_inv in E1. destruct E1 as (_ & ->).
      apply bind_ok in E. destruct E as (nodes2 & E2 & E3).
      set (n1 := MkANode (Some (length nodes, S (length nodes))) (an_corners n) (an_nb n) d (an_center n)) in *.
      set (base := upd nodes id n1 ++ [c0; c1]) in *.
      assert (Lb : length base = S (S (length nodes))) by (unfold base; rewrite app_length, upd_length; cbn; lia).
      assert (B0 : nth_error base (length nodes) = Some c0).
      { unfold base. rewrite nth_error_app2; rewrite upd_length; [|lia]. now rewrite Nat.sub_diag. }
      assert (B1 : nth_error base (S (length nodes)) = Some c1).
      { unfold base. rewrite nth_error_app2; rewrite upd_length; [|lia]. now replace (S (length nodes) - length nodes) with 1 by lia. }
      destruct (IH _ _ _ _ _ _ _ _ E2 B0 L0 K0) as (T0 & F0). rewrite Lb in T0, F0.
      pose proof (cell_le _ _ _ _ _ _ _ T0) as LE0.
      assert (B1' : nth_error nodes2 (S (length nodes)) = Some c1) by (rewrite F0 by lia; exact B1).
      destruct (IH _ _ _ _ _ _ _ _ E3 B1' L1 K1) as (T1 & F1). pose proof (cell_le _ _ _ _ _ _ _ T1) as LE1.
      assert (O : forall j, j < length nodes -> nth_error nodes' j = nth_error (upd nodes id n1) j).
      { intros j Hj. rewrite F1 by lia. rewrite F0 by lia. unfold base. rewrite nth_error_app1; [reflexivity|]. rewrite upd_length. exact Hj. }
      split.
      + apply (cell_split _ _ _ _ _ (length nodes2) _ _ n1).
        * rewrite O by exact Hid. now apply nth_error_upd_same.
        * reflexivity.
        * exact (proj1 Hn').
        * unfold n1. cbn [an_corners an_dir]. destruct Es as [Es|(Es1 & Es2 & Es3)]; [now left|]. right. split; [exact Es1|]. split; [exact Es2|].
          unfold d. destruct dv; [destruct dir; apply Es3|exact Es3|exact Es3].
        * eapply cell_frame; [exact T0|]. intros j Hj. apply F1; lia.
        * exact T1.
      + intros j Hj Lj. rewrite O by exact Lj. apply nth_error_upd_other; auto.
    - apply set_inv in E. destruct E as (_ & ->). rewrite upd_length. split.
      + apply (cell_leaf _ _ _ _ _ _ n'); [now apply nth_error_upd_same|exact Ec'|exact (proj1 Hn')|apply Es|apply Es].
      + intros j Hj _. apply nth_error_upd_other; auto.
  Qed.

  (** the node store: cell [i] of the grid is divided into the nodes [b i .. b (i + 1))] *)
  Definition divided (o : AOpts T) (nodes : list (ANode T)) (N : nat) (rect : nat -> Rect T) (b : nat -> nat) : Prop :=
    b 0 = N /\ b N = length nodes /\ forall i, i < N -> b i <= b (S i) /\ cell o nodes 0 i (b i) (b (S i)) (rect i).

  Lemma divide_cells s o rect nb N : forall cells nodes, length cells = N ->
    (forall i, i < N -> exists n, nth_error cells i = Some n /\ node_ok n (rect i) (nb i) /\ an_children n = None) ->
    foldM (divide s o) (seq 0 N) cells = Ok nodes ->
    exists b, divided o nodes N rect b.
  Proof.
    intros cells nodes L0 HC E.
    assert (G : forall k j nodes0, j + k = N ->
      (exists b, b 0 = N /\ b j = length nodes0 /\
        (forall i, i < j -> b i <= b (S i) /\ cell o nodes0 0 i (b i) (b (S i)) (rect i)) /\
        (forall i, j <= i < N -> exists n, nth_error nodes0 i = Some n /\ node_ok n (rect i) (nb i) /\ an_children n = None)) ->
      foldM (divide s o) (seq j k) nodes0 = Ok nodes -> exists b, divided o nodes N rect b).
    { induction k as [|k IH]; intros j nodes0 Hj (b & B0 & Bj & Bt & Bl) F; cbn [seq foldM] in F.
      - injection F as <-. exists b. replace N with j in * by lia. split; [exact B0|]. split; [exact Bj|]. intros i Hi. now apply Bt.
      - apply bind_ok in F. destruct F as (nodes1 & F1 & F).
        destruct (Bl j ltac:(lia)) as (n & En & Hn & Cn). unfold divide in F1.
        destruct (iterate_cell _ _ _ _ _ _ _ _ _ _ _ F1 En Cn Hn) as (Tj & Fr). pose proof (cell_le _ _ _ _ _ _ _ Tj) as LE.
        assert (MB : forall i, i <= j -> N <= b i <= length nodes0).
        { intros i Hi. rewrite <- Bj, <- B0. clear - Bt Hi. split.
          - induction i as [|i IHi]; [lia|]. destruct (Bt i ltac:(lia)). etransitivity; [apply IHi; lia|lia].
          - induction Hi as [|j Hi IHi]; [lia|]. destruct (Bt j ltac:(lia)). etransitivity; [apply IHi; intros; apply Bt; lia|lia]. }
        pose proof (MB j ltac:(lia)) as LN.
        apply (IH (S j) nodes1); [lia| |exact F].
        exists (fun i => if i <=? j then b i else length nodes1). cbv beta. split; [exact B0|].
        rewrite (proj2 (Nat.leb_gt (S j) j)) by lia. split; [reflexivity|]. split.
        + intros i Hi. rewrite (proj2 (Nat.leb_le i j)) by lia. destruct (Nat.eq_dec i j) as [->|Nij].
          * rewrite (proj2 (Nat.leb_gt (S j) j)) by lia. rewrite Bj. split; [exact LE|exact Tj].
          * rewrite (proj2 (Nat.leb_le (S i) j)) by lia. destruct (Bt i ltac:(lia)) as (Bi & Ti). split; [exact Bi|].
            eapply cell_frame; [exact Ti|]. intros x Hx. pose proof (MB i ltac:(lia)). pose proof (MB (S i) ltac:(lia)). apply Fr; lia.
        + intros i Hi. destruct (Bl i ltac:(lia)) as (n' & En' & Hn' & Cn'). exists n'. rewrite Fr by lia. auto. }
    apply (G N 0 cells); [lia| |exact E]. exists (fun _ => N). split; [reflexivity|]. split; [auto|]. split; [intros; lia|]. intros i Hi. apply HC. lia.
  Qed.

  (** with options, every cell of the grid is divided exactly as asked; without, no cell is divided *)
  Theorem adaptive_divides s c opts nodes : adaptive_nodes s c opts = Ok nodes ->
    exists us vs du dv, let o := match opts with Some o => o | None => ao_default end in
      adaptive_grid s c o = Ok (us, vs) /\ length us = S du /\ length vs = S dv /\
      match opts with
      | Some o => exists b, divided o nodes (dv * du) (cell_rect us vs du dv) b
      | None => length nodes = dv * du /\ forall i, i < dv * du -> exists n,
          nth_error nodes i = Some n /\ an_children n = None /\ shaped (an_corners n) (cell_rect us vs du dv i)
      end.
  Proof.
    unfold adaptive_nodes. intros E. set (o := match opts with Some o => o | None => ao_default end) in *.
    apply bind_ok in E. destruct E as ([us vs] & Eg & E). apply bind_ok in E. destruct E as (du & Edu & E).
    apply bind_ok in E. destruct E as (dv & Edv & E). apply usub_inv in Edu, Edv. destruct Edu as (Lu & ->), Edv as (Lv & ->).
    apply bind_ok in E. destruct E as (pts & Ep & E). apply bind_ok in E. destruct E as (cells & Ec & E).
    set (du := length us - 1) in *. set (dv := length vs - 1) in *.
    exists us, vs, du, dv.
    assert (LC : length cells = dv * du) by (erewrite <- (Forall2_len _ _ _ (mapM_inv _ _ _ Ec)); apply seq_length).
    assert (HC : forall i, i < dv * du -> exists n, nth_error cells i = Some n /\ node_ok n (cell_rect us vs du dv i) (cell_nb du dv i) /\ an_children n = None).
    { intros i Hi. destruct (nth_error cells i) as [n|] eqn:En; [|apply nth_error_None in En; lia].
      exists n. split; [reflexivity|]. destruct (mapM_nth_error _ _ _ _ _ Ec En) as (i' & Ei & Eb).
      assert (i' = i) as ->.
      { apply (nth_error_nth_some _ _ _ 0) in Ei. rewrite seq_nth in Ei by exact Hi. lia. }
      apply (grid_cell_ok s c us vs du dv pts i n Ep); [|exact Eb]. destruct du; lia. }
    destruct opts as [o'|]; cbv zeta; (split; [exact Eg|]; split; [lia|]; split; [lia|]).
    - apply (divide_cells _ _ _ _ _ _ _ LC HC E).
    - injection E as <-. split; [exact LC|]. intros i Hi. destruct (HC i Hi) as (n & En & Hn & Cn). exists n. split; [exact En|]. split; [exact Cn|exact (proj1 Hn)].
  Qed.

  (** the default options: normals within 1/40 of each other (squared), or eight divisions *)
  Theorem adaptive_default s c nodes : adaptive_nodes s c (Some ao_default) = Ok nodes ->
    exists us vs du dv b, adaptive_grid s c ao_default = Ok (us, vs) /\ length us = S du /\ length vs = S dv /\
      divided (MkAOpts (slit 25 1000) 1 1 0 8) nodes (dv * du) (cell_rect us vs du dv) b.
  Proof.
    intros E. destruct (adaptive_divides _ _ _ _ E) as (us & vs & du & dv & H). cbv zeta in H.
    destruct H as (H1 & H2 & H3 & b & H4). exists us, vs, du, dv, b. auto.
  Qed.
End Flat.
