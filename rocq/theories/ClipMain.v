(** * Main theorems about boolean operations on boundary curves *)
From Coq Require Import Permutation ZArith.
From Verif Require Import Base BaseFacts Scalar ClipModel ClipSpec ClipProofs ClipBuild RegionModel
  RegionProofs.

Section Any.
  Context {T : Type} {SO : Scalar T}.

  (** ** Selection of the crossings *)
  Lemma deg_max_in {X} (l : list (X * Degeneracy T)) m : deg_max l = Some m -> In m l.
  Proof.
    destruct l as [|x l]; cbn; [discriminate|]. intros H. inversion H as [H1]. clear H H1.
    assert (G : forall l x, In (fold_left (fun m y : X * Degeneracy T =>
      if deg_gt (snd m) (snd y) then m else y) l x) (x :: l)).
    { clear. induction l as [|y l IH]; intros x; cbn; [now left|].
      destruct (deg_gt (snd x) (snd y)).
      - destruct (IH x) as [H|H]; [now left|right; now right].
      - right. exact (IH y). }
    exact (G l x).
  Qed.

  (** transversal crossings are kept, at most one degenerate one is added, and the number is even *)
  Theorem clip_select_spec {X} (l : list (X * Degeneracy T)) sel : clip_select l = Ok sel ->
    Nat.even (length sel) = true /\
    exists extra, sel = map fst (filter is_regular l) ++ extra /\
      (extra = [] \/ exists m d, extra = [m] /\ In (m, d) l /\ d <> DNone /\
                       Nat.even (length (filter is_regular l)) = false).
  Proof.
    unfold clip_select. set (reg := map fst (filter is_regular l)).
    destruct (Nat.even (length reg)) eqn:E.
    - rewrite E. cbn [ensure bind]. intros H. inversion H; subst. split; [assumption|].
      exists []. rewrite app_nil_r. split; [reflexivity|now left].
    - destruct (deg_max _) as [[m d]|] eqn:Em.
      + destruct (Nat.even (length (reg ++ [m]))) eqn:E2; cbn [ensure bind]; [|discriminate].
        intros H. inversion H; subst. split; [assumption|]. exists [m]. split; [reflexivity|].
        right. exists m, d. apply deg_max_in in Em. apply filter_In in Em. destruct Em as [K1 K2].
        unfold reg in E. rewrite map_length in E. split; [reflexivity|]. split; [assumption|].
        split; [|assumption]. intros ->. discriminate.
      + rewrite E. cbn [ensure bind]. discriminate.
  Qed.
  (** it gives up only on an odd number of transversal crossings and no degenerate one *)
  Theorem clip_select_fails {X} (l : list (X * Degeneracy T)) : errs (clip_select l) ->
    Nat.odd (length l) = true /\ forall x d, In (x, d) l -> d = DNone.
  Proof.
    unfold clip_select. set (reg := map fst (filter is_regular l)).
    destruct (Nat.even (length reg)) eqn:E.
    - rewrite E. cbn. intros [m H]. discriminate.
    - destruct (deg_max _) as [[m d]|] eqn:Em.
      + replace (Nat.even (length (reg ++ [m]))) with true.
        * cbn. intros [m' H]. discriminate.
        * rewrite app_length. cbn. rewrite Nat.add_comm. cbn [Nat.add].
          rewrite Nat.even_succ, <- Nat.negb_even, E. reflexivity.
      + intros _.
        assert (Hall : forall x d, In (x, d) l -> d = DNone).
        { intros x d Hin. destruct (filter (fun x => negb (is_regular x)) l) as [|y t] eqn:Ef;
            [|discriminate].
          assert (HH : ~ In (x, d) (filter (fun x => negb (is_regular x)) l))
            by (rewrite Ef; intros []).
          destruct d; [| |reflexivity]; exfalso; apply HH; apply filter_In; now split. }
        split; [|exact Hall].
        assert (filter is_regular l = l) as Hfl.
        { clear - Hall. induction l as [|[x d] l IH]; [reflexivity|]. cbn.
          rewrite (Hall x d) by now left. cbn. f_equal. apply IH. intros y e Hy. apply (Hall y e).
          now right. }
        unfold reg in E. rewrite map_length, Hfl in E. now rewrite <- Nat.negb_even, E.
  Qed.

  (** ** The walk *)
  Context {C CC : Type}.
  Variable trim : bool -> T -> T -> Res (list C).
  Variable mk_compound : list C -> Res CC.

  (** parameter of crossing [c] on a side *)
  Definition crossing_param (xs : list (T * T)) (d : T * T) (side : bool) (c : nat) : T :=
    let x := nth c xs d in if side then fst x else snd x.

  Definition order_of (f : T * T -> T) (sel : list (T * T)) : list nat :=
    map fst (fold_left (fun acc x => insert_key x acc) (keyed f sel) []).

  Lemma clip_walk_at subject clip_ op ca cb (l : list ((T * T) * Degeneracy T)) sel d :
    clip_select l = Ok sel -> sel <> [] -> comparable sel ->
    let oa := order_of fst sel in
    let ob := order_of snd sel in
    exists loops,
      Permutation oa (seq 0 (length sel)) /\ Permutation ob (seq 0 (length sel)) /\
      Forall (closed_loop (length sel) oa ob) loops /\
      Permutation (map (fun s => (sgside s, sgpos s)) (concat loops))
        (kept_segments (length sel) op true ca ++ kept_segments (length sel) op false cb) /\
      clip trim mk_compound subject clip_ op (Ok ca) (Ok cb) l
        = assemble (length sel) (fun s k => crossing_param sel d s (crossing oa ob s k))
            trim mk_compound loops [].
  Proof.
    intros Hs Hne Hc. destruct (clip_select_spec l sel Hs) as [Hev _].
    pose proof (clip_loops_aux trim mk_compound sel op ca cb d Hne Hev Hc) as HL. cbv zeta in HL.
    unfold order_of.
    set (a := fold_left (fun acc x => insert_key x acc) (keyed fst sel) []) in *.
    set (b := fold_left (fun acc x => insert_key x acc) (keyed snd sel) []) in *.
    destruct HL as (nodes & loops & HB & H1 & H2 & H3).
    exists loops. split; [|split; [|split; [|split]]].
    - unfold a. rewrite sort_fold_perm, app_nil_r, keyed_fst. reflexivity.
    - unfold b. rewrite sort_fold_perm, app_nil_r, keyed_fst. reflexivity.
    - exact H1.
    - exact H2.
    - unfold clip. rewrite Hs. cbn [bind]. destruct sel as [|x sel]; [congruence|].
      rewrite HB. cbn [bind]. rewrite H3. reflexivity.
  Qed.

  Theorem clip_walk subject clip_ op ca cb (l : list ((T * T) * Degeneracy T)) sel d :
    clip_select l = Ok sel -> sel <> [] -> comparable sel ->
    exists oa ob loops,
      Permutation oa (seq 0 (length sel)) /\ Permutation ob (seq 0 (length sel)) /\
      Forall (closed_loop (length sel) oa ob) loops /\
      Permutation (map (fun s => (sgside s, sgpos s)) (concat loops))
        (kept_segments (length sel) op true ca ++ kept_segments (length sel) op false cb) /\
      clip trim mk_compound subject clip_ op (Ok ca) (Ok cb) l
        = assemble (length sel) (fun s k => crossing_param sel d s (crossing oa ob s k))
            trim mk_compound loops [].
  Proof.
    intros Hs Hne Hc.
    destruct (clip_walk_at subject clip_ op ca cb l sel d Hs Hne Hc) as (loops & H).
    exists (order_of fst sel), (order_of snd sel), loops. exact H.
  Qed.

  (** the outcome of the assembly when trimming and joining succeed *)
  Theorem assemble_ok n par loops regions :
    (forall s a b, exists l, trim s a b = Ok l /\ l <> []) ->
    (forall l, exists c, mk_compound l = Ok c) ->
    exists rs, assemble n par trim mk_compound loops regions = Ok (regions ++ rs) /\
      length rs = length (filter (fun l => negb (length l =? 0)) loops) /\
      forall r, In r rs -> rinteriors r = [].
  Proof.
    intros Ht Hm. revert regions. induction loops as [|l loops IH]; intros regions.
    - exists []. cbn. rewrite app_nil_r. split; [reflexivity|]. split; [reflexivity|intros r []].
    - cbn [assemble filter].
      assert (Hsp : exists sp, loop_spans n par trim l = Ok sp /\ (l <> [] -> sp <> []) /\
                     (l = [] -> sp = [])).
      { clear IH. induction l as [|s l IHl]; [exists []; now cbn|]. cbn [loop_spans].
        destruct (Ht (sgside s) (par (sgside s) (sgpos s)) (par (sgside s) (next_pos n (sgpos s))))
          as (x & Ex & Hx). rewrite Ex. cbn [bind]. destruct IHl as (sp & Es & _).
        rewrite Es. cbn [bind]. exists (x ++ sp). split; [reflexivity|]. split; [|discriminate].
        intros _. destruct x; [congruence|discriminate]. }
      destruct Hsp as (sp & Es & Hn & He). rewrite Es. cbn [bind].
      destruct l as [|s l].
      + rewrite (He eq_refl). cbn [length Nat.eqb negb]. apply IH.
      + cbn [length Nat.eqb negb]. destruct sp as [|x sp]; [now destruct Hn|].
        destruct (Hm (x :: sp)) as (c & Ec). rewrite Ec. cbn [bind].
        destruct (IH (regions ++ [MkRegion c []])) as (rs & Er & Hl & Hr).
        exists (MkRegion c [] :: rs). rewrite Er, <- app_assoc. split; [reflexivity|].
        split; [cbn; now rewrite Hl|]. intros r [<-|Hin]; [reflexivity|now apply Hr].
  Qed.

  (** so the clipping never fails on its own account, and its regions have no holes *)
  Theorem clip_total subject clip_ op ca cb (l : list ((T * T) * Degeneracy T)) sel :
    clip_select l = Ok sel -> sel <> [] -> comparable sel ->
    (forall s a b, exists l, trim s a b = Ok l /\ l <> []) ->
    (forall l, exists c, mk_compound l = Ok c) ->
    exists rs, clip trim mk_compound subject clip_ op (Ok ca) (Ok cb) l = Ok rs /\ rs <> [] /\
      forall r, In r rs -> rinteriors r = [].
  Proof.
    intros Hs Hne Hc Ht Hm.
    assert (d : T * T) by (destruct sel as [|x sel]; [congruence|exact x]).
    destruct (clip_walk subject clip_ op ca cb l sel d Hs Hne Hc)
      as (oa & ob & loops & _ & _ & Hcl & Hk & E).
    destruct (assemble_ok (length sel) (fun s k => crossing_param sel d s (crossing oa ob s k))
      loops [] Ht Hm) as (rs & Er & Hl & Hr).
    rewrite E. exists rs. cbn [app] in Er. split; [exact Er|]. split; [|exact Hr].
    intros ->. cbn in Hl.
    assert (loops = []) as ->.
    { destruct loops as [|l0 loops]; [reflexivity|]. inversion Hcl; subst.
      destruct l0; [contradiction|]. cbn in Hl. discriminate. }
    cbn in Hk. apply Permutation_nil in Hk.
    destruct (clip_select_spec l sel Hs) as [Hev _].
    assert (2 <= length sel).
    { destruct sel as [|x [|y sel]]; [congruence|cbn in Hev; discriminate|cbn; lia]. }
    apply app_eq_nil in Hk. destruct Hk as [Hk _]. unfold kept_segments in Hk.
    apply map_eq_nil in Hk.
    assert (forall k, k < length sel ->
       segment_kept op true (segment_inside ca k) = false) as Hno.
    { intros k Hk'. destruct (segment_kept op true (segment_inside ca k)) eqn:Ek; [|reflexivity].
      assert (In k []) as []. rewrite <- Hk. apply filter_In. split; [apply in_seq; lia|assumption]. }
    pose proof (Hno 0 ltac:(lia)) as N0. pose proof (Hno 1 ltac:(lia)) as N1.
    clear - N0 N1. destruct op, ca; cbn in N0, N1; discriminate.
  Qed.

  (** ** No crossings: the three configurations *)
  Variable P : Type.
  Variable inside : CC -> P -> Prop.
  Theorem clip_no_crossing subject clip_ op ca cb fs fc (l : list ((T * T) * Degeneracy T)) :
    clip_select l = Ok [] ->
    (ca = true <-> inside clip_ fs) -> (cb = true <-> inside subject fc) ->
    (inside subject fc /\ ~ inside clip_ fs /\ subset inside clip_ subject \/
     ~ inside subject fc /\ inside clip_ fs /\ subset inside subject clip_ \/
     ~ inside subject fc /\ ~ inside clip_ fs /\ curves_disjoint inside subject clip_) ->
    exists rs, clip trim mk_compound subject clip_ op (Ok ca) (Ok cb) l = Ok rs /\
      forall p, covers inside rs p <-> set_op op (inside subject p) (inside clip_ p).
  Proof.
    intros Hs Ha Hb Hcase. unfold clip. rewrite Hs. cbn [bind].
    assert (Hc : (ca = false /\ cb = true /\ subset inside clip_ subject) \/
                 (ca = true /\ cb = false /\ subset inside subject clip_) \/
                 (ca = false /\ cb = false /\ curves_disjoint inside subject clip_)).
    { destruct Hcase as [(H1 & H2 & H3)|[(H1 & H2 & H3)|(H1 & H2 & H3)]];
        [left|right; left|right; right]; (split; [|split; [|exact H3]]);
        destruct ca, cb; intuition discriminate. }
    unfold clip_table, covers, in_region, set_op.
    destruct Hc as [(-> & -> & H)|[(-> & -> & H)|(-> & -> & H)]]; destruct op;
      (eexists; split; [reflexivity|]); intros p; specialize (H p); split.
    all: try (intros (r & Hr & H1 & H2); cbn in Hr; decompose [or] Hr; try contradiction;
      subst r; cbn in *; auto; try tauto;
      try (split; [assumption|]; intros K; apply (H2 clip_); auto)).
    all: intros K.
    all: try (exfalso; tauto).
    - exists (MkRegion subject []). cbn. intuition.
    - exists (MkRegion clip_ []). cbn. intuition.
    - exists (MkRegion subject [clip_]). cbn. intuition. now subst.
    - exists (MkRegion clip_ []). cbn. intuition.
    - exists (MkRegion subject []). cbn. intuition.
    - destruct K as [K|K]; [exists (MkRegion subject [])|exists (MkRegion clip_ [])]; cbn; intuition.
    - exists (MkRegion subject []). cbn. intuition.
  Qed.
End Any.
