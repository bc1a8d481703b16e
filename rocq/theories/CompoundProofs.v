(** * Compound curves: construction, evaluation, reversal, trimming *)
From Coq Require Import Floats.
From Coq Require Import Reals Lra Lia Sorted Permutation.
From Verif Require Import Base BaseFacts Scalar RSum BSplineSpec BSpline KnotModel KnotSpec
  KnotFacts KnotProofs VecFacts MiscModel CurveModel CurveKnotModel CurveSpec CurveProofs CurveGeom CurveGeom2
  KnotMisc Boehm Refine SplitModel SplitProofs Decompose BBoxModel BBoxProofs CompoundModel.
Open Scope R_scope.

Local Ltac okinv := repeat match goal with
  | H : bind ?x _ = Ok _ |- _ => let a := fresh "a" in let E := fresh "E" in
      destruct x as [a| | |] eqn:E; cbn [bind] in H; try discriminate
  | H : Ok _ = Ok _ |- _ => inversion H; clear H; subst
  | H : (let (_, _) := ?x in _) = Ok _ |- _ => destruct x
  end.

(** ** Any scalar type *)
Section Any.
  Context {T : Type} {SO : Scalar T}.
  Open Scope nat_scope.

  (** a span as it may be stored: itself or its reversal, with shifted knots *)
  Definition oriented (c c' : Curve T) : Prop := c' = c \/ invert c = Ok c'.
  Definition shifted (c c' : Curve T) : Prop :=
    cdim c' = cdim c /\ cdeg c' = cdeg c /\ cpts c' = cpts c /\
    exists a b, cknots c' = map (fun v => sadd (ssub v a) b) (cknots c).

  Lemma find_next_perm last e l d c r : find_next last e l = Ok (Some (d, c, r)) -> Permutation l (c :: r).
  Proof.
    revert d c r. induction l as [|x l IH]; intros d c r H; cbn [find_next] in H; [discriminate|].
    okinv. destruct a; okinv; [apply Permutation_refl|].
    destruct a as [[[d' c'] r']|]; [|discriminate]. okinv.
    rewrite (IH _ _ _ eq_refl). apply perm_swap.
  Qed.

  Lemma connect_origin fuel e curves conn res :
    connect fuel e curves conn = Ok res ->
    forall keep all, Permutation all (keep ++ curves) -> Forall2 oriented keep conn ->
    exists keep' dropped, Permutation all (keep' ++ dropped) /\ Forall2 oriented keep' res /\
      (forall c, In c conn -> In c res).
  Proof.
    revert curves conn. induction fuel as [|fuel IH]; intros curves conn H keep all Hp Hf.
    - destruct curves; cbn in H; [|discriminate]. injection H as <-. exists keep, []. auto.
    - destruct curves as [|x curves].
      { cbn in H. injection H as <-. exists keep, []. auto. }
      remember (x :: curves) as cs eqn:Ec in *. rewrite Ec in H. cbn [connect] in H. rewrite <- Ec in H. clear Ec.
      okinv. destruct a1 as [[[d next] rest]|]; [|okinv; exists keep, cs; auto].
      apply find_next_perm in E1.
      assert (Hins : forall n' m, insert_at conn a n' = Ok m -> oriented next n' ->
        exists k', Permutation all (k' ++ rest) /\ Forall2 oriented k' m /\ (forall c, In c conn -> In c m)).
      { intros n' m Hm Ho. unfold insert_at in Hm. destruct (a <=? length conn) eqn:El; [|discriminate].
        injection Hm as <-. apply Nat.leb_le in El.
        exists (firstn a keep ++ next :: skipn a keep). split; [|split].
        - rewrite Hp, E1. rewrite <- (firstn_skipn a keep) at 1. rewrite <- !app_assoc. apply Permutation_app_head.
          cbn. symmetry. apply Permutation_middle.
        - apply Forall2_app.
          + rewrite <- (firstn_skipn a conn) in Hf. apply Forall2_app_inv_r in Hf as (k1 & k2 & F1 & F2 & ->).
            pose proof (Forall2_len _ _ _ F1) as L. rewrite firstn_length_le in L by auto.
            assert (Ek : firstn a (k1 ++ k2) = k1) by (rewrite <- L, firstn_app, firstn_all, Nat.sub_diag; cbn; apply app_nil_r). now rewrite Ek.
          + constructor; [exact Ho|].
            rewrite <- (firstn_skipn a conn) in Hf. apply Forall2_app_inv_r in Hf as (k1 & k2 & F1 & F2 & ->).
            pose proof (Forall2_len _ _ _ F1) as L. rewrite firstn_length_le in L by auto.
            assert (Ek : skipn a (k1 ++ k2) = k2) by (rewrite <- L, skipn_app, skipn_all, Nat.sub_diag; reflexivity). now rewrite Ek.
        - intros c Hc. rewrite <- (firstn_skipn a conn) in Hc. apply in_app_or in Hc. apply in_or_app.
          destruct Hc; [left|right; right]; auto. }
      assert (Hpush : forall n', oriented next n' ->
        exists k', Permutation all (k' ++ rest) /\ Forall2 oriented k' (conn ++ [n']) /\ (forall c, In c conn -> In c (conn ++ [n']))).
      { intros n' Ho. exists (keep ++ [next]). split; [|split].
        - rewrite Hp, E1. now rewrite <- app_assoc.
        - apply Forall2_app; auto.
        - intros c Hc. apply in_or_app. auto. }
      assert (Hfin : forall k' m, Permutation all (k' ++ rest) -> Forall2 oriented k' m ->
        (forall c, In c conn -> In c m) -> connect fuel e rest m = Ok res ->
        exists keep' dropped, Permutation all (keep' ++ dropped) /\ Forall2 oriented keep' res /\
          (forall c, In c conn -> In c res)).
      { intros k' m H1 H2 H3 H4. destruct (IH _ _ H4 _ _ H1 H2) as (k2 & dr & P1 & P2 & P3).
        exists k2, dr. auto. }
      destruct d.
      + destruct (Hpush next) as (k' & P1 & P2 & P3); [left; reflexivity|]. now apply (Hfin k' (conn ++ [next])).
      + okinv. destruct (Hins next a1) as (k' & P1 & P2 & P3); [auto|left; reflexivity|]. now apply (Hfin k' a1).
      + okinv. destruct (Hpush a1) as (k' & P1 & P2 & P3); [right; auto|]. now apply (Hfin k' (conn ++ [a1])).
      + destruct (a =? 0).
        * okinv. destruct (Hins a1 a2) as (k' & P1 & P2 & P3); [auto|right; auto|]. now apply (Hfin k' a2).
        * destruct (IH _ _ H keep (keep ++ rest)) as (k2 & dr & P1 & P2 & P3); auto.
          exists k2, (next :: dr). split; [|auto]. rewrite Hp, E1. rewrite <- Permutation_middle, P1.
          apply Permutation_middle.
  Qed.

  Lemma align_shifted off l r : align off l = Ok r -> Forall2 shifted l r.
  Proof.
    revert off r. induction l as [|c l IH]; intros off r H; cbn [align] in H; okinv; constructor; eauto.
    unfold shift_knots in E. okinv. repeat split. cbn. eauto.
  Qed.

  (** nothing is invented: the stored spans are distinct input spans (possibly reversed) with shifted
      knots, and the first input span is always among them *)
  Theorem compound_new_origin spans res : compound_new spans = Ok res ->
    exists keep dropped chain, Permutation spans (keep ++ dropped) /\ Forall2 oriented keep chain /\
      Forall2 shifted chain res /\ (exists c rest, spans = c :: rest /\ In c chain).
  Proof.
    intros H. destruct spans as [|c cs]; [discriminate|]. cbn [compound_new] in H. okinv.
    destruct (connect_origin _ _ _ _ _ E [c] (c :: cs)) as (keep & dr & P1 & P2 & P3).
    { apply Permutation_refl. }
    { constructor; [left; reflexivity|constructor]. }
    exists keep, dr, a. split; [auto|]. split; [auto|]. split; [eapply align_shifted; eauto|].
    exists c, cs. split; [auto|]. apply P3. left; auto.
  Qed.

  (** an empty list of spans panics *)
  Theorem compound_new_empty : panics (compound_new (T := T) []).
  Proof. eexists. reflexivity. Qed.

  (** ** Reversal *)
  Theorem compound_invert_spec spans res : compound_invert spans = Ok res ->
    length res = length spans /\
    forall k c, nth_error spans k = Some c ->
      exists c', invert c = Ok c' /\ nth_error res (length spans - 1 - k) = Some c'.
  Proof.
    intros H. unfold compound_invert in H. okinv. apply mapM_inv in E. pose proof (Forall2_len _ _ _ E) as L.
    rewrite rev_length. split; [auto|]. intros k c Hk.
    assert (Hl : k < length spans) by (apply nth_error_Some; congruence).
    destruct (nth_error a k) as [c'|] eqn:Ek; [|apply nth_error_None in Ek; lia].
    exists c'. split.
    - clear -E Hk Ek. revert k Hk Ek. induction E; intros [|k] Hk Ek; cbn in *; try discriminate; [congruence|eauto].
    - rewrite (nth_error_nth' _ c') by (rewrite rev_length; lia). f_equal.
      rewrite rev_nth by lia. replace (length a - S (length spans - 1 - k)) with k by lia.
      now apply nth_error_nth.
  Qed.
End Any.

(** ** Real arithmetic *)
Definition first_knot (c : Curve R) : R := kf (cknots c) 0.
Definition last_knot (c : Curve R) : R := kf (cknots c) (length (cknots c) - 1).

(** spans laid end to end, the first one starting at [off] *)
Fixpoint aligned (off : R) (l : list (Curve R)) : list (Curve R) :=
  match l with
  | [] => []
  | c :: t => reparam 1 (off - first_knot c) c :: aligned (off + last_knot c - first_knot c) t
  end.
(** each span ends where the next one starts *)
Fixpoint contiguous (l : list (Curve R)) : Prop :=
  match l with
  | [] => True
  | c :: t => match t with [] => True | c' :: _ => dom1 c = dom0 c' end /\ contiguous t
  end.
Fixpoint knots_chained (l : list (Curve R)) : Prop :=
  match l with
  | [] => True
  | c :: t => match t with [] => True | c' :: _ => last_knot c = first_knot c' end /\ knots_chained t
  end.

Section Real.
  Variables eps maxv : R.
  Local Hint Extern 0 (Scalar R) => exact (ROps eps maxv) : typeclass_instances.

  Definition span_good (c : Curve R) : Prop := curve_ok c /\ curve_eps eps c /\ pos_weights c.

  Lemma shift_reparam off c : curve_ok c ->
    shift_knots off c = Ok (reparam 1 (off - first_knot c) c).
  Proof.
    intros H. pose proof (curve_len c H) as L. unfold shift_knots. rewrite get_kf by lia. cbn [bind].
    unfold reparam. do 2 f_equal. apply map_ext. intros v. rs. unfold first_knot. lra.
  Qed.

  Lemma align_ok off l : Forall curve_ok l -> align off l = Ok (aligned off l).
  Proof.
    intros H. revert off. induction H as [|c l Hc _ IH]; intros off; [reflexivity|].
    pose proof (curve_len c Hc) as L. pose proof (curve_ne c Hc) as Hne.
    cbn [align aligned]. rewrite shift_reparam by auto. cbn [bind].
    assert (L' : length (cknots (reparam 1 (off - first_knot c) c)) = length (cknots c)) by (cbn; apply map_length).
    rewrite usub_ok by lia. cbn [bind]. rewrite get_kf by lia. cbn [bind].
    assert (El : kf (cknots (reparam 1 (off - first_knot c) c)) (length (cknots (reparam 1 (off - first_knot c) c)) - 1)
      = off + last_knot c - first_knot c).
    { rewrite L'. cbn [cknots reparam]. rewrite kf_map by auto. unfold last_knot. lra. }
    rewrite El, IH. reflexivity.
  Qed.

  Lemma reparam_good b c : span_good c -> span_good (reparam 1 b c).
  Proof.
    intros (H1 & H2 & H3). pose proof (curve_ne c H1) as Hne. split; [apply reparam_ok; auto; lra|]. split; [|exact H3].
    destruct H2 as (E1 & E2 & E3). unfold curve_eps, eps_ok, clast in *. cbn [reparam cknots cdeg cpts].
    rewrite !kf_map by auto. lra.
  Qed.
  Lemma reparam_clamped b c : curve_ok c -> clamped c -> clamped (reparam 1 b c).
  Proof.
    intros H1 (C1 & C2). pose proof (curve_ne c H1) as Hne. destruct (reparam_dom 1 b c H1) as [D0 D1].
    unfold clamped. rewrite D0, D1. cbn [reparam cknots]. rewrite map_length, !kf_map by auto. lra.
  Qed.
  Lemma reparam_first b c : curve_ok c -> first_knot (reparam 1 b c) = first_knot c + b.
  Proof. intros H. pose proof (curve_ne c H). unfold first_knot. cbn [reparam cknots]. rewrite kf_map by auto. lra. Qed.
  Lemma reparam_last b c : curve_ok c -> last_knot (reparam 1 b c) = last_knot c + b.
  Proof. intros H. pose proof (curve_ne c H). unfold last_knot. cbn [reparam cknots]. rewrite map_length, kf_map by auto. lra. Qed.

  Lemma aligned_len off l : length (aligned off l) = length l.
  Proof. revert off. induction l; intros off; cbn; auto. Qed.
  Lemma aligned_chained off l : Forall curve_ok l ->
    knots_chained (aligned off l) /\ (l <> [] -> first_knot (hd (MkCurve 0 0 [] []) (aligned off l)) = off).
  Proof.
    intros H. revert off. induction H as [|c l Hc Hl IH]; intros off; [split; [exact I|congruence]|].
    cbn [aligned knots_chained hd]. destruct (IH (off + last_knot c - first_knot c)) as [I1 I2].
    split; [|intros _; rewrite reparam_first by auto; lra]. split; [|exact I1].
    destruct l as [|c' l]; [exact I|]. cbn [aligned hd] in *. rewrite I2 by discriminate.
    rewrite reparam_last by auto. lra.
  Qed.

  Lemma clamped_contiguous l : Forall clamped l -> knots_chained l -> contiguous l.
  Proof.
    intros H. induction H as [|c l (H1 & H2) Hl IH]; [auto|]. cbn. intros [K1 K2]. split; [|auto].
    destruct l as [|c' l]; [exact I|]. inversion Hl as [|? ? (H3 & H4) _]; subst.
    unfold last_knot, first_knot in K1. lra.
  Qed.

  (** ** End points *)
  Lemma good_point c u : span_good c -> dom0 c <= u <= dom1 c ->
    exists p, point_at c u = Ok p /\ length p = (cdim c - 1)%nat.
  Proof.
    intros (H1 & H2 & H3) Hu. destruct (point_at_spec eps maxv c u H1 H2 Hu) as (p & E & L & _); [|eauto].
    apply Rgt_not_eq, (wfun_pos eps maxv); auto.
  Qed.
  Lemma good_ends c : span_good c ->
    exists p0 p1, span_ends c = Ok (p0, p1) /\ point_at c (dom0 c) = Ok p0 /\ point_at c (dom1 c) = Ok p1 /\
      length p0 = (cdim c - 1)%nat /\ length p1 = (cdim c - 1)%nat.
  Proof.
    intros H. pose proof (dom_le c (proj1 H)) as Hd.
    destruct (good_point c (dom0 c) H) as (p0 & E0 & L0); [lra|].
    destruct (good_point c (dom1 c) H) as (p1 & E1 & L1); [lra|].
    exists p0, p1. split; [|auto]. unfold span_ends. rewrite knots_domain_ok by apply H. cbn [bind].
    rewrite E0. cbn [bind]. rewrite E1. reflexivity.
  Qed.
  Lemma invert_good c : span_good c -> exists c', invert c = Ok c' /\ span_good c' /\ cdim c' = cdim c /\ (clamped c -> clamped c').
  Proof.
    intros (H1 & H2 & H3). destruct (invert_mirrored eps maxv c H1) as (c' & E & M). exists c'. split; [exact E|].
    pose proof (mirrored_ok c c' H1 M) as Hok. pose proof (mirrored_dom c c' H1 M) as (D0 & D1).
    split; [split; [auto|split; [now apply (mirrored_eps eps c c')|]]|split; [apply M|]].
    - intros j Hj. destruct M as (M1 & M2 & M3 & _). rewrite M3, rev_length in Hj.
      pose proof (H3 (length (cpts c) - S j)%nat ltac:(lia)) as H4. unfold cpc in *. rewrite M1, M3. now rewrite rev_nth by lia.
    - intros (C1 & C2). pose proof (curve_len c H1) as L. destruct M as (M1 & M2 & M3 & M4 & M5).
      unfold clamped. rewrite D0, D1, M4. rewrite !M5 by lia.
      replace (length (cknots c) - 1 - (length (cknots c) - 1))%nat with 0%nat by lia.
      rewrite Nat.sub_0_r. unfold mirror_c. rewrite <- C1, <- C2. lra.
  Qed.

  Lemma good_direction a b e : span_good a -> span_good b -> exists d, curve_direction a b e = Ok d.
  Proof.
    intros Ha Hb. destruct (good_ends a Ha) as (a0 & a1 & E & _). destruct (good_ends b Hb) as (b0 & b1 & E' & _).
    unfold curve_direction. rewrite E. cbn [bind]. rewrite E'. cbn [bind]. eauto.
  Qed.
  Lemma good_find last e l : span_good last -> Forall span_good l -> exists r, find_next last e l = Ok r.
  Proof.
    intros Hl H. induction H as [|c l Hc _ (r & IH)]; [eexists; reflexivity|]. cbn [find_next].
    destruct (good_direction last c e Hl Hc) as (d & E). rewrite E. cbn [bind]. destruct d; [eauto|].
    rewrite IH. cbn [bind]. destruct r as [[[? ?] ?]|]; eauto.
  Qed.

  Lemma good_connect (P : Curve R -> Prop) fuel e curves conn :
    (forall c c', span_good c -> P c -> invert c = Ok c' -> P c') ->
    Forall span_good curves -> Forall span_good conn -> Forall P curves -> Forall P conn ->
    conn <> [] -> (length curves <= fuel)%nat ->
    exists res, connect fuel e curves conn = Ok res /\ Forall span_good res /\ Forall P res /\ res <> [].
  Proof.
    intros HP. revert curves conn. induction fuel as [|fuel IH]; intros curves conn H1 H2 P1 P2 Hne Hl.
    { destruct curves; [|cbn in Hl; lia]. exists conn. auto. }
    destruct curves as [|x curves]; [exists conn; auto|].
    remember (x :: curves) as cs eqn:Ec in *. 
    assert (Hstep : forall Q : Res (list (Curve R)) -> Prop, Q (
            current <- usub (length conn) 1 ;;
            last <- get conn current ;;
            found <- find_next last e cs ;;
            match found with
            | Some (Forward, next, rest) => connect fuel e rest (conn ++ [next])
            | Some (Backward, next, rest) =>
                connected <- insert_at conn current next ;;
                connect fuel e rest connected
            | Some (Facing, next, rest) =>
                next <- invert next ;;
                connect fuel e rest (conn ++ [next])
            | Some (Opposite, next, rest) =>
                if (current =? 0)%nat then
                  next <- invert next ;;
                  connected <- insert_at conn current next ;;
                  connect fuel e rest connected
                else connect fuel e rest conn
            | None => Ok conn
            end) -> Q (connect (S fuel) e cs conn)).
    { intros Q HQ. subst cs. exact HQ. }
    apply Hstep. clear Hstep.
    assert (Lc : (1 <= length conn)%nat) by (destruct conn; [congruence|cbn; lia]).
    rewrite usub_ok by lia. cbn [bind]. rewrite (get_ok _ _ (MkCurve 0 0 [] [])) by lia. cbn [bind].
    destruct (good_find (nth (length conn - 1) conn (MkCurve 0 0 [] [])) e cs) as (r & E); auto.
    { rewrite Forall_forall in H2. apply H2, nth_In. lia. }
    rewrite E. cbn [bind]. destruct r as [[[d next] rest]|]; [|exists conn; auto].
    apply find_next_perm in E. pose proof (Permutation_length E) as Ll. cbn in Ll.
    rewrite E in H1, P1. inversion H1 as [|? ? G1 G2]; subst x0 l. inversion P1 as [|? ? Q1 Q2]; subst x0 l.
    assert (Hpush : forall n', span_good n' -> P n' ->
      exists res, connect fuel e rest (conn ++ [n']) = Ok res /\ Forall span_good res /\ Forall P res /\ res <> []).
    { intros n' Hn Hn2. apply IH; auto; try (apply Forall_app; auto); [|lia].
      intros E0. apply (f_equal (@length _)) in E0. rewrite app_length in E0. cbn in E0. lia. }
    assert (Hins : forall n' i, (i <= length conn)%nat -> span_good n' -> P n' ->
      exists res, bind (insert_at conn i n') (fun m => connect fuel e rest m) = Ok res /\ Forall span_good res /\ Forall P res /\ res <> []).
    { intros n' i Hi Hn Hn2. unfold insert_at. rewrite (proj2 (Nat.leb_le _ _)) by lia. cbn [bind].
      assert (F : forall Z : Curve R -> Prop, Forall Z conn -> Z n' -> Forall Z (firstn i conn ++ n' :: skipn i conn)).
      { intros Z F1 F2. rewrite <- (firstn_skipn i conn) in F1. apply Forall_app in F1 as [F1 F3].
        apply Forall_app. split; [auto|constructor; auto]. }
      apply IH; auto; [|lia]. intros E0. apply (f_equal (@length _)) in E0. rewrite app_length in E0. cbn in E0. lia. }
    destruct d.
    - now apply Hpush.
    - apply Hins; [lia|assumption|assumption].
    - destruct (invert_good next G1) as (n' & En & Gn & _). rewrite En. cbn [bind]. apply Hpush; [exact Gn|]. exact (HP next n' G1 Q1 En).
    - destruct (_ =? _)%nat.
      + destruct (invert_good next G1) as (n' & En & Gn & _). rewrite En. cbn [bind]. apply Hins; [lia|exact Gn|]. exact (HP next n' G1 Q1 En).
      + apply IH; auto. lia.
  Qed.

  (** construction never fails on well-formed spans, and the knot vectors are laid end to end *)
  Theorem compound_new_chained spans : spans <> [] -> Forall span_good spans ->
    exists c res, compound_new spans = Ok (c :: res) /\ Forall span_good (c :: res) /\
      first_knot c = 0 /\ knots_chained (c :: res).
  Proof.
    intros Hne H. destruct spans as [|c cs]; [congruence|]. inversion H as [|? ? Hc Hcs]; subst.
    cbn [compound_new].
    destruct (good_connect (fun _ => True) (length cs) connect_eps cs [c]) as (r & E & G & _ & Hr); auto.
    { clear. induction cs; auto. }
    { discriminate. }
    rewrite E. cbn [bind].
    assert (Gk : Forall curve_ok r) by (eapply Forall_impl; [|exact G]; intros ? Hg; apply Hg).
    rewrite align_ok by auto. destruct (aligned_chained 0 r Gk) as (K1 & K2). specialize (K2 Hr).
    destruct r as [|d r]; [congruence|]. exists (reparam 1 (0 - first_knot d) d), (aligned (0 + last_knot d - first_knot d) r).
    split; [reflexivity|]. split; [|split; [exact K2|exact K1]].
    change (Forall span_good (aligned 0 (d :: r))). clear -G. generalize 0 as off.
    induction G as [|x l Hx _ IH]; intros off; cbn [aligned]; constructor; auto. now apply reparam_good.
  Qed.

  (** with clamped spans the parameter domains are contiguous *)
  Theorem compound_new_contiguous spans : spans <> [] -> Forall span_good spans -> Forall clamped spans ->
    exists c res, compound_new spans = Ok (c :: res) /\ Forall span_good (c :: res) /\
      dom0 c = 0 /\ contiguous (c :: res).
  Proof.
    intros Hne H Hcl. destruct spans as [|c cs]; [congruence|]. inversion H as [|? ? Hc Hcs]; subst.
    inversion Hcl as [|? ? Hc' Hcs']; subst.
    destruct (compound_new_chained (c :: cs) Hne H) as (d & res & E & G & F & K).
    exists d, res. split; [exact E|]. split; [exact G|].
    cbn [compound_new] in E.
    destruct (good_connect clamped (length cs) connect_eps cs [c]) as (r & Er & Gr & Cr & Hr); auto.
    { intros x x' Hx Hxc Ex. destruct (invert_good x Hx) as (x2 & Ex2 & _ & _ & Hcc). rewrite Ex in Ex2. injection Ex2 as ->. auto. }
    { discriminate. }
    rewrite Er in E. cbn [bind] in E.
    assert (Gk : Forall curve_ok r) by (eapply Forall_impl; [|exact Gr]; intros ? Hg; apply Hg).
    rewrite align_ok in E by auto. injection E as E.
    assert (Ca : Forall clamped (d :: res)).
    { rewrite <- E. clear -Gk Cr. generalize 0 as off. induction Gk as [|x l Hx _ IH]; intros off; cbn [aligned]; [constructor|].
      inversion Cr; subst. constructor; auto. now apply reparam_clamped. }
    split; [|now apply clamped_contiguous].
    inversion Ca as [|? ? (C1 & _) _]; subst. unfold first_knot in F. lra.
  Qed.

  (** ** Spans given in order *)
  (** the end of each span is the start of the next *)
  Definition joined (a b : Curve R) : Prop :=
    exists p, point_at a (dom1 a) = Ok p /\ point_at b (dom0 b) = Ok p.
  Fixpoint all_joined (l : list (Curve R)) : Prop :=
    match l with
    | [] => True
    | c :: t => match t with [] => True | c' :: _ => joined c c' end /\ all_joined t
    end.

  Lemma vnorm_self (p : list R) : vnorm (vsub p p) = 0.
  Proof.
    unfold vnorm. rs. assert (E : vnorm2 (vsub p p) = 0); [|rewrite E; apply sqrt_0].
    unfold vnorm2, vdot. assert (G : forall a, a = 0 -> fold_left sadd (map2 smul (vsub p p) (vsub p p)) a = 0).
    { induction p as [|x p IH]; intros a Ha; cbn; [exact Ha|]. apply IH. rs. nra. }
    rs. apply G. reflexivity.
  Qed.
  Lemma vnorm_nonneg (p : list R) : 0 <= vnorm p.
  Proof. unfold vnorm. rs. apply sqrt_pos. Qed.

  Lemma forward_direction a b : span_good a -> span_good b -> joined a b ->
    curve_direction a b connect_eps = Ok (Some Forward).
  Proof.
    intros Ha Hb (p & J1 & J2). destruct (good_ends a Ha) as (a0 & a1 & E & P0 & P1 & _).
    destruct (good_ends b Hb) as (b0 & b1 & E' & P0' & P1' & _).
    unfold curve_direction. rewrite E. cbn [bind]. rewrite E'. cbn [bind].
    rewrite P1 in J1. injection J1 as ->. rewrite P0' in J2. injection J2 as ->.
    rewrite vnorm_self. cbn [min_by fold_left].
    assert (G : forall x d, 0 <= x -> pick_min (0, Forward) (x, d) = (0, Forward)).
    { intros x d Hx. unfold pick_min. cbn [fst]. rs. destruct (Rltb_spec x 0); [lra|reflexivity]. }
    rewrite !G by apply vnorm_nonneg. cbn [fst snd]. unfold connect_eps. rs.
    destruct (Rltb_spec 0 (1 / IZR 10000)); [reflexivity|lra].
  Qed.

  Lemma connect_joined fuel curves conn c : (length curves <= fuel)%nat ->
    Forall span_good (c :: curves) -> all_joined (c :: curves) ->
    connect fuel connect_eps curves (conn ++ [c]) = Ok (conn ++ c :: curves).
  Proof.
    revert fuel conn c. induction curves as [|d curves IH]; intros fuel conn c Hl H J.
    { destruct fuel; reflexivity. }
    destruct fuel as [|fuel]; [cbn in Hl; lia|]. cbn [connect].
    inversion H as [|? ? Hc H']; subst. inversion H' as [|? ? Hd H'']; subst. destruct J as [J1 J2].
    rewrite app_length. cbn [length]. rewrite usub_ok by lia. cbn [bind].
    rewrite (get_ok _ _ c) by (rewrite app_length; cbn [length]; lia). cbn [bind].
    replace (length conn + 1 - 1)%nat with (length conn) by lia.
    rewrite app_nth2 by lia. rewrite Nat.sub_diag. cbn [nth find_next].
    rewrite forward_direction by auto. cbn [bind].
    cbn in Hl. rewrite IH by (auto; lia). now rewrite <- app_assoc.
  Qed.

  Lemma good_nth l j d : Forall span_good l -> (j < length l)%nat -> span_good (nth j l d).
  Proof. intros H Hj. rewrite Forall_forall in H. now apply H, nth_In. Qed.
  Lemma good_oks l : Forall span_good l -> Forall curve_ok l.
  Proof. intros H. eapply Forall_impl; [|exact H]. intros ? Hg; apply Hg. Qed.

  (** spans given in connected order are all kept, in order and unreversed *)
  Theorem compound_new_joined spans : spans <> [] -> Forall span_good spans -> all_joined spans ->
    compound_new spans = Ok (aligned 0 spans).
  Proof.
    intros Hne H J. destruct spans as [|c cs]; [congruence|]. cbn [compound_new].
    pose proof (connect_joined (length cs) cs [] c (le_n _) H J) as E. cbn [app] in E.
    rewrite E. cbn [bind]. apply align_ok, good_oks, H.
  Qed.

  (** ** Evaluation *)
  Definition sdom0 (l : list (Curve R)) : R := match l with [] => 0 | c :: _ => dom0 c end.
  Fixpoint sdom1 (l : list (Curve R)) : R := match l with [] => 0 | [c] => dom1 c | _ :: t => sdom1 t end.

  Lemma sdom_le l : Forall curve_ok l -> contiguous l -> l <> [] -> sdom0 l < sdom1 l.
  Proof.
    intros H. induction H as [|c l Hc Hl IH]; [congruence|]. intros [C1 C2] _. pose proof (dom_le c Hc) as Hd.
    destruct l as [|d l]; [exact Hd|]. specialize (IH C2 ltac:(discriminate)). cbn [sdom0 sdom1] in *.
    rewrite <- C1 in IH. destruct l; lra.
  Qed.

  (** defined on the whole domain: the value is that of the first span whose domain holds the
      parameter; outside there is no value *)
  Theorem compound_point_at_inside l t : Forall span_good l -> contiguous l -> l <> [] ->
    sdom0 l <= t <= sdom1 l ->
    exists k c p, nth_error l k = Some c /\ dom0 c <= t <= dom1 c /\ (k <> 0%nat -> dom0 c < t) /\
      point_at c t = Ok p /\ compound_point_at l t = Ok (Some p).
  Proof.
    intros H. induction H as [|c l Hc Hl IH]; [congruence|]. intros [C1 C2] _ Ht. pose proof (dom_le c (proj1 Hc)) as Hd.
    cbn [compound_point_at]. rewrite knots_domain_ok by apply Hc. cbn [bind]. rs. cbn [sdom0] in Ht.
    destruct (Rleb_spec (dom0 c) t); [|lra]. destruct (Rleb_spec t (dom1 c)) as [Ht1|Ht1]; cbn [andb].
    - destruct (good_point c t Hc) as (p & E & _); [lra|]. exists 0%nat, c, p. rewrite E. cbn [bind nth_error]. split; [reflexivity|]. split; [lra|]. split; [congruence|]. auto.
    - destruct l as [|d l]; [cbn in Ht; lra|]. destruct IH as (k & x & p & E1 & E2 & E3 & E4 & E5); auto; [discriminate|change (sdom1 (c :: d :: l)) with (sdom1 (d :: l)) in Ht; cbn [sdom0]; rewrite <- C1; lra|].
      exists (S k), x, p. cbn [nth_error]. split; [auto|]. split; [auto|]. split; [|auto]. intros _.
      destruct k as [|k]; [|apply E3; lia]. cbn in E1. injection E1 as <-. lra.
  Qed.

  Theorem compound_point_at_outside l t : Forall curve_ok l -> contiguous l -> l <> [] ->
    t < sdom0 l \/ sdom1 l < t -> compound_point_at l t = Ok None.
  Proof.
    intros H. induction H as [|c l Hc Hl IH]; [congruence|]. intros [C1 C2] _ Ht. pose proof (dom_le c Hc) as Hd.
    cbn [compound_point_at]. rewrite knots_domain_ok by auto. cbn [bind]. rs. cbn [sdom0] in Ht.
    assert (Ho : t < dom0 c \/ dom1 c < t).
    { destruct Ht; [auto|]. right. destruct l as [|d l]; [auto|].
      pose proof (sdom_le _ Hl C2 ltac:(discriminate)). change (sdom1 (c :: d :: l)) with (sdom1 (d :: l)) in *. cbn [sdom0] in *. lra. }
    assert (Eb : Rleb (dom0 c) t && Rleb t (dom1 c) = false).
    { destruct (Rleb_spec (dom0 c) t); [|reflexivity]. destruct (Rleb_spec t (dom1 c)); [lra|reflexivity]. }
    rewrite Eb. destruct l as [|d l]; [reflexivity|]. apply IH; auto; [discriminate|].
    pose proof (sdom_le _ Hl C2 ltac:(discriminate)). change (sdom1 (c :: d :: l)) with (sdom1 (d :: l)) in *. cbn [sdom0] in *. lra.
  Qed.

  (** ** The compound curve of spans given in order runs through them one after the other *)
  Definition span_offset (l : list (Curve R)) (k : nat) : R :=
    rsum k (fun j => dom1 (nth j l (MkCurve 0 0 [] [])) - dom0 (nth j l (MkCurve 0 0 [] []))).

  Lemma shift_point b c u : span_good c -> dom0 c <= u <= dom1 c ->
    point_at (reparam 1 b c) (u + b) = point_at c u.
  Proof.
    intros Hg Hu. pose proof (reparam_good b c Hg) as Hg'. destruct (reparam_dom 1 b c (proj1 Hg)) as (D0 & D1).
    apply point_at_transfer; try apply Hg; try apply Hg'; auto; [lra|].
    intros i. replace (u + b) with (1 * u + b) by lra. apply reparam_hcoord; [lra|apply Hg|auto].
  Qed.

  Lemma aligned_eval l k u : Forall span_good l -> Forall clamped l -> all_joined l -> (k < length l)%nat ->
    dom0 (nth k l (MkCurve 0 0 [] [])) <= u <= dom1 (nth k l (MkCurve 0 0 [] [])) ->
    forall off, exists p, point_at (nth k l (MkCurve 0 0 [] [])) u = Ok p /\
      compound_point_at (aligned off l) (off + span_offset l k + (u - dom0 (nth k l (MkCurve 0 0 [] [])))) = Ok (Some p).
  Proof.
    intros H. revert k. induction H as [|c l Hc Hl IH]; intros k Hcl J Hk Hu off; [cbn in Hk; lia|].
    inversion Hcl as [|? ? Cc Cl]; subst. destruct J as [J1 J2].
    destruct (reparam_dom 1 (off - first_knot c) c (proj1 Hc)) as (D0 & D1).
    assert (F0 : first_knot c = dom0 c) by apply Cc. assert (F1 : last_knot c = dom1 c) by apply Cc.
    pose proof (reparam_good (off - first_knot c) c Hc) as Hg'. pose proof (dom_le c (proj1 Hc)) as Hd.
    destruct k as [|k].
    - cbn [nth] in *. destruct (good_point c u Hc Hu) as (p & E & _). exists p. split; [exact E|].
      cbn [aligned compound_point_at]. rewrite knots_domain_ok by apply Hg'. cbn [bind]. rewrite D0, D1. rs.
      unfold span_offset. cbn [rsum].
      destruct (Rleb_spec (1 * dom0 c + (off - first_knot c)) (off + 0 + (u - dom0 c))); [|lra].
      destruct (Rleb_spec (off + 0 + (u - dom0 c)) (1 * dom1 c + (off - first_knot c))); [|lra]. cbn [andb].
      replace (off + 0 + (u - dom0 c)) with (u + (off - first_knot c)) by lra. rewrite shift_point, E by auto. reflexivity.
    - cbn [nth length] in *.
      assert (Eo : span_offset (c :: l) (S k) = dom1 c - dom0 c + span_offset l k).
      { unfold span_offset. rewrite rsum_S_l. reflexivity. }
      destruct (IH k Cl J2 ltac:(lia) Hu (off + last_knot c - first_knot c)) as (p & E1 & E2). exists p. split; [exact E1|].
      set (x := nth k l (MkCurve 0 0 [] [])) in *.
      replace (off + span_offset (c :: l) (S k) + (u - dom0 x)) with (off + last_knot c - first_knot c + span_offset l k + (u - dom0 x)) by lra.
      cbn [aligned compound_point_at]. rewrite knots_domain_ok by apply Hg'. cbn [bind]. rewrite D0, D1. rs.
      assert (P : 0 <= span_offset l k).
      { unfold span_offset. apply rsum_nonneg. intros j Hj.
        pose proof (dom_le (nth j l (MkCurve 0 0 [] [])) (proj1 (good_nth l j _ Hl ltac:(lia)))). lra. }
      set (t := off + last_knot c - first_knot c + span_offset l k + (u - dom0 x)) in *.
      destruct (Rleb_spec t (1 * dom1 c + (off - first_knot c))) as [Ht|Ht]; [|rewrite andb_false_r; exact E2].
      assert (Et : span_offset l k = 0 /\ u = dom0 x /\ t = dom1 c + (off - first_knot c)) by (unfold t in *; lra).
      destruct Et as (Z1 & Z2 & Z3). destruct (Rleb_spec (1 * dom0 c + (off - first_knot c)) t); [|lra]. cbn [andb].
      assert (K0 : k = 0%nat).
      { destruct k as [|k]; [reflexivity|]. exfalso. unfold span_offset in Z1. revert Z1. apply Rgt_not_eq.
        apply (rsum_pos _ _ 0%nat); [intros j Hj|lia|];
          [pose proof (dom_le (nth j l (MkCurve 0 0 [] [])) (proj1 (good_nth l j _ Hl ltac:(lia)))); lra|
           pose proof (dom_le (nth 0 l (MkCurve 0 0 [] [])) (proj1 (good_nth l 0 _ Hl ltac:(lia)))); lra]. }
      subst k. destruct l as [|d l]; [cbn in Hk; lia|]. cbn [nth] in x. subst x. destruct J1 as (q & Q1 & Q2).
      rewrite Z3, shift_point by (auto; lra). rewrite Q1. cbn [bind]. rewrite Z2, Q2 in E1. now injection E1 as ->.
  Qed.

  Theorem compound_eval spans k u : spans <> [] -> Forall span_good spans -> Forall clamped spans -> all_joined spans ->
    (k < length spans)%nat ->
    let c := nth k spans (MkCurve 0 0 [] []) in
    dom0 c <= u <= dom1 c ->
    exists cc p, compound_new spans = Ok cc /\ point_at c u = Ok p /\
      compound_point_at cc (span_offset spans k + (u - dom0 c)) = Ok (Some p).
  Proof.
    intros Hne Hg Hc J Hk c Hu. destruct (aligned_eval spans k u Hg Hc J Hk Hu 0) as (p & E1 & E2).
    exists (aligned 0 spans), p. split; [now apply compound_new_joined|]. split; [exact E1|].
    rewrite <- E2. f_equal. unfold c. lra.
  Qed.

  (** ** Reversal *)
  Theorem compound_invert_involutive l : Forall curve_ok l ->
    exists r, compound_invert l = Ok r /\ compound_invert r = Ok l.
  Proof.
    intros H. assert (G : exists r, mapM (A := Curve R) invert l = Ok r /\ mapM (A := Curve R) invert (rev r) = Ok (rev l)).
    { induction H as [|c l Hc _ (r & E1 & E2)]; [exists []; auto|].
      destruct (invert_involutive eps maxv c Hc) as (c' & I1 & I2). exists (c' :: r). cbn [mapM rev].
      rewrite I1, E1. cbn [bind]. split; [reflexivity|].
      assert (A : forall (f : Curve R -> Res (Curve R)) (a b : list (Curve R)) x y, mapM f a = Ok x -> mapM f b = Ok y -> mapM f (a ++ b) = Ok (x ++ y)).
      { clear. intros f a b. induction a as [|z a IH]; cbn [mapM app]; intros x y Hx Hy.
        - injection Hx as <-. exact Hy.
        - destruct (f z); cbn [bind] in *; try discriminate. destruct (mapM f a) eqn:E; cbn [bind] in *; try discriminate.
          injection Hx as <-. rewrite (IH _ _ eq_refl Hy). reflexivity. }
      apply A; [exact E2|]. cbn [mapM]. rewrite I2. reflexivity. }
    destruct G as (r & E1 & E2). exists (rev r). unfold compound_invert. rewrite E1, E2. cbn [bind].
    now rewrite rev_involutive.
  Qed.

  Lemma compound_find pre c post t : Forall curve_ok pre -> curve_ok c ->
    Forall (fun x => t < dom0 x \/ dom1 x < t) pre -> dom0 c <= t <= dom1 c ->
    compound_point_at (pre ++ c :: post) t = (p <- point_at c t ;; Ok (Some p)).
  Proof.
    intros H Hc. induction H as [|x pre Hx _ IH]; intros Ho Ht; cbn [app compound_point_at]; rewrite knots_domain_ok by auto; cbn [bind]; rs.
    - destruct (Rleb_spec (dom0 c) t); [|lra]. destruct (Rleb_spec t (dom1 c)); [|lra]. reflexivity.
    - inversion Ho as [|? ? O1 O2]; subst.
      assert (Eb : Rleb (dom0 x) t && Rleb t (dom1 x) = false).
      { destruct (Rleb_spec (dom0 x) t); [|reflexivity]. destruct (Rleb_spec t (dom1 x)); [lra|reflexivity]. }
      rewrite Eb. auto.
  Qed.

  Lemma contiguous_order pre c post : Forall curve_ok (pre ++ c :: post) -> contiguous (pre ++ c :: post) ->
    Forall (fun x => dom1 x <= dom0 c) pre /\ Forall (fun x => dom1 c <= dom0 x) post.
  Proof.
    intros H K.
    assert (G : forall c l, Forall curve_ok (c :: l) -> contiguous (c :: l) -> Forall (fun x => dom1 c <= dom0 x) l).
    { clear. intros c l. revert c. induction l as [|d l IH]; intros c H K; [constructor|].
      inversion H as [|? ? Hc H']; subst. destruct K as [K1 K2]. pose proof (dom_le d ltac:(now inversion H')).
      constructor; [lra|]. eapply Forall_impl; [|apply IH; eauto]. cbn. intros. lra. }
    induction pre as [|x pre IH]; cbn [app] in *.
    - split; [constructor|]. now apply G.
    - inversion H as [|? ? Hx H']; subst. pose proof (G _ _ H K) as F. destruct K as [K1 K2].
      destruct (IH H' K2) as [I1 I2]. split; [|exact I2]. constructor; [|exact I1].
      apply Forall_app in F as [_ F]. now inversion F.
  Qed.

  (** the reversed compound curve keeps the domain of every span and runs each span backwards *)
  Theorem compound_invert_eval pre c post : let l := pre ++ c :: post in
    Forall span_good l -> Forall clamped l -> curve_cont c -> contiguous l ->
    exists r, compound_invert l = Ok r /\
      forall t, dom0 c < t < dom1 c ->
        compound_point_at r t = compound_point_at l (dom0 c + dom1 c - t).
  Proof.
    intros l Hg Hcl Hcc K. pose proof (good_oks l Hg) as Hok.
    destruct (contiguous_order pre c post Hok K) as [O1 O2].
    assert (G : forall m, Forall span_good m -> Forall clamped m -> exists r, mapM (A := Curve R) invert m = Ok r /\
      Forall2 (fun x y => invert x = Ok y /\ curve_ok y /\ dom0 y = dom0 x /\ dom1 y = dom1 x) m r).
    { clear. intros m H. induction H as [|x m Hx _ IH]; intros Hc; [exists []; split; [reflexivity|constructor]|].
      inversion Hc as [|? ? C1 C2]; subst. destruct (IH C2) as (r & E & F).
      destruct (invert_mirrored eps maxv x (proj1 Hx)) as (x' & Ex & M).
      destruct (mirrored_dom x x' (proj1 Hx) M) as (D0 & D1). exists (x' :: r). cbn [mapM]. rewrite Ex, E. cbn [bind].
      split; [reflexivity|]. constructor; [|exact F]. split; [auto|]. split; [exact (mirrored_ok x x' (proj1 Hx) M)|].
      destruct C1 as (C1 & C3). rewrite D0, D1. unfold mirror_c. rewrite C1, C3. lra. }
    destruct (G l Hg Hcl) as (r & E & F). unfold compound_invert. rewrite E. cbn [bind]. exists (rev r). split; [reflexivity|].
    intros t Ht. unfold l in F. apply Forall2_app_inv_l in F as (r1 & r2 & F1 & F2 & ->).
    inversion F2 as [|? c' ? r3 (E' & Oc & D0 & D1) F3]; subst.
    rewrite rev_app_distr. cbn [rev]. rewrite <- app_assoc. cbn [app].
    apply Forall_app in Hg as [Hg1 Hg2]. inversion Hg2 as [|? ? Hgc Hg3]; subst.
    rewrite compound_find; [|apply Forall_rev|exact Oc|apply Forall_rev|lra].
    - unfold l. rewrite compound_find; [|now apply good_oks|apply Hgc| |lra].
      + destruct (invert_spec eps maxv c (proj1 Hgc) (proj1 (proj2 Hgc)) Hcc) as (c2 & Ec & _ & _ & Hp).
        rewrite E' in Ec. injection Ec as <-. apply Forall_app in Hcl as [_ Hcl]. inversion Hcl as [|? ? (C1 & C2) _]; subst.
        assert (Em : mirror_c c = dom0 c + dom1 c) by (unfold mirror_c; rewrite C1, C2; reflexivity).
        rewrite <- (Hp (dom0 c + dom1 c - t)) by lra. rewrite Em.
        replace (dom0 c + dom1 c - (dom0 c + dom1 c - t)) with t by lra. reflexivity.
      + eapply Forall_impl; [|exact O1]. cbn. intros. lra.
    - clear -F3. induction F3 as [|? ? ? ? (A1 & A2 & A3) _ IH]; constructor; auto.
    - clear -F3 O2 Ht. induction F3 as [|? ? ? ? (A1 & A2 & A3 & A4) _ IH]; constructor; inversion O2; subst; auto. lra.
  Qed.

  (** ** Transformation *)
  Theorem compound_transform_affine m D l t q : Forall span_good l -> Forall (fun c => cdim c = D) l ->
    affine_matrix D m -> compound_point_at l t = Ok (Some q) ->
    compound_point_at (compound_transform m l) t = Ok (Some (apply_affine D m q)).
  Proof.
    intros H. induction H as [|c l Hc _ IH]; intros Hd Hm E; cbn [compound_point_at compound_transform map] in *; [discriminate|].
    inversion Hd as [|? ? Dc Dl]; subst.
    rewrite knots_domain_ok in E by apply Hc. cbn [bind] in E.
    pose proof (transform_ok eps maxv c m (proj1 Hc) Hm) as Ho. rewrite knots_domain_ok by exact Ho. cbn [bind].
    assert (D0 : dom0 (transform m c) = dom0 c) by reflexivity.
    assert (D1 : dom1 (transform m c) = dom1 c) by (unfold dom1; cbn; now rewrite map_length).
    rewrite D0, D1. destruct (_ && _) eqn:Eb; [|now apply IH].
    rs. apply andb_true_iff in Eb as [B1 B2]. destruct (Rleb_spec (dom0 c) t); [|discriminate]. destruct (Rleb_spec t (dom1 c)); [|discriminate].
    destruct (point_at c t) as [p| | |] eqn:Ep; try discriminate. cbn [bind] in E. injection E as <-.
    rewrite (transform_affine eps maxv c m t p); auto; try apply Hc.
    intros j Hj. apply Rgt_not_eq. now apply Hc.
  Qed.

  (** ** Closest point: over any search on a single span *)
  Theorem compound_closest_spec closest l p q : compound_closest_point closest l p = Ok q ->
    (exists c, In c l /\ closest c p = Ok q) /\
    forall c q', In c l -> closest c p = Ok q' -> vnorm2 (vsub q p) <= vnorm2 (vsub q' p).
  Proof.
    intros H. unfold compound_closest_point in H.
    destruct (mapM _ l) as [res| | |] eqn:E; cbn [bind] in H; try discriminate. apply mapM_inv in E.
    destruct (min_by (map (fun q0 => (vnorm2 (vsub q0 p), q0)) res)) as [[d q1]|] eqn:Em; cbn [ok_or bind snd] in H; [|discriminate].
    injection H as ->.
    assert (G : forall (res : list (list R)) x, let z := fold_left pick_min (map (fun q0 => (vnorm2 (vsub q0 p), q0)) res) (vnorm2 (vsub x p), x) in
      (exists y, (y = x \/ In y res) /\ z = (vnorm2 (vsub y p), y)) /\ fst z <= vnorm2 (vsub x p) /\ forall y, In y res -> fst z <= vnorm2 (vsub y p)).
    { clear. induction res as [|a res IH]; intros x; cbn [map fold_left].
      - split; [exists x; auto|]. split; [cbn; lra|]. intros y [].
      - unfold pick_min at 2 4 6. cbn [fst]. rs. destruct (Rltb_spec (vnorm2 (vsub a p)) (vnorm2 (vsub x p))) as [Hlt|Hlt].
        + destruct (IH a) as ((y & Hy & Ey) & I1 & I2). split; [exists y; split; [destruct Hy; subst; cbn; auto|auto]|].
          split; [lra|]. intros z [<-|Hz]; auto.
        + destruct (IH x) as ((y & Hy & Ey) & I1 & I2). split; [exists y; split; [destruct Hy; subst; cbn; auto|auto]|].
          split; [auto|]. intros z [<-|Hz]; [lra|auto]. }
    destruct res as [|a res]; [discriminate|]. cbn [map min_by] in Em. injection Em as Em.
    destruct (G res a) as ((y & Hy & Ey) & I1 & I2). rewrite Em in Ey, I1, I2. injection Ey as Ed ->. cbn [fst] in *.
    assert (Hin : In y (a :: res)) by (destruct Hy; [left; auto|right; auto]).
    assert (Hmin : forall y, In y (a :: res) -> d <= vnorm2 (vsub y p)) by (intros z [<-|Hz]; auto).
    clear -E Hin Hmin Ed. split.
    - clear Hmin. induction E as [|c b l bs Eb _ IH]; [contradiction|]. destruct Hin as [<-|Hin]; [exists c; split; [now left|auto]|].
      destruct (IH Hin) as (c' & C1 & C2). exists c'. split; [now right|auto].
    - intros c q' Hc Eq. rewrite <- Ed. clear Hin Ed. induction E as [|c1 b l bs Eb _ IH]; [contradiction|].
      destruct Hc as [->|Hc]; [rewrite Eq in Eb; injection Eb as ->; apply Hmin; now left|].
      apply IH; auto. intros z Hz. apply Hmin. now right.
  Qed.

  (** ** Trimming *)
  (** [q] is the part of [c] over [a, b] *)
  Definition piece_on (c q : Curve R) (a b : R) : Prop :=
    curve_ok q /\ curve_eps eps q /\ dom0 q = a /\ dom1 q = b /\
    forall v, a <= v <= b -> point_at q v = point_at c v.
  (** what must remain of a span when keeping [a, b] *)
  Definition kept_inside (a b : R) (c : Curve R) (qs : list (Curve R)) : Prop :=
    (Rmin (dom1 c) b <= Rmax (dom0 c) a -> qs = []) /\
    (Rmax (dom0 c) a < Rmin (dom1 c) b ->
       exists q, qs = [q] /\ piece_on c q (Rmax (dom0 c) a) (Rmin (dom1 c) b)).
  (** ... and when removing [b, a] *)
  Definition kept_outside (a b : R) (c : Curve R) (qs : list (Curve R)) : Prop :=
    exists h t, qs = h ++ t /\
      (b <= dom0 c -> h = []) /\
      (dom0 c < b -> exists q, h = [q] /\ piece_on c q (dom0 c) (Rmin (dom1 c) b)) /\
      (dom1 c <= a -> t = []) /\
      (a < dom1 c -> exists q, t = [q] /\ piece_on c q (Rmax (dom0 c) a) (dom1 c)).

  Lemma dom_off c a : curve_ok c -> off_knots eps c a -> eps <= Rabs (dom0 c - a) /\ eps <= Rabs (dom1 c - a).
  Proof.
    intros H Ho. pose proof (curve_len c H) as L. pose proof (co_len c H) as Lp.
    unfold dom0, dom1. split; apply Ho; rewrite (kf_nth _ _ 0) by lia; apply nth_In; lia.
  Qed.
  Lemma piece_self c : curve_ok c -> curve_eps eps c -> piece_on c c (dom0 c) (dom1 c).
  Proof. intros H1 H2. repeat split; auto; apply H1 || apply H2. Qed.

  Local Ltac absc := repeat match goal with
    | H : eps <= Rabs _ |- _ => unfold Rabs in H; destruct (Rcase_abs _) in H end.

  Lemma has_spec c x : curve_ok c -> off_knots eps c x -> 0 < eps ->
    (Rleb (dom0 c + eps) x && Rleb x (dom1 c - eps) = true /\ dom0 c < x < dom1 c) \/
    (Rleb (dom0 c + eps) x && Rleb x (dom1 c - eps) = false /\ (x < dom0 c \/ dom1 c < x)).
  Proof.
    intros H Ho He. destruct (dom_off c x H Ho) as [A B].
    destruct (Rleb_spec (dom0 c + eps) x); cbn [andb]; [|right; split; [reflexivity|]; absc; lra].
    destruct (Rleb_spec x (dom1 c - eps)); [left|right]; split; auto; absc; lra.
  Qed.

  Theorem trim_span_inside c a b : curve_ok c -> curve_eps eps c -> a + eps <= b ->
    off_knots eps c a -> off_knots eps c b ->
    exists qs, trim_span a b c = Ok qs /\ kept_inside a b c qs.
  Proof.
    intros Hc He Hab Ha Hb. pose proof (proj1 He) as He0. pose proof (dom_le c Hc) as Hd.
    unfold trim_span, smin, smax. rs. destruct (Rltb_spec b a); [lra|]. destruct (Rltb_spec a b); [|lra].
    rewrite knots_domain_ok by auto. cbn [bind].
    destruct (has_spec c a Hc Ha He0) as [(-> & A)|(-> & A)]; destruct (has_spec c b Hc Hb He0) as [(-> & B)|(-> & B)].
    - destruct (trim_inside eps maxv c a b) as (t & E & T1 & T2 & _ & T3 & T4 & T5); auto; try lra.
      { now apply off_sep. }
      rewrite E. exists [t]. split; [reflexivity|]. unfold kept_inside. rewrite Rmin_right, Rmax_right by lra.
      split; [lra|]. intros _. exists t. repeat split; auto; try apply T1; apply T2.
    - destruct (split_preserves eps maxv c a Hc He A Ha) as (l & r & E & _ & _ & R1 & R2 & _ & _ & _ & _ & R3 & R4 & _ & R5).
      rewrite E. cbn [bind]. exists [r]. split; [reflexivity|]. unfold kept_inside. rewrite Rmin_left, Rmax_right by lra.
      split; [lra|]. intros _. exists r. repeat split; auto; try apply R1; apply R2.
    - destruct (split_preserves eps maxv c b Hc He B Hb) as (l & r & E & L1 & L2 & _ & _ & _ & _ & L3 & L4 & _ & _ & L5 & _).
      rewrite E. cbn [bind]. exists [l]. split; [reflexivity|]. unfold kept_inside. rewrite Rmin_right, Rmax_left by lra.
      split; [lra|]. intros _. exists l. repeat split; auto; try apply L1; apply L2.
    - destruct (Rleb_spec a (dom0 c)); cbn [andb Bool.eqb].
      + destruct (Rleb_spec (dom0 c) b).
        * exists [c]. split; [reflexivity|]. unfold kept_inside. rewrite Rmin_left, Rmax_left by lra. split; [lra|].
          intros _. exists c. split; [reflexivity|]. now apply piece_self.
        * exists []. split; [reflexivity|]. unfold kept_inside. rewrite Rmin_right, Rmax_left by lra. split; [reflexivity|lra].
      + exists []. split; [reflexivity|]. unfold kept_inside. rewrite Rmin_left, Rmax_right by lra. split; [reflexivity|lra].
  Qed.

  Theorem trim_span_outside c a b : curve_ok c -> curve_eps eps c -> b + eps <= a ->
    off_knots eps c a -> off_knots eps c b ->
    exists qs, trim_span a b c = Ok qs /\ kept_outside a b c qs.
  Proof.
    intros Hc He Hab Ha Hb. pose proof (proj1 He) as He0. pose proof (dom_le c Hc) as Hd.
    unfold trim_span, smin, smax. rs. destruct (Rltb_spec b a); [|lra]. destruct (Rltb_spec a b); [lra|].
    rewrite knots_domain_ok by auto. cbn [bind].
    destruct (has_spec c b Hc Hb He0) as [(-> & B)|(-> & B)]; destruct (has_spec c a Hc Ha He0) as [(-> & A)|(-> & A)].
    - destruct (trim_outside eps maxv c a b) as (t & h & E & T1 & T2 & H1 & H2 & T3 & T4 & H3 & H4 & T5 & H5); auto; try lra.
      { now apply off_sep. }
      unfold try_trim_range, smin, smax in E. rs. destruct (Rltb_spec b a); [|lra]. destruct (Rltb_spec a b); [lra|].
      destruct (try_split c b) as [[h' tl]| | |]; cbn [bind] in *; try discriminate.
      destruct (try_split tl a) as [[t0 t']| | |]; cbn [bind] in *; try discriminate. injection E as -> ->.
      exists [h; t]. split; [reflexivity|]. exists [h], [t]. rewrite Rmin_right, Rmax_right by lra.
      split; [reflexivity|]. split; [lra|]. split; [|split; [lra|]].
      + intros _. exists h. split; [reflexivity|]. repeat split; auto; try apply H1; apply H2.
      + intros _. exists t. split; [reflexivity|]. repeat split; auto; try apply T1; apply T2.
    - destruct (split_preserves eps maxv c b Hc He B Hb) as (l & r & E & L1 & L2 & _ & _ & _ & _ & L3 & L4 & _ & _ & L5 & _).
      rewrite E. cbn [bind]. exists [l]. split; [reflexivity|]. exists [l], []. rewrite Rmin_right by lra.
      split; [reflexivity|]. split; [lra|]. split; [|split; [reflexivity|lra]].
      intros _. exists l. repeat split; auto; try apply L1; apply L2.
    - destruct (split_preserves eps maxv c a Hc He A Ha) as (l & r & E & _ & _ & R1 & R2 & _ & _ & _ & _ & R3 & R4 & _ & R5).
      rewrite E. cbn [bind]. exists [r]. split; [reflexivity|]. exists [], [r]. rewrite Rmax_right by lra.
      split; [reflexivity|]. split; [reflexivity|]. split; [lra|]. split; [lra|].
      intros _. exists r. repeat split; auto; try apply R1; apply R2.
    - destruct (Rleb_spec b (dom0 c)); cbn [andb Bool.eqb].
      + destruct (Rleb_spec (dom0 c) a).
        * exists []. split; [reflexivity|]. exists [], []. split; [reflexivity|]. split; [reflexivity|]. split; [lra|]. split; [reflexivity|lra].
        * exists [c]. split; [reflexivity|]. exists [], [c]. rewrite Rmax_left by lra. split; [reflexivity|]. split; [reflexivity|]. split; [lra|]. split; [lra|].
          intros _. exists c. split; [reflexivity|]. now apply piece_self.
      + exists [c]. split; [reflexivity|]. exists [c], []. rewrite Rmin_left by lra. split; [reflexivity|]. split; [lra|].
        split; [|split; [reflexivity|lra]]. intros _. exists c. split; [reflexivity|]. now apply piece_self.
  Qed.

  (** trimming a compound curve keeps, span by span and in order, exactly the requested parts *)
  Theorem compound_trim_inside l a b : Forall (fun c => curve_ok c /\ curve_eps eps c /\ off_knots eps c a /\ off_knots eps c b) l ->
    a + eps <= b ->
    exists pieces, compound_trim l a b = Ok (concat pieces) /\ Forall2 (kept_inside a b) l pieces.
  Proof.
    intros H Hab. unfold compound_trim.
    assert (G : exists ps, mapM (trim_span a b) l = Ok ps /\ Forall2 (kept_inside a b) l ps).
    { induction H as [|c l (H1 & H2 & H3 & H4) _ (ps & E & F)]; [exists []; split; [reflexivity|constructor]|].
      destruct (trim_span_inside c a b H1 H2 Hab H3 H4) as (q & Eq & K). exists (q :: ps). cbn [mapM]. rewrite Eq, E. split; [reflexivity|]. constructor; auto. }
    destruct G as (ps & E & F). rewrite E. exists ps. auto.
  Qed.
  Theorem compound_trim_outside l a b : Forall (fun c => curve_ok c /\ curve_eps eps c /\ off_knots eps c a /\ off_knots eps c b) l ->
    b + eps <= a ->
    exists pieces, compound_trim l a b = Ok (concat pieces) /\ Forall2 (kept_outside a b) l pieces.
  Proof.
    intros H Hab. unfold compound_trim.
    assert (G : exists ps, mapM (trim_span a b) l = Ok ps /\ Forall2 (kept_outside a b) l ps).
    { induction H as [|c l (H1 & H2 & H3 & H4) _ (ps & E & F)]; [exists []; split; [reflexivity|constructor]|].
      destruct (trim_span_outside c a b H1 H2 Hab H3 H4) as (q & Eq & K). exists (q :: ps). cbn [mapM]. rewrite Eq, E. split; [reflexivity|]. constructor; auto. }
    destruct G as (ps & E & F). rewrite E. exists ps. auto.
  Qed.
End Real.
