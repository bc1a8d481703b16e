(** * Merging of sorted lists and unification of knot vectors (C54, C56), meshes (C52) *)
From Coq Require Import Reals Lra Lia Sorted Permutation.
From Verif Require Import Base BaseFacts Scalar RSum BSplineSpec BSpline KnotModel KnotSpec KnotFacts KnotProofs VecFacts
  CurveModel CurveKnotModel CurveSpec CurveProofs CurveGeom CurveGeom2 KnotMisc Boehm Refine SplitModel SplitProofs Decompose
  ElevateModel MergeModel.
Open Scope R_scope.

Notation cnt := (count_occ Req_EM_T).

Lemma cnt_below (l : list R) x : Forall (fun y => x < y) l -> cnt l x = 0%nat.
Proof. intros H. apply count_occ_not_In. intros Hi. rewrite Forall_forall in H. specialize (H x Hi). lra. Qed.

Lemma sorted_tail_ge (x : R) l : Sorted Rle (x :: l) -> Forall (fun y => x <= y) l.
Proof.
  intros H. apply Sorted_StronglySorted in H; [|intros a b c; lra]. now inversion H.
Qed.

Lemma sorted_cons (x : R) l : Sorted Rle l -> Forall (fun y => x <= y) l -> Sorted Rle (x :: l).
Proof. intros Hs Hf. constructor; [exact Hs|]. destruct l; constructor. now inversion Hf. Qed.

Lemma combine_map2 {A B C} (f : A -> B) (g : A -> C) l : combine (map f l) (map g l) = map (fun x => (f x, g x)) l.
Proof. induction l as [|h t IH]; cbn; [reflexivity|now rewrite IH]. Qed.

Lemma combine_map1 {A C} (g : A -> C) l : combine l (map g l) = map (fun x => (x, g x)) l.
Proof. induction l as [|h t IH]; cbn; [reflexivity|now rewrite IH]. Qed.

Lemma count_repeat_same (x : R) n : cnt (repeat x n) x = n.
Proof. induction n as [|n IH]; cbn; [reflexivity|]. destruct (Req_EM_T x x); [now rewrite IH|congruence]. Qed.

Section Real.
  Variables eps maxv : R.
  Local Hint Extern 0 (Scalar R) => exact (ROps eps maxv) : typeclass_instances.
  Hypothesis He : 0 < eps.

  Lemma separated_incl l l' : incl l l' -> separated eps l' -> separated eps l.
  Proof. intros H S a b Ha Hb. apply S; now apply H. Qed.

  Lemma sep_test l a b : separated eps l -> In a l -> In b l -> Rltb (Rabs (a - b)) eps = true <-> a = b.
  Proof.
    intros S Ha Hb. destruct (Rltb_spec (Rabs (a - b)) eps) as [H|H]; split; intros E; auto; try discriminate.
    - destruct (S a b Ha Hb); [auto|lra].
    - subst. rewrite Rminus_diag_eq, Rabs_R0 in H by reflexivity. lra.
  Qed.

  (** the union *)
  Lemma union_in (a b : list R) x : In x (sorted_set_union a b) -> In x (a ++ b).
  Proof.
    revert b. induction a as [|y a IH].
    - induction b as [|z b IHb]; cbn; [tauto|]. intros [->|H]; auto.
    - induction b as [|z b IHb]; intros H.
      + cbn in H. destruct H as [->|H]; [left; auto|]. right. now apply IH.
      + cbn [sorted_set_union] in H. destruct (sltb (sabs (ssub y z)) seps).
        * destruct H as [->|H]; [left; auto|]. right. apply IH in H. apply in_app_or in H. apply in_or_app. cbn. tauto.
        * destruct (sltb szero (ssub y z)).
          -- destruct H as [->|H]; [apply in_or_app; cbn; tauto|]. apply IHb in H. apply in_app_or in H. apply in_or_app. cbn in *. tauto.
          -- destruct H as [->|H]; [left; auto|]. right. now apply IH.
  Qed.

  Theorem union_spec (a b : list R) : Sorted Rle a -> Sorted Rle b -> separated eps (a ++ b) ->
    Sorted Rle (sorted_set_union a b) /\ forall x, cnt (sorted_set_union a b) x = Nat.max (cnt a x) (cnt b x).
  Proof.
    revert b. induction a as [|y a IH].
    - induction b as [|z b IHb]; intros Sa Sb Sep; [split; [constructor|reflexivity]|].
      assert (E : forall b : list R, sorted_set_union [] b = b) by (induction b0 as [|w b0 IHw]; [reflexivity|change (w :: sorted_set_union [] b0 = w :: b0); now rewrite IHw]).
      rewrite E. split; [exact Sb|]. intros x. reflexivity.
    - induction b as [|z b IHb]; intros Sa Sb Sep.
      + change (sorted_set_union (y :: a) []) with (y :: sorted_set_union a []).
        destruct (IH [] ltac:(now inversion Sa) ltac:(constructor)) as (S1 & C1).
        { eapply separated_incl; [|exact Sep]. intros w. cbn. tauto. }
        split.
        * apply sorted_cons; [exact S1|]. apply Forall_forall. intros w Hw. apply union_in in Hw. rewrite app_nil_r in Hw.
          pose proof (sorted_tail_ge _ _ Sa) as F. rewrite Forall_forall in F. auto.
        * intros x. cbn [count_occ]. rewrite C1. cbn [count_occ]. destruct (Req_EM_T y x); lia.
      + pose proof (sorted_tail_ge _ _ Sa) as Fa. pose proof (sorted_tail_ge _ _ Sb) as Fb.
        assert (Sa' : Sorted Rle a) by now inversion Sa. assert (Sb' : Sorted Rle b) by now inversion Sb.
        rewrite Forall_forall in Fa, Fb.
        pose proof (sep_test _ y z Sep ltac:(left; auto) ltac:(apply in_or_app; right; left; auto)) as T.
        cbn [sorted_set_union]. rs. destruct (Rltb (Rabs (y - z)) eps).
        * assert (E : y = z) by now apply T. subst z.
          destruct (IH b Sa' Sb') as (S1 & C1).
          { eapply separated_incl; [|exact Sep]. intros w Hw. apply in_app_or in Hw. cbn. rewrite in_app_iff. cbn. tauto. }
          split.
          -- apply sorted_cons; [exact S1|]. apply Forall_forall. intros w Hw. apply union_in, in_app_or in Hw. destruct Hw; auto.
          -- intros x. cbn [count_occ]. rewrite C1. destruct (Req_EM_T y x); lia.
        * assert (Hne : y <> z) by (intros E; apply T in E; discriminate).
          destruct (Rltb_spec 0 (y - z)) as [Hd|Hd].
          -- destruct IHb as (S1 & C1); auto.
             { eapply separated_incl; [|exact Sep]. intros w Hw. apply in_app_or in Hw. apply in_or_app. cbn in *. tauto. }
             change ((fix go (b : list R) : list R := _) b) with (sorted_set_union (y :: a) b).
             split.
             ++ apply sorted_cons; [exact S1|]. apply Forall_forall. intros w Hw. apply union_in, in_app_or in Hw.
                destruct Hw as [[->|Hw]|Hw]; [lra| |auto]. specialize (Fa w Hw). lra.
             ++ intros x. cbn [count_occ]. rewrite C1. cbn [count_occ]. destruct (Req_EM_T z x) as [->|]; [|destruct (Req_EM_T y x); lia].
                destruct (Req_EM_T y x); [lra|]. rewrite (cnt_below a x); [lia|]. apply Forall_forall. intros w Hw. specialize (Fa w Hw). lra.
          -- destruct (IH (z :: b) Sa' Sb) as (S1 & C1).
             { eapply separated_incl; [|exact Sep]. intros w Hw. cbn. tauto. }
             split.
             ++ apply sorted_cons; [exact S1|]. apply Forall_forall. intros w Hw. apply union_in, in_app_or in Hw.
                destruct Hw as [Hw|[->|Hw]]; [auto|lra|]. specialize (Fb w Hw). lra.
             ++ intros x. cbn [count_occ]. rewrite C1. cbn [count_occ]. destruct (Req_EM_T y x) as [->|]; [|destruct (Req_EM_T z x); lia].
                destruct (Req_EM_T z x); [lra|]. rewrite (cnt_below b x); [lia|]. apply Forall_forall. intros w Hw. specialize (Fb w Hw). lra.
  Qed.

  (** the difference *)
  Lemma sub_in (a b : list R) x : In x (sorted_set_sub a b) -> In x a.
  Proof.
    revert b. induction a as [|y a IH]; intros b; [cbn; tauto|]. cbn [sorted_set_sub]. destruct b as [|z b].
    - intros [->|H]; [left; auto|right; eauto].
    - destruct (sltb _ _); [intros H; right; eauto|]. intros [->|H]; [left; auto|right; eauto].
  Qed.

  Theorem sub_spec (a b : list R) : Sorted Rle a -> Sorted Rle b -> separated eps a ->
    (forall x, (cnt b x <= cnt a x)%nat) ->
    Sorted Rle (sorted_set_sub a b) /\ forall x, (cnt (sorted_set_sub a b) x + cnt b x = cnt a x)%nat.
  Proof.
    revert b. induction a as [|y a IH]; intros b Sa Sb Sep Hle.
    - split; [constructor|]. intros x. specialize (Hle x). cbn in *. lia.
    - pose proof (sorted_tail_ge _ _ Sa) as Fa. assert (Sa' : Sorted Rle a) by now inversion Sa.
      rewrite Forall_forall in Fa.
      assert (Sep' : separated eps a) by (eapply separated_incl; [|exact Sep]; intros w; cbn; tauto).
      cbn [sorted_set_sub]. destruct b as [|z b].
      + destruct (IH [] Sa' ltac:(constructor) Sep' ltac:(intros; cbn; lia)) as (S1 & C1). split.
        * apply sorted_cons; auto. apply Forall_forall. intros w Hw. apply sub_in in Hw. auto.
        * intros x. specialize (C1 x). cbn [count_occ] in *. destruct (Req_EM_T y x); lia.
      + pose proof (sorted_tail_ge _ _ Sb) as Fb. assert (Sb' : Sorted Rle b) by now inversion Sb. rewrite Forall_forall in Fb.
        assert (Hz : In z (y :: a)).
        { apply (count_occ_In Req_EM_T). specialize (Hle z). cbn [count_occ] in *. destruct (Req_EM_T z z); [|congruence]. lia. }
        pose proof (sep_test _ y z Sep ltac:(left; auto) Hz) as T. rs. destruct (Rltb (Rabs (y - z)) eps).
        * assert (E : y = z) by now apply T. subst z.
          destruct (IH b Sa' Sb' Sep') as (S1 & C1).
          { intros x. specialize (Hle x). cbn [count_occ] in Hle. destruct (Req_EM_T y x); lia. }
          split; [exact S1|]. intros x. specialize (C1 x). cbn [count_occ] in *. destruct (Req_EM_T y x); lia.
        * assert (Hne : y <> z) by (intros E; apply T in E; discriminate).
          assert (Hyz : y < z). { destruct Hz as [->|Hz]; [congruence|]. specialize (Fa z Hz). lra. }
          assert (C0 : cnt (z :: b) y = 0%nat).
          { apply cnt_below. constructor; [exact Hyz|]. apply Forall_forall. intros w Hw. specialize (Fb w Hw). lra. }
          destruct (IH (z :: b) Sa' Sb Sep') as (S1 & C1).
          { intros x. specialize (Hle x). cbn [count_occ] in Hle, C0 |- *. destruct (Req_EM_T y x) as [<-|]; lia. }
          split.
          -- apply sorted_cons; auto. apply Forall_forall. intros w Hw. apply sub_in in Hw. auto.
          -- intros x. specialize (C1 x). cbn [count_occ] in *. destruct (Req_EM_T y x); lia.
  Qed.

  Corollary sub_perm (a b : list R) : Sorted Rle a -> Sorted Rle b -> separated eps a -> (forall x, (cnt b x <= cnt a x)%nat) ->
    Permutation (b ++ sorted_set_sub a b) a.
  Proof.
    intros Sa Sb Sep Hle. destruct (sub_spec a b Sa Sb Sep Hle) as (_ & C).
    apply (Permutation_count_occ Req_EM_T). intros x. rewrite count_occ_app. specialize (C x). lia.
  Qed.

  (** the exact merge of parameter lists *)
  Lemma merge_nil (a : list R) : merge_sorted a [] = a.
  Proof. destruct a; reflexivity. Qed.
  Theorem merge_in (a b : list R) x : In x (merge_sorted a b) <-> In x a \/ In x b.
  Proof.
    revert b. induction a as [|y a IH]; intros b.
    - destruct b; cbn; tauto.
    - induction b as [|z b IHb]; [cbn; tauto|]. cbn [merge_sorted]. rs.
      destruct (Rltb_spec y z); [|destruct (Rltb_spec z y)].
      + cbn [In]. rewrite IH. cbn. tauto.
      + cbn [In]. change ((fix go (b : list R) : list R := _) b) with (merge_sorted (y :: a) b). rewrite IHb. cbn. tauto.
      + assert (y = z) by lra. subst. cbn [In]. rewrite IH. cbn. tauto.
  Qed.
  Theorem merge_sorted_sorted (a b : list R) : Sorted Rle a -> Sorted Rle b -> Sorted Rle (merge_sorted a b).
  Proof.
    revert b. induction a as [|y a IH]; intros b Sa Sb.
    - destruct b; exact Sb.
    - induction b as [|z b IHb]; [exact Sa|]. cbn [merge_sorted]. rs.
      pose proof (sorted_tail_ge _ _ Sa) as Fa. pose proof (sorted_tail_ge _ _ Sb) as Fb. rewrite Forall_forall in Fa, Fb.
      assert (Sa' : Sorted Rle a) by now inversion Sa. assert (Sb' : Sorted Rle b) by now inversion Sb.
      destruct (Rltb_spec y z); [|destruct (Rltb_spec z y)].
      + apply sorted_cons; [now apply IH|]. apply Forall_forall. intros w Hw. apply merge_in in Hw.
        destruct Hw as [Hw|[->|Hw]]; auto; try lra. specialize (Fb w Hw). lra.
      + change ((fix go (b : list R) : list R := _) b) with (merge_sorted (y :: a) b).
        apply sorted_cons; [auto|]. apply Forall_forall. intros w Hw. apply merge_in in Hw.
        destruct Hw as [[->|Hw]|Hw]; auto; try lra. specialize (Fa w Hw). lra.
      + assert (y = z) by lra. subst. apply sorted_cons; [now apply IH|]. apply Forall_forall. intros w Hw. apply merge_in in Hw.
        destruct Hw as [Hw|Hw]; auto.
  Qed.
  (** strictly increasing lists give a strictly increasing list: each common value appears once *)
  Theorem merge_strict (a b : list R) : StronglySorted Rlt a -> StronglySorted Rlt b -> StronglySorted Rlt (merge_sorted a b).
  Proof.
    revert b. induction a as [|y a IH]; intros b Sa Sb.
    - destruct b; exact Sb.
    - induction b as [|z b IHb]; [exact Sa|]. cbn [merge_sorted]. rs.
      inversion Sa as [|? ? Sa' Fa]; subst. inversion Sb as [|? ? Sb' Fb]; subst. rewrite Forall_forall in Fa, Fb.
      destruct (Rltb_spec y z); [|destruct (Rltb_spec z y)].
      + constructor; [now apply IH|]. apply Forall_forall. intros w Hw. apply merge_in in Hw.
        destruct Hw as [Hw|[->|Hw]]; auto; try lra. specialize (Fb w Hw). lra.
      + change ((fix go (b : list R) : list R := _) b) with (merge_sorted (y :: a) b).
        constructor; [auto|]. apply Forall_forall. intros w Hw. apply merge_in in Hw.
        destruct Hw as [[->|Hw]|Hw]; auto; try lra. specialize (Fa w Hw). lra.
      + assert (y = z) by lra. subst. constructor; [now apply IH|]. apply Forall_forall. intros w Hw. apply merge_in in Hw.
        destruct Hw as [Hw|Hw]; auto.
  Qed.
  (** ** Unification of the knot vectors of a list of curves *)
  Lemma cnt_ends c : curve_ok c -> clamped c ->
    cnt (cknots c) (dom0 c) = (cdeg c + 1)%nat /\ cnt (cknots c) (dom1 c) = (cdeg c + 1)%nat.
  Proof.
    intros Hc (C0 & C1). pose proof (curve_mono c Hc) as Hm. pose proof (curve_len c Hc) as Hl.
    pose proof (clast_S c Hc) as Hn. pose proof (co_len c Hc) as Hp. destruct (co_knots c Hc) as [_ _ _ K4 K5].
    assert (Hk : forall i, (i < length (cknots c))%nat -> nth i (cknots c) 0 = kf (cknots c) i) by (intros i Hi; symmetry; now apply kf_nth).
    split.
    - rewrite <- (firstn_skipn (cdeg c + 1) (cknots c)). rewrite count_occ_app.
      replace (firstn (cdeg c + 1) (cknots c)) with (repeat (dom0 c) (cdeg c + 1)).
      + rewrite count_repeat_same. rewrite cnt_below; [lia|]. apply Forall_forall. intros w Hw.
        apply In_nth with (d := 0) in Hw. destruct Hw as (i & Hi & <-). rewrite skipn_length in Hi. rewrite nth_skipn, Hk by lia.
        pose proof (mono_le _ (cdeg c + 1) (cdeg c + 1 + i) Hm ltac:(lia)). unfold dom0. lra.
      + apply (list_ext 0); [rewrite repeat_length, firstn_length; lia|]. intros i Hi. rewrite repeat_length in Hi.
        rewrite nth_repeat_lt by lia. rewrite nth_firstn, Hk by lia.
        pose proof (mono_le _ 0 i Hm ltac:(lia)). pose proof (mono_le _ i (cdeg c) Hm ltac:(lia)). unfold dom0 in *. lra.
    - rewrite <- (firstn_skipn (length (cpts c)) (cknots c)). rewrite count_occ_app.
      replace (skipn (length (cpts c)) (cknots c)) with (repeat (dom1 c) (cdeg c + 1)).
      + rewrite count_repeat_same. rewrite (proj1 (count_occ_not_In Req_EM_T _ _)); [lia|]. intros Hw.
        apply In_nth with (d := 0) in Hw. destruct Hw as (i & Hi & Ei). rewrite firstn_length in Hi.
        rewrite nth_firstn, Hk in Ei by lia.
        pose proof (mono_le _ i (clast c) Hm ltac:(lia)). unfold dom1 in *. rewrite <- Hn in Ei. replace (clast c + 1)%nat with (S (clast c)) in K5 by lia. lra.
      + apply (list_ext 0); [rewrite repeat_length, skipn_length; lia|]. intros i Hi. rewrite repeat_length in Hi.
        rewrite nth_repeat_lt by lia. rewrite nth_skipn, Hk by lia.
        pose proof (mono_le _ (length (cpts c)) (length (cpts c) + i) Hm ltac:(lia)).
        pose proof (mono_le _ (length (cpts c) + i) (length (cknots c) - 1) Hm ltac:(lia)). unfold dom1 in *. lra.
  Qed.

  (** the merged list of many curves: sorted, and every value has the largest multiplicity it has in any curve *)
  Lemma merged_spec (ds : list (Curve R)) : forall acc,
    Sorted Rle acc -> Forall (fun d => Sorted Rle (cknots d)) ds -> separated eps (concat (map cknots ds) ++ acc) ->
    let m := fold_left (fun a d => sorted_set_union (cknots d) a) ds acc in
    Sorted Rle m /\ forall x, (cnt acc x <= cnt m x)%nat /\ (forall d, In d ds -> cnt (cknots d) x <= cnt m x)%nat /\
      (cnt m x = cnt acc x \/ exists d, In d ds /\ cnt m x = cnt (cknots d) x).
  Proof.
    induction ds as [|d ds IH]; intros acc Sa Sd Sep m.
    - subst m. cbn [fold_left]. split; [exact Sa|]. intros x. split; [lia|]. split; [intros d []|left; reflexivity].
    - inversion Sd as [|? ? Sd0 Sd']; subst. cbn [map concat] in Sep.
      destruct (union_spec (cknots d) acc Sd0 Sa) as (Su & Cu).
      { eapply separated_incl; [|exact Sep]. intros w. rewrite !in_app_iff. tauto. }
      destruct (IH (sorted_set_union (cknots d) acc) Su Sd') as (Sm & Cm).
      { eapply separated_incl; [|exact Sep]. intros w. rewrite !in_app_iff. intros [H|H]; [tauto|]. apply union_in in H.
        apply in_app_or in H. tauto. }
      cbn [fold_left] in m. fold m in Sm, Cm. split; [exact Sm|]. intros x. destruct (Cm x) as (C1 & C2 & C3). rewrite Cu in C1, C3.
      split; [lia|]. split.
      + intros d' [<-|Hd]; [lia|auto].
      + destruct C3 as [C3|(d' & Hd & C3)].
        * destruct (Nat.max_dec (cnt (cknots d) x) (cnt acc x)) as [E|E]; rewrite E in C3; [right; exists d; cbn; auto|left; exact C3].
        * right. exists d'. cbn. auto.
  Qed.

  (** the curve with its domain moved to [0, S] *)
  Definition on_span (S : R) (c : Curve R) : Curve R :=
    reparam (S / (dom1 c - dom0 c)) (- dom0 c * (S / (dom1 c - dom0 c))) c.
  (** the longest domain *)
  Definition max_span (cs : list (Curve R)) : R := fold_left Rmax (map (fun c => dom1 c - dom0 c) cs) 0.

  Theorem unify_spec p (cs : list (Curve R)) :
    Forall (fun c => curve_ok c /\ clamped c /\ cdeg c = p /\ curve_eps eps (on_span (max_span cs) c)) cs ->
    separated eps (concat (map (fun c => cknots (on_span (max_span cs) c)) cs)) ->
    exists cs' ks, unify_knots cs = Ok cs' /\ Sorted Rle ks /\
      (forall x n, (n <= cnt ks x)%nat <-> (n = 0)%nat \/ exists c, In c cs /\ (n <= cnt (cknots (on_span (max_span cs) c)) x)%nat) /\
      Forall2 (fun c c' => cknots c' = ks /\ cdeg c' = p /\ cdim c' = cdim c /\ curve_ok c' /\
        dom0 c' = 0 /\ dom1 c' = max_span cs /\
        forall i u, dom0 c <= u <= dom1 c ->
          hcoord c' i ((u - dom0 c) * (max_span cs / (dom1 c - dom0 c))) = hcoord c i u) cs cs'.
  Proof.
    intros Hall Hsep.
    assert (Hok : forall c, In c cs -> curve_ok c /\ clamped c /\ cdeg c = p /\ curve_eps eps (on_span (max_span cs) c)).
    { rewrite Forall_forall in Hall. auto. }
    assert (Fm : forall l a, 0 <= a -> a <= fold_left Rmax l a /\ forall y, In y l -> y <= fold_left Rmax l a).
    { induction l as [|y l IHl]; intros a Ha; cbn [fold_left]; [split; [lra|intros y []]|].
      destruct (IHl (Rmax a y)) as (B1 & B2); [eapply Rle_trans; [exact Ha|apply Rmax_l]|].
      pose proof (Rmax_l a y). pose proof (Rmax_r a y). split; [lra|]. intros z [<-|Hz]; [lra|auto]. }
    set (S := max_span cs) in *.
    assert (HS : forall c, In c cs -> 0 < dom1 c - dom0 c <= S).
    { intros c Hin. destruct (Hok c Hin) as (Hc & _). pose proof (dom_le c Hc). split; [lra|].
      apply (Fm (map (fun c => dom1 c - dom0 c) cs) 0 ltac:(lra)). apply in_map_iff. eauto. }
    unfold unify_knots.
    assert (Deg : forall (l : list (Curve R)) d, (forall c, In c l -> cdeg c = p) -> (d <= p)%nat -> (fold_left (fun d c => Nat.max d (cdeg c)) l d <= p)%nat).
    { induction l as [|c l IHl]; intros d Hl Hd; cbn [fold_left]; [lia|]. apply IHl; [intros; apply Hl; right; auto|].
      rewrite (Hl c) by (left; auto). lia. }
    set (md := fold_left _ cs 0%nat). assert (Hmd : (md <= p)%nat) by (apply Deg; [intros c Hin; apply Hok; auto|lia]).
    rewrite (mapM_ok _ (fun c => c) cs).
    2:{ intros c Hin. destruct (Hok c Hin) as (_ & _ & -> & _). destruct (Nat.ltb_spec p md); [lia|reflexivity]. }
    cbn [bind]. rewrite map_id. clearbody md. clear Deg Hmd md.
    rewrite (mapM_ok _ (fun c => (dom0 c, dom1 c)) cs).
    2:{ intros c Hin. destruct (Hok c Hin) as (Hc & (K0 & K1) & _). pose proof (curve_len c Hc) as Hl.
        rewrite get_kf by lia. cbn [bind]. rewrite usub_ok by lia. cbn [bind]. rewrite get_kf by lia. cbn [bind]. now rewrite K0, K1. }
    cbn [bind]. rewrite combine_map1, !map_map. rewrite combine_map2, map_map. rs.
    assert (EM : fold_left (fun x a : R => if Rltb x a then a else x) (map (fun x : Curve R => dom1 x - dom0 x) cs) 0 = S).
    { unfold S, max_span. generalize 0. clear. induction cs as [|c l IHl]; intros a; [reflexivity|]. cbn [map fold_left].
      replace (if Rltb a (dom1 c - dom0 c) then dom1 c - dom0 c else a) with (Rmax a (dom1 c - dom0 c)).
      - apply IHl.
      - unfold Rmax. destruct (Rltb_spec a (dom1 c - dom0 c)), (Rle_dec a (dom1 c - dom0 c)); lra. }
    rewrite EM. clear EM.
    match goal with |- context [map ?f cs] => replace (map f cs) with (map (on_span S) cs) end.
    2:{ apply map_ext. intros c. unfold on_span, reparam, scale_knots, shift_knots. cbn [cdim cdeg cpts cknots]. f_equal.
        rewrite map_map. apply map_ext. intros x. rs. ring. }
    set (ds := map (on_span S) cs).
    assert (Hds : forall d, In d ds -> exists c, In c cs /\ d = on_span S c).
    { intros d Hd. apply in_map_iff in Hd. destruct Hd as (c & <- & Hc). eauto. }
    assert (Hd : forall c, In c cs -> curve_ok (on_span S c) /\ clamped (on_span S c) /\ dom0 (on_span S c) = 0 /\ dom1 (on_span S c) = S).
    { intros c Hin. destruct (Hok c Hin) as (Hc & Hcl & _). pose proof (HS c Hin) as B.
      assert (Ha : 0 < S / (dom1 c - dom0 c)) by (apply Rdiv_lt_0_compat; lra).
      assert (Hd : dom0 (on_span S c) = 0 /\ dom1 (on_span S c) = S).
      { unfold on_span. destruct (reparam_dom (S / (dom1 c - dom0 c)) (- dom0 c * (S / (dom1 c - dom0 c))) c Hc) as (-> & ->). split; field; lra. }
      split; [now apply reparam_ok|]. split; [|exact Hd].
      destruct Hd as (D0 & D1). destruct Hcl as (C0 & C1). unfold clamped. rewrite D0, D1. unfold on_span, reparam. cbn [cknots].
      rewrite map_length. rewrite !kf_map by (apply curve_ne; auto). rewrite C0, C1. split; field; lra. }
    destruct (merged_spec ds []) as (Sm & Cm).
    { constructor. }
    { apply Forall_forall. intros d Hdd. destruct (Hds d Hdd) as (c & Hin & ->). destruct (Hd c Hin) as (Hc' & _). apply Hc'. }
    { rewrite app_nil_r. unfold ds. rewrite map_map. exact Hsep. }
    set (m := fold_left _ ds []) in *.
    assert (Sepm : separated eps m).
    { eapply separated_incl; [|exact Hsep]. intros x Hx. apply (count_occ_In Req_EM_T) in Hx. destruct (Cm x) as (_ & _ & [E|(d & Hdd & E)]).
      - cbn in E. lia.
      - rewrite E in Hx. apply count_occ_In in Hx. destruct (Hds d Hdd) as (c & Hin & ->). apply in_concat.
        exists (cknots (on_span S c)). split; [|exact Hx]. apply in_map_iff. eauto. }
    assert (Step : forall c, In c cs -> exists c', 
       match sorted_set_sub m (cknots (on_span S c)) with [] => Ok (on_span S c) | rem => try_refine_knot (on_span S c) rem end = Ok c' /\
       cknots c' = m /\ cdeg c' = p /\ cdim c' = cdim c /\ curve_ok c' /\ dom0 c' = 0 /\ dom1 c' = S /\
       forall i u, dom0 c <= u <= dom1 c -> hcoord c' i ((u - dom0 c) * (S / (dom1 c - dom0 c))) = hcoord c i u).
    { intros c Hin. destruct (Hok c Hin) as (Hc & _ & Ep & Hce). destruct (Hd c Hin) as (Hc1 & Hcl1 & D0 & D1).
      pose proof (HS c Hin) as B. set (d := on_span S c) in *.
      assert (Hdd : In d ds) by (apply in_map; auto).
      assert (Hle : forall x, (cnt (cknots d) x <= cnt m x)%nat) by (intros x; apply (proj1 (proj2 (Cm x))); auto).
      assert (Sd : Sorted Rle (cknots d)) by apply Hc1.
      destruct (sub_spec m (cknots d) Sm Sd Sepm Hle) as (Sr & Cr).
      set (rem := sorted_set_sub m (cknots d)) in *.
      assert (Hin_m : forall x, In x rem -> In x m) by (intros x; apply sub_in).
      assert (Ins : Forall (fun x => dom0 d < x < dom1 d) rem).
      { apply Forall_forall. intros x Hx. rewrite D0, D1.
        assert (Hgt : (cnt (cknots d) x < cnt m x)%nat).
        { pose proof (proj1 (count_occ_In Req_EM_T rem x) Hx). specialize (Cr x). lia. }
        destruct (Cm x) as (_ & _ & [E|(d' & Hd' & E)]); [cbn in E; lia|].
        destruct (Hds d' Hd') as (c2 & Hin2 & ->). destruct (Hd c2 Hin2) as (Hc2 & Hcl2 & D02 & D12).
        destruct (cnt_ends _ Hc1 Hcl1) as (E0 & E1). destruct (cnt_ends _ Hc2 Hcl2) as (E20 & E21).
        assert (Eq : cdeg d = cdeg (on_span S c2)).
        { change (cdeg d) with (cdeg c). change (cdeg (on_span S c2)) with (cdeg c2). destruct (Hok c2 Hin2) as (_ & _ & -> & _). exact Ep. }
        assert (Hx2 : In x (cknots (on_span S c2))) by (apply (count_occ_In Req_EM_T); lia).
        assert (Bd : 0 <= x <= S).
        { apply In_nth with (d := 0) in Hx2. destruct Hx2 as (i & Hi & <-). rewrite <- kf_nth by exact Hi.
          pose proof (curve_mono _ Hc2) as Hm2. destruct Hcl2 as (K0 & K1). rewrite D02 in K0. rewrite D12 in K1.
          pose proof (mono_le _ 0 i Hm2 ltac:(lia)). pose proof (mono_le _ i (length (cknots (on_span S c2)) - 1) Hm2 ltac:(lia)). lra. }
        rewrite D0, D1 in *. rewrite D02 in E20. rewrite D12 in E21.
        destruct (Req_dec x 0) as [->|N0]; [lia|]. destruct (Req_dec x S) as [->|N1]; [lia|]. lra. }
      assert (RO : refine_ok eps d rem).
      { constructor; [exact Sr| |].
        - apply Forall_forall. intros x Hx. rewrite Forall_forall in Ins. specialize (Ins x Hx). lra.
        - intros x y Hx Hy. apply in_app_or in Hy.
          assert (Hym : In y m).
          { destruct Hy as [Hy|Hy]; [|auto]. apply (count_occ_In Req_EM_T) in Hy. apply (count_occ_In Req_EM_T). specialize (Hle y). lia. }
          destruct (Sepm y x Hym (Hin_m x Hx)) as [E|E]; [left; auto|right; lra]. }
      destruct (refine_spec eps maxv d rem Hc1 Hce RO) as (c' & E & Sc & Hi & P & _).
      destruct (Hi Ins) as (Hc' & _). exists c'. split.
      { destruct rem; [|exact E]. exact E. }
      split.
      { apply sorted_perm_eq; [apply Hc'|exact Sm|]. eapply perm_trans; [exact P|]. apply sub_perm; auto. }
      split; [rewrite (sc_deg _ _ Sc); exact Ep|]. split; [rewrite (sc_dim _ _ Sc); reflexivity|]. split; [exact Hc'|].
      split; [rewrite (sc_dom0 _ _ Sc); exact D0|]. split; [rewrite (sc_dom1 _ _ Sc); exact D1|].
      intros i u Hu. set (a := S / (dom1 c - dom0 c)). assert (Ha : 0 < a) by (apply Rdiv_lt_0_compat; lra).
      replace ((u - dom0 c) * a) with (a * u + - dom0 c * a) by ring.
      assert (HaS : a * (dom1 c - dom0 c) = S) by (unfold a; field; lra).
      rewrite (same_hcoord d c' i _ Hc1 Hc' Sc).
      - unfold d, on_span. fold a. now apply reparam_hcoord.
      - rewrite D0, D1. split; nra. }
    assert (Main : forall l, (forall c, In c l -> In c cs) -> exists cs', 
      mapM (fun c => match sorted_set_sub m (cknots c) with [] => Ok c | rem => try_refine_knot c rem end) (map (on_span S) l) = Ok cs' /\
      Forall2 (fun c c' => cknots c' = m /\ cdeg c' = p /\ cdim c' = cdim c /\ curve_ok c' /\ dom0 c' = 0 /\ dom1 c' = S /\
        forall i u, dom0 c <= u <= dom1 c -> hcoord c' i ((u - dom0 c) * (S / (dom1 c - dom0 c))) = hcoord c i u) l cs').
    { induction l as [|c l IHl]; intros Hl; [exists []; split; [reflexivity|constructor]|].
      destruct (Step c (Hl c (or_introl eq_refl))) as (c' & E & Pc). destruct IHl as (l' & E' & F); [intros; apply Hl; right; auto|].
      exists (c' :: l'). cbn [map mapM]. rewrite E. cbn [bind]. rewrite E'. cbn [bind]. split; [reflexivity|]. constructor; auto. }
    destruct (Main cs (fun c H => H)) as (cs' & E & F). exists cs', m. split; [exact E|]. split; [exact Sm|]. split; [|exact F].
    intros x n. destruct (Cm x) as (_ & C2 & C3). split.
    - intros Hn. destruct C3 as [C3|(d & Hdd & C3)].
      + left. cbn in C3. lia.
      + right. destruct (Hds d Hdd) as (c & Hin & ->). exists c. split; [exact Hin|]. lia.
    - intros [->|(c & Hin & Hn)]; [lia|]. specialize (C2 (on_span S c) ltac:(apply in_map; auto)). lia.
  Qed.
End Real.

(** ** Meshes *)
Section MeshFacts.
  Context {V : Type}.
  Local Open Scope nat_scope.

  Definition mesh_ok (m : Mesh V) : Prop :=
    Forall (fun '(a, b, c) => a < length (mverts m) /\ b < length (mverts m) /\ c < length (mverts m)) (mfaces m).

  Theorem triangles_ok (m : Mesh V) : mesh_ok m <-> is_ok (triangles m).
  Proof.
    unfold mesh_ok, triangles. generalize (mfaces m) as fs. intros fs. split.
    - induction 1 as [|[[a b] c] fs (Ha & Hb & Hc) _ IH]; [eexists; reflexivity|]. destruct IH as (ts & E). cbn [mapM].
      destruct (nth_error (mverts m) a) as [va|] eqn:Ea; [|apply nth_error_None in Ea; lia].
      destruct (nth_error (mverts m) b) as [vb|] eqn:Eb; [|apply nth_error_None in Eb; lia].
      destruct (nth_error (mverts m) c) as [vc|] eqn:Ec; [|apply nth_error_None in Ec; lia].
      assert (Ga : get (mverts m) a = Ok va) by (unfold get; now rewrite Ea).
      assert (Gb : get (mverts m) b = Ok vb) by (unfold get; now rewrite Eb).
      assert (Gc : get (mverts m) c = Ok vc) by (unfold get; now rewrite Ec).
      rewrite Ga, Gb, Gc. cbn [bind]. rewrite E. cbn [bind]. eexists. reflexivity.
    - intros (ts & E). apply mapM_inv in E. induction E as [|[[a b] c] t fs ts' E _ IH]; [constructor|]. constructor; [|exact IH].
      apply bind_ok in E. destruct E as (va & Ea & E). apply bind_ok in E. destruct E as (vb & Eb & E).
      apply bind_ok in E. destruct E as (vc & Ec & E). apply get_inv in Ea, Eb, Ec. tauto.
  Qed.

  (** the triangles of a concatenation are the triangles of the two meshes, in order *)
  Theorem mesh_add_triangles (a b : Mesh V) ta tb : triangles a = Ok ta -> triangles b = Ok tb ->
    triangles (mesh_add a b) = Ok (ta ++ tb) /\ mverts (mesh_add a b) = mverts a ++ mverts b /\
    length (mfaces (mesh_add a b)) = length (mfaces a) + length (mfaces b).
  Proof.
    intros Ea Eb. split; [|split; [reflexivity|unfold mesh_add; cbn [mfaces]; now rewrite app_length, map_length]].
    unfold triangles, mesh_add in *. cbn [mfaces mverts].
    assert (App : forall (X Y : Type) (f : X -> Res Y) l1 l2 r1 r2, mapM f l1 = Ok r1 -> mapM f l2 = Ok r2 -> mapM f (l1 ++ l2) = Ok (r1 ++ r2)).
    { intros X Y f l1. induction l1 as [|h l1 IH]; intros l2 r1 r2 E1 E2; cbn [mapM app] in *; [inversion E1; exact E2|].
      apply bind_ok in E1. destruct E1 as (y & Ey & E1). apply bind_ok in E1. destruct E1 as (ys & Eys & E1). inversion E1; subst.
      rewrite Ey. cbn [bind]. rewrite (IH l2 ys r2 Eys E2). reflexivity. }
    assert (G1 : forall i v, get (mverts a) i = Ok v -> get (mverts a ++ mverts b) i = Ok v).
    { intros i v H. unfold get in *. destruct (nth_error (mverts a) i) eqn:E; [|discriminate]. inversion H; subst.
      rewrite nth_error_app1; [now rewrite E|]. apply nth_error_Some. congruence. }
    assert (G2 : forall i v, get (mverts b) i = Ok v -> get (mverts a ++ mverts b) (i + length (mverts a)) = Ok v).
    { intros i v H. unfold get in *. rewrite nth_error_app2 by lia. replace (i + length (mverts a) - length (mverts a)) with i by lia. exact H. }
    apply App.
    - clear Eb. revert ta Ea. induction (mfaces a) as [|[[x y] z] fs IH]; intros ta Ea; cbn [mapM] in *; [exact Ea|].
      apply bind_ok in Ea. destruct Ea as (t & Et & Ea). apply bind_ok in Ea. destruct Ea as (ts & Ets & Ea).
      apply bind_ok in Et. destruct Et as (v1 & E1 & Et). apply bind_ok in Et. destruct Et as (v2 & E2 & Et).
      apply bind_ok in Et. destruct Et as (v3 & E3 & Et). rewrite (G1 _ _ E1), (G1 _ _ E2), (G1 _ _ E3). cbn [bind].
      rewrite (IH ts Ets). cbn [bind]. inversion Et; subst. exact Ea.
    - clear Ea. revert tb Eb. induction (mfaces b) as [|[[x y] z] fs IH]; intros tb Eb; cbn [mapM map] in *; [exact Eb|].
      apply bind_ok in Eb. destruct Eb as (t & Et & Eb). apply bind_ok in Eb. destruct Eb as (ts & Ets & Eb).
      apply bind_ok in Et. destruct Et as (v1 & E1 & Et). apply bind_ok in Et. destruct Et as (v2 & E2 & Et).
      apply bind_ok in Et. destruct Et as (v3 & E3 & Et). rewrite (G2 _ _ E1), (G2 _ _ E2), (G2 _ _ E3). cbn [bind].
      rewrite (IH ts Ets). cbn [bind]. inversion Et; subst. exact Eb.
  Qed.

  (** the sum of a list of meshes lists all triangles, in order *)
  Theorem mesh_sum_triangles (l : list (Mesh V)) ts : mapM triangles l = Ok ts -> triangles (mesh_sum l) = Ok (concat ts).
  Proof.
    unfold mesh_sum. assert (H : forall (l : list (Mesh V)) ts acc tacc, triangles acc = Ok tacc -> mapM triangles l = Ok ts ->
      triangles (fold_left mesh_add l acc) = Ok (tacc ++ concat ts)).
    { clear. induction l as [|m l IH]; intros ts acc tacc Ea E; cbn [mapM fold_left] in *.
      - inversion E; subst. cbn. now rewrite app_nil_r.
      - apply bind_ok in E. destruct E as (t & Et & E). apply bind_ok in E. destruct E as (ts' & Ets & E). inversion E; subst.
        rewrite (IH ts' (mesh_add acc m) (tacc ++ t)); [|apply mesh_add_triangles; auto|exact Ets]. cbn [concat]. now rewrite app_assoc. }
    intros E. apply (H l ts _ []); [reflexivity|exact E].
  Qed.

  Theorem mesh_add_assoc (a b c : Mesh V) : mesh_add (mesh_add a b) c = mesh_add a (mesh_add b c).
  Proof.
    unfold mesh_add. cbn [mverts mfaces]. rewrite app_length, map_app, map_map, !app_assoc. f_equal. f_equal.
    apply map_ext. intros [[x y] z]. f_equal; [f_equal|]; lia.
  Qed.
End MeshFacts.

Section Area.
  Variables eps maxv : R.
  Local Hint Extern 0 (Scalar R) => exact (ROps eps maxv) : typeclass_instances.

  Lemma fold_plus_app l1 l2 (a : R) : fold_left Rplus (l1 ++ l2) a = fold_left Rplus l1 a + fold_left Rplus l2 0.
  Proof. rewrite fold_left_app. apply fold_left_Rplus. Qed.

  (** areas add up *)
  Theorem mesh_area2_add (a b : Mesh (list R)) x y : mesh_area2 a = Ok x -> mesh_area2 b = Ok y -> mesh_area2 (mesh_add a b) = Ok (x + y).
  Proof.
    unfold mesh_area2. intros Ha Hb. apply bind_ok in Ha. destruct Ha as (ta & Ea & Ha). apply bind_ok in Hb. destruct Hb as (tb & Eb & Hb).
    destruct (mesh_add_triangles a b ta tb Ea Eb) as (-> & _). cbn [bind]. inversion Ha; subst. inversion Hb; subst. rs.
    rewrite map_app, fold_plus_app. unfold Rdiv. now rewrite Rmult_plus_distr_r.
  Qed.
  Theorem mesh_area3_add (a b : Mesh (list R)) x y : mesh_area3 a = Ok x -> mesh_area3 b = Ok y -> mesh_area3 (mesh_add a b) = Ok (x + y).
  Proof.
    unfold mesh_area3. intros Ha Hb. apply bind_ok in Ha. destruct Ha as (ta & Ea & Ha). apply bind_ok in Hb. destruct Hb as (tb & Eb & Hb).
    destruct (mesh_add_triangles a b ta tb Ea Eb) as (-> & _). cbn [bind]. inversion Ha; subst. inversion Hb; subst. rs.
    rewrite map_app, fold_plus_app. unfold Rdiv. now rewrite Rmult_plus_distr_r.
  Qed.
End Area.
