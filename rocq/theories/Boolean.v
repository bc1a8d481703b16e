(** * The regions of a boolean operation are bounded by the right parts of both curves (C92) *)
From Coq Require Import Reals Lra Lia List Sorted Permutation.
From Verif Require Import Base BaseFacts Scalar RSum BSplineSpec BSpline KnotModel KnotSpec
  KnotFacts KnotProofs VecFacts MiscModel CurveModel CurveKnotModel CurveSpec CurveProofs CurveGeom CurveGeom2
  KnotMisc Boehm Refine SplitModel SplitProofs Decompose CompoundModel CompoundProofs CompoundCycle TrimFine
  ClipModel ClipSpec ClipProofs ClipBuild ClipMain ClipReal.
Import ListNotations.
Open Scope R_scope.

(** ** The loops of kept segments never meet a crossing twice *)
Section Loops.
  Local Open Scope nat_scope.
  Variable n : nat.
  Hypothesis Hpos : 0 < n.
  Hypothesis Heven : Nat.even n = true.
  Variables oa ob : list nat.
  Hypothesis Poa : Permutation oa (seq 0 n).
  Hypothesis Pob : Permutation ob (seq 0 n).
  Variable op : BooleanOperation.
  Variables ca cb : bool.

  Definition key (s : Seg) : bool * nat := (sgside s, sgpos s).
  Definition kept (side : bool) (k : nat) : bool := segment_kept op side (segment_inside (if side then ca else cb) k).

  Lemma crossing_inj side i j : i < n -> j < n -> crossing oa ob side i = crossing oa ob side j -> i = j.
  Proof.
    intros Hi Hj. unfold crossing.
    assert (G : forall o, Permutation o (seq 0 n) -> nth i o 0 = nth j o 0 -> i = j).
    { intros o Ho E. assert (L : length o = n) by (rewrite (Permutation_length Ho); apply seq_length).
      assert (ND : NoDup o) by (eapply Permutation_NoDup; [symmetry; exact Ho|apply seq_NoDup]).
      apply (proj1 (NoDup_nth o 0) ND i j); [lia|lia|exact E]. }
    destruct side; apply G; auto.
  Qed.
  Lemma crossing_lt side i : i < n -> crossing oa ob side i < n.
  Proof.
    intros Hi. unfold crossing.
    assert (G : forall o, Permutation o (seq 0 n) -> nth i o 0 < n).
    { intros o Ho. assert (L : length o = n) by (rewrite (Permutation_length Ho); apply seq_length).
      assert (Hin : In (nth i o 0) (seq 0 n)) by (eapply Permutation_in; [exact Ho|]; apply nth_In; lia). apply in_seq in Hin. lia. }
    destruct side; apply G; auto.
  Qed.
  Lemma next_pos_lt k : k < n -> next_pos n k < n.
  Proof. intros H. unfold next_pos. destruct (Nat.eqb_spec (S k) n); lia. Qed.
  Lemma next_pos_ne k : k < n -> next_pos n k <> k.
  Proof. intros H. unfold next_pos. destruct (Nat.eqb_spec (S k) n) as [E|E]; [|lia]. destruct k; [|lia]. subst n. discriminate. Qed.

  Lemma kept_next side k : k < n -> kept side (next_pos n k) = negb (kept side k).
  Proof.
    intros Hk. unfold kept. assert (E : forall b, segment_kept op side (negb b) = negb (segment_kept op side b)) by (intros b; destruct op, side, b; reflexivity).
    rewrite <- E. f_equal. unfold segment_inside, next_pos. destruct (Nat.eqb_spec (S k) n) as [En|En].
    - assert (On : Nat.odd n = false) by (rewrite <- Nat.negb_even, Heven; reflexivity). rewrite En, On. cbn. destruct (if side then ca else cb); reflexivity.
    - rewrite Nat.odd_succ, <- Nat.negb_odd. destruct (if side then ca else cb), (Nat.odd (S k)); reflexivity.
  Qed.

  Lemma next_pos_inj k k' : k < n -> k' < n -> next_pos n k = next_pos n k' -> k = k'.
  Proof. unfold next_pos. intros H H'. destruct (Nat.eqb_spec (S k) n), (Nat.eqb_spec (S k') n); lia. Qed.

  (** two kept segments of one side that touch the same crossing are the same *)
  Lemma kept_same side k k' x : k < n -> k' < n -> kept side k = true -> kept side k' = true ->
    (x = crossing oa ob side k \/ x = crossing oa ob side (next_pos n k)) ->
    (x = crossing oa ob side k' \/ x = crossing oa ob side (next_pos n k')) -> k = k'.
  Proof.
    intros Hk Hk' K K' H H'. pose proof (next_pos_lt k Hk). pose proof (next_pos_lt k' Hk'). pose proof (kept_next side k Hk) as N. pose proof (kept_next side k' Hk') as N'.
    destruct H as [-> | ->], H' as [E|E]; apply crossing_inj in E; auto.
    - subst k. rewrite K, K' in N'. discriminate.
    - rewrite E, K', K in N. discriminate.
    - now apply next_pos_inj.
  Qed.

  Definition proper (s : Seg) : Prop := sgpos s < n /\ kept (sgside s) (sgpos s) = true.

  Lemma loop_pred l s : closed_loop n oa ob l -> In s l -> exists p, In p l /\ seg_joined n oa ob p s.
  Proof.
    destruct l as [|a l]; [intros []|]. intros (Hp & Hl) [<-|Hin].
    - exists (last l a). split; [|exact Hl]. clear. destruct l as [|b l]; [now left|]. right.
      assert (G : forall (l : list Seg) b d, In (last (b :: l) d) (b :: l)). { clear. induction l as [|c l IH]; intros b d; [now left|]. right. apply (IH c d). } apply G.
    - clear Hl. revert a Hp Hin. induction l as [|b l IH]; intros a Hp Hin; [destruct Hin|]. destruct Hp as (J & Hp). destruct Hin as [<-|Hin].
      + exists a. split; [now left|exact J].
      + destruct (IH b Hp Hin) as (p & [<-|Hp1] & Hp2); [exists b; split; [right; now left|auto]|exists p; split; [right; now right|auto]].
  Qed.

  Lemma key_inj l s s' : NoDup (map key l) -> In s l -> In s' l -> key s = key s' -> s = s'.
  Proof.
    induction l as [|a l IH]; intros ND H H' E; [destruct H|]. cbn [map] in ND. inversion ND as [|? ? N1 N2]; subst.
    destruct H as [<-|H], H' as [<-|H']; auto.
    - exfalso. apply N1. rewrite E. now apply in_map.
    - exfalso. apply N1. rewrite <- E. now apply in_map.
  Qed.

  Lemma loop_from_inj l s s' : closed_loop n oa ob l -> NoDup (map key l) -> Forall proper l -> In s l -> In s' l ->
    seg_from n oa ob s = seg_from n oa ob s' -> s = s'.
  Proof.
    intros Hc ND Hp Hs Hs' E. rewrite Forall_forall in Hp. pose proof (Hp s Hs) as (P1 & P2). pose proof (Hp s' Hs') as (P1' & P2').
    assert (Tf : forall z, seg_from n oa ob z = crossing oa ob (sgside z) (sgpos z) \/ seg_from n oa ob z = crossing oa ob (sgside z) (next_pos n (sgpos z))).
    { intros z. unfold seg_from. destruct (sgfwd z); auto. }
    assert (Tt : forall z, seg_to n oa ob z = crossing oa ob (sgside z) (sgpos z) \/ seg_to n oa ob z = crossing oa ob (sgside z) (next_pos n (sgpos z))).
    { intros z. unfold seg_to. destruct (sgfwd z); auto. }
    destruct (Bool.bool_dec (sgside s) (sgside s')) as [Es|Es].
    - apply (key_inj l); auto. unfold key. f_equal; [exact Es|]. rewrite <- Es in *.
      apply (kept_same (sgside s) _ _ (seg_from n oa ob s)); auto. rewrite E, Es. auto.
    - exfalso. destruct (loop_pred l s' Hc Hs') as (p & Hpl & (J1 & J2)). pose proof (Hp p Hpl) as (Q1 & Q2).
      assert (Ep : sgside p = sgside s) by (destruct (sgside p), (sgside s), (sgside s'); cbn in *; congruence).
      assert (p = s).
      { apply (key_inj l); auto. unfold key. f_equal; [exact Ep|]. rewrite <- Ep in *.
        apply (kept_same (sgside p) _ _ (seg_from n oa ob s)); auto; [|rewrite Ep; auto]. rewrite E, <- J1. auto. }
      subst p. rewrite <- E in J1. pose proof (next_pos_lt _ P1) as L. pose proof (next_pos_ne _ P1) as N.
      unfold seg_to, seg_from in J1. destruct (sgfwd s); apply crossing_inj in J1; auto.
  Qed.
  Lemma loop_from_nodup l : closed_loop n oa ob l -> NoDup (map key l) -> Forall proper l -> NoDup (map (seg_from n oa ob) l).
  Proof.
    intros Hc ND Hp. assert (Nl : NoDup l) by (eapply NoDup_map_inv; exact ND).
    pose proof (fun s s' => loop_from_inj l s s' Hc ND Hp) as Hi. clear -Nl Hi. induction Nl as [|a l Ha _ IH]; cbn [map]; constructor.
    - intros H. apply in_map_iff in H as (b & Eb & Hb). apply Ha. rewrite (Hi a b); auto; [now left|now right].
    - apply IH. intros s s' Hs Hs'. apply Hi; now right.
  Qed.
End Loops.

Section Real.
  Variables eps maxv : R.
  Local Hint Extern 0 (Scalar R) => exact (ROps eps maxv) : typeclass_instances.
  Local Notation fine := (fine eps).
  Local Notation span_good := (span_good eps).
  Local Notation off_knots := (off_knots eps).
  Local Notation far := (far eps maxv).
  Local Notation st := (st eps maxv).
  Local Notation en := (en eps maxv).
  Local Notation on := (on eps maxv).
  Local Notation run := (run eps maxv).
  Local Notation cycle := (cycle eps maxv).
  Local Notation cut := (cut eps maxv).
  Local Notation point_or := (point_or eps maxv).

  Variables sub clp : Curve R.
  Definition cur (side : bool) : Curve R := if side then sub else clp.
  Definition par_of (side : bool) (x : R * R) : R := if side then fst x else snd x.

  (** transversal position of two closed curves: the crossings are true common points, no parameter is close to a knot or to another one, and neither two
      crossings nor a crossing and a start are closer than the tolerance of the compound curves *)
  Record crossings_ok (sel : list (R * R)) : Prop := {
    xo_dom : forall side x, In x sel -> dom0 (cur side) < par_of side x < dom1 (cur side);
    xo_off : forall side x, In x sel -> off_knots (cur side) (par_of side x);
    xo_meet : forall x, In x sel -> point_at sub (fst x) = point_at clp (snd x);
    xo_sep : forall side, ForallOrdPairs (fun x y => eps <= Rabs (par_of side x - par_of side y)) sel;
    xo_far : ForallOrdPairs (fun x y => far (point_or sub (fst x)) (point_or sub (fst y))) sel;
    xo_start : forall side x, In x sel -> far (point_or sub (fst x)) (st (cur side));
    xo_starts : far (st sub) (st clp)
  }.

  Lemma pairs_nth {A} (Q : A -> A -> Prop) l d i j : (forall a b, Q a b -> Q b a) -> ForallOrdPairs Q l -> (i < length l)%nat -> (j < length l)%nat -> i <> j ->
    Q (nth i l d) (nth j l d).
  Proof.
    intros Hs H. revert i j. induction H as [|a l H1 _ IH]; intros i j Hi Hj N; cbn in Hi, Hj; [lia|]. rewrite Forall_forall in H1.
    destruct i as [|i], j as [|j]; cbn [nth]; [congruence| | |].
    - apply H1, nth_In. lia.
    - apply Hs, H1, nth_In. lia.
    - apply IH; lia.
  Qed.

  Lemma cross_dec side t (l : list (R * R)) : (exists x, In x l /\ t = par_of side x) \/ ~ (exists x, In x l /\ t = par_of side x).
  Proof.
    induction l as [|y l IH]; [right; intros (x & [] & _)|]. destruct (Req_EM_T t (par_of side y)) as [E|E]; [left; exists y; split; [now left|exact E]|].
    destruct IH as [(x & H1 & H2)|IH]; [left; exists x; split; [now right|exact H2]|]. right. intros (x & [<-|H1] & H2); [contradiction|]. apply IH. now exists x.
  Qed.

  Section Sel.
    Variable sel : list (R * R).
    Hypothesis He : 0 < eps.
    Hypothesis Fs : fine sub.
    Hypothesis Fc : fine clp.
    Hypothesis Cs : st sub = en sub.
    Hypothesis Cc : st clp = en clp.
    Hypothesis Hx : crossings_ok sel.
    Let n := length sel.
    Hypothesis Hpos : (0 < n)%nat.
    Hypothesis Heven : Nat.even n = true.
    Variables oa ob : list nat.
    Hypothesis Poa : Permutation oa (seq 0 n).
    Hypothesis Pob : Permutation ob (seq 0 n).
    Definition par (side : bool) (k : nat) : R := crossing_param sel (0, 0) side (crossing oa ob side k).
    Hypothesis Hsort : forall s i j, (i < j < n)%nat -> par s i <= par s j.
    Definition xpt (i : nat) : list R := point_or sub (fst (nth i sel (0, 0))).
    Definition trim (side : bool) (a b : R) : Res (list (Curve R)) := try_trim_range (cur side) a b.

    Lemma fine_cur side : fine (cur side).
    Proof. destruct side; auto. Qed.
    Lemma closed_cur side : st (cur side) = en (cur side).
    Proof. destruct side; auto. Qed.
    Lemma par_eq side k : par side k = par_of side (nth (crossing oa ob side k) sel (0, 0)).
    Proof. reflexivity. Qed.
    Lemma x_in side k : (k < n)%nat -> In (nth (crossing oa ob side k) sel (0, 0)) sel.
    Proof. intros Hk. apply nth_In. now apply crossing_lt. Qed.
    Lemma par_dom side k : (k < n)%nat -> dom0 (cur side) < par side k < dom1 (cur side).
    Proof. intros Hk. rewrite par_eq. apply (xo_dom _ Hx). now apply x_in. Qed.
    Lemma par_off side k : (k < n)%nat -> off_knots (cur side) (par side k).
    Proof. intros Hk. rewrite par_eq. apply (xo_off _ Hx). now apply x_in. Qed.
    Lemma par_point side k : (k < n)%nat -> point_or (cur side) (par side k) = xpt (crossing oa ob side k).
    Proof.
      intros Hk. rewrite par_eq. unfold xpt, CompoundCycle.point_or. pose proof (xo_meet _ Hx _ (x_in side k Hk)) as M. destruct side; cbn [cur par_of]; [reflexivity|]. now rewrite M.
    Qed.
    Lemma par_lt side i j : (i < j < n)%nat -> par side i + eps <= par side j.
    Proof.
      intros Hij. pose proof (Hsort side i j Hij) as Hle. rewrite !par_eq in *.
      assert (N : crossing oa ob side i <> crossing oa ob side j). { intros E. apply (crossing_inj n Hpos oa ob Poa Pob) in E; lia. }
      pose proof (crossing_lt n Hpos oa ob Poa Pob side i ltac:(lia)). pose proof (crossing_lt n Hpos oa ob Poa Pob side j ltac:(lia)).
      pose proof (pairs_nth (fun x y => eps <= Rabs (par_of side x - par_of side y)) sel (0, 0) (crossing oa ob side i) (crossing oa ob side j)) as G.
      cbv beta in G. specialize (G ltac:(intros a b Hab; now rewrite Rabs_minus_sym) (xo_sep _ Hx side) ltac:(lia) ltac:(lia) N).
      rewrite Rabs_minus_sym, Rabs_pos_eq in G by lra. lra.
    Qed.

    (** the parameters of segment [k] of a side; the last segment runs through the start of the curve *)
    Definition in_seg (side : bool) (k : nat) (t : R) : Prop :=
      if (S k =? n)%nat then par side k <= t <= dom1 (cur side) \/ dom0 (cur side) <= t <= par side 0
      else par side k <= t <= par side (S k).

    Definition label := (nat + bool)%type.
    Definition pt (a : label) : list R := match a with inl i => xpt i | inr side => st (cur side) end.
    Definition labels_of (s : Seg) : list label := inl (seg_from n oa ob s) :: (if (S (sgpos s) =? n)%nat then [inr (sgside s)] else []).

    Lemma cut_fine c q a b : cut c q a b -> fine q.
    Proof. intros H. apply H. Qed.

    Lemma seg_chain s : (sgpos s < n)%nat ->
      exists qs kp ch, trim (sgside s) (par (sgside s) (sgpos s)) (par (sgside s) (next_pos n (sgpos s))) = Ok qs /\ qs <> [] /\ Forall fine qs /\
        Permutation qs kp /\ Forall2 oriented kp ch /\ Forall span_good ch /\ run (xpt (seg_from n oa ob s)) ch (xpt (seg_to n oa ob s)) /\
        map st ch = map pt (labels_of s) /\
        forall p, (exists q, In q qs /\ on q p) <-> exists t, in_seg (sgside s) (sgpos s) t /\ point_at (cur (sgside s)) t = Ok p.
    Proof.
      intros Hk. destruct s as [side k fwd]. cbn [sgside sgpos sgfwd] in *. set (c := cur side). pose proof (fine_cur side) as Hf. fold c in Hf.
      pose proof (par_dom side k Hk) as Dk. fold c in Dk.
      unfold labels_of, seg_from, seg_to, next_pos, in_seg. cbn [sgside sgpos sgfwd]. fold c.
      destruct (Nat.eqb_spec (S k) n) as [En|En].
      - assert (K0 : (0 < k)%nat) by (destruct k; [rewrite <- En in Heven; discriminate|lia]).
        pose proof (par_lt side 0 k ltac:(lia)) as Hlt. pose proof (par_dom side 0 ltac:(lia)) as D0. fold c in D0.
        destruct (trim_outside_fine eps maxv c (par side k) (par side 0) He Hf ltac:(lra) Hlt ltac:(lra) (par_off side k Hk) (par_off side 0 ltac:(lia))) as (t & h & E & Ct & Ch).
        destruct (cut_ends eps maxv c t (par side k) (dom1 c) ltac:(lra) Ct) as (T1 & T2). destruct (cut_ends eps maxv c h (dom0 c) (par side 0) ltac:(lra) Ch) as (H1 & H2).
        unfold c in T1, H2. rewrite par_point in T1, H2 by lia. change (point_or c (dom1 c)) with (en c) in T2. change (point_or c (dom0 c)) with (st c) in H1.
        pose proof (closed_cur side) as Hcl. fold c in Hcl.
        pose proof (cut_fine _ _ _ _ Ct) as Ft. pose proof (cut_fine _ _ _ _ Ch) as Fh.
        assert (Tr : forall p, (exists q, In q [t; h] /\ on q p) <-> (exists u, (par side k <= u <= dom1 c \/ dom0 c <= u <= par side 0) /\ point_at c u = Ok p)).
        { intros p. split.
          - intros (q & [<-|[<-|[]]] & Hq); [apply (cut_on eps maxv c t _ _ p Ct) in Hq|apply (cut_on eps maxv c h _ _ p Ch) in Hq]; destruct Hq as (u & Hu & Eu); exists u; auto.
          - intros (u & [Hu|Hu] & Eu); [exists t; split; [now left|apply (cut_on eps maxv c t _ _ p Ct)]|exists h; split; [right; now left|apply (cut_on eps maxv c h _ _ p Ch)]]; exists u; auto. }
        assert (Fq : Forall fine [t; h]) by (constructor; [exact Ft|constructor; [exact Fh|constructor]]).
        destruct fwd.
        + exists [t; h], [t; h], [t; h]. split; [exact E|]. split; [discriminate|]. split; [exact Fq|]. split; [reflexivity|].
          split; [constructor; [now left|constructor; [now left|constructor]]|]. split; [constructor; [apply Ft|constructor; [apply Fh|constructor]]|].
          split; [cbn [CompoundCycle.run]; rewrite T1, H1, T2, H2; auto|]. split; [|exact Tr]. cbn [map pt]. rewrite T1, H1. reflexivity.
        + destruct (invert_ends eps maxv t (proj1 Ft)) as (t' & I1 & _ & G1 & _ & A1 & A2). destruct (invert_ends eps maxv h (proj1 Fh)) as (h' & I2 & _ & G2 & _ & B1 & B2).
          exists [t; h], [h; t], [h'; t']. split; [exact E|]. split; [discriminate|]. split; [exact Fq|]. split; [apply perm_swap|].
          split; [constructor; [now right|constructor; [now right|constructor]]|]. split; [constructor; [exact G2|constructor; [exact G1|constructor]]|].
          split; [cbn [CompoundCycle.run]; rewrite A1, A2, B1, B2, T1, H1, T2, H2; auto|]. split; [|exact Tr]. cbn [map pt]. rewrite B1, A1, H2, T2. fold c. rewrite Hcl. reflexivity.
      - pose proof (par_lt side k (S k) ltac:(lia)) as Hlt. pose proof (par_dom side (S k) ltac:(lia)) as D0. fold c in D0.
        destruct (trim_inside_fine eps maxv c (par side k) (par side (S k)) He Hf ltac:(lra) Hlt ltac:(lra) (par_off side k Hk) (par_off side (S k) ltac:(lia))) as (t & E & Ct).
        destruct (cut_ends eps maxv c t (par side k) (par side (S k)) ltac:(lra) Ct) as (T1 & T2). unfold c in T1, T2. rewrite par_point in T1, T2 by lia. pose proof (cut_fine _ _ _ _ Ct) as Ft.
        assert (Tr : forall p, (exists q, In q [t] /\ on q p) <-> (exists u, par side k <= u <= par side (S k) /\ point_at c u = Ok p)).
        { intros p. split.
          - intros (q & [<-|[]] & Hq). now apply (cut_on eps maxv c t _ _ p Ct) in Hq.
          - intros Hq. exists t. split; [now left|]. now apply (cut_on eps maxv c t _ _ p Ct). }
        assert (Fq : Forall fine [t]) by (constructor; [exact Ft|constructor]).
        destruct fwd.
        + exists [t], [t], [t]. split; [exact E|]. split; [discriminate|]. split; [exact Fq|]. split; [reflexivity|].
          split; [constructor; [now left|constructor]|]. split; [constructor; [apply Ft|constructor]|].
          split; [cbn [CompoundCycle.run]; rewrite T1, T2; auto|]. split; [|exact Tr]. cbn [map pt]. rewrite T1. reflexivity.
        + destruct (invert_ends eps maxv t (proj1 Ft)) as (t' & I1 & _ & G1 & _ & A1 & A2).
          exists [t], [t], [t']. split; [exact E|]. split; [discriminate|]. split; [exact Fq|]. split; [reflexivity|].
          split; [constructor; [now right|constructor]|]. split; [constructor; [exact G1|constructor]|].
          split; [cbn [CompoundCycle.run]; rewrite A1, A2, T1, T2; auto|]. split; [|exact Tr]. cbn [map pt]. rewrite A1, T2. reflexivity.
    Qed.

    Lemma loop_chain l : forall s, Forall (fun z => (sgpos z < n)%nat) (s :: l) -> seg_path n oa ob s l ->
      exists qs kp ch, loop_spans n par trim (s :: l) = Ok qs /\ qs <> [] /\ Forall fine qs /\
        Permutation qs kp /\ Forall2 oriented kp ch /\ Forall span_good ch /\ run (xpt (seg_from n oa ob s)) ch (xpt (seg_to n oa ob (last l s))) /\
        map st ch = map pt (flat_map labels_of (s :: l)) /\
        forall p, (exists q, In q qs /\ on q p) <-> exists z t, In z (s :: l) /\ in_seg (sgside z) (sgpos z) t /\ point_at (cur (sgside z)) t = Ok p.
    Proof.
      induction l as [|b l IH]; intros s Hl Hp; inversion Hl as [|? ? Hs Hl']; subst; destruct (seg_chain s Hs) as (q1 & k1 & c1 & E & N & F & P & O & G & Rn & L & Tr).
      - exists q1, k1, c1. cbn [loop_spans]. rewrite E. cbn [bind]. rewrite app_nil_r. split; [reflexivity|]. split; [exact N|]. split; [exact F|]. split; [exact P|]. split; [exact O|].
        split; [exact G|]. split; [exact Rn|]. split; [cbn [flat_map]; now rewrite app_nil_r|]. intros p. rewrite Tr. split.
        + intros (t & Ht). exists s, t. split; [now left|exact Ht].
        + intros (z & t & [<-|[]] & Ht). now exists t.
      - destruct Hp as ((J1 & J2) & Hp). destruct (IH b Hl' Hp) as (q2 & k2 & c2 & E2 & N2 & F2 & P2 & O2 & G2 & R2 & L2 & Tr2).
        exists (q1 ++ q2), (k1 ++ k2), (c1 ++ c2). cbn [loop_spans] in *. rewrite E. cbn [bind]. rewrite E2. cbn [bind]. split; [reflexivity|].
        split; [destruct q1; [congruence|discriminate]|]. split; [apply Forall_app; auto|]. split; [now apply Permutation_app|]. split; [now apply Forall2_app|]. split; [apply Forall_app; auto|].
        split; [apply run_app; eexists; split; [exact Rn|]; rewrite J1; rewrite ClipProofs.last_cons; exact R2|].
        split; [rewrite map_app, L, L2; cbn [flat_map]; rewrite <- map_app; reflexivity|]. intros p. split.
        + intros (q & Hq & Ho). apply in_app_or in Hq as [Hq|Hq].
          * destruct (proj1 (Tr p)) as (t & Ht); [now exists q|]. exists s, t. split; [now left|exact Ht].
          * destruct (proj1 (Tr2 p)) as (z & t & Hz & Ht); [now exists q|]. exists z, t. split; [now right|exact Ht].
        + intros (z & t & [<-|Hz] & Ht).
          * destruct (proj2 (Tr p)) as (q & Hq & Ho); [now exists t|]. exists q. split; [apply in_or_app; now left|exact Ho].
          * destruct (proj2 (Tr2 p)) as (q & Hq & Ho); [now exists z, t|]. exists q. split; [apply in_or_app; now right|exact Ho].
    Qed.

    Definition valid (a : label) : Prop := match a with inl i => (i < n)%nat | inr _ => True end.
    Lemma seg_from_lt s : (sgpos s < n)%nat -> (seg_from n oa ob s < n)%nat.
    Proof. intros H. unfold seg_from. destruct (sgfwd s); apply (crossing_lt n Hpos oa ob Poa Pob); auto. now apply next_pos_lt. Qed.
    Lemma labels_valid l : Forall (fun z => (sgpos z < n)%nat) l -> Forall valid (flat_map labels_of l).
    Proof.
      intros H. induction H as [|s l Hs _ IH]; [constructor|]. cbn [flat_map]. apply Forall_app. split; [|exact IH]. unfold labels_of.
      constructor; [now apply seg_from_lt|]. destruct (_ =? _)%nat; [constructor; [exact I|constructor]|constructor].
    Qed.
    Lemma labels_inl l i : In (inl i) (flat_map labels_of l) -> In i (map (seg_from n oa ob) l).
    Proof.
      intros H. apply in_flat_map in H as (s & Hs & H). apply in_map_iff. exists s. split; [|exact Hs]. unfold labels_of in H.
      destruct H as [E|H]; [congruence|]. destruct (_ =? _)%nat; [destruct H as [H|[]]; discriminate|destruct H].
    Qed.
    Lemma labels_inr l b : In (inr b) (flat_map labels_of l) -> In (b, (n - 1)%nat) (map key l).
    Proof.
      intros H. apply in_flat_map in H as (s & Hs & H). apply in_map_iff. exists s. split; [|exact Hs]. unfold labels_of in H.
      destruct H as [E|H]; [discriminate|]. destruct (Nat.eqb_spec (S (sgpos s)) n) as [E|E]; [|destruct H]. destruct H as [H|[]]. injection H as <-. unfold key. f_equal. lia.
    Qed.
    Lemma labels_nodup l : NoDup (map (seg_from n oa ob) l) -> NoDup (map key l) -> NoDup (flat_map labels_of l).
    Proof.
      induction l as [|s l IH]; intros N1 N2; [constructor|]. cbn [map] in *. inversion N1 as [|? ? A1 A2]; subst. inversion N2 as [|? ? B1 B2]; subst.
      cbn [flat_map]. unfold labels_of at 1. cbn [app]. constructor.
      - intros H. apply in_app_or in H as [H|H]; [destruct (_ =? _)%nat; [destruct H as [H|[]]; discriminate|destruct H]|]. apply labels_inl in H. auto.
      - destruct (Nat.eqb_spec (S (sgpos s)) n) as [E|E]; [|auto]. cbn [app]. constructor; [|auto]. intros H. apply labels_inr in H. apply B1.
        unfold key at 1. replace (sgpos s) with (n - 1)%nat by lia. exact H.
    Qed.
    Lemma pt_far a b : valid a -> valid b -> a <> b -> far (pt a) (pt b).
    Proof.
      assert (Fi : forall i s, (i < n)%nat -> far (xpt i) (st (cur s))). { intros i s Hi. apply (xo_start _ Hx). now apply nth_In. }
      destruct a as [i|s], b as [j|s']; cbn [valid pt]; intros Ha Hb N.
      - apply (pairs_nth (fun x y => far (point_or sub (fst x)) (point_or sub (fst y))) sel (0, 0) i j); [intros; now apply far_sym|apply (xo_far _ Hx)|exact Ha|exact Hb|congruence].
      - auto.
      - apply far_sym. auto.
      - pose proof (xo_starts _ Hx) as H. destruct s, s'; cbn [cur]; [congruence|exact H|now apply far_sym|congruence].
    Qed.
    Lemma pairs_map {A B} (Q : B -> B -> Prop) (f : A -> B) l : ForallOrdPairs Q (map f l) <-> ForallOrdPairs (fun a b => Q (f a) (f b)) l.
    Proof.
      induction l as [|a l IH]; cbn [map]; [split; constructor|]. split; intros H; inversion H as [|? ? H1 H2]; subst; constructor.
      - now rewrite Forall_map in H1.
      - now apply IH.
      - now rewrite Forall_map.
      - now apply IH.
    Qed.
    Lemma labels_far l : Forall valid l -> NoDup l -> ForallOrdPairs far (map pt l).
    Proof.
      intros Hv N. induction N as [|a l Ha _ IH]; [constructor|]. inversion Hv as [|? ? V1 V2]; subst. cbn [map]. constructor; [|auto].
      apply Forall_map, Forall_forall. intros b Hb. rewrite Forall_forall in V2. apply pt_far; auto. intros ->. contradiction.
    Qed.

    Variable op : BooleanOperation.
    Variables ca cb : bool.

    Lemma loop_region l : closed_loop n oa ob l -> NoDup (map key l) -> Forall (proper n op ca cb) l ->
      exists qs cc, loop_spans n par trim l = Ok qs /\ qs <> [] /\ compound_new qs = Ok cc /\ compound_is_closed cc = Ok true /\
        forall p, (exists t, compound_point_at cc t = Ok (Some p)) <-> exists z t, In z l /\ in_seg (sgside z) (sgpos z) t /\ point_at (cur (sgside z)) t = Ok p.
    Proof.
      intros Hc ND Hp. pose proof (loop_from_nodup n Hpos Heven oa ob Poa Pob op ca cb l Hc ND Hp) as NF.
      assert (Hl : Forall (fun z => (sgpos z < n)%nat) l) by (eapply Forall_impl; [|exact Hp]; intros z Hz; apply Hz).
      destruct l as [|s l]; [destruct Hc|]. pose proof Hc as (Hp1 & (J1 & _)).
      destruct (loop_chain l s Hl Hp1) as (qs & kp & ch & E & N & F & P & O & G & Rn & L & Tr).
      assert (Cy : cycle ch).
      { split; [exact G|]. split; [exists (xpt (seg_from n oa ob s)); now rewrite J1 in Rn|]. rewrite <- (pairs_map far st). rewrite L.
        apply labels_far; [now apply labels_valid|now apply labels_nodup]. }
      rewrite Forall_forall in F.
      destruct (compound_new_shuffled eps maxv qs kp ch He N) as (cc & E2 & _ & Hcl & T2); auto; try (apply Forall_forall; intros q Hq; apply (F q Hq)).
      exists qs, cc. split; [exact E|]. split; [exact N|]. split; [exact E2|]. split; [exact Hcl|]. intros p. rewrite T2. apply Tr.
    Qed.

    Lemma nodup_parts {A} (a b : list A) : NoDup (a ++ b) -> NoDup a /\ NoDup b.
    Proof.
      induction a as [|x a IH]; cbn [app]; intros H; [split; [constructor|exact H]|]. inversion H as [|? ? H1 H2]; subst. destruct (IH H2) as (I1 & I2).
      split; [constructor; [|exact I1]|exact I2]. intros Hi. apply H1, in_or_app. now left.
    Qed.
    Lemma assemble_regions loops : forall acc, Forall (closed_loop n oa ob) loops -> NoDup (map key (concat loops)) -> Forall (proper n op ca cb) (concat loops) ->
      exists rs, assemble n par trim compound_new loops acc = Ok (acc ++ rs) /\
        Forall (fun r => rinteriors r = [] /\ compound_is_closed (rexterior r) = Ok true) rs /\
        forall p, (exists r t, In r rs /\ compound_point_at (rexterior r) t = Ok (Some p)) <->
          exists z t, In z (concat loops) /\ in_seg (sgside z) (sgpos z) t /\ point_at (cur (sgside z)) t = Ok p.
    Proof.
      induction loops as [|l loops IH]; intros acc Hc ND Hp; cbn [concat] in *.
      - exists []. cbn [assemble]. rewrite app_nil_r. split; [reflexivity|]. split; [constructor|]. intros p. split; [intros (r & t & [] & _)|intros (z & t & [] & _)].
      - inversion Hc as [|? ? C1 C2]; subst. rewrite map_app in ND. apply Forall_app in Hp as (P1 & P2).
        assert (ND1 : NoDup (map key l)) by (apply (nodup_parts _ _ ND)). assert (ND2 : NoDup (map key (concat loops))) by (apply (nodup_parts _ _ ND)).
        destruct (loop_region l C1 ND1 P1) as (qs & cc & E1 & N1 & E2 & Hcl & T1).
        destruct (IH (acc ++ [MkRegion cc []]) C2 ND2 P2) as (rs & E3 & R3 & T3).
        exists (MkRegion cc [] :: rs). cbn [assemble]. rewrite E1. cbn [bind]. destruct qs as [|q qs]; [congruence|]. rewrite E2. cbn [bind]. rewrite E3, <- app_assoc. split; [reflexivity|].
        split; [constructor; [split; [reflexivity|exact Hcl]|exact R3]|]. intros p. split.
        + intros (r & t & [<-|Hr] & Ht).
          * destruct (proj1 (T1 p)) as (z & u & Hz & Hu); [now exists t|]. exists z, u. split; [apply in_or_app; now left|exact Hu].
          * destruct (proj1 (T3 p)) as (z & u & Hz & Hu); [now exists r, t|]. exists z, u. split; [apply in_or_app; now right|exact Hu].
        + intros (z & t & Hz & Ht). apply in_app_or in Hz as [Hz|Hz].
          * destruct (proj2 (T1 p)) as (u & Hu); [now exists z, t|]. exists (MkRegion cc []), u. split; [now left|exact Hu].
          * destruct (proj2 (T3 p)) as (r & u & Hr & Hu); [now exists z, t|]. exists r, u. split; [now right|exact Hu].
    Qed.

    (** ** The status of a point of a curve *)
    (** a traveller along the curve starts inside or outside the other region and changes sides at every crossing *)
    Definition passed (side : bool) (t : R) : nat := length (filter (fun x => if Rlt_dec (par_of side x) t then true else false) sel).
    Definition inside_at (side : bool) (t : R) : bool := xorb (if side then ca else cb) (Nat.odd (passed side t)).

    Lemma filter_map_length {A B} (f : A -> B) g l : length (filter g (map f l)) = length (filter (fun a => g (f a)) l).
    Proof. induction l as [|a l IH]; cbn; [reflexivity|]. destruct (g (f a)); cbn; auto. Qed.
    Lemma perm_filter {A} (g : A -> bool) l l' : Permutation l l' -> length (filter g l) = length (filter g l').
    Proof. induction 1 as [|x l l' _ IH|x y l|l l' l'' _ I1 _ I2]; cbn; [reflexivity| | |congruence]; [destruct (g x); cbn; auto|destruct (g x), (g y); reflexivity]. Qed.
    Lemma passed_par side t : passed side t = length (filter (fun k => if Rlt_dec (par side k) t then true else false) (seq 0 n)).
    Proof.
      unfold passed. assert (Es : sel = map (fun i => nth i sel (0, 0)) (seq 0 n)).
      { apply (list_ext (0, 0)); [now rewrite map_length, seq_length|]. intros i Hi. rewrite (nth_map_lt _ _ _ 0%nat (0, 0)) by (rewrite seq_length; exact Hi). now rewrite seq_nth. }
      rewrite Es at 1. rewrite filter_map_length.
      assert (G : forall o, Permutation o (seq 0 n) -> Permutation (seq 0 n) (map (fun k => nth k o 0%nat) (seq 0 n))).
      { intros o Ho. assert (L : length o = n) by (rewrite (Permutation_length Ho); apply seq_length).
        assert (Eo : map (fun k => nth k o 0%nat) (seq 0 n) = o).
        { symmetry. apply (list_ext 0%nat); [now rewrite map_length, seq_length|]. intros i Hi. rewrite (nth_map_lt _ _ _ 0%nat 0%nat) by (rewrite seq_length; lia). rewrite seq_nth by lia. reflexivity. }
        rewrite Eo. now symmetry. }
      rewrite (perm_filter _ _ _ (G (if side then oa else ob) ltac:(destruct side; auto))), filter_map_length. reflexivity.
    Qed.
    Lemma filter_prefix (g : nat -> bool) m N : (m <= N)%nat -> (forall k, (k < m)%nat -> g k = true) -> (forall k, (m <= k < N)%nat -> g k = false) ->
      length (filter g (seq 0 N)) = m.
    Proof.
      intros Hm H1 H2. replace N with (m + (N - m))%nat by lia. rewrite seq_app, filter_app, app_length. cbn [plus].
      assert (A : filter g (seq 0 m) = seq 0 m).
      { assert (G : forall a b, (forall k, (a <= k < a + b)%nat -> g k = true) -> filter g (seq a b) = seq a b).
        { intros a b. revert a. induction b as [|b IH]; intros a H; cbn; [reflexivity|]. rewrite H by lia. f_equal. apply IH. intros k Hk. apply H. lia. }
        apply G. intros k Hk. apply H1. lia. }
      assert (B : filter g (seq m (N - m)) = []).
      { assert (G : forall b a, (forall k, (a <= k < a + b)%nat -> g k = false) -> filter g (seq a b) = []).
        { induction b as [|b IH]; intros a H; cbn; [reflexivity|]. rewrite H by lia. apply IH. intros k Hk. apply H. lia. }
        apply G. intros k Hk. apply H2. lia. }
      rewrite A, B, seq_length. cbn. lia.
    Qed.
    (** the crossings passed are the first ones in the order of the curve *)
    Lemma passed_before side t m : (m <= n)%nat -> (forall k, (k < m)%nat -> par side k < t) -> (forall k, (m <= k < n)%nat -> t <= par side k) -> passed side t = m.
    Proof.
      intros Hm H1 H2. rewrite passed_par. apply filter_prefix; [exact Hm| |]; intros k Hk.
      - destruct (Rlt_dec (par side k) t) as [L|L]; [reflexivity|]. specialize (H1 k Hk). lra.
      - destruct (Rlt_dec (par side k) t) as [L|L]; [|reflexivity]. specialize (H2 k Hk). lra.
    Qed.
    Lemma locate side t : exists m, (m <= n)%nat /\ (forall k, (k < m)%nat -> par side k < t) /\ (forall k, (m <= k < n)%nat -> t <= par side k).
    Proof.
      assert (G : forall q, (q <= n)%nat -> exists m, (m <= q)%nat /\ (forall k, (k < m)%nat -> par side k < t) /\ (forall k, (m <= k < q)%nat -> t <= par side k)).
      { induction q as [|q IH]; intros Hq; [exists 0%nat; repeat split; intros; lia|]. destruct (Rlt_dec (par side q) t) as [L|L].
        - exists (S q). split; [lia|]. split; [|intros; lia]. intros k Hk. destruct (Nat.eq_dec k q) as [->|Nk]; [exact L|].
          pose proof (par_lt side k q ltac:(lia)). lra.
        - destruct (IH ltac:(lia)) as (m & M1 & M2 & M3). exists m. split; [lia|]. split; [exact M2|]. intros k Hk. destruct (Nat.eq_dec k q) as [->|Nk]; [lra|]. apply M3. lia. }
      destruct (G n ltac:(lia)) as (m & M1 & M2). exists m. auto.
    Qed.
    Lemma inside_seg side k t : (k < n)%nat -> in_seg side k t -> (forall j, (j < n)%nat -> t <> par side j) -> inside_at side t = segment_inside (if side then ca else cb) k.
    Proof.
      intros Hk Hs Hn. unfold inside_at, segment_inside. f_equal. unfold in_seg in Hs. destruct (Nat.eqb_spec (S k) n) as [E|E].
      - assert (On : Nat.odd (S k) = false) by (rewrite E, <- Nat.negb_even, Heven; reflexivity). rewrite On. destruct Hs as [Hs|Hs].
        + rewrite (passed_before side t n); [rewrite <- Nat.negb_even, Heven; reflexivity|lia| |intros; lia].
          intros j Hj. pose proof (Hn k Hk). destruct (Nat.eq_dec j k) as [->|Nj]; [lra|]. pose proof (par_lt side j k ltac:(lia)). lra.
        + rewrite (passed_before side t 0); [reflexivity|lia|intros; lia|]. intros j Hj. destruct (Nat.eq_dec j 0) as [->|Nj]; [lra|]. pose proof (par_lt side 0 j ltac:(lia)). lra.
      - rewrite (passed_before side t (S k)); [reflexivity|lia| |]; intros j Hj.
        + pose proof (Hn k Hk). destruct (Nat.eq_dec j k) as [->|Nj]; [lra|]. pose proof (par_lt side j k ltac:(lia)). lra.
        + destruct (Nat.eq_dec j (S k)) as [->|Nj]; [lra|]. pose proof (par_lt side (S k) j ltac:(lia)). lra.
    Qed.
    Lemma seg_cover side t : dom0 (cur side) <= t <= dom1 (cur side) -> exists k, (k < n)%nat /\ in_seg side k t.
    Proof.
      intros Ht. destruct (locate side t) as (m & M1 & M2 & M3). unfold in_seg. destruct (Nat.eq_dec m 0) as [->|N0].
      - exists (n - 1)%nat. split; [lia|]. replace (S (n - 1)) with n by lia. rewrite Nat.eqb_refl. right. specialize (M3 0%nat ltac:(lia)). lra.
      - exists (m - 1)%nat. split; [lia|]. replace (S (m - 1)) with m by lia. specialize (M2 (m - 1)%nat ltac:(lia)). destruct (Nat.eqb_spec m n) as [->|Nm].
        + left. lra.
        + specialize (M3 m ltac:(lia)). lra.
    Qed.
    Lemma in_seg_dom side k t : (k < n)%nat -> in_seg side k t -> dom0 (cur side) <= t <= dom1 (cur side).
    Proof.
      intros Hk. unfold in_seg. pose proof (par_dom side k Hk). pose proof (par_dom side 0 Hpos). destruct (Nat.eqb_spec (S k) n); [lra|]. pose proof (par_dom side (S k) ltac:(lia)). lra.
    Qed.
    (** a crossing lies on the kept one of the two segments that it separates *)
    Lemma crossing_kept side j : (j < n)%nat -> exists k, (k < n)%nat /\ kept op ca cb side k = true /\ in_seg side k (par side j).
    Proof.
      intros Hj. pose proof (par_dom side j Hj) as D. destruct (kept op ca cb side j) eqn:Ek.
      - exists j. split; [exact Hj|]. split; [exact Ek|]. unfold in_seg. destruct (Nat.eqb_spec (S j) n); [left; lra|]. pose proof (par_lt side j (S j) ltac:(lia)). lra.
      - destruct (Nat.eq_dec j 0) as [->|N0].
        + exists (n - 1)%nat. split; [lia|]. split.
          * pose proof (kept_next n Heven op ca cb side (n - 1)%nat ltac:(lia)) as H. unfold next_pos in H. replace (S (n - 1)) with n in H by lia. rewrite Nat.eqb_refl, Ek in H.
            destruct (kept op ca cb side (n - 1)); [reflexivity|discriminate].
          * unfold in_seg. replace (S (n - 1)) with n by lia. rewrite Nat.eqb_refl. right. lra.
        + exists (j - 1)%nat. split; [lia|]. split.
          * pose proof (kept_next n Heven op ca cb side (j - 1)%nat ltac:(lia)) as H. unfold next_pos in H. replace (S (j - 1)) with j in H by lia. destruct (Nat.eqb_spec j n); [lia|]. rewrite Ek in H.
            destruct (kept op ca cb side (j - 1)); [reflexivity|discriminate].
          * unfold in_seg. replace (S (j - 1)) with j by lia. destruct (Nat.eqb_spec j n); [lia|]. pose proof (par_lt side (j - 1) j ltac:(lia)). lra.
    Qed.
    Lemma crossing_surj side i : (i < n)%nat -> exists k, (k < n)%nat /\ crossing oa ob side k = i.
    Proof.
      intros Hi. assert (G : forall o, Permutation o (seq 0 n) -> exists k, (k < n)%nat /\ nth k o 0%nat = i).
      { intros o Ho. assert (L : length o = n) by (rewrite (Permutation_length Ho); apply seq_length).
        assert (Hin : In i o) by (eapply Permutation_in; [symmetry; exact Ho|]; apply in_seq; lia). destruct (In_nth _ _ 0%nat Hin) as (k & K1 & K2). exists k. split; [lia|exact K2]. }
      destruct side; apply G; auto.
    Qed.
    Lemma crossing_par side t : (exists x, In x sel /\ t = par_of side x) <-> exists k, (k < n)%nat /\ t = par side k.
    Proof.
      split.
      - intros (x & Hxin & ->). destruct (In_nth _ _ (0, 0) Hxin) as (i & Hi & <-). destruct (crossing_surj side i Hi) as (k & Hk & E). exists k. split; [exact Hk|]. rewrite par_eq, E. reflexivity.
      - intros (k & Hk & ->). exists (nth (crossing oa ob side k) sel (0, 0)). split; [now apply x_in|reflexivity].
    Qed.

    Theorem kept_trace loops p : Permutation (map key (concat loops)) (kept_segments n op true ca ++ kept_segments n op false cb) ->
      ((exists z t, In z (concat loops) /\ in_seg (sgside z) (sgpos z) t /\ point_at (cur (sgside z)) t = Ok p) <->
       exists side t, dom0 (cur side) <= t <= dom1 (cur side) /\ point_at (cur side) t = Ok p /\
         ((exists x, In x sel /\ t = par_of side x) \/ segment_kept op side (inside_at side t) = true)).
    Proof.
      intros Hp. assert (Hin : forall side k, (exists z, In z (concat loops) /\ key z = (side, k)) <-> ((k < n)%nat /\ kept op ca cb side k = true)).
      { intros side k. assert (G : (exists z, In z (concat loops) /\ key z = (side, k)) <-> In (side, k) (map key (concat loops))).
        { rewrite in_map_iff. split; intros (z & A & B); exists z; auto. }
        rewrite G. split.
        - intros H. apply (Permutation_in _ Hp) in H. apply in_app_or in H as [H|H]; apply in_map_iff in H as (k' & E & H); injection E as <- <-; apply filter_In in H as (H1 & H2); apply in_seq in H1; (split; [lia|exact H2]).
        - intros (H1 & H2). eapply Permutation_in; [symmetry; exact Hp|]. apply in_or_app. destruct side; [left|right]; apply in_map_iff; exists k; (split; [reflexivity|]); apply filter_In; (split; [apply in_seq; lia|exact H2]). }
      split.
      - intros (z & t & Hz & Hs & E). destruct (proj1 (Hin (sgside z) (sgpos z))) as (K1 & K2); [now exists z|]. exists (sgside z), t. split; [now apply (in_seg_dom (sgside z) (sgpos z))|]. split; [exact E|].
        destruct (cross_dec (sgside z) t sel) as [X|X]; [now left|right].
        rewrite (inside_seg (sgside z) (sgpos z)); auto. intros j Hj Et. apply X. apply crossing_par. exists j. auto.
      - intros (side & t & Ht & E & Hk).
        assert (K : exists k, (k < n)%nat /\ kept op ca cb side k = true /\ in_seg side k t).
        { destruct (cross_dec side t sel) as [X|X].
          - apply crossing_par in X as (j & Hj & ->). now apply crossing_kept.
          - destruct Hk as [Hk|Hk]; [contradiction|]. destruct (seg_cover side t Ht) as (k & K1 & K2). exists k. split; [exact K1|]. split; [|exact K2]. unfold kept.
            rewrite <- (inside_seg side k t); auto. intros j Hj Et. apply X. apply crossing_par. exists j. auto. }
        destruct K as (k & K1 & K2 & K3). destruct (proj2 (Hin side k) (conj K1 K2)) as (z & Hz & Ez). injection Ez as E1 E2.
        exists z, t. rewrite E1, E2. auto.
    Qed.
  End Sel.

  Lemma clip_select_even (l : list ((R * R) * Degeneracy R)) sel : clip_select l = Ok sel -> Nat.even (length sel) = true.
  Proof.
    unfold clip_select. cbv zeta. set (r := if Nat.even _ then _ else _). destruct (Nat.even (length r)) eqn:E; cbn [ensure bind]; [|discriminate]. congruence.
  Qed.

  (** ** The whole operation *)
  Theorem clip_boundary op ca cb (l : list ((R * R) * Degeneracy R)) sel : 0 < eps -> fine sub -> fine clp -> st sub = en sub -> st clp = en clp ->
    clip_select l = Ok sel -> sel <> [] -> crossings_ok sel ->
    exists rs, clip trim compound_new [sub] [clp] op (Ok ca) (Ok cb) l = Ok rs /\
      Forall (fun r => rinteriors r = [] /\ compound_is_closed (rexterior r) = Ok true) rs /\
      forall p, (exists r t, In r rs /\ compound_point_at (rexterior r) t = Ok (Some p)) <->
        exists side t, dom0 (cur side) <= t <= dom1 (cur side) /\ point_at (cur side) t = Ok p /\
          ((exists x, In x sel /\ t = par_of side x) \/ segment_kept op side (inside_at sel ca cb side t) = true).
  Proof.
    intros He Fs Fc Cs Cc Hsel Hne Hx. pose proof (clip_select_even l sel Hsel) as Hev.
    destruct (clip_walk_ordered eps maxv trim compound_new [sub] [clp] op ca cb l sel Hsel Hne) as (oa & ob & loops & P1 & P2 & So & Cl & Pk & E). cbv zeta in *.
    assert (Hpos : (0 < length sel)%nat) by (destruct sel; [congruence|cbn; lia]).
    set (n := length sel) in *.
    assert (Pr : Forall (proper n op ca cb) (concat loops)).
    { apply Forall_forall. intros z Hz. assert (H : In (sgside z, sgpos z) (kept_segments n op true ca ++ kept_segments n op false cb)).
      { eapply Permutation_in; [exact Pk|]. apply in_map_iff. exists z. auto. }
      unfold proper, kept. apply in_app_or in H as [H|H]; apply in_map_iff in H as (k' & Ek & H); injection Ek as <- <-; apply filter_In in H as (H1 & H2); apply in_seq in H1; (split; [lia|exact H2]). }
    assert (ND : NoDup (map key (concat loops))).
    { eapply Permutation_NoDup; [symmetry; exact Pk|]. unfold kept_segments.
      assert (Inj : forall b l, NoDup l -> NoDup (map (fun k : nat => (b : bool, k)) l)).
      { intros b l0 H. apply FinFun.Injective_map_NoDup; [|exact H]. intros x y Exy. congruence. }
      apply ClipProofs.nodup_app; [apply Inj, NoDup_filter, seq_NoDup|apply Inj, NoDup_filter, seq_NoDup|].
      intros x H1 H2. apply in_map_iff in H1 as (k1 & <- & _). apply in_map_iff in H2 as (k2 & E2 & _). discriminate. }
    destruct (assemble_regions sel He Fs Fc Cs Cc Hx Hpos Hev oa ob P1 P2 So op ca cb loops [] Cl ND Pr) as (rs & E2 & R2 & T2).
    exists rs. split; [rewrite E; exact E2|]. split; [exact R2|]. intros p. rewrite T2.
    apply (kept_trace sel He Hx Hpos Hev oa ob P1 P2 So op ca cb loops p Pk).
  Qed.

  (** Membership in the two regions, given by [inA] and [inB], changes exactly at the crossings: then the boundary of the result consists of the crossings and of the
      parts of each boundary that the operation keeps *)
  Theorem clip_boundary_sets op ca cb (l : list ((R * R) * Degeneracy R)) sel (inA inB : list R -> bool) :
    0 < eps -> fine sub -> fine clp -> st sub = en sub -> st clp = en clp ->
    clip_select l = Ok sel -> sel <> [] -> crossings_ok sel ->
    (forall side t p, dom0 (cur side) <= t <= dom1 (cur side) -> point_at (cur side) t = Ok p -> (forall x, In x sel -> t <> par_of side x) ->
      inside_at sel ca cb side t = (if side then inB else inA) p) ->
    exists rs, clip trim compound_new [sub] [clp] op (Ok ca) (Ok cb) l = Ok rs /\
      forall p, (exists r t, In r rs /\ compound_point_at (rexterior r) t = Ok (Some p)) <->
        (exists x, In x sel /\ point_at sub (fst x) = Ok p) \/
        (on sub p /\ match op with Intersection => inB p = true | Union => inB p = false | Difference => inB p = false end) \/
        (on clp p /\ match op with Intersection => inA p = true | Union => inA p = false | Difference => inA p = true end).
  Proof.
    intros He Fs Fc Cs Cc Hsel Hne Hx Hin. destruct (clip_boundary op ca cb l sel He Fs Fc Cs Cc Hsel Hne Hx) as (rs & E & _ & T). exists rs. split; [exact E|].
    assert (Kt : forall b, segment_kept op true b = true <-> match op with Intersection => b = true | Union => b = false | Difference => b = false end) by (intros b; destruct op, b; cbn; intuition congruence).
    assert (Kf : forall b, segment_kept op false b = true <-> match op with Intersection => b = true | Union => b = false | Difference => b = true end) by (intros b; destruct op, b; cbn; intuition congruence).
    intros p. rewrite T. split.
    - intros (side & t & Ht & Et & Hk). destruct (cross_dec side t sel) as [(x & X1 & X2)|X].
      + left. exists x. split; [exact X1|]. rewrite X2 in Et. destruct side; cbn [cur par_of] in Et; [exact Et|]. now rewrite (xo_meet _ Hx).
      + right. destruct Hk as [Hk|Hk]; [contradiction|]. rewrite (Hin side t p Ht Et) in Hk by (intros x X1 X2; apply X; now exists x).
        destruct side; cbn [cur] in *; [left|right]; (split; [now exists t|]); [now apply Kt|now apply Kf].
    - intros [(x & X1 & X2)|[((t & Ht & Et) & Hk)|((t & Ht & Et) & Hk)]].
      + exists true, (fst x). pose proof (xo_dom _ Hx true x X1) as D. cbn [par_of cur] in *. split; [lra|]. split; [exact X2|]. left. exists x. auto.
      + exists true, t. cbn [cur]. split; [exact Ht|]. split; [exact Et|]. destruct (cross_dec true t sel) as [X|X]; [now left|right].
        rewrite (Hin true t p Ht Et) by (intros x X1 X2; apply X; now exists x). now apply Kt.
      + exists false, t. cbn [cur]. split; [exact Ht|]. split; [exact Et|]. destruct (cross_dec false t sel) as [X|X]; [now left|right].
        rewrite (Hin false t p Ht Et) by (intros x X1 X2; apply X; now exists x). now apply Kf.
  Qed.
End Real.
