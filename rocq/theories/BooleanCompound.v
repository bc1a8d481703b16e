(** * Boolean operations on curves and compound curves keep the right parts of both boundaries (C92) *)
From Coq Require Import Reals Lra Lia List Sorted Permutation.
From Verif Require Import Base BaseFacts Scalar RSum BSplineSpec BSpline KnotModel KnotSpec
  KnotFacts KnotProofs VecFacts MiscModel CurveModel CurveKnotModel CurveSpec CurveProofs CurveGeom CurveGeom2
  KnotMisc Boehm Refine SplitModel SplitProofs Decompose CompoundModel CompoundProofs CompoundCycle TrimFine
  ClipModel ClipSpec ClipProofs ClipBuild ClipMain ClipReal Boolean CompoundArc.
Import ListNotations.
Open Scope R_scope.

(** an operand of a boolean operation: boolean_curve.rs, boolean_compound_curve.rs *)
Inductive operand := OCurve (c : Curve R) | OCompound (ss : list (Curve R)).
Definition operand_spans (o : operand) : list (Curve R) := match o with OCurve c => [c] | OCompound ss => ss end.

Section Real.
  Variables eps maxv : R.
  Local Hint Extern 0 (Scalar R) => exact (ROps eps maxv) : typeclass_instances.
  Local Notation fine := (fine eps).
  Local Notation span_good := (span_good eps).
  Local Notation far := (far eps maxv).
  Local Notation st := (st eps maxv).
  Local Notation en := (en eps maxv).
  Local Notation on := (on eps maxv).
  Local Notation run := (run eps maxv).
  Local Notation cycle := (cycle eps maxv).
  Local Notation cut := (cut eps maxv).
  Local Notation point_or := (point_or eps maxv).
  Local Notation ring := (ring eps maxv).
  Local Notation arc := (arc eps maxv).
  Local Notation at_param := (at_param eps maxv).
  Local Notation inside_span := (inside_span eps).

  (** the trimming that the operand's own type provides, trim/mod.rs *)
  Definition operand_trim (o : operand) (a b : R) : Res (list (Curve R)) :=
    match o with OCurve c => try_trim_range c a b | OCompound ss => compound_trim ss a b end.

  (** ** Points of a closed compound curve *)
  Lemma compound_at l : forall p q t x, Forall fine l -> ForallOrdPairs (fun c d => dom1 c <= dom0 d) l -> run p l q ->
    (compound_point_at l t = Ok (Some x) <-> at_param l t x).
  Proof.
    induction l as [|c l IH]; intros p q t x F O Rn; [split; [discriminate|intros (c & [] & _)]|].
    inversion F as [|? ? Fc Fl]; subst. inversion O as [|? ? O1 O2]; subst. cbn [CompoundCycle.run] in Rn. destruct Rn as (_ & Rn).
    cbn [compound_point_at]. rewrite knots_domain_ok by apply Fc. cbn [bind]. fold (dom0 c) (dom1 c). rs.
    destruct (Rleb_spec (dom0 c) t) as [L1|L1], (Rleb_spec t (dom1 c)) as [L2|L2]; cbn [andb].
    1: { destruct (good_point eps maxv c t (proj1 Fc) ltac:(lra)) as (y & Ey & _). rewrite Ey. cbn [bind]. split.
         - intros Q. injection Q as <-. exists c. split; [now left|]. split; [lra|exact Ey].
         - intros (d & [<-|Hd] & D & Ed); [congruence|]. rewrite Forall_forall in O1. pose proof (O1 d Hd) as D1.
           assert (Et : t = dom1 c) by lra. assert (Et2 : t = dom0 d) by lra. destruct l as [|e l]; [destruct Hd|].
           assert (d = e). { destruct Hd as [<-|Hd]; [reflexivity|]. inversion O2 as [|? ? O3 _]; subst. rewrite Forall_forall in O3. specialize (O3 d Hd).
             specialize (O1 e (or_introl eq_refl)). inversion Fl as [|? ? Fe _]; subst. pose proof (fine_dom eps e Fe). lra. }
           subst e. cbn [CompoundCycle.run] in Rn. destruct Rn as (J & _). inversion Fl as [|? ? Fe _].
           destruct (fine_st eps maxv c Fc) as (_ & Ec). destruct (fine_st eps maxv d Fe) as (Ed' & _). rewrite <- Et in Ec. rewrite <- Et2 in Ed'. congruence. }
    all: rewrite (IH _ _ t x Fl O2 Rn); split; intros (d & Hd & D & Ed); exists d; (split; [|auto]); [now right|destruct Hd as [<-|Hd]; [lra|exact Hd]].
  Qed.
  Lemma ring_at ss t x : ring ss -> (compound_point_at ss t = Ok (Some x) <-> at_param ss t x).
  Proof. intros [F O (p & Rn)]. exact (compound_at ss p p t x F O Rn). Qed.

  (** the point at a parameter *)
  Definition cpoint (ss : list (Curve R)) (t : R) : list R := match compound_point_at ss t with Ok (Some x) => x | _ => [] end.
  Lemma cpoint_span ss c t : ring ss -> In c ss -> inside_span c t -> cpoint ss t = point_or c t /\ compound_point_at ss t = Ok (Some (point_or c t)).
  Proof.
    intros Hr Hc (Ht & _). pose proof (rg_fine _ _ _ Hr) as F. rewrite Forall_forall in F.
    destruct (good_point eps maxv c t (proj1 (F c Hc)) ltac:(lra)) as (y & Ey & _).
    assert (E : compound_point_at ss t = Ok (Some y)). { apply ring_at; [exact Hr|]. exists c. split; [exact Hc|]. split; [lra|exact Ey]. }
    unfold cpoint, CompoundCycle.point_or. rewrite E, Ey. auto.
  Qed.

  (** ** Trimming an operand *)
  Lemma arc_perm ss qs qs' J p q P : Permutation qs' qs -> arc ss qs J p q P -> arc ss qs' J p q P.
  Proof.
    intros Hp (kp & P1 & N & F & Rn & S & T). exists kp. split; [now transitivity qs|]. split; [intros ->; apply Permutation_nil in Hp; congruence|].
    split; [eapply Permutation_Forall; [symmetry; exact Hp|exact F]|]. split; [exact Rn|]. split; [exact S|]. intros x. rewrite <- T.
    split; intros (c & Hc & Ho); exists c; (split; [|exact Ho]); [exact (Permutation_in _ Hp Hc)|exact (Permutation_in _ (Permutation_sym Hp) Hc)].
  Qed.
  Lemma arc_ext ss qs J p q (P Q : R -> Prop) : (forall t, P t <-> Q t) -> arc ss qs J p q P -> arc ss qs J p q Q.
  Proof.
    intros H (kp & P1 & N & F & Rn & S & T). exists kp. split; [exact P1|]. split; [exact N|]. split; [exact F|]. split; [exact Rn|]. split; [exact S|]. intros x. rewrite T.
    split; intros (t & Ht & Ho); exists t; (split; [now apply H|exact Ho]).
  Qed.

  Section Trim.
    Hypothesis He : 0 < eps.
    Variable o : operand.
    Hypothesis Hr : ring (operand_spans o).
    Variables a b : R.
    Hypothesis Hab : a + eps <= b.
    Variables ca cb : Curve R.
    Hypothesis Ia : In ca (operand_spans o).
    Hypothesis Ib : In cb (operand_spans o).
    Hypothesis Ha : inside_span ca a.
    Hypothesis Hb : inside_span cb b.

    Lemma operand_inside : exists qs J, operand_trim o a b = Ok qs /\ arc (operand_spans o) qs J (point_or ca a) (point_or cb b) (fun t => a <= t <= b) /\
      NoDup J /\ forall c, In c J <-> In c (operand_spans o) /\ a < dom0 c < b.
    Proof.
      pose proof (rg_fine _ _ _ Hr) as F0. destruct (arc_inside eps maxv He (operand_spans o) Hr a b Hab ca cb Ha Hb Ia Ib) as (qs & J & E & A & N & M).
      exists qs, J. split; [|auto]. destruct o as [c|ss]; [|exact E]. cbn [operand_trim operand_spans] in *.
      assert (Fc : fine c) by now inversion F0. assert (ca = c) by (destruct Ia as [<-|[]]; reflexivity). assert (cb = c) by (destruct Ib as [<-|[]]; reflexivity). subst ca cb.
      destruct (span_both eps maxv He a b Hab c Fc Ha Hb) as (h & m & t & E1 & _). rewrite (trim_one eps maxv c a b [m] E1) in E.
      pose proof (inside_margin eps c a Fc Ha) as Ma. pose proof (inside_margin eps c b Fc Hb) as Mb.
      assert (E2 : trim_span a b c = try_trim_range c a b).
      { unfold trim_span, smin, smax. rs. destruct (Rltb_spec b a); [lra|]. destruct (Rltb_spec a b); [|lra]. rewrite knots_domain_ok by apply Fc. cbn [bind]. unfold dom0, dom1 in *.
        repeat match goal with |- context [Rleb ?x ?y] => destruct (Rleb_spec x y); try lra end. reflexivity. }
      rewrite <- E2, E1. exact E.
    Qed.
    Lemma operand_outside : exists qs J, operand_trim o b a = Ok qs /\ arc (operand_spans o) qs J (point_or cb b) (point_or ca a) (fun t => b <= t \/ t <= a) /\
      NoDup J /\ forall c, In c J <-> In c (operand_spans o) /\ (b < dom0 c \/ dom0 c < a).
    Proof.
      pose proof (rg_fine _ _ _ Hr) as F0. destruct (arc_outside eps maxv He (operand_spans o) Hr a b Hab ca cb Ha Hb Ia Ib) as (qs & J & E & A & N & M).
      destruct o as [c|ss]; [|exists qs, J; auto]. cbn [operand_trim operand_spans] in *.
      assert (Fc : fine c) by now inversion F0. assert (ca = c) by (destruct Ia as [<-|[]]; reflexivity). assert (cb = c) by (destruct Ib as [<-|[]]; reflexivity). subst ca cb.
      pose proof (inside_margin eps c a Fc Ha) as Ma. pose proof (inside_margin eps c b Fc Hb) as Mb.
      assert (E2 : exists h t, trim_span b a c = Ok [h; t] /\ try_trim_range c b a = Ok [t; h]).
      { destruct (span_both eps maxv He a b Hab c Fc Ha Hb) as (h & m & t & _ & E1 & _). revert E1.
        unfold trim_span, try_trim_range, smin, smax. rs. destruct (Rltb_spec a b); [|lra]. destruct (Rltb_spec b a); [lra|]. rewrite knots_domain_ok by apply Fc. cbn [bind]. unfold dom0, dom1 in *.
        repeat match goal with |- context [Rleb ?x ?y] => destruct (Rleb_spec x y); try lra end. cbn [andb].
        destruct (try_split c a) as [[l r]| | |]; cbn [bind]; try discriminate. destruct (try_split r b) as [[l2 r2]| | |]; cbn [bind]; try discriminate. intros Q. exists l, r2. auto. }
      destruct E2 as (h & t & E1 & E2). rewrite (trim_one eps maxv c b a [h; t] E1) in E. injection E as <-. exists [t; h], J. split; [exact E2|].
      split; [|auto]. apply (arc_perm _ [h; t]); [apply perm_swap|exact A].
    Qed.
  End Trim.

  (** ** The reverse of a chain *)
  Lemma map_en l : forall p q, run p l q -> map en l = match l with [] => [] | _ :: t => map st t ++ [q] end.
  Proof.
    induction l as [|c l IH]; intros p q Hr; [reflexivity|]. cbn [CompoundCycle.run] in Hr. destruct Hr as (_ & Hr). cbn [map]. rewrite (IH _ _ Hr).
    destruct l as [|d l]; cbn [CompoundCycle.run] in Hr; [subst; reflexivity|]. destruct Hr as (<- & _). reflexivity.
  Qed.
  Lemma reverse_chain l p q : Forall fine l -> run p l q ->
    exists ch, Forall2 oriented (rev l) ch /\ Forall span_good ch /\ run q ch p /\ map st ch = rev (map en l).
  Proof.
    intros F. revert p q. induction F as [|c l Fc _ IH]; intros p q Hr; [exists []; cbn in *; repeat split; auto|].
    cbn [CompoundCycle.run] in Hr. destruct Hr as (<- & Hr). destruct (IH _ _ Hr) as (ch & O & G & Rn & S).
    destruct (invert_ends eps maxv c (proj1 Fc)) as (c' & E & _ & G' & _ & E1 & E2). exists (ch ++ [c']). cbn [rev map].
    split; [apply Forall2_app; [exact O|constructor; [now right|constructor]]|]. split; [apply Forall_app; split; [exact G|constructor; [exact G'|constructor]]|].
    split; [apply (run_app eps maxv); exists (en c); split; [exact Rn|]; cbn [CompoundCycle.run]; auto|]. rewrite map_app, S. cbn [map]. now rewrite E1.
  Qed.

  Variables sub clp : operand.
  Definition opd (side : bool) : operand := if side then sub else clp.
  Definition spans (side : bool) : list (Curve R) := operand_spans (opd side).

  (** transversal position of two closed boundaries: the crossings are true common points inside the spans, no parameter is close to a knot or to another one, and no
      two of the crossings and of the joints of the spans are closer than the tolerance of the compound curves *)
  Record boundaries_ok (sel : list (R * R)) : Prop := {
    bo_in : forall side x, In x sel -> exists c, In c (spans side) /\ inside_span c (par_of side x);
    bo_meet : forall x, In x sel -> compound_point_at (spans true) (fst x) = compound_point_at (spans false) (snd x);
    bo_sep : forall side, ForallOrdPairs (fun x y => eps <= Rabs (par_of side x - par_of side y)) sel;
    bo_far : ForallOrdPairs (fun x y => far (cpoint (spans true) (fst x)) (cpoint (spans true) (fst y))) sel;
    bo_start : forall side x c, In x sel -> In c (spans side) -> far (cpoint (spans true) (fst x)) (st c);
    bo_joints : forall side, ForallOrdPairs (fun c d => far (st c) (st d)) (spans side);
    bo_starts : forall c d, In c (spans true) -> In d (spans false) -> far (st c) (st d)
  }.

  Section Sel.
    Variable sel : list (R * R).
    Hypothesis He : 0 < eps.
    Hypothesis Rs : ring (operand_spans sub).
    Hypothesis Rc : ring (operand_spans clp).
    Hypothesis Hx : boundaries_ok sel.
    Let n := length sel.
    Hypothesis Hpos : (0 < n)%nat.
    Hypothesis Heven : Nat.even n = true.
    Variables oa ob : list nat.
    Hypothesis Poa : Permutation oa (seq 0 n).
    Hypothesis Pob : Permutation ob (seq 0 n).
    Local Notation par := (Boolean.par sel oa ob).
    Hypothesis Hsort : forall s i j, (i < j < n)%nat -> par s i <= par s j.
    Definition cxpt (i : nat) : list R := cpoint (spans true) (fst (nth i sel (0, 0))).
    Definition otrim (side : bool) (a b : R) : Res (list (Curve R)) := operand_trim (opd side) a b.

    Lemma ring_side side : ring (spans side).
    Proof. destruct side; auto. Qed.
    Lemma cx_in side k : (k < n)%nat -> In (nth (crossing oa ob side k) sel (0, 0)) sel.
    Proof. intros Hk. apply nth_In. now apply (crossing_lt n Hpos oa ob Poa Pob). Qed.
    Lemma cpar_in side k : (k < n)%nat -> exists c, In c (spans side) /\ inside_span c (par side k) /\ point_or c (par side k) = cxpt (crossing oa ob side k).
    Proof.
      intros Hk. destruct (bo_in _ Hx side _ (cx_in side k Hk)) as (c & Hc & Hi). exists c. split; [exact Hc|]. change (par_of side (nth (crossing oa ob side k) sel (0, 0))) with (par side k) in Hi.
      split; [exact Hi|]. pose proof (bo_meet _ Hx _ (cx_in side k Hk)) as M. destruct (cpoint_span _ c _ (ring_side side) Hc Hi) as (E & _). rewrite <- E.
      unfold cxpt, cpoint. destruct side; [reflexivity|]. change (par false k) with (snd (nth (crossing oa ob false k) sel (0, 0))). now rewrite <- M.
    Qed.
    Lemma cpar_lt side i j : (i < j < n)%nat -> par side i + eps <= par side j.
    Proof.
      intros Hij. pose proof (Hsort side i j Hij) as Hle. change (par side i) with (par_of side (nth (crossing oa ob side i) sel (0, 0))) in *. change (par side j) with (par_of side (nth (crossing oa ob side j) sel (0, 0))) in *.
      assert (N : crossing oa ob side i <> crossing oa ob side j). { intros E. apply (crossing_inj n Hpos oa ob Poa Pob) in E; lia. }
      pose proof (crossing_lt n Hpos oa ob Poa Pob side i ltac:(lia)). pose proof (crossing_lt n Hpos oa ob Poa Pob side j ltac:(lia)).
      pose proof (pairs_nth (fun x y => eps <= Rabs (par_of side x - par_of side y)) sel (0, 0) (crossing oa ob side i) (crossing oa ob side j)) as G.
      cbv beta in G. specialize (G ltac:(intros a b Hab; now rewrite Rabs_minus_sym) (bo_sep _ Hx side) ltac:(assumption) ltac:(assumption) N).
      rewrite Rabs_minus_sym, Rabs_pos_eq in G by lra. lra.
    Qed.

    (** the parameters of segment [k] of a side, and the spans that start inside it *)
    Definition on_seg (side : bool) (k : nat) (t : R) : Prop := if (S k =? n)%nat then par side k <= t \/ t <= par side 0 else par side k <= t <= par side (S k).
    Definition passes (side : bool) (k : nat) (c : Curve R) : Prop := if (S k =? n)%nat then par side k < dom0 c \/ dom0 c < par side 0 else par side k < dom0 c < par side (S k).
    Lemma passes_once side k k' c : (k < n)%nat -> (k' < n)%nat -> passes side k c -> passes side k' c -> k = k'.
    Proof.
      assert (G : forall i j, (i < j < n)%nat -> passes side i c -> passes side j c -> False).
      { intros i j Hij. unfold passes. destruct (Nat.eqb_spec (S i) n); [lia|]. pose proof (cpar_lt side i j Hij) as L1.
        assert (L2 : par side (S i) <= par side j). { destruct (Nat.eq_dec (S i) j) as [->|N]; [lra|]. pose proof (cpar_lt side (S i) j ltac:(lia)). lra. }
        assert (L3 : par side 0 <= par side i). { destruct (Nat.eq_dec i 0) as [->|N]; [lra|]. pose proof (cpar_lt side 0 i ltac:(lia)). lra. }
        destruct (Nat.eqb_spec (S j) n); intros; lra. }
      intros Hk Hk' P1 P2. destruct (Nat.lt_trichotomy k k') as [L|[->|L]]; [|reflexivity|]; exfalso; [apply (G k k')|apply (G k' k)]; auto.
    Qed.

    Definition clabel := (nat + bool * Curve R)%type.
    Definition cpt (a : clabel) : list R := match a with inl i => cxpt i | inr (_, c) => st c end.

    Lemma cseg_chain s : (sgpos s < n)%nat ->
      exists qs kp ch J, otrim (sgside s) (par (sgside s) (sgpos s)) (par (sgside s) (next_pos n (sgpos s))) = Ok qs /\ qs <> [] /\ Forall fine qs /\
        Permutation qs kp /\ Forall2 oriented kp ch /\ Forall span_good ch /\ run (cxpt (seg_from n oa ob s)) ch (cxpt (seg_to n oa ob s)) /\
        map st ch = map cpt (inl (seg_from n oa ob s) :: map (fun c => inr (sgside s, c)) J) /\ NoDup J /\
        (forall c, In c J -> In c (spans (sgside s)) /\ passes (sgside s) (sgpos s) c) /\
        forall p, (exists q, In q qs /\ on q p) <-> exists t, on_seg (sgside s) (sgpos s) t /\ compound_point_at (spans (sgside s)) t = Ok (Some p).
    Proof.
      intros Hk. destruct s as [side k fwd]. cbn [sgside sgpos sgfwd] in *.
      assert (G : exists qs J, otrim side (par side k) (par side (next_pos n k)) = Ok qs /\
        arc (spans side) qs J (cxpt (crossing oa ob side k)) (cxpt (crossing oa ob side (next_pos n k))) (on_seg side k) /\ NoDup J /\ forall c, In c J <-> In c (spans side) /\ passes side k c).
      { destruct (cpar_in side k Hk) as (ca & Ia & Ha & Xa). unfold next_pos, passes, on_seg. destruct (Nat.eqb_spec (S k) n) as [En|En].
        - assert (K0 : (0 < k)%nat) by (destruct k; [rewrite <- En in Heven; discriminate|lia]).
          destruct (cpar_in side 0 Hpos) as (cb & Ib & Hb & Xb). rewrite <- Xa, <- Xb. pose proof (cpar_lt side 0 k ltac:(lia)) as L.
          exact (operand_outside He (opd side) (ring_side side) (par side 0) (par side k) L cb ca Ib Ia Hb Ha).
        - destruct (cpar_in side (S k) ltac:(lia)) as (cb & Ib & Hb & Xb). rewrite <- Xa, <- Xb. pose proof (cpar_lt side k (S k) ltac:(lia)) as L.
          exact (operand_inside He (opd side) (ring_side side) (par side k) (par side (S k)) L ca cb Ia Ib Ha Hb). }
      destruct G as (qs & J & E & (kp & P1 & N & F & Rn & S & T) & ND & M).
      assert (Fk : Forall fine kp) by (eapply Permutation_Forall; eauto).
      assert (T' : forall p, (exists q, In q qs /\ on q p) <-> exists t, on_seg side k t /\ compound_point_at (spans side) t = Ok (Some p)).
      { intros p. rewrite T. split; intros (t & Ht & A); exists t; (split; [exact Ht|]); apply (ring_at _ t p (ring_side side)); exact A. }
      unfold seg_from, seg_to. cbn [sgside sgpos sgfwd]. destruct fwd.
      - exists qs, kp, kp, J. split; [exact E|]. split; [exact N|]. split; [exact F|]. split; [exact P1|].
        split; [clear; induction kp; constructor; [now left|auto]|]. split; [eapply Forall_impl; [|exact Fk]; intros c Hc; apply Hc|]. split; [exact Rn|].
        split; [rewrite S; cbn [map cpt]; now rewrite map_map|]. split; [exact ND|]. split; [intros c Hc; now apply M|exact T'].
      - destruct (reverse_chain kp _ _ Fk Rn) as (ch & O & G & Rn' & S'). exists qs, (rev kp), ch, (rev J). split; [exact E|]. split; [exact N|]. split; [exact F|].
        split; [transitivity kp; [exact P1|apply Permutation_rev]|]. split; [exact O|]. split; [exact G|]. split; [exact Rn'|]. split.
        { rewrite S', (map_en kp _ _ Rn). destruct kp as [|c kp]; [discriminate|]. cbn [map] in S. injection S as _ S. rewrite S, rev_app_distr. cbn [rev app map cpt]. f_equal.
          rewrite map_map, <- map_rev. reflexivity. }
        split; [now apply NoDup_rev|]. split; [intros c Hc; apply M; now apply in_rev|exact T'].
    Qed.

    Lemma cloop_chain l : forall s, Forall (fun z => (sgpos z < n)%nat) (s :: l) -> seg_path n oa ob s l ->
      exists qs kp ch L, loop_spans n par otrim (s :: l) = Ok qs /\ qs <> [] /\ Forall fine qs /\
        Permutation qs kp /\ Forall2 oriented kp ch /\ Forall span_good ch /\ run (cxpt (seg_from n oa ob s)) ch (cxpt (seg_to n oa ob (last l s))) /\
        map st ch = map cpt L /\
        (forall i, In (inl i) L -> In i (map (seg_from n oa ob) (s :: l))) /\
        (forall b c, In (inr (b, c)) L -> In c (spans b) /\ exists z, In z (s :: l) /\ sgside z = b /\ passes b (sgpos z) c) /\
        (NoDup (map (seg_from n oa ob) (s :: l)) -> NoDup (map key (s :: l)) -> NoDup L) /\
        forall p, (exists q, In q qs /\ on q p) <-> exists z t, In z (s :: l) /\ on_seg (sgside z) (sgpos z) t /\ compound_point_at (spans (sgside z)) t = Ok (Some p).
    Proof.
      induction l as [|b l IH]; intros s Hl Hp; inversion Hl as [|? ? Hs Hl']; subst; destruct (cseg_chain s Hs) as (q1 & k1 & c1 & J & E & N & F & P & O & G & Rn & L & ND & M & Tr).
      - exists q1, k1, c1, (inl (seg_from n oa ob s) :: map (fun c => inr (sgside s, c)) J). cbn [loop_spans]. rewrite E. cbn [bind]. rewrite app_nil_r. split; [reflexivity|]. split; [exact N|].
        split; [exact F|]. split; [exact P|]. split; [exact O|]. split; [exact G|]. split; [exact Rn|]. split; [exact L|].
        split; [intros i [Ei|Hi]; [injection Ei as <-; now left|apply in_map_iff in Hi as (c & Q & _); discriminate]|].
        split; [intros d c [Ei|Hi]; [discriminate|]; apply in_map_iff in Hi as (c' & Q & Hc); injection Q as <- <-; destruct (M c' Hc); split; [assumption|exists s; split; [now left|auto]]|].
        split. { intros _ _. constructor; [intros Hi; apply in_map_iff in Hi as (c & Q & _); discriminate|]. apply FinFun.Injective_map_NoDup; [intros x y Q; congruence|exact ND]. }
        intros p. rewrite Tr. split.
        + intros (t & Ht). exists s, t. split; [now left|exact Ht].
        + intros (z & t & [<-|[]] & Ht). now exists t.
      - destruct Hp as ((J1 & J2) & Hp). destruct (IH b Hl' Hp) as (q2 & k2 & c2 & L2 & E2 & N2 & F2 & P2 & O2 & G2 & R2 & S2 & A2 & B2 & D2 & Tr2).
        set (L1 := inl (seg_from n oa ob s) :: map (fun c => inr (sgside s, c)) J) in *.
        exists (q1 ++ q2), (k1 ++ k2), (c1 ++ c2), (L1 ++ L2). cbn [loop_spans] in *. rewrite E. cbn [bind]. rewrite E2. cbn [bind]. split; [reflexivity|].
        split; [destruct q1; [congruence|discriminate]|]. split; [apply Forall_app; auto|]. split; [now apply Permutation_app|]. split; [now apply Forall2_app|]. split; [apply Forall_app; auto|].
        split; [apply (run_app eps maxv); eexists; split; [exact Rn|]; rewrite J1; rewrite ClipProofs.last_cons; exact R2|].
        split; [rewrite !map_app, L, S2; reflexivity|].
        assert (A1 : forall i, In (inl i) L1 -> i = seg_from n oa ob s).
        { intros i [Ei|Hi]; [congruence|apply in_map_iff in Hi as (c & Q & _); discriminate]. }
        assert (B1 : forall d c, In (inr (d, c)) L1 -> d = sgside s /\ In c (spans d) /\ passes d (sgpos s) c).
        { intros d c [Ei|Hi]; [discriminate|]. apply in_map_iff in Hi as (c' & Q & Hc). injection Q as <- <-. destruct (M c' Hc). auto. }
        split; [intros i Hi; apply in_app_or in Hi as [Hi|Hi]; [left; symmetry; now apply A1|right; now apply A2]|].
        split.
        { intros d c Hi. apply in_app_or in Hi as [Hi|Hi].
          - destruct (B1 d c Hi) as (-> & Hc & Hpp). split; [exact Hc|]. exists s. split; [now left|auto].
          - destruct (B2 d c Hi) as (Hc & z & Hz & Hq). split; [exact Hc|]. exists z. split; [now right|exact Hq]. }
        split.
        { intros U1 U2. cbn [map] in U1, U2. inversion U1 as [|? ? U3 U4]; subst. inversion U2 as [|? ? U5 U6]; subst. apply ClipProofs.nodup_app; [|now apply D2|].
          - constructor; [intros Hi; apply in_map_iff in Hi as (c & Q & _); discriminate|]. apply FinFun.Injective_map_NoDup; [intros x y Q; congruence|exact ND].
          - intros [i|(d, c)] H1 H2.
            + apply A1 in H1. subst i. apply U3. now apply A2.
            + destruct (B1 d c H1) as (-> & _ & K1). destruct (B2 _ c H2) as (_ & z & Hz & Zs & K2). apply U5. change (sgside b, sgpos b) with (key b). change (key b :: map key l) with (map key (b :: l)).
              apply in_map_iff. exists z. split; [|exact Hz]. unfold key. rewrite Zs. f_equal. symmetry. rewrite Forall_forall in Hl'. apply (passes_once (sgside s) _ _ c); auto. }
        intros p. split.
        + intros (q & Hq & Ho). apply in_app_or in Hq as [Hq|Hq].
          * destruct (proj1 (Tr p)) as (t & Ht); [now exists q|]. exists s, t. split; [now left|exact Ht].
          * destruct (proj1 (Tr2 p)) as (z & t & Hz & Ht); [now exists q|]. exists z, t. split; [now right|exact Ht].
        + intros (z & t & [<-|Hz] & Ht).
          * destruct (proj2 (Tr p)) as (q & Hq & Ho); [now exists t|]. exists q. split; [apply in_or_app; now left|exact Ho].
          * destruct (proj2 (Tr2 p)) as (q & Hq & Ho); [now exists z, t|]. exists q. split; [apply in_or_app; now right|exact Ho].
    Qed.

    Definition cvalid (a : clabel) : Prop := match a with inl i => (i < n)%nat | inr (b, c) => In c (spans b) end.
    Lemma pairs_in {A} (Q : A -> A -> Prop) l a b : (forall x y, Q x y -> Q y x) -> ForallOrdPairs Q l -> In a l -> In b l -> a <> b -> Q a b.
    Proof.
      intros Hs H. induction H as [|x l H1 _ IH]; intros Ha Hb N; [destruct Ha|]. rewrite Forall_forall in H1.
      destruct Ha as [<-|Ha], Hb as [<-|Hb]; [congruence|now apply H1|apply Hs; now apply H1|now apply IH].
    Qed.
    Lemma cpt_far a b : cvalid a -> cvalid b -> a <> b -> far (cpt a) (cpt b).
    Proof.
      assert (Fi : forall i s c, (i < n)%nat -> In c (spans s) -> far (cxpt i) (st c)). { intros i s c Hi Hc. apply (bo_start _ Hx s); [now apply nth_In|exact Hc]. }
      destruct a as [i|(s, c)], b as [j|(s', d)]; cbn [cvalid cpt]; intros Ha Hb N.
      - apply (pairs_nth (fun x y => far (cpoint (spans true) (fst x)) (cpoint (spans true) (fst y))) sel (0, 0) i j); [intros; now apply far_sym|apply (bo_far _ Hx)|exact Ha|exact Hb|congruence].
      - eauto.
      - apply far_sym. eauto.
      - pose proof (bo_starts _ Hx) as H. destruct s, s'; [|now apply H|apply far_sym; now apply H|];
          (eapply (pairs_in (fun c d => far (st c) (st d))); [intros; now apply far_sym|apply (bo_joints _ Hx)|exact Ha|exact Hb|congruence]).
    Qed.
    Lemma clabels_far l : Forall cvalid l -> NoDup l -> ForallOrdPairs far (map cpt l).
    Proof.
      intros Hv N. induction N as [|a l Ha _ IH]; [constructor|]. inversion Hv as [|? ? V1 V2]; subst. cbn [map]. constructor; [|auto].
      apply Forall_map, Forall_forall. intros b Hb. rewrite Forall_forall in V2. apply cpt_far; auto. intros ->. contradiction.
    Qed.

    Variable op : BooleanOperation.
    Variables ca cb : bool.

    Lemma cloop_region l : closed_loop n oa ob l -> NoDup (map key l) -> Forall (proper n op ca cb) l ->
      exists qs cc, loop_spans n par otrim l = Ok qs /\ qs <> [] /\ compound_new qs = Ok cc /\ compound_is_closed cc = Ok true /\
        forall p, (exists t, compound_point_at cc t = Ok (Some p)) <-> exists z t, In z l /\ on_seg (sgside z) (sgpos z) t /\ compound_point_at (spans (sgside z)) t = Ok (Some p).
    Proof.
      intros Hc ND Hp. pose proof (loop_from_nodup n Hpos Heven oa ob Poa Pob op ca cb l Hc ND Hp) as NF.
      assert (Hl : Forall (fun z => (sgpos z < n)%nat) l) by (eapply Forall_impl; [|exact Hp]; intros z Hz; apply Hz).
      destruct l as [|s l]; [destruct Hc|]. pose proof Hc as (Hp1 & (J1 & _)).
      destruct (cloop_chain l s Hl Hp1) as (qs & kp & ch & L & E & N & F & P & O & G & Rn & S & A & B & D & Tr).
      assert (Cy : cycle ch).
      { split; [exact G|]. split; [exists (cxpt (seg_from n oa ob s)); now rewrite J1 in Rn|]. rewrite <- (pairs_map far st). rewrite S.
        apply clabels_far; [|now apply D]. apply Forall_forall. intros [i|(b, c)] Hi; cbn [cvalid]; [|now apply B].
        apply A in Hi. apply in_map_iff in Hi as (z & <- & Hz). rewrite Forall_forall in Hl. specialize (Hl z Hz). unfold seg_from.
        destruct (sgfwd z); apply (crossing_lt n Hpos oa ob Poa Pob); auto. now apply next_pos_lt. }
      rewrite Forall_forall in F.
      destruct (compound_new_shuffled eps maxv qs kp ch He N) as (cc & E2 & _ & Hcl & T2); auto; try (apply Forall_forall; intros q Hq; apply (F q Hq)).
      exists qs, cc. split; [exact E|]. split; [exact N|]. split; [exact E2|]. split; [exact Hcl|]. intros p. rewrite T2. apply Tr.
    Qed.

    Lemma cassemble_regions loops : forall acc, Forall (closed_loop n oa ob) loops -> NoDup (map key (concat loops)) -> Forall (proper n op ca cb) (concat loops) ->
      exists rs, assemble n par otrim compound_new loops acc = Ok (acc ++ rs) /\
        Forall (fun r => rinteriors r = [] /\ compound_is_closed (rexterior r) = Ok true) rs /\
        forall p, (exists r t, In r rs /\ compound_point_at (rexterior r) t = Ok (Some p)) <->
          exists z t, In z (concat loops) /\ on_seg (sgside z) (sgpos z) t /\ compound_point_at (spans (sgside z)) t = Ok (Some p).
    Proof.
      induction loops as [|l loops IH]; intros acc Hc ND Hp; cbn [concat] in *.
      - exists []. cbn [assemble]. rewrite app_nil_r. split; [reflexivity|]. split; [constructor|]. intros p. split; [intros (r & t & [] & _)|intros (z & t & [] & _)].
      - inversion Hc as [|? ? C1 C2]; subst. rewrite map_app in ND. apply Forall_app in Hp as (P1 & P2).
        assert (ND1 : NoDup (map key l)) by (apply (nodup_parts _ _ ND)). assert (ND2 : NoDup (map key (concat loops))) by (apply (nodup_parts _ _ ND)).
        destruct (cloop_region l C1 ND1 P1) as (qs & cc & E1 & N1 & E2 & Hcl & T1).
        destruct (IH (acc ++ [MkRegion cc []]) C2 ND2 P2) as (rs & E3 & R3 & T3).
        exists (MkRegion cc [] :: rs). cbn [assemble]. rewrite E1. cbn [bind]. destruct qs as [|q qs]; [congruence|]. rewrite E2. cbn [bind]. rewrite E3, <- app_assoc. split; [reflexivity|].
        split; [constructor; [split; [reflexivity|exact Hcl]|exact R3]|]. intros p. split.
        + intros (r & t & [<-|Hr] & Ht).
          * destruct (proj1 (T1 p)) as (z & u & Hz & Hu); [now exists t|]. exists z, u. split; [apply in_or_app; now left|exact Hu].
          * destruct (proj1 (T3 p)) as (z & u & Hz & Hu); [now exists r, t|]. exists z, u. split; [apply in_or_app; now right|exact Hu].
        + intros (z & t & Hz & Ht). apply in_app_or in Hz as [Hz|Hz].
          * destruct (proj2 (T1 p)) as (u & Hu); [now exists z, t|]. exists (MkRegion cc []), u. split; [now left|exact Hu].
          * destruct (proj2 (T3 p)) as (r & u & Hr & Hu); [now exists z, t|]. exists r, u. split; [now right|exact Hu].
    Qed.

    (** ** The status of a point of a boundary *)
    Local Notation passed := (Boolean.passed sel).
    Local Notation inside_at := (Boolean.inside_at sel ca cb).
    Local Notation pbefore := (passed_before sel Hpos oa ob Poa Pob).
    Lemma clocate side t : exists m, (m <= n)%nat /\ (forall k, (k < m)%nat -> par side k < t) /\ (forall k, (m <= k < n)%nat -> t <= par side k).
    Proof.
      assert (G : forall q, (q <= n)%nat -> exists m, (m <= q)%nat /\ (forall k, (k < m)%nat -> par side k < t) /\ (forall k, (m <= k < q)%nat -> t <= par side k)).
      { induction q as [|q IH]; intros Hq; [exists 0%nat; repeat split; intros; lia|]. destruct (Rlt_dec (par side q) t) as [L|L].
        - exists (S q). split; [lia|]. split; [|intros; lia]. intros k Hk. destruct (Nat.eq_dec k q) as [->|Nk]; [exact L|].
          pose proof (cpar_lt side k q ltac:(lia)). lra.
        - destruct (IH ltac:(lia)) as (m & M1 & M2 & M3). exists m. split; [lia|]. split; [exact M2|]. intros k Hk. destruct (Nat.eq_dec k q) as [->|Nk]; [lra|]. apply M3. lia. }
      destruct (G n ltac:(lia)) as (m & M1 & M2). exists m. auto.
    Qed.
    Lemma cinside_seg side k t : (k < n)%nat -> on_seg side k t -> (forall j, (j < n)%nat -> t <> par side j) -> inside_at side t = segment_inside (if side then ca else cb) k.
    Proof.
      intros Hk Hs Hn. unfold Boolean.inside_at, segment_inside. f_equal. unfold on_seg in Hs. destruct (Nat.eqb_spec (S k) n) as [E|E].
      - assert (On : Nat.odd (S k) = false) by (rewrite E, <- Nat.negb_even, Heven; reflexivity). rewrite On. destruct Hs as [Hs|Hs].
        + rewrite (pbefore side t n); [rewrite <- Nat.negb_even, Heven; reflexivity|unfold n; lia| |unfold n; intros; lia].
          intros j Hj. pose proof (Hn k Hk). destruct (Nat.eq_dec j k) as [->|Nj]; [lra|]. pose proof (cpar_lt side j k ltac:(lia)). lra.
        + rewrite (pbefore side t 0%nat); [reflexivity|lia|intros; lia|]. intros j Hj. destruct (Nat.eq_dec j 0) as [->|Nj]; [lra|]. pose proof (cpar_lt side 0 j ltac:(unfold n; lia)). lra.
      - rewrite (pbefore side t (S k)); [reflexivity|unfold n in *; lia| |]; intros j Hj.
        + pose proof (Hn k Hk). destruct (Nat.eq_dec j k) as [->|Nj]; [lra|]. pose proof (cpar_lt side j k ltac:(lia)). lra.
        + destruct (Nat.eq_dec j (S k)) as [->|Nj]; [lra|]. pose proof (cpar_lt side (S k) j ltac:(unfold n; lia)). lra.
    Qed.
    Lemma cseg_cover side t : exists k, (k < n)%nat /\ on_seg side k t.
    Proof.
      destruct (clocate side t) as (m & M1 & M2 & M3). unfold on_seg. destruct (Nat.eq_dec m 0) as [->|N0].
      - exists (n - 1)%nat. split; [lia|]. replace (S (n - 1)) with n by lia. rewrite Nat.eqb_refl. right. specialize (M3 0%nat ltac:(lia)). lra.
      - exists (m - 1)%nat. split; [lia|]. replace (S (m - 1)) with m by lia. specialize (M2 (m - 1)%nat ltac:(lia)). destruct (Nat.eqb_spec m n) as [->|Nm].
        + left. lra.
        + specialize (M3 m ltac:(lia)). lra.
    Qed.
    Lemma ccrossing_kept side j : (j < n)%nat -> exists k, (k < n)%nat /\ kept op ca cb side k = true /\ on_seg side k (par side j).
    Proof.
      intros Hj. destruct (kept op ca cb side j) eqn:Ek.
      - exists j. split; [exact Hj|]. split; [exact Ek|]. unfold on_seg. destruct (Nat.eqb_spec (S j) n); [left; lra|]. pose proof (cpar_lt side j (S j) ltac:(lia)). lra.
      - destruct (Nat.eq_dec j 0) as [->|N0].
        + exists (n - 1)%nat. split; [lia|]. split.
          * pose proof (kept_next n Heven op ca cb side (n - 1)%nat ltac:(lia)) as H. unfold next_pos in H. replace (S (n - 1)) with n in H by lia. rewrite Nat.eqb_refl, Ek in H.
            destruct (kept op ca cb side (n - 1)); [reflexivity|discriminate].
          * unfold on_seg. replace (S (n - 1)) with n by lia. rewrite Nat.eqb_refl. right. lra.
        + exists (j - 1)%nat. split; [lia|]. split.
          * pose proof (kept_next n Heven op ca cb side (j - 1)%nat ltac:(lia)) as H. unfold next_pos in H. replace (S (j - 1)) with j in H by lia. destruct (Nat.eqb_spec j n); [lia|]. rewrite Ek in H.
            destruct (kept op ca cb side (j - 1)); [reflexivity|discriminate].
          * unfold on_seg. replace (S (j - 1)) with j by lia. destruct (Nat.eqb_spec j n); [lia|]. pose proof (cpar_lt side (j - 1) j ltac:(lia)). lra.
    Qed.

    Theorem ckept_trace loops p : Permutation (map key (concat loops)) (kept_segments n op true ca ++ kept_segments n op false cb) ->
      ((exists z t, In z (concat loops) /\ on_seg (sgside z) (sgpos z) t /\ compound_point_at (spans (sgside z)) t = Ok (Some p)) <->
       exists side t, compound_point_at (spans side) t = Ok (Some p) /\
         ((exists x, In x sel /\ t = par_of side x) \/ segment_kept op side (inside_at side t) = true)).
    Proof.
      intros Hp. assert (Hin : forall side k, (exists z, In z (concat loops) /\ key z = (side, k)) <-> ((k < n)%nat /\ kept op ca cb side k = true)).
      { intros side k. assert (G : (exists z, In z (concat loops) /\ key z = (side, k)) <-> In (side, k) (map key (concat loops))).
        { rewrite in_map_iff. split; intros (z & A & B); exists z; auto. }
        rewrite G. split.
        - intros H. apply (Permutation_in _ Hp) in H. apply in_app_or in H as [H|H]; apply in_map_iff in H as (k' & E & H); injection E as <- <-; apply filter_In in H as (H1 & H2); apply in_seq in H1; (split; [lia|exact H2]).
        - intros (H1 & H2). eapply Permutation_in; [symmetry; exact Hp|]. apply in_or_app. destruct side; [left|right]; apply in_map_iff; exists k; (split; [reflexivity|]); apply filter_In; (split; [apply in_seq; lia|exact H2]). }
      pose proof (crossing_par sel Hpos oa ob Poa Pob) as CP. split.
      - intros (z & t & Hz & Hs & E). destruct (proj1 (Hin (sgside z) (sgpos z))) as (K1 & K2); [now exists z|]. exists (sgside z), t. split; [exact E|].
        destruct (cross_dec (sgside z) t sel) as [X|X]; [now left|right].
        rewrite (cinside_seg (sgside z) (sgpos z)); auto. intros j Hj Et. apply X. apply CP. exists j. auto.
      - intros (side & t & E & Hk).
        assert (K : exists k, (k < n)%nat /\ kept op ca cb side k = true /\ on_seg side k t).
        { destruct (cross_dec side t sel) as [X|X].
          - apply CP in X as (j & Hj & ->). now apply ccrossing_kept.
          - destruct Hk as [Hk|Hk]; [contradiction|]. destruct (cseg_cover side t) as (k & K1 & K2). exists k. split; [exact K1|]. split; [|exact K2]. unfold kept.
            rewrite <- (cinside_seg side k t); auto. intros j Hj Et. apply X. apply CP. exists j. auto. }
        destruct K as (k & K1 & K2 & K3). destruct (proj2 (Hin side k) (conj K1 K2)) as (z & Hz & Ez). injection Ez as E1 E2.
        exists z, t. rewrite E1, E2. auto.
    Qed.
  End Sel.

  (** ** The whole operation *)
  Theorem clip_boundary_any op ca cb (l : list ((R * R) * Degeneracy R)) sel : 0 < eps -> ring (operand_spans sub) -> ring (operand_spans clp) ->
    clip_select l = Ok sel -> sel <> [] -> boundaries_ok sel ->
    exists rs, clip otrim compound_new (operand_spans sub) (operand_spans clp) op (Ok ca) (Ok cb) l = Ok rs /\
      Forall (fun r => rinteriors r = [] /\ compound_is_closed (rexterior r) = Ok true) rs /\
      forall p, (exists r t, In r rs /\ compound_point_at (rexterior r) t = Ok (Some p)) <->
        exists side t, compound_point_at (spans side) t = Ok (Some p) /\
          ((exists x, In x sel /\ t = par_of side x) \/ segment_kept op side (Boolean.inside_at sel ca cb side t) = true).
  Proof.
    intros He Fs Fc Hsel Hne Hx. pose proof (clip_select_even eps maxv l sel Hsel) as Hev.
    destruct (clip_walk_ordered eps maxv otrim compound_new (operand_spans sub) (operand_spans clp) op ca cb l sel Hsel Hne) as (oa & ob & loops & P1 & P2 & So & Cl & Pk & E). cbv zeta in *.
    assert (Hpos : (0 < length sel)%nat) by (destruct sel; [congruence|cbn; lia]).
    set (n := length sel) in *.
    assert (Pr : Forall (proper n op ca cb) (concat loops)).
    { apply Forall_forall. intros z Hz. assert (H : In (sgside z, sgpos z) (kept_segments n op true ca ++ kept_segments n op false cb)).
      { eapply Permutation_in; [exact Pk|]. apply in_map_iff. exists z. auto. }
      unfold proper, kept. apply in_app_or in H as [H|H]; apply in_map_iff in H as (k' & Ek & H); injection Ek as <- <-; apply filter_In in H as (H1 & H2); apply in_seq in H1; (split; [lia|exact H2]). }
    assert (ND : NoDup (map key (concat loops))).
    { eapply Permutation_NoDup; [symmetry; exact Pk|]. unfold kept_segments.
      assert (Inj : forall b l, NoDup l -> NoDup (map (fun k : nat => (b : bool, k)) l)).
      { intros b l0 H. apply FinFun.Injective_map_NoDup; [|exact H]. intros x y Exy. congruence. }
      apply ClipProofs.nodup_app; [apply Inj, NoDup_filter, seq_NoDup|apply Inj, NoDup_filter, seq_NoDup|].
      intros x H1 H2. apply in_map_iff in H1 as (k1 & <- & _). apply in_map_iff in H2 as (k2 & E2 & _). discriminate. }
    destruct (cassemble_regions sel He Fs Fc Hx Hpos Hev oa ob P1 P2 So op ca cb loops [] Cl ND Pr) as (rs & E2 & R2 & T2).
    exists rs. split; [rewrite E; exact E2|]. split; [exact R2|]. intros p. rewrite T2.
    apply (ckept_trace sel He Hx Hpos Hev oa ob P1 P2 So op ca cb loops p Pk).
  Qed.

  (** Membership in the two regions, given by [inA] and [inB], changes exactly at the crossings: then the boundary of the result consists of the crossings and of the
      parts of each boundary that the operation keeps *)
  Theorem clip_boundary_any_sets op ca cb (l : list ((R * R) * Degeneracy R)) sel (inA inB : list R -> bool) :
    0 < eps -> ring (operand_spans sub) -> ring (operand_spans clp) ->
    clip_select l = Ok sel -> sel <> [] -> boundaries_ok sel ->
    (forall side t p, compound_point_at (spans side) t = Ok (Some p) -> (forall x, In x sel -> t <> par_of side x) ->
      Boolean.inside_at sel ca cb side t = (if side then inB else inA) p) ->
    exists rs, clip otrim compound_new (operand_spans sub) (operand_spans clp) op (Ok ca) (Ok cb) l = Ok rs /\
      forall p, (exists r t, In r rs /\ compound_point_at (rexterior r) t = Ok (Some p)) <->
        (exists x, In x sel /\ compound_point_at (operand_spans sub) (fst x) = Ok (Some p)) \/
        ((exists t, compound_point_at (operand_spans sub) t = Ok (Some p)) /\ match op with Intersection => inB p = true | Union => inB p = false | Difference => inB p = false end) \/
        ((exists t, compound_point_at (operand_spans clp) t = Ok (Some p)) /\ match op with Intersection => inA p = true | Union => inA p = false | Difference => inA p = true end).
  Proof.
    intros He Fs Fc Hsel Hne Hx Hin. destruct (clip_boundary_any op ca cb l sel He Fs Fc Hsel Hne Hx) as (rs & E & _ & T). exists rs. split; [exact E|].
    assert (Kt : forall b, segment_kept op true b = true <-> match op with Intersection => b = true | Union => b = false | Difference => b = false end) by (intros b; destruct op, b; cbn; intuition congruence).
    assert (Kf : forall b, segment_kept op false b = true <-> match op with Intersection => b = true | Union => b = false | Difference => b = true end) by (intros b; destruct op, b; cbn; intuition congruence).
    intros p. rewrite T. split.
    - intros (side & t & Et & Hk). destruct (cross_dec side t sel) as [(x & X1 & X2)|X].
      + left. exists x. split; [exact X1|]. rewrite X2 in Et. destruct side; [exact Et|]. change (operand_spans sub) with (spans true). now rewrite (bo_meet _ Hx).
      + right. destruct Hk as [Hk|Hk]; [contradiction|]. rewrite (Hin side t p Et) in Hk by (intros x X1 X2; apply X; now exists x).
        destruct side; [left|right]; (split; [now exists t|]); [now apply Kt|now apply Kf].
    - intros [(x & X1 & X2)|[((t & Et) & Hk)|((t & Et) & Hk)]].
      + exists true, (fst x). split; [exact X2|]. left. exists x. auto.
      + exists true, t. split; [exact Et|]. destruct (cross_dec true t sel) as [X|X]; [now left|right].
        rewrite (Hin true t p Et) by (intros x X1 X2; apply X; now exists x). now apply Kt.
      + exists false, t. split; [exact Et|]. destruct (cross_dec false t sel) as [X|X]; [now left|right].
        rewrite (Hin false t p Et) by (intros x X1 X2; apply X; now exists x). now apply Kf.
  Qed.
End Real.
