(** * Degree elevation: the result has the right number of knots only for four spans *)
From Coq Require Import Reals Lra Lia List ZArith Sorted.
From Verif Require Import Base BaseFacts Scalar BSplineSpec BSpline KnotModel KnotFacts KnotSpec CurveModel CurveSpec CurveProofs CurveGeom TraversalProofs Decompose ElevateModel.
Import ListNotations.
Open Scope R_scope.

(** the number of non-empty knot spans before index [m] *)
Fixpoint rises (k : list R) (m : nat) : nat :=
  match m with O => 0%nat | S m => (rises k m + if Rltb (kf k m) (kf k (S m)) then 1 else 0)%nat end.
(** the number of polynomial pieces of a curve *)
Definition pieces (c : Curve R) : nat := rises (cknots c) (length (cknots c) - 1).

Lemma rises_up k m : kf k m < kf k (S m) -> rises k (S m) = S (rises k m).
Proof. intros H. cbn [rises]. rewrite (proj2 (Rltb_true _ _) H). lia. Qed.
Lemma rises_flat k a b : (a <= b)%nat -> (forall j, (a <= j < b)%nat -> kf k j = kf k (S j)) -> rises k b = rises k a.
Proof.
  intros Hab H. induction b as [|b IH]; [now replace a with 0%nat by lia|]. destruct (Nat.eq_dec a (S b)) as [->|]; [reflexivity|].
  cbn [rises]. rewrite IH; [|lia|intros j Hj; apply H; lia]. rewrite (proj2 (Rltb_false _ _)); [lia|]. rewrite (H b ltac:(lia)). lra.
Qed.

Section Real.
  Variables eps maxv : R.
  Local Hint Extern 0 (Scalar R) => exact (ROps eps maxv) : typeclass_instances.

  Lemma run_end_spec knots m b b' : length knots = S m -> (b <= m)%nat -> run_end knots m b = Ok b' ->
    (b <= b' <= m)%nat /\ (forall j, (b <= j < b')%nat -> kf knots j = kf knots (S j)) /\ (b' = m \/ kf knots b' <> kf knots (S b')).
  Proof.
    intros L Hb E. unfold run_end, while_ in E.
    revert E. apply (loop_partial (fun x => (b <= x <= m)%nat /\ forall j, (b <= j < x)%nat -> kf knots j = kf knots (S j))
      (fun x => (b <= x <= m)%nat /\ (forall j, (b <= j < x)%nat -> kf knots j = kf knots (S j)) /\ (x = m \/ kf knots x <> kf knots (S x)))).
    - split; [lia|]. intros j Hj. lia.
    - intros x r (H1 & H2) E1. destruct (Nat.ltb_spec x m) as [Hx|Hx]; [|discriminate E1].
      rewrite (get_ok knots x 0) in E1 by lia. cbn [bind] in E1. rewrite (get_ok knots (x + 1) 0) in E1 by lia. cbn [bind] in E1.
      rewrite <- !kf_nth in E1 by lia. replace (x + 1)%nat with (S x) in E1 by lia. cbn [seqb ROps] in E1.
      destruct (Reqb_spec (kf knots x) (kf knots (S x))) as [Q|Q]; [|discriminate E1]. cbn [bind] in E1. injection E1 as <-.
      split; [lia|]. intros j Hj. destruct (Nat.eq_dec j x) as [->|]; [exact Q|]. apply H2. lia.
    - intros x r (H1 & H2) E1. destruct (Nat.ltb_spec x m) as [Hx|Hx].
      + rewrite (get_ok knots x 0) in E1 by lia. cbn [bind] in E1. rewrite (get_ok knots (x + 1) 0) in E1 by lia. cbn [bind] in E1.
        rewrite <- !kf_nth in E1 by lia. replace (x + 1)%nat with (S x) in E1 by lia. cbn [seqb ROps] in E1.
        destruct (Reqb_spec (kf knots x) (kf knots (S x))) as [Q|Q]; [discriminate E1|]. cbn [bind] in E1. injection E1 as <-. auto.
      + cbn [bind] in E1. injection E1 as <-. split; [lia|]. split; [exact H2|]. left. lia.
  Qed.

  Section Curve.
    Variable c : Curve R.
    Hypothesis Hc : curve_ok c.
    Hypothesis Hcl : clamped c.
    Hypothesis Hp : (1 <= cdeg c)%nat.
    Notation p := (cdeg c).
    Notation k := (cknots c).
    Notation n := (clast c).
    Notation m := (n + p + 1)%nat.
    Notation L := (length (cpts c) + p + 6)%nat.

    Definition zero_from (uh : list R) (i : nat) : Prop := length uh = L /\ forall j, (i <= j)%nat -> nth j uh 0 = 0.
    Lemma zero_set uh i v uh' : zero_from uh i -> set_ uh i v = Ok uh' -> (i < L)%nat /\ zero_from uh' (S i).
    Proof.
      intros (H1 & H2) E. apply set_inv in E. destruct E as (Hi & ->). rewrite H1 in Hi. split; [exact Hi|].
      split; [now rewrite upd_length|]. intros j Hj. rewrite nth_upd_other by lia. apply H2. lia.
    Qed.

    (** the number of knots written when the run ending at [a] has been copied *)
    Notation count a := (p + 2 + (a - p) + rises k a)%nat.

    Definition inv (st : ElSt R) : Prop :=
      (e_b st = m /\ zero_from (e_uh st) (n + p + 3 + pieces c) /\ (n + p + 3 + pieces c <= L)%nat /\ nth (n + 1 + pieces c) (e_uh st) 0 = kf k m) \/
      (e_b st = S (e_a st) /\ (p <= e_a st <= n)%nat /\ kf k (e_a st) < kf k (S (e_a st)) /\ zero_from (e_uh st) (e_kind st) /\
       (if (e_a st =? p)%nat then e_kind st else e_kind st + Z.to_nat (Z.of_nat (p + 1) - e_r st))%nat = count (e_a st)).

    Lemma klen : length k = S m.
    Proof. pose proof (ko_len _ _ _ (co_knots c Hc)). lia. Qed.
    Lemma kmono i j : (i <= j)%nat -> kf k i <= kf k j.
    Proof. intros H. apply (mono_le _ i j); [now apply curve_mono|exact H]. Qed.
    Lemma last_run a : kf k a < kf k (S a) -> kf k (S a) = kf k m -> a = n.
    Proof.
      intros H E. destruct Hcl as (_ & C1). destruct (co_knots c Hc) as [_ _ _ _ K].
      assert (C : kf k (S n) = kf k m). { unfold dom1 in C1. rewrite (clast_S c Hc). rewrite <- C1. f_equal. rewrite klen. lia. }
      destruct (Nat.lt_trichotomy a n) as [G|[G|G]]; [|exact G|].
      - pose proof (kmono (S a) n ltac:(lia)). replace (n + 1)%nat with (S n) in K by lia. lra.
      - pose proof (kmono (S n) a ltac:(lia)). pose proof (kmono a (S a) ltac:(lia)). lra.
    Qed.

    Lemma step_inv bz st st' : inv st -> (e_b st < m)%nat -> el_step c 1 (p + 1) m bz st = Ok st' -> inv st'.
    Proof.
      intros [(I & _)|(Ib & Ia & Iu & Iz & Ic)] Hb E; [lia|]. unfold el_step in E.
      apply bind_ok in E. destruct E as (b & Eb & E). apply run_end_spec in Eb; [|exact klen|lia]. destruct Eb as (B1 & B2 & B3). rewrite Ib in B1, B2, E.
      apply bind_ok in E. destruct E as (ub & Eub & E). cbv zeta in E.
      apply bind_ok in E. destruct E as ((bpts & next) & _ & E). apply bind_ok in E. destruct E as (eb & _ & E).
      apply bind_ok in E. destruct E as ((qw & eb') & _ & E). apply bind_ok in E. destruct E as ((uh & kind) & Ek & E).
      apply bind_ok in E. destruct E as ((qw' & cind) & _ & E).
      assert (K : kind = count (e_a st) /\ zero_from uh kind).
      { destruct (Nat.eqb_spec (e_a st) p) as [Q|Q]; [injection Ek as <- <-; auto|].
        unfold for_range in Ek. apply (for_partial (fun i (s : list R * nat) => snd s = (e_kind st + i)%nat /\ zero_from (fst s) (snd s))) in Ek.
        - cbn [fst snd] in Ek. destruct Ek as (-> & Z). split; [lia|exact Z].
        - cbn [fst snd]. split; [lia|exact Iz].
        - intros i (x & kd) s' _ (H1 & H2) F. apply bind_ok in F. destruct F as (x' & F & G). injection G as <-. cbn [fst snd] in *.
          apply (zero_set x kd) in F; [|exact H2]. replace (kd + 1)%nat with (S kd) by lia. split; [lia|apply F]. }
      destruct K as (Kc & Kz).
      assert (Ra : rises k b = S (rises k (e_a st))) by (rewrite (rises_flat k (S (e_a st)) b) by (auto; lia); now apply rises_up).
      destruct (Nat.ltb_spec b m) as [Hm|Hm].
      - right. destruct B3 as [B3|B3]; [lia|].
        apply bind_ok in E. destruct E as (ur & _ & E). apply bind_ok in E. destruct E as (x1 & _ & E). apply bind_ok in E. destruct E as (x2 & _ & E).
        apply bind_ok in E. destruct E as (x3 & _ & E). injection E as <-. cbn [e_b e_a e_uh e_kind e_r].
        assert (Hlt : kf k b < kf k (S b)) by (pose proof (kmono b (S b) ltac:(lia)); lra).
        split; [lia|]. split.
        { split; [lia|]. destruct (Nat.le_gt_cases b n) as [|G]; [assumption|exfalso]. pose proof (kmono (S n) b ltac:(lia)). destruct Hcl as (_ & C1).
          pose proof (kmono (S b) m ltac:(lia)). unfold dom1 in C1. rewrite <- (clast_S c Hc) in C1. rewrite klen in C1. replace (S m - 1)%nat with m in C1 by lia. lra. }
        split; [exact Hlt|]. split; [exact Kz|]. destruct (Nat.eqb_spec b p) as [Q|Q]; lia.
      - apply bind_ok in E. destruct E as (uh2 & Eu & E). injection E as <-. left. cbn [e_b e_uh]. split; [lia|].
        assert (b = m) by lia. subst b.
        assert (Hn : e_a st = n).
        { apply last_run; [exact Iu|]. assert (G : forall i, (S (e_a st) + i <= m)%nat -> kf k (S (e_a st) + i) = kf k (S (e_a st))).
          { induction i as [|i IH]; intros Hi; [f_equal; lia|]. rewrite <- IH by lia. replace (S (e_a st) + S i)%nat with (S (S (e_a st) + i)) by lia. symmetry. apply B2. lia. }
          replace m with (S (e_a st) + (m - S (e_a st)))%nat by lia. symmetry. apply G. lia. }
        assert (P : pieces c = S (rises k n)) by (unfold pieces; rewrite klen; replace (S m - 1)%nat with m by lia; rewrite Ra; now rewrite Hn).
        unfold for_incl in Eu. replace (S (p + 1) - 0)%nat with (S (p + 1)) in Eu by lia.
        apply (for_partial (fun i (x : list R) => zero_from x (kind + i) /\ (kind + i <= L)%nat /\ ((0 < i)%nat -> nth kind x 0 = ub))) in Eu.
        + rewrite Hn in Kc. pose proof (ko_pn _ _ _ (co_knots c Hc)) as PN. destruct Eu as (Z & Q & V). replace (n + p + 3 + pieces c)%nat with (kind + (0 + S (p + 1)))%nat by (rewrite P; lia). split; [exact Z|]. split; [exact Q|].
          replace (n + 1 + pieces c)%nat with kind by (rewrite P; lia). rewrite V by lia. rewrite (get_ok k m 0) in Eub by (rewrite klen; lia). injection Eub as <-. symmetry. apply kf_nth. rewrite klen. lia.
        + rewrite Nat.add_0_r. split; [exact Kz|]. split; [|lia]. rewrite Hn in Kc. pose proof (clast_S c Hc).
          clear - Eu Kz Hp. destruct (Nat.le_gt_cases kind L) as [|G]; [assumption|exfalso]. cbn [for_] in Eu. apply bind_ok in Eu. destruct Eu as (x & Eu & _).
          rewrite Nat.add_0_r in Eu. apply (zero_set _ kind) in Eu; [lia|exact Kz].
        + intros i x x' Hi (Z & Q & V) F. pose proof F as F2. apply set_inv in F2. apply zero_set in F; [|exact Z]. replace (kind + S i)%nat with (S (kind + i)) by lia. destruct F. split; [assumption|]. split; [lia|].
          intros _. destruct F2 as (F2 & ->). destruct i as [|i]; [rewrite Nat.add_0_r in *; now apply nth_upd_same|]. rewrite nth_upd_other by lia. apply V. lia.
    Qed.

    Theorem elevate_pieces c' : try_elevate_degree c (S p) = Ok c' ->
      (pieces c <= 4)%nat /\ length (cknots c') = L /\ cdeg c' = S p /\ ((pieces c < 4)%nat -> kf (cknots c') (L - 1) = 0) /\ exists j, (j < L)%nat /\ kf (cknots c') j = dom1 c.
    Proof.
      unfold try_elevate_degree. destruct (Nat.leb_spec (S p) p); [lia|]. pose proof klen as KL. pose proof (clast_S c Hc) as NL. pose proof (ko_pn _ _ _ (co_knots c Hc)) as PN.
      rewrite !usub_ok by lia. cbn [bind]. rewrite usub_ok by lia. cbn [bind]. rewrite KL. replace (S p - p)%nat with 1%nat by lia.
      replace (S m - p - 2 + p + 1)%nat with m by lia. intros E.
      apply bind_ok in E. destruct E as (bz & _ & E). apply bind_ok in E. destruct E as (ua & Eua & E). apply bind_ok in E. destruct E as (p0 & _ & E).
      apply bind_ok in E. destruct E as (qw & Eqw & E). apply bind_ok in E. destruct E as (uh & Euh & E).
      apply bind_ok in E. destruct E as (hd & _ & E). apply bind_ok in E. destruct E as (x & _ & E). apply bind_ok in E. destruct E as (st & Est & E).
      injection E as <-. cbn [cknots cdeg].
      assert (Z0 : zero_from uh (p + 2)).
      { unfold for_incl in Euh. replace (S (S p) - 0)%nat with (p + 2)%nat in Euh by lia.
        apply (for_partial (fun i (x : list R) => zero_from x i)) in Euh; [exact Euh| |].
        - split; [rewrite repeat_length; lia|]. intros j _. destruct (Nat.lt_ge_cases j (length (cpts c) + 1 + 3 + S p + 1)) as [G|G].
          + now rewrite nth_repeat_lt.
          + apply nth_overflow. rewrite repeat_length. exact G.
        - intros i y y' _ Hy F. apply zero_set in F; [apply F|exact Hy]. }
      assert (Rp : rises k p = 0%nat).
      { rewrite (rises_flat k 0 p); [reflexivity|lia|]. intros j Hj. destruct Hcl as (C0 & _). unfold dom0 in C0.
        pose proof (kmono 0 j ltac:(lia)). pose proof (kmono j (S j) ltac:(lia)). pose proof (kmono (S j) p ltac:(lia)). lra. }
      assert (I : (e_b st = m /\ zero_from (e_uh st) (n + p + 3 + pieces c) /\ (n + p + 3 + pieces c <= L)%nat /\ nth (n + 1 + pieces c) (e_uh st) 0 = kf k m)).
      { unfold while_ in Est. revert Est. apply (loop_partial inv (fun st => e_b st = m /\ zero_from (e_uh st) (n + p + 3 + pieces c) /\ (n + p + 3 + pieces c <= L)%nat /\ nth (n + 1 + pieces c) (e_uh st) 0 = kf k m)).
        - right. cbn [e_b e_a e_uh e_kind e_r]. rewrite Nat.eqb_refl. split; [lia|]. split; [lia|]. split; [pose proof (ko_first _ _ _ (co_knots c Hc)) as KF; replace (p + 1)%nat with (S p) in KF by lia; exact KF|].
          replace (S p + 1)%nat with (p + 2)%nat by lia. split; [exact Z0|lia].
        - intros s s' Hi F. cbn [bind] in F. destruct (Nat.ltb_spec (e_b s) m) as [Hb|]; [|discriminate F]. apply bind_ok in F. destruct F as (s1 & F & G). injection G as <-.
          replace (S p) with (p + 1)%nat in F by lia. now apply (step_inv bz s s1).
        - intros s s' Hi F. cbn [bind] in F. destruct (Nat.ltb_spec (e_b s) m) as [Hb|Hb]; [apply bind_ok in F; destruct F as (s1 & _ & F); discriminate F|].
          injection F as <-. destruct Hi as [Hi|(Hi & Hi2 & _)]; [exact Hi|lia]. }
      destruct I as (_ & (I1 & I2) & I3 & I4). split; [lia|]. split; [exact I1|]. split; [reflexivity|]. split.
      - intros H4. rewrite (kf_nth _ _ 0) by lia. apply I2. lia.
      - exists (n + 1 + pieces c)%nat. split; [lia|]. rewrite (kf_nth _ _ 0) by lia. rewrite I4. destruct Hcl as (_ & C1). rewrite <- C1. rewrite KL. f_equal. lia.
    Qed.

    (** the knots of the result are in order only for curves with four pieces *)
    Theorem elevate_needs_four_pieces c' : 0 < dom1 c -> try_elevate_degree c (S p) = Ok c' -> Sorted Rle (cknots c') -> pieces c = 4%nat.
    Proof.
      intros Hd E Hs. destruct (elevate_pieces c' E) as (H4 & HL & _ & Hz & j & Hj & Ej).
      destruct (Nat.eq_dec (pieces c) 4) as [|N4]; [assumption|exfalso]. specialize (Hz ltac:(lia)).
      pose proof (mono_le _ j (L - 1) (sorted_mono _ Hs) ltac:(lia)) as M. lra.
    Qed.
  End Curve.
End Real.
