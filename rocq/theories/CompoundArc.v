(** * Trimming a compound curve over the part between two of its points (used by C92) *)
From Coq Require Import Reals Lra Lia List Sorted Permutation.
From Verif Require Import Base BaseFacts Scalar RSum BSplineSpec BSpline KnotModel KnotSpec
  KnotFacts KnotProofs VecFacts MiscModel CurveModel CurveKnotModel CurveSpec CurveProofs CurveGeom CurveGeom2
  KnotMisc Boehm Refine SplitModel SplitProofs Decompose CompoundModel CompoundProofs CompoundCycle TrimFine.
Import ListNotations.
Open Scope R_scope.

Section Real.
  Variables eps maxv : R.
  Local Hint Extern 0 (Scalar R) => exact (ROps eps maxv) : typeclass_instances.
  Local Notation fine := (fine eps).
  Local Notation span_good := (span_good eps).
  Local Notation off_knots := (off_knots eps).
  Local Notation st := (st eps maxv).
  Local Notation en := (en eps maxv).
  Local Notation on := (on eps maxv).
  Local Notation run := (run eps maxv).
  Local Notation cut := (cut eps maxv).
  Local Notation point_or := (point_or eps maxv).
  Hypothesis He : 0 < eps.

  (** a closed compound curve: usable spans, one after the other in the parameter, each starting where the one before ends, and back to the start *)
  Record ring (ss : list (Curve R)) : Prop := {
    rg_fine : Forall fine ss;
    rg_order : ForallOrdPairs (fun c d => dom1 c <= dom0 d) ss;
    rg_closed : exists p, run p ss p
  }.

  (** the parameter [t] lies inside the span [c], away from its knots *)
  Definition inside_span (c : Curve R) (t : R) : Prop := dom0 c < t < dom1 c /\ off_knots c t.
  (** the point [p] of the compound curve at [t] *)
  Definition at_param (ss : list (Curve R)) (t : R) (p : list R) : Prop := exists c, In c ss /\ dom0 c <= t <= dom1 c /\ point_at c t = Ok p.

  Lemma inside_margin c t : fine c -> inside_span c t -> dom0 c + eps <= t <= dom1 c - eps.
  Proof.
    intros ((Hc & _) & (C0 & C1) & _) (Ht & Ho). pose proof (curve_len c Hc) as Hl. pose proof (clast_S c Hc) as Hn.
    assert (K : forall j, (j < length (cknots c))%nat -> eps <= Rabs (t - kf (cknots c) j)).
    { intros j Hj. rewrite Rabs_minus_sym. rewrite (kf_nth _ _ 0) by exact Hj. apply Ho. now apply nth_In. }
    pose proof (K 0%nat ltac:(lia)) as K0. pose proof (K (length (cknots c) - 1)%nat ltac:(lia)) as K1. rewrite C0 in K0. rewrite C1 in K1.
    rewrite Rabs_pos_eq in K0 by lra. rewrite Rabs_minus_sym, Rabs_pos_eq in K1 by lra. lra.
  Qed.

  (** ** One span *)
  Section Span.
    Variables a b : R.
    Hypothesis Hab : a + eps <= b.
    Variable c : Curve R.
    Hypothesis Hf : fine c.

    Ltac start := unfold trim_span, smin, smax; rs; destruct (Rltb_spec b a); [lra|]; destruct (Rltb_spec a b); [|lra]; rewrite knots_domain_ok by apply Hf; cbn [bind];
      pose proof (fine_dom eps c Hf) as Hd; unfold dom0, dom1 in *.
    Ltac start' := unfold trim_span, smin, smax; rs; destruct (Rltb_spec a b); [|lra]; destruct (Rltb_spec b a); [lra|]; rewrite knots_domain_ok by apply Hf; cbn [bind];
      pose proof (fine_dom eps c Hf) as Hd; unfold dom0, dom1 in *.
    Ltac dec := repeat match goal with |- context [Rleb ?x ?y] => destruct (Rleb_spec x y); try lra end; cbn [andb].

    Lemma span_before : dom1 c <= a -> trim_span a b c = Ok [] /\ trim_span b a c = Ok [c].
    Proof. intros H. split; [start|start']; dec; reflexivity. Qed.
    Lemma span_after : b < dom0 c -> trim_span a b c = Ok [] /\ trim_span b a c = Ok [c].
    Proof. intros H. split; [start|start']; dec; reflexivity. Qed.
    Lemma span_between : a <= dom0 c -> dom1 c <= b -> trim_span a b c = Ok [c] /\ trim_span b a c = Ok [].
    Proof. intros H1 H2. split; [start|start']; dec; reflexivity. Qed.

    Lemma span_low : inside_span c a -> dom1 c <= b -> exists h t, trim_span a b c = Ok [t] /\ trim_span b a c = Ok [h] /\ cut c h (dom0 c) a /\ cut c t a (dom1 c).
    Proof.
      intros Hi Hb. pose proof (inside_margin c a Hf Hi) as Hm. destruct Hi as (Hi & Ho).
      destruct (split_fine eps maxv c a Hf Hi Ho) as (l & r & E & Fl & Fr & D1 & D2 & D3 & D4 & V1 & V2 & _). exists l, r.
      split; [|split; [|split; (split; [auto|split; [auto|split; auto]])]]; [start|start']; dec; rewrite E; reflexivity.
    Qed.
    Lemma span_high : a <= dom0 c -> inside_span c b -> exists h t, trim_span a b c = Ok [h] /\ trim_span b a c = Ok [t] /\ cut c h (dom0 c) b /\ cut c t b (dom1 c).
    Proof.
      intros Ha Hi. pose proof (inside_margin c b Hf Hi) as Hm. destruct Hi as (Hi & Ho).
      destruct (split_fine eps maxv c b Hf Hi Ho) as (l & r & E & Fl & Fr & D1 & D2 & D3 & D4 & V1 & V2 & _). exists l, r.
      split; [|split; [|split; (split; [auto|split; [auto|split; auto]])]]; [start|start']; dec; rewrite E; reflexivity.
    Qed.
    Lemma span_both : inside_span c a -> inside_span c b -> exists h m t, trim_span a b c = Ok [m] /\ trim_span b a c = Ok [h; t] /\
      cut c h (dom0 c) a /\ cut c m a b /\ cut c t b (dom1 c).
    Proof.
      intros Ia Ib. pose proof (inside_margin c a Hf Ia) as Ma. pose proof (inside_margin c b Hf Ib) as Mb. destruct Ia as (Ia & Oa). destruct Ib as (Ib & Ob).
      destruct (trim_inside_fine eps maxv c a b He Hf ltac:(lra) Hab ltac:(lra) Oa Ob) as (m & Em & Cm).
      destruct (split_fine eps maxv c a Hf Ia Oa) as (l & r & E & Fl & Fr & D1 & D2 & D3 & D4 & V1 & V2 & V3).
      destruct (V3 b Ob) as (_ & Obr). { rewrite Rabs_minus_sym, Rabs_pos_eq; lra. }
      destruct (split_fine eps maxv r b Fr ltac:(lra) Obr) as (h & t & E2 & _ & Ft & A1 & A2 & A3 & A4 & W1 & W2 & _).
      exists l, m, t. split; [start; dec; exact Em|]. split; [start'; dec; rewrite E; cbn [bind]; rewrite E2; reflexivity|].
      split; [split; [auto|split; [auto|split; auto]]|]. split; [exact Cm|]. split; [auto|]. split; [auto|]. split; [lra|].
      intros v Hv. rewrite W2 by lra. apply V2. lra.
    Qed.
  End Span.

  (** ** All spans *)
  Lemma trim_app (l1 l2 : list (Curve R)) (p0 p1 : R) : compound_trim (l1 ++ l2) p0 p1 = (x <- compound_trim l1 p0 p1 ;; y <- compound_trim l2 p0 p1 ;; Ok (x ++ y)).
  Proof.
    unfold compound_trim. induction l1 as [|c l1 IH]; cbn [app mapM bind concat].
    - destruct (mapM _ l2); reflexivity.
    - destruct (trim_span p0 p1 c); cbn [bind]; try reflexivity.
      destruct (mapM (trim_span p0 p1) l1); cbn [bind] in *; destruct (mapM (trim_span p0 p1) (l1 ++ l2)); cbn [bind] in *; try congruence; try reflexivity;
        destruct (mapM (trim_span p0 p1) l2); cbn [bind] in *; try congruence; try reflexivity.
      injection IH as IH. cbn [concat]. rewrite IH, app_assoc. reflexivity.
  Qed.
  Lemma trim_none (l : list (Curve R)) (p0 p1 : R) : Forall (fun c => trim_span p0 p1 c = Ok []) l -> compound_trim l p0 p1 = Ok [].
  Proof.
    unfold compound_trim. induction 1 as [|c l Hc _ IH]; [reflexivity|]. cbn [mapM]. rewrite Hc. cbn [bind].
    destruct (mapM (trim_span p0 p1) l); cbn [bind] in *; try discriminate. exact IH.
  Qed.
  Lemma trim_all (l : list (Curve R)) (p0 p1 : R) : Forall (fun c => trim_span p0 p1 c = Ok [c]) l -> compound_trim l p0 p1 = Ok l.
  Proof.
    unfold compound_trim. induction 1 as [|c l Hc _ IH]; [reflexivity|]. cbn [mapM]. rewrite Hc. cbn [bind].
    destruct (mapM (trim_span p0 p1) l); cbn [bind] in *; try discriminate. injection IH as IH. cbn [concat]. rewrite IH. reflexivity.
  Qed.
  Lemma trim_one (c : Curve R) (p0 p1 : R) l : trim_span p0 p1 c = Ok l -> compound_trim [c] p0 p1 = Ok l.
  Proof. intros E. unfold compound_trim. cbn [mapM]. rewrite E. cbn [bind concat]. now rewrite app_nil_r. Qed.

  Lemma order_split l1 c l2 : ring (l1 ++ c :: l2) ->
    fine c /\ Forall (fun d => fine d /\ dom0 d < dom1 d /\ dom1 d <= dom0 c) l1 /\ Forall (fun d => fine d /\ dom0 d < dom1 d /\ dom1 c <= dom0 d) l2.
  Proof.
    intros [F O _]. apply Forall_app in F as (F1 & F2). inversion F2 as [|? ? Fc F3]; subst. apply pairs_app in O as (_ & O2 & O3). inversion O2 as [|? ? O4 _]; subst.
    split; [exact Fc|]. rewrite Forall_forall in F1, F3, O3, O4. split; apply Forall_forall; intros d Hd; (split; [now auto|split; [apply (fine_dom eps); now auto|]]).
    - specialize (O3 d Hd). rewrite Forall_forall in O3. apply O3. now left.
    - now apply O4.
  Qed.
  Lemma ring_nodup ss : ring ss -> NoDup ss.
  Proof.
    intros [F O _]. revert F. induction O as [|c l H1 _ IH]; intros F; [constructor|]. inversion F as [|? ? Fc Fl]; subst. constructor; [|auto].
    intros Hin. rewrite Forall_forall in H1. specialize (H1 c Hin). pose proof (fine_dom eps c Fc). lra.
  Qed.

  (** [qs] is, up to order, a chain of pieces from [p] to [q] that passes exactly the starts of the spans [J] *)
  Definition arc (ss qs J : list (Curve R)) (p q : list R) (P : R -> Prop) : Prop :=
    exists kp, Permutation qs kp /\ qs <> [] /\ Forall fine qs /\ run p kp q /\ map st kp = p :: map st J /\
      forall x, (exists c, In c qs /\ on c x) <-> exists t, P t /\ at_param ss t x.

  Lemma fine_st c : fine c -> point_at c (dom0 c) = Ok (st c) /\ point_at c (dom1 c) = Ok (en c).
  Proof. intros (H & _). now apply (good_st eps maxv). Qed.

  Lemma nodup_sides {A} (x y : list A) : NoDup (x ++ y) -> NoDup x /\ NoDup y.
  Proof.
    induction x as [|e x IH]; cbn [app]; intros H; [split; [constructor|exact H]|]. inversion H as [|? ? H1 H2]; subst. destruct (IH H2) as (I1 & I2).
    split; [constructor; [|exact I1]|exact I2]. intros Hi. apply H1, in_or_app. now left.
  Qed.
  Lemma run_nonempty p c l q : run p (l ++ [c]) q -> en c = q.
  Proof. intros H. apply (run_app eps maxv) in H as (m & _ & H). cbn in H. apply H. Qed.

  Section Between.
    Variable ss : list (Curve R).
    Hypothesis Hr : ring ss.
    Variables a b : R.
    Hypothesis Hab : a + eps <= b.
    Variables ca cb : Curve R.
    Hypothesis Ha : inside_span ca a.
    Hypothesis Hb : inside_span cb b.
    Hypothesis Ia : In ca ss.
    Hypothesis Ib : In cb ss.

    (** where the two parameters lie *)
    Lemma positions : (exists l1 l2, ca = cb /\ ss = l1 ++ ca :: l2) \/ (exists l1 m l2, ss = l1 ++ ca :: m ++ cb :: l2).
    Proof.
      apply in_split in Ia as (l1 & l2 & E). pose proof Ib as H. rewrite E in H. pose proof Hr as Hr'. rewrite E in Hr'. destruct (order_split _ _ _ Hr') as (_ & F1 & F2).
      rewrite Forall_forall in F1, F2. destruct Ha as (A & _), Hb as (B & _). apply in_app_or in H as [H|[H|H]].
      - specialize (F1 cb H). lra.
      - left. now exists l1, l2.
      - right. apply in_split in H as (m & l3 & ->). now exists l1, m, l3.
    Qed.

    Lemma arc_inside : exists qs J, compound_trim ss a b = Ok qs /\ arc ss qs J (point_or ca a) (point_or cb b) (fun t => a <= t <= b) /\
      NoDup J /\ forall c, In c J <-> In c ss /\ a < dom0 c < b.
    Proof.
      pose proof (ring_nodup ss Hr) as ND. pose proof (proj1 Ha) as A. pose proof (proj1 Hb) as B.
      destruct positions as [(l1 & l2 & Ec & E)|(l1 & m & l2 & E)].
      - subst cb. pose proof Hr as Hr'. rewrite E in Hr'. destruct (order_split _ _ _ Hr') as (Fc & F1 & F2).
        destruct (span_both a b Hab ca Fc Ha Hb) as (h & q & t & E1 & _ & _ & Cq & _). destruct (cut_ends eps maxv ca q a b ltac:(lra) Cq) as (S1 & S2).
        exists [q], []. split.
        { rewrite E. change (ca :: l2) with ([ca] ++ l2). rewrite !trim_app, (trim_one _ _ _ _ E1), !trim_none; [reflexivity| |]; (eapply Forall_impl; [|eassumption]); intros d (D1 & D2 & D3).
          - apply (span_after a b Hab d D1). lra.
          - apply (span_before a b Hab d D1). lra. }
        split; [|split; [constructor|]].
        + exists [q]. split; [reflexivity|]. split; [discriminate|]. split; [constructor; [apply Cq|constructor]|]. split; [cbn; auto|]. split; [cbn; now rewrite S1|]. intros x. split.
          * intros (c & [<-|[]] & Ho). apply (cut_on eps maxv ca q a b x Cq) in Ho as (u & Hu & Eu). exists u. split; [exact Hu|]. exists ca. split; [exact Ia|]. split; [lra|exact Eu].
          * intros (u & Hu & c & Hc & Hd & Eu). exists q. split; [now left|]. apply (cut_on eps maxv ca q a b x Cq). exists u. split; [exact Hu|].
            rewrite E in Hc. rewrite Forall_forall in F1, F2. apply in_app_or in Hc as [Hc|[<-|Hc]]; [specialize (F1 c Hc); lra|exact Eu|specialize (F2 c Hc); lra].
        + intros c. split; [intros []|]. intros (Hc & Hd). rewrite E in Hc. rewrite Forall_forall in F1, F2.
          apply in_app_or in Hc as [Hc|[<-|Hc]]; [specialize (F1 c Hc); lra|lra|specialize (F2 c Hc); lra].
      - pose proof Hr as Hr1. rewrite E in Hr1. destruct (order_split _ _ _ Hr1) as (Fa & F1 & F2).
        pose proof Hr1 as Hr2. change (ca :: m ++ cb :: l2) with ((ca :: m) ++ cb :: l2) in Hr2. rewrite app_assoc in Hr2. destruct (order_split _ _ _ Hr2) as (Fb & F3 & F4).
        apply Forall_app in F2 as (Fm & F2). inversion F2 as [|? ? Fab _]; subst. apply Forall_app in F3 as (_ & F3). inversion F3 as [|? ? _ Fm2]; subst.
        destruct Fab as (_ & Db & Dab).
        destruct (span_low a b Hab ca Fa Ha ltac:(lra)) as (ha & ta & E1 & _ & _ & Ct). destruct (span_high a b Hab cb Fb ltac:(lra) Hb) as (hb & tb & E2 & _ & Ch & _).
        destruct (cut_ends eps maxv ca ta a (dom1 ca) ltac:(lra) Ct) as (S1 & S2). destruct (cut_ends eps maxv cb hb (dom0 cb) b ltac:(lra) Ch) as (S3 & S4).
        exists (ta :: m ++ [hb]), (m ++ [cb]). split.
        { change (ca :: m ++ cb :: l2) with ([ca] ++ m ++ [cb] ++ l2). rewrite !trim_app, (trim_one _ _ _ _ E1), (trim_one _ _ _ _ E2), (trim_none l2), (trim_all m), (trim_none l1); [reflexivity| | |].
          - eapply Forall_impl; [|exact F1]. intros d (D1 & D2 & D3). apply (span_before a b Hab d D1). lra.
          - apply Forall_forall. intros d Hd. rewrite Forall_forall in Fm, Fm2. destruct (Fm d Hd) as (D1 & D2 & D3). destruct (Fm2 d Hd) as (_ & _ & D4). apply (span_between a b Hab d D1); lra.
          - eapply Forall_impl; [|exact F4]. intros d (D1 & D2 & D3). apply (span_after a b Hab d D1). lra. }
        split; [|split].
        + exists (ta :: m ++ [hb]). split; [reflexivity|]. split; [discriminate|]. split.
          { constructor; [apply Ct|]. apply Forall_app. split; [eapply Forall_impl; [|exact Fm]; intros d Hd; apply Hd|constructor; [apply Ch|constructor]]. }
          split.
          { destruct (rg_closed _ Hr1) as (p & Rn). apply (run_app eps maxv) in Rn as (x & _ & Rn). cbn [CompoundCycle.run] in Rn. destruct Rn as (_ & Rn).
            cbn [CompoundCycle.run]. split; [exact S1|]. change (point_or ca (dom1 ca)) with (en ca) in S2. rewrite S2.
            apply (run_app eps maxv) in Rn as (y & R1 & R2). apply (run_app eps maxv). exists y. split; [exact R1|]. cbn [CompoundCycle.run] in R2 |- *. split; [|exact S4].
            rewrite S3. apply R2. }
          split; [cbn [map]; rewrite !map_app; cbn [map]; rewrite S1, S3; reflexivity|]. intros x. split.
          * intros (c & Hc & Ho). destruct Hc as [<-|Hc].
            -- apply (cut_on eps maxv ca ta _ _ x Ct) in Ho as (u & Hu & Eu). exists u. split; [lra|]. exists ca. split; [exact Ia|]. split; [lra|exact Eu].
            -- apply in_app_or in Hc as [Hc|[<-|[]]].
               ++ destruct Ho as (u & Hu & Eu). rewrite Forall_forall in Fm, Fm2. destruct (Fm c Hc) as (D1 & D2 & D3). destruct (Fm2 c Hc) as (_ & _ & D4).
                  exists u. split; [lra|]. exists c. split; [|auto]. apply in_or_app. right. right. apply in_or_app. now left.
               ++ apply (cut_on eps maxv cb hb _ _ x Ch) in Ho as (u & Hu & Eu). exists u. split; [lra|]. exists cb. split; [exact Ib|]. split; [lra|exact Eu].
          * intros (u & Hu & c & Hc & Hd & Eu). rewrite Forall_forall in F1, F4, Fm, Fm2. apply in_app_or in Hc as [Hc|[<-|Hc]]; [specialize (F1 c Hc); lra| |].
            -- exists ta. split; [now left|]. apply (cut_on eps maxv ca ta _ _ x Ct). exists u. split; [lra|exact Eu].
            -- apply in_app_or in Hc as [Hc|[<-|Hc]]; [| |specialize (F4 c Hc); lra].
               ++ exists c. split; [right; apply in_or_app; now left|]. exists u. auto.
               ++ exists hb. split; [right; apply in_or_app; right; now left|]. apply (cut_on eps maxv cb hb _ _ x Ch). exists u. split; [lra|exact Eu].
        + apply nodup_sides in ND as (_ & ND). inversion ND as [|? ? _ ND2]; subst. change (cb :: l2) with ([cb] ++ l2) in ND2. rewrite app_assoc in ND2. now apply nodup_sides in ND2.
        + intros c. rewrite Forall_forall in F1, F4, Fm, Fm2. split.
          * intros Hc. split; [apply in_or_app; right; right; apply in_or_app|]; apply in_app_or in Hc as [Hc|[<-|[]]]; [now left|right; now left| |lra].
            specialize (Fm c Hc). specialize (Fm2 c Hc). lra.
          * intros (Hc & Hd). apply in_app_or in Hc as [Hc|[<-|Hc]]; [specialize (F1 c Hc); lra|lra|].
            apply in_or_app. apply in_app_or in Hc as [Hc|[<-|Hc]]; [now left|right; now left|]. specialize (F4 c Hc). lra.
    Qed.

    Lemma arc_outside_gen l1 h t l2 : cut ca h (dom0 ca) a -> cut cb t b (dom1 cb) -> Forall fine (l1 ++ l2) -> run (en cb) (l2 ++ l1) (st ca) ->
      (forall c, In c (l1 ++ l2) -> In c ss /\ (b < dom0 c \/ dom1 c <= a)) ->
      (forall c, In c ss -> In c (l1 ++ l2) \/ c = ca \/ c = cb \/ (a < dom0 c /\ dom1 c < b)) -> NoDup (l2 ++ l1 ++ [ca]) ->
      (ca = cb \/ dom1 ca <= dom0 cb) ->
      arc ss (l1 ++ h :: t :: l2) (l2 ++ l1 ++ [ca]) (point_or cb b) (point_or ca a) (fun u => b <= u \/ u <= a) /\
      NoDup (l2 ++ l1 ++ [ca]) /\ forall c, In c (l2 ++ l1 ++ [ca]) <-> In c ss /\ (b < dom0 c \/ dom0 c < a).
    Proof.
      intros Ch Ct F Rn Hin Hout ND Hne. pose proof (proj1 Ha) as A. pose proof (proj1 Hb) as B.
      destruct (cut_ends eps maxv ca h (dom0 ca) a ltac:(lra) Ch) as (S1 & S2). destruct (cut_ends eps maxv cb t b (dom1 cb) ltac:(lra) Ct) as (S3 & S4).
      assert (Dc : forall c, In c ss -> dom0 c < dom1 c). { intros c Hc. apply (fine_dom eps). pose proof (rg_fine _ Hr) as G. rewrite Forall_forall in G. auto. }
      split; [|split; [exact ND|]].
      - exists (t :: l2 ++ l1 ++ [h]). split.
        { transitivity (t :: h :: l1 ++ l2); [|constructor; rewrite app_assoc; transitivity (h :: l2 ++ l1); [constructor; apply Permutation_app_comm|apply Permutation_cons_append]].
          transitivity (h :: t :: l1 ++ l2); [|apply perm_swap]. symmetry. transitivity (h :: l1 ++ t :: l2); [constructor; apply Permutation_middle|apply Permutation_middle]. }
        split; [destruct l1; discriminate|]. split.
        { apply Forall_app in F as (F1 & F2). apply Forall_app. split; [exact F1|]. constructor; [apply Ch|]. constructor; [apply Ct|exact F2]. }
        split.
        { cbn [CompoundCycle.run]. split; [exact S3|]. change (point_or cb (dom1 cb)) with (en cb) in S4. rewrite S4, app_assoc. apply (run_app eps maxv). exists (st ca). split; [exact Rn|]. cbn [CompoundCycle.run]. auto. }
        split; [cbn [map]; rewrite !map_app; cbn [map]; rewrite S1, S3; reflexivity|]. intros x. split.
        + intros (c & Hc & Ho). assert (Hc' : In c (l1 ++ l2) \/ c = h \/ c = t).
          { apply in_app_or in Hc as [Hc|[<-|[<-|Hc]]]; [left; apply in_or_app; now left|auto|auto|left; apply in_or_app; now right]. }
          destruct Hc' as [Hc'|[->| ->]].
          * destruct (Hin c Hc') as (Hs & D). destruct Ho as (u & Hu & Eu). exists u. split; [lra|]. exists c. auto.
          * apply (cut_on eps maxv ca h _ _ x Ch) in Ho as (u & Hu & Eu). exists u. split; [lra|]. exists ca. split; [exact Ia|]. split; [lra|exact Eu].
          * apply (cut_on eps maxv cb t _ _ x Ct) in Ho as (u & Hu & Eu). exists u. split; [lra|]. exists cb. split; [exact Ib|]. split; [lra|exact Eu].
        + intros (u & Hu & c & Hc & Hd & Eu).
          assert (Hh : c = ca -> u <= a -> exists c0, In c0 (l1 ++ h :: t :: l2) /\ on c0 x).
          { intros -> Hua. exists h. split; [apply in_or_app; right; now left|]. apply (cut_on eps maxv ca h _ _ x Ch). exists u. split; [lra|exact Eu]. }
          assert (Ht : c = cb -> b <= u -> exists c0, In c0 (l1 ++ h :: t :: l2) /\ on c0 x).
          { intros -> Hub. exists t. split; [apply in_or_app; right; right; now left|]. apply (cut_on eps maxv cb t _ _ x Ct). exists u. split; [lra|exact Eu]. }
          destruct (Hout c Hc) as [H|[H|[H|H]]].
          * exists c. split; [|exists u; auto]. apply in_or_app. apply in_app_or in H as [H|H]; [now left|right; right; now right].
          * destruct Hu as [Hu|Hu]; [|now apply Hh]. destruct Hne as [Q|Q]; [apply Ht; [congruence|exact Hu]|]. subst c. lra.
          * destruct Hu as [Hu|Hu]; [now apply Ht|]. destruct Hne as [Q|Q]; [apply Hh; [congruence|exact Hu]|]. subst c. lra.
          * lra.
      - intros c. split.
        + intros Hc. assert (Hc' : In c (l1 ++ l2) \/ c = ca).
          { apply in_app_or in Hc as [Hc|Hc]; [left; apply in_or_app; now right|]. apply in_app_or in Hc as [Hc|[<-|[]]]; [left; apply in_or_app; now left|now right]. }
          destruct Hc' as [Hc'|Hc']; [|subst c; split; [exact Ia|lra]]. destruct (Hin c Hc') as (Hs & D). specialize (Dc c Hs). split; [exact Hs|lra].
        + intros (Hc & D). assert (Hl : In ca (l2 ++ l1 ++ [ca])) by (apply in_or_app; right; apply in_or_app; right; now left).
          destruct (Hout c Hc) as [H|[H|[H|H]]].
          * apply in_or_app. apply in_app_or in H as [H|H]; [right; apply in_or_app; now left|now left].
          * now subst c.
          * destruct Hne as [Q|Q]; [subst c; now rewrite <- Q|]. subst c. lra.
          * specialize (Dc c Hc). lra.
    Qed.

    Lemma arc_outside : exists qs J, compound_trim ss b a = Ok qs /\ arc ss qs J (point_or cb b) (point_or ca a) (fun t => b <= t \/ t <= a) /\
      NoDup J /\ forall c, In c J <-> In c ss /\ (b < dom0 c \/ dom0 c < a).
    Proof.
      pose proof (ring_nodup ss Hr) as ND. pose proof (proj1 Ha) as A. pose proof (proj1 Hb) as B.
      destruct positions as [(l1 & l2 & Ec & E)|(l1 & m & l2 & E)].
      - pose proof Hr as Hr'. rewrite E in Hr'. destruct (order_split _ _ _ Hr') as (Fc & F1 & F2). rewrite <- Ec in B.
        destruct (span_both a b Hab ca Fc Ha ltac:(now rewrite Ec)) as (h & q & t & _ & E1 & Ch & _ & Ct).
        exists (l1 ++ h :: t :: l2), (l2 ++ l1 ++ [ca]). split.
        { rewrite E. change (ca :: l2) with ([ca] ++ l2). rewrite !trim_app, (trim_one _ _ _ _ E1), !trim_all; [reflexivity| |]; (eapply Forall_impl; [|eassumption]); intros d (D1 & D2 & D3).
          - apply (span_after a b Hab d D1). lra.
          - apply (span_before a b Hab d D1). lra. }
        rewrite Forall_forall in F1, F2. apply arc_outside_gen; [exact Ch|now rewrite <- Ec| | | | | |now left].
        + apply Forall_app. split; apply Forall_forall; intros d Hd; [apply (F1 d Hd)|apply (F2 d Hd)].
        + destruct (rg_closed _ Hr') as (p & Rn). apply (run_app eps maxv) in Rn as (x & R1 & R2). cbn [CompoundCycle.run] in R2. destruct R2 as (R2 & R3).
          apply (run_app eps maxv). exists p. rewrite <- Ec. split; [exact R3|]. now rewrite R2.
        + intros c Hc. rewrite E. apply in_app_or in Hc as [Hc|Hc]; (split; [apply in_or_app|]); [now left|specialize (F1 c Hc); lra|right; now right|specialize (F2 c Hc); lra].
        + intros c Hc. rewrite E in Hc. apply in_app_or in Hc as [Hc|[Hc|Hc]]; [left; apply in_or_app; now left|auto|left; apply in_or_app; now right].
        + rewrite E in ND. eapply Permutation_NoDup; [|exact ND]. transitivity ((l1 ++ [ca]) ++ l2); [now rewrite <- app_assoc|apply Permutation_app_comm].
      - pose proof Hr as Hr1. rewrite E in Hr1. destruct (order_split _ _ _ Hr1) as (Fa & F1 & F2).
        pose proof Hr1 as Hr2. change (ca :: m ++ cb :: l2) with ((ca :: m) ++ cb :: l2) in Hr2. rewrite app_assoc in Hr2. destruct (order_split _ _ _ Hr2) as (Fb & F3 & F4).
        apply Forall_app in F2 as (Fm & F2). pose proof (Forall_inv F2) as Fab. apply Forall_app in F3 as (_ & F3). pose proof (Forall_inv_tail F3) as Fm2. clear Hr2.
        destruct Fab as (_ & Db & Dab).
        destruct (span_low a b Hab ca Fa Ha ltac:(lra)) as (ha & ta & _ & E1 & Ch & _). destruct (span_high a b Hab cb Fb ltac:(lra) Hb) as (hb & tb & _ & E2 & _ & Ct).
        exists (l1 ++ ha :: tb :: l2), (l2 ++ l1 ++ [ca]). split.
        { rewrite E. change (ca :: m ++ cb :: l2) with ([ca] ++ m ++ [cb] ++ l2). rewrite !trim_app, (trim_one _ _ _ _ E1), (trim_one _ _ _ _ E2), (trim_none m), (trim_all l1), (trim_all l2); [reflexivity| | |].
          - eapply Forall_impl; [|exact F4]. intros d (D1 & D2 & D3). apply (span_after a b Hab d D1). lra.
          - eapply Forall_impl; [|exact F1]. intros d (D1 & D2 & D3). apply (span_before a b Hab d D1). lra.
          - apply Forall_forall. intros d Hd. rewrite Forall_forall in Fm, Fm2. destruct (Fm d Hd) as (D1 & D2 & D3). destruct (Fm2 d Hd) as (_ & _ & D4). apply (span_between a b Hab d D1); lra. }
        rewrite Forall_forall in F1, F4, Fm, Fm2. apply arc_outside_gen; [exact Ch|exact Ct| | | | | |now right].
        + apply Forall_app. split; apply Forall_forall; intros d Hd; [apply (F1 d Hd)|apply (F4 d Hd)].
        + destruct (rg_closed _ Hr1) as (p & Rn). apply (run_app eps maxv) in Rn as (x & R1 & R2). cbn [CompoundCycle.run] in R2. destruct R2 as (R2 & R3).
          apply (run_app eps maxv) in R3 as (y & _ & R4). cbn [CompoundCycle.run] in R4. apply (run_app eps maxv). exists p. split; [apply R4|]. now rewrite R2.
        + intros c Hc. rewrite E. apply in_app_or in Hc as [Hc|Hc]; (split; [apply in_or_app|]); [now left|specialize (F1 c Hc); lra|right; right; apply in_or_app; right; now right|specialize (F4 c Hc); lra].
        + intros c Hc. rewrite E in Hc. apply in_app_or in Hc as [Hc|[Hc|Hc]]; [left; apply in_or_app; now left|auto|].
          apply in_app_or in Hc as [Hc|[Hc|Hc]]; [|auto|left; apply in_or_app; now right].
          right. right. right. specialize (Fm c Hc). specialize (Fm2 c Hc). lra.
        + assert (P : Permutation (l1 ++ ca :: m ++ cb :: l2) ((l2 ++ l1 ++ [ca]) ++ m ++ [cb])).
          { transitivity (((l1 ++ [ca]) ++ m ++ [cb]) ++ l2); [rewrite <- !app_assoc; reflexivity|]. rewrite Permutation_app_comm. rewrite <- !app_assoc. reflexivity. }
          rewrite E in ND. apply (Permutation_NoDup P) in ND. now apply nodup_sides in ND.
    Qed.
  End Between.
End Real.

(** the same two facts with every hypothesis in view *)
Lemma trim_arc_inside eps maxv (ss : list (Curve R)) a b ca cb : 0 < eps -> ring eps maxv ss -> a + eps <= b -> In ca ss -> In cb ss ->
  inside_span eps ca a -> inside_span eps cb b ->
  exists qs J, @compound_trim R (ROps eps maxv) ss a b = Ok qs /\ arc eps maxv ss qs J (point_or eps maxv ca a) (point_or eps maxv cb b) (fun t => a <= t <= b) /\
    NoDup J /\ forall c, In c J <-> In c ss /\ a < dom0 c < b.
Proof. intros He Hr Hab Ia Ib Ha Hb. exact (arc_inside eps maxv He ss Hr a b Hab ca cb Ha Hb Ia Ib). Qed.

Lemma trim_arc_outside eps maxv (ss : list (Curve R)) a b ca cb : 0 < eps -> ring eps maxv ss -> a + eps <= b -> In ca ss -> In cb ss ->
  inside_span eps ca a -> inside_span eps cb b ->
  exists qs J, @compound_trim R (ROps eps maxv) ss b a = Ok qs /\ arc eps maxv ss qs J (point_or eps maxv cb b) (point_or eps maxv ca a) (fun t => b <= t \/ t <= a) /\
    NoDup J /\ forall c, In c J <-> In c ss /\ (b < dom0 c \/ dom0 c < a).
Proof. intros He Hr Hab Ia Ib Ha Hb. exact (arc_outside eps maxv He ss Hr a b Hab ca cb Ha Hb Ia Ib). Qed.
