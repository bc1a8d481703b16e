(** * Boolean operations on regions with holes against set semantics *)
From Coq Require Import Permutation.
From Verif Require Import Base BaseFacts Scalar ClipModel RegionModel.

(** ** Points of regions *)
Section Semantics.
  Context {CC P : Type}.
  Variable inside : CC -> P -> Prop.

  Definition in_region (r : Region CC) (p : P) : Prop :=
    inside (rexterior r) p /\ forall c, In c (rinteriors r) -> ~ inside c p.
  Definition covers (rs : list (Region CC)) (p : P) : Prop := exists r, In r rs /\ in_region r p.

  Definition set_op (op : BooleanOperation) (a b : Prop) : Prop :=
    match op with Union => a \/ b | Intersection => a /\ b | Difference => a /\ ~ b end.

  Definition curves_disjoint (a b : CC) : Prop := forall p, ~ (inside a p /\ inside b p).
  Definition subset (a b : CC) : Prop := forall p, inside a p -> inside b p.
End Semantics.

Section Proofs.
  Context {CC P : Type}.
  Variable cbool : BooleanOperation -> CC -> CC -> Res (list (Region CC)).
  Variable contains : CC -> P -> Res bool.
  Variable first_point : CC -> P.
  Variable inside : CC -> P -> Prop.

  Notation in_region := (in_region inside).
  Notation covers := (covers inside).
  Notation disjoint := (curves_disjoint inside).
  Notation subset := (subset inside).
  Notation distribute_one := (distribute_one contains first_point).
  Notation distribute := (distribute contains first_point).

  (** the curves that are met, and the containment answers for their start points *)
  Variable F : CC -> Prop.
  Variable cb : CC -> CC -> bool.

  (** a hole [h] finds its place among the regions [rs]: at most one exterior contains its start;
      that exterior contains all of it, and the other regions do not meet it *)
  Definition placed (rs : list (Region CC)) (h : CC) : Prop :=
    (forall r, In r rs -> cb (rexterior r) h = true -> subset h (rexterior r)) /\
    (forall r, In r rs -> cb (rexterior r) h = false -> forall p, inside h p -> ~ in_region r p) /\
    ForallOrdPairs (fun r r' => ~ (cb (rexterior r) h = true /\ cb (rexterior r') h = true)) rs.

  (** what is required of the operations on curves that do not enclose a gap between them *)
  Record curve_algebra : Prop := {
    alg_contains : forall c h, F c -> F h -> contains c (first_point h) = Ok (cb c h);
    alg_union : forall a b, F a -> F b ->
      exists rs, cbool Union a b = Ok rs /\
        ((rs = [MkRegion a []; MkRegion b []] /\ disjoint a b) \/
         (exists c, rs = [MkRegion c []] /\ F c /\ ~ disjoint a b /\
            forall p, inside c p <-> inside a p \/ inside b p));
    alg_diff : forall a b, F a -> F b ->
      exists rs, cbool Difference a b = Ok rs /\
        (forall r, In r rs -> F (rexterior r) /\ subset (rexterior r) a /\
           (rinteriors r = [] \/ rinteriors r = [b] /\ subset b (rexterior r))) /\
        (forall p, covers rs p <-> inside a p /\ ~ inside b p) /\
        (forall h, F h -> subset h a -> disjoint h b -> placed rs h);
    alg_inter : forall a b, F a -> F b ->
      exists rs, cbool Intersection a b = Ok rs /\
        (forall r, In r rs -> F (rexterior r) /\ rinteriors r = []) /\
        (forall p, covers rs p <-> inside a p /\ inside b p) /\
        (forall h, F h -> subset h a -> subset h b -> placed rs h) }.

  (** a region of the family: holes inside the exterior that do not overlap *)
  Record region_ok (r : Region CC) : Prop := {
    rg_ext : F (rexterior r);
    rg_int : forall h, In h (rinteriors r) -> F h /\ subset h (rexterior r);
    rg_disj : forall h h', In h (rinteriors r) -> In h' (rinteriors r) -> h = h' \/ disjoint h h' }.

  Hypothesis HA : curve_algebra.

  (** *** distribution of holes *)
  Lemma distribute_one_spec r a : forall b,
    F (rexterior r) -> (forall h, In h a -> F h) ->
    forall its, distribute_one (length a) (MkRegion (rexterior r) its) (a ++ b)
      = Ok (MkRegion (rexterior r) (its ++ rev (filter (cb (rexterior r)) a)),
            filter (fun h => negb (cb (rexterior r) h)) a ++ b).
  Proof.
    induction a as [|x a IH] using rev_ind; intros b HF Ha its.
    - cbn. now rewrite app_nil_r.
    - rewrite app_length, Nat.add_comm. cbn [length Nat.add RegionModel.distribute_one].
      rewrite get_ok with (d := x) by (rewrite !app_length; cbn; lia).
      rewrite <- app_assoc. rewrite app_nth2 by lia. rewrite Nat.sub_diag. cbn [app nth bind].
      cbn [rexterior].
      rewrite (alg_contains HA (rexterior r) x HF)
        by (apply Ha; apply in_or_app; right; now left).
      cbn [bind]. rewrite !filter_app. cbn [filter].
      assert (Ha' : forall h, In h a -> F h) by (intros h Hh; apply Ha, in_or_app; now left).
      destruct (cb (rexterior r) x) eqn:E; cbn [negb].
      + replace (vec_remove (length a) (a ++ x :: b)) with (a ++ b).
        * cbn [rinteriors]. rewrite IH by assumption. rewrite rev_app_distr, <- app_assoc.
          now rewrite app_nil_r.
        * unfold vec_remove. rewrite firstn_app, Nat.sub_diag, firstn_all. cbn [firstn].
          rewrite app_nil_r. replace (S (length a)) with (length (a ++ [x])) by
            (rewrite app_length; cbn; lia).
          replace (a ++ x :: b) with ((a ++ [x]) ++ b) by now rewrite <- app_assoc.
          rewrite skipn_app, skipn_all, Nat.sub_diag. reflexivity.
      + rewrite IH by assumption. rewrite app_nil_r, <- app_assoc. reflexivity.
  Qed.

  Definition fed (r : Region CC) (ints : list CC) : Region CC :=
    MkRegion (rexterior r) (rinteriors r ++ rev (filter (cb (rexterior r)) ints)).
  Fixpoint feed (rs : list (Region CC)) (ints : list CC) : list (Region CC) * list CC :=
    match rs with
    | [] => ([], ints)
    | r :: t =>
        let '(t', rest) := feed t (filter (fun h => negb (cb (rexterior r) h)) ints) in
        (fed r ints :: t', rest)
    end.
  Lemma distribute_spec rs : forall ints, (forall r, In r rs -> F (rexterior r)) ->
    (forall h, In h ints -> F h) -> distribute rs ints = Ok (feed rs ints).
  Proof.
    induction rs as [|r rs IH]; intros ints Hr Hi; [reflexivity|]. cbn [RegionModel.distribute feed].
    pose proof (distribute_one_spec r ints [] ltac:(apply Hr; now left) Hi (rinteriors r)) as H.
    rewrite !app_nil_r in H. destruct r as [e its]. cbn [rexterior rinteriors] in *.
    rewrite H. cbn [bind].
    rewrite IH.
    - destruct (feed rs _) as [t' rest]. reflexivity.
    - intros r' Hr'. apply Hr. now right.
    - intros h Hh. apply filter_In in Hh. now apply Hi.
  Qed.

  Lemma fed_sub r ints p : in_region (fed r ints) p -> in_region r p.
  Proof.
    intros [H1 H2]. split; [exact H1|]. intros c Hc. apply H2. cbn. apply in_or_app. now left.
  Qed.
  Lemma feed_sub rs : forall ints p, covers (fst (feed rs ints)) p -> covers rs p.
  Proof.
    induction rs as [|r rs IH]; intros ints p (x & Hx & Hp); [destruct Hx|].
    cbn [feed] in Hx. pose proof (IH (filter (fun h => negb (cb (rexterior r) h)) ints) p) as IH'.
    destruct (feed rs _) as [t' rest]. destruct Hx as [<-|Hx].
    - exists r. split; [now left|]. now apply fed_sub in Hp.
    - destruct IH' as (y & Hy & Hyp); [now exists x|]. exists y. split; [now right|assumption].
  Qed.
  Lemma feed_keeps rs : forall ints p, covers rs p -> (forall h, In h ints -> ~ inside h p) ->
    covers (fst (feed rs ints)) p.
  Proof.
    induction rs as [|r rs IH]; intros ints p (x & Hx & Hp) Hn; [destruct Hx|].
    cbn [feed]. pose proof (IH (filter (fun h => negb (cb (rexterior r) h)) ints) p) as IH'.
    destruct (feed rs _) as [t' rest]. cbn [fst] in *. destruct Hx as [<-|Hx].
    - exists (fed r ints). split; [now left|]. destruct Hp as [H1 H2]. split; [exact H1|].
      cbn. intros c Hc. apply in_app_or in Hc. destruct Hc as [Hc|Hc]; [now apply H2|].
      rewrite <- in_rev in Hc. apply filter_In in Hc. now apply Hn.
    - destruct IH' as (y & Hy & Hyp); [now exists x| |exists y; split; [now right|assumption]].
      intros h Hh. apply filter_In in Hh. now apply Hn.
  Qed.
  Lemma feed_excludes rs : forall ints p h, In h ints -> placed rs h -> inside h p ->
    ~ covers (fst (feed rs ints)) p.
  Proof.
    induction rs as [|r rs IH]; intros ints p h Hh Hpl Hp (x & Hx & Hxp); [destruct Hx|].
    cbn [feed] in Hx. destruct Hpl as (P1 & P2 & P3). inversion P3 as [|? ? P4 P5]; subst.
    assert (Hrest : placed rs h).
    { split; [|split; [|assumption]]; intros; [apply P1|eapply P2; eauto]; try now right.
      assumption. }
    pose proof (IH (filter (fun h => negb (cb (rexterior r) h)) ints) p h) as IH'.
    pose proof (feed_sub rs (filter (fun h => negb (cb (rexterior r) h)) ints) p) as HS.
    destruct (feed rs _) as [t' rest]. cbn [fst] in *.
    destruct (cb (rexterior r) h) eqn:E.
    - destruct Hx as [<-|Hx].
      + destruct Hxp as [_ Hxp]. apply (Hxp h); [|assumption]. cbn. apply in_or_app. right.
        rewrite <- in_rev. apply filter_In. now split.
      + destruct HS as (y & Hy & Hyp); [now exists x|].
        rewrite Forall_forall in P4.
        destruct (cb (rexterior y) h) eqn:E2.
        * apply (P4 y Hy). auto.
        * exact (P2 y (or_intror Hy) E2 p Hp Hyp).
    - destruct Hx as [<-|Hx].
      + apply fed_sub in Hxp. eapply (P2 r); eauto. now left.
      + apply IH'; [apply filter_In; split; [assumption|now rewrite E]|assumption|assumption|].
        now exists x.
  Qed.
  Lemma feed_covers rs ints p : (forall h, In h ints -> placed rs h) ->
    (covers (fst (feed rs ints)) p <-> covers rs p /\ forall h, In h ints -> ~ inside h p).
  Proof.
    intros Hpl. split.
    - intros H. split; [now apply feed_sub in H|]. intros h Hh Hp.
      exact (feed_excludes rs ints p h Hh (Hpl h Hh) Hp H).
    - intros [H1 H2]. now apply feed_keeps.
  Qed.

  (** every region of the outcome comes from a region with the same exterior *)
  Lemma feed_origin rs : forall ints x, In x (fst (feed rs ints)) -> exists r, In r rs /\
    rexterior x = rexterior r /\
    forall h, In h (rinteriors x) -> In h (rinteriors r) \/ (In h ints /\ cb (rexterior r) h = true).
  Proof.
    induction rs as [|r rs IH]; intros ints x Hx; [destruct Hx|].
    cbn [feed] in Hx. pose proof (IH (filter (fun h => negb (cb (rexterior r) h)) ints) x) as IH'.
    destruct (feed rs _) as [t' rest]. destruct Hx as [<-|Hx].
    - exists r. split; [now left|]. split; [reflexivity|]. cbn. intros h Hh.
      apply in_app_or in Hh. destruct Hh as [Hh|Hh]; [now left|]. rewrite <- in_rev in Hh.
      apply filter_In in Hh. now right.
    - destruct (IH' Hx) as (y & Hy & E & Hi). exists y. split; [now right|]. split; [assumption|].
      intros h Hh. destruct (Hi h Hh) as [H|[H1 H2]]; [now left|right].
      apply filter_In in H1. tauto.
  Qed.

  (** *** Difference *)
  Lemma absorb_fold holes other : F other -> (forall h, In h holes -> F h) ->
    (forall h h', In h holes -> In h' holes -> h = h' \/ disjoint h h') ->
    exists cur ints, foldM (absorb cbool) holes (other, []) = Ok (cur, ints) /\
      F cur /\ (forall h, In h ints -> In h holes /\ disjoint h cur) /\
      (forall p, inside cur p \/ (exists h, In h ints /\ inside h p) <->
                 inside other p \/ exists h, In h holes /\ inside h p) /\
      ((forall h, In h holes -> disjoint other h) -> cur = other).
  Proof.
    intros HO HF HD.
    destruct (foldM_rule (fun pre (st : CC * list CC) =>
      F (fst st) /\ (forall h, In h (snd st) -> In h pre /\ disjoint h (fst st)) /\
      (forall p, inside (fst st) p \/ (exists h, In h (snd st) /\ inside h p) <->
                 inside other p \/ exists h, In h pre /\ inside h p) /\
      ((forall h, In h pre -> disjoint other h) -> fst st = other))
      (absorb cbool) holes (other, [])) as ([cur ints] & HR & H1 & H2 & H3 & H4).
    - cbn. split; [assumption|]. split; [tauto|]. split; [|reflexivity].
      intros p. split; intros [H|(h & [] & _)]; now left.
    - intros pre x post [cur ints] Epre (I1 & I2 & I3 & I4). cbn [fst snd] in *.
      assert (Hx : In x holes) by (rewrite Epre; apply in_or_app; right; now left).
      destruct (alg_union HA cur x I1 (HF x Hx)) as (rs & HU & [[-> HDx]|(c & -> & Fc & HDx & Hc)]).
      + exists (cur, ints ++ [x]). split; [unfold absorb; cbn [fst snd]; rewrite HU; reflexivity|].
        cbn [fst snd]. split; [assumption|]. split; [|split].
        * intros h Hh. apply in_app_or in Hh. destruct Hh as [Hh|[<-|[]]].
          -- destruct (I2 h Hh). split; [apply in_or_app; now left|assumption].
          -- split; [apply in_or_app; right; now left|]. intros p [Ha Hb]. now apply (HDx p).
        * intros p. specialize (I3 p). split.
          -- intros [H|(h & Hh & Hp)].
             ++ destruct (proj1 I3 (or_introl H)) as [K|(h & K1 & K2)]; [now left|right].
                exists h. split; [apply in_or_app; now left|assumption].
             ++ apply in_app_or in Hh. destruct Hh as [Hh|[<-|[]]].
                ** destruct (proj1 I3 (or_intror (ex_intro _ h (conj Hh Hp)))) as [K|(g & K1 & K2)];
                     [now left|right]. exists g. split; [apply in_or_app; now left|assumption].
                ** right. exists x. split; [apply in_or_app; right; now left|assumption].
          -- intros [H|(h & Hh & Hp)].
             ++ destruct (proj2 I3 (or_introl H)) as [K|(h & K1 & K2)]; [now left|right].
                exists h. split; [apply in_or_app; now left|assumption].
             ++ apply in_app_or in Hh. destruct Hh as [Hh|[<-|[]]].
                ** destruct (proj2 I3 (or_intror (ex_intro _ h (conj Hh Hp)))) as [K|(g & K1 & K2)];
                     [now left|right]. exists g. split; [apply in_or_app; now left|assumption].
                ** right. exists x. split; [apply in_or_app; right; now left|assumption].
        * intros Hall. apply I4. intros h Hh. apply Hall. apply in_or_app. now left.
      + exists (c, ints). split;
          [unfold absorb; cbn [fst snd]; rewrite HU; cbn; now rewrite app_nil_r|].
        cbn [fst snd]. split; [assumption|]. split; [|split].
        * intros h Hh. destruct (I2 h Hh) as [K1 K2]. split; [apply in_or_app; now left|].
          intros p [Pa Pb]. apply Hc in Pb. destruct Pb as [Pb|Pb]; [now apply (K2 p)|].
          assert (Hhh : In h holes) by (rewrite Epre; apply in_or_app; now left).
          destruct (HD h x Hhh Hx) as [->|Hd].
          -- apply HDx. intros q [Qa Qb]. now apply (K2 q).
          -- now apply (Hd p).
        * intros p. specialize (I3 p). specialize (Hc p). split.
          -- intros [H|(h & Hh & Hp)].
             ++ apply Hc in H. destruct H as [H|H].
                ** destruct (proj1 I3 (or_introl H)) as [K|(h & K1 & K2)]; [now left|right].
                   exists h. split; [apply in_or_app; now left|assumption].
                ** right. exists x. split; [apply in_or_app; right; now left|assumption].
             ++ destruct (proj1 I3 (or_intror (ex_intro _ h (conj Hh Hp)))) as [K|(g & K1 & K2)];
                  [now left|right]. exists g. split; [apply in_or_app; now left|assumption].
          -- intros [H|(h & Hh & Hp)].
             ++ destruct (proj2 I3 (or_introl H)) as [K|(h & K1 & K2)];
                  [left; apply Hc; now left|right]. exists h. now split.
             ++ apply in_app_or in Hh. destruct Hh as [Hh|[<-|[]]].
                ** destruct (proj2 I3 (or_intror (ex_intro _ h (conj Hh Hp)))) as [K|(g & K1 & K2)];
                     [left; apply Hc; now left|right]. exists g. now split.
                ** left. apply Hc. now right.
        * intros Hall. exfalso. apply HDx. intros p [Pa Pb].
          rewrite I4 in Pa by (intros h Hh; apply Hall, in_or_app; now left).
          apply (Hall x ltac:(apply in_or_app; right; now left) p). now split.
    - exists cur, ints. auto.
  Qed.

  Lemma region_difference_full self other : region_ok self -> F other ->
    exists rs cur ints, region_difference cbool contains first_point self other = Ok rs /\
      (forall p, covers rs p <-> in_region self p /\ ~ inside other p) /\
      (forall r, In r rs -> F (rexterior r) /\ subset (rexterior r) (rexterior self) /\
         forall h, In h (rinteriors r) -> F h /\ subset h (rexterior r) /\
           (In h ints \/ h = cur)) /\
      (forall h, In h ints -> In h (rinteriors self) /\ disjoint h cur) /\
      ((forall h, In h (rinteriors self) -> disjoint other h) -> cur = other) /\
      (forall h, F h -> subset h (rexterior self) -> disjoint h cur -> placed rs h).
  Proof.
    intros HR HO.
    destruct (absorb_fold (rinteriors self) other HO) as (cur & ints & HF & Fc & Hi & Hcov & Hsame).
    { intros h Hh. now apply (rg_int _ HR). }
    { apply (rg_disj _ HR). }
    destruct (alg_diff HA (rexterior self) cur (rg_ext _ HR) Fc) as (rs & HD & Hr & Hc & Hpl).
    unfold region_difference. rewrite HF. cbn [bind]. rewrite HD. cbn [bind].
    rewrite distribute_spec.
    - assert (Hplaced : forall h, In h ints -> placed rs h).
      { intros h Hh. destruct (Hi h Hh) as [K1 K2]. destruct (rg_int _ HR h K1). now apply Hpl. }
      exists (fst (feed rs ints)), cur, ints.
      destruct (feed rs ints) as [rs' rest] eqn:Ef. cbn [fst bind].
      pose proof (feed_covers rs ints) as HFC. rewrite Ef in HFC. cbn [fst] in HFC.
      pose proof (feed_origin rs ints) as HFO. rewrite Ef in HFO. cbn [fst] in HFO.
      split; [reflexivity|]. split; [|split; [|split; [|split]]].
      + intros p. rewrite (HFC p Hplaced), Hc. specialize (Hcov p). split.
        * intros [[H1 H2] H3].
          assert (Hn : ~ (inside other p \/ exists h, In h (rinteriors self) /\ inside h p)).
          { intros K. apply Hcov in K. destruct K as [K|(h & K1 & K2)]; [contradiction|].
            now apply (H3 h). }
          split; [|tauto]. split; [assumption|]. intros c Hcc K. apply Hn. right. now exists c.
        * intros [[H1 H2] H3].
          assert (Hn : ~ (inside cur p \/ exists h, In h ints /\ inside h p)).
          { intros K. apply Hcov in K. destruct K as [K|(h & K1 & K2)]; [contradiction|].
            now apply (H2 h). }
          split; [split; [assumption|tauto]|]. intros h Hh K. apply Hn. right. now exists h.
      + intros r Hin. destruct (HFO r Hin) as (r0 & Hr0 & Eq & Hint).
        destruct (Hr r0 Hr0) as (K1 & K2 & K3). rewrite Eq. split; [assumption|].
        split; [assumption|]. intros h Hh. destruct (Hint h Hh) as [Q|[Q1 Q2]].
        * destruct K3 as [K3|[K3 K4]]; rewrite K3 in Q; [destruct Q|].
          destruct Q as [<-|[]]. auto.
        * destruct (Hi h Q1) as [Q3 _]. split; [now apply (rg_int _ HR)|].
          split; [|now left]. now apply (proj1 (Hplaced h Q1)).
      + intros h Hh. now apply Hi.
      + exact Hsame.
      + intros h Fh Hs Hd. destruct (Hpl h Fh Hs Hd) as (P1 & P2 & P3). split; [|split].
        * intros r Hin. destruct (HFO r Hin) as (r0 & Hr0 & Eq & _). rewrite Eq. now apply P1.
        * intros r Hin Hcb p Hp Hrp. destruct (HFO r Hin) as (r0 & Hr0 & Eq & _).
          rewrite Eq in Hcb.
          assert (G : forall rs ints x q, In x (fst (feed rs ints)) -> in_region x q ->
             exists r, In r rs /\ rexterior x = rexterior r /\ in_region r q).
          { clear. induction rs as [|r rs IH]; intros ints x q Hx Hq; [destruct Hx|].
            cbn [feed] in Hx.
            pose proof (IH (filter (fun h => negb (cb (rexterior r) h)) ints) x q) as IH'.
            destruct (feed rs _) as [t' rest]. destruct Hx as [<-|Hx].
            - exists r. split; [now left|]. split; [reflexivity|]. now apply fed_sub in Hq.
            - destruct (IH' Hx Hq) as (y & Hy & E & Hyq). exists y. split; [now right|now split]. }
          pose proof (G rs ints r p) as Gr. rewrite Ef in Gr. cbn [fst] in Gr.
          destruct (Gr Hin Hrp) as (r1 & Hr1 & Eq1 & Hr1p).
          apply (P2 r1 Hr1) with (p := p); [now rewrite <- Eq1, Eq|assumption|assumption].
        * clear - P3 Ef. revert ints rs' rest Ef. induction P3 as [|r rs P4 P5 IH];
            intros ints rs' rest Ef; cbn [feed] in Ef.
          -- inversion Ef; subst. constructor.
          -- destruct (feed rs (filter (fun h => negb (cb (rexterior r) h)) ints)) as [t' rest'] eqn:E2.
             inversion Ef; subst. constructor.
             ++ rewrite Forall_forall in *. intros y Hy.
                pose proof (feed_origin rs (filter (fun h => negb (cb (rexterior r) h)) ints) y) as HO.
                rewrite E2 in HO. destruct (HO Hy) as (z & Hz & Ez & _).
                cbn [fed rexterior]. rewrite Ez. now apply P4.
             ++ eapply IH; eauto.
    - intros r Hin. now apply Hr.
    - intros h Hh. destruct (Hi h Hh) as [K _]. now apply (rg_int _ HR).
  Qed.

  Theorem region_difference_correct self other : region_ok self -> F other ->
    exists rs, region_difference cbool contains first_point self other = Ok rs /\
      forall p, covers rs p <-> set_op Difference (in_region self p) (inside other p).
  Proof.
    intros HR HO. destruct (region_difference_full self other HR HO) as (rs & cur & ints & H & Hc & _).
    exists rs. split; [exact H|exact Hc].
  Qed.

  (** *** Union, when it is connected and the operand does not lie inside a hole *)
  Theorem region_union_correct self other : region_ok self -> F other ->
    (forall p, inside other p \/ ~ inside other p) ->
    ~ disjoint (rexterior self) other ->
    (forall h, In h (rinteriors self) -> ~ subset other h) ->
    exists rs, region_union cbool self other = Ok rs /\
      forall p, covers rs p <-> set_op Union (in_region self p) (inside other p).
  Proof.
    intros HR HO Hdec Hnd Hns.
    destruct (alg_union HA _ _ (rg_ext _ HR) HO) as (rs & HU & [[-> K]|(c & -> & Fc & _ & Hc)]);
      [contradiction|].
    unfold region_union. rewrite HU. cbn [bind nth_error option_map ok_or rexterior].
    assert (G : forall l, (forall h, In h l -> In h (rinteriors self)) ->
      exists diffs, mapM (fun it => cbool Difference it other) l = Ok diffs /\
        forall p, (exists d, In d (map rexterior (concat diffs)) /\ inside d p) <->
                  exists h, In h l /\ inside h p /\ ~ inside other p).
    { induction l as [|h l IH]; intros Hl.
      - exists []. split; [reflexivity|]. intros p. split; intros (d & [] & _).
      - destruct IH as (diffs & E & Hd); [intros g Hg; apply Hl; now right|].
        assert (Hh : In h (rinteriors self)) by (apply Hl; now left).
        destruct (alg_diff HA h other (proj1 (rg_int _ HR h Hh)) HO) as (ds & Ed & Dr & Dc & _).
        exists (ds :: diffs). cbn [mapM]. rewrite Ed. cbn [bind]. rewrite E. cbn [bind].
        split; [reflexivity|]. intros p. cbn [concat]. rewrite map_app. split.
        + intros (d & Hin & Hp). apply in_app_or in Hin. destruct Hin as [Hin|Hin].
          * apply in_map_iff in Hin. destruct Hin as (r & <- & Hr).
            destruct (Dr r Hr) as (_ & Hsub & [Hi|[_ Hi]]).
            -- assert (covers ds p) as Hcov.
               { exists r. split; [assumption|]. split; [assumption|]. rewrite Hi. intros ? []. }
               apply Dc in Hcov. exists h. split; [now left|exact Hcov].
            -- exfalso. apply (Hns h Hh). intros q Hq. apply Hsub. now apply Hi.
          * assert (exists d, In d (map rexterior (concat diffs)) /\ inside d p) as Hex by now exists d.
            apply Hd in Hex. destruct Hex as (g & Hg & Hgp). exists g. split; [now right|assumption].
        + intros (g & [<-|Hg] & Hgp).
          * apply Dc in Hgp. destruct Hgp as (r & Hr & [Hrp _]). exists (rexterior r).
            split; [|assumption]. apply in_or_app. left. now apply in_map.
          * assert (exists h, In h l /\ inside h p /\ ~ inside other p) as Hex by now exists g.
            apply Hd in Hex. destruct Hex as (d & Hin & Hdp). exists d. split; [|assumption].
            apply in_or_app. now right. }
    destruct (G (rinteriors self) ltac:(auto)) as (diffs & Em & Hd).
    rewrite Em. cbn [bind]. eexists. split; [reflexivity|]. intros p. specialize (Hd p). specialize (Hc p).
    unfold set_op. split.
    - intros (r & [<-|[]] & [H1 H2]). cbn [rexterior rinteriors] in *. apply Hc in H1.
      destruct (Hdec p) as [Ho|Ho]; [now right|left]. destruct H1 as [H1|H1]; [|contradiction].
      split; [assumption|]. intros h Hh Hp.
      assert (exists h, In h (rinteriors self) /\ inside h p /\ ~ inside other p) as Hex by now exists h.
      apply Hd in Hex. destruct Hex as (d & Hin & Hdp). now apply (H2 d).
    - intros H. eexists. split; [now left|]. split; cbn [rexterior rinteriors].
      + apply Hc. destruct H as [[H _]|H]; auto.
      + intros d Hin Hdp.
        assert (exists d, In d (map rexterior (concat diffs)) /\ inside d p) as Hex by now exists d.
        apply Hd in Hex. destruct Hex as (h & Hh & Hhp & Hno).
        destruct H as [[_ H]|H]; [now apply (H h)|contradiction].
  Qed.

  (** *** Intersection *)
  Lemma mapM_concat_rule {A B} (f : A -> Res (list B)) (l : list A) (Q : A -> list B -> Prop) :
    (forall x, In x l -> exists rs, f x = Ok rs /\ Q x rs) ->
    exists lr, mapM f l = Ok lr /\ Forall2 Q l lr.
  Proof.
    induction l as [|x l IH]; intros H; [exists []; split; [reflexivity|constructor]|].
    destruct (H x ltac:(now left)) as (rs & E & HQ).
    destruct IH as (lr & El & HF); [intros y Hy; apply H; now right|].
    exists (rs :: lr). cbn. rewrite E. cbn. rewrite El. cbn. split; [reflexivity|now constructor].
  Qed.

  Definition clip_inv (pre : list CC) (r : Region CC) : Prop :=
    F (rexterior r) /\ forall h, In h (rinteriors r) -> In h pre /\ subset h (rexterior r).

  Lemma subtract_hole_rule pre it clips :
    (forall h, In h pre -> F h) -> F it ->
    (forall h h', In h pre -> In h' pre -> h = h' \/ disjoint h h') ->
    (forall h, In h pre -> disjoint it h) ->
    (forall r, In r clips -> clip_inv pre r) ->
    exists rs, subtract_hole cbool contains first_point clips it = Ok rs /\
      (forall r, In r rs -> clip_inv (pre ++ [it]) r) /\
      forall p, covers rs p <-> covers clips p /\ ~ inside it p.
  Proof.
    intros Hpre Hit Hdis Hdit Hcl.
    assert (Hone : forall clip, In clip clips -> exists rs,
      (regions <- region_difference cbool contains first_point clip it ;;
       '(regions, _) <- distribute regions (rinteriors clip) ;; Ok regions) = Ok rs /\
      ((forall r, In r rs -> clip_inv (pre ++ [it]) r) /\
       forall p, covers rs p <-> in_region clip p /\ ~ inside it p)).
    { intros clip Hin. destruct (Hcl clip Hin) as [Fe Hi].
      assert (HRok : region_ok clip).
      { constructor; [assumption| |].
        - intros h Hh. destruct (Hi h Hh). split; [now apply Hpre|assumption].
        - intros h h' Hh Hh'. apply Hdis; now apply Hi. }
      destruct (region_difference_full clip it HRok Hit)
        as (rs & cur & ints & E & Hc & Hr & Hints & Hcur & Hpl).
      assert (cur = it) as -> by (apply Hcur; intros h Hh; apply Hdit; now apply Hi).
      rewrite E. cbn [bind]. rewrite distribute_spec.
      - exists (fst (feed rs (rinteriors clip))).
        pose proof (feed_origin rs (rinteriors clip)) as HFO.
        pose proof (feed_sub rs (rinteriors clip)) as HS.
        pose proof (feed_keeps rs (rinteriors clip)) as HK.
        destruct (feed rs (rinteriors clip)) as [rs' rest]. cbn [bind fst] in *.
        split; [reflexivity|]. split.
        + intros r Hr'. destruct (HFO r Hr') as (r0 & Hr0 & Eq & Hint).
          destruct (Hr r0 Hr0) as (K1 & K2 & K3). split; [now rewrite Eq|].
          rewrite Eq. intros h Hh. destruct (Hint h Hh) as [Q|[Q1 Q2]].
          * destruct (K3 h Q) as (_ & K4 & [K5| ->]).
            -- split; [|assumption]. apply in_or_app. left. now apply Hi, Hints.
            -- split; [|assumption]. apply in_or_app. right. now left.
          * destruct (Hi h Q1) as [Q3 Q4]. split; [apply in_or_app; now left|].
            refine (proj1 (Hpl h (Hpre h Q3) Q4 _) r0 Hr0 Q2).
            intros p [Pa Pb]. now apply (Hdit h Q3 p).
        + intros p. split.
          * intros H. apply Hc. now apply HS.
          * intros H. apply HK; [now apply Hc|]. destruct H as [[_ H] _]. exact H.
      - intros r Hr'. now apply Hr.
      - intros h Hh. now apply (rg_int _ HRok). }
    destruct (mapM_concat_rule _ clips _ Hone) as (lr & El & HF2).
    exists (concat lr). unfold subtract_hole. rewrite El. cbn [bind]. split; [reflexivity|].
    clear - HF2. induction HF2 as [|clip rs clips lr [H1 H2] _ [IH1 IH2]].
    - split; [intros r []|]. intros p. split; [intros (r & [] & _)|intros [(r & [] & _) _]].
    - cbn [concat]. split.
      + intros r Hr. apply in_app_or in Hr. destruct Hr; auto.
      + intros p. specialize (H2 p). specialize (IH2 p). split.
        * intros (r & Hr & Hp). apply in_app_or in Hr. destruct Hr as [Hr|Hr].
          -- destruct (proj1 H2 (ex_intro _ r (conj Hr Hp))) as [K1 K2].
             split; [|assumption]. exists clip. split; [now left|assumption].
          -- destruct (proj1 IH2 (ex_intro _ r (conj Hr Hp))) as [(x & K1 & K3) K2].
             split; [|assumption]. exists x. split; [now right|assumption].
        * intros [(x & [<-|Hx] & Hxp) Hn].
          -- destruct (proj2 H2 (conj Hxp Hn)) as (r & Hr & Hp). exists r.
             split; [apply in_or_app; now left|assumption].
          -- destruct (proj2 IH2 (conj (ex_intro _ x (conj Hx Hxp)) Hn)) as (r & Hr & Hp).
             exists r. split; [apply in_or_app; now right|assumption].
  Qed.

  Lemma region_intersection_full self other : region_ok self -> F other ->
    NoDup (rinteriors self) ->
    exists rs, region_intersection cbool contains first_point self other = Ok rs /\
      (forall r, In r rs -> region_ok r) /\
      forall p, covers rs p <-> set_op Intersection (in_region self p) (inside other p).
  Proof.
    intros HR HO HN.
    destruct (foldM_rule (fun pre clips =>
      (forall r, In r clips -> clip_inv pre r) /\
      forall p, covers clips p <-> inside other p /\ forall h, In h pre -> ~ inside h p)
      (subtract_hole cbool contains first_point) (rinteriors self) [MkRegion other []])
      as (clips & Ef & Hci & Hcc).
    - split.
      + intros r [<-|[]]. split; [assumption|]. intros h [].
      + intros p. split.
        * intros (r & [<-|[]] & [H1 _]). split; [assumption|intros h []].
        * intros [H _]. exists (MkRegion other []). split; [now left|]. split; [assumption|intros c []].
    - intros pre x post clips Epre [I1 I2].
      assert (Hin : forall h, In h pre -> In h (rinteriors self))
        by (intros h Hh; rewrite Epre; apply in_or_app; now left).
      assert (Hx : In x (rinteriors self)) by (rewrite Epre; apply in_or_app; right; now left).
      destruct (subtract_hole_rule pre x clips) as (rs & E & J1 & J2).
      + intros h Hh. apply (rg_int _ HR). now apply Hin.
      + now apply (rg_int _ HR).
      + intros h h' Hh Hh'. apply (rg_disj _ HR); now apply Hin.
      + intros h Hh. destruct (rg_disj _ HR x h Hx (Hin h Hh)) as [->|H]; [|assumption].
        exfalso. rewrite Epre in HN. apply NoDup_remove_2 in HN. apply HN. apply in_or_app. now left.
      + exact I1.
      + exists rs. split; [assumption|]. split; [assumption|]. intros p. rewrite J2, I2. split.
        * intros [[H1 H2] H3]. split; [assumption|]. intros h Hh. apply in_app_or in Hh.
          destruct Hh as [Hh|[<-|[]]]; auto.
        * intros [H1 H2]. split; [split; [assumption|]|].
          -- intros h Hh. apply H2, in_or_app. now left.
          -- apply H2, in_or_app. right. now left.
    - unfold region_intersection. rewrite Ef. cbn [bind].
      assert (Hone : forall clip, In clip clips -> exists rs,
        (regions <- cbool Intersection (rexterior self) (rexterior clip) ;;
         '(regions, _) <- distribute regions (rinteriors clip) ;; Ok regions) = Ok rs /\
        ((forall r, In r rs -> region_ok r) /\
         forall p, covers rs p <-> inside (rexterior self) p /\ in_region clip p)).
      { intros clip Hin. destruct (Hci clip Hin) as [Fe Hi].
        destruct (alg_inter HA _ _ (rg_ext _ HR) Fe) as (rs & E & Hr & Hc & Hpl).
        rewrite E. cbn [bind]. rewrite distribute_spec.
        - exists (fst (feed rs (rinteriors clip))).
          pose proof (feed_covers rs (rinteriors clip)) as HFC.
          pose proof (feed_origin rs (rinteriors clip)) as HFO.
          destruct (feed rs (rinteriors clip)) as [rs' rest]. cbn [bind fst] in *.
          split; [reflexivity|]. split.
          { intros r Hr'. destruct (HFO r Hr') as (r0 & Hr0 & Eq & Hint).
            destruct (Hr r0 Hr0) as [K1 K2].
            assert (Hh : forall h, In h (rinteriors r) -> In h (rinteriors clip) /\
              cb (rexterior r0) h = true).
            { intros h Hh. destruct (Hint h Hh) as [Q|Q]; [|exact Q]. rewrite K2 in Q. destruct Q. }
            constructor.
            - now rewrite Eq.
            - intros h Hhr. destruct (Hh h Hhr) as [Q1 Q2]. destruct (Hi h Q1) as [Q3 Q4].
              destruct (rg_int _ HR h Q3) as [Q5 Q6]. split; [assumption|]. rewrite Eq.
              exact (proj1 (Hpl h Q5 Q6 Q4) r0 Hr0 Q2).
            - intros h h' A B. apply (rg_disj _ HR); [apply (Hi h)|apply (Hi h')]; now apply Hh. }
          intros p. rewrite HFC, Hc; [unfold RegionProofs.in_region; tauto|].
          intros h Hh. destruct (Hi h Hh) as [K1 K2]. destruct (rg_int _ HR h K1). now apply Hpl.
        - intros r Hr'. now apply Hr.
        - intros h Hh. destruct (Hi h Hh) as [K1 _]. now apply (rg_int _ HR). }
      destruct (mapM_concat_rule _ clips _ Hone) as (lr & El & HF2). rewrite El. cbn [bind].
      exists (concat lr). split; [reflexivity|]. split.
      { intros r Hr. clear - HF2 Hr. induction HF2 as [|clip rs clips lr [H1 _] _ IH]; [destruct Hr|].
        cbn [concat] in Hr. apply in_app_or in Hr. destruct Hr; auto. }
      intros p.
      assert (Hcat : covers (concat lr) p <-> inside (rexterior self) p /\ covers clips p).
      { clear - HF2. induction HF2 as [|clip rs clips lr [_ H1] _ IH].
        - split; [intros (r & [] & _)|intros [_ (r & [] & _)]].
        - cbn [concat]. specialize (H1 p). split.
          + intros (r & Hr & Hp). apply in_app_or in Hr. destruct Hr as [Hr|Hr].
            * destruct (proj1 H1 (ex_intro _ r (conj Hr Hp))) as [K1 K2]. split; [assumption|].
              exists clip. split; [now left|assumption].
            * destruct (proj1 IH (ex_intro _ r (conj Hr Hp))) as [K1 (x & K2 & K3)].
              split; [assumption|]. exists x. split; [now right|assumption].
          + intros [He (x & [<-|Hx] & Hxp)].
            * destruct (proj2 H1 (conj He Hxp)) as (r & Hr & Hp). exists r.
              split; [apply in_or_app; now left|assumption].
            * destruct (proj2 IH (conj He (ex_intro _ x (conj Hx Hxp)))) as (r & Hr & Hp).
              exists r. split; [apply in_or_app; now right|assumption]. }
      rewrite Hcat, Hcc. unfold set_op, RegionProofs.in_region. tauto.
  Qed.

  Theorem region_intersection_correct self other : region_ok self -> F other ->
    NoDup (rinteriors self) ->
    exists rs, region_intersection cbool contains first_point self other = Ok rs /\
      forall p, covers rs p <-> set_op Intersection (in_region self p) (inside other p).
  Proof.
    intros H1 H2 H3. destruct (region_intersection_full self other H1 H2 H3) as (rs & E & _ & Hc).
    now exists rs.
  Qed.

  (** *** Two regions *)
  Lemma region_difference_ok self other rs : region_ok self -> F other ->
    region_difference cbool contains first_point self other = Ok rs ->
    forall r, In r rs -> region_ok r.
  Proof.
    intros HR HO E r Hr.
    destruct (region_difference_full self other HR HO)
      as (rs' & cur & ints & E' & _ & Hr' & Hints & _ & _).
    rewrite E in E'. inversion E'; subst rs'. destruct (Hr' r Hr) as (K1 & K2 & K3).
    constructor; [assumption| |].
    - intros h Hh. destruct (K3 h Hh) as (Q1 & Q2 & _). now split.
    - intros h h' A B. destruct (K3 h A) as (_ & _ & [A1| ->]), (K3 h' B) as (_ & _ & [B1| ->]).
      + apply (rg_disj _ HR); now apply Hints.
      + right. now apply Hints.
      + right. intros p [Pa Pb]. apply (proj2 (Hints h' B1) p). now split.
      + now left.
  Qed.

  Theorem region_region_intersection_correct self other : region_ok self -> region_ok other ->
    NoDup (rinteriors self) ->
    exists rs, region_boolean cbool contains first_point Intersection self other = Ok rs /\
      forall p, covers rs p <-> set_op Intersection (in_region self p) (in_region other p).
  Proof.
    intros HR HO HN. unfold region_boolean. cbn [region_curve_boolean].
    destruct (region_intersection_full self (rexterior other) HR (rg_ext _ HO) HN)
      as (rs & E & Hok & Hc).
    rewrite E. cbn [bind].
    match goal with |- exists r, foldM ?f _ _ = _ /\ _ => set (step := f) end.
    destruct (foldM_rule (fun pre rs =>
      (forall r, In r rs -> region_ok r) /\
      forall p, covers rs p <-> in_region self p /\ inside (rexterior other) p /\
        forall h, In h pre -> ~ inside h p) step (rinteriors other) rs)
      as (rs' & Ef & _ & Hf).
    - split; [assumption|]. intros p. rewrite Hc. cbn. intuition.
    - intros pre x post rs0 Epre [I1 I2].
      assert (Fx : F x).
      { apply (rg_int _ HO). rewrite Epre. apply in_or_app. right. now left. }
      assert (Hone : forall r, In r rs0 -> exists l,
        region_difference cbool contains first_point r x = Ok l /\
        ((forall r', In r' l -> region_ok r') /\
         forall p, covers l p <-> in_region r p /\ ~ inside x p)).
      { intros r Hr. destruct (region_difference_correct r x (I1 r Hr) Fx) as (l & El & Hl).
        exists l. split; [assumption|]. split; [|exact Hl].
        exact (region_difference_ok r x l (I1 r Hr) Fx El). }
      destruct (mapM_concat_rule _ rs0 _ Hone) as (lr & El & HF2).
      exists (concat lr). unfold step. rewrite El. cbn [bind]. split; [reflexivity|].
      assert (G : (forall r, In r (concat lr) -> region_ok r) /\
        forall p, covers (concat lr) p <-> covers rs0 p /\ ~ inside x p).
      { clear - HF2. induction HF2 as [|clip rs clips lr [H1 H2] _ [IH1 IH2]].
        - split; [intros r []|]. intros p. split; [intros (r & [] & _)|intros [(r & [] & _) _]].
        - cbn [concat]. split.
          + intros r Hr. apply in_app_or in Hr. destruct Hr; auto.
          + intros p. specialize (H2 p). specialize (IH2 p). split.
            * intros (r & Hr & Hp). apply in_app_or in Hr. destruct Hr as [Hr|Hr].
              -- destruct (proj1 H2 (ex_intro _ r (conj Hr Hp))) as [K1 K2].
                 split; [|assumption]. exists clip. split; [now left|assumption].
              -- destruct (proj1 IH2 (ex_intro _ r (conj Hr Hp))) as [(y & K1 & K3) K2].
                 split; [|assumption]. exists y. split; [now right|assumption].
            * intros [(y & [<-|Hy] & Hyp) Hn].
              -- destruct (proj2 H2 (conj Hyp Hn)) as (r & Hr & Hp). exists r.
                 split; [apply in_or_app; now left|assumption].
              -- destruct (proj2 IH2 (conj (ex_intro _ y (conj Hy Hyp)) Hn)) as (r & Hr & Hp).
                 exists r. split; [apply in_or_app; now right|assumption]. }
      destruct G as [G1 G2]. split; [assumption|]. intros p. rewrite G2, I2. split.
      + intros [(H1 & H2 & H3) H4]. split; [assumption|]. split; [assumption|].
        intros h Hh. apply in_app_or in Hh. destruct Hh as [Hh|[<-|[]]]; auto.
      + intros (H1 & H2 & H3). split.
        * split; [assumption|]. split; [assumption|]. intros h Hh. apply H3, in_or_app. now left.
        * apply H3, in_or_app. right. now left.
    - exists rs'. split; [assumption|]. intros p. rewrite Hf. unfold set_op.
      unfold RegionProofs.in_region at 3. tauto.
  Qed.

  (** subtracting a region takes away its exterior, holes included *)
  Theorem region_region_difference_spec self other : region_ok self -> region_ok other ->
    exists rs, region_boolean cbool contains first_point Difference self other = Ok rs /\
      forall p, covers rs p <-> in_region self p /\ ~ inside (rexterior other) p.
  Proof.
    intros HR HO. unfold region_boolean. cbn [region_curve_boolean].
    destruct (region_difference_correct self (rexterior other) HR (rg_ext _ HO)) as (rs & E & Hc).
    rewrite E. cbn [bind]. exists rs. split; [|exact Hc]. clear.
    induction (rinteriors other) as [|x l IH]; [reflexivity|]. cbn [foldM bind]. exact IH.
  Qed.
End Proofs.
