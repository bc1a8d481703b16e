(** * Unions of regions with holes: exactly what they cover *)
From Verif Require Import Base BaseFacts Scalar ClipModel RegionModel RegionProofs.

Section Proofs.
  Context {CC P : Type}.
  Variable cbool : BooleanOperation -> CC -> CC -> Res (list (Region CC)).
  Variable contains : CC -> P -> Res bool.
  Variable first_point : CC -> P.
  Variable inside : CC -> P -> Prop.
  Variable F : CC -> Prop.
  Variable cb : CC -> CC -> bool.
  Notation in_region := (in_region inside).
  Notation covers := (covers inside).
  Notation disjoint := (curves_disjoint inside).
  Notation subset := (subset inside).
  Notation region_ok := (region_ok inside F).
  Hypothesis HA : curve_algebra cbool contains first_point inside F cb.
  (** the pieces of a difference do not overlap *)
  Definition separate_pieces : Prop := forall a b rs, F a -> F b -> cbool Difference a b = Ok rs ->
    forall r r', In r rs -> In r' rs -> rexterior r = rexterior r' \/ disjoint (rexterior r) (rexterior r').

  (** punching the holes of the operand *)
  Lemma punch_fold (holes : list CC) rs : (forall h, In h holes -> F h) -> (forall r, In r rs -> region_ok r) ->
    exists rs', foldM (fun regions interior =>
                   l <- mapM (fun r => region_difference cbool contains first_point r interior) regions ;; Ok (concat l)) holes rs = Ok rs' /\
      (forall r, In r rs' -> region_ok r) /\
      forall p, covers rs' p <-> covers rs p /\ forall h, In h holes -> ~ inside h p.
  Proof.
    intros HF Hok.
    match goal with |- exists r, foldM ?f _ _ = _ /\ _ => set (step := f) end.
    destruct (foldM_rule (fun pre rs' => (forall r, In r rs' -> region_ok r) /\
      forall p, covers rs' p <-> covers rs p /\ forall h, In h pre -> ~ inside h p) step holes rs) as (rs' & Ef & H1 & H2).
    - split; [assumption|]. intros p. cbn. intuition.
    - intros pre x post rs0 Epre [I1 I2].
      assert (Fx : F x) by (apply HF; rewrite Epre; apply in_or_app; right; now left).
      assert (Hone : forall r, In r rs0 -> exists l,
        region_difference cbool contains first_point r x = Ok l /\
        ((forall r', In r' l -> region_ok r') /\ forall p, covers l p <-> in_region r p /\ ~ inside x p)).
      { intros r Hr. destruct (region_difference_correct cbool contains first_point inside F cb HA r x (I1 r Hr) Fx) as (l & El & Hl).
        exists l. split; [assumption|]. split; [|exact Hl].
        exact (region_difference_ok cbool contains first_point inside F cb HA r x l (I1 r Hr) Fx El). }
      destruct (mapM_concat_rule _ rs0 _ Hone) as (lr & El & HF2).
      exists (concat lr). unfold step. rewrite El. cbn [bind]. split; [reflexivity|].
      assert (G : (forall r, In r (concat lr) -> region_ok r) /\
        forall p, covers (concat lr) p <-> covers rs0 p /\ ~ inside x p).
      { clear - HF2. induction HF2 as [|clip rs clips lr [H1 H2] _ [IH1 IH2]].
        - split; [intros r []|]. intros p. split; [intros (r & [] & _)|intros [(r & [] & _) _]].
        - cbn [concat]. split.
          + intros r Hr. apply in_app_or in Hr. destruct Hr; auto.
          + intros p. specialize (H2 p). specialize (IH2 p). split.
            * intros (r & Hr & Hp). apply in_app_or in Hr. destruct Hr as [Hr|Hr].
              -- destruct (proj1 H2 (ex_intro _ r (conj Hr Hp))) as [K1 K2].
                 split; [|assumption]. exists clip. split; [now left|assumption].
              -- destruct (proj1 IH2 (ex_intro _ r (conj Hr Hp))) as [(y & K1 & K3) K2].
                 split; [|assumption]. exists y. split; [now right|assumption].
            * intros [(y & [<-|Hy] & Hyp) Hn].
              -- destruct (proj2 H2 (conj Hyp Hn)) as (r & Hr & Hp). exists r.
                 split; [apply in_or_app; now left|assumption].
              -- destruct (proj2 IH2 (conj (ex_intro _ y (conj Hy Hyp)) Hn)) as (r & Hr & Hp).
                 exists r. split; [apply in_or_app; now right|assumption]. }
      destruct G as [G1 G2]. split; [assumption|]. intros p. rewrite G2, I2. split.
      + intros [(H1 & H3) H4]. split; [assumption|].
        intros h Hh. apply in_app_or in Hh. destruct Hh as [Hh|[<-|[]]]; auto.
      + intros (H1 & H3). split.
        * split; [assumption|]. intros h Hh. apply H3, in_or_app. now left.
        * apply H3, in_or_app. right. now left.
    - exists rs'. auto.
  Qed.

  (** the one region a union answers is again a region of the family *)
  Lemma region_union_ok self other rs : separate_pieces -> region_ok self -> F other ->
    ~ disjoint (rexterior self) other ->
    region_union cbool self other = Ok rs -> forall r, In r rs -> region_ok r.
  Proof.
    intros HS HR HO Hnd E r Hr. unfold region_union in E.
    destruct (alg_union _ _ _ _ _ _ HA _ _ (rg_ext _ _ _ HR) HO) as (us & HU & [[-> K]|(c & -> & Fc & _ & Hc)]); [contradiction|].
    rewrite HU in E. cbn [bind nth_error option_map ok_or rexterior] in E.
    destruct (mapM (fun it => cbool Difference it other) (rinteriors self)) as [diffs| | |] eqn:Em; try discriminate.
    cbn [bind] in E. injection E as <-. destruct Hr as [<-|[]].
    (* every piece comes from a hole *)
    assert (Org : forall d, In d (map rexterior (concat diffs)) -> exists h ds x,
               In h (rinteriors self) /\ cbool Difference h other = Ok ds /\ In x ds /\ d = rexterior x).
    { intros d Hd. apply in_map_iff in Hd. destruct Hd as (x & <- & Hx). apply in_concat in Hx. destruct Hx as (ds & Hds & Hx).
      assert (G : forall l diffs, mapM (fun it => cbool Difference it other) l = Ok diffs -> In ds diffs ->
                  exists h, In h l /\ cbool Difference h other = Ok ds).
      { clear. induction l as [|h l IH]; intros diffs E Hin.
        - cbn in E. injection E as <-. destruct Hin.
        - cbn [mapM] in E. destruct (cbool Difference h other) as [ds0| | |] eqn:E0; try discriminate. cbn [bind] in E.
          destruct (mapM _ l) as [dl| | |] eqn:E1; try discriminate. cbn [bind] in E. injection E as <-.
          destruct Hin as [<-|Hin]; [exists h; split; [now left|exact E0]|].
          destruct (IH dl eq_refl Hin) as (g & G1 & G2). exists g. split; [now right|exact G2]. }
      destruct (G _ _ Em Hds) as (h & H1 & H2). exists h, ds, x. auto. }
    constructor; cbn [rexterior rinteriors].
    - exact Fc.
    - intros d Hd. destruct (Org d Hd) as (h & ds & x & H1 & H2 & H3 & ->).
      destruct (rg_int _ _ _ HR h H1) as (Fh & Sh).
      destruct (alg_diff _ _ _ _ _ _ HA h other Fh HO) as (ds' & Ed & Dr & _). rewrite H2 in Ed. injection Ed as <-.
      destruct (Dr x H3) as (D1 & D2 & _). split; [exact D1|]. intros p Hp. apply Hc. left. apply Sh, D2, Hp.
    - intros d d' Hd Hd'. destruct (Org d Hd) as (h & ds & x & H1 & H2 & H3 & ->).
      destruct (Org d' Hd') as (h' & ds' & x' & H1' & H2' & H3' & ->).
      destruct (rg_int _ _ _ HR h H1) as (Fh & _). destruct (rg_int _ _ _ HR h' H1') as (Fh' & _).
      destruct (rg_disj _ _ _ HR h h' H1 H1') as [<-|Hd0].
      + rewrite H2 in H2'. injection H2' as <-. apply (HS h other ds); auto.
      + right. destruct (alg_diff _ _ _ _ _ _ HA h other Fh HO) as (e & Ed & Dr & _). rewrite H2 in Ed. injection Ed as <-.
        destruct (alg_diff _ _ _ _ _ _ HA h' other Fh' HO) as (e' & Ed' & Dr' & _). rewrite H2' in Ed'. injection Ed' as <-.
        intros p [Pa Pb]. apply (Hd0 p). split; [apply (proj1 (proj2 (Dr x H3)))|apply (proj1 (proj2 (Dr' x' H3')))]; assumption.
  Qed.

  (** exactly what the union of two regions covers: both exteriors, without the holes of the first that the
      second leaves open, and without any point of a hole of the second *)
  Theorem region_region_union_spec self other : separate_pieces -> region_ok self -> region_ok other ->
    (forall p, inside (rexterior other) p \/ ~ inside (rexterior other) p) ->
    ~ disjoint (rexterior self) (rexterior other) ->
    (forall h, In h (rinteriors self) -> ~ subset (rexterior other) h) ->
    exists rs, region_boolean cbool contains first_point Union self other = Ok rs /\
      forall p, covers rs p <-> (in_region self p \/ inside (rexterior other) p) /\
                                forall h, In h (rinteriors other) -> ~ inside h p.
  Proof.
    intros HS HR HO Hdec Hnd Hns. unfold region_boolean. cbn [region_curve_boolean].
    destruct (region_union_correct cbool contains first_point inside F cb HA self (rexterior other) HR (rg_ext _ _ _ HO) Hdec Hnd Hns)
      as (rs & E & Hc).
    rewrite E. cbn [bind].
    destruct (punch_fold (rinteriors other) rs) as (rs' & E' & _ & Hc').
    - intros h Hh. apply (rg_int _ _ _ HO h Hh).
    - exact (region_union_ok self (rexterior other) rs HS HR (rg_ext _ _ _ HO) Hnd E).
    - exists rs'. split; [exact E'|]. intros p. rewrite Hc', Hc. reflexivity.
  Qed.

  (** hence it is the union of the two sets when the first region does not reach into the holes of the second *)
  Theorem region_region_union_correct self other : separate_pieces -> region_ok self -> region_ok other ->
    (forall p, inside (rexterior other) p \/ ~ inside (rexterior other) p) ->
    ~ disjoint (rexterior self) (rexterior other) ->
    (forall h, In h (rinteriors self) -> ~ subset (rexterior other) h) ->
    (forall h p, In h (rinteriors other) -> inside h p -> ~ in_region self p) ->
    exists rs, region_boolean cbool contains first_point Union self other = Ok rs /\
      forall p, covers rs p <-> set_op Union (in_region self p) (in_region other p).
  Proof.
    intros HS HR HO Hdec Hnd Hns Hx.
    destruct (region_region_union_spec self other HS HR HO Hdec Hnd Hns) as (rs & E & Hc).
    exists rs. split; [exact E|]. intros p. rewrite Hc. unfold set_op, RegionProofs.in_region at 3. split.
    - intros [[H|H] K]; [now left|right; now split].
    - intros [H|[H K]].
      + split; [now left|]. intros h Hh Hp. exact (Hx h p Hh Hp H).
      + split; [now right|exact K].
  Qed.

  (** a union of disjoint curves answers the first region alone: the operand is lost *)
  Theorem region_union_disjoint_spec self other : region_ok self -> F other -> disjoint (rexterior self) other ->
    exists rs, region_union cbool self other = Ok rs /\ forall p, covers rs p <-> in_region self p.
  Proof.
    intros HR HO Hd. unfold region_union.
    destruct (alg_union _ _ _ _ _ _ HA _ _ (rg_ext _ _ _ HR) HO) as (us & HU & [[-> _]|(c & _ & _ & K & _)]); [|contradiction].
    rewrite HU. cbn [bind nth_error option_map ok_or rexterior].
    assert (G : forall l, (forall h, In h l -> In h (rinteriors self)) ->
      exists diffs, mapM (fun it => cbool Difference it other) l = Ok diffs /\
        forall p, (exists d, In d (map rexterior (concat diffs)) /\ inside d p) <-> exists h, In h l /\ inside h p).
    { induction l as [|h l IH]; intros Hl.
      - exists []. split; [reflexivity|]. intros p. split; intros (d & [] & _).
      - destruct IH as (diffs & E & Hdd); [intros g Hg; apply Hl; now right|].
        assert (Hh : In h (rinteriors self)) by (apply Hl; now left).
        destruct (rg_int _ _ _ HR h Hh) as (Fh & Sh).
        destruct (alg_diff _ _ _ _ _ _ HA h other Fh HO) as (ds & Ed & Dr & Dc & _).
        exists (ds :: diffs). cbn [mapM]. rewrite Ed. cbn [bind]. rewrite E. cbn [bind].
        split; [reflexivity|]. intros p. cbn [concat]. rewrite map_app. split.
        + intros (d & Hin & Hp). apply in_app_or in Hin. destruct Hin as [Hin|Hin].
          * apply in_map_iff in Hin. destruct Hin as (r & <- & Hr). destruct (Dr r Hr) as (_ & Hsub & _).
            exists h. split; [now left|now apply Hsub].
          * destruct (proj1 (Hdd p) (ex_intro _ d (conj Hin Hp))) as (g & Hg & Hgp). exists g. split; [now right|assumption].
        + intros (g & [<-|Hg] & Hgp).
          * assert (Hno : ~ inside other p) by (intros Ho; apply (Hd p); split; [now apply Sh|assumption]).
            destruct (proj2 (Dc p) (conj Hgp Hno)) as (r & Hr & [Hrp _]). exists (rexterior r).
            split; [|assumption]. apply in_or_app. left. now apply in_map.
          * destruct (proj2 (Hdd p) (ex_intro _ g (conj Hg Hgp))) as (d & Hin & Hdp). exists d. split; [|assumption].
            apply in_or_app. now right. }
    destruct (G (rinteriors self) ltac:(auto)) as (diffs & Em & Hdd).
    rewrite Em. cbn [bind]. eexists. split; [reflexivity|]. intros p. specialize (Hdd p). split.
    - intros (r & [<-|[]] & [H1 H2]). cbn [rexterior rinteriors] in *. split; [exact H1|].
      intros h Hh Hp. destruct (proj2 Hdd (ex_intro _ h (conj Hh Hp))) as (d & Hin & Hdp). now apply (H2 d).
    - intros [H1 H2]. eexists. split; [now left|]. split; cbn [rexterior rinteriors]; [exact H1|].
      intros d Hin Hdp. destruct (proj1 Hdd (ex_intro _ d (conj Hin Hdp))) as (h & Hh & Hhp). now apply (H2 h).
  Qed.
End Proofs.
