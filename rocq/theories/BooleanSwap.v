(** * The whole boolean operation, and that union and intersection do not depend on the order of the operands *)
From Coq Require Import Reals Lra Lia List Sorted Permutation Bool FunctionalExtensionality.
From Verif Require Import Base BaseFacts Scalar RSum BSplineSpec BSpline KnotModel KnotSpec KnotFacts VecFacts MiscModel CurveModel CurveKnotModel
  CurveSpec CurveProofs SplitModel CompoundModel CompoundCycle BBoxModel BBoxProofs TraversalModel IntersectModel IntersectProofs ClipModel ClipSpec Boolean CompoundArc BooleanCompound BooleanModel.
Import ListNotations.
Local Open Scope R_scope.

Definition to_operand (o : Opd R) : operand := match o with OpCurve c => OCurve c | OpCompound ss => OCompound ss end.
(** the parameters of a crossing *)
Definition params (x : @CHit R) : R * R := (ha_t (snd x), hb_t (snd x)).
Definition flip {A} (x : A * A) : A * A := (snd x, fst x).

Section Lists.
  Context {A : Type} (Q : A -> A -> Prop).
  Hypothesis Qs : forall x y, Q x y -> Q y x.
  Lemma pairs_perm l l' : Permutation l l' -> ForallOrdPairs Q l -> ForallOrdPairs Q l'.
  Proof.
    induction 1 as [|x l l' P IH|x y l|l l' l'' _ I1 _ I2]; intros F; auto.
    - inversion F; subst. constructor; auto. eapply Permutation_Forall; eauto.
    - inversion F as [|? ? F1 F2]; subst. inversion F1; subst. inversion F2; subst. repeat (constructor; auto).
  Qed.
End Lists.
Lemma pairs_map {A B} (f : A -> B) (Q : B -> B -> Prop) l : ForallOrdPairs (fun x y => Q (f x) (f y)) l -> ForallOrdPairs Q (map f l).
Proof. induction 1 as [|a l H _ IH]; cbn; constructor; auto. rewrite Forall_map. exact H. Qed.
Lemma pairs_impl {A} (P Q : A -> A -> Prop) l : (forall x y, In x l -> In y l -> P x y -> Q x y) -> ForallOrdPairs P l -> ForallOrdPairs Q l.
Proof.
  intros H F. induction F as [|a l Fa _ IH]; constructor.
  - rewrite Forall_forall in *. intros y Hy. apply H; [now left|now right|auto].
  - apply IH. intros x y Hx Hy. apply H; now right.
Qed.

Section Real.
  Variables eps maxv : R.
  Local Hint Extern 0 (Scalar R) => exact (ROps eps maxv) : typeclass_instances.
  Local Notation ring := (ring eps maxv).
  Local Notation far := (far eps maxv).
  Local Notation cpoint := (cpoint eps maxv).
  Local Notation boundaries_ok := (boundaries_ok eps maxv).

  (** every crossing is transversal, and their number is even *)
  Definition transversal (hits : list (@CHit R)) : Prop :=
    Forall (fun x => let '(sa, sb, h) := x in degeneracy sa sb (ha_t h) (hb_t h) = Ok DNone) hits /\ Nat.even (length hits) = true.

  Lemma classify_regular hits : transversal hits -> classify hits = Ok (map (fun x => (params x, DNone)) hits).
  Proof.
    intros [F _]. unfold classify. apply mapM_ok. intros [[sa sb] h] Hx. rewrite Forall_forall in F. specialize (F _ Hx). cbn in F. rewrite F. reflexivity.
  Qed.
  Lemma select_regular hits : transversal hits -> clip_select (map (fun x => (params x, DNone : Degeneracy R)) hits) = Ok (map params hits).
  Proof.
    intros [_ E]. unfold clip_select.
    assert (F : filter (@is_regular R (R * R)) (map (fun x => (params x, DNone)) hits) = map (fun x => (params x, DNone)) hits).
    { clear E. induction hits as [|x l IH]; cbn; [reflexivity|]. now rewrite IH. }
    rewrite F, map_map, map_length, E. cbn [fst]. rewrite map_length, E. reflexivity.
  Qed.
  Lemma spans_eq (a : Opd R) : opd_spans a = operand_spans (to_operand a). Proof. now destruct a. Qed.

  Definition traced (rs : list (Region (list (Curve R)))) (p : list R) : Prop := exists r t, In r rs /\ compound_point_at (rexterior r) t = Ok (Some p).
  Definition on_boundary (o : Opd R) (p : list R) : Prop := exists t, compound_point_at (opd_spans o) t = Ok (Some p).

  Section Ops.
    Variable inter : Curve R -> Curve R -> Res (list (@Hit R)).
    Variable contains : Opd R -> list R -> Res bool.

    (** the situation of a boolean operation on two closed boundaries that cross transversally: the crossings [hits] are the ones found, [inA] and [inB] are
        membership in the two regions, the containment tests of the start points are right, and membership changes at the crossings only *)
    Record crossing_case (a b : Opd R) (hits : list (@CHit R)) (inA inB : list R -> bool) : Prop := {
      cc_ring_a : ring (opd_spans a);
      cc_ring_b : ring (opd_spans b);
      cc_found : boolean_hits inter a b = Ok hits;
      cc_some : hits <> [];
      cc_trans : transversal hits;
      cc_ok : boundaries_ok (to_operand a) (to_operand b) (map params hits);
      cc_starts : exists pa pb, opd_first a = Ok pa /\ opd_first b = Ok pb /\ contains b pa = Ok (inB pa) /\ contains a pb = Ok (inA pb) /\
        forall (side : bool) t p, compound_point_at (if side then opd_spans a else opd_spans b) t = Ok (Some p) ->
          (forall x, In x hits -> t <> (if side then fst (params x) else snd (params x))) ->
          Boolean.inside_at (map params hits) (inB pa) (inA pb) side t = (if side then inB else inA) p
    }.

    Theorem boolean_trace op a b hits (inA inB : list R -> bool) : 0 < eps -> crossing_case a b hits inA inB ->
      exists rs, boolean inter contains op a b = Ok rs /\
        Forall (fun r => rinteriors r = [] /\ compound_is_closed (rexterior r) = Ok true) rs /\
        forall p, traced rs p <->
          (exists x, In x hits /\ compound_point_at (opd_spans a) (ha_t (snd x)) = Ok (Some p)) \/
          (on_boundary a p /\ match op with Intersection => inB p = true | Union => inB p = false | Difference => inB p = false end) \/
          (on_boundary b p /\ match op with Intersection => inA p = true | Union => inA p = false | Difference => inA p = true end).
    Proof.
      intros He [Ra Rb Hf Hn Ht Hb (pa & pb & Ea & Eb & Ca & Cb & Hin)].
      assert (Nn : map params hits <> []) by (destruct hits; [congruence|discriminate]).
      assert (EB : boolean inter contains op a b = clip (otrim eps maxv (to_operand a) (to_operand b)) compound_new (operand_spans (to_operand a)) (operand_spans (to_operand b)) op (Ok (inB pa)) (Ok (inA pb)) (map (fun x => (params x, DNone)) hits)).
      { unfold boolean. rewrite Hf. cbn [bind]. rewrite (classify_regular hits Ht). cbn [bind]. rewrite Ea, Eb. cbn [bind]. rewrite Ca, Cb, !spans_eq.
        replace (fun side : bool => opd_trim (if side then a else b)) with (otrim eps maxv (to_operand a) (to_operand b)); [reflexivity|].
        apply functional_extensionality. intros side. unfold otrim, opd. destruct side; [destruct a|destruct b]; reflexivity. }
      rewrite !spans_eq in *.
      destruct (clip_boundary_any eps maxv (to_operand a) (to_operand b) op (inB pa) (inA pb) _ _ He Ra Rb (select_regular hits Ht) Nn Hb) as (rs & E1 & F1 & _).
      destruct (clip_boundary_any_sets eps maxv (to_operand a) (to_operand b) op (inB pa) (inA pb) _ _ inA inB He Ra Rb (select_regular hits Ht) Nn Hb) as (rs' & E2 & T2).
      { intros side t p Hp Hx. apply Hin; [destruct side; exact Hp|]. intros x Hxx. apply (Hx (params x)). now apply in_map. }
      assert (rs' = rs) by congruence. subst rs'. exists rs. split; [now rewrite EB|]. split; [exact F1|]. intros p. unfold traced, on_boundary. rewrite !spans_eq, T2.
      apply or_iff_compat_r. split.
      - intros (x & Hx & Px). apply in_map_iff in Hx as (h & <- & Hh). exists h. auto.
      - intros (h & Hh & Px). exists (params h). split; [now apply in_map|exact Px].
    Qed.

    (** ** Exchanging the operands *)
    Lemma spans_flip a b side : spans b a side = spans a b (negb side). Proof. now destruct side. Qed.
    Lemma par_flip side (x : R * R) : par_of side (flip x) = par_of (negb side) x. Proof. now destruct side. Qed.

    Lemma boundaries_swap a b sel sel' : Permutation sel' (map flip sel) -> boundaries_ok a b sel -> boundaries_ok b a sel'.
    Proof.
      intros P [B1 B2 B3 B4 B5 B6 B7].
      assert (I : forall x, In x sel' -> exists y, In y sel /\ x = flip y).
      { intros x Hx. apply (Permutation_in _ P) in Hx. apply in_map_iff in Hx as (y & <- & Hy). eauto. }
      assert (Cp : forall y, In y sel -> cpoint (spans b a true) (fst (flip y)) = cpoint (spans a b true) (fst y)).
      { intros y Hy. unfold BooleanCompound.cpoint. specialize (B2 y Hy). cbn [flip fst]. rewrite spans_flip. cbn [negb]. now rewrite <- B2. }
      constructor.
      - intros side x Hx. destruct (I x Hx) as (y & Hy & ->). rewrite par_flip, spans_flip. now apply B1.
      - intros x Hx. destruct (I x Hx) as (y & Hy & ->). cbn [flip fst snd]. symmetry. now apply B2.
      - intros side. apply (pairs_perm _ (fun x y H => eq_rect _ (fun z => eps <= z) H _ (Rabs_minus_sym _ _)) _ _ (Permutation_sym P)).
        apply pairs_map. eapply pairs_impl; [|exact (B3 (negb side))]. intros x y _ _ H. now rewrite !par_flip.
      - apply (pairs_perm _ (fun x y H => far_sym eps maxv _ _ H) _ _ (Permutation_sym P)).
        apply pairs_map. eapply pairs_impl; [|exact B4]. intros x y Hx Hy H. rewrite !Cp by auto. exact H.
      - intros side x c Hx Hc. destruct (I x Hx) as (y & Hy & ->). rewrite Cp by exact Hy. rewrite spans_flip in Hc. exact (B5 _ y c Hy Hc).
      - intros side. rewrite spans_flip. apply B6.
      - intros c d Hc Hd. apply far_sym. now apply B7.
    Qed.

    Lemma inside_swap sel sel' ca cb side t : Permutation sel' (map flip sel) -> Boolean.inside_at sel' cb ca side t = Boolean.inside_at sel ca cb (negb side) t.
    Proof.
      intros P. unfold Boolean.inside_at. f_equal; [now destruct side|]. f_equal. unfold passed.
      rewrite (Boolean.perm_filter _ _ _ P), Boolean.filter_map_length. f_equal. apply filter_ext. intros x. now rewrite par_flip.
    Qed.

    Lemma case_swap a b hits hits' inA inB : crossing_case a b hits inA inB -> boolean_hits inter b a = Ok hits' ->
      Permutation (map params hits') (map flip (map params hits)) -> transversal hits' -> crossing_case b a hits' inB inA.
    Proof.
      intros [Ra Rb Hf Hn Ht Hb (pa & pb & Ea & Eb & Ca & Cb & Hin)] Hf' P Ht'. constructor; auto.
      - intros ->. cbn in P. apply Permutation_nil in P. destruct hits; [congruence|discriminate].
      - now apply (boundaries_swap _ _ (map params hits)).
      - exists pb, pa. do 4 (split; [assumption|]). intros side t p Hp Hx. rewrite (inside_swap _ _ _ _ _ _ P).
        specialize (Hin (negb side) t p). destruct side; cbn [negb] in *; apply Hin; auto; intros x Hxx Q;
          (assert (I : In (flip (params x)) (map params hits')) by (apply (Permutation_in _ (Permutation_sym P)), in_map, in_map, Hxx));
          apply in_map_iff in I as (y & Ey & Hy); apply (Hx y Hy); rewrite Ey; exact Q.
    Qed.

    Definition commutes (op : BooleanOperation) : Prop := op <> Difference.

    (** if the crossings found the other way round are the same ones, union and intersection have the same boundary *)
    Theorem boolean_swap op a b hits hits' inA inB : 0 < eps -> commutes op -> crossing_case a b hits inA inB -> boolean_hits inter b a = Ok hits' ->
      Permutation (map params hits') (map flip (map params hits)) -> transversal hits' ->
      exists rs rs', boolean inter contains op a b = Ok rs /\ boolean inter contains op b a = Ok rs' /\ forall p, traced rs p <-> traced rs' p.
    Proof.
      intros He Ho Hc Hf' P Ht'. pose proof (case_swap a b hits hits' inA inB Hc Hf' P Ht') as Hc'.
      destruct (boolean_trace op a b hits inA inB He Hc) as (rs & E & _ & T). destruct (boolean_trace op b a hits' inB inA He Hc') as (rs' & E' & _ & T').
      exists rs, rs'. split; [exact E|]. split; [exact E'|]. intros p. rewrite T, T'.
      pose proof (bo_meet _ _ _ _ _ (cc_ok _ _ _ _ _ Hc)) as M. change (spans (to_operand a) (to_operand b) true) with (operand_spans (to_operand a)) in M. change (spans (to_operand a) (to_operand b) false) with (operand_spans (to_operand b)) in M. rewrite <- !spans_eq in M.
      assert (X : (exists x, In x hits /\ compound_point_at (opd_spans a) (ha_t (snd x)) = Ok (Some p)) <-> (exists x, In x hits' /\ compound_point_at (opd_spans b) (ha_t (snd x)) = Ok (Some p))).
      { split.
        - intros (x & Hx & Px). assert (I : In (flip (params x)) (map params hits')) by (apply (Permutation_in _ (Permutation_sym P)), in_map, in_map, Hx).
          apply in_map_iff in I as (y & Ey & Hy). exists y. split; [exact Hy|]. rewrite <- Px. change (ha_t (snd y)) with (fst (params y)). rewrite Ey. symmetry. exact (M _ (in_map params _ _ Hx)).
        - intros (y & Hy & Py). assert (I : In (params y) (map flip (map params hits))) by (apply (Permutation_in _ P), in_map, Hy).
          apply in_map_iff in I as (z & Ez & Hz). apply in_map_iff in Hz as (x & <- & Hx). exists x. split; [exact Hx|]. rewrite <- Py.
          change (ha_t (snd y)) with (fst (params y)). rewrite <- Ez. exact (M _ (in_map params _ _ Hx)). }
      rewrite X. unfold commutes in Ho. destruct op; [tauto|tauto|congruence].
    Qed.

    (** ** A curve and a compound curve: both ways round the same crossings are found *)
    Lemma lines_sym (l m : Line R) : line_intersects l m = line_intersects m l.
    Proof.
      unfold line_intersects. rewrite (bb_intersects_sym eps maxv 2 (line_rect l) (line_rect m) None). destruct (bb_intersects 2 (line_rect m) (line_rect l) None); cbn [negb]; [|reflexivity].
      destruct (same_side (orientation (lstart l) (lend l) (lstart m)) _), (same_side (orientation (lstart m) (lend m) (lstart l)) _); auto.
      f_equal. rewrite <- !andb_assoc. do 2 destruct (orient_eqb (orientation (lstart l) (lend l) _) Collinear); do 2 destruct (orient_eqb (orientation (lstart m) (lend m) _) Collinear); reflexivity.
    Qed.
    Lemma vdot_sym (x y : list R) : vdot x y = vdot y x.
    Proof.
      unfold vdot. f_equal. revert y. induction x as [|a x IH]; intros [|b y]; cbn [map2]; auto. f_equal; [rs; ring|apply IH].
    Qed.
    Lemma degeneracy_sym (a b : Curve R) ta tb : degeneracy a b ta tb = Ok DNone -> degeneracy b a tb ta = Ok DNone.
    Proof.
      unfold degeneracy. cbv zeta. intros H.
      apply bind_ok in H as (a0 & A0 & H). apply bind_ok in H as (a1 & A1 & H). apply bind_ok in H as (b0 & B0 & H). apply bind_ok in H as (b1 & B1 & H).
      rewrite B0. cbn [bind]. rewrite B1. cbn [bind]. rewrite A0. cbn [bind]. rewrite A1. cbn [bind].
      rewrite lines_sym, (vdot_sym (vnormalize (vsub b1 b0))). exact H.
    Qed.

    Lemma mixed_hits c ss hits : boolean_hits inter (OpCompound ss) (OpCurve c) = Ok hits ->
      exists hits', boolean_hits inter (OpCurve c) (OpCompound ss) = Ok hits' /\ Permutation (map params hits') (map flip (map params hits)) /\
        (transversal hits -> transversal hits') /\ Sorted Rle (map (fun x => ha_t (snd x)) hits').
    Proof.
      intros H. cbn [boolean_hits] in *. rewrite H. cbn [bind]. eexists. split; [reflexivity|]. pose proof (sort_by_perm (@chit_b R) hits) as P.
      assert (E : forall l, map params (map chit_swap l) = map flip (map params l)).
      { intros l. rewrite !map_map. apply map_ext. intros [[x y] h]. reflexivity. }
      split; [rewrite E; apply Permutation_map, Permutation_map, P|]. split.
      - intros [F Ev]. split; [|rewrite map_length, (Permutation_length P); exact Ev].
        apply Forall_map. eapply Permutation_Forall; [symmetry; exact P|]. eapply Forall_impl; [|exact F]. intros [[x y] h] D. apply degeneracy_sym. exact D.
      - rewrite map_map. assert (E2 : map (fun x => ha_t (snd (chit_swap x))) (sort_by (@chit_b R) hits) = map (@chit_b R) (sort_by (@chit_b R) hits)) by (apply map_ext; intros [[x y] h]; reflexivity).
        rewrite E2. pose proof (sort_sorted eps maxv (@chit_b R) hits) as So. apply StronglySorted_Sorted. clear P E E2. induction So as [|a l _ IH Fa]; cbn [map]; [constructor|]. apply SSorted_cons; [exact IH|]. rewrite Forall_map. exact Fa.
    Qed.

    Theorem boolean_swap_mixed op c ss hits inA inB : 0 < eps -> commutes op -> crossing_case (OpCompound ss) (OpCurve c) hits inA inB ->
      exists rs rs', boolean inter contains op (OpCompound ss) (OpCurve c) = Ok rs /\ boolean inter contains op (OpCurve c) (OpCompound ss) = Ok rs' /\ forall p, traced rs p <-> traced rs' p.
    Proof.
      intros He Ho Hc. destruct (mixed_hits c ss hits (cc_found _ _ _ _ _ Hc)) as (hits' & E & P & Tr & _).
      exact (boolean_swap op _ _ hits hits' inA inB He Ho Hc E P (Tr (cc_trans _ _ _ _ _ Hc))).
    Qed.
  End Ops.
End Real.

(** ** Boundaries that do not cross: the same regions, possibly listed in another order *)
Theorem table_swap {CC : Type} (a b : CC) op x y rs : op <> Difference -> clip_table a b op x y = Ok rs ->
  exists rs', clip_table b a op y x = Ok rs' /\ Permutation rs rs'.
Proof. intros Ho. destruct op, x, y; cbn; intros E; inversion E; try congruence; eexists; (split; [reflexivity|]); auto. apply perm_swap. Qed.

(** no crossings found either way round: the whole operation, over any scalars *)
Theorem boolean_swap_disjoint {T : Type} {SO : Scalar T} inter contains op (a b : Opd T) rs : op <> Difference ->
  boolean_hits inter a b = Ok [] -> boolean_hits inter b a = Ok [] -> boolean inter contains op a b = Ok rs ->
  exists rs', boolean inter contains op b a = Ok rs' /\ Permutation rs rs'.
Proof.
  intros Ho Ha Hb. unfold boolean. rewrite Ha, Hb. cbn [bind]. unfold classify. cbn [mapM bind]. unfold clip.
  destruct (clip_select []) as [sel| | |] eqn:S; cbn [bind]; try discriminate. vm_compute in S. inversion S. subst sel.
  destruct (opd_first a) as [p| | |]; cbn [bind]; try discriminate. destruct (contains b p) as [y| | |]; cbn [bind]; try discriminate.
  destruct (opd_first b) as [q| | |]; cbn [bind]; try discriminate. destruct (contains a q) as [x| | |]; cbn [bind]; try discriminate.
  now apply table_swap.
Qed.
