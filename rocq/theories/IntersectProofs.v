(** * Sorting, grouping and choosing the hits; the hits are genuine *)
From Coq Require Import Reals Lra Lia ZArith List Permutation Sorted.
From Verif Require Import Base BaseFacts Scalar KnotModel CurveModel SurfaceModel CompoundModel BBoxModel TraversalModel IntersectModel KnotFacts.
Import ListNotations.

Section Any.
  Context {T : Type} {SO : Scalar T}.
  Open Scope scalar_scope.

  Section Finish.
    Context {H : Type}.
    Variables (key : H -> T) (near : H -> H -> bool) (gap : H -> T).

    Lemma insert_by_perm x l : Permutation (insert_by key x l) (x :: l).
    Proof.
      induction l as [|y t IH]; cbn [insert_by]; [reflexivity|]. destruct (key y <? key x); [|reflexivity].
      rewrite IH. apply perm_swap.
    Qed.
    Lemma sort_by_perm l : Permutation (sort_by key l) l.
    Proof. induction l as [|x t IH]; cbn; [reflexivity|]. rewrite insert_by_perm. now constructor. Qed.

    (** ** Groups *)
    Fixpoint run (l : list H) : Prop :=
      match l with
      | x :: t => match t with y :: _ => near x y = true | [] => True end /\ run t
      | [] => True
      end.
    Inductive blocks : list (list H) -> Prop :=
    | bl_nil : blocks []
    | bl_one g x : run (g ++ [x]) -> blocks [g ++ [x]]
    | bl_cons g x y g' gs : run (g ++ [x]) -> near x y = false -> blocks ((y :: g') :: gs) -> blocks ((g ++ [x]) :: (y :: g') :: gs).

    Lemma run_snoc g x y : run (g ++ [x]) -> near x y = true -> run ((g ++ [x]) ++ [y]).
    Proof.
      induction g as [|z g IH]; cbn [run app]; intros R N; [auto|]. destruct R as (Rz & R). split; [|now apply IH].
      destruct g; exact Rz.
    Qed.

    Lemma coalesce_from_spec l : forall g x, run (g ++ [x]) ->
      exists g1 gs, coalesce_from near (g ++ [x]) x l = ((g ++ [x]) ++ g1) :: gs /\ blocks (((g ++ [x]) ++ g1) :: gs) /\
        concat (((g ++ [x]) ++ g1) :: gs) = (g ++ [x]) ++ l.
    Proof.
      induction l as [|y t IH]; intros g x R; cbn [coalesce_from].
      - exists [], []. rewrite app_nil_r. split; [reflexivity|]. split; [now constructor|]. cbn. now rewrite !app_nil_r.
      - destruct (near x y) eqn:N.
        + destruct (IH (g ++ [x]) y (run_snoc _ _ _ R N)) as (g1 & gs & E & B & C).
          exists (y :: g1), gs. rewrite E. rewrite <- !app_assoc in *. cbn [app] in *. auto.
        + destruct (IH [] y) as (g1 & gs & E & B & C); [cbn; auto|]. cbn [app] in E, B, C.
          exists [], ((y :: g1) :: gs). rewrite app_nil_r. rewrite E. split; [reflexivity|].
          split; [now constructor|]. cbn [concat] in *. now rewrite C.
    Qed.

    Lemma coalesce_spec l : blocks (coalesce near l) /\ concat (coalesce near l) = l.
    Proof.
      destruct l as [|x t]; cbn [coalesce]; [split; [constructor|reflexivity]|].
      destruct (coalesce_from_spec t [] x) as (g1 & gs & E & B & C); [cbn; auto|]. cbn [app] in E, B, C. rewrite E. auto.
    Qed.

    (** ** Representatives *)
    Lemma pick_min_in (A : Type) (l : list (T * A)) : forall x, In (fold_left pick_min l x) (x :: l).
    Proof.
      induction l as [|y t IH]; intros x; cbn [fold_left]; [now left|].
      destruct (IH (pick_min x y)) as [E|E]; [|now right; right]. rewrite <- E. unfold pick_min.
      destruct (fst y <? fst x); cbn; auto.
    Qed.
    Lemma representative_in g x : representative gap g = Some x -> In x g.
    Proof.
      unfold representative. intros E.
      assert (M : forall g, match min_by (map (fun x => (gap x, x)) g) with Some m => Some (snd m) | None => None end = Some x -> In x g).
      { clear. intros g E. destruct g as [|a t]; [discriminate|]. cbn [map min_by] in E. injection E as E. subst x.
        pose proof (pick_min_in _ (map (fun x => (gap x, x)) t) (gap a, a)) as P.
        change (In (fold_left pick_min (map (fun x => (gap x, x)) t) (gap a, a)) (map (fun x => (gap x, x)) (a :: t))) in P.
        apply in_map_iff in P. destruct P as (z & Ez & Hz). rewrite <- Ez. exact Hz. }
      destruct g as [|a [|b t]]; [now apply M|injection E as <-; now left|now apply M].
    Qed.
    Lemma representative_some g : g <> [] -> exists x, representative gap g = Some x.
    Proof. destruct g as [|a [|b t]]; cbn; intros N; [easy|eauto|eauto]. Qed.

    Lemma blocks_nonempty gs : blocks gs -> Forall (fun g => g <> []) gs.
    Proof.
      assert (N0 : forall (g : list H) x, g ++ [x] <> []) by (intros [|z g] x; discriminate).
      induction 1 as [|g x R|g x y g' gs R N B IH]; [constructor|constructor; [apply N0|constructor]|constructor; [apply N0|assumption]].
    Qed.
    Lemma representatives_spec gs : Forall (fun g => g <> []) gs ->
      Forall2 (fun g x => representative gap g = Some x) gs (representatives gap gs).
    Proof.
      induction 1 as [|g gs Hg _ IH]; cbn [representatives]; [constructor|].
      destruct (representative_some g Hg) as (x & E). rewrite E. now constructor.
    Qed.

    Theorem finish_subset l x : In x (finish key near gap l) -> In x l.
    Proof.
      unfold finish. intros Hx. destruct (coalesce_spec (sort_by key l)) as (B & C).
      pose proof (representatives_spec _ (blocks_nonempty _ B)) as F.
      apply (Permutation_in x (sort_by_perm l)). rewrite <- C. clear - F Hx.
      induction F as [|g y gs ys E F IH]; [easy|]. cbn [concat]. apply in_or_app. destruct Hx as [<-|Hx]; [left|right; auto].
      now apply representative_in.
    Qed.

    Lemma finish_nonempty l : l <> [] -> finish key near gap l <> [].
    Proof.
      unfold finish. intros N E. destruct (coalesce_spec (sort_by key l)) as (B & C).
      pose proof (representatives_spec _ (blocks_nonempty _ B)) as F. rewrite E in F. inversion F as [E0|]. rewrite <- E0 in C. cbn in C.
      pose proof (sort_by_perm l) as P. rewrite <- C in P. apply Permutation_nil in P. contradiction.
    Qed.
  End Finish.

  (** ** Hits are genuine, whatever the solver answers and whatever the arithmetic *)
  Lemma keep_some_in {A : Type} (l : list (option A)) x : In x (keep_some l) <-> In (Some x) l.
  Proof.
    induction l as [|[y|] t IH]; cbn [keep_some In]; [tauto| |]; rewrite IH.
    - split; (intros [E|E]; [left; congruence|now right]).
    - split; [now right|intros [E|E]; [discriminate|assumption]].
  Qed.

  Lemma mapM_in {A B : Type} (f : A -> Res B) l r : mapM f l = Ok r -> forall y, In y r -> exists x, In x l /\ f x = Ok y.
  Proof.
    revert r. induction l as [|a t IH]; intros r E y Hy; cbn in E; [injection E as <-; easy|].
    apply bind_ok in E. destruct E as (b & Eb & E). apply bind_ok in E. destruct E as (bs & Ebs & E). injection E as <-.
    destruct Hy as [<-|Hy]; [exists a; split; [now left|assumption]|]. destruct (IH _ Ebs y Hy) as (x & Hx & Ex). exists x. split; [now right|assumption].
  Qed.

  (** the intended meaning of a reported hit of two curves *)
  Definition genuine (a b : Curve T) (min : T) (h : Hit) : Prop :=
    exists a0 a1 b0 b1, knots_domain a = Ok (a0, a1) /\ knots_domain b = Ok (b0, b1) /\
      (a0 <=? ha_t h) = true /\ (ha_t h <=? a1) = true /\ (b0 <=? hb_t h) = true /\ (hb_t h <=? b1) = true /\
      point_at a (ha_t h) = Ok (ha_p h) /\ point_at b (hb_t h) = Ok (hb_p h) /\ (vnorm (vsub (ha_p h) (hb_p h)) <? min) = true.

  Lemma cc_candidate_genuine solve a b da db min ca cb h : knots_domain a = Ok da -> knots_domain b = Ok db ->
    cc_candidate solve a b da db min ca cb = Ok (Some h) -> genuine a b min h.
  Proof.
    intros Ea Eb E. unfold cc_candidate in E. apply bind_ok in E. destruct E as ([(ta, tb)|] & _ & E); [|discriminate].
    unfold in_range in E. destruct ((fst da <=? ta) && (ta <=? snd da)) eqn:Ra; [|discriminate].
    destruct ((fst db <=? tb) && (tb <=? snd db)) eqn:Rb; [|discriminate]. cbn [andb] in E.
    apply bind_ok in E. destruct E as (p0 & E0 & E). apply bind_ok in E. destruct E as (p1 & E1 & E).
    destruct (vnorm (vsub p0 p1) <? min) eqn:Em; [|discriminate]. injection E as <-.
    apply andb_prop in Ra. apply andb_prop in Rb. destruct da as (a0, a1), db as (b0, b1). cbn [fst snd] in *.
    exists a0, a1, b0, b1. cbn [ha_t ha_p hb_t hb_p]. tauto.
  Qed.

  Lemma cc_refine_genuine solve a b min pairs hits : cc_refine solve a b min pairs = Ok hits -> Forall (genuine a b min) hits.
  Proof.
    unfold cc_refine. intros E. apply bind_ok in E. destruct E as (da & Ea & E). apply bind_ok in E. destruct E as (db & Eb & E).
    apply bind_ok in E. destruct E as (raw & Er & E). injection E as <-. apply Forall_forall. intros h Hh.
    apply finish_subset, keep_some_in in Hh. destruct (mapM_in _ _ _ Er _ Hh) as ((ca, cb) & _ & Ec).
    exact (cc_candidate_genuine _ _ _ _ _ _ _ _ _ Ea Eb Ec).
  Qed.

  Theorem cc_intersections_genuine solve rng fuel a b o hits :
    cc_intersections solve rng fuel a b o = Ok hits -> Forall (genuine a b (op_min o)) hits.
  Proof.
    unfold cc_intersections. intros E. do 5 (apply bind_ok in E; destruct E as (? & _ & E)). exact (cc_refine_genuine _ _ _ _ _ _ E).
  Qed.

  (** the same for a surface and a curve *)
  Definition sgenuine (s : Surf T) (b : Curve T) (min : T) (h : SHit) : Prop :=
    exists u0 u1 v0 v1 b0 b1, surf_domain s = Ok ((u0, u1), (v0, v1)) /\ knots_domain b = Ok (b0, b1) /\
      (u0 <=? fst (sh_uv h)) = true /\ (fst (sh_uv h) <=? u1) = true /\ (v0 <=? snd (sh_uv h)) = true /\ (snd (sh_uv h) <=? v1) = true /\
      (b0 <=? sh_t h) = true /\ (sh_t h <=? b1) = true /\
      surf_point_at s (fst (sh_uv h)) (snd (sh_uv h)) = Ok (sh_p h) /\ point_at b (sh_t h) = Ok (sh_q h) /\
      (vnorm (vsub (sh_p h) (sh_q h)) <? min) = true.

  Lemma sc_candidate_genuine solve s b du dv db min cs cb h : surf_domain s = Ok (du, dv) -> knots_domain b = Ok db ->
    sc_candidate solve s b du dv db min cs cb = Ok (Some h) -> sgenuine s b min h.
  Proof.
    intros Es Eb E. unfold sc_candidate in E. apply bind_ok in E. destruct E as ([(t, (u, v))|] & _ & E); [|discriminate].
    unfold in_range in E. destruct ((fst du <=? u) && (u <=? snd du)) eqn:Ru; [|discriminate].
    destruct ((fst dv <=? v) && (v <=? snd dv)) eqn:Rv; [|discriminate].
    destruct ((fst db <=? t) && (t <=? snd db)) eqn:Rb; [|discriminate]. cbn [andb] in E.
    apply bind_ok in E. destruct E as (p0 & E0 & E). apply bind_ok in E. destruct E as (p1 & E1 & E).
    destruct (vnorm (vsub p0 p1) <? min) eqn:Em; [|discriminate]. injection E as <-.
    apply andb_prop in Ru. apply andb_prop in Rv. apply andb_prop in Rb. destruct du as (a0, a1), dv as (c0, c1), db as (b0, b1). cbn [fst snd] in *.
    exists a0, a1, c0, c1, b0, b1. cbn [sh_uv sh_p sh_q sh_t fst snd]. tauto.
  Qed.

  Lemma sc_refine_genuine solve s b min pairs hits : sc_refine solve s b min pairs = Ok hits -> Forall (sgenuine s b min) hits.
  Proof.
    unfold sc_refine. intros E. apply bind_ok in E. destruct E as ((du, dv) & Ea & E). apply bind_ok in E. destruct E as (db & Eb & E).
    apply bind_ok in E. destruct E as (raw & Er & E). injection E as <-. apply Forall_forall. intros h Hh.
    apply finish_subset, keep_some_in in Hh. destruct (mapM_in _ _ _ Er _ Hh) as ((ca, cb) & _ & Ec).
    exact (sc_candidate_genuine _ _ _ _ _ _ _ _ _ _ Ea Eb Ec).
  Qed.

  Theorem sc_intersections_genuine solve rng fuel s b o hits :
    sc_intersections solve rng fuel s b o = Ok hits -> Forall (sgenuine s b (op_min o)) hits.
  Proof.
    unfold sc_intersections. intros E. apply bind_ok in E. destruct E as ((iu, iv) & _ & E).
    do 4 (apply bind_ok in E; destruct E as (? & _ & E)). exact (sc_refine_genuine _ _ _ _ _ _ E).
  Qed.

  (** ** Compound curves *)
  (** the last hit of a span is within the seam tolerance of the span's end, the first hit of the next within it of its start *)
  Definition at_seam (la lb : list CHit) : Prop :=
    exists l0 sa oa ha sb ob hb l1 a0 a1 b0 b1,
      la = l0 ++ [(sa, oa, ha)] /\ lb = (sb, ob, hb) :: l1 /\ knots_domain sa = Ok (a0, a1) /\ knots_domain sb = Ok (b0, b1) /\
      (sabs (a1 - ha_t ha) <? sone / sofz 100) = true /\ (sabs (b0 - ha_t hb) <? sone / sofz 100) = true.

  Lemma last_some {A : Type} (l : list A) x : last (map Some l) None = Some x -> exists l0, l = l0 ++ [x].
  Proof.
    destruct l as [|y l] using rev_ind; [discriminate|]. rewrite map_app. cbn [map]. rewrite last_last. intros E. injection E as <-. eauto.
  Qed.

  Lemma seam_cull_spec la lb c : seam_cull la lb = Ok c -> (c = true <-> at_seam la lb).
  Proof.
    unfold seam_cull. intros E. destruct (last (map Some la) None) as [((sa, oa), ha)|] eqn:El.
    - apply last_some in El. destruct El as (l0 & El). destruct lb as [|((sb, ob), hb) l1].
      + injection E as <-. split; [discriminate|]. intros (? & ? & ? & ? & ? & ? & ? & ? & ? & ? & ? & ? & ? & E & _). discriminate.
      + apply bind_ok in E. destruct E as ((a0, a1) & Ea & E). apply bind_ok in E. destruct E as ((b0, b1) & Eb & E). injection E as <-.
        rewrite Bool.andb_true_iff. split.
        * intros (H1 & H2). exists l0, sa, oa, ha, sb, ob, hb, l1, a0, a1, b0, b1. auto 10.
        * intros (l0' & sa' & oa' & ha' & sb' & ob' & hb' & l1' & a0' & a1' & b0' & b1' & E1 & E2 & E3 & E4 & E5 & E6).
          rewrite El in E1. apply app_inj_tail in E1. destruct E1 as (_ & E1). injection E1 as <- <- <-. injection E2 as <- <- <- <-.
          rewrite Ea in E3. rewrite Eb in E4. injection E3 as <- <-. injection E4 as <- <-. auto.
    - assert (Ec : c = false) by (now injection E as <-). subst c. split; [discriminate|].
      intros (l0 & sa & oa & ha & ? & ? & ? & ? & ? & ? & ? & ? & E1 & _). subst la.
      rewrite map_app in El. cbn [map] in El. rewrite last_last in El. discriminate.
  Qed.

  (** what the culling leaves of a span *)
  Definition culled (la lb la' : list CHit) : Prop := (at_seam la lb /\ la' = removelast la) \/ (~ at_seam la lb /\ la' = la).

  Local Open Scope nat_scope.
  Lemma cull_step_inv n a (res res' : list (list CHit)) : length res = n -> a < n -> cull_step n a res = Ok res' -> 1 < n ->
    length res' = n /\ culled (nth a res []) (nth (if S a =? n then 0 else S a) res []) (nth a res' []) /\
    forall i, i <> a -> nth i res' [] = nth i res [].
  Proof.
    intros Hl Ha E Hn. unfold cull_step in E. set (b := if S a =? n then 0 else S a) in *.
    assert (Hb : a <> b) by (unfold b; destruct (Nat.eqb_spec (S a) n); lia).
    destruct (Nat.eqb_spec a b) as [Hab|_]; [contradiction|].
    apply bind_ok in E. destruct E as (la & Ela & E). apply bind_ok in E. destruct E as (lb & Elb & E). apply bind_ok in E. destruct E as (c & Ec & E).
    apply get_inv in Ela. destruct Ela as (_ & Ela). apply get_inv in Elb. destruct Elb as (_ & Elb).
    rewrite <- (Ela []), <- (Elb []). apply seam_cull_spec in Ec. destruct c.
    - apply set_inv in E. destruct E as (_ & ->). split; [now rewrite upd_length|]. split.
      + left. split; [now apply Ec|]. apply nth_upd_same. lia.
      + intros i Hi. now apply nth_upd_other.
    - injection E as <-. split; [assumption|]. split; [|auto]. right. split; [|now rewrite (Ela [])]. intros A. apply Ec in A. discriminate.
  Qed.

  (** every span loses at most its last hit: span i against the hits of span i+1, the last span against what is left of the first *)
  Lemma cull_seams_spec (res res' : list (list CHit)) : cull_seams res = Ok res' -> 1 < length res ->
    length res' = length res /\
    (forall i, S i < length res -> culled (nth i res []) (nth (S i) res []) (nth i res' [])) /\
    culled (nth (length res - 1) res []) (nth 0 res' []) (nth (length res - 1) res' []).
  Proof.
    intros E Hn. unfold cull_seams in E. set (n := length res) in *.
    assert (I : length res' = n /\ (forall i, S i < n -> i < n -> culled (nth i res []) (nth (S i) res []) (nth i res' [])) /\
      (n - 1 < n -> culled (nth (n - 1) res []) (nth 0 res' []) (nth (n - 1) res' [])) /\ (forall i, n <= i -> nth i res' [] = nth i res [])).
    { unfold for_range in E. rewrite Nat.sub_0_r in E.
      refine (for_partial (fun k r => length r = n /\ (forall i, S i < n -> i < k -> culled (nth i res []) (nth (S i) res []) (nth i r [])) /\
        (n - 1 < k -> culled (nth (n - 1) res []) (nth 0 r []) (nth (n - 1) r [])) /\ (forall i, k <= i -> nth i r [] = nth i res [])) _ _ _ _ _ _ _ E).
      - cbn beta. split; [reflexivity|]. split; [intros; lia|]. split; [intros; lia|auto].
      - intros k r r' Hk (L & H1 & H2 & H3) Es. cbn in Hk. cbn beta.
        destruct (cull_step_inv n k r r' L ltac:(lia) Es Hn) as (L' & C & O).
        split; [assumption|]. split; [|split].
        + intros i Hi Hi'. destruct (Nat.eq_dec i k) as [->|Hne].
          * destruct (Nat.eqb_spec (S k) n); [lia|]. rewrite (H3 k), (H3 (S k)) in C by lia. exact C.
          * rewrite O by assumption. apply H1; lia.
        + intros Hlast. assert (k = n - 1) by lia. subst k. destruct (Nat.eqb_spec (S (n - 1)) n); [|lia].
          rewrite (H3 (n - 1)) in C by lia. rewrite (O 0) by lia. exact C.
        + intros i Hi. rewrite O by lia. apply H3. lia. }
    destruct I as (L & H1 & H2 & _). split; [assumption|]. split; [intros i Hi; apply H1; lia|apply H2; lia].
  Qed.

  Definition span_hits (inter : Curve T -> Curve T -> Res (list Hit)) (other span : Curve T) (l : list CHit) : Prop :=
    exists hits, inter span other = Ok hits /\ l = map (fun h => (span, other, h)) hits.

  (** the hits of a compound curve with a curve are those of its spans, except that the last hit of a span is dropped at a seam *)
  Theorem compound_hits inter spans other out : compound_x_curve inter spans other = Ok out ->
    exists raw kept, Forall2 (span_hits inter other) spans raw /\ out = concat kept /\ length kept = length spans /\
      (length spans <= 1 -> kept = raw) /\
      (forall i, S i < length spans -> culled (nth i raw []) (nth (S i) raw []) (nth i kept [])) /\
      (1 < length spans -> culled (nth (length spans - 1) raw []) (nth 0 kept []) (nth (length spans - 1) kept [])).
  Proof.
    unfold compound_x_curve. intros E. apply bind_ok in E. destruct E as (raw & Er & E). apply bind_ok in E. destruct E as (kept & Ek & E).
    injection E as <-. exists raw, kept.
    assert (F : Forall2 (span_hits inter other) spans raw).
    { clear Ek. revert raw Er. induction spans as [|c t IH]; intros raw Er; cbn in Er; [injection Er as <-; constructor|].
      apply bind_ok in Er. destruct Er as (l & El & Er). apply bind_ok in El. destruct El as (its & Ei & El). injection El as <-.
      apply bind_ok in Er. destruct Er as (ls & Els & Er). injection Er as <-. constructor; [|now apply IH]. exists its. auto. }
    assert (Hlen : length raw = length spans) by (symmetry; exact (Forall2_len _ _ _ F)).
    split; [assumption|]. split; [reflexivity|]. destruct (le_lt_dec (length spans) 1) as [Hn|Hn].
    - assert (kept = raw).
      { unfold cull_seams in Ek. destruct raw as [|r [|r' raw]]; cbn in Ek, Hlen; [congruence|congruence|lia]. }
      subst kept. split; [assumption|]. split; [auto|]. split; intros; lia.
    - change (@length (list CHit) raw = length spans) in Hlen.
      destruct (cull_seams_spec raw kept Ek ltac:(lia)) as (L & H1 & H2). rewrite Hlen in L, H1, H2.
      split; [assumption|]. split; [intros; lia|]. split; [assumption|]. intros _. exact H2.
  Qed.

  Lemma in_concat_nth {A : Type} (l : list (list A)) x : In x (concat l) <-> exists i, i < length l /\ In x (nth i l []).
  Proof.
    rewrite in_concat. split.
    - intros (y & Hy & Hx). destruct (In_nth l y [] Hy) as (i & Hi & <-). eauto.
    - intros (i & Hi & Hx). exists (nth i l []). split; [now apply nth_In|assumption].
  Qed.
  Lemma removelast_in {A : Type} (l : list A) x : In x (removelast l) -> In x l.
  Proof. destruct l as [|y l] using rev_ind; [easy|]. rewrite removelast_last. intros. apply in_or_app. now left. Qed.

  (** every reported hit is one of a span of the compound curve *)
  Theorem compound_hits_sound inter spans other out : compound_x_curve inter spans other = Ok out ->
    forall s o h, In (s, o, h) out -> In s spans /\ o = other /\ exists hits, inter s other = Ok hits /\ In h hits.
  Proof.
    intros E s o h Hin. destruct (compound_hits _ _ _ _ E) as (raw & kept & F & -> & Lk & K1 & K2 & K3).
    apply in_concat_nth in Hin. destruct Hin as (i & Hi & Hin). unfold CHit in *. rewrite Lk in Hi.
    assert (Hraw : In (s, o, h) (nth i raw [])).
    { destruct (le_lt_dec (length spans) 1) as [Hn|Hn]; [rewrite <- K1 by assumption; exact Hin|].
      assert (C : exists lb, culled (nth i raw []) lb (nth i kept [])).
      { destruct (le_lt_dec (length spans) (S i)).
        - replace i with (length spans - 1) by lia. eexists. apply K3. lia.
        - eexists. apply K2. lia. }
      destruct C as (lb & [(_ & C)|(_ & C)]); rewrite C in Hin; [now apply removelast_in|assumption]. }
    assert (Hs : exists c, nth_error spans i = Some c /\ span_hits inter other c (nth i raw [])).
    { clear - F Hi. revert i Hi. induction F as [|c l spans raw Hc F IH]; intros i Hi; cbn in Hi; [lia|].
      destruct i as [|i]; cbn; [eauto|]. apply IH. lia. }
    destruct Hs as (c & Ec & hits & Eh & El). rewrite El in Hraw. apply in_map_iff in Hraw. destruct Hraw as (h' & Eq & Hh').
    injection Eq as -> <- ->. split; [exact (nth_error_In _ _ Ec)|]. split; [reflexivity|]. eauto.
  Qed.

  (** a hit is only ever dropped within the seam tolerance of the end of its span *)
  Theorem compound_keeps_hits inter spans other out : compound_x_curve inter spans other = Ok out ->
    forall s hits h d0 d1, In s spans -> inter s other = Ok hits -> In h hits -> knots_domain s = Ok (d0, d1) ->
      (sabs (d1 - ha_t h) <? sone / sofz 100)%S = false -> In (s, other, h) out.
  Proof.
    intros E s hits h d0 d1 Hs Eh Hh Ed Hf. destruct (compound_hits _ _ _ _ E) as (raw & kept & F & -> & Lk & K1 & K2 & K3).
    destruct (In_nth spans s s Hs) as (i & Hi & Ei).
    assert (Er : nth i raw [] = map (fun h => (s, other, h)) hits).
    { clear - F Hi Ei Eh. revert i Hi Ei. generalize s at 1. intros dflt. revert dflt. induction F as [|c l spans raw (hs & Ehs & ->) F IH]; intros dflt i Hi Ei; cbn in Hi; [lia|].
      destruct i as [|i]; cbn in *; [subst c; congruence|]. apply (IH dflt); [lia|assumption]. }
    assert (Hin : In (s, other, h) (nth i raw [])) by (rewrite Er; apply in_map_iff; eauto).
    apply in_concat_nth. exists i. unfold CHit in *. split; [lia|].
    destruct (le_lt_dec (length spans) 1) as [Hn|Hn]; [rewrite (K1 Hn); exact Hin|].
    assert (C : exists lb, culled (nth i raw []) lb (nth i kept [])).
    { destruct (le_lt_dec (length spans) (S i)).
      - replace i with (length spans - 1) by lia. eexists. apply K3. lia.
      - eexists. apply K2. lia. }
    destruct C as (lb & [(A & C)|(_ & C)]); rewrite C; [|assumption].
    destruct A as (l0 & sa & oa & ha & sb & ob & hb & l1 & a0 & a1 & b0 & b1 & E1 & E2 & E3 & E4 & E5 & E6).
    rewrite E1 in Hin |- *. rewrite removelast_last. apply in_app_or in Hin. destruct Hin as [Hin|[Hin|[]]]; [assumption|].
    injection Hin as -> -> ->. rewrite Ed in E3. injection E3 as <- <-. rewrite Hf in E5. discriminate.
  Qed.

  (** two compound curves: every hit belongs to a span of each *)
  Theorem compounds_hits_sound inter spans others out : compound_x_compound inter spans others = Ok out ->
    forall s o h, In (s, o, h) out -> In s spans /\ In o others /\ exists hits, inter s o = Ok hits /\ In h hits.
  Proof.
    unfold compound_x_compound. intros E s o h Hin. apply bind_ok in E. destruct E as (res & Er & E). injection E as <-.
    apply in_concat in Hin. destruct Hin as (l & Hl & Hin). destruct (mapM_in _ _ _ Er l Hl) as (c & Hc & Ec).
    destruct (compound_hits_sound _ _ _ _ Ec s o h Hin) as (H1 & -> & H2). auto.
  Qed.
End Any.

Section Real.
  Variables eps maxv : R.
  Local Hint Extern 0 (Scalar R) => exact (ROps eps maxv) : typeclass_instances.
  Local Open Scope R_scope.

  Section Order.
    Context {H : Type}.
    Variables (key : H -> R) (near : H -> H -> bool) (gap : H -> R) (d : R).

    Lemma insert_sorted x l : StronglySorted (fun a b => key a <= key b) l -> StronglySorted (fun a b => key a <= key b) (insert_by key x l).
    Proof.
      induction 1 as [|y t S IH F]; cbn [insert_by]; [repeat constructor|]. rs. destruct (Rltb_spec (key y) (key x)) as [L|L].
      - constructor; [assumption|]. apply Forall_forall. intros z Hz. apply (Permutation_in z (insert_by_perm key x t)) in Hz.
        destruct Hz as [<-|Hz]; [lra|]. rewrite Forall_forall in F. auto.
      - constructor; [constructor; assumption|]. constructor; [lra|]. eapply Forall_impl; [|exact F]. cbn. intros; lra.
    Qed.
    Lemma sort_sorted l : StronglySorted (fun a b => key a <= key b) (sort_by key l).
    Proof. induction l as [|x t IH]; cbn; [constructor|now apply insert_sorted]. Qed.

    Lemma sorted_app (l1 l2 : list H) : StronglySorted (fun a b => key a <= key b) (l1 ++ l2) ->
      StronglySorted (fun a b => key a <= key b) l1 /\ StronglySorted (fun a b => key a <= key b) l2 /\ forall x y, In x l1 -> In y l2 -> key x <= key y.
    Proof.
      induction l1 as [|a t IH]; cbn [app]; intros S.
      - split; [constructor|]. split; [assumption|easy].
      - inversion S as [|? ? S' F]; subst. destruct (IH S') as (S1 & S2 & L). rewrite Forall_forall in F. split.
        + constructor; [assumption|]. apply Forall_forall. intros z Hz. apply F. apply in_or_app. now left.
        + split; [assumption|]. intros x y [<-|Hx] Hy; [apply F; apply in_or_app; now right|auto].
    Qed.

    Hypothesis far : forall x y, near x y = false -> d <= Rabs (key x - key y).

    Lemma blocks_apart gs : blocks near gs -> StronglySorted (fun a b => key a <= key b) (concat gs) -> 0 <= d ->
      StronglySorted (fun g g' => forall x y, In x g -> In y g' -> key x + d <= key y) gs.
    Proof.
      intros B S Hd. induction B as [|g x R|g x y g' gs R N B IH]; [constructor|repeat constructor|].
      cbn [concat] in S, IH. apply sorted_app in S. destruct S as (S1 & S2 & L). specialize (IH S2). constructor; [exact IH|].
      apply sorted_app in S1. destruct S1 as (_ & _ & Lx). pose proof (far x y N) as Hf.
      assert (Hxy : key x + d <= key y).
      { pose proof (L x y ltac:(apply in_or_app; right; now left) ltac:(cbn; now left)). rewrite Rabs_left1 in Hf by lra. lra. }
      assert (Hy : forall z, In z ((y :: g') ++ concat gs) -> key y <= key z).
      { cbn [app] in S2 |- *. inversion S2 as [|? ? ? F]; subst. intros z [<-|Hz]; [lra|]. rewrite Forall_forall in F. auto. }
      assert (Hg : forall z, In z (g ++ [x]) -> key z <= key x).
      { intros z Hz. apply in_app_or in Hz. destruct Hz as [Hz|[<-|[]]]; [apply Lx; [assumption|now left]|lra]. }
      apply Forall_forall. intros g2 Hg2 a b Ha Hb.
      assert (Hb' : key y <= key b).
      { apply Hy. destruct Hg2 as [<-|Hg2]; apply in_or_app; [now left|right]. apply in_concat. eauto. }
      specialize (Hg a Ha). lra.
    Qed.

    (** reported hits are in order and at least [d] apart *)
    Theorem finish_apart l : 0 <= d -> StronglySorted (fun x y => key x + d <= key y) (finish key near gap l).
    Proof.
      intros Hd. unfold finish. destruct (coalesce_spec near (sort_by key l)) as (B & C).
      pose proof (representatives_spec gap _ (blocks_nonempty _ _ B)) as F.
      assert (S : StronglySorted (fun g g' => forall x y, In x g -> In y g' -> key x + d <= key y) (coalesce near (sort_by key l))).
      { apply blocks_apart; [assumption|rewrite C; apply sort_sorted|assumption]. }
      clear B C. induction F as [|g x gs xs E F IH]; [constructor|]. inversion S as [|? ? S' A]; subst. constructor; [auto|].
      apply representative_in in E. clear IH S S'. induction F as [|g' y gs ys E' F IH]; [constructor|].
      inversion A as [|? ? A1 A2]; subst. constructor; [|now apply IH]. apply A1; [assumption|now apply (representative_in gap)].
    Qed.
  End Order.

  Section Cover.
    Context {H : Type}.
    Variables (key : H -> R) (near : H -> H -> bool) (gap : H -> R).

    (** two hits joined by a chain of near hits *)
    Inductive chain (l : list H) : H -> H -> Prop :=
    | ch_refl x : In x l -> chain l x x
    | ch_step x y z : chain l x y -> In z l -> near y z = true \/ near z y = true -> chain l x z.

    Lemma run_chain (P : list H) l : run near l -> (forall x, In x l -> In x P) -> forall x y, In x l -> In y l -> chain P x y.
    Proof.
      intros R HP.
      assert (Hd : forall t a, run near (a :: t) -> (forall x, In x (a :: t) -> In x P) -> forall y, In y (a :: t) -> chain P a y /\ chain P y a).
      { induction t as [|b t IH]; intros a (Ra & R') HP' y Hy.
        - destruct Hy as [<-|[]]. split; constructor; apply HP'; now left.
        - destruct Hy as [<-|Hy]; [split; constructor; apply HP'; now left|].
          destruct (IH b R' ltac:(intros; apply HP'; now right) y Hy) as (C1 & C2). split; [|eapply ch_step; [exact C2|apply HP'; now left|now right]].
          assert (T : forall u v, chain P u v -> near a u = true -> In u P -> chain P a v).
          { intros u v Huv. induction Huv as [u Hu|u v w Huv IHc Hw Hn]; intros N Hu'.
            - eapply ch_step; [constructor; apply HP'; now left|assumption|now left].
            - eapply ch_step; [apply IHc; assumption|assumption|assumption]. }
          eapply T; [exact C1|exact Ra|apply HP'; right; now left]. }
      destruct l as [|a t]; [easy|]. intros x y Hx Hy. destruct (Hd t a R HP x Hx) as (_ & C1). destruct (Hd t a R HP y Hy) as (C2 & _).
      assert (Tr : forall u v w, chain P u v -> chain P v w -> chain P u w).
      { intros u v w Huv Hvw. induction Hvw as [|v w z Hvw IHc Hz Hn]; [assumption|]. eapply ch_step; [apply IHc; exact Huv|assumption|assumption]. }
      exact (Tr _ _ _ C1 C2).
    Qed.

    Lemma pick_min_le (A : Type) (l : list (R * A)) : forall x y, In y (x :: l) -> fst (fold_left pick_min l x) <= fst y.
    Proof.
      induction l as [|z t IH]; intros x y Hy; cbn [fold_left]; [destruct Hy as [<-|[]]; lra|].
      assert (M : fst (pick_min x z) <= fst x /\ fst (pick_min x z) <= fst z).
      { unfold pick_min. rs. destruct (Rltb_spec (fst z) (fst x)); lra. }
      pose proof (IH (pick_min x z) (pick_min x z) ltac:(now left)).
      destruct Hy as [<-|[<-|Hy]]; [lra|lra|]. apply IH. now right.
    Qed.
    Lemma representative_min g x : representative gap g = Some x -> forall y, In y g -> gap x <= gap y.
    Proof.
      intros E y Hy.
      assert (M : forall g, match min_by (map (fun x => (gap x, x)) g) with Some m => Some (snd m) | None => None end = Some x -> In y g -> gap x <= gap y).
      { clear. intros g E Hy. destruct g as [|a t]; [easy|]. cbn [map min_by] in E. injection E as E.
        pose proof (pick_min_in _ (map (fun x => (gap x, x)) t) (gap a, a)) as P.
        pose proof (pick_min_le _ (map (fun x => (gap x, x)) t) (gap a, a) (gap y, y) (in_map (fun x => (gap x, x)) (a :: t) y Hy)) as L.
        change (In (fold_left pick_min (map (fun x => (gap x, x)) t) (gap a, a)) (map (fun x => (gap x, x)) (a :: t))) in P.
        apply in_map_iff in P. destruct P as (z & Ez & Hz). rewrite <- Ez in L, E. cbn [fst snd] in L, E. now subst z. }
      unfold representative in E. destruct g as [|a [|b t]]; [easy|injection E as <-; destruct Hy as [<-|[]]; lra|exact (M (a :: b :: t) E Hy)].
    Qed.

    Lemma blocks_runs gs : blocks near gs -> Forall (run near) gs.
    Proof. induction 1; [constructor|constructor; [assumption|constructor]|constructor; assumption]. Qed.

    (** every hit is joined to a reported one that is at least as good *)
    Theorem finish_covers l x : In x l -> exists r, In r (finish key near gap l) /\ chain l x r /\ gap r <= gap x.
    Proof.
      intros Hx. unfold finish. destruct (coalesce_spec near (sort_by key l)) as (B & C).
      pose proof (representatives_spec gap _ (blocks_nonempty _ _ B)) as F. pose proof (blocks_runs _ B) as Rn.
      apply (Permutation_in x (Permutation_sym (sort_by_perm key l))) in Hx. rewrite <- C in Hx.
      assert (HP : forall y, In y (concat (coalesce near (sort_by key l))) -> In y l).
      { intros y Hy. rewrite C in Hy. exact (Permutation_in y (sort_by_perm key l) Hy). }
      clear B C. induction F as [|g r gs rs E F IH]; [easy|]. cbn [concat] in Hx, HP. inversion Rn as [|? ? R1 R2]; subst.
      apply in_app_or in Hx. destruct Hx as [Hx|Hx].
      - exists r. split; [now left|]. pose proof (representative_in gap g r E) as Hr.
        split; [|exact (representative_min _ _ E x Hx)].
        apply (run_chain l g R1); [|assumption|assumption]. intros y Hy. apply HP. apply in_or_app. now left.
      - destruct (IH Hx R2) as (r' & H1 & H2); [intros y Hy; apply HP; apply in_or_app; now right|]. exists r'. split; [now right|assumption].
    Qed.

    (** nothing is merged when no two hits are near each other *)
    Theorem finish_keeps l : ForallOrdPairs (fun x y => near x y = false /\ near y x = false) l -> Permutation (finish key near gap l) l.
    Proof.
      intros P. unfold finish. transitivity (sort_by key l); [|apply sort_by_perm].
      assert (P' : ForallOrdPairs (fun x y => near x y = false /\ near y x = false) (sort_by key l)).
      { clear - P. pose proof (sort_by_perm key l) as Q. apply Permutation_sym in Q. revert P. induction Q as [| x l l' Q IH | x y l | l l' l'' Q1 IH1 Q2 IH2]; intros P.
        - assumption.
        - inversion P as [|? ? F P']; subst. constructor; [|auto]. rewrite Forall_forall in *. intros z Hz. apply F. exact (Permutation_in z (Permutation_sym Q) Hz).
        - inversion P as [|? ? F P']; subst. inversion P' as [|? ? F' P'']; subst. inversion F as [|? ? F1 F2]; subst.
          constructor; [constructor; [tauto|assumption]|constructor; assumption].
        - auto. }
      generalize dependent (sort_by key l). clear. intros l P. destruct l as [|x t]; [reflexivity|].
      assert (G : forall t x, ForallOrdPairs (fun x y => near x y = false /\ near y x = false) (x :: t) ->
                representatives gap (coalesce_from near [x] x t) = x :: t).
      { induction t0 as [|y t0 IH]; intros x0 P0; cbn [coalesce_from]; [reflexivity|].
        inversion P0 as [|? ? F P']; subst. inversion F as [|? ? (N & _) F']; subst. rewrite N. cbn [representatives representative]. now rewrite IH. }
      cbn [coalesce]. now rewrite G.
    Qed.
  End Cover.
End Real.
