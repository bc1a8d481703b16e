(** * The whole search for intersections, in exact arithmetic *)
From Coq Require Import Reals Lra Lia ZArith List Permutation Sorted.
From Verif Require Import Base BaseFacts Scalar RSum KnotModel KnotSpec KnotFacts VecFacts CurveModel CurveSpec CurveProofs CurveGeom2 CurveShapes
  SurfaceModel SurfaceSpec SurfaceProofs CompoundModel BBoxModel TraversalModel TraversalProofs TraversalCurve TraversalSurface
  NewtonProofs NewtonSurf IntersectModel IntersectProofs.
Import ListNotations.
Open Scope R_scope.

Section Real.
  Variables eps maxv : R.
  Local Hint Extern 0 (Scalar R) => exact (ROps eps maxv) : typeclass_instances.
  Local Notation box_curve := (box_curve eps maxv).
  Local Notation leaf_of := (leaf_of eps maxv).

  (** both points of a reported hit lie on the curves, inside of the domains, closer than the tolerance *)
  Record hit_of (a b : Curve R) (min : R) (h : Hit) : Prop := {
    hi_a : dom0 a <= ha_t h <= dom1 a;
    hi_b : dom0 b <= hb_t h <= dom1 b;
    hi_p : point_at a (ha_t h) = Ok (ha_p h);
    hi_q : point_at b (hb_t h) = Ok (hb_p h);
    hi_near : rdist (ha_p h) (hb_p h) < min
  }.

  Lemma point_total c u : box_curve c -> dom0 c <= u <= dom1 c -> exists p, point_at c u = Ok p /\ length p = (cdim c - 1)%nat.
  Proof.
    intros B Hu. destruct (point_at_spec eps maxv c u (bc_ok _ _ _ B) (bc_eps _ _ _ B) Hu) as (p & Ep & Lp & _); [|eauto].
    apply Rgt_not_eq. apply (wfun_pos eps maxv); [apply B|apply B|apply B|assumption].
  Qed.

  Lemma genuine_hit a b min h : box_curve a -> box_curve b -> cdim a = cdim b -> genuine a b min h -> hit_of a b min h.
  Proof.
    intros Ba Bb Hd (a0 & a1 & b0 & b1 & Ea & Eb & H1 & H2 & H3 & H4 & Ep & Eq & Hn).
    rewrite knots_domain_ok in Ea, Eb by (apply Ba || apply Bb). injection Ea as <- <-. injection Eb as <- <-. rs.
    assert (Ra : dom0 a <= ha_t h <= dom1 a) by (destruct (Rleb_spec (dom0 a) (ha_t h)), (Rleb_spec (ha_t h) (dom1 a)); try discriminate; lra).
    assert (Rb : dom0 b <= hb_t h <= dom1 b) by (destruct (Rleb_spec (dom0 b) (hb_t h)), (Rleb_spec (hb_t h) (dom1 b)); try discriminate; lra).
    destruct (point_total a _ Ba Ra) as (p & Ep' & Lp). destruct (point_total b _ Bb Rb) as (q & Eq' & Lq).
    rewrite Ep in Ep'. injection Ep' as <-. rewrite Eq in Eq'. injection Eq' as <-.
    constructor; try assumption. rewrite (vnorm_rdist eps maxv) in Hn by congruence.
    destruct (Rltb_spec (rdist (ha_p h) (hb_p h)) min); [assumption|discriminate].
  Qed.

  (** the refinement always answers, and what it answers *)
  Lemma cc_candidate_total solve a b min ca cb : box_curve a -> box_curve b -> cdim a = cdim b -> (exists r, solve ca cb = Ok r) ->
    exists r, cc_candidate solve a b (dom0 a, dom1 a) (dom0 b, dom1 b) min ca cb = Ok r /\
      (forall ta tb p q, solve ca cb = Ok (Some (ta, tb)) -> dom0 a <= ta <= dom1 a -> dom0 b <= tb <= dom1 b ->
         point_at a ta = Ok p -> point_at b tb = Ok q -> rdist p q < min -> r = Some (MkHit p ta q tb)).
  Proof.
    intros Ba Bb Hd (r & Er). unfold cc_candidate. rewrite Er. cbn [bind]. destruct r as [(ta, tb)|]; [|eexists; split; [reflexivity|discriminate]].
    unfold in_range. cbn [fst snd]. rs.
    destruct (Rleb_spec (dom0 a) ta), (Rleb_spec ta (dom1 a)), (Rleb_spec (dom0 b) tb), (Rleb_spec tb (dom1 b)); cbn [andb];
      try (eexists; split; [reflexivity|]; intros ta' tb' p q E ? ? ? ? ?; injection E as <- <-; lra).
    destruct (point_total a ta Ba ltac:(lra)) as (p & Ep & Lp). destruct (point_total b tb Bb ltac:(lra)) as (q & Eq & Lq).
    rewrite Ep, Eq. cbn [bind]. eexists. split; [reflexivity|]. intros ta' tb' p' q' E _ _ Ep' Eq' Hn. injection E as <- <-.
    rewrite Ep in Ep'. injection Ep' as <-. rewrite Eq in Eq'. injection Eq' as <-.
    rewrite (vnorm_rdist eps maxv) by congruence. destruct (Rltb_spec (rdist p q) min); [reflexivity|lra].
  Qed.

  Lemma cc_refine_total solve a b min pairs : box_curve a -> box_curve b -> cdim a = cdim b ->
    (forall ca cb, In (ca, cb) pairs -> exists r, solve ca cb = Ok r) ->
    exists hits, cc_refine solve a b min pairs = Ok hits /\
      StronglySorted (fun x y => ha_t x + 1 / 1000 <= ha_t y) hits /\
      (forall ca cb ta tb p q, In (ca, cb) pairs -> solve ca cb = Ok (Some (ta, tb)) -> dom0 a <= ta <= dom1 a -> dom0 b <= tb <= dom1 b ->
         point_at a ta = Ok p -> point_at b tb = Ok q -> rdist p q < min -> exists h, In h hits /\ rdist (ha_p h) (hb_p h) <= rdist p q).
  Proof.
    intros Ba Bb Hd Hs. unfold cc_refine. rewrite !knots_domain_ok by (apply Ba || apply Bb). cbn [bind].
    assert (M : exists raw, mapM (fun '(ca, cb) => cc_candidate solve a b (dom0 a, dom1 a) (dom0 b, dom1 b) min ca cb) pairs = Ok raw /\
              forall ca cb ta tb p q, In (ca, cb) pairs -> solve ca cb = Ok (Some (ta, tb)) -> dom0 a <= ta <= dom1 a -> dom0 b <= tb <= dom1 b ->
         point_at a ta = Ok p -> point_at b tb = Ok q -> rdist p q < min -> In (Some (MkHit p ta q tb)) raw).
    { clear - Ba Bb Hd Hs. induction pairs as [|(ca, cb) t IH]; [exists []; split; [reflexivity|easy]|].
      destruct (IH ltac:(intros; apply Hs; now right)) as (raw & Er & Hr).
      destruct (cc_candidate_total solve a b min ca cb Ba Bb Hd (Hs ca cb ltac:(now left))) as (r & Ec & Hc).
      exists (r :: raw). cbn [mapM]. rewrite Ec. cbn [bind]. rewrite Er. cbn [bind]. split; [reflexivity|].
      intros ca' cb' ta tb p q [E|Hin]; [injection E as <- <-|]; intros.
      - left. eapply Hc; eassumption.
      - right. eapply Hr; eassumption. }
    destruct M as (raw & Er & Hr). rewrite Er. cbn [bind]. eexists. split; [reflexivity|]. split.
    - apply (finish_apart eps maxv); [|lra]. intros x y N. unfold cc_near in N. apply Bool.orb_false_elim in N. destruct N as (N & _).
      unfold merge_tol in N. rs. change (IZR 1000) with 1000 in N. destruct (Rltb_spec (Rabs (ha_t x - ha_t y)) (1 / 1000)); [discriminate|lra].
    - intros ca cb ta tb p q Hin Es Ra Rb Ep Eq Hn.
      pose proof (Hr ca cb ta tb p q Hin Es Ra Rb Ep Eq Hn) as Hraw. apply keep_some_in in Hraw.
      destruct (finish_covers eps maxv ha_t cc_near cc_gap _ _ Hraw) as (h & Hh & _ & Hg). exists h. split; [assumption|].
      assert (G : genuine a b min h).
      { apply finish_subset, keep_some_in in Hh. destruct (mapM_in _ _ _ Er _ Hh) as ((ca', cb') & _ & Ec).
        refine (cc_candidate_genuine _ _ _ _ _ _ _ _ _ _ _ Ec); apply knots_domain_ok; [apply Ba|apply Bb]. }
      pose proof (genuine_hit a b min h Ba Bb Hd G) as Gh.
      destruct (point_total a _ Ba (hi_a _ _ _ _ Gh)) as (p' & Ep' & Lp'). destruct (point_total b _ Bb (hi_b _ _ _ _ Gh)) as (q' & Eq' & Lq').
      rewrite (hi_p _ _ _ _ Gh) in Ep'. injection Ep' as <-. rewrite (hi_q _ _ _ _ Gh) in Eq'. injection Eq' as <-.
      destruct (point_total a _ Ba Ra) as (p' & Ep' & Lp). destruct (point_total b _ Bb Rb) as (q' & Eq' & Lq).
      rewrite Ep in Ep'. injection Ep' as <-. rewrite Eq in Eq'. injection Eq' as <-.
      unfold cc_gap in Hg. cbn [ha_p hb_p] in Hg.
      rewrite <- !(vnorm_rdist eps maxv) by congruence. unfold vnorm. rs. apply sqrt_le_1_alt. exact Hg.
  Qed.

  (** a solver that succeeds on every pair of parts that meet *)
  Definition solver_finds (solve : Curve R -> Curve R -> Res (option (R * R))) (a b : Curve R) (tola tolb min : R) : Prop :=
    forall ta tb u v, leaf_of a tola ta -> leaf_of b tolb tb ->
      dom0 (ct_curve ta) <= u <= dom1 (ct_curve ta) -> dom0 (ct_curve tb) <= v <= dom1 (ct_curve tb) -> point_at a u = point_at b v ->
      exists u' v' p q, solve (ct_curve ta) (ct_curve tb) = Ok (Some (u', v')) /\ dom0 a <= u' <= dom1 a /\ dom0 b <= v' <= dom1 b /\
        point_at a u' = Ok p /\ point_at b v' = Ok q /\ rdist p q < min.

  Theorem cc_intersections_complete solve rng a b o :
    (forall k, 0 <= rng k <= 1) -> box_curve a -> box_curve b -> cdim a = cdim b -> (0 < op_div o)%nat ->
    divisions_off_knots eps maxv rng a ((dom1 a - dom0 a) / INR (op_div o)) ->
    divisions_off_knots eps maxv rng b ((dom1 b - dom0 b) / INR (op_div o)) ->
    (forall ca cb, exists r, solve ca cb = Ok r) ->
    exists fuel0 hits,
      (forall fuel, (fuel0 <= fuel)%nat -> cc_intersections solve rng fuel a b o = Ok hits) /\
      Forall (hit_of a b (op_min o)) hits /\ StronglySorted (fun x y => ha_t x + 1 / 1000 <= ha_t y) hits /\
      (solver_finds solve a b ((dom1 a - dom0 a) / INR (op_div o)) ((dom1 b - dom0 b) / INR (op_div o)) (op_min o) ->
       forall u v, dom0 a <= u <= dom1 a -> dom0 b <= v <= dom1 b -> point_at a u = point_at b v -> hits <> []).
  Proof.
    intros Hr Ba Bb Hd Hn Oa Ob Hs.
    assert (HN : 0 < INR (op_div o)) by now apply lt_0_INR.
    assert (P : forall c, box_curve c -> 0 < (dom1 c - dom0 c) / INR (op_div o)).
    { intros c B. pose proof (dom_le c (bc_ok _ _ _ B)). apply Rdiv_lt_0_compat; lra. }
    destruct (traverse_curves eps maxv rng a b _ _ Hr Ba Bb Hd (P a Ba) (P b Bb) Oa Ob) as (fuel0 & pairs & Et & Hl & Hc).
    set (cp := map (fun p => (ct_curve (fst p), ct_curve (snd p))) pairs).
    destruct (cc_refine_total solve a b (op_min o) cp Ba Bb Hd ltac:(intros; apply Hs)) as (hits & Eh & Sh & Ch).
    exists fuel0, hits.
    assert (E : forall fuel, (fuel0 <= fuel)%nat -> cc_intersections solve rng fuel a b o = Ok hits).
    { intros fuel Hf. unfold cc_intersections, knots_domain_interval. rewrite !knots_domain_ok by (apply Ba || apply Bb). cbn [bind ct_new].
      rs. unfold sofnat. rs. rewrite <- !INR_IZR_INZ. rewrite (Et fuel Hf). cbn [bind]. exact Eh. }
    split; [exact E|]. split.
    { pose proof (cc_intersections_genuine _ _ _ _ _ _ _ (E fuel0 (le_n _))) as G. eapply Forall_impl; [|exact G].
      intros h. now apply genuine_hit. }
    split; [exact Sh|]. intros F u v Hu Hv Ep N. destruct (Hc u v Hu Hv Ep) as (ta & tb & Hin & Du & Dv).
    destruct (Hl ta tb Hin) as (La & Lb & _). destruct (F ta tb u v La Lb Du Dv Ep) as (u' & v' & p & q & Es & R1 & R2 & P1 & P2 & Hm).
    assert (Hin' : In (ct_curve ta, ct_curve tb) cp) by (apply in_map_iff; exists (ta, tb); auto).
    destruct (Ch _ _ _ _ _ _ Hin' Es R1 R2 P1 P2 Hm) as (h & Hh & _). rewrite N in Hh. exact Hh.
  Qed.

  (** ** A surface and a curve *)
  Record surf_hit_of (s : Surf R) (b : Curve R) (min : R) (h : SHit) : Prop := {
    si_s : in_dom s (fst (sh_uv h)) (snd (sh_uv h));
    si_b : dom0 b <= sh_t h <= dom1 b;
    si_p : surf_point_at s (fst (sh_uv h)) (snd (sh_uv h)) = Ok (sh_p h);
    si_q : point_at b (sh_t h) = Ok (sh_q h);
    si_near : rdist (sh_p h) (sh_q h) < min
  }.

  Lemma surf_total s u v : box_surf eps s -> in_dom s u v -> exists p, surf_point_at s u v = Ok p /\ length p = (sdim s - 1)%nat.
  Proof.
    intros B Hu. destruct (surf_point_at_spec eps maxv s u v (bs_ok _ _ B) (bs_eps _ _ B) Hu) as (p & Ep & Lp & _); [|eauto].
    apply Rgt_not_eq. apply (swfun_pos eps maxv); [apply B|apply B|apply B|assumption].
  Qed.

  Lemma sgenuine_hit s b min h : box_surf eps s -> box_curve b -> sdim s = cdim b -> sgenuine s b min h -> surf_hit_of s b min h.
  Proof.
    intros Bs Bb Hd (x0 & x1 & y0 & y1 & b0 & b1 & Es & Eb & H1 & H2 & H3 & H4 & H5 & H6 & Ep & Eq & Hn).
    rewrite surf_domain_ok in Es by apply Bs. rewrite knots_domain_ok in Eb by apply Bb. injection Es as <- <- <- <-. injection Eb as <- <-. rs.
    assert (Rs : in_dom s (fst (sh_uv h)) (snd (sh_uv h))).
    { unfold in_dom. destruct (Rleb_spec (u0 s) (fst (sh_uv h))), (Rleb_spec (fst (sh_uv h)) (u1 s)),
        (Rleb_spec (v0 s) (snd (sh_uv h))), (Rleb_spec (snd (sh_uv h)) (v1 s)); try discriminate; lra. }
    assert (Rb : dom0 b <= sh_t h <= dom1 b) by (destruct (Rleb_spec (dom0 b) (sh_t h)), (Rleb_spec (sh_t h) (dom1 b)); try discriminate; lra).
    destruct (surf_total s _ _ Bs Rs) as (p & Ep' & Lp). destruct (point_total b _ Bb Rb) as (q & Eq' & Lq).
    rewrite Ep in Ep'. injection Ep' as <-. rewrite Eq in Eq'. injection Eq' as <-.
    constructor; try assumption. rewrite (vnorm_rdist eps maxv) in Hn by congruence.
    destruct (Rltb_spec (rdist (sh_p h) (sh_q h)) min); [assumption|discriminate].
  Qed.

  Theorem sc_intersections_spec solve rng fuel s b o hits : box_surf eps s -> box_curve b -> sdim s = cdim b ->
    sc_intersections solve rng fuel s b o = Ok hits ->
    Forall (surf_hit_of s b (op_min o)) hits /\ StronglySorted (fun x y => sh_t x + 1 / 1000 <= sh_t y) hits.
  Proof.
    intros Bs Bb Hd E. split.
    - eapply Forall_impl; [|exact (sc_intersections_genuine _ _ _ _ _ _ _ E)]. intros h. now apply sgenuine_hit.
    - unfold sc_intersections in E. apply bind_ok in E. destruct E as ((iu, iv) & _ & E).
      do 4 (apply bind_ok in E; destruct E as (? & _ & E)).
      unfold sc_refine in E. apply bind_ok in E. destruct E as ((du, dv) & _ & E).
      do 2 (apply bind_ok in E; destruct E as (? & _ & E)). injection E as <-.
      apply (finish_apart eps maxv); [|lra]. intros h h' N. unfold sc_near, merge_tol in N. rs.
      destruct (Rltb_spec (Rabs (sh_t h - sh_t h')) (1 / 1000)); [discriminate|lra].
  Qed.
End Real.
