(** * Intersections of a surface and a curve are found; what the solvers answer *)
From Coq Require Import Reals Lra Lia ZArith List Permutation Sorted.
From Verif Require Import Base BaseFacts Scalar RSum KnotModel KnotSpec KnotFacts VecFacts CurveModel CurveSpec CurveProofs CurveGeom2 CurveShapes
  SurfaceModel SurfaceSpec SurfaceProofs CompoundModel BBoxModel TraversalModel TraversalProofs TraversalCurve TraversalSurface
  NewtonProofs NewtonSurf BfgsModel BfgsReal GradientProofs IntersectModel IntersectProofs IntersectMain.
Import ListNotations.
Open Scope R_scope.

Section Real.
  Variables eps maxv : R.
  Local Hint Extern 0 (Scalar R) => exact (ROps eps maxv) : typeclass_instances.
  Local Notation box_curve := (box_curve eps maxv).
  Local Notation leaf_of := (leaf_of eps maxv).
  Local Notation sleaf_of := (sleaf_of eps maxv).
  Local Notation surf_hit_of := (surf_hit_of eps maxv).

  Lemma sc_candidate_total solve s b min cs cb : box_surf eps s -> box_curve b -> sdim s = cdim b -> (exists r, solve cs cb = Ok r) ->
    exists r, sc_candidate solve s b (u0 s, u1 s) (v0 s, v1 s) (dom0 b, dom1 b) min cs cb = Ok r /\
      (forall t u v p q, solve cs cb = Ok (Some (t, (u, v))) -> in_dom s u v -> dom0 b <= t <= dom1 b ->
         surf_point_at s u v = Ok p -> point_at b t = Ok q -> rdist p q < min -> r = Some (MkSHit p (u, v) q t)).
  Proof.
    intros Bs Bb Hd (r & Er). unfold sc_candidate. rewrite Er. cbn [bind]. destruct r as [(t, (u, v))|]; [|eexists; split; [reflexivity|discriminate]].
    unfold in_range. cbn [fst snd]. rs.
    destruct (Rleb_spec (u0 s) u), (Rleb_spec u (u1 s)), (Rleb_spec (v0 s) v), (Rleb_spec v (v1 s)), (Rleb_spec (dom0 b) t), (Rleb_spec t (dom1 b)); cbn [andb];
      try (eexists; split; [reflexivity|]; intros t' u' v' p q E (? & ?) ? ? ? ?; injection E as <- <- <-; lra).
    destruct (surf_total eps maxv s u v Bs ltac:(unfold in_dom; lra)) as (p & Ep & Lp). destruct (point_total eps maxv b t Bb ltac:(lra)) as (q & Eq & Lq).
    rewrite Ep, Eq. cbn [bind]. eexists. split; [reflexivity|]. intros t' u' v' p' q' E _ _ Ep' Eq' Hn. injection E as <- <- <-.
    rewrite Ep in Ep'. injection Ep' as <-. rewrite Eq in Eq'. injection Eq' as <-.
    rewrite (vnorm_rdist eps maxv) by congruence. destruct (Rltb_spec (rdist p q) min); [reflexivity|lra].
  Qed.

  Lemma sc_refine_total solve s b min pairs : box_surf eps s -> box_curve b -> sdim s = cdim b ->
    (forall cs cb, In (cs, cb) pairs -> exists r, solve cs cb = Ok r) ->
    exists hits, sc_refine solve s b min pairs = Ok hits /\
      (forall cs cb t u v p q, In (cs, cb) pairs -> solve cs cb = Ok (Some (t, (u, v))) -> in_dom s u v -> dom0 b <= t <= dom1 b ->
         surf_point_at s u v = Ok p -> point_at b t = Ok q -> rdist p q < min -> exists h, In h hits /\ rdist (sh_p h) (sh_q h) <= rdist p q).
  Proof.
    intros Bs Bb Hd Hs. unfold sc_refine. rewrite surf_domain_ok by apply Bs. rewrite knots_domain_ok by apply Bb. cbn [bind].
    assert (M : exists raw, mapM (fun '(cs, cb) => sc_candidate solve s b (u0 s, u1 s) (v0 s, v1 s) (dom0 b, dom1 b) min cs cb) pairs = Ok raw /\
              forall cs cb t u v p q, In (cs, cb) pairs -> solve cs cb = Ok (Some (t, (u, v))) -> in_dom s u v -> dom0 b <= t <= dom1 b ->
         surf_point_at s u v = Ok p -> point_at b t = Ok q -> rdist p q < min -> In (Some (MkSHit p (u, v) q t)) raw).
    { clear - Bs Bb Hd Hs. induction pairs as [|(cs, cb) l IH]; [exists []; split; [reflexivity|easy]|].
      destruct (IH ltac:(intros; apply Hs; now right)) as (raw & Er & Hr).
      destruct (sc_candidate_total solve s b min cs cb Bs Bb Hd (Hs cs cb ltac:(now left))) as (r & Ec & Hc).
      exists (r :: raw). cbn [mapM]. rewrite Ec. cbn [bind]. rewrite Er. cbn [bind]. split; [reflexivity|].
      intros cs' cb' t u v p q [E|Hin]; [injection E as <- <-|]; intros.
      - left. eapply Hc; eassumption.
      - right. eapply Hr; eassumption. }
    destruct M as (raw & Er & Hr). rewrite Er. cbn [bind]. eexists. split; [reflexivity|].
    intros cs cb t u v p q Hin Es Ra Rb Ep Eq Hn.
    pose proof (Hr cs cb t u v p q Hin Es Ra Rb Ep Eq Hn) as Hraw. apply keep_some_in in Hraw.
    destruct (finish_covers eps maxv sh_t sc_near sc_gap _ _ Hraw) as (h & Hh & _ & Hg). exists h. split; [assumption|].
    assert (G : sgenuine s b min h).
    { apply finish_subset, keep_some_in in Hh. destruct (mapM_in _ _ _ Er _ Hh) as ((cs', cb') & _ & Ec).
      refine (sc_candidate_genuine _ _ _ _ _ _ _ _ _ _ _ _ Ec); [apply surf_domain_ok, Bs|apply knots_domain_ok, Bb]. }
    pose proof (sgenuine_hit eps maxv s b min h Bs Bb Hd G) as Gh.
    destruct (surf_total eps maxv s _ _ Bs (si_s _ _ _ _ _ _ Gh)) as (p' & Ep' & Lp'). destruct (point_total eps maxv b _ Bb (si_b _ _ _ _ _ _ Gh)) as (q' & Eq' & Lq').
    rewrite (si_p _ _ _ _ _ _ Gh) in Ep'. injection Ep' as <-. rewrite (si_q _ _ _ _ _ _ Gh) in Eq'. injection Eq' as <-.
    destruct (surf_total eps maxv s _ _ Bs Ra) as (p' & Ep' & Lp). destruct (point_total eps maxv b _ Bb Rb) as (q' & Eq' & Lq).
    rewrite Ep in Ep'. injection Ep' as <-. rewrite Eq in Eq'. injection Eq' as <-.
    unfold sc_gap in Hg. cbn [sh_p sh_q] in Hg.
    rewrite <- !(vnorm_rdist eps maxv) by congruence. unfold vnorm. rs. apply sqrt_le_1_alt. exact Hg.
  Qed.

  (** a solver that comes closer than [g] on every pair of parts that meet *)
  Definition ssolver_finds (solve : Surf R -> Curve R -> Res (option (R * (R * R)))) (s : Surf R) (b : Curve R) (utol vtol tol g : R) : Prop :=
    forall ta tb u v w, sleaf_of s utol vtol ta -> leaf_of b tol tb -> in_dom (st_surf ta) u v -> dom0 (ct_curve tb) <= w <= dom1 (ct_curve tb) ->
      surf_point_at s u v = point_at b w ->
      exists t' u' v' p q, solve (st_surf ta) (ct_curve tb) = Ok (Some (t', (u', v'))) /\ in_dom s u' v' /\ dom0 b <= t' <= dom1 b /\
        surf_point_at s u' v' = Ok p /\ point_at b t' = Ok q /\ rdist p q <= g.

  Theorem sc_intersections_complete solve rng s b o : let N := INR (op_div o) in
    (forall k, 0 <= rng k <= 1) -> box_surf eps s -> box_curve b -> sdim s = cdim b -> (0 < op_div o)%nat ->
    surf_divisions_off_knots eps maxv s ((u1 s - u0 s) / N) ((v1 s - v0 s) / N) DirU -> divisions_off_knots eps maxv rng b ((dom1 b - dom0 b) / N) ->
    (forall cs cb, exists r, solve cs cb = Ok r) ->
    exists fuel0 hits,
      (forall fuel, (fuel0 <= fuel)%nat -> sc_intersections solve rng fuel s b o = Ok hits) /\
      Forall (surf_hit_of s b (op_min o)) hits /\ StronglySorted (fun x y => sh_t x + 1 / 1000 <= sh_t y) hits /\
      forall g, g < op_min o -> ssolver_finds solve s b ((u1 s - u0 s) / N) ((v1 s - v0 s) / N) ((dom1 b - dom0 b) / N) g ->
        forall u v w, in_dom s u v -> dom0 b <= w <= dom1 b -> surf_point_at s u v = point_at b w ->
        exists h, In h hits /\ rdist (sh_p h) (sh_q h) <= g.
  Proof.
    intros N Hr Bs Bb Hd Hn Os Ob Hs. unfold N in *.
    assert (HN : 0 < INR (op_div o)) by now apply lt_0_INR.
    destruct (traverse_surface_curve eps maxv rng s b ((u1 s - u0 s) / INR (op_div o)) ((v1 s - v0 s) / INR (op_div o)) ((dom1 b - dom0 b) / INR (op_div o)) DirU Hr Bs Bb Hd)
      as (fuel0 & pairs & Et & Hl & Hc); auto.
    1-3: apply Rdiv_lt_0_compat; auto; try (pose proof (dom_le b (bc_ok _ _ _ Bb)); lra); pose proof (surf_dom_lt s (bs_ok _ _ Bs)); lra.
    set (cp := map (fun p => (st_surf (fst p), ct_curve (snd p))) pairs).
    destruct (sc_refine_total solve s b (op_min o) cp Bs Bb Hd ltac:(intros; apply Hs)) as (hits & Eh & Ch).
    exists fuel0, hits.
    assert (E : forall fuel, (fuel0 <= fuel)%nat -> sc_intersections solve rng fuel s b o = Ok hits).
    { intros fuel Hf. unfold sc_intersections, surf_interval, knots_domain_interval. rewrite surf_domain_ok by apply Bs. rewrite knots_domain_ok by apply Bb. cbn [bind ct_new st_new].
      rs. unfold sofnat. rs. rewrite <- !INR_IZR_INZ. rewrite <- Hd.
      replace ((u1 s - u0 s) * (1 / INR (op_div o))) with ((u1 s - u0 s) / INR (op_div o)) by (field; lra).
      replace ((v1 s - v0 s) * (1 / INR (op_div o))) with ((v1 s - v0 s) / INR (op_div o)) by (field; lra).
      replace ((dom1 b - dom0 b) * (1 / INR (op_div o))) with ((dom1 b - dom0 b) / INR (op_div o)) by (field; lra).
      rewrite (Et fuel Hf). cbn [bind]. exact Eh. }
    split; [exact E|]. destruct (sc_intersections_spec eps maxv solve rng fuel0 s b o hits Bs Bb Hd (E fuel0 (le_n _))) as (S1 & S2).
    split; [exact S1|]. split; [exact S2|].
    intros g Hg F u v w Hu Hw Ep. destruct (Hc u v w Hu Hw Ep) as (ta & tb & Hin & Du & Dw).
    destruct (Hl ta tb Hin) as (La & Lb & _). destruct (F ta tb u v w La Lb Du Dw Ep) as (t' & u' & v' & p & q & Es & R1 & R2 & P1 & P2 & Hm).
    assert (Hin' : In (st_surf ta, ct_curve tb) cp) by (apply in_map_iff; exists (ta, tb); auto).
    destruct (Ch _ _ _ _ _ _ _ Hin' Es R1 R2 P1 P2 ltac:(lra)) as (h & Hh & Hgap). exists h. split; [exact Hh|lra].
  Qed.

  (** the answer of the library's own solvers is never worse than where they start: the starts of two curves, the middles of a patch and a curve *)
  Theorem bfgs_cc_improves fuel o a b ta tb : smooth_curve eps a -> smooth_curve eps b -> cdim a = cdim b ->
    bfgs_cc fuel o a b = Ok (Some (ta, tb)) -> dom0 a <= ta <= dom1 a -> dom0 b <= tb <= dom1 b ->
    sqdist (cdim a - 1) (fun i => nurbs a i ta) (fun i => nurbs b i tb) <=
    sqdist (cdim a - 1) (fun i => nurbs a i (dom0 a)) (fun i => nurbs b i (dom0 b)).
  Proof.
    intros Sa Sb Hd E Ra Rb. unfold bfgs_cc in E. rewrite !knots_domain_ok in E by (apply Sa || apply Sb). cbn [bind] in E.
    destruct (bfgs_run _ _ _ _ _ _ _) as [[(x, c)|]| | |] eqn:Er; try discriminate. injection E as <- <-.
    destruct (bfgs_best eps maxv _ _ _ _ _ _ _ _ Er) as (c0 & x' & c' & E0 & E1 & E2 & Hle). injection E1 as <- <-.
    rewrite (cc_cost_spec eps maxv) in E0 by (auto; pose proof (dom_le a (proj1 Sa)); pose proof (dom_le b (proj1 Sb)); lra). injection E0 as <-.
    assert (E3 : cc_cost a b x = cc_cost a b [coord 0 x; coord 1 x]) by reflexivity. rewrite E3, (cc_cost_spec eps maxv) in E2 by auto. injection E2 as <-. exact Hle.
  Qed.

  Theorem bfgs_sc_improves fuel o s b t u v : smooth_surf eps s -> smooth_curve eps b -> sdim s = cdim b ->
    bfgs_sc fuel o s b = Ok (Some (t, (u, v))) -> in_dom s u v -> dom0 b <= t <= dom1 b ->
    sqdist (sdim s - 1) (fun i => snurbs s i u v) (fun i => nurbs b i t) <=
    sqdist (sdim s - 1) (fun i => snurbs s i ((u0 s + u1 s) / 2) ((v0 s + v1 s) / 2)) (fun i => nurbs b i ((dom0 b + dom1 b) / 2)).
  Proof.
    intros Ss Sb Hd E Ra Rb. unfold bfgs_sc in E. rewrite surf_domain_ok in E by apply Ss. rewrite knots_domain_ok in E by apply Sb. cbn [bind] in E.
    destruct (bfgs_run _ _ _ _ _ _ _) as [[(x, c)|]| | |] eqn:Er; try discriminate. injection E as <- <- <-.
    destruct (bfgs_best eps maxv _ _ _ _ _ _ _ _ Er) as (c0 & x' & c' & E0 & E1 & E2 & Hle). injection E1 as <- <-.
    assert (H : forall x y, smul (sadd x y) (sdiv sone (sofz 2)) = (x + y) / 2) by (intros; rs; change (IZR 2) with 2; lra). rewrite !H in E0.
    rewrite (sc_cost_spec eps maxv) in E0 by (auto; unfold in_dom in *; lra). injection E0 as <-.
    assert (E3 : sc_cost s b x = sc_cost s b [coord 0 x; coord 1 x; coord 2 x]) by reflexivity. rewrite E3, (sc_cost_spec eps maxv) in E2 by auto. injection E2 as <-. exact Hle.
  Qed.
End Real.
