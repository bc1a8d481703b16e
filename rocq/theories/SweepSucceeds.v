(** * Sweeping succeeds: the placed profiles are lofted *)
From Coq Require Import Reals Lra Sorted ZArith String.
From Verif Require Import Base BaseFacts Scalar RSum BSplineSpec BSpline KnotModel KnotSpec KnotFacts KnotProofs KnotMisc VecFacts
  MiscModel MiscProofs CurveModel CurveSpec CurveProofs CurveGeom CurveGeom2 CurveShapes CurveDeriv InterpProofs Decompose MergeModel MergeProofs
  SurfaceModel SurfaceSpec SurfaceProofs LoftModel LoftProofs LoftMissed
  ArcModel ArcProofs ArcMain ArcTheorems RevolveModel RevolveProofs RevolveSphere FrameModel FrameProofs FrameTheorems FrameSweep SchoenbergWhitney InterpUnique LoftSucceeds.
Open Scope list_scope. Open Scope R_scope.

Section Sweep.
  Variables eps maxv : R.
  Local Hint Extern 0 (Scalar R) => exact (ROps eps maxv) : typeclass_instances.
  Local Hint Extern 0 (Trig R) => exact TrigR : typeclass_instances.
  Local Hint Extern 0 (Acos R) => exact AcosR : typeclass_instances.

  Theorem sweep_succeeds solve profile rail dv :
    exact_solver solve -> complete_solver solve -> 0 < eps < 1 -> 1 <= maxv -> (forall d, dv = Some d -> (1 <= d)%nat) ->
    curve_ok rail -> curve_eps eps rail -> pos_weights rail -> cdim rail = 4%nat ->
    (forall u t, dom0 rail <= u <= dom1 rail -> tangent_at rail u = Ok t -> dot t t <> 0) ->
    curve_ok profile -> curve_eps eps profile -> pos_weights profile -> clamped profile -> cdim profile = 4%nat -> (1 <= cdeg profile)%nat ->
    separated eps (cknots profile) ->
    exists us fs, length us = (2 * length (cpts rail))%nat /\ nth 0 us 0 = dom0 rail /\ nth (length us - 1) us 0 = dom1 rail /\
      compute_frenet_frames rail us = Ok fs /\ length fs = length us /\
      ((forall i, (i < length (cpts profile))%nat -> spread eps (swept_column eps maxv fs profile i)) ->
       exists s, try_sweep solve profile rail dv = Ok s /\
       surf_ok s /\ sdim s = 4%nat /\ sdu s = cdeg profile /\ u0 s = 0 /\ u1 s = dom1 profile - dom0 profile /\ v0 s = 0 /\ v1 s = 1 /\
       forall u, dom0 profile <= u <= dom1 profile -> exists q, point_at profile u = Ok q /\
         surf_point_at s (u - dom0 profile) 0 = Ok (placed (nth 0 fs frame0) q) /\
         surf_point_at s (u - dom0 profile) 1 = Ok (placed (nth (length fs - 1) fs frame0) q)).
  Proof.
    intros Hs Hcs He Hm Hdv Rc Re Rw Rd Rt Pc Pe Pw Pcl Pd Pp Psep.
    destruct (sweep_parameters_ok eps maxv rail Rc) as (us & Eus & Lus & Dus & F0 & F1). exists us.
    pose proof (co_len rail Rc) as Hl.
    destruct (frames_spec eps maxv rail us He Hm Rc Re Rw Rd) as (fs & Efs & Lfs & Hfs & _).
    { intros ->. cbn in Lus. lia. }
    { exact Dus. }
    { rewrite Forall_forall in Dus. intros u t Hu. apply Rt. now apply Dus. }
    exists fs. do 3 (split; [assumption|]). split; [assumption|]. split; [assumption|]. intros Hsp.
    unfold try_sweep. rewrite Eus. cbn [bind]. rewrite Efs. cbn [bind].
    set (cs := map (fun f => transform (frame_matrix f) profile) fs) in *.
    assert (Lcs : length cs = length us) by (unfold cs; rewrite map_length; exact Lfs).
    assert (Fcs : forall c, In c cs -> curve_ok c /\ curve_eps eps c /\ pos_weights c /\ clamped c /\ cdeg c = cdeg profile /\ cdim c = 4%nat /\ cknots c = cknots profile /\
      length (cpts c) = length (cpts profile) /\ dom0 c = dom0 profile /\ dom1 c = dom1 profile).
    { intros c Hc. unfold cs in Hc. apply in_map_iff in Hc. destruct Hc as (f & <- & _). now apply (transform_facts eps maxv). }
    pose proof (dom_le profile Pc) as Hdom.
    assert (Ms : max_span cs = dom1 profile - dom0 profile).
    { unfold max_span. destruct cs as [|c l] eqn:Ecs; [cbn in Lcs; lia|]. cbn [map fold_left].
      destruct (Fcs c (or_introl eq_refl)) as (_ & _ & _ & _ & _ & _ & _ & _ & -> & ->). rewrite Rmax_right by lra.
      assert (G : forall d, In d l -> dom0 d = dom0 profile /\ dom1 d = dom1 profile). { intros d Hd. destruct (Fcs d (or_intror Hd)) as (_ & _ & _ & _ & _ & _ & _ & _ & A & B). auto. }
      clear - G. induction l as [|d l IH]; [reflexivity|]. cbn [map fold_left]. destruct (G d (or_introl eq_refl)) as (-> & ->). rewrite Rmax_left by lra. apply IH. intros e He. apply G. now right. }
    assert (Ks : forall c, In c cs -> cknots (on_span (max_span cs) c) = map (fun x => x - dom0 profile) (cknots profile)).
    { intros c Hc. destruct (Fcs c Hc) as (_ & _ & _ & _ & _ & _ & Ek & _ & D0 & D1). unfold on_span, reparam. cbn [cknots]. rewrite Ms, D0, D1, Ek.
      apply map_ext. intros x. field. lra. }
    assert (Kf : forall j, (j < length (cknots profile))%nat -> kf (map (fun x => x - dom0 profile) (cknots profile)) j = kf (cknots profile) j - dom0 profile).
    { intros j Hj. rewrite (kf_nth _ _ 0) by (rewrite map_length; lia). rewrite (nth_map_lt _ _ j 0 0) by lia. now rewrite <- kf_nth. }
    destruct (loft_succeeds eps maxv solve 4 (cdeg profile) cs (map (fun c => MkCurve (cdim c) (cdeg c) (cpts c) (map (fun x => x - dom0 profile) (cknots profile))) cs) dv)
      as (s & E & S1 & S3 & S4 & S5 & S6 & S7 & S8 & S9 & S10); try assumption; try lra; try lia.
    - apply Forall_forall. intros c Hc. destruct (Fcs c Hc) as (A1 & A2 & A3 & A4 & A5 & A6 & A7 & A8 & A9 & A10).
      do 6 (split; [assumption|]). unfold curve_eps, eps_ok, clast in *. rewrite (Ks c Hc). unfold on_span, reparam. cbn [cdeg cpts].
      rewrite A5, A8. pose proof (curve_len profile Pc). pose proof (co_len profile Pc). rewrite !Kf by lia. lra.
    - assert (M : forall x, In x (concat (map (fun c => cknots (on_span (max_span cs) c)) cs)) -> exists y, In y (cknots profile) /\ x = y - dom0 profile).
      { intros x Hx. apply in_concat in Hx. destruct Hx as (k & Hk & Hx). apply in_map_iff in Hk. destruct Hk as (c & <- & Hc).
        rewrite (Ks c Hc) in Hx. apply in_map_iff in Hx. destruct Hx as (y & <- & Hy). eauto. }
      intros a b Ha Hb. destruct (M a Ha) as (a' & Ia & ->). destruct (M b Hb) as (b' & Ib & ->).
      destruct (Psep a' b' Ia Ib) as [->|Q]; [now left|right]. replace (a' - dom0 profile - (b' - dom0 profile)) with (a' - b') by ring. exact Q.
    - pose proof (curve_len profile Pc) as Hlk. destruct Pcl as (C0 & C1).
      rewrite <- C0. apply (unify_same eps maxv (cdeg profile) (cknots profile) _ (kf (cknots profile) (length (cknots profile) - 1))); try lra.
      + intros Q. rewrite Q in Lcs. cbn in Lcs. lia.
      + apply Forall_forall. intros c Hc. destruct (Fcs c Hc) as (_ & _ & _ & _ & A & _ & B & _). auto.
      + apply get_kf. lia.
      + apply get_kf. lia.
    - intros i Hi. rewrite (nth_map_lt _ cs 0 (MkCurve 0 0 [] []) (MkCurve 0 0 [] [])) in Hi by lia. cbn [cpts] in Hi.
      destruct (Fcs (nth 0 cs (MkCurve 0 0 [] []))) as (_ & _ & _ & _ & _ & _ & _ & B & _); [apply nth_In; lia|]. rewrite B in Hi.
      specialize (Hsp i Hi). unfold swept_column in Hsp. unfold column. rewrite map_map. cbn [cpts]. unfold cs. rewrite map_map. exact Hsp.
    - exists s. split; [exact E|]. rewrite Ms in S7. do 7 (split; [assumption|]). intros u Hu.
      pose proof (wfun_pos eps maxv profile u Pc Pe Pw Hu) as P. destruct (point_at_spec eps maxv profile u Pc Pe Hu ltac:(lra)) as (q & Eq & Lq & _). rewrite Pd in Lq.
      exists q. split; [exact Eq|].
      assert (G : forall k v, (k < length cs)%nat -> (k = 0%nat /\ v = 0) \/ (k = (length cs - 1)%nat /\ v = 1) -> surf_point_at s (u - dom0 profile) v = Ok (placed (nth k fs frame0) q)).
      { intros k v Hk Hkv. destruct (Fcs (nth k cs (MkCurve 0 0 [] []))) as (_ & _ & _ & _ & _ & _ & _ & _ & B0 & B1); [apply nth_In; lia|].
        destruct (S10 k v Hk) with (u := u) as (q' & Q1 & Q2).
        { unfold section_at. rewrite map_length. destruct Hkv as [?|?]; [left|right; left]; assumption. }
        { rewrite B0, B1. exact Hu. }
        unfold loft_u in Q2. rewrite B0, B1, Ms in Q2. replace ((u - dom0 profile) * _) with (u - dom0 profile) in Q2 by (field; lra).
        rewrite Q2. f_equal. unfold cs in Q1. rewrite (nth_map_lt _ fs k frame0 (MkCurve 0 0 [] [])) in Q1 by (rewrite Lfs; lia).
        assert (Ha : affine_matrix (cdim profile) (frame_matrix (nth k fs frame0))) by (rewrite Pd; apply frame_matrix_affine).
        rewrite (transform_affine eps maxv profile _ u q Pc Pe Ha) in Q1.
        - injection Q1 as <-. rewrite Pd. apply frame_places; [|exact Lq]. apply (Hfs k). lia.
        - intros j Hj. pose proof (Pw j Hj). lra.
        - exact Hu.
        - exact Eq. }
      split; apply G; try lia; [left|right]; split; try reflexivity. lia.
  Qed.
End Sweep.
