(** * Sweeping a profile along a rail *)
From Coq Require Import Reals Lra Sorted ZArith String.
From Verif Require Import Base BaseFacts Scalar RSum BSplineSpec BSpline KnotModel KnotSpec KnotFacts KnotProofs KnotMisc VecFacts
  MiscModel MiscProofs CurveModel CurveSpec CurveProofs CurveGeom CurveGeom2 CurveShapes CurveDeriv InterpProofs Decompose MergeModel MergeProofs
  SurfaceModel SurfaceSpec SurfaceProofs LoftModel LoftProofs LoftMissed
  ArcModel ArcProofs ArcMain ArcTheorems RevolveModel RevolveProofs RevolveSphere FrameModel FrameProofs FrameTheorems.
Open Scope list_scope. Open Scope R_scope.

Section Sweep.
  Variables eps maxv : R.
  Local Hint Extern 0 (Scalar R) => exact (ROps eps maxv) : typeclass_instances.
  Local Hint Extern 0 (Trig R) => exact TrigR : typeclass_instances.
  Local Hint Extern 0 (Acos R) => exact AcosR : typeclass_instances.

  (** sections that already share degree and knots are only shifted to start at zero *)
  Lemma unify_same p (K : list R) k0 k1 cs : 0 < eps -> cs <> [] -> Forall (fun c => cdeg c = p /\ cknots c = K) cs ->
    get K 0 = Ok k0 -> get K (length K - 1) = Ok k1 -> k0 < k1 ->
    unify_knots cs = Ok (map (fun c => MkCurve (cdim c) (cdeg c) (cpts c) (map (fun x => x - k0) K)) cs).
  Proof.
    intros He Hne Hcs G0 G1 Hlt. unfold unify_knots. rewrite Forall_forall in Hcs.
    assert (Lk : (1 <= length K)%nat) by (destruct K; [discriminate G0|cbn; lia]).
    set (md := fold_left _ cs 0%nat).
    assert (Hmd : forall c, In c cs -> (cdeg c <? md)%nat = false).
    { assert (M : md = p). { unfold md. destruct cs as [|c cs]; [congruence|]. cbn [fold_left]. rewrite (proj1 (Hcs c (or_introl eq_refl))). cbn [Nat.max].
        assert (Q : forall c, In c cs -> cdeg c = p) by (intros d Hd; apply Hcs; now right). clear - Q. 
        induction cs as [|c cs IH]; [reflexivity|]. cbn [fold_left]. rewrite (Q c (or_introl eq_refl)), Nat.max_id. apply IH. intros d Hd. apply Q. now right. }
      intros c Hc. rewrite M, (proj1 (Hcs c Hc)). apply Nat.ltb_irrefl. }
    rewrite (mapM_ok _ (fun c => c)). 2:{ intros c Hc. now rewrite Hmd. }
    rewrite map_id. cbn [bind].
    rewrite (mapM_ok _ (fun _ => (k0, k1))). 2:{ intros c Hc. rewrite (proj2 (Hcs c Hc)), G0. cbn [bind]. rewrite usub_ok by lia. cbn [bind]. rewrite G1. reflexivity. }
    cbn [bind].
    assert (E1 : forall l, map (fun '(c, (mn, _)) => shift_knots mn c) (combine l (map (fun _ : Curve R => (k0, k1)) l)) = map (shift_knots k0) l).
    { induction l as [|c l IH]; [reflexivity|]. cbn [map combine]. now rewrite IH. }
    rewrite E1. rewrite map_map. set (ms := fold_left _ (map _ cs) szero).
    assert (Hms : ms = k1 - k0).
    { unfold ms. destruct cs as [|c cs]; [congruence|]. cbn [map fold_left]. rs. rewrite (proj2 (Rltb_true _ _)) by lra. clear.
      induction cs as [|c cs IH]; [reflexivity|]. cbn [map fold_left]. rewrite (proj2 (Rltb_false _ _)) by lra. exact IH. }
    clearbody ms. subst ms.
    assert (E2 : forall l, (forall c, In c l -> cknots c = K) ->
       map (fun '(c, s) => scale_knots ((k1 - k0) / s) c) (combine (map (shift_knots k0) l) (map (fun _ : Curve R => k1 - k0) l)) =
       map (fun c => MkCurve (cdim c) (cdeg c) (cpts c) (map (fun x => x - k0) K)) l).
    { induction l as [|c l IH]; intros H; [reflexivity|]. cbn [map combine]. rewrite IH by (intros; apply H; now right). f_equal.
      unfold scale_knots, shift_knots. cbn [cdim cdeg cpts cknots]. rewrite (H c (or_introl eq_refl)). f_equal. rewrite map_map. apply map_ext. intros x. rs. field. lra. }
    change (sdiv (k1 - k0)) with (fun s => (k1 - k0) / s). change (ssub k1 k0) with (k1 - k0). cbv beta.
    rewrite E2 by (intros c Hc; apply Hcs; exact Hc). set (K' := map (fun x => x - k0) K).
    set (mg := fold_left _ (map _ cs) []).
    assert (Hmg : mg = K').
    { unfold mg. destruct cs as [|c cs]; [congruence|]. cbn [map fold_left cknots]. rewrite union_nil. clear - He.
      induction cs as [|c cs IH]; [reflexivity|]. cbn [map fold_left cknots]. rewrite union_self by exact He. exact IH. }
    rewrite Hmg. rewrite (mapM_ok _ (fun c => c)). 2:{ intros c Hc. apply in_map_iff in Hc. destruct Hc as (d & <- & _). cbn [cknots]. now rewrite sub_self. }
    now rewrite map_id.
  Qed.

  (** ** The parameters of the frames *)
  Lemma sweep_parameters_ok rail : curve_ok rail -> exists us, sweep_parameters rail = Ok us /\
    length us = (2 * length (cpts rail))%nat /\ Forall (fun u => dom0 rail <= u <= dom1 rail) us /\
    nth 0 us 0 = dom0 rail /\ nth (length us - 1) us 0 = dom1 rail.
  Proof.
    intros Hc. pose proof (co_len rail Hc) as Hl. pose proof (dom_le rail Hc) as Hd. unfold sweep_parameters. rewrite (knots_domain_ok rail Hc). cbn [bind].
    rewrite usub_ok by lia. cbn [bind]. eexists. split; [reflexivity|]. set (N := (length (cpts rail) * 2)%nat).
    assert (HN : (2 <= N)%nat) by (unfold N; lia). rewrite !(sofnat_INR eps maxv). rs.
    assert (PN : 0 < INR (N - 1)) by (apply lt_0_INR; lia).
    rewrite map_length, seq_length. split; [unfold N; lia|]. split.
    - rewrite Forall_map. apply Forall_forall. intros i Hi. apply in_seq in Hi. rewrite (sofnat_INR eps maxv).
      assert (0 <= INR i <= INR (N - 1)) by (split; [apply pos_INR|apply le_INR; lia]).
      assert (Q : 0 <= INR i * ((dom1 rail - dom0 rail) / INR (N - 1)) <= dom1 rail - dom0 rail); [|lra].
      split; [apply Rmult_le_pos; [lra|]; apply Rmult_le_pos; [lra|left; apply Rinv_0_lt_compat; lra]|].
      replace (INR i * _) with ((dom1 rail - dom0 rail) * (INR i / INR (N - 1))) by (field; lra).
      rewrite <- (Rmult_1_r (dom1 rail - dom0 rail)) at 2. apply Rmult_le_compat_l; [lra|].
      apply (Rmult_le_reg_r (INR (N - 1))); [lra|]. unfold Rdiv. rewrite Rmult_assoc, Rinv_l by lra. lra.
    - split.
      + rewrite (nth_map_lt _ _ 0 0%nat 0) by (rewrite seq_length; lia). rewrite seq_nth by lia. rewrite (sofnat_INR eps maxv). cbn [Nat.add INR]. ring.
      + rewrite (nth_map_lt _ _ (N - 1) 0%nat 0) by (rewrite seq_length; lia). rewrite seq_nth by lia. rewrite (sofnat_INR eps maxv). cbn [Nat.add]. field. lra.
  Qed.

  Lemma transform_facts f c : cdim c = 4%nat -> curve_ok c -> curve_eps eps c -> pos_weights c -> clamped c ->
    let c' := transform (frame_matrix f) c in
    curve_ok c' /\ curve_eps eps c' /\ pos_weights c' /\ clamped c' /\ cdeg c' = cdeg c /\ cdim c' = 4%nat /\ cknots c' = cknots c /\
    length (cpts c') = length (cpts c) /\ dom0 c' = dom0 c /\ dom1 c' = dom1 c.
  Proof.
    intros Hd Hc He Hw Hcl c'. pose proof (frame_matrix_affine eps maxv f) as Ha. rewrite <- Hd in Ha.
    assert (Lc : length (cpts c') = length (cpts c)) by (unfold c', transform; cbn [cpts]; apply map_length).
    split; [now apply transform_ok|]. split; [unfold curve_eps, clast; rewrite Lc; exact He|]. split.
    { intros j Hj. rewrite Lc in Hj. unfold c'. change (cdim (transform (frame_matrix f) c)) with (cdim c).
      pose proof (Hw j Hj). rewrite (transform_cpc eps maxv) by (auto; lra || lia). now rewrite Nat.eqb_refl. }
    assert (D : dom1 c' = dom1 c) by (unfold dom1; rewrite Lc; reflexivity).
    assert (D0 : dom0 c' = dom0 c) by reflexivity. assert (K : cknots c' = cknots c) by reflexivity.
    split; [unfold clamped; rewrite D, D0, K; exact Hcl|]. repeat split; assumption.
  Qed.

  (** the placed control points with index [i], one per frame *)
  Definition swept_column (fs : list (Frame R)) (profile : Curve R) (i : nat) : list (list R) :=
    map (fun f => nth i (cpts (transform (frame_matrix f) profile)) []) fs.

  Theorem sweep_spec solve profile rail dv s :
    exact_solver solve -> 0 < eps < 1 -> 1 <= maxv -> (forall d, dv = Some d -> (1 <= d)%nat) ->
    curve_ok rail -> curve_eps eps rail -> pos_weights rail -> cdim rail = 4%nat ->
    (forall u t, dom0 rail <= u <= dom1 rail -> tangent_at rail u = Ok t -> dot t t <> 0) ->
    curve_ok profile -> curve_eps eps profile -> pos_weights profile -> clamped profile -> cdim profile = 4%nat -> (1 <= cdeg profile)%nat ->
    separated eps (cknots profile) ->
    exists us fs, length us = (2 * length (cpts rail))%nat /\ nth 0 us 0 = dom0 rail /\ nth (length us - 1) us 0 = dom1 rail /\
      compute_frenet_frames rail us = Ok fs /\ length fs = length us /\
      ((forall i, (i < length (cpts profile))%nat -> spread eps (swept_column fs profile i)) ->
       try_sweep solve profile rail dv = Ok s ->
       surf_ok s /\ sdim s = 4%nat /\ sdu s = cdeg profile /\ u0 s = 0 /\ u1 s = dom1 profile - dom0 profile /\ v0 s = 0 /\ v1 s = 1 /\
       forall u, dom0 profile <= u <= dom1 profile -> exists q, point_at profile u = Ok q /\
         surf_point_at s (u - dom0 profile) 0 = Ok (placed (nth 0 fs frame0) q) /\
         surf_point_at s (u - dom0 profile) 1 = Ok (placed (nth (length fs - 1) fs frame0) q)).
  Proof.
    intros Hs He Hm Hdv Rc Re Rw Rd Rt Pc Pe Pw Pcl Pd Pp Psep.
    destruct (sweep_parameters_ok rail Rc) as (us & Eus & Lus & Dus & F0 & F1). exists us.
    pose proof (co_len rail Rc) as Hl.
    destruct (frames_spec eps maxv rail us He Hm Rc Re Rw Rd) as (fs & Efs & Lfs & Hfs & _).
    { intros ->. cbn in Lus. lia. }
    { exact Dus. }
    { rewrite Forall_forall in Dus. intros u t Hu. apply Rt. now apply Dus. }
    exists fs. do 3 (split; [assumption|]). split; [assumption|]. split; [assumption|]. intros Hsp E.
    unfold try_sweep in E. rewrite Eus in E. cbn [bind] in E. rewrite Efs in E. cbn [bind] in E.
    set (cs := map (fun f => transform (frame_matrix f) profile) fs) in *.
    assert (Lcs : length cs = length us) by (unfold cs; rewrite map_length; exact Lfs).
    assert (Fcs : forall c, In c cs -> curve_ok c /\ curve_eps eps c /\ pos_weights c /\ clamped c /\ cdeg c = cdeg profile /\ cdim c = 4%nat /\ cknots c = cknots profile /\
      length (cpts c) = length (cpts profile) /\ dom0 c = dom0 profile /\ dom1 c = dom1 profile).
    { intros c Hc. unfold cs in Hc. apply in_map_iff in Hc. destruct Hc as (f & <- & _). now apply transform_facts. }
    pose proof (dom_le profile Pc) as Hdom.
    assert (Ms : max_span cs = dom1 profile - dom0 profile).
    { unfold max_span. destruct cs as [|c l] eqn:Ecs; [cbn in Lcs; lia|]. cbn [map fold_left].
      destruct (Fcs c (or_introl eq_refl)) as (_ & _ & _ & _ & _ & _ & _ & _ & -> & ->). rewrite Rmax_right by lra.
      assert (G : forall d, In d l -> dom0 d = dom0 profile /\ dom1 d = dom1 profile). { intros d Hd. destruct (Fcs d (or_intror Hd)) as (_ & _ & _ & _ & _ & _ & _ & _ & A & B). auto. }
      clear - G. induction l as [|d l IH]; [reflexivity|]. cbn [map fold_left]. destruct (G d (or_introl eq_refl)) as (-> & ->). rewrite Rmax_left by lra. apply IH. intros e He. apply G. now right. }
    assert (Ks : forall c, In c cs -> cknots (on_span (max_span cs) c) = map (fun x => x - dom0 profile) (cknots profile)).
    { intros c Hc. destruct (Fcs c Hc) as (_ & _ & _ & _ & _ & _ & Ek & _ & D0 & D1). unfold on_span, reparam. cbn [cknots]. rewrite Ms, D0, D1, Ek.
      apply map_ext. intros x. field. lra. }
    assert (Kf : forall j, (j < length (cknots profile))%nat -> kf (map (fun x => x - dom0 profile) (cknots profile)) j = kf (cknots profile) j - dom0 profile).
    { intros j Hj. rewrite (kf_nth _ _ 0) by (rewrite map_length; lia). rewrite (nth_map_lt _ _ j 0 0) by lia. now rewrite <- kf_nth. }
    destruct (loft_sections eps maxv solve 4 (cdeg profile) cs (map (fun c => MkCurve (cdim c) (cdeg c) (cpts c) (map (fun x => x - dom0 profile) (cknots profile))) cs) dv s)
      as (S1 & S2 & S3 & S4 & S5 & S6 & S7 & S8 & S9 & S10); try assumption; try lra; try lia.
    - apply Forall_forall. intros c Hc. destruct (Fcs c Hc) as (A1 & A2 & A3 & A4 & A5 & A6 & A7 & A8 & A9 & A10).
      do 6 (split; [assumption|]). unfold curve_eps, eps_ok, clast in *. rewrite (Ks c Hc). unfold on_span, reparam. cbn [cdeg cpts].
      rewrite A5, A8. pose proof (curve_len profile Pc). pose proof (co_len profile Pc). rewrite !Kf by lia. lra.
    - assert (M : forall x, In x (concat (map (fun c => cknots (on_span (max_span cs) c)) cs)) -> exists y, In y (cknots profile) /\ x = y - dom0 profile).
      { intros x Hx. apply in_concat in Hx. destruct Hx as (k & Hk & Hx). apply in_map_iff in Hk. destruct Hk as (c & <- & Hc).
        rewrite (Ks c Hc) in Hx. apply in_map_iff in Hx. destruct Hx as (y & <- & Hy). eauto. }
      intros a b Ha Hb. destruct (M a Ha) as (a' & Ia & ->). destruct (M b Hb) as (b' & Ib & ->).
      destruct (Psep a' b' Ia Ib) as [->|Q]; [now left|right]. replace (a' - dom0 profile - (b' - dom0 profile)) with (a' - b') by ring. exact Q.
    - pose proof (curve_len profile Pc) as Hlk. destruct Pcl as (C0 & C1).
      rewrite <- C0. apply (unify_same (cdeg profile) (cknots profile) _ (kf (cknots profile) (length (cknots profile) - 1))); try lra.
      + intros Q. rewrite Q in Lcs. cbn in Lcs. lia.
      + apply Forall_forall. intros c Hc. destruct (Fcs c Hc) as (_ & _ & _ & _ & A & _ & B & _). auto.
      + apply get_kf. lia.
      + apply get_kf. lia.
    - intros i Hi. rewrite (nth_map_lt _ cs 0 (MkCurve 0 0 [] []) (MkCurve 0 0 [] [])) in Hi by lia. cbn [cpts] in Hi.
      destruct (Fcs (nth 0 cs (MkCurve 0 0 [] []))) as (_ & _ & _ & _ & _ & _ & _ & B & _); [apply nth_In; lia|]. rewrite B in Hi.
      specialize (Hsp i Hi). unfold swept_column in Hsp. unfold column. rewrite map_map. cbn [cpts]. unfold cs. rewrite map_map. exact Hsp.
    - rewrite Ms in S7. do 7 (split; [assumption|]). intros u Hu.
      pose proof (wfun_pos eps maxv profile u Pc Pe Pw Hu) as P. destruct (point_at_spec eps maxv profile u Pc Pe Hu ltac:(lra)) as (q & Eq & Lq & _). rewrite Pd in Lq.
      exists q. split; [exact Eq|].
      assert (G : forall k v, (k < length cs)%nat -> (k = 0%nat /\ v = 0) \/ (k = (length cs - 1)%nat /\ v = 1) -> surf_point_at s (u - dom0 profile) v = Ok (placed (nth k fs frame0) q)).
      { intros k v Hk Hkv. destruct (Fcs (nth k cs (MkCurve 0 0 [] []))) as (_ & _ & _ & _ & _ & _ & _ & _ & B0 & B1); [apply nth_In; lia|].
        destruct (S10 k v Hk) with (u := u) as (q' & Q1 & Q2).
        { unfold section_at. rewrite map_length. destruct Hkv as [?|?]; [left|right; left]; assumption. }
        { rewrite B0, B1. exact Hu. }
        unfold loft_u in Q2. rewrite B0, B1, Ms in Q2. replace ((u - dom0 profile) * _) with (u - dom0 profile) in Q2 by (field; lra).
        rewrite Q2. f_equal. unfold cs in Q1. rewrite (nth_map_lt _ fs k frame0 (MkCurve 0 0 [] [])) in Q1 by (rewrite Lfs; lia).
        assert (Ha : affine_matrix (cdim profile) (frame_matrix (nth k fs frame0))) by (rewrite Pd; apply frame_matrix_affine).
        rewrite (transform_affine eps maxv profile _ u q Pc Pe Ha) in Q1.
        - injection Q1 as <-. rewrite Pd. apply frame_places; [|exact Lq]. apply (Hfs k). lia.
        - intros j Hj. pose proof (Pw j Hj). lra.
        - exact Hu.
        - exact Eq. }
      split; apply G; try lia; [left|right]; split; try reflexivity. lia.
  Qed.
End Sweep.
