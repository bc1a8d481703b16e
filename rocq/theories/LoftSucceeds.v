(** * Lofting succeeds: every column of control points is interpolated *)
From Coq Require Import Reals Lra Sorted String.
From Verif Require Import Base BaseFacts Scalar RSum BSplineSpec BSpline KnotModel KnotSpec
  KnotFacts KnotProofs KnotMisc VecFacts MiscModel CurveModel CurveSpec CurveProofs CurveGeom CurveGeom2 CurveShapes InterpProofs
  Decompose MergeModel MergeProofs SurfaceModel SurfaceSpec SurfaceProofs SurfaceShapes LoftModel LoftProofs SchoenbergWhitney InterpUnique.
Open Scope list_scope. Open Scope R_scope.

Section Real.
  Variables eps maxv : R.
  Local Hint Extern 0 (Scalar R) => exact (ROps eps maxv) : typeclass_instances.
  Local Notation spread := (spread eps).

  Lemma spread_steps pts : 0 < eps -> (2 <= length pts)%nat -> spread pts -> steps_above_eps eps pts.
  Proof.
    intros He Hn (Hd & Hs). unfold steps_above_eps. split; [exact He|].
    pose proof (iparam_0 pts) as Z. pose proof (iparam_1 pts Hd ltac:(lia)) as O.
    pose proof (Hs 0%nat ltac:(lia)) as A. pose proof (Hs (length pts - 1 - 1)%nat ltac:(lia)) as B.
    replace (S (length pts - 1 - 1))%nat with (length pts - 1)%nat in B by lia. lra.
  Qed.

  (** interpolating without appending a weight succeeds whenever interpolating with one does *)
  Lemma column_succeeds solve d pts p :
    exact_solver solve -> complete_solver solve -> 0 < eps -> (1 <= p)%nat -> (p + 1 <= length pts)%nat ->
    Forall (fun q => length q = d) pts -> spread pts ->
    exists cp, try_interpolate_control_points solve pts p false = Ok (cp, iknots pts p).
  Proof.
    intros Hs Hcs He Hp Hn Hl Hsp. pose proof (proj1 Hsp) as Hd.
    destruct (interpolate_succeeds eps maxv solve (S d) pts p Hs Hcs ltac:(lia) Hp Hn) as (c & E & _); [rewrite Nat.sub_succ, Nat.sub_0_r; exact Hl|exact Hd|apply spread_steps; [exact He|lia|exact Hsp]|].
    unfold try_interpolate in E. apply bind_ok in E. destruct E as ((cp & k) & E & _).
    unfold try_interpolate_control_points in *. destruct (Nat.ltb_spec (length pts) (p + 1)); [lia|].
    rewrite (chord_params_eq eps maxv d) in * by (auto; lia). cbn [bind] in *.
    rewrite (averaged_knots_eq eps maxv) in * by (auto; lia). cbn [bind] in *. rewrite !usub_ok in * by lia. cbn [bind] in *.
    apply bind_ok in E. destruct E as (rows & Er & E). rewrite Er. cbn [bind].
    apply bind_ok in E. destruct E as (x & Es & E).
    unfold try_solve_interpolation in *. do 3 (apply bind_ok in Es; let x := fresh "x" in let F := fresh "F" in destruct Es as (x & F & Es); rewrite F; cbn [bind]).
    eexists. reflexivity.
  Qed.

  (** *** Lofting sections whose control points move apart always gives a surface, whatever the degrees *)
  Theorem loft_succeeds solve D p cs us dv :
    exact_solver solve -> complete_solver solve -> 0 < eps -> (2 <= length cs)%nat -> (1 <= p)%nat -> (forall d, dv = Some d -> (1 <= d)%nat) ->
    Forall (fun c => curve_ok c /\ curve_eps eps c /\ pos_weights c /\ clamped c /\ cdeg c = p /\ cdim c = D /\
                     curve_eps eps (on_span (max_span cs) c)) cs ->
    separated eps (concat (map (fun c => cknots (on_span (max_span cs) c)) cs)) ->
    unify_knots cs = Ok us -> (forall i, (i < length (cpts (nth 0 us (MkCurve 0 0 [] []))))%nat -> spread (column us i)) ->
    exists s, try_loft solve cs dv = Ok s /\
      surf_ok s /\ sdim s = D /\ sdu s = p /\
      sdv s = Nat.min (match dv with Some d => d | None => p end) (length cs - 1) /\ u0 s = 0 /\ u1 s = max_span cs /\ v0 s = 0 /\ v1 s = 1 /\
      forall k v, (k < length cs)%nat -> section_at us k v ->
        forall u, let c := nth k cs (MkCurve 0 0 [] []) in dom0 c <= u <= dom1 c ->
        exists q, point_at c u = Ok q /\ surf_point_at s (loft_u cs c u) v = Ok q.
  Proof.
    intros Hs Hcs He Hn Hp Hdv Hall Hsep Hun Hsp.
    assert (G : exists s, try_loft solve cs dv = Ok s).
    { destruct (unify_spec eps maxv He p cs) as (us' & ks & Eu & Hks & Hcnt & F2).
      { eapply Forall_impl; [|exact Hall]. intros c H. cbv beta in *. tauto. }
      { exact Hsep. }
      rewrite Hun in Eu. injection Eu as <-. pose proof (Forall2_len _ _ _ F2) as Lus.
      assert (At : forall k, (k < length us)%nat -> let c' := nth k us (MkCurve 0 0 [] []) in
        cknots c' = ks /\ cdeg c' = p /\ cdim c' = D /\ curve_ok c').
      { intros k Hk c'. rewrite Forall_forall in Hall. destruct (Hall (nth k cs (MkCurve 0 0 [] [])) ltac:(apply nth_In; lia)) as (_ & _ & _ & _ & _ & H4 & _).
        destruct (Forall2_nth_lem _ _ _ k (MkCurve 0 0 [] []) (MkCurve 0 0 [] []) F2 ltac:(lia)) as (K1 & K2 & K3 & K4 & _). fold c' in K1, K2, K3, K4.
        repeat (split; [congruence || assumption|]). assumption. }
      set (c0 := nth 0 us (MkCurve 0 0 [] [])) in *. set (N := length (cpts c0)) in *.
      destruct (At 0%nat ltac:(lia)) as (K1 & K2 & K3 & K4). fold c0 in K1, K2, K3, K4.
      assert (HpN : (p < N)%nat) by (rewrite <- K2; apply K4).
      assert (HD : (1 <= D)%nat) by (rewrite <- K3; apply K4).
      assert (HNs : forall k, (k < length us)%nat -> length (cpts (nth k us (MkCurve 0 0 [] []))) = N).
      { intros k Hk. destruct (At k Hk) as (A1 & A2 & _ & A4). pose proof (ko_len _ _ _ (co_knots _ A4)) as L1. pose proof (ko_len _ _ _ (co_knots c0 K4)) as L2.
        pose proof (co_len _ A4) as L3. rewrite A1, A2 in L1. rewrite A2 in L3. rewrite K1, K2 in L2. unfold clast in L1, L2. fold N in L2. lia. }
      unfold try_loft. rewrite Hun. cbn [bind]. rewrite (get_ok us 0 (MkCurve 0 0 [] [])) by lia. cbn [bind]. fold c0.
      rewrite usub_ok by lia. cbn [bind]. fold N. rewrite K1, K2, K3.
      set (q := Nat.min _ _). assert (Hq : (1 <= q <= length us - 1)%nat).
      { unfold q. destruct dv as [d|]; [specialize (Hdv d eq_refl)|]; lia. }
      assert (Hc : forall i, (i < N)%nat -> exists c, loft_column solve D q us i = Ok c).
      { intros i Hi. unfold loft_column. rewrite (mapM_ok _ (fun c => nth i (cpts c) [])).
        2:{ intros x Hx. destruct (In_nth _ _ (MkCurve 0 0 [] []) Hx) as (k & Hk & <-). apply get_ok. rewrite HNs by exact Hk. exact Hi. }
        cbn [bind]. fold (column us i). assert (Lcol : length (column us i) = length us) by apply map_length.
        assert (Hl : Forall (fun q => length q = D) (column us i)).
        { unfold column. rewrite Forall_map. apply Forall_forall. intros x Hx. destruct (In_nth _ _ (MkCurve 0 0 [] []) Hx) as (k & Hk & <-).
          destruct (At k Hk) as (_ & _ & Dx & Okx). pose proof (co_pts _ Okx) as G. rewrite Forall_forall in G. rewrite <- Dx. apply G, nth_In. rewrite HNs by exact Hk. exact Hi. }
        destruct (column_succeeds solve D (column us i) q Hs Hcs He ltac:(lia) ltac:(lia) Hl (Hsp i Hi)) as (cp & E). rewrite E. cbn [bind].
        destruct (column_passes eps maxv solve D (column us i) q cp _ Hs He HD ltac:(lia) ltac:(lia) Hl (Hsp i Hi) E) as (_ & Lcp & _).
        eexists. apply (try_new_sorted eps maxv); [lia|rewrite iknots_len by lia; lia|apply (iknots_ok _ _ (proj1 (Hsp i Hi))); lia]. }
      assert (Q : forall l, (forall i, In i l -> (i < N)%nat) -> exists cols, mapM (loft_column solve D q us) l = Ok cols /\ length cols = length l).
      { induction l as [|i l IH]; intros B; [exists []; split; reflexivity|].
        destruct (Hc i (B i (or_introl eq_refl))) as (c & Ec). destruct IH as (cols & E & L); [intros x Hx; apply B; right; exact Hx|].
        exists (c :: cols). cbn [mapM]. rewrite Ec. cbn [bind]. rewrite E. split; [reflexivity|cbn [length]; lia]. }
      destruct (Q (seq 0 N)) as (cols & E & L); [intros i Hi; apply in_seq in Hi; lia|]. rewrite seq_length in L.
      rewrite E. cbn [bind]. rewrite usub_ok by lia. cbn [bind]. rewrite (get_ok cols _ (MkCurve 0 0 [] [])) by lia. cbn [bind]. eexists. reflexivity. }
    destruct G as (s & E). exists s. split; [exact E|].
    destruct (loft_sections eps maxv solve D p cs us dv s Hs He Hn Hp Hdv Hall Hsep Hun Hsp E) as (A1 & _ & A2 & A3 & A4 & A5 & A6 & A7 & A8 & A9).
    tauto.
  Qed.
End Real.
