(** * Concrete sections that meet the hypotheses of the loft theorems *)
From Coq Require Import Reals Lra Sorted String.
From Verif Require Import Base BaseFacts Scalar RSum BSplineSpec BSpline KnotModel KnotSpec
  KnotFacts KnotProofs KnotMisc VecFacts MiscModel MiscProofs CurveModel CurveSpec CurveProofs CurveGeom CurveGeom2 CurveShapes InterpProofs
  Decompose ElevateModel MergeModel MergeProofs SurfaceModel SurfaceSpec SurfaceProofs SurfaceShapes LoftModel LoftProofs LoftMissed Demo.
Open Scope list_scope. Open Scope R_scope.

Section Real.
  Local Hint Extern 0 (Scalar R) => exact (ROps eps0 maxv0) : typeclass_instances.

  Lemma sec_ok x0 y0 z0 x1 y1 z1 S : S = 1 -> let c := section x0 y0 z0 x1 y1 z1 in
    curve_ok c /\ curve_eps eps0 c /\ pos_weights c /\ clamped c /\ cdeg c = 1%nat /\ cdim c = 4%nat /\ curve_eps eps0 (on_span S c).
  Proof.
    intros -> c. split; [|split; [|split; [|split; [|split; [reflexivity|split; [reflexivity|]]]]]].
    - constructor; cbn; try lia.
      + repeat (apply Forall_cons; [reflexivity|]). constructor.
      + constructor; cbn; try lia; try (unfold kf; cbn; lra). repeat constructor; lra.
    - unfold curve_eps, eps_ok, kf, eps0; cbn; lra.
    - intros j Hj. cbn in Hj. destruct j as [|[|]]; [| |lia]; unfold cpc, rc; cbn; lra.
    - split; reflexivity.
    - unfold curve_eps, eps_ok, kf, eps0, on_span, reparam, dom0, dom1, clast, kf. cbn. lra.
  Qed.

  Lemma span_one c l : (forall d, In d (c :: l) -> dom0 d = 0 /\ dom1 d = 1) -> max_span (c :: l) = 1.
  Proof.
    intros H. unfold max_span. cbn [map fold_left]. destruct (H c (or_introl eq_refl)) as (-> & ->).
    rewrite Rmax_right by lra. replace (1 - 0) with 1 by lra.
    assert (G : forall d, In d l -> dom0 d = 0 /\ dom1 d = 1) by (intros; apply H; now right). clear H.
    induction l as [|d l IH]; [reflexivity|]. cbn [map fold_left]. destruct (G d (or_introl eq_refl)) as (-> & ->). rewrite Rmax_left by lra. apply IH. intros e He. apply G. now right.
  Qed.


  Lemma sections_sep (l : list (Curve R)) : (forall d, In d l -> cknots d = [0; 0; 1; 1] /\ cdeg d = 1%nat /\ length (cpts d) = 2%nat) ->
    separated eps0 (concat (map (fun c => cknots (on_span 1 c)) l)).
  Proof.
    intros H.
    assert (M : forall x, In x (concat (map (fun c => cknots (on_span 1 c)) l)) -> x = 0 \/ x = 1).
    { intros x Hx. apply in_concat in Hx. destruct Hx as (k & Hk & Hx). apply in_map_iff in Hk. destruct Hk as (c & <- & Hc).
      destruct (H c Hc) as (E1 & E2 & E3). unfold on_span, reparam, dom0, dom1 in Hx. cbn [cknots] in Hx. rewrite E1, E2, E3 in Hx. unfold kf in Hx. cbn in Hx.
      destruct Hx as [<-|[<-|[<-|[<-|[]]]]]; [left|left|right|right]; field. }
    intros a b Ha Hb. destruct (M a Ha) as [->| ->], (M b Hb) as [->| ->]; [left; reflexivity|right|right|left; reflexivity]; unfold eps0; unfold Rabs; destruct (Rcase_abs _); lra.
  Qed.

  Lemma case_span : max_span sections = 1.
  Proof. apply span_one. intros d [<-|[<-|[<-|[]]]]; split; reflexivity. Qed.

  Lemma case_spread i : (i < 2)%nat -> spread eps0 (column sections i).
  Proof.
    assert (Q : 0 < sqrt 2) by (apply sqrt_lt_R0; lra).
    assert (R1 : rdist [0; 0; 0; 1] [0; 1; 1; 1] = sqrt 2) by (unfold rdist; cbn; f_equal; unfold rc; cbn; ring).
    assert (R2 : rdist [0; 1; 1; 1] [0; 2; 0; 1] = sqrt 2) by (unfold rdist; cbn; f_equal; unfold rc; cbn; ring).
    assert (R3 : rdist [1; 0; 0; 1] [1; 1 / 2; 0; 1] = 1 / 2).
    { unfold rdist. transitivity (sqrt (1 / 2 * (1 / 2))); [|apply sqrt_square; lra]. cbn; f_equal; unfold rc; cbn; field. }
    assert (R4 : rdist [1; 1 / 2; 0; 1] [1; 2; 0; 1] = 3 / 2).
    { unfold rdist. transitivity (sqrt (3 / 2 * (3 / 2))); [|apply sqrt_square; lra]. cbn; f_equal; unfold rc; cbn; field. }
    intros Hi. destruct i as [|[|]]; [| |lia]; (split; [intros [|[|j]] Hj|intros [|[|j]] Hj]); try (cbn in Hj; lia);
      unfold iparam, chord; cbn [column sections map section cpts nth length Nat.sub rsum]; rewrite ?R1, ?R2, ?R3, ?R4; try lra; unfold eps0.
    all: match goal with |- _ <= ?x => first [replace x with (1 / 2) by (field; lra); lra | replace x with (1 / 4) by (field; lra); lra | replace x with (3 / 4) by (field; lra); lra] end.
  Qed.

  (** the two segments of a ruled patch *)
  Definition rails : list (Curve R) := [section 0 0 0 1 0 0; section 0 1 0 1 1 1].
  Definition solve2id (m : list (list R)) (b : list R) : option (list R) :=
    match m, b with
    | [[a0; a1]; [c0; c1]], [b0; b1] =>
        if Req_EM_T a0 1 then if Req_EM_T a1 0 then if Req_EM_T c0 0 then if Req_EM_T c1 1 then Some [b0; b1]
        else None else None else None else None
    | _, _ => None
    end.
  Lemma solve2id_exact : exact_solver solve2id.
  Proof.
    intros m b x Hr Hb E. unfold solve2id in E.
    destruct m as [|[|a0 [|a1 [|]]] [|[|c0 [|c1 [|]]] [|]]]; try discriminate E. destruct b as [|b0 [|b1 [|]]]; try discriminate E.
    destruct (Req_EM_T a0 1); [|discriminate]. destruct (Req_EM_T a1 0); [|discriminate]. destruct (Req_EM_T c0 0); [|discriminate]. destruct (Req_EM_T c1 1); [|discriminate].
    injection E as <-. subst. split; [reflexivity|]. intros i Hi. cbn [length] in *. destruct i as [|[|]]; [| |lia]; cbn [rsum nth]; ring.
  Qed.
  Lemma rails_unify : unify_knots rails = Ok rails.
  Proof.
    assert (He : 0 < eps0) by (unfold eps0; lra).
    unfold unify_knots. cbn [rails map mapM fold_left section cdeg Nat.max Nat.ltb Nat.leb bind get nth_error length usub Nat.sub combine cknots cpts cdim].
    rs. replace (Rltb 0 (1 - 0)) with true by (symmetry; apply Rltb_true; lra).
    unfold shift_knots, scale_knots. rewrite !(proj2 (Rltb_false (1 - 0) (1 - 0)) (Rle_refl _)). cbn [map section cknots cdim cdeg cpts fold_left]. rs.
    assert (E0 : (0 - 0) * ((1 - 0) / (1 - 0)) = 0) by field. assert (E1 : (1 - 0) * ((1 - 0) / (1 - 0)) = 1) by field.
    rewrite !E0, !E1. rewrite union_nil, !(union_self eps0 maxv0) by exact He. rewrite (sub_self eps0 maxv0) by exact He. reflexivity.
  Qed.
  Lemma rails_spread i : (i < 2)%nat -> spread eps0 (column rails i).
  Proof.
    assert (R1 : rdist [0; 0; 0; 1] [0; 1; 0; 1] = 1).
    { unfold rdist. transitivity (sqrt (1 * 1)); [|apply sqrt_square; lra]. cbn; f_equal; unfold rc; cbn; ring. }
    assert (R2 : rdist [1; 0; 0; 1] [1; 1; 1; 1] = sqrt 2) by (unfold rdist; cbn; f_equal; unfold rc; cbn; ring).
    assert (Q : 0 < sqrt 2) by (apply sqrt_lt_R0; lra).
    intros Hi. destruct i as [|[|]]; [| |lia]; (split; [intros [|j] Hj|intros [|j] Hj]); try (cbn in Hj; lia);
      unfold iparam, chord; cbn [column rails map section cpts nth length Nat.sub rsum]; rewrite ?R1, ?R2; try lra; unfold eps0.
    all: match goal with |- _ <= ?x => replace x with 1 by (field; lra); lra end.
  Qed.
  Lemma line_ok : knots_ok 1 1 [0; 0; 1; 1].
  Proof. constructor; cbn; try lia; try (unfold kf; cbn; lra). repeat constructor; lra. Qed.
  Lemma row2 t : 0 <= t <= 1 -> interp_row [0; 0; 1; 1] 1 1 0 t = Ok [1 - t; t].
  Proof.
    intros Ht. assert (He : 0 < eps0) by (unfold eps0; lra). destruct (find_span_real eps0 maxv0 _ _ _ t line_ok He) as (s & Es & Hs & Hlt & _). assert (s = 1%nat) by lia. subst s.
    destruct (interp_row_real eps0 maxv0 _ _ _ t 1 line_ok Es Hs Hlt) as (row & Er & Lr & Hr). change (1 - 1)%nat with 0%nat in Er. rewrite Er. f_equal.
    destruct (bern1 t Ht) as (B0 & B1).
    assert (C : forall a, cox_closed (kf [0; 0; 1; 1]) 1 1 a t = bs (kf [0; 0; 1; 1]) 1 1 a t).
    { intros a. apply (cox_closed_bs _ _ 1); try reflexivity.
      - apply sorted_mono. repeat constructor; lra.
      - exact Hlt.
      - unfold kf; cbn; lra.
      - unfold kf; cbn. destruct (Rlt_le_dec t 1); [left; lra|right; split; [reflexivity|lra]]. }
    rewrite C in B0, B1. destruct row as [|r0 [|r1 [|]]]; try discriminate Lr.
    pose proof (Hr 0%nat ltac:(lia)) as R0. pose proof (Hr 1%nat ltac:(lia)) as R1. cbn [nth] in R0, R1. rewrite R0, R1, B0, B1. reflexivity.
  Qed.
  Lemma rails_loft : try_loft solve2id rails None = Ok (MkSurf 4 1 1 [0; 0; 1; 1] [0; 0; 1; 1]
     [[[0; 0; 0; 1]; [0; 1; 0; 1]]; [[1; 0; 0; 1]; [1; 1; 1; 1]]]).
  Proof.
    unfold try_loft. rewrite rails_unify. cbn [bind]. change (get rails 0) with (Ok (section 0 0 0 1 0 0)). cbn [bind].
    change (usub (length rails) 1) with (Ok 1%nat). cbn [bind]. change (Nat.min (cdeg (section 0 0 0 1 0 0)) 1) with 1%nat. change (cdim (section 0 0 0 1 0 0)) with 4%nat.
    change (length (cpts (section 0 0 0 1 0 0))) with 2%nat. cbn [seq mapM].
    assert (C : forall i, (i < 2)%nat -> loft_column solve2id 4 1 rails i = Ok (MkCurve 4 1 (column rails i) [0; 0; 1; 1])).
    { intros i Hi. unfold loft_column. rewrite (mapM_ok _ (fun c => nth i (cpts c) [])).
      2:{ intros c [<-|[<-|[]]]; apply get_ok; exact Hi. }
      fold (column rails i). cbn [bind]. unfold try_interpolate_control_points. change (length (column rails i)) with 2%nat. cbn [Nat.ltb Nat.leb Nat.add].
      assert (Hl : Forall (fun q => length q = 4%nat) (column rails i)).
      { unfold column. rewrite Forall_map. apply Forall_forall. intros c [<-|[<-|[]]]; destruct i as [|[|]]; try lia; reflexivity. }
      rewrite (chord_params_eq eps0 maxv0 4) by (exact Hl || (cbn; lia)). cbn [bind]. rewrite (averaged_knots_eq eps0 maxv0) by (cbn; lia). cbn [bind].
      change (iknots (column rails i) 1) with [0; 0; 1; 1]. change (length (column rails i)) with 2%nat. rewrite !usub_ok by lia. cbn [bind Nat.sub seq map mapM].
      rewrite iparam_0. replace (iparam (column rails i) 1) with 1 by (symmetry; apply (iparam_1 (column rails i)); [apply (rails_spread i Hi)|cbn; lia]).
      rewrite !row2 by lra. cbn [bind]. unfold try_solve_interpolation. rewrite (get_ok _ 0 []) by (cbn; lia). cbn [bind].
      assert (L0 : length (nth 0 (column rails i) []) = 4%nat) by (destruct i as [|[|]]; try lia; reflexivity). rewrite L0.
      rewrite (mapM_ok _ (fun l => map (coord l) (column rails i))).
      2:{ intros l _. unfold solve2id. cbn [column rails map]. destruct (Req_EM_T (1 - 0) 1); [|lra]. destruct (Req_EM_T 0 0); [|lra]. destruct (Req_EM_T (1 - 1) 0); [|lra]. destruct (Req_EM_T 1 1); [|lra]. reflexivity. }
      cbn [bind]. destruct i as [|[|]]; try lia.
      - cbn -[try_new]. rewrite (try_new_sorted eps0 maxv0); [reflexivity|cbn; lia|reflexivity|repeat constructor; lra].
      - cbn -[try_new]. rewrite (try_new_sorted eps0 maxv0); [reflexivity|cbn; lia|reflexivity|repeat constructor; lra]. }
    rewrite !C by lia. cbn [bind]. reflexivity.
  Qed.
End Real.
