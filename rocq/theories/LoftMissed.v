(** * A lofted surface that does not contain its middle section *)
From Coq Require Import Reals Lra Sorted String.
From Verif Require Import Base BaseFacts Scalar RSum BSplineSpec BSpline KnotModel KnotSpec
  KnotFacts KnotProofs KnotMisc VecFacts MiscModel MiscProofs CurveModel CurveSpec CurveProofs CurveGeom CurveGeom2 CurveShapes InterpProofs
  Decompose ElevateModel MergeModel MergeProofs SurfaceModel SurfaceSpec SurfaceProofs SurfaceShapes LoftModel LoftProofs.
Open Scope list_scope. Open Scope R_scope.

(** solves the 3x3 systems whose first and last equations are trivial *)
Definition solve3 (m : list (list R)) (b : list R) : option (list R) :=
  match m, b with
  | [[a0; a1; a2]; [x; y; z]; [c0; c1; c2]], [b0; b1; b2] =>
      if Req_EM_T a0 1 then if Req_EM_T a1 0 then if Req_EM_T a2 0 then
      if Req_EM_T c0 0 then if Req_EM_T c1 0 then if Req_EM_T c2 1 then
      if Req_EM_T y 0 then None else Some [b0; (b1 - x * b0 - z * b2) / y; b2]
      else None else None else None else None else None else None
  | _, _ => None
  end.

Lemma solve3_exact : exact_solver solve3.
Proof.
  intros m b x Hr Hb E. unfold solve3 in E.
  destruct m as [|[|a0 [|a1 [|a2 [|]]]] [|[|x0 [|y [|z [|]]]] [|[|c0 [|c1 [|c2 [|]]]] [|]]]]; try discriminate E.
  destruct b as [|b0 [|b1 [|b2 [|]]]]; try discriminate E.
  destruct (Req_EM_T a0 1); [|discriminate]. destruct (Req_EM_T a1 0); [|discriminate]. destruct (Req_EM_T a2 0); [|discriminate].
  destruct (Req_EM_T c0 0); [|discriminate]. destruct (Req_EM_T c1 0); [|discriminate]. destruct (Req_EM_T c2 1); [|discriminate].
  destruct (Req_EM_T y 0); [discriminate|]. injection E as <-. subst. split; [reflexivity|]. intros i Hi. cbn [length] in *.
  destruct i as [|[|[|]]]; [| | |lia]; cbn [rsum nth]; field; assumption.
Qed.

Definition section (x0 y0 z0 x1 y1 z1 : R) : Curve R := MkCurve 4 1 [[x0; y0; z0; 1]; [x1; y1; z1; 1]] [0; 0; 1; 1].
Definition sections : list (Curve R) := [section 0 0 0 1 0 0; section 0 1 1 1 (1 / 2) 0; section 0 2 0 1 2 0].

Section Real.
  Variables eps maxv : R.
  Local Hint Extern 0 (Scalar R) => exact (ROps eps maxv) : typeclass_instances.

  Lemma union_self (l : list R) : 0 < eps -> sorted_set_union l l = l.
  Proof.
    intros He. induction l as [|x l IH]; [reflexivity|]. cbn [sorted_set_union]. rs. replace (x - x) with 0 by ring. rewrite Rabs_R0.
    rewrite (proj2 (Rltb_true _ _) He). f_equal. exact IH.
  Qed.
  Lemma union_nil (l : list R) : sorted_set_union l [] = l.
  Proof. induction l as [|x l IH]; [reflexivity|]. cbn [sorted_set_union]. f_equal. exact IH. Qed.
  Lemma sub_self (l : list R) : 0 < eps -> sorted_set_sub l l = [].
  Proof.
    intros He. induction l as [|x l IH]; [reflexivity|]. cbn [sorted_set_sub]. rs. replace (x - x) with 0 by ring. rewrite Rabs_R0.
    rewrite (proj2 (Rltb_true _ _) He). exact IH.
  Qed.

  Lemma unify_sections : 0 < eps -> unify_knots sections = Ok sections.
  Proof.
    intros He. unfold unify_knots. cbn [sections map mapM fold_left section cdeg Nat.max Nat.ltb Nat.leb bind get nth_error length usub Nat.sub combine cknots cpts cdim].
    rs. replace (Rltb 0 (1 - 0)) with true by (symmetry; apply Rltb_true; lra).
    unfold shift_knots, scale_knots. rewrite !(proj2 (Rltb_false (1 - 0) (1 - 0)) (Rle_refl _)). cbn [map section cknots cdim cdeg cpts fold_left]. rs.
    assert (E0 : (0 - 0) * ((1 - 0) / (1 - 0)) = 0) by field. assert (E1 : (1 - 0) * ((1 - 0) / (1 - 0)) = 1) by field.
    rewrite !E0, !E1. rewrite union_nil, !union_self by exact He. rewrite sub_self by exact He. reflexivity.
  Qed.

  Lemma bezier_ok : knots_ok 2 2 [0; 0; 0; 1; 1; 1].
  Proof. constructor; cbn; try lia; try (unfold kf; cbn; lra). repeat constructor; lra. Qed.

  Lemma row3 t : 0 < eps -> 0 <= t <= 1 ->
    interp_row [0; 0; 0; 1; 1; 1] 2 2 0 t = Ok [(1 - t) * (1 - t); 2 * t * (1 - t); t * t].
  Proof.
    intros He Ht. destruct (find_span_real eps maxv _ _ _ t bezier_ok He) as (s & Es & Hs & Hlt & _). assert (s = 2%nat) by lia. subst s.
    destruct (interp_row_real eps maxv _ _ _ t 2 bezier_ok Es Hs Hlt) as (row & Er & Lr & Hr). change (2 - 2)%nat with 0%nat in Er. rewrite Er. f_equal.
    destruct (bern2 t Ht) as (B0 & B1 & B2).
    assert (C : forall a, cox_closed (kf [0; 0; 0; 1; 1; 1]) 1 2 a t = bs (kf [0; 0; 0; 1; 1; 1]) 2 2 a t).
    { intros a. apply (cox_closed_bs _ _ 2); try reflexivity.
      - apply sorted_mono. repeat constructor; lra.
      - exact Hlt.
      - unfold kf; cbn; lra.
      - unfold kf; cbn. destruct (Rlt_le_dec t 1); [left; lra|right; split; [reflexivity|lra]]. }
    rewrite C in B0, B1, B2. destruct row as [|r0 [|r1 [|r2 [|]]]]; try discriminate Lr.
    pose proof (Hr 0%nat ltac:(lia)) as R0. pose proof (Hr 1%nat ltac:(lia)) as R1. pose proof (Hr 2%nat ltac:(lia)) as R2. cbn [nth] in R0, R1, R2.
    rewrite R0, R1, R2, B0, B1, B2. reflexivity.
  Qed.

  Lemma column3 P0 P1 P2 t d : 0 < eps -> 0 < t < 1 -> Forall (fun q => length q = d) [P0; P1; P2] -> distinct_steps [P0; P1; P2] ->
    iparam [P0; P1; P2] 1 = t ->
    try_interpolate_control_points solve3 [P0; P1; P2] 2 false =
    Ok (map (fun j => map (fun l => nth j [rc l P0; (rc l P1 - (1 - t) * (1 - t) * rc l P0 - t * t * rc l P2) / (2 * t * (1 - t)); rc l P2] 0) (seq 0 d)) [0; 1; 2]%nat, [0; 0; 0; 1; 1; 1]).
  Proof.
    intros He Ht Hl Hd Hi. unfold try_interpolate_control_points. change (length [P0; P1; P2] <? 2 + 1)%nat with false. cbv iota.
    rewrite (chord_params_eq eps maxv d) by (exact Hl || (cbn; lia)). cbn [bind]. rewrite (averaged_knots_eq eps maxv) by (cbn; lia). cbn [bind].
    change (iknots [P0; P1; P2] 2) with [0; 0; 0; 1; 1; 1]. rewrite !usub_ok by (cbn; lia). cbn [bind length Nat.sub Nat.add seq map mapM].
    rewrite iparam_0, Hi. replace (iparam [P0; P1; P2] 2) with 1 by (symmetry; apply (iparam_1 [P0; P1; P2] Hd); cbn; lia).
    rewrite !row3 by lra. cbn [bind].
    assert (L0 : length P0 = d) by (now inversion Hl).
    unfold try_solve_interpolation. change (get [P0; P1; P2] 0) with (Ok P0). cbn [bind]. rewrite L0.
    assert (Hy : 2 * t * (1 - t) <> 0) by nra.
    rewrite (mapM_ok _ (fun l => [rc l P0; (rc l P1 - (1 - t) * (1 - t) * rc l P0 - t * t * rc l P2) / (2 * t * (1 - t)); rc l P2])).
    2:{ intros l _. unfold solve3. cbn [map]. rewrite !coord_rc.
        destruct (Req_EM_T ((1 - 0) * (1 - 0)) 1); [|lra]. destruct (Req_EM_T (2 * 0 * (1 - 0)) 0); [|lra]. destruct (Req_EM_T (0 * 0) 0); [|lra].
        destruct (Req_EM_T ((1 - 1) * (1 - 1)) 0); [|lra]. destruct (Req_EM_T (2 * 1 * (1 - 1)) 0); [|lra]. destruct (Req_EM_T (1 * 1) 1); [|lra].
        destruct (Req_EM_T (2 * t * (1 - t)) 0); [contradiction|]. reflexivity. }
    cbn [bind length seq].
    rewrite (mapM_ok _ (fun j => map (fun l => nth j [rc l P0; (rc l P1 - (1 - t) * (1 - t) * rc l P0 - t * t * rc l P2) / (2 * t * (1 - t)); rc l P2] 0) (seq 0 d))).
    2:{ intros j Hj. rewrite (mapM_ok _ (fun xs => nth j xs 0)); [now rewrite map_map|]. intros xs Hx. apply in_map_iff in Hx. destruct Hx as (l & <- & _).
        apply get_ok. cbn [length]. cbn in Hj. lia. }
    cbn [bind]. rewrite map_id. reflexivity.
  Qed.

  Definition missing : Surf R := MkSurf 4 1 2 [0; 0; 1; 1] [0; 0; 0; 1; 1; 1]
    [[[0; 0; 0; 1]; [0; 1; 2; 1]; [0; 2; 0; 1]]; [[1; 0; 0; 1]; [1; 1; 0; 1]; [1; 2; 0; 1]]].

  Lemma loft_missing : 0 < eps -> try_loft solve3 sections (Some 2%nat) = Ok missing.
  Proof.
    intros He. unfold try_loft. rewrite unify_sections by exact He. cbn [bind]. change (get sections 0) with (Ok (section 0 0 0 1 0 0)). cbn [bind].
    change (usub (length sections) 1) with (Ok 2%nat). cbn [bind]. change (Nat.min 2 2) with 2%nat. change (cdim (section 0 0 0 1 0 0)) with 4%nat.
    change (length (cpts (section 0 0 0 1 0 0))) with 2%nat. cbn [seq mapM].
    assert (C0 : loft_column solve3 4 2 sections 0 = Ok (MkCurve 4 2 [[0; 0; 0; 1]; [0; 1; 2; 1]; [0; 2; 0; 1]] [0; 0; 0; 1; 1; 1])).
    { unfold loft_column. change (mapM (fun c : Curve R => get (cpts c) 0) sections) with (Ok [[0; 0; 0; 1]; [0; 1; 1; 1]; [0; 2; 0; 1]]). cbn [bind].
      assert (R1 : rdist [0; 0; 0; 1] [0; 1; 1; 1] = sqrt 2) by (unfold rdist; cbn; f_equal; unfold rc; cbn; ring).
      assert (R2 : rdist [0; 1; 1; 1] [0; 2; 0; 1] = sqrt 2) by (unfold rdist; cbn; f_equal; unfold rc; cbn; ring).
      assert (0 < sqrt 2) by (apply sqrt_lt_R0; lra).
      rewrite (column3 _ _ _ (1 / 2) 4 He ltac:(lra)).
      - cbn [bind map seq nth]. unfold rc. cbn [nth].
        rewrite (try_new_sorted eps maxv); [|cbn; lia|reflexivity|repeat constructor; lra].
        f_equal. f_equal. repeat (apply f_equal2; [do 4 (apply f_equal2; [lra|]); reflexivity|]). reflexivity.
      - repeat (apply Forall_cons; [reflexivity|]). constructor.
      - intros [|[|i]] Hi; cbn [nth]; [rewrite R1; assumption|rewrite R2; assumption|cbn in Hi; lia].
      - unfold iparam, chord. cbn [length Nat.sub rsum nth]. rewrite R1, R2. field. lra. }
    assert (C1 : loft_column solve3 4 2 sections 1 = Ok (MkCurve 4 2 [[1; 0; 0; 1]; [1; 1; 0; 1]; [1; 2; 0; 1]] [0; 0; 0; 1; 1; 1])).
    { unfold loft_column. change (mapM (fun c : Curve R => get (cpts c) 1) sections) with (Ok [[1; 0; 0; 1]; [1; 1 / 2; 0; 1]; [1; 2; 0; 1]]). cbn [bind].
      assert (R1 : rdist [1; 0; 0; 1] [1; 1 / 2; 0; 1] = 1 / 2).
      { unfold rdist. transitivity (sqrt (1 / 2 * (1 / 2))); [|apply sqrt_square; lra]. cbn; f_equal; unfold rc; cbn; field. }
      assert (R2 : rdist [1; 1 / 2; 0; 1] [1; 2; 0; 1] = 3 / 2).
      { unfold rdist. transitivity (sqrt (3 / 2 * (3 / 2))); [|apply sqrt_square; lra]. cbn; f_equal; unfold rc; cbn; field. }
      rewrite (column3 _ _ _ (1 / 4) 4 He ltac:(lra)).
      - cbn [bind map seq nth]. unfold rc. cbn [nth].
        rewrite (try_new_sorted eps maxv); [|cbn; lia|reflexivity|repeat constructor; lra].
        f_equal. f_equal. repeat (apply f_equal2; [do 4 (apply f_equal2; [lra|]); reflexivity|]). reflexivity.
      - repeat (apply Forall_cons; [reflexivity|]). constructor.
      - intros [|[|i]] Hi; cbn [nth]; [rewrite R1; lra|rewrite R2; lra|cbn in Hi; lia].
      - unfold iparam, chord. cbn [length Nat.sub rsum nth]. rewrite R1, R2. field. }
    rewrite C0, C1. reflexivity.
  Qed.

  Theorem loft_misses_section_refuted : 0 < eps <= 1 ->
    exists s q, exact_solver solve3 /\ try_loft solve3 sections (Some 2%nat) = Ok s /\
      point_at (nth 1 sections (MkCurve 0 0 [] [])) (1 / 2) = Ok q /\
      forall u v, in_dom s u v -> surf_point_at s u v <> Ok q.
  Proof.
    intros He. exists missing, [1 / 2; 3 / 4; 1 / 2]. split; [exact solve3_exact|]. split; [apply loft_missing; lra|]. split.
    - set (c := nth 1 sections _).
      assert (Hc : curve_ok c).
      { constructor; cbn; try lia.
        - repeat (apply Forall_cons; [reflexivity|]). constructor.
        - constructor; cbn; try lia; try (unfold kf; cbn; lra). repeat constructor; lra. }
      assert (Hce : curve_eps eps c) by (unfold curve_eps, eps_ok, kf; cbn; lra).
      assert (Hh : forall l, hcoord c l (1 / 2) = cpc c l 0 / 2 + cpc c l 1 / 2).
      { intros l. unfold hcoord. change (length (cpts c)) with 2%nat. change (cknots c) with [0; 0; 1; 1]. change (cdeg c) with 1%nat. change (dom1 c) with 1. cbn [rsum].
        destruct (bern1 (1 / 2) ltac:(lra)) as (-> & ->). field. }
      destruct (point_at_spec eps maxv c (1 / 2) Hc Hce) as (p & Ep & Lp & Hp).
      { unfold dom0, dom1, kf. cbn. lra. }
      { unfold wfun. rewrite Hh. unfold cpc, rc. cbn. lra. }
      rewrite Ep. f_equal. apply (vec_ext _ _ 3); [exact Lp|reflexivity|]. intros l Hl. rewrite Hp by exact Hl. unfold nurbs, wfun. rewrite !Hh.
      unfold cpc, rc. destruct l as [|[|[|]]]; [| | |lia]; cbn; field.
    - intros u v Hd E.
      assert (So : surf_ok missing).
      { constructor; cbn; try lia.
        - repeat (apply Forall_cons; [reflexivity|]). constructor.
        - repeat (apply Forall_cons; [repeat (apply Forall_cons; [reflexivity|]); constructor|]). constructor.
        - constructor; cbn; try lia; try (unfold kf; cbn; lra). repeat constructor; lra.
        - exact bezier_ok. }
      assert (Se : surf_eps eps missing) by (split; unfold eps_ok, kf; cbn; lra).
      assert (D : 0 <= u <= 1 /\ 0 <= v <= 1) by (unfold in_dom, u0, u1, v0, v1, kf in Hd; cbn in Hd; exact Hd). destruct D as (Du & Dv).
      assert (Sh : forall l, shcoord missing l u v = (1 - u) * ((1 - v) * (1 - v) * spc missing l 0 0 + 2 * v * (1 - v) * spc missing l 0 1 + v * v * spc missing l 0 2)
         + u * ((1 - v) * (1 - v) * spc missing l 1 0 + 2 * v * (1 - v) * spc missing l 1 1 + v * v * spc missing l 1 2)).
      { intros l. unfold shcoord. change (nrow missing) with 2%nat. change (ncol missing) with 3%nat. cbn [rsum]. unfold Nu, Nv.
        change (suk missing) with [0; 0; 1; 1]. change (svk missing) with [0; 0; 0; 1; 1; 1]. change (sdu missing) with 1%nat. change (sdv missing) with 2%nat.
        change (u1 missing) with 1. change (v1 missing) with 1. destruct (bern1 u Du) as (-> & ->). destruct (bern2 v Dv) as (-> & -> & ->). ring. }
      assert (W : swfun missing u v = 1) by (unfold swfun; rewrite Sh; unfold spc, rc; cbn; ring).
      destruct (surf_point_at_spec eps maxv missing u v So Se Hd ltac:(rewrite W; lra)) as (p & Ep & Lp & Hp).
      rewrite E in Ep. injection Ep as <-.
      pose proof (Hp 0%nat ltac:(cbn; lia)) as P0. pose proof (Hp 1%nat ltac:(cbn; lia)) as P1. pose proof (Hp 2%nat ltac:(cbn; lia)) as P2.
      unfold snurbs in P0, P1, P2. rewrite W, Sh in P0, P1, P2. unfold spc, rc in P0, P1, P2. cbn [missing snet nth] in P0, P1, P2.
      assert (Eu : u = 1 / 2) by lra. assert (Ev : v = 3 / 8) by (subst u; lra). subst u v. lra.
  Qed.
End Real.
