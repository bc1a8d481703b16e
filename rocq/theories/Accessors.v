(** * Evaluation in terms of the public accessors *)
From Coq Require Import Reals Lra Sorted ZArith String.
From Verif Require Import Base BaseFacts Scalar RSum BSplineSpec BSpline KnotModel KnotSpec KnotFacts KnotProofs VecFacts
  CurveModel CurveSpec CurveProofs CurveGeom CurveGeom2.
Open Scope list_scope. Open Scope R_scope.

Section Real.
  Variables eps maxv : R.
  Local Hint Extern 0 (Scalar R) => exact (ROps eps maxv) : typeclass_instances.

  (** the affine control points and the weights, and how the homogeneous control points follow from them *)
  Theorem accessors_spec (c : Curve R) : curve_ok c -> pos_weights c ->
    exists ps, dehomogenized_control_points c = Ok ps /\ length ps = length (cpts c) /\ length (weights c) = length (cpts c) /\
      forall j, (j < length (cpts c))%nat -> length (nth j ps []) = (cdim c - 1)%nat /\ 0 < nth j (weights c) 0 /\
        nth j (cpts c) [] = vscale (nth j ps []) (nth j (weights c) 0) ++ [nth j (weights c) 0].
  Proof.
    intros Hc Hw. set (D := (cdim c - 1)%nat).
    assert (Lp : forall p, In p (cpts c) -> length p = S D).
    { intros p Hp. pose proof (co_pts c Hc) as F. rewrite Forall_forall in F. rewrite (F p Hp). pose proof (co_dim c Hc). unfold D. lia. }
    exists (map (fun p => vdivs (firstn D p) (rc D p)) (cpts c)).
    assert (Ew : forall j, (j < length (cpts c))%nat -> nth j (weights c) 0 = cpc c D j).
    { intros j Hj. unfold weights. rewrite (nth_map_lt _ (cpts c) j [] 0) by exact Hj. reflexivity. }
    split; [|split; [now rewrite map_length|split; [unfold weights; now rewrite map_length|]]].
    - unfold dehomogenized_control_points. apply (mapM_ok _ (fun p => vdivs (firstn D p) (rc D p))). intros p Hp.
      destruct (In_nth _ _ [] Hp) as (j & Hj & E). pose proof (Hw j Hj) as W. unfold cpc in W. rewrite E in W. fold D in W.
      unfold dehomogenize. fold D. change (coord D p) with (rc D p). rs. rewrite (proj2 (Reqb_false _ _)) by lra. reflexivity.
    - intros j Hj. rewrite (Ew j Hj). rewrite (nth_map_lt _ (cpts c) j [] []) by exact Hj. pose proof (Hw j Hj) as W. fold D in W. unfold cpc in *.
      pose proof (Lp _ (nth_In _ [] Hj)) as L. set (p := nth j (cpts c) []) in *. clearbody p.
      split; [unfold vdivs; rewrite map_length, firstn_length; lia|]. split; [exact W|].
      unfold vdivs, vscale. rewrite map_map. rs.
      rewrite (map_ext _ (fun x => x)) by (intros x; field; lra). rewrite map_id.
      apply (list_ext 0); [rewrite app_length, firstn_length; cbn [length]; lia|]. intros i Hi.
      destruct (Nat.lt_ge_cases i D) as [C|C].
      + rewrite app_nth1 by (rewrite firstn_length; lia). symmetry. apply nth_firstn. exact C.
      + rewrite app_nth2 by (rewrite firstn_length; lia). rewrite firstn_length, Nat.min_l by lia. replace i with D by lia. rewrite Nat.sub_diag. reflexivity.
  Qed.

  Theorem evaluation_accessors (c : Curve R) u : curve_ok c -> curve_eps eps c -> pos_weights c -> dom0 c <= u <= dom1 c ->
    exists ps p, dehomogenized_control_points c = Ok ps /\ point_at c u = Ok p /\ length p = (cdim c - 1)%nat /\
      let N := fun j => cox_closed (kf (cknots c)) (dom1 c) (cdeg c) j u in
      let w := fun j => nth j (weights c) 0 in
      0 < rsum (length (cpts c)) (fun j => N j * w j) /\
      forall i, (i < cdim c - 1)%nat ->
        rc i p = rsum (length (cpts c)) (fun j => N j * w j * rc i (nth j ps [])) / rsum (length (cpts c)) (fun j => N j * w j).
  Proof.
    intros Hc He Hw Hu. destruct (accessors_spec c Hc Hw) as (ps & E & _ & _ & A).
    pose proof (wfun_pos eps maxv c u Hc He Hw Hu) as Hp.
    destruct (point_at_spec eps maxv c u Hc He Hu ltac:(lra)) as (p & Ep & L & H).
    assert (Ecp : forall j, (j < length (cpts c))%nat -> cpc c (cdim c - 1) j = nth j (weights c) 0 /\
      forall i, (i < cdim c - 1)%nat -> cpc c i j = nth j (weights c) 0 * rc i (nth j ps [])).
    { intros j Hj. destruct (A j Hj) as (Lq & _ & Q). unfold cpc, rc. rewrite Q.
      assert (Lv : length (vscale (nth j ps []) (nth j (weights c) 0)) = (cdim c - 1)%nat) by (unfold vscale; now rewrite map_length). split.
      - rewrite app_nth2 by lia. rewrite Lv, Nat.sub_diag. reflexivity.
      - intros i Hi. rewrite app_nth1 by lia. unfold vscale. rewrite (nth_map_lt _ _ i 0 0) by lia. rs. ring. }
    assert (Ws : wfun c u = rsum (length (cpts c)) (fun j => cox_closed (kf (cknots c)) (dom1 c) (cdeg c) j u * nth j (weights c) 0)).
    { unfold wfun, hcoord. apply rsum_ext. intros j Hj. now rewrite (proj1 (Ecp j Hj)). }
    exists ps, p. split; [exact E|]. split; [exact Ep|]. split; [exact L|]. cbv zeta beta. rewrite <- Ws. split; [exact Hp|]. intros i Hi. rewrite (H i Hi).
    unfold nurbs. f_equal. unfold hcoord. apply rsum_ext. intros j Hj. rewrite (proj2 (Ecp j Hj) i Hi). ring.
  Qed.
End Real.
