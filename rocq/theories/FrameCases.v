(** * A straight rail and a segment: concrete frames and a concrete swept surface; failing frames *)
From Coq Require Import Reals Lra Sorted ZArith String.
From Verif Require Import Base BaseFacts Scalar RSum BSplineSpec BSpline KnotModel KnotSpec KnotFacts KnotProofs KnotMisc VecFacts
  MiscModel MiscProofs CurveModel CurveSpec CurveProofs CurveGeom CurveGeom2 CurveShapes CurveDeriv InterpModel InterpProofs Decompose MergeModel MergeProofs
  SurfaceModel SurfaceSpec SurfaceProofs LoftModel LoftProofs LoftMissed LoftCases
  ArcModel ArcProofs ArcMain ArcTheorems RevolveModel RevolveProofs RevolveSphere FrameModel FrameProofs FrameTheorems FrameSweep Demo.
Open Scope list_scope. Open Scope R_scope.

Definition rail1 : Curve R := section 0 0 0 0 0 1.
Definition profile1 : Curve R := section 0 0 0 1 0 0.
Definition straight (u : R) : Frame R := MkFrame [0; 0; u] [0; 0; 1] [0; -1; 0] [1; 0; 0].

Section Real.
  Local Hint Extern 0 (Scalar R) => exact (ROps eps0 1) : typeclass_instances.
  Local Hint Extern 0 (Trig R) => exact TrigR : typeclass_instances.
  Local Hint Extern 0 (Acos R) => exact AcosR : typeclass_instances.

  Lemma span1 u : 0 <= u <= 1 -> find_span [0; 0; 1; 1] 1 1 u = Ok 1%nat.
  Proof.
    intros Hu. assert (He : 0 < eps0) by (unfold eps0; lra).
    destruct (find_span_real eps0 1 _ _ _ u line_ok He) as (s & Es & Hs & _). assert (s = 1%nat) by lia. now subst s.
  Qed.

  Lemma rail_tangent u : 0 <= u <= 1 -> tangent_at rail1 u = Ok [0; 0; 1].
  Proof.
    intros Hu. unfold tangent_at, rational_derivatives, derivatives.
    change (last_index rail1) with (@Ok nat 1%nat). cbn [bind rail1 section cknots cdeg]. rewrite span1 by assumption. cbn [bind].
    unfold derivative_basis_functions. cbn -[Rplus Rminus Rmult Rdiv]. do 3 (change (Pos.to_nat 1) with 1%nat; cbn -[Rplus Rminus Rmult Rdiv]). rs.
    replace (1 - u + (u - 0)) with 1 by ring. replace (0 + 1 * (0 + (1 - u) * (1 / 1)) + 1 * ((u - 0) * (1 / 1))) with 1 by field.
    f_equal. do 3 (apply f_equal2; [field|]). reflexivity.
  Qed.

  Lemma rail_point u : 0 <= u <= 1 -> point_at rail1 u = Ok [0; 0; u].
  Proof.
    intros Hu. unfold point_at, point. change (last_index rail1) with (@Ok nat 1%nat). cbn [bind rail1 section cknots cdeg]. rewrite span1 by assumption. cbn [bind].
    unfold basis_functions. cbn -[Rplus Rminus Rmult Rdiv]. rs.
    replace (1 - u + (u - 0)) with 1 by ring. replace (0 + 1 * (0 + (1 - u) * (1 / 1)) + 1 * ((u - 0) * (1 / 1))) with 1 by field.
    unfold dehomogenize. cbn [Nat.sub coord nth]. rs. replace (Reqb 1 0) with false by (symmetry; apply Reqb_false; lra).
    unfold vdivs. cbn [unwrap map firstn]. rs. f_equal. do 3 (apply f_equal2; [field|]). reflexivity.
  Qed.

  Lemma norm1 (a : list R) : dot a a = 1 -> vnormalize a = a.
  Proof. apply vnormalize_unit. Qed.

  Lemma straight_first : first_normal [0; 0; 1] = [0; -1; 0].
  Proof.
    unfold first_normal.
    assert (L : least_axis [0; 0; 1] = [0; 1; 0]).
    { unfold least_axis. cbv zeta. cbn [coord nth]. rs. rewrite Rabs_R0. rewrite (proj2 (Rleb_true 0 1)) by lra. rewrite (proj2 (Rleb_true 0 0)) by lra.
      rewrite Rabs_R1. rewrite (proj2 (Rleb_false 1 0)) by lra. reflexivity. }
    rewrite L. replace (cross3 [0; 0; 1] [0; 1; 0]) with [-1; 0; 0] by (unfold cross3, coord; cbn [nth]; rs; do 3 (apply f_equal2; [ring|]); reflexivity).
    rewrite (norm1 [-1; 0; 0]) by (rewrite dot3; ring).
    replace (cross3 [0; 0; 1] [-1; 0; 0]) with [0; -1; 0] by (unfold cross3, coord; cbn [nth]; rs; do 3 (apply f_equal2; [ring|]); reflexivity).
    apply norm1. rewrite dot3. ring.
  Qed.

  Lemma straight_next : next_normal [0; 0; 1] [0; 0; 1] [0; -1; 0] = [0; -1; 0].
  Proof.
    destruct (next_normal_spec eps0 1 [0; 0; 1] [0; 0; 1] [0; -1; 0]) as (_ & _ & _ & _ & _); try reflexivity; try (rewrite dot3; ring); [unfold eps0; lra|].
    unfold next_normal. replace (cross3 [0; 0; 1] [0; 0; 1]) with [0; 0; 0] by (unfold cross3, coord; cbn [nth]; rs; do 3 (apply f_equal2; [ring|]); reflexivity).
    replace (sltb seps (vnorm (vnormalize [0; 0; 0]))) with false; [reflexivity|]. symmetry. apply Rltb_false. rewrite (vnorm_dot eps0 1).
    replace (dot _ _) with 0; [rewrite sqrt_0; cbn; unfold eps0; lra|]. unfold dot. rewrite len_vnormalize. cbn [length rsum]. rewrite !vnormalize_rc. unfold rc. cbn [nth]. unfold Rdiv. ring.
  Qed.

  Lemma straight_frames us : us <> [] -> Forall (fun u => 0 <= u <= 1) us -> compute_frenet_frames rail1 us = Ok (map straight us).
  Proof.
    intros Hne Hu. rewrite Forall_forall in Hu. unfold compute_frenet_frames. rewrite (mapM_ok _ (fun _ => [0; 0; 1])).
    2:{ intros u Iu. rewrite rail_tangent by auto. cbn [bind]. rewrite norm1 by (rewrite dot3; ring). reflexivity. }
    cbn [bind]. rewrite (get_ok _ 0 [0; 0; 1]) by (rewrite map_length; destruct us; [congruence|cbn; lia]). cbn [bind].
    destruct us as [|u us]; [congruence|]. cbn [map nth skipn]. rewrite straight_first.
    assert (C : forall l : list R, carry_normals [0; 0; 1] [0; -1; 0] (map (fun _ => [0; 0; 1]) l) = map (fun _ => [0; -1; 0]) l).
    { induction l as [|x l IH]; [reflexivity|]. cbn [map carry_normals]. rewrite straight_next, IH. reflexivity. }
    rewrite C. rewrite (mapM_ok _ (fun u => [0; 0; u])) by (intros x Hx; apply rail_point; auto). cbn [bind]. f_equal.
    assert (B : vnormalize (cross3 [0; 0; 1] [0; -1; 0]) = [1; 0; 0]).
    { replace (cross3 [0; 0; 1] [0; -1; 0]) with [1; 0; 0] by (unfold cross3, coord; cbn [nth]; rs; do 3 (apply f_equal2; [ring|]); reflexivity).
      apply norm1. rewrite dot3. ring. }
    change ((0 : R) :: 0 :: 1 :: nil) with [0; 0; 1].

    assert (G : forall l : list R, map (fun '(p, (t, n)) => MkFrame p t n (vnormalize (cross3 t n)))
      (combine (map (fun u => [0; 0; u]) l) (combine (map (fun _ => [0; 0; 1]) l) (map (fun _ => [0; -1; 0]) l))) = map straight l).
    { induction l as [|x l IH]; [reflexivity|]. cbn [map combine]. rewrite IH, B. reflexivity. }
    apply (G (u :: us)).
  Qed.

  (** ** The swept surface *)
  Definition swept1 : list (Curve R) := map (fun u => section 0 0 u (-1) 0 u) [0; 1 / 3; 2 / 3; 1].
  Definition solve4id (m : list (list R)) (b : list R) : option (list R) :=
    if list_eq_dec (list_eq_dec Req_EM_T) m [[1; 0; 0; 0]; [0; 1; 0; 0]; [0; 0; 1; 0]; [0; 0; 0; 1]] then
      if Nat.eq_dec (length b) 4 then Some b else None
    else None.
  Lemma solve4id_exact : exact_solver solve4id.
  Proof.
    intros m b x Hr Hb E. unfold solve4id in E. destruct (list_eq_dec _ _ _) as [->|]; [|discriminate]. destruct (Nat.eq_dec _ _) as [Lb|]; [|discriminate].
    injection E as <-. split; [exact Hb|]. intros i Hi. cbn [length] in *.
    destruct i as [|[|[|[|]]]]; try lia; cbn [rsum nth]; ring.
  Qed.

  Lemma straight_ortho u : orthoframe (fr_tan (straight u)) (fr_nor (straight u)) (fr_bin (straight u)).
  Proof.
    cbn [straight fr_tan fr_nor fr_bin]. repeat (split; [reflexivity || (rewrite dot3; ring)|]).
    intros l Hl. destruct l as [|[|[|]]]; try lia; unfold cross_l, rc; cbn [nth]; ring.
  Qed.

  Lemma straight_section u : transform (frame_matrix (straight u)) profile1 = section 0 0 u (-1) 0 u.
  Proof.
    unfold transform, profile1, section. cbn [cdim cdeg cpts cknots map]. f_equal.
    assert (G : forall x, transform_point 4 (frame_matrix (straight u)) [x; 0; 0; 1] = [- x; 0; u; 1]).
    { intros x. apply (list_ext 0).
      { unfold transform_point. rewrite app_length, map_length, seq_length. reflexivity. }
      intros i Hi. assert (Li : (i < 4)%nat). { unfold transform_point in Hi. rewrite app_length, map_length, seq_length in Hi. exact Hi. }
      change (nth i (transform_point 4 (frame_matrix (straight u)) [x; 0; 0; 1]) 0) with (rc i (transform_point 4 (frame_matrix (straight u)) [x; 0; 0; 1])).
      rewrite (transform_point_rc eps0 1 4) by (try lia; try reflexivity; try apply frame_matrix_affine; unfold rc; cbn [nth Nat.sub]; lra).
      unfold frame_matrix. rewrite (frame_axes_eq eps0 1 _ (straight_ortho u)). unfold coord, rc. cbn [straight fr_pos fr_tan fr_nor fr_bin map seq app nth Nat.sub rsum].
      destruct i as [|[|[|[|]]]]; try lia; cbn [Nat.eqb nth]; try change (@szero R (ROps eps0 1)) with 0; ring. }
    rewrite !G. repeat f_equal; ring.
  Qed.

  Lemma rail_parameters : sweep_parameters rail1 = Ok [0; 1 / 3; 2 / 3; 1].
  Proof.
    unfold sweep_parameters. change (knots_domain rail1) with (@Ok (R * R) (0, 1)). cbn [bind rail1 section cpts length Nat.mul Nat.add]. rewrite usub_ok by lia.
    cbn [bind Nat.sub seq map]. rewrite !(sofnat_INR eps0 1). rs. cbn [INR]. f_equal. do 4 (apply f_equal2; [field|]). reflexivity.
  Qed.

  Lemma knots4_ok : knots_ok 1 3 [0; 0; 1 / 3; 2 / 3; 1; 1].
  Proof. constructor; cbn; try lia; try (unfold kf; cbn; lra). repeat constructor; lra. Qed.

  Lemma row4 i : (i < 4)%nat -> interp_row [0; 0; 1 / 3; 2 / 3; 1; 1] 3 1 2 (nth i [0; 1 / 3; 2 / 3; 1] 0) =
    Ok (nth i [[1; 0; 0; 0]; [0; 1; 0; 0]; [0; 0; 1; 0]; [0; 0; 0; 1]] []).
  Proof.
    intros Hi. assert (He : 0 < eps0) by (unfold eps0; lra). set (t := nth i _ 0).
    destruct (find_span_real eps0 1 _ _ _ t knots4_ok He) as (s & Es & Hs & Hlt & Hb).
    destruct (interp_row_real eps0 1 _ _ _ t s knots4_ok Es Hs Hlt) as (row & Er & Lr & Hr). change (3 - 1)%nat with 2%nat in Er. rewrite Er. f_equal.
    destruct row as [|r0 [|r1 [|r2 [|r3 [|]]]]]; try discriminate Lr.
    pose proof (Hr 0%nat ltac:(lia)) as R0. pose proof (Hr 1%nat ltac:(lia)) as R1. pose proof (Hr 2%nat ltac:(lia)) as R2. pose proof (Hr 3%nat ltac:(lia)) as R3.
    cbn [nth] in R0, R1, R2, R3. rewrite R0, R1, R2, R3. clear R0 R1 R2 R3 Hr Er Es Lr.
    assert (Q : forall a b, b <> 0 -> quot0 a b = a / b) by (intros a b Hb0; unfold quot0; destruct (Req_EM_T b 0); [contradiction|reflexivity]).
    unfold eps0 in *.
    destruct i as [|[|[|[|]]]]; try lia; unfold t in *; clear t; cbn [nth] in *;
      destruct s as [|[|[|[|]]]]; try lia; unfold kf in Hb; cbn [nth Nat.add] in Hb; destruct Hb as [(H & E)|[(H & E)|H]]; try lia; try lra;
      unfold bs, wl, wr, kf; cbn [Nat.eqb nth Nat.add]; (apply f_equal2; [|apply f_equal2; [|apply f_equal2; [|apply f_equal2; [|reflexivity]]]]);
      rewrite ?Rmult_0_r, ?Rmult_1_r, ?Rplus_0_l, ?Rplus_0_r; try reflexivity; rewrite ?Q by lra; field.
  Qed.

  Lemma swept_unify : unify_knots swept1 = Ok swept1.
  Proof.
    rewrite (unify_same eps0 1 1 [0; 0; 1; 1] 0 1 swept1); try reflexivity; try (unfold eps0; lra); try discriminate.
    - unfold swept1. cbn [map]. unfold section. cbn [cdim cdeg cpts]. replace (0 - 0) with 0 by ring. replace (1 - 0) with 1 by ring. reflexivity.
    - unfold swept1. cbn [map]. repeat (apply Forall_cons; [split; reflexivity|]). constructor.
  Qed.

  Lemma third x a b : b - a = 1 / 3 -> rdist [x; 0; a; 1] [x; 0; b; 1] = 1 / 3.
  Proof. intros H. unfold rdist. transitivity (sqrt (1 / 3 * (1 / 3))); [|apply sqrt_square; lra]. f_equal. unfold rc. cbn [length rsum nth]. nra. Qed.

  Lemma swept_params i : (i < 2)%nat -> spread eps0 (column swept1 i) /\ forall j, (j < 4)%nat -> iparam (column swept1 i) j = nth j [0; 1 / 3; 2 / 3; 1] 0.
  Proof.
    intros Hi.
    assert (D : forall x, rdist [x; 0; 0; 1] [x; 0; 1 / 3; 1] = 1 / 3 /\ rdist [x; 0; 1 / 3; 1] [x; 0; 2 / 3; 1] = 1 / 3 /\ rdist [x; 0; 2 / 3; 1] [x; 0; 1; 1] = 1 / 3).
    { intros x. repeat split; apply third; lra. }
    assert (P : forall j, (j < 4)%nat -> iparam (column swept1 i) j = nth j [0; 1 / 3; 2 / 3; 1] 0).
    { intros j Hj. destruct i as [|[|]]; try lia; destruct j as [|[|[|[|]]]]; try lia; unfold iparam, chord; cbn [column swept1 map section cpts nth length Nat.sub rsum];
        rewrite ?(proj1 (D _)), ?(proj1 (proj2 (D _))), ?(proj2 (proj2 (D _))); field. }
    split; [|exact P]. split.
    - intros j Hj. change (length (column swept1 i)) with 4%nat in Hj. destruct i as [|[|]]; try lia; destruct j as [|[|[|]]]; try lia;
        cbn [column swept1 map section cpts nth]; rewrite ?(proj1 (D _)), ?(proj1 (proj2 (D _))), ?(proj2 (proj2 (D _))); lra.
    - intros j Hj. change (length (column swept1 i)) with 4%nat in Hj. rewrite !P by lia. unfold eps0. destruct j as [|[|[|]]]; try lia; cbn [nth]; lra.
  Qed.

  Lemma swept_loft : try_loft solve4id swept1 None = Ok (MkSurf 4 1 1 [0; 0; 1; 1] [0; 0; 1 / 3; 2 / 3; 1; 1] [column swept1 0; column swept1 1]).
  Proof.
    unfold try_loft. rewrite swept_unify. cbn [bind]. change (get swept1 0) with (Ok (section 0 0 0 (-1) 0 0)). cbn [bind].
    change (usub (length swept1) 1) with (Ok 3%nat). cbn [bind]. change (Nat.min (cdeg (section 0 0 0 (-1) 0 0)) 3) with 1%nat. change (cdim (section 0 0 0 (-1) 0 0)) with 4%nat.
    change (length (cpts (section 0 0 0 (-1) 0 0))) with 2%nat. cbn [seq mapM].
    assert (C : forall i, (i < 2)%nat -> loft_column solve4id 4 1 swept1 i = Ok (MkCurve 4 1 (column swept1 i) [0; 0; 1 / 3; 2 / 3; 1; 1])).
    { intros i Hi. destruct (swept_params i Hi) as (Sp & P). unfold loft_column. rewrite (mapM_ok _ (fun c => nth i (cpts c) [])).
      2:{ intros c [<-|[<-|[<-|[<-|[]]]]]; apply get_ok; exact Hi. }
      fold (column swept1 i). cbn [bind]. unfold try_interpolate_control_points. change (length (column swept1 i)) with 4%nat. cbn [Nat.ltb Nat.leb Nat.add].
      assert (Hl : Forall (fun q => length q = 4%nat) (column swept1 i)).
      { unfold column. rewrite Forall_map. apply Forall_forall. intros c [<-|[<-|[<-|[<-|[]]]]]; destruct i as [|[|]]; try lia; reflexivity. }
      rewrite (chord_params_eq eps0 1 4) by (exact Hl || (cbn; lia)). cbn [bind]. rewrite (averaged_knots_eq eps0 1) by (cbn; lia). cbn [bind].
      assert (K : iknots (column swept1 i) 1 = [0; 0; 1 / 3; 2 / 3; 1; 1]).
      { unfold iknots. change (length (column swept1 i)) with 4%nat. change (1 + 1)%nat with 2%nat. cbn [Nat.sub seq map repeat app]. unfold iknot. cbn [rsum Nat.add INR]. rewrite !P by lia. cbn [nth].
        do 6 (apply f_equal2; [field|]). reflexivity. }
      rewrite K. change (length (column swept1 i)) with 4%nat. rewrite !usub_ok by lia. cbn [bind Nat.sub seq map].
      rewrite !P by lia. 
      rewrite (mapM_ok _ (fun t => match interp_row [0; 0; 1 / 3; 2 / 3; 1; 1] 3 1 2 t with Ok r => r | _ => [] end)).
      2:{ intros t Ht. assert (exists j, (j < 4)%nat /\ t = nth j [0; 1 / 3; 2 / 3; 1] 0) as (j & Hj & ->).
          { destruct Ht as [<-|[<-|[<-|[<-|[]]]]]; [exists 0%nat|exists 1%nat|exists 2%nat|exists 3%nat]; (split; [lia|reflexivity]). }
          rewrite row4 by assumption. reflexivity. }
      cbn [map bind]. rewrite !row4 by lia. cbn [nth]. unfold try_solve_interpolation. rewrite (get_ok _ 0 []) by (cbn; lia). cbn [bind].
      assert (L0 : length (nth 0 (column swept1 i) []) = 4%nat) by (destruct i as [|[|]]; try lia; reflexivity). rewrite L0.
      rewrite (mapM_ok _ (fun l => map (coord l) (column swept1 i))).
      2:{ intros l _. unfold solve4id. destruct (list_eq_dec _ _ _) as [_|N]; [|contradiction N; reflexivity]. rewrite map_length. destruct (Nat.eq_dec _ _) as [_|N]; [reflexivity|]. contradiction N; reflexivity. }
      cbn [bind]. destruct i as [|[|]]; try lia.
      - cbn -[try_new]. rewrite (try_new_sorted eps0 1); [reflexivity|cbn; lia|reflexivity|repeat constructor; lra].
      - cbn -[try_new]. rewrite (try_new_sorted eps0 1); [reflexivity|cbn; lia|reflexivity|repeat constructor; lra]. }
    rewrite !C by lia. cbn [bind]. reflexivity.
  Qed.

  Lemma swept_ok : exists s, try_sweep solve4id profile1 rail1 None = Ok s.
  Proof.
    eexists. unfold try_sweep. rewrite rail_parameters. cbn [bind]. rewrite straight_frames; [|discriminate|].
    2:{ repeat (apply Forall_cons; [lra|]). constructor. }
    cbn [bind]. rewrite map_map. rewrite (map_ext _ _ straight_section). exact swept_loft.
  Qed.

  Lemma swept_spread i : (i < 2)%nat -> spread eps0 (swept_column eps0 1 (map straight [0; 1 / 3; 2 / 3; 1]) profile1 i).
  Proof.
    intros Hi. unfold swept_column. rewrite map_map. erewrite map_ext; [|intros u; rewrite straight_section; reflexivity].
    destruct (swept_params i Hi) as (Sp & _). unfold column, swept1 in Sp. rewrite map_map in Sp. exact Sp.
  Qed.
End Real.
