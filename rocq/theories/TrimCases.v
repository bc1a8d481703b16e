(** * Curves over the flat sheet, and a ray caster for it *)
From Coq Require Import Reals Lra Lia List ZArith Bool Sorted.
From Verif Require Import Base BaseFacts Scalar RSum BSplineSpec BSpline KnotModel KnotFacts KnotSpec VecFacts MiscModel CurveModel CurveSpec CurveProofs CurveGeom CurveGeom2 CurveShapes
  CompoundModel SurfaceModel SurfaceSpec SurfaceProofs SurfaceShapes BBoxModel SurfaceBoxModel MergeModel ClipModel AdaptModel AdaptPoly AdaptTotal AdaptMain SerdeModel NewtonProofs IntersectModel TessCurveModel RevolveTheorems
  TrimModel TrimSpec TrimProofs TrimTheorems TrimUV TrimOps TrimDemo Demo.
Import ListNotations.
Open Scope R_scope.

(** an arc at height [h] over the sheet *)
Definition arc_at (h : R) : Curve R := MkCurve 4 2 [[1 / 4; 1 / 4; h; 1]; [1; 1 / 2; 2 * h; 2]; [1 / 4; 3 / 4; h; 1]] [0; 0; 0; 1; 1; 1].
Definition arc_on := arc_at 0.
Definition arc_up := arc_at 1.
(** the hits of a vertical segment with the sheet *)
Definition down (ray : Curve R) : Res (list (@SHit R)) :=
  match ray with
  | MkCurve 4 1 [[x; y; z; w]; [x'; y'; z'; w']] [a; b; c; d] =>
      if Reqb x' x && Reqb y' y && Reqb w 1 && Reqb w' 1 && Reqb a 0 && Reqb b 0 && Reqb c 1 && Reqb d 1 &&
         Rleb 0 x && Rleb x 1 && Rleb 0 y && Rleb y 1 && Rleb 0 z && Rleb z' 0 && Rltb z' z
      then Ok [MkSHit [x; y; 0] (x, y) [x; y; 0] (z / (z - z'))] else Ok []
  | _ => Ok []
  end.

Section Cases.
  Local Hint Extern 0 (Scalar R) => exact (ROps eps0 maxv0) : typeclass_instances.

  Lemma arc_ok h : space_curve eps0 (arc_at h).
  Proof.
    split; [|split; [|split; [|reflexivity]]].
    - constructor; cbn; try lia; [repeat constructor|]. constructor; cbn; try lia; unfold kf; cbn; try lra. repeat constructor; lra.
    - unfold curve_eps, eps_ok, eps0, kf. cbn. lra.
    - intros j Hj. cbn in Hj. unfold cpc, rc. destruct j as [|[|[|]]]; [cbn; lra..|lia].
  Qed.
  Lemma arc_on_ok : space_curve eps0 arc_on.
  Proof. apply arc_ok. Qed.
  Lemma arc_ctrl h j : (j < 3)%nat -> exists x y, ctrl (arc_at h) j = [x; y; h] /\ 0 <= x <= 1 /\ 0 <= y <= 1.
  Proof.
    intros Hj. unfold ctrl. destruct j as [|[|[|]]]; [| | |lia]; cbn; unfold vdivs; cbn; rs; do 2 eexists; (split; [repeat (f_equal; try (field; fail))|]); lra.
  Qed.
  Lemma arc_on_maps j : (j < length (cpts arc_on))%nat -> exists u v r, (fun p => Ok (rc 0 p, rc 1 p)) (ctrl arc_on j) = Ok (u, v) /\ in_dom sheet u v /\
      forall i, (i < 3)%nat -> snurbs sheet i u v = rc i (ctrl arc_on j) + r * rc i [0; 0; 1].
  Proof.
    intros Hj. destruct (arc_ctrl 0 j Hj) as (x & y & E & Hx & Hy). unfold arc_on. rewrite E. exists x, y, 0. split; [reflexivity|].
    split; [now apply sheet_dom|]. intros i Hi. rewrite (sheet_flat x y i) by (auto; now apply sheet_dom). unfold rc. destruct i as [|[|[|]]]; [cbn; lra..|lia].
  Qed.
  Lemma down_sound : sound_hits down sheet.
  Proof.
    intros ray l h E Hin. destruct ray as [D p pts k]. unfold down in E.
    destruct D as [|[|[|[|[|D]]]]]; try (injection E as <-; destruct Hin; fail).
    destruct p as [|[|p]]; try (injection E as <-; destruct Hin; fail).
    destruct pts as [|[|x [|y [|z [|w [|? ?]]]]] [|[|x' [|y' [|z' [|w' [|? ?]]]]] [|? ?]]]; try (injection E as <-; destruct Hin; fail).
    destruct k as [|a [|b [|c [|d [|? ?]]]]]; try (injection E as <-; destruct Hin; fail).
    match type of E with (if ?b then _ else _) = _ => destruct b eqn:Eb end; [|injection E as <-; destruct Hin]. injection E as <-. destruct Hin as [<-|[]].
    rewrite !andb_true_iff in Eb. rewrite !Reqb_true, !Rleb_true, Rltb_true in Eb. destruct Eb as ((((((((((((((-> & ->) & ->) & ->) & ->) & ->) & ->) & ->) & X0) & X1) & Y0) & Y1) & Z0) & Z1) & Zl).
    cbn [fst snd sh_uv]. split; [apply sheet_dom; lra|]. exists (z / (z - z')).
    assert (T : 0 <= z / (z - z') <= 1).
    { split; [apply Rmult_le_pos; [lra|left; apply Rinv_0_lt_compat; lra]|]. apply (Rmult_le_reg_r (z - z')); [lra|]. unfold Rdiv. rewrite Rmult_assoc, Rinv_l by lra. lra. }
    split; [unfold dom0, dom1, kf; cbn; lra|]. intros i Hi. rewrite (sheet_flat x y i) by (auto; apply sheet_dom; lra).
    destruct (bern1 _ T) as (B0 & B1). unfold nurbs, wfun, hcoord. cbn [cpts length rsum cknots cdim cdeg]. change (dom1 _) with 1. rewrite B0, B1.
    unfold cpc, rc. cbn [cpts nth Nat.sub]. destruct i as [|[|[|]]]; [| | |lia]; cbn [nth]; field; lra.
  Qed.
  Lemma down_case : patch eps0 sheet /\ sound_hits down sheet /\ (exists i, (i < 3)%nat /\ rc i [0; 0; -1] <> 0) /\
    exists len, ray_length sheet arc_up [0; 0; -1] = Ok len /\ 0 <= len /\ space_curve eps0 arc_up /\
    forall j ray, (j < length (cpts arc_up))%nat -> polyline 4 [vsub (ctrl arc_up j) (vscale [0; 0; -1] sone); vadd (vadd (ctrl arc_up j) (vscale [0; 0; -1] sone)) (vscale [0; 0; -1] len)] true = Ok ray ->
      exists l, down ray = Ok l /\ l <> [].
  Proof.
    split; [split; [exact sheet_ok|split; [exact sheet_eps|split; [exact sheet_pos|reflexivity]]]|]. split; [exact down_sound|].
    split; [exists 2%nat; split; [lia|unfold rc; cbn; lra]|].
    assert (L : exists len, ray_length sheet arc_up [0; 0; -1] = Ok len /\ 0 <= len).
    { unfold ray_length. assert (B0 : exists b, bb_of_surf sheet = Ok b).
      { unfold bb_of_surf, dehomogenize, coord. cbn [sheet snet sdim mapM nth Nat.sub firstn]. cbv zeta. rs. rewrite (proj2 (Reqb_false 1 0)) by lra. cbn [unwrap bind mapM]. eauto. }
      assert (B1 : exists b, bb_of_curve arc_up = Ok b).
      { unfold bb_of_curve, dehomogenized_control_points, dehomogenize, coord. cbn [arc_up arc_at cpts cdim mapM nth Nat.sub firstn]. cbv zeta. rs.
        rewrite (proj2 (Reqb_false 1 0)), (proj2 (Reqb_false 2 0)) by lra. cbn [unwrap bind mapM]. eauto. }
      destruct B0 as (b0 & ->). destruct B1 as (b1 & ->). cbn [bind]. eexists. split; [reflexivity|]. rs.
      repeat apply Rplus_le_le_0_compat; try apply Rabs_pos. apply sqrt_pos. }
    destruct L as (len & El & Hl). exists len. split; [exact El|]. split; [exact Hl|]. split; [apply arc_ok|].
    intros j ray Hj. destruct (arc_ctrl 1 j Hj) as (x & y & E & Hx & Hy). unfold arc_up. rewrite E.
    assert (Ea : vsub [x; y; 1] (vscale [0; 0; -1] sone) = [x; y; 2]). { unfold vsub, vscale, map2. cbn. rs. f_equal; [ring|f_equal; [ring|f_equal; ring]]. }
    assert (Ec : vadd (vadd [x; y; 1] (vscale [0; 0; -1] sone)) (vscale [0; 0; -1] len) = [x; y; - len]). { unfold vadd, vscale, map2. cbn. rs. f_equal; [ring|f_equal; [ring|f_equal; ring]]. }
    rewrite Ea, Ec. rewrite (polyline_eq eps0 maxv0) by (cbn [length]; try lia; repeat constructor).
    unfold poly_knots. cbn [length]. change (2 - 1)%nat with 1%nat. cbn [seq map app].
    set (L := chord [[x; y; 2]; [x; y; - len]] 1).
    assert (HL : 0 < L).
    { unfold L, chord. cbn [rsum nth]. unfold rdist. cbn [length rsum]. unfold rc. cbn [nth]. rewrite Rplus_0_l. apply sqrt_lt_R0. nra. }
    assert (E0 : chord [[x; y; 2]; [x; y; - len]] 0 = 0) by reflexivity. rewrite E0.
    intros Er. injection Er as <-. unfold to_homogeneous. cbn [app]. rs.
    replace (0 / L) with 0 by (field; lra). replace (L / L) with 1 by (field; lra).
    unfold down. rewrite !(proj2 (Reqb_true _ _) eq_refl).
    rewrite (proj2 (Rleb_true 0 x)), (proj2 (Rleb_true x 1)), (proj2 (Rleb_true 0 y)), (proj2 (Rleb_true y 1)), (proj2 (Rleb_true 0 2)), (proj2 (Rleb_true (- len) 0)), (proj2 (Rltb_true (- len) 2)) by lra.
    cbn [andb]. eexists. split; [reflexivity|discriminate].
  Qed.
  Lemma move_affine : affine_matrix (sdim sheet) [[1; 0; 0; 5]; [0; 1; 0; 0]; [0; 0; 1; 0]; [0; 0; 0; 1]].
  Proof. split; [reflexivity|]. split; [repeat constructor|]. split; [|reflexivity]. intros j Hj. cbn in Hj. destruct j as [|[|[|]]]; [reflexivity..|lia]. Qed.
  Lemma drop_mid : exists q, point_at drop_uv (1 / 2) = Ok q /\ in_dom sheet (rc 0 q) (rc 1 q).
  Proof.
    assert (Ht : dom0 drop_uv <= 1 / 2 <= dom1 drop_uv) by (unfold dom0, dom1, kf; cbn; lra).
    destruct drop_ok as (H1 & H2 & H3 & _). destruct (guess_points eps0 maxv0 drop_uv (1 / 2) H1 H2 H3 Ht) as (q & E & _ & V). exists q. split; [exact E|].
    pose proof (drop_range _ 0 Ht ltac:(lia)) as R0. pose proof (drop_range _ 1 Ht ltac:(lia)) as R1. rewrite <- V in R0, R1 by (cbn; lia). apply sheet_dom. lra.
  Qed.
End Cases.
