(** * A projection that does not reach its surface *)
From Coq Require Import Reals Lra Lia Psatz List ZArith Bool Sorted String.
From Verif Require Import Base BaseFacts Scalar RSum BSplineSpec BSpline KnotModel KnotFacts KnotSpec KnotProofs KnotMisc VecFacts MiscModel MiscProofs CurveModel CurveSpec CurveProofs CurveGeom CurveGeom2 CurveShapes
  NewtonProofs SurfaceModel SurfaceSpec SurfaceProofs SurfaceShapes BBoxModel BBoxProofs SurfaceBoxModel SerdeModel IntersectModel RevolveTheorems TrimModel TrimOps TrimDemo TrimRay Demo.
Import ListNotations.
Open Scope R_scope.

(** an upright wall over the diagonal of a rectangle, a short vertical segment beside it and the horizontal
    direction (3, -4) / 5 towards one end of the wall *)
Definition wall : Surf R := MkSurf 4 1 1 [0; 0; 1; 1] [0; 0; 1; 1]
  [ [[-2; 3 / 2; -1; 1]; [-2; 3 / 2; 1; 1]]; [[2; - 3 / 2; -1; 1]; [2; - 3 / 2; 1; 1]] ].
Definition post : Curve R := MkCurve 4 1 [[14 / 25; 21 / 50; - 1 / 2; 1]; [14 / 25; 21 / 50; 1 / 2; 1]] [0; 0; 1; 1].
Definition slant : list R := [3 / 5; - 4 / 5; 0].

Lemma cons_eq (x y : R) l m : x = y -> l = m -> x :: l = y :: m.
Proof. now intros -> ->. Qed.
(** decides the comparisons of numerals *)
Ltac settle := repeat match goal with |- context [if Rltb ?x ?y then _ else _] =>
  match y with context [Rltb] => fail 1 | _ => idtac end;
  (rewrite (proj2 (Rltb_true x y)) by (unfold maxv0; lra)) || (rewrite (proj2 (Rltb_false x y)) by (unfold maxv0; lra)) end.

Section Cases.
  Local Hint Extern 0 (Scalar R) => exact (ROps eps0 maxv0) : typeclass_instances.

  Lemma wall_ok : patch eps0 wall.
  Proof.
    split; [|split; [|split; [|reflexivity]]].
    - constructor; cbn; try lia; try (repeat constructor; fail); constructor; cbn; try lia; unfold kf; cbn; try lra; repeat constructor; lra.
    - split; unfold eps_ok, eps0, kf; cbn; lra.
    - intros a b Ha Hb. cbn in Ha, Hb. unfold spc, rc. destruct a as [|[|]]; [| |unfold nrow in Ha; cbn in Ha; lia]; (destruct b as [|[|]]; [cbn; lra|cbn; lra|unfold ncol in Hb; cbn in Hb; lia]).
  Qed.
  Lemma post_ok : space_curve eps0 post.
  Proof.
    split; [|split; [|split; [|reflexivity]]].
    - constructor; cbn; try lia; [repeat constructor|]. constructor; cbn; try lia; unfold kf; cbn; try lra. repeat constructor; lra.
    - unfold curve_eps, eps_ok, eps0, kf. cbn. lra.
    - intros j Hj. cbn in Hj. unfold cpc, rc. destruct j as [|[|]]; [cbn; lra..|lia].
  Qed.
  Lemma wall_dom u v : in_dom wall u v <-> (0 <= u <= 1 /\ 0 <= v <= 1).
  Proof. unfold in_dom, u0, u1, v0, v1, kf. cbn. tauto. Qed.
  Lemma wall_flat : flat wall [-2; 3 / 2; -1] [4; -3; 0] [0; 0; 2].
  Proof.
    intros u v i Hd Hi. apply wall_dom in Hd. destruct Hd as (Hu & Hv). destruct (bern1 u Hu) as (A0 & A1). destruct (bern1 v Hv) as (B0 & B1).
    unfold snurbs, swfun, shcoord, Nu, Nv. change (u1 wall) with 1. change (v1 wall) with 1. cbn [wall nrow ncol snet length nth suk svk sdu sdv sdim rsum Nat.sub].
    change (nrow wall) with 2%nat. change (ncol wall) with 2%nat. cbn [rsum]. rewrite A0, A1, B0, B1.
    unfold spc, rc. cbn [wall snet nth]. destruct i as [|[|[|]]]; [| | |lia]; cbn [nth]; field; lra.
  Qed.
  Lemma wall_length : ray_length wall post slant = Ok (7 / 10).
  Proof.
    assert (B0 : exists b, bb_of_surf wall = Ok b /\ bmin b = [-2; - 3 / 2; -1] /\ bmax b = [2; 3 / 2; 1]).
    { unfold bb_of_surf, dehomogenize, coord. cbn [wall snet sdim mapM nth Nat.sub firstn]. cbv zeta. rs. rewrite (proj2 (Reqb_false 1 0)) by lra. cbn [unwrap bind mapM]. eexists. split; [reflexivity|].
      unfold bb_points, bb_add. cbn [concat app fold_left seq map bmin bmax repeat coord nth Nat.sub vdivs]. unfold coord, smin, smax. cbn [nth]. rs. cbn [smax_value ROps].
      settle. split; repeat (apply cons_eq; [lra|]); reflexivity. }
    assert (B1 : exists b, bb_of_curve post = Ok b /\ bmin b = [14 / 25; 21 / 50; - 1 / 2] /\ bmax b = [14 / 25; 21 / 50; 1 / 2]).
    { unfold bb_of_curve, dehomogenized_control_points, dehomogenize, coord. cbn [post cpts cdim mapM nth Nat.sub firstn]. cbv zeta. rs. rewrite (proj2 (Reqb_false 1 0)) by lra. cbn [unwrap bind mapM]. eexists. split; [reflexivity|].
      unfold bb_points, bb_add. cbn [concat app fold_left seq map bmin bmax repeat coord nth Nat.sub vdivs]. unfold coord, smin, smax. cbn [nth]. rs. cbn [smax_value ROps].
      settle. split; repeat (apply cons_eq; [lra|]); reflexivity. }
    destruct B0 as ([m0 x0] & E0 & M0 & X0), B1 as ([m1 x1] & E1 & M1 & X1). cbn [bmin bmax] in *. subst.
    unfold ray_length. rewrite E0, E1. cbn [bind]. f_equal. unfold bb_center, bb_size. cbn [bmin bmax]. unfold vadd, vsub, vdivs, vnorm, vnorm2, vdot, map2, slant. cbn. rs. change (sofnat 2) with 2.
    rewrite !(Rabs_pos_eq) by lra.
    match goal with |- context [sqrt ?x] => replace x with (7 / 10 * (7 / 10)) by lra end. rewrite sqrt_square by lra. lra.
  Qed.

  Theorem projection_short_refuted : exists s c d, patch eps0 s /\ space_curve eps0 c /\ vnorm2 d = 1 /\
    (forall j, (j < length (cpts c))%nat -> exists u v r, in_dom s u v /\ 0 <= r /\ forall i, (i < 3)%nat -> snurbs s i u v = rc i (ctrl c j) + r * rc i d) /\
    (forall hits, sound_hits (hits s) s -> ~ is_ok (try_projection hits s d (Some c) [])).
  Proof.
    exists wall, post, slant. split; [exact wall_ok|]. split; [exact post_ok|].
    split; [unfold vnorm2, vdot, map2, slant; cbn; rs; lra|]. split.
    - intros j Hj. cbn in Hj. exists 1, (if (j =? 0)%nat then 1 / 4 else 3 / 4), (12 / 5).
      assert (D : in_dom wall 1 (if (j =? 0)%nat then 1 / 4 else 3 / 4)) by (apply wall_dom; destruct (j =? 0)%nat; lra).
      split; [exact D|]. split; [lra|]. intros i Hi. rewrite (wall_flat _ _ i D Hi). unfold ctrl, cpc, rc, slant, post.
      destruct j as [|[|]]; [| |lia]; cbn [Nat.eqb cpts seq map nth]; (destruct i as [|[|[|]]]; [cbn; lra..|lia]).
    - intros hits Hs (t & E). unfold try_projection, trim_with in E. apply bind_ok in E. destruct E as (e & E & _). apply bind_ok in E. destruct E as (c2 & E & _).
      unfold project_curve in E. rewrite wall_length in E. cbn [bind] in E. unfold map_curve in E.
      destruct (dehom_points eps0 maxv0 post) as (Ed & _); [apply post_ok|apply post_ok|reflexivity|]. rewrite Ed in E. cbn [bind] in E.
      apply bind_ok in E. destruct E as (pts & E & _). apply mapM_inv in E. cbn [post cpts length seq map weights combine] in E. inversion E as [|x y l1 l2 H _]; subst. clear E.
      apply bind_ok in H. destruct H as (uv & H & _). unfold project_point in H. cbv zeta in H. apply bind_ok in H. destruct H as (ray & Er & H). apply bind_ok in H. destruct H as (l & El & H). apply bind_ok in H. destruct H as (h & Eh & _).
      cbn [fst] in *.
      destruct (ray_line eps0 maxv0 (ctrl post 0) slant (7 / 10) eq_refl eq_refl) as (ray' & Er' & Ok & Dr & V); [exists 0%nat; split; [lia|unfold rc, slant; cbn; lra]|lra|].
      rewrite Er in Er'. injection Er' as <-. rewrite knots_domain_ok in Dr by exact Ok. injection Dr as D0 D1.
      assert (Hh : In h l).
      { destruct l as [|a l]; [discriminate|]. destruct (nearest_hit_spec eps0 maxv0 (ctrl post 0) (a :: l) ltac:(discriminate)) as (h' & En & Ih & _). rewrite En in Eh. injection Eh as <-. exact Ih. }
      destruct (Hs ray l h El Hh) as (Di & t' & Ht & K). rewrite D0, D1 in Ht.
      pose proof (K 0%nat ltac:(lia)) as K0. pose proof (K 1%nat ltac:(lia)) as K1.
      rewrite (wall_flat _ _ 0%nat Di ltac:(lia)), (V t' 0%nat Ht ltac:(lia)) in K0. rewrite (wall_flat _ _ 1%nat Di ltac:(lia)), (V t' 1%nat Ht ltac:(lia)) in K1.
      unfold ctrl, cpc, rc, slant, post in K0, K1. cbn in K0, K1. lra.
  Qed.
End Cases.
