(** * Surface evaluation in terms of the public accessors *)
From Coq Require Import Reals Lra Sorted ZArith String List.
From Verif Require Import Base BaseFacts Scalar RSum BSplineSpec BSpline KnotModel KnotSpec KnotFacts KnotProofs VecFacts
  CurveModel CurveSpec CurveProofs CurveGeom CurveGeom2 SurfaceModel AccessorModel SurfaceSpec SurfaceProofs.
Import ListNotations.
Open Scope list_scope. Open Scope R_scope.

Section Real.
  Variables eps maxv : R.
  Local Hint Extern 0 (Scalar R) => exact (ROps eps maxv) : typeclass_instances.

  Theorem surf_accessors (s : Surf R) : surf_ok s -> spos s ->
    exists ps, surf_dehomogenized s = Ok ps /\ length ps = nrow s /\
      forall a b, (a < nrow s)%nat -> (b < ncol s)%nat -> length (nth a ps []) = ncol s /\ length (nth b (nth a ps []) []) = (sdim s - 1)%nat /\
        forall i, (i < sdim s - 1)%nat -> rc i (nth b (nth a ps []) []) * spc s (sdim s - 1) a b = spc s i a b.
  Proof.
    intros Hs Hw. set (D := (sdim s - 1)%nat).
    pose proof (so_rect s Hs) as Fr. pose proof (so_pts s Hs) as Fp. rewrite Forall_forall in Fr, Fp.
    assert (W : forall row p, In row (snet s) -> In p row -> 0 < rc D p).
    { intros row p Hr Hp. destruct (In_nth _ _ [] Hr) as (a & Ha & <-). destruct (In_nth _ _ [] Hp) as (b & Hb & <-). rewrite (Fr _ Hr) in Hb. exact (Hw a b Ha Hb). }
    set (f := fun p : list R => vdivs (firstn D p) (rc D p)).
    exists (map (map f) (snet s)). split; [|split; [now rewrite map_length|]].
    - unfold surf_dehomogenized. apply (mapM_ok _ (map f)). intros row Hr. apply (mapM_ok _ f). intros p Hp.
      unfold dehomogenize. fold D. change (coord D p) with (rc D p). pose proof (W row p Hr Hp). rs. rewrite (proj2 (Reqb_false _ _)) by lra. reflexivity.
    - intros a b Ha Hb. assert (Hr : In (nth a (snet s) []) (snet s)) by now apply nth_In.
      rewrite (nth_map_lt _ (snet s) a [] []) by exact Ha. set (row := nth a (snet s) []) in *. assert (Lr : length row = ncol s) by auto.
      assert (Hp : In (nth b row []) row) by (apply nth_In; lia). rewrite (nth_map_lt f row b [] []) by lia.
      pose proof (W row _ Hr Hp) as Wp. pose proof (Fp row Hr) as Fq. rewrite Forall_forall in Fq. specialize (Fq _ Hp).
      unfold spc. fold row. set (p := nth b row []) in *.
      split; [now rewrite map_length|]. split; [unfold f, vdivs; rewrite map_length, firstn_length; fold D; lia|].
      intros i Hi. unfold f, vdivs, rc at 1. rewrite (nth_map_lt _ _ i 0 0) by (rewrite firstn_length; unfold D; lia). rewrite nth_firstn by exact Hi. fold D. fold (rc i p). rs. field. lra.
  Qed.

  (** the point is the weighted mean of the affine control points, with the products of the basis functions and weights *)
  Theorem surf_evaluation_accessors (s : Surf R) u v : surf_ok s -> surf_eps eps s -> spos s -> in_dom s u v ->
    exists ps p, surf_dehomogenized s = Ok ps /\ surf_point_at s u v = Ok p /\ length p = (sdim s - 1)%nat /\
      let B := fun a b => Nu s a u * Nv s b v * spc s (sdim s - 1) a b in
      0 < rsum (nrow s) (fun a => rsum (ncol s) (B a)) /\
      forall i, (i < sdim s - 1)%nat ->
        rc i p * rsum (nrow s) (fun a => rsum (ncol s) (B a)) = rsum (nrow s) (fun a => rsum (ncol s) (fun b => B a b * rc i (nth b (nth a ps []) []))).
  Proof.
    intros Hs He Hw Hd. destruct (surf_accessors s Hs Hw) as (ps & E & _ & A).
    pose proof (swfun_pos eps maxv s u v Hs He Hw Hd) as Hp.
    destruct (surf_point_at_spec eps maxv s u v Hs He Hd ltac:(lra)) as (p & Ep & L & H).
    exists ps, p. split; [exact E|]. split; [exact Ep|]. split; [exact L|]. cbv zeta beta.
    change (rsum (nrow s) (fun a => rsum (ncol s) (fun b => Nu s a u * Nv s b v * spc s (sdim s - 1) a b))) with (swfun s u v).
    split; [exact Hp|]. intros i Hi. rewrite (H i Hi). unfold snurbs. replace (shcoord s i u v / swfun s u v * swfun s u v) with (shcoord s i u v) by (field; lra).
    unfold shcoord. apply rsum_ext. intros a Ha. apply rsum_ext. intros b Hb. destruct (A a b Ha Hb) as (_ & _ & Q). rewrite <- (Q i Hi). ring.
  Qed.
End Real.
