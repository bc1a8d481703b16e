(** * Corners of clamped surfaces (C80) *)
From Coq Require Import Reals Lra Lia ZArith Bool List.
From Verif Require Import Base BaseFacts Scalar RSum BSplineSpec BSpline KnotModel KnotSpec
  KnotFacts KnotProofs VecFacts MiscModel MiscProofs CurveModel CurveSpec CurveProofs CurveGeom CurveGeom2
  SurfaceModel SurfaceSpec SurfaceProofs.
Import ListNotations.
Open Scope R_scope.

(** clamped knot vector for degree [p] and [n] control points *)
Definition clamped_knots (k : list R) (p n : nat) : Prop :=
  (forall j, (j <= p)%nat -> kf k j = kf k 0) /\ (forall j, (n <= j <= n + p)%nat -> kf k j = kf k n).

(** which end of a direction *)
Definition end_index (e : bool) (n : nat) : nat := if e then (n - 1)%nat else 0%nat.
Definition u_end (e : bool) (s : Surf R) : R := if e then u1 s else u0 s.
Definition v_end (e : bool) (s : Surf R) : R := if e then v1 s else v0 s.

Section Real.
  Variables eps maxv : R.
  Local Hint Extern 0 (Scalar R) => exact (ROps eps maxv) : typeclass_instances.

  Lemma shcoord_corner s e f i : surf_ok s ->
    clamped_knots (suk s) (sdu s) (nrow s) -> clamped_knots (svk s) (sdv s) (ncol s) ->
    shcoord s i (u_end e s) (v_end f s) = spc s i (end_index e (nrow s)) (end_index f (ncol s)).
  Proof.
    intros H (Cu0 & Cu1) (Cv0 & Cv1). pose proof (so_u s H) as Hu. pose proof (so_v s H) as Hv.
    assert (V : forall a, (a < nrow s)%nat -> hcoord (vrow s a) i (v_end f s) = spc s i a (end_index f (ncol s))).
    { intros a Ha. rewrite <- vrow_cpc. destruct (vrow_dom s a H Ha) as (D0 & D1). pose proof (vrow_ok s a H Ha) as Ok.
      assert (L : length (cpts (vrow s a)) = ncol s) by (cbn [vrow cpts]; now apply row_len).
      destruct f; cbn [v_end end_index].
      - rewrite <- D1, hcoord_end; [unfold clast; now rewrite L|exact Ok|]. rewrite L. exact Cv1.
      - rewrite <- D0. apply hcoord_start; [exact Ok|exact Cv0]. }
    rewrite shcoord_rows by exact H.
    set (b := end_index f (ncol s)) in *.
    assert (Hb : (b < ncol s)%nat) by (unfold b; destruct f; cbn [end_index]; lia).
    transitivity (hcoord (ucol s b) i (u_end e s)).
    - unfold hcoord at 2. rewrite (proj2 (ucol_dom s b)). cbn [ucol cpts cdeg cknots]. rewrite map_length.
      apply rsum_ext. intros a Ha. rewrite V by exact Ha. unfold Nu. f_equal. symmetry. now apply ucol_cpc.
    - destruct (ucol_dom s b) as (D0 & D1). pose proof (ucol_ok s b H Hb) as Ok.
      assert (L : length (cpts (ucol s b)) = nrow s) by (cbn [ucol cpts]; now rewrite map_length).
      destruct e; cbn [u_end end_index].
      + rewrite <- D1, hcoord_end; [unfold clast; rewrite L; apply ucol_cpc; lia|exact Ok|]. rewrite L. exact Cu1.
      + rewrite <- D0, hcoord_start; [apply ucol_cpc; lia|exact Ok|exact Cu0].
  Qed.

  (** *** C80: the four corners of the domain are sent to the four corners of the net *)
  Theorem surface_corners s e f : surf_ok s -> surf_eps eps s -> spos s ->
    clamped_knots (suk s) (sdu s) (nrow s) -> clamped_knots (svk s) (sdv s) (ncol s) ->
    exists q, surf_point_at s (u_end e s) (v_end f s) = Ok q /\ length q = (sdim s - 1)%nat /\
      forall i, (i < sdim s - 1)%nat ->
        rc i q = spc s i (end_index e (nrow s)) (end_index f (ncol s))
                 / spc s (sdim s - 1) (end_index e (nrow s)) (end_index f (ncol s)).
  Proof.
    intros H He Hw Cu Cv. pose proof (so_u s H) as Hu. pose proof (so_v s H) as Hv.
    assert (Ha : (end_index e (nrow s) < nrow s)%nat) by (destruct e; cbn [end_index]; lia).
    assert (Hb : (end_index f (ncol s) < ncol s)%nat) by (destruct f; cbn [end_index]; lia).
    pose proof (Hw _ _ Ha Hb) as Pw.
    destruct (surf_point_at_spec eps maxv s (u_end e s) (v_end f s) H He) as (q & E & L & V).
    - pose proof (dom_le (ucol s 0) (ucol_ok s 0 H ltac:(lia))) as D. destruct (ucol_dom s 0) as (E0 & E1). rewrite E0, E1 in D.
      pose proof (dom_le (vrow s 0) (vrow_ok s 0 H ltac:(lia))) as D'. destruct (vrow_dom s 0 H ltac:(lia)) as (F0 & F1). rewrite F0, F1 in D'.
      unfold in_dom. destruct e, f; cbn [u_end v_end]; lra.
    - unfold swfun. rewrite shcoord_corner by auto. lra.
    - exists q. split; [exact E|]. split; [exact L|]. intros i Hi. rewrite V by exact Hi. unfold snurbs, swfun.
      now rewrite !shcoord_corner by auto.
  Qed.
End Real.
