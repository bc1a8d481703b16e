(** * Properties of single-span curves

    Only statements: each theorem is proved elsewhere; its statement is repeated here, followed by
    a concrete case that meets its hypotheses. *)
From Coq Require Import Reals Lra Lia ZArith List Sorted.
From Verif Require Import Base BaseFacts Scalar RSum BSplineSpec BSpline KnotModel KnotSpec KnotFacts KnotMisc VecFacts MiscModel CurveModel CurveKnotModel CurveSpec CurveProofs CurveGeom CurveGeom2
  Boehm Decompose ElevateModel Bernstein ElevateBezier BezierTheorems Demo.
Import ListNotations.
Local Open Scope R_scope.


Definition bow : Curve R := MkCurve 3 2 [[0; 0; 1]; [1; 2; 1 / 2]; [2; 0; 1]] [1; 1; 1; 3; 3; 3].
Lemma bow_bezier : is_bezier bow 1 3.
Proof. split; [lra|]. split; reflexivity. Qed.
Lemma bow_ok : curve_ok bow.
Proof. apply (bezier_curve_ok bow 1 3 bow_bezier); [cbn; lia|]. repeat constructor. Qed.


Section C77_bezier_point_at_statement.
  Variables eps maxv : R.
  Local Hint Extern 0 (Scalar R) => exact (ROps eps maxv) : typeclass_instances.

  Theorem C77_bezier_point_at : forall c a b u,
    curve_ok c -> is_bezier c a b -> 0 < eps -> eps <= b - a -> a <= u <= b -> pos_weights c ->
    let t := (u - a) / (b - a) in
    let w := rsum (S (cdeg c)) (fun j => bernstein (cdeg c) j t * cpc c (cdim c - 1) j) in
    0 < w /\ exists q, point_at c u = Ok q /\ length q = (cdim c - 1)%nat /\
    forall i, (i < cdim c - 1)%nat -> rc i q = rsum (S (cdeg c)) (fun j => bernstein (cdeg c) j t * cpc c i j) / w.
  Proof. first [exact (bezier_point_at eps maxv) | exact (bezier_point_at eps) | exact bezier_point_at]. Qed.
End C77_bezier_point_at_statement.
Section C77_case_section.
  Local Hint Extern 0 (Scalar R) => exact (ROps eps0 maxv0) : typeclass_instances.
  Example C77_case : curve_ok bow /\ is_bezier bow 1 3 /\ 0 < eps0 /\ eps0 <= 3 - 1 /\ pos_weights bow.
  Proof. split; [exact bow_ok|]. split; [exact bow_bezier|]. split; [unfold eps0; lra|]. split; [unfold eps0; lra|]. intros j Hj. cbn in Hj. unfold cpc, rc. destruct j as [|[|[|j]]]; cbn; try lra; lia. Qed.
End C77_case_section.
Print Assumptions C77_bezier_point_at.

Section C77_decompose_bernstein_statement.
  Variables eps maxv : R.
  Local Hint Extern 0 (Scalar R) => exact (ROps eps maxv) : typeclass_instances.

  Theorem C77_decompose_bernstein : forall c,
    curve_ok c -> curve_eps eps c -> curve_cont c -> clamped c -> separated eps (cknots c) ->
    exists vs segs, try_decompose_bezier_segments c = Ok segs /\ StronglySorted Rlt vs /\ (forall x, In x vs <-> In x (cknots c)) /\ S (length segs) = length vs /\
    forall i u, (i < length segs)%nat -> nth i vs 0 <= u <= nth (S i) vs 0 ->
    let s := nth i segs c in
    let t := (u - nth i vs 0) / (nth (S i) vs 0 - nth i vs 0) in
    let w := rsum (S (cdeg c)) (fun j => bernstein (cdeg c) j t * cpc s (cdim c - 1) j) in
    w <> 0 -> exists q, point_at c u = Ok q /\ length q = (cdim c - 1)%nat /\
    forall x, (x < cdim c - 1)%nat -> rc x q = rsum (S (cdeg c)) (fun j => bernstein (cdeg c) j t * cpc s x j) / w.
  Proof. first [exact (decompose_bernstein eps maxv) | exact (decompose_bernstein eps) | exact decompose_bernstein]. Qed.
End C77_decompose_bernstein_statement.
Section C77_case_pieces_section.
  Local Hint Extern 0 (Scalar R) => exact (ROps eps0 maxv0) : typeclass_instances.
  Example C77_case_pieces : curve_ok demo /\ curve_eps eps0 demo /\ curve_cont demo /\ clamped demo /\ separated eps0 (cknots demo).
  Proof. split; [exact demo_ok|]. split; [exact demo_eps|]. split; [exact demo_cont|]. split; [exact demo_clamped|]. exact demo_sep. Qed.
End C77_case_pieces_section.
Print Assumptions C77_decompose_bernstein.

Section C25_elevate_bezier_points_statement.
  Variables eps maxv : R.
  Local Hint Extern 0 (Scalar R) => exact (ROps eps maxv) : typeclass_instances.

  Theorem C25_elevate_bezier_points : forall c a b,
    curve_ok c -> is_bezier c a b -> (1 <= cdeg c)%nat ->
    exists c', try_elevate_degree c (S (cdeg c)) = Ok c' /\
    skipn (length (cpts c') - 3) (cpts c') = repeat (repeat 0 (cdim c)) 3 /\ skipn (length (cknots c') - 3) (cknots c') = repeat 0 3 /\
    curve_ok (drop_surplus c') /\ cdim (drop_surplus c') = cdim c /\ is_bezier (drop_surplus c') a b /\ cdeg (drop_surplus c') = S (cdeg c) /\
    forall i u, (i < cdim c)%nat -> a <= u <= b -> hcoord (drop_surplus c') i u = hcoord c i u.
  Proof. first [exact (elevate_bezier_points eps maxv) | exact (elevate_bezier_points eps) | exact elevate_bezier_points]. Qed.
End C25_elevate_bezier_points_statement.
Section C25_case_bezier_section.
  Local Hint Extern 0 (Scalar R) => exact (ROps eps0 maxv0) : typeclass_instances.
  Example C25_case_bezier : curve_ok bow /\ is_bezier bow 1 3 /\ (1 <= cdeg bow)%nat.
  Proof. split; [exact bow_ok|]. split; [exact bow_bezier|]. cbn. lia. Qed.
End C25_case_bezier_section.
Print Assumptions C25_elevate_bezier_points.

Section C25_elevate_bezier_unsorted_statement.
  Variables eps maxv : R.
  Local Hint Extern 0 (Scalar R) => exact (ROps eps maxv) : typeclass_instances.

  Theorem C25_elevate_bezier_unsorted : forall c a b,
    curve_ok c -> is_bezier c a b -> (1 <= cdeg c)%nat -> 0 < b ->
    exists c', try_elevate_degree c (S (cdeg c)) = Ok c' /\ ~ Sorted Rle (cknots c').
  Proof. first [exact (elevate_bezier_unsorted eps maxv) | exact (elevate_bezier_unsorted eps) | exact elevate_bezier_unsorted]. Qed.
End C25_elevate_bezier_unsorted_statement.
Print Assumptions C25_elevate_bezier_unsorted.
