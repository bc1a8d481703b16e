(** * Degree elevation by one: how many pieces the result has room for

    Only statements: each theorem is proved elsewhere; its statement is repeated here, followed by
    a concrete case that meets its hypotheses. *)
From Coq Require Import Reals Lra Lia ZArith List Sorted.
From Verif Require Import Base BaseFacts Scalar RSum KnotModel KnotSpec KnotFacts VecFacts CurveModel CurveSpec CurveProofs CurveGeom CurveGeom2 Decompose
  ElevateModel ElevateSpans ElevateFour Demo.
Import ListNotations.
Local Open Scope R_scope.

(** a quadratic curve and a polyline with four pieces *)
Definition waves : Curve R := MkCurve 3 2 [[0; 0; 1]; [1; 2; 1]; [2; 0; 2]; [3; 2; 1]; [4; 0; 1]; [5; 2; 1]] [0; 0; 0; 1; 2; 3; 4; 4; 4].
Definition zigzag : Curve R := MkCurve 3 1 [[0; 0; 1]; [1; 2; 1]; [2; 0; 2]; [3; 2; 1]; [4; 0; 1]] [0; 0; 1; 2; 3; 4; 4].
Ltac small_ok := constructor; [cbn; lia|cbn [cpts cdim waves zigzag]; repeat (apply Forall_cons; [reflexivity|]); apply Forall_nil|cbn; lia|constructor; unfold clast; cbn [waves zigzag cpts cdeg cknots length Nat.sub]; [reflexivity|lia|repeat (first [apply Sorted_nil | apply Sorted_cons; [|first [apply HdRel_nil | apply HdRel_cons; lra]]])|cbn [kf nth Nat.add]; lra|cbn [kf nth Nat.add]; lra]].
Lemma waves_ok : curve_ok waves.
Proof. small_ok. Qed.
Lemma zigzag_ok : curve_ok zigzag.
Proof. small_ok. Qed.
Lemma waves_eps : curve_eps eps0 waves.
Proof. unfold curve_eps, eps_ok, eps0. cbn. lra. Qed.
Lemma zigzag_eps : curve_eps eps0 zigzag.
Proof. unfold curve_eps, eps_ok, eps0. cbn. lra. Qed.


Section C25_elevate_pieces_statement.
  Variables eps maxv : R.
  Local Hint Extern 0 (Scalar R) => exact (ROps eps maxv) : typeclass_instances.
  Variable c : Curve R.
  Hypothesis Hc : curve_ok c.
  Hypothesis Hcl : clamped c.
  Hypothesis Hp : (1 <= cdeg c)%nat.
  Notation p := (cdeg c).
  Notation L := (length (cpts c) + p + 6)%nat.

  Theorem C25_elevate_pieces : forall c',
    try_elevate_degree c (S p) = Ok c' ->
    (pieces c <= 4)%nat /\ length (cknots c') = L /\ cdeg c' = S p /\ ((pieces c < 4)%nat -> kf (cknots c') (L - 1) = 0) /\ exists j, (j < L)%nat /\ kf (cknots c') j = dom1 c.
  Proof. first [exact (elevate_pieces eps maxv c Hc Hcl Hp) | exact (elevate_pieces eps c Hc Hcl Hp) | exact elevate_pieces]. Qed.
End C25_elevate_pieces_statement.
Section C25_case_pieces_section.
  Local Hint Extern 0 (Scalar R) => exact (ROps eps0 maxv0) : typeclass_instances.
  Example C25_case_pieces : curve_ok waves /\ clamped waves /\ (1 <= cdeg waves)%nat /\ exists c', try_elevate_degree waves (S (cdeg waves)) = Ok c'.
  Proof. split; [exact waves_ok|]. split; [split; reflexivity|]. split; [cbn; lia|]. destruct (elevate_four_quadratic eps0 maxv0 waves 0 1 2 3 4 waves_ok waves_eps eq_refl eq_refl) as (c' & E & _); [lra|lra|]. exists c'. exact E. Qed.
End C25_case_pieces_section.
Print Assumptions C25_elevate_pieces.

Section C25_elevate_needs_four_pieces_statement.
  Variables eps maxv : R.
  Local Hint Extern 0 (Scalar R) => exact (ROps eps maxv) : typeclass_instances.
  Variable c : Curve R.
  Hypothesis Hc : curve_ok c.
  Hypothesis Hcl : clamped c.
  Hypothesis Hp : (1 <= cdeg c)%nat.
  Notation p := (cdeg c).
  Notation L := (length (cpts c) + p + 6)%nat.

  Theorem C25_elevate_needs_four_pieces : forall c',
    0 < dom1 c -> try_elevate_degree c (S p) = Ok c' -> Sorted Rle (cknots c') -> pieces c = 4%nat.
  Proof. first [exact (elevate_needs_four_pieces eps maxv c Hc Hcl Hp) | exact (elevate_needs_four_pieces eps c Hc Hcl Hp) | exact elevate_needs_four_pieces]. Qed.
End C25_elevate_needs_four_pieces_statement.
Section C25_case_needs_section.
  Local Hint Extern 0 (Scalar R) => exact (ROps eps0 maxv0) : typeclass_instances.
  Example C25_case_needs : 0 < dom1 waves /\ exists c', try_elevate_degree waves (S (cdeg waves)) = Ok c' /\ Sorted Rle (cknots c').
  Proof. split; [cbn; lra|]. destruct (elevate_four_quadratic eps0 maxv0 waves 0 1 2 3 4 waves_ok waves_eps eq_refl eq_refl) as (c' & E & O & _); [lra|lra|]. exists c'. split; [exact E|]. apply (ko_sorted _ _ _ (co_knots c' O)). Qed.
End C25_case_needs_section.
Print Assumptions C25_elevate_needs_four_pieces.

Section C25_elevate_four_quadratic_statement.
  Variables eps maxv : R.
  Local Hint Extern 0 (Scalar R) => exact (ROps eps maxv) : typeclass_instances.

  Theorem C25_elevate_four_quadratic : forall c a k1 k2 k3 b,
    curve_ok c -> curve_eps eps c -> cdeg c = 2%nat -> cknots c = [a; a; a; k1; k2; k3; b; b; b] -> a < k1 < k2 -> k2 < k3 < b ->
    exists c', try_elevate_degree c 3 = Ok c' /\ curve_ok c' /\ curve_eps eps c' /\ cdim c' = cdim c /\ cdeg c' = 3%nat /\
    dom0 c' = dom0 c /\ dom1 c' = dom1 c /\
    forall u, dom0 c <= u <= dom1 c -> (forall i, hcoord c' i u = hcoord c i u) /\ point_at c' u = point_at c u.
  Proof. first [exact (elevate_four_quadratic eps maxv) | exact (elevate_four_quadratic eps) | exact elevate_four_quadratic]. Qed.
End C25_elevate_four_quadratic_statement.
Section C25_case_quadratic_section.
  Local Hint Extern 0 (Scalar R) => exact (ROps eps0 maxv0) : typeclass_instances.
  Example C25_case_quadratic : curve_ok waves /\ curve_eps eps0 waves /\ cdeg waves = 2%nat /\ cknots waves = [0; 0; 0; 1; 2; 3; 4; 4; 4].
  Proof. split; [exact waves_ok|]. split; [exact waves_eps|]. split; reflexivity. Qed.
End C25_case_quadratic_section.
Print Assumptions C25_elevate_four_quadratic.

Section C25_elevate_four_polyline_statement.
  Variables eps maxv : R.
  Local Hint Extern 0 (Scalar R) => exact (ROps eps maxv) : typeclass_instances.

  Theorem C25_elevate_four_polyline : forall c a k1 k2 k3 b,
    curve_ok c -> curve_eps eps c -> cdeg c = 1%nat -> cknots c = [a; a; k1; k2; k3; b; b] -> a < k1 < k2 -> k2 < k3 < b ->
    exists c', try_elevate_degree c 2 = Ok c' /\ curve_ok c' /\ curve_eps eps c' /\ cdim c' = cdim c /\ cdeg c' = 2%nat /\
    dom0 c' = dom0 c /\ dom1 c' = dom1 c /\
    forall u, dom0 c <= u <= dom1 c -> (forall i, hcoord c' i u = hcoord c i u) /\ point_at c' u = point_at c u.
  Proof. first [exact (elevate_four_polyline eps maxv) | exact (elevate_four_polyline eps) | exact elevate_four_polyline]. Qed.
End C25_elevate_four_polyline_statement.
Section C25_case_polyline_section.
  Local Hint Extern 0 (Scalar R) => exact (ROps eps0 maxv0) : typeclass_instances.
  Example C25_case_polyline : curve_ok zigzag /\ curve_eps eps0 zigzag /\ cdeg zigzag = 1%nat /\ cknots zigzag = [0; 0; 1; 2; 3; 4; 4].
  Proof. split; [exact zigzag_ok|]. split; [exact zigzag_eps|]. split; reflexivity. Qed.
End C25_case_polyline_section.
Print Assumptions C25_elevate_four_polyline.
