(** * Properties of derivatives

    Only statements: each theorem is proved elsewhere; its statement is repeated here, followed by
    a concrete case that meets its hypotheses. *)
From Coq Require Import Reals Lra Lia Psatz ZArith.
From Verif Require Import Base BaseFacts Scalar RSum BSplineSpec BSpline BSplineDeriv KnotModel KnotSpec KnotFacts VecFacts MiscModel
  MiscProofs CurveModel CurveSpec CurveProofs DerivKnot CurveDeriv Demo.
Open Scope R_scope.

Theorem C19_dbs_deriv : forall k s p m i u,
    mono k ->
    derivable_pt_lim (dbs k s p m i) u (dbs k s p (S m) i u).
Proof. exact (@dbs_deriv). Qed.
Print Assumptions C19_dbs_deriv.

Section C19_derivative_basis_spec_statement.
  Variables eps maxv : R.
  Local Hint Extern 0 (Scalar R) => exact (ROps eps maxv) : typeclass_instances.
  Theorem C19_derivative_basis_spec : forall k s p n u,
    mono (kf k) -> kf k s < kf k (S s) -> (p <= s)%nat -> (s + p < length k)%nat ->
    exists ders, derivative_basis_functions k s u p n = Ok ders /\ shape (S n) (S p) ders /\
    forall m r, (m <= n)%nat -> (r <= p)%nat -> at2 ders m r = dbs (kf k) s p m (s - p + r) u.
  Proof. first [exact (derivative_basis_spec eps maxv) | exact (derivative_basis_spec eps) | exact derivative_basis_spec | exact (derivative_basis_spec maxv)]. Qed.
End C19_derivative_basis_spec_statement.
Print Assumptions C19_derivative_basis_spec.

Section C19_derivatives_spec_statement.
  Variables eps maxv : R.
  Local Hint Extern 0 (Scalar R) => exact (ROps eps maxv) : typeclass_instances.
  Theorem C19_derivatives_spec : forall c s i,
    curve_ok c -> curve_eps eps c -> (cdeg c <= s <= clast c)%nat -> kf (cknots c) s < kf (cknots c) (S s) ->
    exists F, deriv_chain (kf (cknots c) s) (kf (cknots c) (S s)) (hcoord c i) F /\
    forall u d, in_span (cknots c) (clast c) s u ->
    exists ds, derivatives c u d = Ok ds /\ length ds = S d /\
    forall m, (m <= d)%nat -> rc i (nth m ds []) = F m u.
  Proof. first [exact (derivatives_spec eps maxv) | exact (derivatives_spec eps) | exact derivatives_spec | exact (derivatives_spec maxv)]. Qed.
End C19_derivatives_spec_statement.
Example C19_case : curve_ok demo /\ curve_eps eps0 demo /\ (cdeg demo <= 2 <= clast demo)%nat /\ kf (cknots demo) 2 < kf (cknots demo) 3.
Proof. split; [exact demo_ok|]. split; [exact demo_eps|]. unfold clast, kf. cbn. split; [lia|lra]. Qed.
Print Assumptions C19_derivatives_spec.

Section C19_tangent_is_derivative_statement.
  Variables eps maxv : R.
  Local Hint Extern 0 (Scalar R) => exact (ROps eps maxv) : typeclass_instances.
  Theorem C19_tangent_is_derivative : forall c s i u,
    curve_ok c -> curve_eps eps c -> pos_weights c -> (i < cdim c - 1)%nat ->
    (cdeg c <= s <= clast c)%nat -> kf (cknots c) s < u < kf (cknots c) (S s) ->
    exists t, tangent_at c u = Ok t /\ derivable_pt_lim (nurbs c i) u (rc i t).
  Proof. first [exact (tangent_is_derivative eps maxv) | exact (tangent_is_derivative eps) | exact tangent_is_derivative | exact (tangent_is_derivative maxv)]. Qed.
End C19_tangent_is_derivative_statement.
Example C19_case_inside : pos_weights demo /\ kf (cknots demo) 2 < 1 / 2 < kf (cknots demo) 3.
Proof. split; [exact demo_pos|]. unfold kf. cbn. lra. Qed.
Print Assumptions C19_tangent_is_derivative.

Section C20_rational_derivatives_spec_statement.
  Variables eps maxv : R.
  Local Hint Extern 0 (Scalar R) => exact (ROps eps maxv) : typeclass_instances.
  Theorem C20_rational_derivatives_spec : forall c s i,
    curve_ok c -> curve_eps eps c -> pos_weights c -> (i < cdim c - 1)%nat ->
    (cdeg c <= s <= clast c)%nat -> kf (cknots c) s < kf (cknots c) (S s) ->
    exists F, deriv_chain (kf (cknots c) s) (kf (cknots c) (S s)) (nurbs c i) F /\
    forall u d, in_span (cknots c) (clast c) s u ->
    exists ds, rational_derivatives c u d = Ok ds /\ length ds = S d /\
    forall m, (m <= d)%nat -> length (nth m ds []) = (cdim c - 1)%nat /\ rc i (nth m ds []) = F m u.
  Proof. first [exact (rational_derivatives_spec eps maxv) | exact (rational_derivatives_spec eps) | exact rational_derivatives_spec | exact (rational_derivatives_spec maxv)]. Qed.
End C20_rational_derivatives_spec_statement.
Print Assumptions C20_rational_derivatives_spec.

Section C20_second_is_derivative_statement.
  Variables eps maxv : R.
  Local Hint Extern 0 (Scalar R) => exact (ROps eps maxv) : typeclass_instances.
  Theorem C20_second_is_derivative : forall c s i u,
    curve_ok c -> curve_eps eps c -> pos_weights c -> (i < cdim c - 1)%nat ->
    (cdeg c <= s <= clast c)%nat -> kf (cknots c) s < u < kf (cknots c) (S s) ->
    exists G t, second_derivative_at c u = Ok t /\ derivable_pt_lim G u (rc i t) /\
    forall x, kf (cknots c) s < x < kf (cknots c) (S s) ->
    derivable_pt_lim (nurbs c i) x (G x) /\ exists v, tangent_at c x = Ok v /\ rc i v = G x.
  Proof. first [exact (second_is_derivative eps maxv) | exact (second_is_derivative eps) | exact second_is_derivative | exact (second_is_derivative maxv)]. Qed.
End C20_second_is_derivative_statement.
Print Assumptions C20_second_is_derivative.

Section C20_rational_leibniz_statement.
  Variables eps maxv : R.
  Local Hint Extern 0 (Scalar R) => exact (ROps eps maxv) : typeclass_instances.
  Theorem C20_rational_leibniz : forall c u d ds ck i k,
    curve_ok c -> curve_eps eps c -> pos_weights c -> dom0 c <= u <= dom1 c -> (i < cdim c - 1)%nat ->
    derivatives c u d = Ok ds -> rational_derivatives c u d = Ok ck -> (k <= d)%nat ->
    rsum (S k) (fun j => INR (pascal k j) * rc (cdim c - 1) (nth j ds []) * rc i (nth (k - j) ck []))
    = rc i (nth k ds []).
  Proof. first [exact (rational_leibniz eps maxv) | exact (rational_leibniz eps) | exact rational_leibniz | exact (rational_leibniz maxv)]. Qed.
End C20_rational_leibniz_statement.
Example C20_case : pos_weights demo /\ dom0 demo <= 1 <= dom1 demo /\ (0 < cdim demo - 1)%nat.
Proof. split; [exact demo_pos|]. destruct demo_dom as (-> & ->). split; [lra|cbn; lia]. Qed.
Print Assumptions C20_rational_leibniz.
