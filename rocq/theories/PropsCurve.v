(** * Properties of knots and curves

    Only statements: each theorem is proved elsewhere; its statement is repeated here, followed by
    a concrete case that meets its hypotheses. *)
From Coq Require Import Reals Lra Lia Sorted Permutation Floats.
From Verif Require Import Base BaseFacts Scalar RSum BSplineSpec BSpline KnotModel KnotSpec KnotFacts
  KnotProofs VecFacts MiscModel CurveModel CurveKnotModel CurveSpec CurveProofs CurveGeom CurveGeom2
  KnotMisc CurveShapes Boehm Refine AddKnot SplitModel SplitProofs Decompose Continuity Demo.
Open Scope R_scope.

(** the examples below run at epsilon = 1/1000 *)

Section C01_try_new_spec_statement.
  Context {T : Type} {SO : Scalar T}.
  Theorem C01_try_new_spec : forall D p pts (k : list T),
    (forall c, try_new D p pts k = Ok c ->
    (p < length pts)%nat /\ length k = (length pts + p + 1)%nat /\
    cdim c = D /\ cdeg c = p /\ cpts c = pts /\ Permutation (cknots c) k) /\
    ((p < length pts)%nat -> length k = (length pts + p + 1)%nat -> ~ has_nan k ->
    exists c, try_new D p pts k = Ok c) /\
    ((length pts <= p)%nat \/ length k <> (length pts + p + 1)%nat ->
    errs (try_new D p pts k)) /\
    (panics (try_new D p pts k) -> has_nan k).
  Proof. exact try_new_spec. Qed.
End C01_try_new_spec_statement.
Print Assumptions C01_try_new_spec.

Section C01_try_new_real_statement.
  Variables eps maxv : R.
  Local Hint Extern 0 (Scalar R) => exact (ROps eps maxv) : typeclass_instances.
  Local Notation separated := (separated eps).
  Theorem C01_try_new_real : forall D p pts (k : list R),
    (exists c, try_new D p pts k = Ok c /\ cdim c = D /\ cdeg c = p /\ cpts c = pts /\
    Permutation (cknots c) k /\ Sorted Rle (cknots c))
    /\ (p < length pts)%nat /\ length k = (length pts + p + 1)%nat
    \/ errs (try_new D p pts k) /\
    ((length pts <= p)%nat \/ length k <> (length pts + p + 1)%nat).
  Proof. first [exact (try_new_real eps maxv) | exact (try_new_real eps) | exact try_new_real | exact (try_new_real maxv)]. Qed.
End C01_try_new_real_statement.
Example C01_case : exists c : Curve R, @try_new R (ROps eps0 maxv0) 2 1 [[0; 1]; [1; 1]] [0; 1; 0; 1] = Ok c /\ Sorted Rle (cknots c).
Proof. destruct (C01_try_new_real eps0 maxv0 2 1 [[0; 1]; [1; 1]] [0; 1; 0; 1]) as [[(c & E & _ & _ & _ & _ & S) _]|[_ [H|H]]]; cbn in *; [eauto|lia|lia]. Qed.
Print Assumptions C01_try_new_real.

Section C02_find_span_total_statement.
  Context {T : Type} {SO : Scalar T}.
  Theorem C02_find_span_total : forall (k : list T) n degree u,
    (degree <= n)%nat -> (n + 1 < length k)%nat ->
    exists s, find_span k n degree u = Ok s /\ (degree <= s <= n)%nat.
  Proof. exact find_span_total. Qed.
End C02_find_span_total_statement.
Example C02_case_total : exists s, @find_span float FOps [0%float; nan; nan; 1%float] 1 1 nan = Ok s /\ (1 <= s <= 1)%nat.
Proof. apply (@C02_find_span_total float FOps); cbn; lia. Qed.
Print Assumptions C02_find_span_total.

Section C02_find_span_brackets_statement.
  Variables eps maxv : R.
  Local Hint Extern 0 (Scalar R) => exact (ROps eps maxv) : typeclass_instances.
  Theorem C02_find_span_brackets : forall k p n u,
    knots_ok p n k -> eps_ok eps p n k ->
    kf k p <= u <= kf k (n + 1) ->
    exists s, find_span k n p u = Ok s /\ (p <= s <= n)%nat /\ in_span k n s u.
  Proof. first [exact (find_span_brackets eps maxv) | exact (find_span_brackets eps) | exact find_span_brackets | exact (find_span_brackets maxv)]. Qed.
End C02_find_span_brackets_statement.
Example C02_case : knots_ok 2 3 (cknots demo) /\ eps_ok eps0 2 3 (cknots demo) /\ kf (cknots demo) 2 <= 1 <= kf (cknots demo) (3 + 1).
Proof. split; [apply (co_knots _ demo_ok)|]. split; [apply demo_eps|]. unfold kf. cbn. lra. Qed.
Print Assumptions C02_find_span_brackets.

Section C02_find_span_real_statement.
  Variables eps maxv : R.
  Local Hint Extern 0 (Scalar R) => exact (ROps eps maxv) : typeclass_instances.
  Theorem C02_find_span_real : forall k p n u,
    knots_ok p n k -> 0 < eps ->
    exists s, find_span k n p u = Ok s /\ (p <= s <= n)%nat /\ kf k s < kf k (S s) /\
    ((kf k (n + 1) - eps < u /\ s = n) \/ (u < kf k p + eps /\ s = p)
    \/ (kf k s <= u < kf k (S s))).
  Proof. first [exact (find_span_real eps maxv) | exact (find_span_real eps) | exact find_span_real | exact (find_span_real maxv)]. Qed.
End C02_find_span_real_statement.
Print Assumptions C02_find_span_real.

Section C03_basis_functions_cox_statement.
  Variables eps maxv : R.
  Local Hint Extern 0 (Scalar R) => exact (ROps eps maxv) : typeclass_instances.
  Theorem C03_basis_functions_cox : forall k p n u,
    knots_ok p n k -> eps_ok eps p n k -> kf k p <= u < kf k (n + 1) ->
    exists s b, find_span k n p u = Ok s /\ basis_functions k s u p = Ok b /\ length b = S p /\
    (p <= s <= n)%nat /\
    (forall r, (r <= p)%nat -> nth r b 0 = cox_de_boor (kf k) p (s - p + r) u /\ 0 <= nth r b 0) /\
    (forall i, (i < s - p \/ s < i)%nat -> cox_de_boor (kf k) p i u = 0) /\
    rsum (S p) (fun r => nth r b 0) = 1.
  Proof. first [exact (basis_functions_cox eps maxv) | exact (basis_functions_cox eps) | exact basis_functions_cox | exact (basis_functions_cox maxv)]. Qed.
End C03_basis_functions_cox_statement.
Example C03_case : kf (cknots demo) 2 <= 1 < kf (cknots demo) (3 + 1).
Proof. unfold kf. cbn. lra. Qed.
Print Assumptions C03_basis_functions_cox.

Section C03_basis_functions_real_statement.
  Variables eps maxv : R.
  Local Hint Extern 0 (Scalar R) => exact (ROps eps maxv) : typeclass_instances.
  Theorem C03_basis_functions_real : forall k s p u,
    mono (kf k) -> kf k s < kf k (S s) -> (p <= s)%nat -> (s + p < length k)%nat ->
    exists b, basis_functions k s u p = Ok b /\ length b = S p /\
    forall r, (r <= p)%nat -> nth r b 0 = bs (kf k) s p (s - p + r) u.
  Proof. first [exact (basis_functions_real eps maxv) | exact (basis_functions_real eps) | exact basis_functions_real | exact (basis_functions_real maxv)]. Qed.
End C03_basis_functions_real_statement.
Print Assumptions C03_basis_functions_real.

Section C04_point_at_spec_statement.
  Variables eps maxv : R.
  Local Hint Extern 0 (Scalar R) => exact (ROps eps maxv) : typeclass_instances.
  Theorem C04_point_at_spec : forall c u,
    curve_ok c -> curve_eps eps c -> dom0 c <= u <= dom1 c -> wfun c u <> 0 ->
    exists p, point_at c u = Ok p /\ length p = (cdim c - 1)%nat /\
    forall i, (i < cdim c - 1)%nat -> rc i p = nurbs c i u.
  Proof. first [exact (point_at_spec eps maxv) | exact (point_at_spec eps) | exact point_at_spec | exact (point_at_spec maxv)]. Qed.
End C04_point_at_spec_statement.
Example C04_case : curve_ok demo /\ curve_eps eps0 demo /\ dom0 demo <= 1 <= dom1 demo /\ wfun demo 1 <> 0.
Proof. split; [exact demo_ok|]. split; [exact demo_eps|]. destruct demo_dom as [D0 D1]. assert (Hu : dom0 demo <= 1 <= dom1 demo) by (rewrite D0, D1; lra). split; [exact Hu|]. pose proof (wfun_pos eps0 maxv0 demo 1 demo_ok demo_eps demo_pos Hu). lra. Qed.
Print Assumptions C04_point_at_spec.

Section C04_point_at_zero_weight_statement.
  Variables eps maxv : R.
  Local Hint Extern 0 (Scalar R) => exact (ROps eps maxv) : typeclass_instances.
  Theorem C04_point_at_zero_weight : forall c u,
    curve_ok c -> curve_eps eps c -> dom0 c <= u <= dom1 c -> wfun c u = 0 ->
    panics (point_at c u).
  Proof. first [exact (point_at_zero_weight eps maxv) | exact (point_at_zero_weight eps) | exact point_at_zero_weight | exact (point_at_zero_weight maxv)]. Qed.
End C04_point_at_zero_weight_statement.
Print Assumptions C04_point_at_zero_weight.

Section C04_point_at_total_statement.
  Context {T : Type} {SO : Scalar T}.
  Theorem C04_point_at_total : forall (c : Curve T) u,
    shape_ok c ->
    exists p, point c u = Ok p /\
    point_at c u = (if seqb (coord (cdim c - 1) p) szero then Panic "unwrap on None"
    else Ok (vdivs (firstn (cdim c - 1) p) (coord (cdim c - 1) p))).
  Proof. exact point_at_total. Qed.
End C04_point_at_total_statement.
Print Assumptions C04_point_at_total.

Section C05_convex_hull_statement.
  Variables eps maxv : R.
  Local Hint Extern 0 (Scalar R) => exact (ROps eps maxv) : typeclass_instances.
  Theorem C05_convex_hull : forall c u,
    curve_ok c -> curve_eps eps c -> pos_weights c -> dom0 c <= u <= dom1 c ->
    exists lam : nat -> R,
    (forall j, (j < length (cpts c))%nat -> 0 <= lam j) /\
    rsum (length (cpts c)) lam = 1 /\
    (forall j, (j < length (cpts c))%nat ->
    u < kf (cknots c) j \/ kf (cknots c) (j + cdeg c + 1) < u -> lam j = 0) /\
    exists p, point_at c u = Ok p /\ length p = (cdim c - 1)%nat /\
    forall i, (i < cdim c - 1)%nat ->
    rc i p = rsum (length (cpts c)) (fun j => lam j * (cpc c i j / cpc c (cdim c - 1) j)).
  Proof. first [exact (convex_hull eps maxv) | exact (convex_hull eps) | exact convex_hull | exact (convex_hull maxv)]. Qed.
End C05_convex_hull_statement.
Example C05_case : curve_ok demo /\ curve_eps eps0 demo /\ pos_weights demo.
Proof. exact (conj demo_ok (conj demo_eps demo_pos)). Qed.
Print Assumptions C05_convex_hull.

Section C05_control_box_statement.
  Variables eps maxv : R.
  Local Hint Extern 0 (Scalar R) => exact (ROps eps maxv) : typeclass_instances.
  Theorem C05_control_box : forall c u i lo hi,
    curve_ok c -> curve_eps eps c -> pos_weights c -> dom0 c <= u <= dom1 c ->
    (i < cdim c - 1)%nat ->
    (forall j, (j < length (cpts c))%nat -> lo <= cpc c i j / cpc c (cdim c - 1) j <= hi) ->
    exists p, point_at c u = Ok p /\ lo <= rc i p <= hi.
  Proof. first [exact (control_box eps maxv) | exact (control_box eps) | exact control_box | exact (control_box maxv)]. Qed.
End C05_control_box_statement.
Print Assumptions C05_control_box.

Section C06_clamped_start_statement.
  Variables eps maxv : R.
  Local Hint Extern 0 (Scalar R) => exact (ROps eps maxv) : typeclass_instances.
  Theorem C06_clamped_start : forall c,
    curve_ok c -> curve_eps eps c ->
    (forall j, (j <= cdeg c)%nat -> kf (cknots c) j = kf (cknots c) 0) ->
    cpc c (cdim c - 1) 0 <> 0 ->
    first_point c = Ok (affine_point c 0).
  Proof. first [exact (clamped_start eps maxv) | exact (clamped_start eps) | exact clamped_start | exact (clamped_start maxv)]. Qed.
End C06_clamped_start_statement.
Example C06_case : clamped demo /\ cpc demo 2 0 <> 0 /\ cpc demo 2 3 <> 0.
Proof. split; [exact demo_clamped|]. unfold cpc, rc. cbn. lra. Qed.
Print Assumptions C06_clamped_start.

Section C06_clamped_end_statement.
  Variables eps maxv : R.
  Local Hint Extern 0 (Scalar R) => exact (ROps eps maxv) : typeclass_instances.
  Theorem C06_clamped_end : forall c,
    curve_ok c -> curve_eps eps c ->
    (forall j, (length (cpts c) <= j <= length (cpts c) + cdeg c)%nat ->
    kf (cknots c) j = kf (cknots c) (length (cpts c))) ->
    cpc c (cdim c - 1) (clast c) <> 0 ->
    end_point c = Ok (affine_point c (clast c)).
  Proof. first [exact (clamped_end eps maxv) | exact (clamped_end eps) | exact clamped_end | exact (clamped_end maxv)]. Qed.
End C06_clamped_end_statement.
Print Assumptions C06_clamped_end.

Section C07_local_control_statement.
  Variables eps maxv : R.
  Local Hint Extern 0 (Scalar R) => exact (ROps eps maxv) : typeclass_instances.
  Theorem C07_local_control : forall c c' j u,
    curve_ok c -> curve_ok c' -> curve_eps eps c ->
    cdim c' = cdim c -> cdeg c' = cdeg c -> cknots c' = cknots c ->
    length (cpts c') = length (cpts c) ->
    (forall i, i <> j -> nth i (cpts c') [] = nth i (cpts c) []) ->
    dom0 c <= u <= dom1 c ->
    u < kf (cknots c) j \/ kf (cknots c) (j + cdeg c + 1) < u ->
    point_at c' u = point_at c u.
  Proof. first [exact (local_control eps maxv) | exact (local_control eps) | exact local_control | exact (local_control maxv)]. Qed.
End C07_local_control_statement.
Example C07_case : 3 / 2 < kf (cknots demo) 3 \/ kf (cknots demo) (0 + 2 + 1) < 3 / 2.
Proof. right. unfold kf. cbn. lra. Qed.
Print Assumptions C07_local_control.

Section C08_transform_affine_statement.
  Variables eps maxv : R.
  Local Hint Extern 0 (Scalar R) => exact (ROps eps maxv) : typeclass_instances.
  Theorem C08_transform_affine : forall c m u p,
    curve_ok c -> curve_eps eps c -> affine_matrix (cdim c) m ->
    (forall j, (j < length (cpts c))%nat -> cpc c (cdim c - 1) j <> 0) ->
    dom0 c <= u <= dom1 c ->
    point_at c u = Ok p ->
    point_at (transform m c) u = Ok (apply_affine (cdim c) m p).
  Proof. first [exact (transform_affine eps maxv) | exact (transform_affine eps) | exact transform_affine | exact (transform_affine maxv)]. Qed.
End C08_transform_affine_statement.
Example C08_case : affine_matrix 3 [[2; 0; 5]; [1; 3; 0]; [0; 0; 1]].
Proof. unfold affine_matrix, rc. cbn. split; [reflexivity|]. split; [repeat constructor|]. split; [|reflexivity]. intros [|[|j]] Hj; [reflexivity|reflexivity|lia]. Qed.
Print Assumptions C08_transform_affine.

Section C08_transform_projective_refuted_statement.
  Local Existing Instance FOps.
  Local Open Scope float_scope.
  Theorem C08_transform_projective_refuted : exists (c : Curve float) (m : list (list float)) (u x y : float),
    m = [[1; 0]; [1; 1]] /\ point_at c u = Ok [x] /\
    point_at (transform m c) u = Ok [y] /\ PrimFloat.eqb y (x / (x + 1)) = false.
  Proof. exact transform_projective_refuted. Qed.
End C08_transform_projective_refuted_statement.
Print Assumptions C08_transform_projective_refuted.

Section C09_invert_spec_statement.
  Variables eps maxv : R.
  Local Hint Extern 0 (Scalar R) => exact (ROps eps maxv) : typeclass_instances.
  Theorem C09_invert_spec : forall c,
    curve_ok c -> curve_eps eps c -> curve_cont c ->
    exists c', invert c = Ok c' /\ curve_ok c' /\
    knots_domain c' = Ok (mirror_c c - dom1 c, mirror_c c - dom0 c) /\
    forall u, dom0 c <= u <= dom1 c -> point_at c' (mirror_c c - u) = point_at c u.
  Proof. first [exact (invert_spec eps maxv) | exact (invert_spec eps) | exact invert_spec | exact (invert_spec maxv)]. Qed.
End C09_invert_spec_statement.
Example C09_case : curve_ok demo /\ curve_eps eps0 demo /\ curve_cont demo.
Proof. exact (conj demo_ok (conj demo_eps demo_cont)). Qed.
Print Assumptions C09_invert_spec.

Section C09_invert_involutive_statement.
  Variables eps maxv : R.
  Local Hint Extern 0 (Scalar R) => exact (ROps eps maxv) : typeclass_instances.
  Theorem C09_invert_involutive : forall c,
    curve_ok c -> exists c', invert c = Ok c' /\ invert c' = Ok c.
  Proof. first [exact (invert_involutive eps maxv) | exact (invert_involutive eps) | exact invert_involutive | exact (invert_involutive maxv)]. Qed.
End C09_invert_involutive_statement.
Print Assumptions C09_invert_involutive.

Section C10_normalize_knots_spec_statement.
  Variables eps maxv : R.
  Local Hint Extern 0 (Scalar R) => exact (ROps eps maxv) : typeclass_instances.
  Theorem C10_normalize_knots_spec : forall c,
    curve_ok c -> curve_eps eps c ->
    exists c', normalize_knots c = Ok c' /\ curve_ok c' /\
    knots_domain c' = Ok (0, 1) /\ cpts c' = cpts c /\ cdeg c' = cdeg c /\
    (curve_eps eps c' -> forall u, dom0 c <= u <= dom1 c ->
    point_at c' ((u - dom0 c) / (dom1 c - dom0 c)) = point_at c u).
  Proof. first [exact (normalize_knots_spec eps maxv) | exact (normalize_knots_spec eps) | exact normalize_knots_spec | exact (normalize_knots_spec maxv)]. Qed.
End C10_normalize_knots_spec_statement.
Print Assumptions C10_normalize_knots_spec.

Section C11_kadd_real_statement.
  Variables eps maxv : R.
  Local Hint Extern 0 (Scalar R) => exact (ROps eps maxv) : typeclass_instances.
  Local Notation separated := (separated eps).
  Theorem C11_kadd_real : forall (k : list R) x,
    Sorted Rle k ->
    exists k' idx, kadd k x = Ok (k', idx) /\ (idx <= length k)%nat /\
    k' = firstn idx k ++ x :: skipn idx k /\
    Sorted Rle k' /\ nth idx k' 0 = x /\
    (forall y, In y (firstn idx k) -> y <= x) /\ (forall y, In y (skipn idx k) -> x < y).
  Proof. first [exact (kadd_real eps maxv) | exact (kadd_real eps) | exact kadd_real | exact (kadd_real maxv)]. Qed.
End C11_kadd_real_statement.
Example C11_case : Sorted Rle (cknots demo).
Proof. apply (ko_sorted _ _ _ (co_knots _ demo_ok)). Qed.
Print Assumptions C11_kadd_real.

Section C11_kadd_total_statement.
  Context {T : Type} {SO : Scalar T}.
  Theorem C11_kadd_total : forall (k : list T) x,
    exists idx, (idx <= length k)%nat /\ kadd k x = Ok (firstn idx k ++ x :: skipn idx k, idx).
  Proof. exact kadd_total. Qed.
End C11_kadd_total_statement.
Print Assumptions C11_kadd_total.

Section C12_multiplicity_close_statement.
  Variables eps maxv : R.
  Local Hint Extern 0 (Scalar R) => exact (ROps eps maxv) : typeclass_instances.
  Local Notation separated := (separated eps).
  Theorem C12_multiplicity_close : forall (k : list R) m,
    0 <= eps -> multiplicity k = Ok m ->
    length (expand m) = length k /\
    forall i, (i < length k)%nat -> Rabs (nth i k 0 - nth i (expand m) 0) <= eps.
  Proof. first [exact (multiplicity_close eps maxv) | exact (multiplicity_close eps) | exact multiplicity_close | exact (multiplicity_close maxv)]. Qed.
End C12_multiplicity_close_statement.
Print Assumptions C12_multiplicity_close.

Section C12_multiplicity_exact_statement.
  Variables eps maxv : R.
  Local Hint Extern 0 (Scalar R) => exact (ROps eps maxv) : typeclass_instances.
  Local Notation separated := (separated eps).
  Theorem C12_multiplicity_exact : forall (k : list R) m,
    0 <= eps -> Sorted Rle k -> separated k -> multiplicity k = Ok m ->
    expand m = k /\ StronglySorted Rlt (run_keys m) /\ Forall (fun e => (1 <= snd e)%nat) m.
  Proof. first [exact (multiplicity_exact eps maxv) | exact (multiplicity_exact eps) | exact multiplicity_exact | exact (multiplicity_exact maxv)]. Qed.
End C12_multiplicity_exact_statement.
Example C12_case : separated eps0 (cknots demo).
Proof. exact demo_sep. Qed.
Print Assumptions C12_multiplicity_exact.

Section C12_multiplicity_total_statement.
  Context {T : Type} {SO : Scalar T}.
  Theorem C12_multiplicity_total : forall (k : list T),
    k <> [] -> exists m, multiplicity k = Ok m /\ runs_total m = length k /\ m <> [].
  Proof. exact multiplicity_total. Qed.
End C12_multiplicity_total_statement.
Print Assumptions C12_multiplicity_total.

Section C12_is_clamped_iff_statement.
  Variables eps maxv : R.
  Local Hint Extern 0 (Scalar R) => exact (ROps eps maxv) : typeclass_instances.
  Local Notation separated := (separated eps).
  Theorem C12_is_clamped_iff : forall (k : list R) p,
    0 <= eps -> Sorted Rle k -> separated k -> (p < length k)%nat ->
    exists b, is_clamped k p = Ok b /\
    (b = true <->
    (forall j, (j <= p)%nat -> nth j k 0 = nth 0 k 0) /\
    (forall j, (j <= p)%nat -> nth (length k - 1 - j) k 0 = nth (length k - 1) k 0)).
  Proof. first [exact (is_clamped_iff eps maxv) | exact (is_clamped_iff eps) | exact is_clamped_iff | exact (is_clamped_iff maxv)]. Qed.
End C12_is_clamped_iff_statement.
Print Assumptions C12_is_clamped_iff.

Section C13_kclamp_spec_statement.
  Variables eps maxv : R.
  Local Hint Extern 0 (Scalar R) => exact (ROps eps maxv) : typeclass_instances.
  Local Notation separated := (separated eps).
  Theorem C13_kclamp_spec : forall (k : list R) p u lo hi,
    domain k p = Ok (lo, hi) -> lo <= hi ->
    exists v, kclamp k p u = Ok v /\ lo <= v <= hi /\ (lo <= u <= hi -> v = u) /\
    kclamp k p v = Ok v /\ (forall w, lo <= w <= hi -> Rabs (v - u) <= Rabs (w - u)).
  Proof. first [exact (kclamp_spec eps maxv) | exact (kclamp_spec eps) | exact kclamp_spec | exact (kclamp_spec maxv)]. Qed.
End C13_kclamp_spec_statement.
Example C13_case : @domain R (cknots demo) 2 = Ok (0, 2).
Proof. reflexivity. Qed.
Print Assumptions C13_kclamp_spec.

Section C14_add_knot_preserves_statement.
  Variables eps maxv : R.
  Local Hint Extern 0 (Scalar R) => exact (ROps eps maxv) : typeclass_instances.
  Local Notation refine_ok := (refine_ok eps).
  Theorem C14_add_knot_preserves : forall c x,
    curve_ok c -> curve_eps eps c -> uniform_weights c ->
    dom0 c < x < dom1 c -> refine_ok c [x] ->
    exists c', try_add_knot c x = Ok c' /\
    Permutation (cknots c') (x :: cknots c) /\ Sorted Rle (cknots c') /\
    length (cpts c') = S (length (cpts c)) /\ cdeg c' = cdeg c /\
    dom0 c' = dom0 c /\ dom1 c' = dom1 c /\ uniform_weights c' /\ curve_ok c' /\
    forall u, dom0 c <= u <= dom1 c -> point_at c' u = point_at c u.
  Proof. first [exact (add_knot_preserves eps maxv) | exact (add_knot_preserves eps) | exact add_knot_preserves | exact (add_knot_preserves maxv)]. Qed.
End C14_add_knot_preserves_statement.
Example C14_case : curve_ok demo1 /\ curve_eps eps0 demo1 /\ uniform_weights demo1 /\ dom0 demo1 < 1 / 2 < dom1 demo1 /\ refine_ok eps0 demo1 [1 / 2].
Proof. split; [exact demo1_ok|]. split; [exact demo1_eps|]. split; [exact demo1_uniform|]. split; [unfold dom0, dom1, kf; cbn; lra|exact demo1_refine]. Qed.
Print Assumptions C14_add_knot_preserves.

Section C14_add_knot_effect_statement.
  Variables eps maxv : R.
  Local Hint Extern 0 (Scalar R) => exact (ROps eps maxv) : typeclass_instances.
  Local Notation refine_ok := (refine_ok eps).
  Theorem C14_add_knot_effect : forall c x,
    curve_ok c -> dom0 c <= x < dom1 c ->
    exists c' j, try_add_knot c x = Ok c' /\ (cdeg c <= j <= clast c)%nat /\
    kf (cknots c) j <= x < kf (cknots c) (S j) /\
    cdim c' = cdim c /\ cdeg c' = cdeg c /\ cknots c' = ins_knots (cknots c) j x /\
    length (cpts c') = S (length (cpts c)) /\
    Forall (fun p => length p = cdim c) (cpts c') /\
    (forall i t, (t + cdeg c <= j)%nat -> cpc c' i t = cpc c i t) /\
    (forall i t, (j < t + cdeg c)%nat -> (t <= j)%nat -> cpc c' i t = addk c j x i t) /\
    (forall i t, (j < t <= length (cpts c))%nat -> cpc c' i t = cpc c i (t - 1)).
  Proof. first [exact (add_knot_effect eps maxv) | exact (add_knot_effect eps) | exact add_knot_effect | exact (add_knot_effect maxv)]. Qed.
End C14_add_knot_effect_statement.
Print Assumptions C14_add_knot_effect.

Section C14_add_knot_rational_refuted_statement.
  Local Existing Instance FOps.
  Local Open Scope float_scope.
  Theorem C14_add_knot_rational_refuted : exists (c c' : Curve float) (x : float), try_add_knot c x = Ok c' /\
    point_at c x = Ok [1.5] /\ point_at c' x = Ok [1].
  Proof. exact add_knot_rational_refuted. Qed.
End C14_add_knot_rational_refuted_statement.
Print Assumptions C14_add_knot_rational_refuted.

Section C15_refine_knot_preserves_statement.
  Variables eps maxv : R.
  Local Hint Extern 0 (Scalar R) => exact (ROps eps maxv) : typeclass_instances.
  Local Notation refine_ok := (refine_ok eps).
  Theorem C15_refine_knot_preserves : forall c xs,
    curve_ok c -> curve_eps eps c -> refine_ok c xs -> inside c xs ->
    exists c', try_refine_knot c xs = Ok c' /\
    Permutation (cknots c') (cknots c ++ xs) /\ Sorted Rle (cknots c') /\
    length (cpts c') = (length (cpts c) + length xs)%nat /\ cdeg c' = cdeg c /\
    dom0 c' = dom0 c /\ dom1 c' = dom1 c /\
    forall u, dom0 c <= u <= dom1 c -> point_at c' u = point_at c u.
  Proof. first [exact (refine_knot_preserves eps maxv) | exact (refine_knot_preserves eps) | exact refine_knot_preserves | exact (refine_knot_preserves maxv)]. Qed.
End C15_refine_knot_preserves_statement.
Example C15_case : curve_ok demo /\ curve_eps eps0 demo /\ refine_ok eps0 demo [1 / 2; 1 / 2; 3 / 2] /\ inside demo [1 / 2; 1 / 2; 3 / 2].
Proof. exact (conj demo_ok (conj demo_eps demo_refine)). Qed.
Print Assumptions C15_refine_knot_preserves.

Section C16_split_preserves_statement.
  Variables eps maxv : R.
  Local Hint Extern 0 (Scalar R) => exact (ROps eps maxv) : typeclass_instances.
  Local Notation sep_from := (sep_from eps).
  Local Notation off_knots := (off_knots eps).
  Theorem C16_split_preserves : forall c u,
    curve_ok c -> curve_eps eps c -> dom0 c < u < dom1 c -> off_knots c u ->
    exists l r, try_split c u = Ok (l, r) /\
    curve_ok l /\ curve_eps eps l /\ curve_ok r /\ curve_eps eps r /\
    cdeg l = cdeg c /\ cdeg r = cdeg c /\
    dom0 l = dom0 c /\ dom1 l = u /\ dom0 r = u /\ dom1 r = dom1 c /\
    (forall v, dom0 c <= v <= u -> point_at l v = point_at c v) /\
    (forall v, u <= v <= dom1 c -> point_at r v = point_at c v).
  Proof. first [exact (split_preserves eps maxv) | exact (split_preserves eps) | exact split_preserves | exact (split_preserves maxv)]. Qed.
End C16_split_preserves_statement.
Example C16_case : off_knots eps0 demo (1 / 2) /\ dom0 demo < 1 / 2 < dom1 demo.
Proof. split; [apply demo_off; now left|]. destruct demo_dom as [-> ->]; lra. Qed.
Print Assumptions C16_split_preserves.

Section C16_split_right_statement.
  Variables eps maxv : R.
  Local Hint Extern 0 (Scalar R) => exact (ROps eps maxv) : typeclass_instances.
  Local Notation sep_from := (sep_from eps).
  Local Notation off_knots := (off_knots eps).
  Theorem C16_split_right : forall c u,
    curve_ok c -> curve_eps eps c -> dom0 c <= u < dom1 c -> sep_from c u ->
    exists l r, try_split c u = Ok (l, r) /\
    curve_ok r /\ curve_eps eps r /\ dom0 r = u /\ dom1 r = dom1 c /\
    (forall v, u <= v <= dom1 c -> point_at r v = point_at c v).
  Proof. first [exact (split_right eps maxv) | exact (split_right eps) | exact split_right | exact (split_right maxv)]. Qed.
End C16_split_right_statement.
Example C16_case_knot : sep_from eps0 demo 1 /\ dom0 demo <= 1 < dom1 demo.
Proof. split; [apply demo_sep_from; auto|]. destruct demo_dom as [-> ->]; lra. Qed.
Print Assumptions C16_split_right.

Section C16_split_at_end_statement.
  Variables eps maxv : R.
  Local Hint Extern 0 (Scalar R) => exact (ROps eps maxv) : typeclass_instances.
  Local Notation sep_from := (sep_from eps).
  Local Notation off_knots := (off_knots eps).
  Theorem C16_split_at_end : forall c,
    curve_ok c -> curve_eps eps c -> sep_from c (dom1 c) ->
    exists l r, try_split c (dom1 c) = Ok (l, r) /\
    curve_ok l /\ curve_eps eps l /\ dom0 l = dom0 c /\ dom1 l = dom1 c /\
    (forall v, dom0 c <= v <= dom1 c -> point_at l v = point_at c v).
  Proof. first [exact (split_at_end eps maxv) | exact (split_at_end eps) | exact split_at_end | exact (split_at_end maxv)]. Qed.
End C16_split_at_end_statement.
Print Assumptions C16_split_at_end.

Section C16_split_at_knot_refuted_statement.
  Local Existing Instance FOps.
  Local Open Scope float_scope.
  Theorem C16_split_at_knot_refuted : exists (c : Curve float) (u : float) (l r : Curve float) (q q' : float),
    try_split c u = Ok (l, r) /\ knots_domain l = Ok (0%float, u) /\
    point_at c u = Ok [q] /\ PrimFloat.eqb q q = true /\
    point_at l u = Ok [q'] /\ PrimFloat.eqb q' q' = false.
  Proof. exact split_at_knot_refuted. Qed.
End C16_split_at_knot_refuted_statement.
Print Assumptions C16_split_at_knot_refuted.

Section C17_trim_inside_statement.
  Variables eps maxv : R.
  Local Hint Extern 0 (Scalar R) => exact (ROps eps maxv) : typeclass_instances.
  Local Notation sep_from := (sep_from eps).
  Local Notation off_knots := (off_knots eps).
  Theorem C17_trim_inside : forall c a b,
    curve_ok c -> curve_eps eps c -> dom0 c <= a -> a + eps <= b -> b <= dom1 c ->
    sep_from c a -> (off_knots c b \/ (b = dom1 c /\ sep_from c b)) ->
    exists t, try_trim_range c a b = Ok [t] /\ curve_ok t /\ curve_eps eps t /\
    cdeg t = cdeg c /\ dom0 t = a /\ dom1 t = b /\
    forall v, a <= v <= b -> point_at t v = point_at c v.
  Proof. first [exact (trim_inside eps maxv) | exact (trim_inside eps) | exact trim_inside | exact (trim_inside maxv)]. Qed.
End C17_trim_inside_statement.
Example C17_case : dom0 demo <= 1 /\ 1 + eps0 <= 3 / 2 /\ 3 / 2 <= dom1 demo /\ sep_from eps0 demo 1 /\ off_knots eps0 demo (3 / 2).
Proof. destruct demo_dom as [-> ->]. unfold eps0 at 1. split; [lra|]. split; [lra|]. split; [lra|]. split; [apply demo_sep_from; auto|apply demo_off; auto]. Qed.
Print Assumptions C17_trim_inside.

Section C17_trim_outside_statement.
  Variables eps maxv : R.
  Local Hint Extern 0 (Scalar R) => exact (ROps eps maxv) : typeclass_instances.
  Local Notation sep_from := (sep_from eps).
  Local Notation off_knots := (off_knots eps).
  Theorem C17_trim_outside : forall c a b,
    curve_ok c -> curve_eps eps c -> dom0 c < b -> b + eps <= a -> a < dom1 c ->
    sep_from c a -> off_knots c b ->
    exists t h, try_trim_range c a b = Ok [t; h] /\
    curve_ok t /\ curve_eps eps t /\ curve_ok h /\ curve_eps eps h /\
    dom0 t = a /\ dom1 t = dom1 c /\ dom0 h = dom0 c /\ dom1 h = b /\
    (forall v, a <= v <= dom1 c -> point_at t v = point_at c v) /\
    (forall v, dom0 c <= v <= b -> point_at h v = point_at c v).
  Proof. first [exact (trim_outside eps maxv) | exact (trim_outside eps) | exact trim_outside | exact (trim_outside maxv)]. Qed.
End C17_trim_outside_statement.
Example C17_case_outside : dom0 demo < 1 / 2 /\ 1 / 2 + eps0 <= 1 /\ 1 < dom1 demo /\ sep_from eps0 demo 1 /\ off_knots eps0 demo (1 / 2).
Proof. destruct demo_dom as [-> ->]. unfold eps0 at 1. split; [lra|]. split; [lra|]. split; [lra|]. split; [apply demo_sep_from; auto|apply demo_off; auto]. Qed.
Print Assumptions C17_trim_outside.

Section C18_decompose_spec_statement.
  Variables eps maxv : R.
  Local Hint Extern 0 (Scalar R) => exact (ROps eps maxv) : typeclass_instances.
  Theorem C18_decompose_spec : forall c,
    curve_ok c -> curve_eps eps c -> curve_cont c -> clamped c -> separated eps (cknots c) ->
    exists vs segs, try_decompose_bezier_segments c = Ok segs /\
    StronglySorted Rlt vs /\ (forall x, In x vs <-> In x (cknots c)) /\
    S (length segs) = length vs /\
    forall i, (i < length segs)%nat ->
    let s := nth i segs c in
    curve_ok s /\ curve_eps eps s /\ cdim s = cdim c /\ cdeg s = cdeg c /\
    length (cpts s) = S (cdeg c) /\
    cknots s = repeat (nth i vs 0) (cdeg c + 1) ++ repeat (nth (S i) vs 0) (cdeg c + 1) /\
    dom0 s = nth i vs 0 /\ dom1 s = nth (S i) vs 0 /\
    forall u, nth i vs 0 <= u <= nth (S i) vs 0 -> point_at s u = point_at c u.
  Proof. first [exact (decompose_spec eps maxv) | exact (decompose_spec eps) | exact decompose_spec | exact (decompose_spec maxv)]. Qed.
End C18_decompose_spec_statement.
Example C18_case : curve_ok demo /\ curve_eps eps0 demo /\ curve_cont demo /\ clamped demo /\ separated eps0 (cknots demo).
Proof. exact (conj demo_ok (conj demo_eps (conj demo_cont (conj demo_clamped demo_sep)))). Qed.
Print Assumptions C18_decompose_spec.

Section C18_decompose_unclamped_refuted_statement.
  Local Existing Instance FOps.
  Local Open Scope float_scope.
  Theorem C18_decompose_unclamped_refuted : exists (c : Curve float) (segs : list (Curve float)),
    curve_is_clamped c = Ok false /\ knots_domain c = Ok (1, 3) /\
    try_decompose_bezier_segments c = Ok segs /\ length segs = 4%nat /\
    mapM knots_domain segs = Ok [(0, 1); (1, 2); (2, 3); (3, 4)].
  Proof. exact decompose_unclamped_refuted. Qed.
End C18_decompose_unclamped_refuted_statement.
Print Assumptions C18_decompose_unclamped_refuted.

Section C21_polyline_spec_statement.
  Variables eps maxv : R.
  Local Hint Extern 0 (Scalar R) => exact (ROps eps maxv) : typeclass_instances.
  Theorem C21_polyline_spec : forall D pts,
    (1 <= D)%nat -> (2 <= length pts)%nat -> Forall (fun p => length p = (D - 1)%nat) pts ->
    distinct_steps pts -> 0 < eps ->
    eps <= rdist (nth 0 pts []) (nth 1 pts []) ->
    eps <= rdist (nth (length pts - 2) pts []) (nth (length pts - 1) pts []) ->
    exists c, polyline D pts false = Ok c /\ curve_ok c /\
    knots_domain c = Ok (0, chord pts (length pts - 1)) /\
    forall i t, (S i < length pts)%nat -> 0 <= t <= 1 ->
    point_at c (chord pts i + t * (chord pts (S i) - chord pts i))
    = Ok (on_segment (nth i pts []) (nth (S i) pts []) t).
  Proof. first [exact (polyline_spec eps maxv) | exact (polyline_spec eps) | exact polyline_spec | exact (polyline_spec maxv)]. Qed.
End C21_polyline_spec_statement.
Example C21_case : (1 <= 3)%nat /\ Forall (fun p => length p = 2%nat) zigzag /\ distinct_steps zigzag /\ eps0 <= rdist (nth 0 zigzag []) (nth 1 zigzag []) /\ eps0 <= rdist (nth 1 zigzag []) (nth 2 zigzag []).
Proof. split; [lia|]. split; [repeat constructor|]. split; [exact zigzag_distinct|]. destruct zigzag_dist as [A B]. cbn [nth zigzag]. rewrite A, B. unfold eps0. lra. Qed.
Print Assumptions C21_polyline_spec.

Section C21_polyline_normalized_statement.
  Variables eps maxv : R.
  Local Hint Extern 0 (Scalar R) => exact (ROps eps maxv) : typeclass_instances.
  Theorem C21_polyline_normalized : forall D pts,
    (1 <= D)%nat -> (2 <= length pts)%nat -> Forall (fun p => length p = (D - 1)%nat) pts ->
    distinct_steps pts ->
    exists c c', polyline D pts false = Ok c /\ polyline D pts true = Ok c' /\
    normalize_knots c = Ok c' /\ knots_domain c' = Ok (0, 1).
  Proof. first [exact (polyline_normalized eps maxv) | exact (polyline_normalized eps) | exact polyline_normalized | exact (polyline_normalized maxv)]. Qed.
End C21_polyline_normalized_statement.
Print Assumptions C21_polyline_normalized.

Section C22_periodic_closed_statement.
  Variables eps maxv : R.
  Local Hint Extern 0 (Scalar R) => exact (ROps eps maxv) : typeclass_instances.
  Theorem C22_periodic_closed : forall D pts p,
    (1 <= D)%nat -> Forall (fun q => length q = (D - 1)%nat) pts ->
    (1 <= p)%nat -> (p + 1 <= length pts)%nat -> 0 < eps <= 1 ->
    exists c q, try_periodic D pts p = Ok c /\ curve_ok c /\ length (cpts c) = (length pts + p)%nat /\
    first_point c = Ok q /\ end_point c = Ok q.
  Proof. first [exact (periodic_closed eps maxv) | exact (periodic_closed eps) | exact periodic_closed | exact (periodic_closed maxv)]. Qed.
End C22_periodic_closed_statement.
Example C22_case : Forall (fun q => length q = (3 - 1)%nat) zigzag /\ (2 + 1 <= length zigzag)%nat /\ 0 < eps0 <= 1.
Proof. split; [repeat constructor|]. split; [cbn; lia|unfold eps0; lra]. Qed.
Print Assumptions C22_periodic_closed.

Section C22_periodic_too_few_statement.
  Variables eps maxv : R.
  Local Hint Extern 0 (Scalar R) => exact (ROps eps maxv) : typeclass_instances.
  Theorem C22_periodic_too_few : forall D (pts : list (list R)) p,
    (length pts < p + 1)%nat -> errs (try_periodic D pts p).
  Proof. first [exact (periodic_too_few eps maxv) | exact (periodic_too_few eps) | exact periodic_too_few | exact (periodic_too_few maxv)]. Qed.
End C22_periodic_too_few_statement.
Print Assumptions C22_periodic_too_few.

Section C27_elevate_dimension_spec_statement.
  Variables eps maxv : R.
  Local Hint Extern 0 (Scalar R) => exact (ROps eps maxv) : typeclass_instances.
  Theorem C27_elevate_dimension_spec : forall c u p,
    curve_ok c -> curve_eps eps c -> dom0 c <= u <= dom1 c ->
    point_at c u = Ok p -> point_at (elevate_dimension c) u = Ok (p ++ [0]).
  Proof. first [exact (elevate_dimension_spec eps maxv) | exact (elevate_dimension_spec eps) | exact elevate_dimension_spec | exact (elevate_dimension_spec maxv)]. Qed.
End C27_elevate_dimension_spec_statement.
Print Assumptions C27_elevate_dimension_spec.

Section C55_point_at_continuous_statement.
  Variables eps maxv : R.
  Local Hint Extern 0 (Scalar R) => exact (ROps eps maxv) : typeclass_instances.
  Theorem C55_point_at_continuous : forall c i,
    curve_ok c -> curve_eps eps c -> curve_cont c -> pos_weights c -> (i < cdim c - 1)%nat ->
    exists f, continuous_on f (dom0 c) (dom1 c) /\
    forall u, dom0 c <= u <= dom1 c -> exists q, point_at c u = Ok q /\ rc i q = f u.
  Proof. first [exact (point_at_continuous eps maxv) | exact (point_at_continuous eps) | exact point_at_continuous | exact (point_at_continuous maxv)]. Qed.
End C55_point_at_continuous_statement.
Example C55_case : curve_cont demo /\ (1 < cdim demo - 1)%nat.
Proof. split; [exact demo_cont|cbn; lia]. Qed.
Print Assumptions C55_point_at_continuous.

Theorem C55_hcoord_continuous : forall c i,
    curve_ok c -> curve_cont c ->
    continuous_on (hcoord c i) (dom0 c) (dom1 c).
Proof. exact hcoord_continuous. Qed.
Print Assumptions C55_hcoord_continuous.

Theorem C55_full_multiplicity_jumps : exists c, curve_ok c /\ ~ continuous_on (hcoord c 0) (dom0 c) (dom1 c).
Proof. exact full_multiplicity_jumps. Qed.
Print Assumptions C55_full_multiplicity_jumps.
