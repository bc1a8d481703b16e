(** * The optimisation problems: costs are squared distances, gradients and Hessians are their derivatives *)
From Coq Require Import Reals Lra Lia String List.
From Verif Require Import Base BaseFacts Scalar RSum BSplineSpec BSpline BSplineDeriv KnotModel KnotSpec KnotFacts VecFacts MiscModel MiscProofs CurveModel CurveSpec CurveProofs
  CurveGeom CurveGeom2 DerivKnot CurveDeriv SurfaceModel SurfaceSpec SurfaceProofs SurfaceDeriv SurfaceRational ClosestModel NewtonProofs BfgsModel BfgsReal.
Import ListNotations.
Open Scope R_scope.

(** ** Specification *)
(** squared distance of two points given by their coordinates *)
Definition sqdist (n : nat) (f g : nat -> R) : R := rsum n (fun i => (f i - g i) * (f i - g i)).
(** [u] lies strictly inside span [s] of the curve *)
Definition inside_span (c : Curve R) (s : nat) (u : R) : Prop := (cdeg c <= s <= clast c)%nat /\ kf (cknots c) s < u < kf (cknots c) (S s).
(** [(u, v)] lies strictly inside cell [(a, b)] of the surface *)
Definition inside_cell (s : Surf R) (a b : nat) (u v : R) : Prop :=
  (sdu s <= a <= nrow s - 1)%nat /\ (sdv s <= b <= ncol s - 1)%nat /\ kf (suk s) a < u < kf (suk s) (S a) /\ kf (svk s) b < v < kf (svk s) (S b).
(** what the solvers need of curves and surfaces *)
Definition smooth_curve (eps : R) (c : Curve R) : Prop := curve_ok c /\ curve_eps eps c /\ pos_weights c.
Definition smooth_surf (eps : R) (s : Surf R) : Prop := surf_ok s /\ surf_eps eps s /\ spos s.

(** derivative of a squared distance *)
Lemma sqdist_deriv n (f : nat -> R -> R) (g d : nat -> R) u : (forall i, (i < n)%nat -> derivable_pt_lim (f i) u (d i)) ->
  derivable_pt_lim (fun x => sqdist n (fun i => f i x) g) u (2 * rsum n (fun i => d i * (f i u - g i))).
Proof.
  intros H. unfold sqdist. rewrite <- rsum_scal.
  apply (derivable_rsum n (fun i x => (f i x - g i) * (f i x - g i)) (fun i _ => 2 * (d i * (f i u - g i)))). intros i Hi.
  assert (D : derivable_pt_lim (fun x => f i x - g i) u (d i - 0)) by (apply (derivable_pt_lim_minus (f i) (fun _ => g i)); [apply H; exact Hi|apply derivable_pt_lim_const]).
  pose proof (derivable_pt_lim_mult _ _ u _ _ D D) as M. replace (2 * (d i * (f i u - g i))) with ((d i - 0) * (f i u - g i) + (f i u - g i) * (d i - 0)) by ring. exact M.
Qed.
Lemma sqdist_sym n f g : sqdist n f g = sqdist n g f.
Proof. unfold sqdist. apply rsum_ext. intros i Hi. ring. Qed.
(** derivative of a dot product with a difference *)
Lemma dot_deriv n (v f : nat -> R -> R) (g a d : nat -> R) u : (forall i, (i < n)%nat -> derivable_pt_lim (v i) u (a i)) -> (forall i, (i < n)%nat -> derivable_pt_lim (f i) u (d i)) ->
  derivable_pt_lim (fun x => rsum n (fun i => v i x * (f i x - g i))) u (rsum n (fun i => a i * (f i u - g i)) + rsum n (fun i => v i u * d i)).
Proof.
  intros Hv Hf. rewrite <- rsum_plus.
  apply (derivable_rsum n (fun i x => v i x * (f i x - g i)) (fun i _ => a i * (f i u - g i) + v i u * d i)). intros i Hi.
  assert (D : derivable_pt_lim (fun x => f i x - g i) u (d i - 0)) by (apply (derivable_pt_lim_minus (f i) (fun _ => g i)); [apply Hf; exact Hi|apply derivable_pt_lim_const]).
  pose proof (derivable_pt_lim_mult _ _ u _ _ (Hv i Hi) D) as M. replace (a i * (f i u - g i) + v i u * d i) with (a i * (f i u - g i) + v i u * (d i - 0)) by ring. exact M.
Qed.

Section Real.
  Variables eps maxv : R.
  Local Hint Extern 0 (Scalar R) => exact (ROps eps maxv) : typeclass_instances.

  Lemma inside_in_span c s u : inside_span c s u -> in_span (cknots c) (clast c) s u.
  Proof. intros (_ & H). unfold in_span. split; [lra|]. split; [lra|]. left; lra. Qed.
  Lemma inside_dom c s u : curve_ok c -> inside_span c s u -> dom0 c <= u <= dom1 c.
  Proof.
    intros Hc (Hs & Hu). pose proof (sorted_mono _ (ko_sorted _ _ _ (co_knots c Hc))) as M. pose proof (clast_S c Hc) as Hn.
    pose proof (mono_le (kf (cknots c)) (cdeg c) s M ltac:(lia)). pose proof (mono_le (kf (cknots c)) (S s) (length (cpts c)) M ltac:(unfold clast in *; lia)).
    unfold dom0, dom1. lra.
  Qed.

  (** derivatives of a curve inside a span, as one table *)
  Lemma curve_table c s : smooth_curve eps c -> (cdeg c <= s <= clast c)%nat -> kf (cknots c) s < kf (cknots c) (S s) ->
    exists F : nat -> nat -> R -> R, (forall u d, inside_span c s u -> exists ds, rational_derivatives c u d = Ok ds /\ length ds = S d /\
        forall m, (m <= d)%nat -> length (nth m ds []) = (cdim c - 1)%nat /\ forall i, (i < cdim c - 1)%nat -> rc i (nth m ds []) = F i m u) /\
      (forall i m u, (i < cdim c - 1)%nat -> inside_span c s u -> F i 0%nat u = nurbs c i u /\ derivable_pt_lim (nurbs c i) u (F i 1%nat u) /\ derivable_pt_lim (F i m) u (F i (S m) u)).
  Proof.
    intros (Hc & He & Hw) Hs Hne. destruct (rational_derivatives_all eps maxv c s Hc He Hw Hs Hne) as (Ch & V). exists (fun i => ratd c s i). split.
    - intros u d Hu. exact (V u d (inside_in_span c s u Hu)).
    - intros i m u Hi (_ & Hu). pose proof (Ch i Hi) as C. split; [|split].
      + apply C. lra.
      + apply (chain_first _ _ _ _ u C Hu).
      + apply C. lra.
  Qed.

  (** *** Closest point on a curve: the gradient and the Hessian of half the squared distance *)
  Theorem closest_problem c s p : smooth_curve eps c -> (cdeg c <= s <= clast c)%nat -> kf (cknots c) s < kf (cknots c) (S s) -> length p = (cdim c - 1)%nat ->
    let F x := sqdist (cdim c - 1) (fun i => nurbs c i x) (fun i => rc i p) / 2 in
    exists G H : R -> R, forall u, inside_span c s u ->
      curve_gradient c p u = Ok (G u) /\ derivable_pt_lim F u (G u) /\ curve_hessian c p u = Ok (H u) /\ derivable_pt_lim G u (H u).
  Proof.
    intros Hc Hs Hne Lp F. destruct (curve_table c s Hc Hs Hne) as (D & V & P).
      exists (fun u => rsum (cdim c - 1) (fun i => D i 1%nat u * (D i 0%nat u - rc i p))),
             (fun u => rsum (cdim c - 1) (fun i => D i 2%nat u * (D i 0%nat u - rc i p)) + rsum (cdim c - 1) (fun i => D i 1%nat u * D i 1%nat u)).
      intros u Hu. split; [|split; [|split]].
      + destruct (V u 1%nat Hu) as (ds & E & L & Q). unfold curve_gradient. rewrite E. cbn [bind]. rewrite !(get_ok _ _ []) by lia. cbn [bind]. f_equal.
        destruct (Q 0%nat ltac:(lia)) as (L0 & Q0). destruct (Q 1%nat ltac:(lia)) as (L1 & Q1).
        rewrite vdot_rsum by (rewrite (vsub_length _ _ (cdim c - 1)); auto). rewrite L1. apply rsum_ext. intros i Hi. rewrite (rc_vsub eps maxv) by congruence. now rewrite Q0, Q1.
      + unfold F, Rdiv. replace (rsum (cdim c - 1) (fun i => D i 1%nat u * (D i 0%nat u - rc i p))) with (/ 2 * (2 * rsum (cdim c - 1) (fun i => D i 1%nat u * (nurbs c i u - rc i p)))).
        * apply (derivable_pt_lim_ext (fun x => / 2 * sqdist (cdim c - 1) (fun i => nurbs c i x) (fun i => rc i p))); [intros; ring|].
          apply (derivable_pt_lim_scal (fun x => sqdist (cdim c - 1) (fun i => nurbs c i x) (fun i => rc i p))). apply sqdist_deriv. intros i Hi. apply (P i 0%nat u Hi Hu).
        * rewrite <- Rmult_assoc, Rinv_l, Rmult_1_l by lra. apply rsum_ext. intros i Hi. now rewrite (proj1 (P i 0%nat u Hi Hu)).
      + destruct (V u 2%nat Hu) as (ds & E & L & Q). unfold curve_hessian. rewrite E. cbn [bind]. rewrite !(get_ok _ _ []) by lia. cbn [bind].
        destruct (Q 0%nat ltac:(lia)) as (L0 & Q0). destruct (Q 1%nat ltac:(lia)) as (L1 & Q1). destruct (Q 2%nat ltac:(lia)) as (L2 & Q2).
        rewrite !vdot_rsum by (rewrite ?(vsub_length _ _ (cdim c - 1)); auto). rewrite L1, L2. rs. f_equal. f_equal; apply rsum_ext; intros i Hi.
        * rewrite (rc_vsub eps maxv) by congruence. now rewrite Q0, Q2.
        * now rewrite Q1.
      + apply (dot_deriv (cdim c - 1) (fun i => D i 1%nat) (fun i => D i 0%nat)); intros i Hi; apply (P i); auto.
  Qed.

  (** *** Two curves: cost and gradient *)
  Lemma gap_cost_spec D p1 p2 (f g : nat -> R) w1 w2 : length p1 = D -> length p2 = D -> rc (D - 1) p1 = w1 -> rc (D - 1) p2 = w2 -> w1 <> 0 -> w2 <> 0 ->
    (forall i, (i < D - 1)%nat -> rc i p1 / w1 = f i /\ rc i p2 / w2 = g i) -> gap_cost D p1 p2 = Ok (sqdist (D - 1) f g).
  Proof.
    intros L1 L2 E1 E2 N1 N2 V. unfold gap_cost. rewrite !coord_rc, E1, E2. rs.
    destruct (Reqb_spec w1 0); [contradiction|]. destruct (Reqb_spec w2 0); [contradiction|]. cbn [negb andb]. f_equal.
    assert (La : length (vdivs (firstn (D - 1) p1) w1) = (D - 1)%nat) by (apply vdivs_length; rewrite firstn_length; lia).
    assert (Lb : length (vdivs (firstn (D - 1) p2) w2) = (D - 1)%nat) by (apply vdivs_length; rewrite firstn_length; lia).
    unfold vnorm2. rewrite vdot_rsum by reflexivity. rewrite (vsub_length _ _ (D - 1)) by auto. unfold sqdist. apply rsum_ext. intros i Hi.
    rewrite (rc_vsub eps maxv) by congruence. rewrite !(rc_vdivs eps maxv), !(rc_firstn) by auto. destruct (V i Hi) as (-> & ->). reflexivity.
  Qed.

  Theorem cc_cost_spec a b u v : smooth_curve eps a -> smooth_curve eps b -> cdim a = cdim b -> dom0 a <= u <= dom1 a -> dom0 b <= v <= dom1 b ->
    cc_cost a b [u; v] = Ok (sqdist (cdim a - 1) (fun i => nurbs a i u) (fun i => nurbs b i v)).
  Proof.
    intros (Ha & Ea & Wa) (Hb & Eb & Wb) Hd Hu Hv. unfold cc_cost. change (coord 0 [u; v]) with u. change (coord 1 [u; v]) with v.
    destruct (point_spec eps maxv a u Ha Ea Hu) as (p1 & -> & L1 & V1). destruct (point_spec eps maxv b v Hb Eb Hv) as (p2 & -> & L2 & V2). cbn [bind].
    pose proof (wfun_pos eps maxv a u Ha Ea Wa Hu). pose proof (wfun_pos eps maxv b v Hb Eb Wb Hv).
    apply (gap_cost_spec (cdim a) p1 p2 _ _ (wfun a u) (wfun b v)); try congruence; try lra.
    - apply V1.
    - rewrite Hd. apply V2.
    - intros i Hi. rewrite V1, V2. split; reflexivity.
  Qed.

  Theorem cc_gradient_spec a b sa sb u v : smooth_curve eps a -> smooth_curve eps b -> cdim a = cdim b -> inside_span a sa u -> inside_span b sb v ->
    exists gu gv, cc_gradient a b [u; v] = Ok [gu; gv] /\
      derivable_pt_lim (fun x => sqdist (cdim a - 1) (fun i => nurbs a i x) (fun i => nurbs b i v)) u gu /\
      derivable_pt_lim (fun y => sqdist (cdim a - 1) (fun i => nurbs a i u) (fun i => nurbs b i y)) v gv.
  Proof.
    intros Ha Hb Hd Hu Hv. destruct (curve_table a sa Ha (proj1 Hu) ltac:(destruct Hu; lra)) as (A & VA & PA). destruct (curve_table b sb Hb (proj1 Hv) ltac:(destruct Hv; lra)) as (B & VB & PB).
    destruct (VA u 1%nat Hu) as (du & E1 & L1 & Q1). destruct (VB v 1%nat Hv) as (dv & E2 & L2 & Q2).
    unfold cc_gradient. change (coord 0 [u; v]) with u. change (coord 1 [u; v]) with v. rewrite E1. cbn [bind]. rewrite E2. cbn [bind]. rewrite !(get_ok _ _ []) by lia. cbn [bind].
    destruct (Q1 0%nat ltac:(lia)) as (La0 & A0). destruct (Q1 1%nat ltac:(lia)) as (La1 & A1). destruct (Q2 0%nat ltac:(lia)) as (Lb0 & B0). destruct (Q2 1%nat ltac:(lia)) as (Lb1 & B1). rewrite <- Hd in *.
    set (n := (cdim a - 1)%nat) in *.
    exists (2 * rsum n (fun i => A i 1%nat u * (nurbs a i u - nurbs b i v))), (2 * rsum n (fun i => B i 1%nat v * (nurbs b i v - nurbs a i u))). split; [|split].
    - f_equal. cbn [vscale map]. change (sofz 2) with 2. assert (Lr : length (vsub (nth 0 du []) (nth 0 dv [])) = n) by (apply vsub_length; auto).
      rewrite !vdot_rsum by congruence. rewrite Lr. rs.
      assert (Er : forall i, (i < n)%nat -> rc i (vsub (nth 0 du []) (nth 0 dv [])) = nurbs a i u - nurbs b i v).
      { intros i Hi. rewrite (rc_vsub eps maxv) by congruence. rewrite A0, B0 by auto. rewrite (proj1 (PA i 0%nat u Hi Hu)), (proj1 (PB i 0%nat v Hi Hv)). reflexivity. }
      f_equal; [|f_equal].
      + rewrite Rmult_comm. f_equal. apply rsum_ext. intros i Hi. rewrite Er, A1 by auto. ring.
      + rewrite Rmult_comm. f_equal. replace (- rsum n (fun i => rc i (vsub (nth 0 du []) (nth 0 dv [])) * rc i (nth 1 dv []))) with (-1 * rsum n (fun i => rc i (vsub (nth 0 du []) (nth 0 dv [])) * rc i (nth 1 dv []))) by ring.
        rewrite <- rsum_scal. apply rsum_ext. intros i Hi. rewrite Er, B1 by auto. ring.
    - apply (sqdist_deriv n (fun i x => nurbs a i x)). intros i Hi. apply (PA i 0%nat u Hi Hu).
    - apply (derivable_pt_lim_ext (fun y => sqdist n (fun i => nurbs b i y) (fun i => nurbs a i u))); [intros; apply sqdist_sym|].
      apply (sqdist_deriv n (fun i y => nurbs b i y)). intros i Hi. apply (PB i 0%nat v Hi Hv).
  Qed.

  (** ** Surfaces *)
  Lemma cell_dom s a b u v : surf_ok s -> inside_cell s a b u v -> in_dom s u v.
  Proof.
    intros H (Ha & Hb & Hu & Hv). pose proof (so_u s H). pose proof (so_v s H).
    pose proof (sorted_mono _ (ko_sorted _ _ _ (so_uk s H))) as Mu. pose proof (sorted_mono _ (ko_sorted _ _ _ (so_vk s H))) as Mv.
    pose proof (mono_le (kf (suk s)) (sdu s) a Mu ltac:(lia)). pose proof (mono_le (kf (suk s)) (S a) (nrow s) Mu ltac:(lia)).
    pose proof (mono_le (kf (svk s)) (sdv s) b Mv ltac:(lia)). pose proof (mono_le (kf (svk s)) (S b) (ncol s) Mv ltac:(lia)).
    unfold in_dom, u0, u1, v0, v1. lra.
  Qed.

  Lemma surf_table s a b : smooth_surf eps s -> (sdu s <= a <= nrow s - 1)%nat -> (sdv s <= b <= ncol s - 1)%nat ->
    kf (suk s) a < kf (suk s) (S a) -> kf (svk s) b < kf (svk s) (S b) ->
    exists F : nat -> nat -> nat -> R -> R -> R,
      (forall u v d, inside_cell s a b u v -> exists ds, surf_rational_derivatives s u v d = Ok ds /\
        forall k l, (k + l <= d)%nat -> exists w, get2 ds k l = Ok w /\ length w = (sdim s - 1)%nat /\ forall i, (i < sdim s - 1)%nat -> rc i w = F i k l u v) /\
      (forall i u v, (i < sdim s - 1)%nat -> inside_cell s a b u v -> F i 0%nat 0%nat u v = snurbs s i u v /\
        derivable_pt_lim (fun x => snurbs s i x v) u (F i 1%nat 0%nat u v) /\ derivable_pt_lim (fun y => snurbs s i u y) v (F i 0%nat 1%nat u v)) /\
      (forall i k l u v, (i < sdim s - 1)%nat -> inside_cell s a b u v -> derivable_pt_lim (fun x => F i k l x v) u (F i (S k) l u v) /\ derivable_pt_lim (fun y => F i k l u y) v (F i k (S l) u v)).
  Proof.
    intros (H & He & Hw) Ha Hb Na Nb. exists (fun i k l u v => rsurf s a b i k l u v).
    assert (Ch : forall i, partial_chain (kf (suk s) a) (kf (suk s) (S a)) (kf (svk s) b) (kf (svk s) (S b)) (snurbs s i) (rsurf s a b i)) by (intros i; apply rsurf_chain; auto).
    split; [|split].
    - intros u v d (_ & _ & Hu & Hv). destruct (surf_rational_piece eps maxv s u v d a b H He Ha Hb) as (ds & E & L & V).
      { unfold in_span. split; [lra|]. split; [lra|]. left; lra. }
      { unfold in_span. split; [lra|]. split; [lra|]. left; lra. }
      exists ds. split; [exact E|]. intros k l Hkl. destruct (V k ltac:(lia)) as (Lr & Vr). destruct (Vr l Hkl) as (Lw & Vw). exists (ent ds k l).
      split; [|split; [exact Lw|exact Vw]]. unfold get2. rewrite (get_ok _ k []) by lia. cbn [bind]. rewrite (get_ok _ l []) by lia. reflexivity.
    - intros i u v Hi (_ & _ & Hu & Hv). split; [apply (proj1 (Ch i)); lra|]. apply (chain_partials s a b i u v (rsurf s a b i)); auto.
    - intros i k l u v Hi (_ & _ & Hu & Hv). apply (proj2 (Ch i)); lra.
  Qed.

  (** *** Closest point on a surface: the move is Newton's step for half the squared distance *)
  Theorem surf_newton_step (solve2 : R -> R -> R -> R * R -> option (R * R)) s a b p : smooth_surf eps s -> (sdu s <= a <= nrow s - 1)%nat -> (sdv s <= b <= ncol s - 1)%nat ->
    kf (suk s) a < kf (suk s) (S a) -> kf (svk s) b < kf (svk s) (S b) -> length p = (sdim s - 1)%nat ->
    let F x y := sqdist (sdim s - 1) (fun i => snurbs s i x y) (fun i => rc i p) / 2 in
    exists Gu Gv Huu Huv Hvv : R -> R -> R, forall u v, inside_cell s a b u v ->
      derivable_pt_lim (fun x => F x v) u (Gu u v) /\ derivable_pt_lim (fun y => F u y) v (Gv u v) /\
      derivable_pt_lim (fun x => Gu x v) u (Huu u v) /\ derivable_pt_lim (fun y => Gu u y) v (Huv u v) /\
      derivable_pt_lim (fun x => Gv x v) u (Huv u v) /\ derivable_pt_lim (fun y => Gv u y) v (Hvv u v) /\
      surf_move solve2 s p (u, v) =
        if Rlt_dec (sqrt (2 * F u v)) (1 / 100000) then Ok None
        else if Rlt_dec (Huu u v) eps then (if Rlt_dec (Hvv u v) eps then Ok None else Ok (Some (u, v - Gv u v / Hvv u v)))
        else if Rlt_dec (Hvv u v) eps then Ok (Some (u - Gu u v / Huu u v, v))
        else match solve2 (Huu u v) (Huv u v) (Hvv u v) (- Gu u v, - Gv u v) with Some (x, y) => Ok (Some (u + x, v + y)) | None => Err "Failed to solve" end.
  Proof.
    intros Hs Ha Hb Na Nb Lp F. destruct (surf_table s a b Hs Ha Hb Na Nb) as (D & V & P & Q). set (n := (sdim s - 1)%nat) in *.
    set (G k l := fun u v => rsum n (fun i => D i k l u v * (D i 0%nat 0%nat u v - rc i p))).
    set (K k l k' l' := fun u v => rsum n (fun i => D i k l u v * D i k' l' u v)).
    exists (G 1%nat 0%nat), (G 0%nat 1%nat), (fun u v => G 2%nat 0%nat u v + K 1%nat 0%nat 1%nat 0%nat u v), (fun u v => G 1%nat 1%nat u v + K 1%nat 0%nat 0%nat 1%nat u v), (fun u v => G 0%nat 2%nat u v + K 0%nat 1%nat 0%nat 1%nat u v).
    intros u v Huv.
    assert (E0 : forall k l, G k l u v = rsum n (fun i => D i k l u v * (snurbs s i u v - rc i p))) by (intros k l; unfold G; apply rsum_ext; intros i Hi; now rewrite (proj1 (P i u v Hi Huv))).
    assert (Half : forall (f : R -> R) x l, derivable_pt_lim f x (2 * l) -> derivable_pt_lim (fun z => f z / 2) x l).
    { intros f x l Hf. apply (derivable_pt_lim_ext (fun z => / 2 * f z)); [intros; unfold Rdiv; ring|]. replace l with (/ 2 * (2 * l)) by field. now apply (derivable_pt_lim_scal f). }
    split; [|split; [|split; [|split; [|split; [|split]]]]].
    - apply Half. rewrite E0. apply (sqdist_deriv n (fun i x => snurbs s i x v)). intros i Hi. apply (P i u v Hi Huv).
    - apply Half. rewrite E0. apply (sqdist_deriv n (fun i y => snurbs s i u y)). intros i Hi. apply (P i u v Hi Huv).
    - apply (dot_deriv n (fun i x => D i 1%nat 0%nat x v) (fun i x => D i 0%nat 0%nat x v)); intros i Hi; apply (Q i _ _ u v Hi Huv).
    - apply (dot_deriv n (fun i y => D i 1%nat 0%nat u y) (fun i y => D i 0%nat 0%nat u y)); intros i Hi; apply (Q i _ _ u v Hi Huv).
    - replace (K 1%nat 0%nat 0%nat 1%nat u v) with (K 0%nat 1%nat 1%nat 0%nat u v) by (unfold K; apply rsum_ext; intros; ring).
      apply (dot_deriv n (fun i x => D i 0%nat 1%nat x v) (fun i x => D i 0%nat 0%nat x v)); intros i Hi; apply (Q i _ _ u v Hi Huv).
    - apply (dot_deriv n (fun i y => D i 0%nat 1%nat u y) (fun i y => D i 0%nat 0%nat u y)); intros i Hi; apply (Q i _ _ u v Hi Huv).
    - destruct Hs as (H & He & Hw). unfold surf_move. cbn [fst snd].
      destruct (surf_point_at_spec eps maxv s u v H He (cell_dom s a b u v H Huv)) as (q & Eq & Lq & Vq); [apply Rgt_not_eq, (swfun_pos eps maxv); auto; apply (cell_dom s a b); auto|].
      fold n in Lq, Vq. rewrite Eq. cbn [bind]. destruct (V u v 2%nat Huv) as (ds & E & T). rewrite E. cbn [bind].
      destruct (T 1%nat 0%nat ltac:(lia)) as (su & -> & L1 & V1). cbn [bind]. destruct (T 0%nat 1%nat ltac:(lia)) as (sv & -> & L2 & V2). cbn [bind].
      destruct (T 2%nat 0%nat ltac:(lia)) as (suu & -> & L3 & V3). cbn [bind]. destruct (T 0%nat 2%nat ltac:(lia)) as (svv & -> & L4 & V4). cbn [bind].
      destruct (T 1%nat 1%nat ltac:(lia)) as (suv & -> & L5 & V5). cbn [bind].
      set (dif := vsub q p). assert (Ld : length dif = n) by (apply vsub_length; auto).
      assert (Vd : forall i, (i < n)%nat -> rc i dif = D i 0%nat 0%nat u v - rc i p) by (intros i Hi; unfold dif; rewrite (rc_vsub eps maxv) by congruence; rewrite Vq, (proj1 (P i u v Hi Huv)) by auto; reflexivity).
      assert (Dot : forall w k l, length w = n -> (forall i, (i < n)%nat -> rc i w = D i k l u v) -> vdot w dif = G k l u v).
      { intros w k l Lw Vw. rewrite vdot_rsum by congruence. rewrite Lw. apply rsum_ext. intros i Hi. now rewrite Vw, Vd. }
      assert (Dot2 : forall w w' k l k' l', length w = n -> length w' = n -> (forall i, (i < n)%nat -> rc i w = D i k l u v) -> (forall i, (i < n)%nat -> rc i w' = D i k' l' u v) -> vdot w w' = K k l k' l' u v).
      { intros w w' k l k' l' Lw Lw' Vw Vw'. rewrite vdot_rsum by congruence. rewrite Lw. apply rsum_ext. intros i Hi. now rewrite Vw, Vw'. }
      assert (En : vnorm dif = sqrt (2 * F u v)).
      { unfold vnorm, vnorm2. rewrite vdot_rsum, Ld by reflexivity. rs. f_equal. unfold F, sqdist. field_simplify. apply rsum_ext. intros i Hi. rewrite Vd, (proj1 (P i u v Hi Huv)) by auto. reflexivity. }
      unfold surf_newton_move. rewrite En, (Dot su 1%nat 0%nat), (Dot sv 0%nat 1%nat), (Dot suu 2%nat 0%nat), (Dot svv 0%nat 2%nat), (Dot suv 1%nat 1%nat) by auto.
      rewrite (Dot2 su su 1%nat 0%nat 1%nat 0%nat), (Dot2 sv sv 0%nat 1%nat 0%nat 1%nat), (Dot2 su sv 1%nat 0%nat 0%nat 1%nat) by auto.
      change (sofz 100000) with 100000. rs. rewrite (Rplus_comm (K 1%nat 0%nat 1%nat 0%nat u v)), (Rplus_comm (K 0%nat 1%nat 0%nat 1%nat u v)), (Rplus_comm (K 1%nat 0%nat 0%nat 1%nat u v)).
      set (huu := G 2%nat 0%nat u v + _). set (hvv := G 0%nat 2%nat u v + _). set (huv := G 1%nat 1%nat u v + _).
      destruct (Rltb_spec (sqrt (2 * F u v)) (1 / 100000)), (Rlt_dec (sqrt (2 * F u v)) (1 / 100000)); try lra; [reflexivity|].
      destruct (Rltb_spec huu eps), (Rlt_dec huu eps); try lra; destruct (Rltb_spec hvv eps), (Rlt_dec hvv eps); try lra; try reflexivity.
      + do 3 f_equal; unfold Rdiv; ring.
      + do 3 f_equal; unfold Rdiv; ring.
      + destruct (solve2 huu huv hvv (- G 1%nat 0%nat u v, - G 0%nat 1%nat u v)) as [(x & y)|]; [|reflexivity]. do 3 f_equal; ring.
  Qed.

  (** *** A surface and a curve: cost and gradient; the unknowns are (t, u, v) *)
  Theorem sc_cost_spec s b t u v : smooth_surf eps s -> smooth_curve eps b -> sdim s = cdim b -> in_dom s u v -> dom0 b <= t <= dom1 b ->
    sc_cost s b [t; u; v] = Ok (sqdist (sdim s - 1) (fun i => snurbs s i u v) (fun i => nurbs b i t)).
  Proof.
    intros (Hs & Es & Ws) (Hb & Eb & Wb) Hd Huv Ht. unfold sc_cost. change (coord 0 [t; u; v]) with t. change (coord 1 [t; u; v]) with u. change (coord 2 [t; u; v]) with v.
    destruct (surf_point_spec eps maxv s u v Hs Es Huv) as (p1 & -> & L1 & V1). destruct (point_spec eps maxv b t Hb Eb Ht) as (p2 & -> & L2 & V2). cbn [bind].
    pose proof (swfun_pos eps maxv s u v Hs Es Ws Huv). pose proof (wfun_pos eps maxv b t Hb Eb Wb Ht).
    apply (gap_cost_spec (sdim s) p1 p2 _ _ (swfun s u v) (wfun b t)); try congruence; try lra.
    - apply V1.
    - rewrite Hd. apply V2.
    - intros i Hi. rewrite V1, V2. split; reflexivity.
  Qed.

  Theorem sc_gradient_spec s b a1 a2 sb t u v : smooth_surf eps s -> smooth_curve eps b -> sdim s = cdim b -> inside_cell s a1 a2 u v -> inside_span b sb t ->
    exists gt gu gv, sc_gradient s b [t; u; v] = Ok [gt; gu; gv] /\
      derivable_pt_lim (fun x => sqdist (sdim s - 1) (fun i => snurbs s i u v) (fun i => nurbs b i x)) t gt /\
      derivable_pt_lim (fun x => sqdist (sdim s - 1) (fun i => snurbs s i x v) (fun i => nurbs b i t)) u gu /\
      derivable_pt_lim (fun y => sqdist (sdim s - 1) (fun i => snurbs s i u y) (fun i => nurbs b i t)) v gv.
  Proof.
    intros Hs Hb Hd Huv Ht. destruct (curve_table b sb Hb (proj1 Ht) ltac:(destruct Ht; lra)) as (B & VB & PB).
    destruct Huv as (H1 & H2 & Hu & Hv). destruct (surf_table s a1 a2 Hs H1 H2 ltac:(lra) ltac:(lra)) as (D & V & P & _).
    assert (Huv : inside_cell s a1 a2 u v) by (split; [|split; [|split]]; assumption).
    destruct (VB t 1%nat Ht) as (dc & E1 & L1 & Q1). destruct (V u v 1%nat Huv) as (ds & E2 & T).
    unfold sc_gradient. change (coord 0 [t; u; v]) with t. change (coord 1 [t; u; v]) with u. change (coord 2 [t; u; v]) with v.
    rewrite E1. cbn [bind]. rewrite E2. cbn [bind]. rewrite !(get_ok _ _ []) by lia. cbn [bind].
    destruct (T 0%nat 0%nat ltac:(lia)) as (s0 & -> & L0 & V0). cbn [bind]. destruct (T 1%nat 0%nat ltac:(lia)) as (su & -> & Lu & Vu). cbn [bind]. destruct (T 0%nat 1%nat ltac:(lia)) as (sv & -> & Lv & Vv). cbn [bind].
    destruct (Q1 0%nat ltac:(lia)) as (Lb0 & B0). destruct (Q1 1%nat ltac:(lia)) as (Lb1 & B1). rewrite <- Hd in *.
    set (n := (sdim s - 1)%nat) in *.
    exists (2 * rsum n (fun i => B i 1%nat t * (nurbs b i t - snurbs s i u v))), (2 * rsum n (fun i => D i 1%nat 0%nat u v * (snurbs s i u v - nurbs b i t))), (2 * rsum n (fun i => D i 0%nat 1%nat u v * (snurbs s i u v - nurbs b i t))).
    set (r := vsub s0 (nth 0 dc [])). assert (Lr : length r = n) by (apply vsub_length; auto).
    assert (Er : forall i, (i < n)%nat -> rc i r = snurbs s i u v - nurbs b i t).
    { intros i Hi. unfold r. rewrite (rc_vsub eps maxv) by congruence. rewrite V0, B0 by auto. rewrite (proj1 (P i u v Hi Huv)), (proj1 (PB i 0%nat t Hi Ht)). reflexivity. }
    assert (Lo : length (vopp (nth 1 dc [])) = n) by (unfold vopp; rewrite map_length; exact Lb1).
    split; [|split; [|split]].
    - f_equal. cbn [vscale map]. change (sofz 2) with 2. rewrite !vdot_rsum by congruence. rewrite Lo, Lu, Lv. rs. f_equal; [|f_equal; [|f_equal]]; rewrite Rmult_comm; f_equal; apply rsum_ext; intros i Hi; rewrite Er by auto.
      + rewrite (rc_vopp eps maxv), B1 by auto. ring.
      + now rewrite Vu.
      + now rewrite Vv.
    - apply (derivable_pt_lim_ext (fun y => sqdist n (fun i => nurbs b i y) (fun i => snurbs s i u v))); [intros; apply sqdist_sym|].
      apply (sqdist_deriv n (fun i y => nurbs b i y)). intros i Hi. apply (PB i 0%nat t Hi Ht).
    - apply (sqdist_deriv n (fun i x => snurbs s i x v)). intros i Hi. apply (P i u v Hi Huv).
    - apply (sqdist_deriv n (fun i y => snurbs s i u y)). intros i Hi. apply (P i u v Hi Huv).
  Qed.

  (** *** Closed directions of a net *)
  Theorem close_rows_spec (pts : list (list (list R))) m n : (0 < m)%nat -> (0 < n)%nat -> length pts = m -> Forall (fun r => length r = n) pts ->
    exists cu cv, close_rows pts = Ok (cu, cv) /\
      let at_ i j := nth j (nth i pts []) [] in
      (cu = true <-> forall j, (j < n)%nat -> vnorm (vsub (at_ 0%nat j) (at_ (m - 1)%nat j)) < 10 * eps) /\
      (cv = true <-> forall i, (i < m)%nat -> vnorm (vsub (at_ i 0%nat) (at_ i (n - 1)%nat)) < 10 * eps).
  Proof.
    intros Hm Hn Lm Fr. assert (Lr : forall i, (i < m)%nat -> length (nth i pts []) = n) by (intros i Hi; rewrite Forall_forall in Fr; apply Fr, nth_In; lia).
    unfold close_rows. rewrite (get_ok _ 0 []) by lia. cbn [bind]. rewrite usub_ok by lia. cbn [bind]. rewrite (get_ok _ _ []) by lia. cbn [bind]. rewrite Lm, Lr by lia.
    rewrite (mapM_ok _ (fun j => vnorm (vsub (nth j (nth 0 pts []) []) (nth j (nth (m - 1) pts []) [])) <? seps * sofnat 10)%S).
    2:{ intros j Hj. apply in_seq in Hj. rewrite !(get_ok _ j []) by (rewrite Lr; lia). reflexivity. }
    cbn [bind]. rewrite (mapM_ok _ (fun row => vnorm (vsub (nth 0 row []) (nth (n - 1) row [])) <? seps * sofnat 10)%S).
    2:{ intros row Hr. rewrite Forall_forall in Fr. rewrite (get_ok _ 0 []) by (rewrite (Fr row Hr); lia). cbn [bind]. rewrite usub_ok by (rewrite (Fr row Hr); lia). cbn [bind].
        rewrite (Fr row Hr). rewrite (get_ok _ _ []) by (rewrite (Fr row Hr); lia). reflexivity. }
    cbn [bind]. eexists. eexists. split; [reflexivity|]. cbv zeta.
    assert (T10 : forall x, (x <? seps * sofnat 10)%S = true <-> x < 10 * eps).
    { intros x. rewrite (sofnat_INR eps maxv). replace (INR 10) with 10 by (cbn; ring). rs. rewrite Rltb_true. split; intros; lra. }
    split; rewrite forallb_forall; setoid_rewrite in_map_iff.
    - split.
      + intros H j Hj. apply T10. apply H. exists j. split; [reflexivity|]. apply in_seq. lia.
      + intros H x (j & <- & Hj). apply in_seq in Hj. apply T10, H. lia.
    - split.
      + intros H i Hi. apply T10. apply H. exists (nth i pts []). split; [reflexivity|]. apply nth_In. lia.
      + intros H x (row & <- & Hr). apply (In_nth _ _ []) in Hr. destruct Hr as (i & Hi & <-). apply T10, H. lia.
  Qed.
End Real.
