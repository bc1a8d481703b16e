(** * Casts between floating point types

    Only statements: each theorem is proved elsewhere; its statement is repeated here, followed by
    a concrete case that meets its hypotheses. *)
From Coq Require Import Floats Reals Lra Lia ZArith List Sorted.
From Flocq Require Import Core.
From Verif Require Import Base BaseFacts Scalar RSum BSplineSpec BSpline KnotModel KnotSpec KnotFacts VecFacts
  CurveModel CurveSpec CurveProofs CurveGeom CurveGeom2 SurfaceModel SurfaceSpec SurfaceProofs BBoxModel Rounding RoundingInstance CastModel KnotMisc Cast CastSingle CastEnds Demo PropsSurface.
Import ListNotations.
Local Open Scope R_scope.

Lemma int_24 z : (Z.abs z < 2 ^ 24)%Z -> nearest 24 (IZR z) = IZR z.
Proof.
  intros H. unfold nearest. apply round_generic; [apply valid_rnd_N|]. apply generic_format_FLX. exists (Float radix2 z 0); [unfold F2R; cbn; lra|exact H].
Qed.


Section C98_cast_round_trip_statement.
  Context {A B : Type} (f : A -> B) (g : B -> A).
  Hypothesis back : forall x, g (f x) = x.

  Theorem C98_cast_round_trip : forall (c : Curve A) (s : Surf A) (b : BBox A) (t : @Tess A),
    cast_curve g (cast_curve f c) = c /\ cast_surf g (cast_surf f s) = s /\ cast_box g (cast_box f b) = b /\ cast_tess g (cast_tess f t) = t.
  Proof. exact (cast_round_trip f g back). Qed.
End C98_cast_round_trip_statement.
Example C98_case_trip : forall x, narrow (widen x) = x.
Proof. exact narrow_widen. Qed.
Print Assumptions C98_cast_round_trip.

Section C98_cast_curve_ok_statement.
  Variable rnd : R -> R.
  Hypothesis mono : forall x y, x <= y -> rnd x <= rnd y.

  Theorem C98_cast_curve_ok : forall c,
    curve_ok c ->
    (curve_ok (cast_curve rnd c) <-> rnd (kf (cknots c) (cdeg c)) < rnd (kf (cknots c) (cdeg c + 1)) /\ rnd (kf (cknots c) (clast c)) < rnd (kf (cknots c) (clast c + 1))).
  Proof. exact (cast_curve_ok rnd mono). Qed.
End C98_cast_curve_ok_statement.
Example C98_case_ok : curve_ok demo /\ curve_ok (cast_curve (nearest 24) demo).
Proof.
  split; [exact demo_ok|]. apply (cast_curve_ok (nearest 24) (rd_mono _ _ single_rounding) demo demo_ok).
  split; apply (span_kept _ _ single_rounding); unfold kf; cbn; rewrite ?Rabs_R0, ?Rabs_R1, ?(Rabs_pos_eq 2), ?(Rabs_pos_eq 1) by lra; lra.
Qed.
Print Assumptions C98_cast_curve_ok.

Section C98_cast_surf_ok_statement.
  Variable rnd : R -> R.
  Hypothesis mono : forall x y, x <= y -> rnd x <= rnd y.

  Theorem C98_cast_surf_ok : forall s,
    surf_ok s ->
    (surf_ok (cast_surf rnd s) <->
    (rnd (kf (suk s) (sdu s)) < rnd (kf (suk s) (sdu s + 1)) /\ rnd (kf (suk s) (nrow s - 1)) < rnd (kf (suk s) (nrow s - 1 + 1))) /\
    (rnd (kf (svk s) (sdv s)) < rnd (kf (svk s) (sdv s + 1)) /\ rnd (kf (svk s) (ncol s - 1)) < rnd (kf (svk s) (ncol s - 1 + 1)))).
  Proof. exact (cast_surf_ok rnd mono). Qed.
End C98_cast_surf_ok_statement.
Print Assumptions C98_cast_surf_ok.

Section C98_cast_box_contains_statement.
  Variable rnd : R -> R.
  Hypothesis mono : forall x y, x <= y -> rnd x <= rnd y.
  Variables eps maxv : R.
  Local Hint Extern 0 (Scalar R) => exact (ROps eps maxv) : typeclass_instances.

  Theorem C98_cast_box_contains : forall D (b : BBox R) p,
    length (bmin b) = D -> length (bmax b) = D -> length p = D ->
    bb_contains D b p = true -> bb_contains D (cast_box rnd b) (map rnd p) = true.
  Proof. exact (cast_box_contains rnd mono eps maxv). Qed.
End C98_cast_box_contains_statement.
Print Assumptions C98_cast_box_contains.

Section C98_span_kept_statement.
  Variables (mu : R) (rnd : R -> R).
  Hypothesis Hr : rounding mu rnd.

  Theorem C98_span_kept : forall a b,
    mu * (Rabs a + Rabs b) < b - a -> rnd a < rnd b.
  Proof. exact (span_kept mu rnd Hr). Qed.
End C98_span_kept_statement.
Print Assumptions C98_span_kept.

Section C98_cast_near_statement.
  Variables (mu : R) (rnd : R -> R).
  Hypothesis Hr : rounding mu rnd.
  Variables eps maxv : R.
  Local Hint Extern 0 (Scalar R) => exact (ROps eps maxv) : typeclass_instances.

  Theorem C98_cast_near : forall c A u p,
    curve_ok c -> curve_eps eps c -> pos_weights c -> map rnd (cknots c) = cknots c -> dom0 c <= u <= dom1 c ->
    (forall i j, (i < cdim c - 1)%nat -> (j < length (cpts c))%nat -> Rabs (cpc c i j) <= A * cpc c (cdim c - 1) j) ->
    point_at c u = Ok p ->
    exists q, point_at (cast_curve rnd c) u = Ok q /\ length q = (cdim c - 1)%nat /\
    forall i, (i < cdim c - 1)%nat -> Rabs (rc i q - rc i p) <= 2 * mu * A / (1 - mu).
  Proof. exact (cast_near mu rnd Hr eps maxv). Qed.
End C98_cast_near_statement.
Example C98_case_near : rounding (/ 2 * bpow radix2 (-23)) (nearest 24) /\ curve_ok demo /\ curve_eps eps0 demo /\ pos_weights demo /\
  map (nearest 24) (cknots demo) = cknots demo /\
  (forall i j, (i < cdim demo - 1)%nat -> (j < length (cpts demo))%nat -> Rabs (cpc demo i j) <= 10 * cpc demo (cdim demo - 1) j).
Proof.
  split; [exact single_rounding|]. split; [exact demo_ok|]. split; [exact demo_eps|]. split; [exact demo_pos|]. split.
  - cbn [demo cknots map]. rewrite ?int_24 by (cbn; lia). reflexivity.
  - intros i j Hi Hj. cbn in Hi, Hj. unfold cpc, rc. repeat (destruct i as [|i]; [|]; try lia); repeat (destruct j as [|j]; [|]; try lia); cbn; apply Rabs_le; lra.
Qed.
Print Assumptions C98_cast_near.

Section C98_cast_surf_near_statement.
  Variables (mu : R) (rnd : R -> R).
  Hypothesis Hr : rounding mu rnd.
  Variables eps maxv : R.
  Local Hint Extern 0 (Scalar R) => exact (ROps eps maxv) : typeclass_instances.

  Theorem C98_cast_surf_near : forall s A u v p,
    surf_ok s -> surf_eps eps s -> spos s -> map rnd (suk s) = suk s -> map rnd (svk s) = svk s -> in_dom s u v ->
    (forall i a b, (i < sdim s - 1)%nat -> (a < nrow s)%nat -> (b < ncol s)%nat -> Rabs (spc s i a b) <= A * spc s (sdim s - 1) a b) ->
    surf_point_at s u v = Ok p ->
    exists q, surf_point_at (cast_surf rnd s) u v = Ok q /\ length q = (sdim s - 1)%nat /\
    forall i, (i < sdim s - 1)%nat -> Rabs (rc i q - rc i p) <= 2 * mu * A / (1 - mu).
  Proof. exact (cast_surf_near mu rnd Hr eps maxv). Qed.
End C98_cast_surf_near_statement.
Example C98_case_surf_near : surf_ok dsf /\ surf_eps eps0 dsf /\ spos dsf /\ map (nearest 24) (suk dsf) = suk dsf /\ map (nearest 24) (svk dsf) = svk dsf /\
  (forall i a b, (i < sdim dsf - 1)%nat -> (a < nrow dsf)%nat -> (b < ncol dsf)%nat -> Rabs (spc dsf i a b) <= 3 * spc dsf (sdim dsf - 1) a b).
Proof.
  split; [exact dsf_ok|]. split; [exact dsf_eps|]. split; [exact dsf_pos|]. split; [|split].
  - cbn [dsf suk map]. rewrite ?int_24 by (cbn; lia). reflexivity.
  - cbn [dsf svk map]. rewrite ?int_24 by (cbn; lia). reflexivity.
  - intros i a b Hi Ha Hb. cbn in Hi, Ha, Hb. unfold spc, rc. repeat (destruct i as [|i]; [|]; try lia); repeat (destruct a as [|a]; [|]; try lia); repeat (destruct b as [|b]; [|]; try lia); cbn; apply Rabs_le; lra.
Qed.
Print Assumptions C98_cast_surf_near.

Section C98_cast_mesh_near_statement.
  Variables (mu : R) (rnd : R -> R).
  Hypothesis Hr : rounding mu rnd.

  Theorem C98_cast_mesh_near : forall (t : @Tess R),
    let t' := cast_tess rnd t in
    tfaces t' = tfaces t /\ length (tpts t') = length (tpts t) /\ length (tnormals t') = length (tnormals t) /\ length (tuvs t') = length (tuvs t) /\
    (forall k i, (k < length (tpts t))%nat -> length (nth k (tpts t') []) = length (nth k (tpts t) []) /\
    ((i < length (nth k (tpts t) []))%nat -> Rabs (rc i (nth k (tpts t') []) - rc i (nth k (tpts t) [])) <= mu * Rabs (rc i (nth k (tpts t) [])))) /\
    (forall k i, (k < length (tnormals t))%nat -> length (nth k (tnormals t') []) = length (nth k (tnormals t) []) /\
    ((i < length (nth k (tnormals t) []))%nat -> Rabs (rc i (nth k (tnormals t') []) - rc i (nth k (tnormals t) [])) <= mu * Rabs (rc i (nth k (tnormals t) [])))) /\
    forall k, (k < length (tuvs t))%nat ->
    Rabs (fst (nth k (tuvs t') (0, 0)) - fst (nth k (tuvs t) (0, 0))) <= mu * Rabs (fst (nth k (tuvs t) (0, 0))) /\
    Rabs (snd (nth k (tuvs t') (0, 0)) - snd (nth k (tuvs t) (0, 0))) <= mu * Rabs (snd (nth k (tuvs t) (0, 0))).
  Proof. exact (cast_mesh_near mu rnd Hr). Qed.
End C98_cast_mesh_near_statement.
Print Assumptions C98_cast_mesh_near.

Section C98_cast_clamped_statement.
  Variable rnd : R -> R.
  Hypothesis mono : forall x y, x <= y -> rnd x <= rnd y.
  Variables eps maxv eps' maxv' : R.

  Theorem C98_cast_clamped : forall (k : list R) p,
    0 <= eps -> 0 <= eps' -> Sorted Rle k -> separated eps k -> separated eps' (map rnd k) -> (p < length k)%nat ->
    @is_clamped R (ROps eps maxv) k p = Ok true -> @is_clamped R (ROps eps' maxv') (cast_knots rnd k) p = Ok true.
  Proof. exact (cast_clamped rnd mono eps maxv eps' maxv'). Qed.
End C98_cast_clamped_statement.
Example C98_case_clamped : Sorted Rle [0; 0; / 3; 1; 1] /\ separated (/ 100) [0; 0; / 3; 1; 1] /\ separated (/ 100) (map (nearest 24) [0; 0; / 3; 1; 1]) /\ nearest 24 (/ 3) <> / 3.
Proof.
  assert (T : Rabs (nearest 24 (/ 3) - / 3) <= / 1000).
  { eapply Rle_trans; [apply (rd_rel _ _ single_rounding)|]. rewrite Rabs_pos_eq by lra. change (bpow radix2 (-23)) with (/ IZR 8388608). lra. }
  apply Rabs_le_inv in T. split; [repeat constructor; lra|]. split; [|split].
  - intros a b Ha Hb. cbn [In] in Ha, Hb. repeat (destruct Ha as [<-|Ha]; [|]); try contradiction; repeat (destruct Hb as [<-|Hb]; [|]); try contradiction;
      try (left; reflexivity); right; first [rewrite Rabs_pos_eq by lra; lra|rewrite Rabs_left by lra; lra].
  - cbn [map]. rewrite !int_24 by (cbn; lia). intros a b Ha Hb. cbn [In] in Ha, Hb. repeat (destruct Ha as [<-|Ha]; [|]); try contradiction; repeat (destruct Hb as [<-|Hb]; [|]); try contradiction;
      try (left; reflexivity); right; first [rewrite Rabs_pos_eq by lra; lra|rewrite Rabs_left by lra; lra].
  - intros E. assert (G : generic_format radix2 (FLX_exp 24) (/ 3)) by (rewrite <- E; apply generic_format_round; [apply FLX_exp_valid; reflexivity|apply valid_rnd_N]).
    apply FLX_format_generic in G; [|reflexivity]. destruct G as [[m e] Hm Hb]. unfold F2R in Hm. cbn [Fnum Fexp] in *.
    destruct e as [|e|e]; cbn [bpow] in Hm.
    + assert (IZR (3 * m) = 1) by (rewrite mult_IZR; lra). apply eq_IZR in H. lia.
    + rewrite <- mult_IZR in Hm. assert (IZR (3 * (m * Z.pow_pos radix2 e)) = 1) by (rewrite mult_IZR; lra). apply eq_IZR in H. lia.
    + assert (P : (0 < Z.pow_pos 2 e)%Z) by (apply (Z.pow_pos_nonneg 2 (Z.pos e)); lia).
      change (radix_val radix2) with 2%Z in Hm. apply IZR_lt in P. assert (Q : IZR (3 * m) = IZR (Z.pow_pos 2 e)). { rewrite mult_IZR. apply (Rmult_eq_reg_r (/ IZR (Z.pow_pos 2 e))); [|apply Rinv_neq_0_compat; lra]. rewrite Rinv_r by lra. lra. }
      apply eq_IZR in Q. rewrite Zpower_pos_nat in Q. clear -Q. assert (D : (Zpower_nat 2 (Pos.to_nat e) mod 3 <> 0)%Z).
      { clear. induction (Pos.to_nat e) as [|n IH]; [discriminate|]. rewrite Zpower_nat_succ_r. intros H. apply IH. apply Z.mod_divide in H; [|lia]. apply Z.mod_divide; [lia|].
        apply (Z.gauss 3 2) in H; [exact H|reflexivity]. }
      apply D. rewrite <- Q, Z.mul_comm. apply Z.mod_mul. lia.
Qed.
Print Assumptions C98_cast_clamped.

Section C98_cast_ends_near_statement.
  Variables (mu : R) (rnd : R -> R).
  Hypothesis Hr : rounding mu rnd.
  Variables eps maxv : R.
  Local Hint Extern 0 (Scalar R) => exact (ROps eps maxv) : typeclass_instances.

  Theorem C98_cast_ends_near : forall c,
    let c' := cast_curve rnd c in
    curve_ok c -> curve_eps eps c -> pos_weights c -> curve_ok c' -> curve_eps eps c' ->
    (forall j, (j <= cdeg c)%nat -> kf (cknots c) j = kf (cknots c) 0) ->
    (forall j, (length (cpts c) <= j <= length (cpts c) + cdeg c)%nat -> kf (cknots c) j = kf (cknots c) (length (cpts c))) ->
    exists p q p' q', first_point c = Ok p /\ end_point c = Ok q /\ first_point c' = Ok p' /\ end_point c' = Ok q' /\
    length p' = length p /\ length q' = length q /\
    forall i, (i < cdim c - 1)%nat -> Rabs (rc i p' - rc i p) <= 2 * mu * Rabs (rc i p) / (1 - mu) /\ Rabs (rc i q' - rc i q) <= 2 * mu * Rabs (rc i q) / (1 - mu).
  Proof. exact (cast_ends_near mu rnd Hr eps maxv). Qed.
End C98_cast_ends_near_statement.
Example C98_case_ends : curve_ok demo /\ curve_eps eps0 demo /\ pos_weights demo /\ curve_ok (cast_curve (nearest 24) demo) /\ curve_eps eps0 (cast_curve (nearest 24) demo) /\
  (forall j, (j <= cdeg demo)%nat -> kf (cknots demo) j = kf (cknots demo) 0) /\
  (forall j, (length (cpts demo) <= j <= length (cpts demo) + cdeg demo)%nat -> kf (cknots demo) j = kf (cknots demo) (length (cpts demo))).
Proof.
  split; [exact demo_ok|]. split; [exact demo_eps|]. split; [exact demo_pos|]. split; [exact (proj2 C98_case_ok)|]. split; [|split].
  - assert (K : cknots (cast_curve (nearest 24) demo) = cknots demo) by (cbn [demo cast_curve cast_knots cknots map]; rewrite ?int_24 by (cbn; lia); reflexivity).
    unfold curve_eps. rewrite K. exact demo_eps.
  - intros j Hj. cbn in Hj. do 3 (destruct j as [|j]; [reflexivity|]). lia.
  - intros j Hj. cbn in Hj. do 4 (destruct j as [|j]; [lia|]). do 3 (destruct j as [|j]; [reflexivity|]). lia.
Qed.
Print Assumptions C98_cast_ends_near.

Theorem C98_cast_collapse_refuted : exists c, curve_ok c /\ pos_weights c /\ Forall (fun x => nearest 53 x = x) (cknots c) /\
    ~ curve_ok (cast_curve (nearest 24) c) /\ dom0 c < dom1 c /\ dom0 (cast_curve (nearest 24) c) = dom1 (cast_curve (nearest 24) c).
Proof. exact (@cast_collapse_refuted). Qed.
Print Assumptions C98_cast_collapse_refuted.
