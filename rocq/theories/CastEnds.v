(** * Casts of clamped knot vectors and of the ends of curves, without assuming representable knots *)
From Coq Require Import Reals Lra Lia List Sorted.
From Verif Require Import Base BaseFacts Scalar RSum BSplineSpec BSpline KnotModel KnotSpec KnotFacts KnotMisc VecFacts CurveModel CurveSpec CurveProofs CurveGeom CurveGeom2 Rounding CastModel Cast.
Import ListNotations. Open Scope R_scope.
Section Clamped.
  Variable rnd : R -> R.
  Hypothesis mono : forall x y, x <= y -> rnd x <= rnd y.
  Variables eps maxv eps' maxv' : R.
  Theorem cast_clamped (k : list R) p : 0 <= eps -> 0 <= eps' -> Sorted Rle k -> separated eps k -> separated eps' (map rnd k) -> (p < length k)%nat ->
    @is_clamped R (ROps eps maxv) k p = Ok true -> @is_clamped R (ROps eps' maxv') (cast_knots rnd k) p = Ok true.
  Proof.
    intros He He' Hs Hp Hp' Hl Hc. unfold cast_knots.
    destruct (is_clamped_iff eps maxv k p He Hs Hp Hl) as (b & Eb & Bb).
    destruct (is_clamped_iff eps' maxv' (map rnd k) p He' (sorted_cast rnd mono k Hs) Hp' ltac:(rewrite map_length; exact Hl)) as (b' & Eb' & Bb').
    rewrite Hc in Eb. injection Eb as <-. destruct (proj1 Bb eq_refl) as (H1 & H2).
    rewrite Eb'. f_equal. apply Bb'. rewrite map_length. split; intros j Hj.
    - rewrite (nth_map_lt rnd k j 0 0), (nth_map_lt rnd k 0 0 0) by lia. now rewrite H1.
    - rewrite (nth_map_lt rnd k (length k - 1 - j) 0 0), (nth_map_lt rnd k (length k - 1) 0 0) by lia. now rewrite H2.
  Qed.
End Clamped.

Section Ends.
  Variables (mu : R) (rnd : R -> R).
  Hypothesis Hr : rounding mu rnd.
  Variables eps maxv : R.
  Local Hint Extern 0 (Scalar R) => exact (ROps eps maxv) : typeclass_instances.

  Lemma control_near c j i : curve_ok c -> pos_weights c -> (j < length (cpts c))%nat -> (i < cdim c - 1)%nat ->
    0 < cpc (cast_curve rnd c) (cdim c - 1) j /\
    Rabs (rc i (affine_point (cast_curve rnd c) j) - rc i (affine_point c j)) <= 2 * mu * Rabs (rc i (affine_point c j)) / (1 - mu).
  Proof.
    intros Hc Hw Hj Hi. pose proof (co_dim c Hc) as HD. pose proof (Hw j Hj) as W.
    assert (Pc : forall k, (k < cdim c)%nat -> cpc (cast_curve rnd c) k j = rnd (cpc c k j)).
    { intros k Hk. unfold cpc, rc. cbn [cast_curve cpts]. rewrite (nth_map_lt (map rnd) (cpts c) j [] []) by exact Hj. apply nth_map_lt.
      pose proof (co_pts c Hc) as F. rewrite Forall_forall in F. rewrite F by (now apply nth_In). exact Hk. }
    rewrite (affine_point_rc eps maxv c j i Hi), (affine_point_rc eps maxv (cast_curve rnd c) j i Hi). change (cdim (cast_curve rnd c)) with (cdim c). rewrite !Pc by lia.
    destruct (ratio_near mu rnd Hr (Rabs (cpc c i j / cpc c (cdim c - 1) j)) (cpc c i j) (rnd (cpc c i j)) (cpc c (cdim c - 1) j) (rnd (cpc c (cdim c - 1) j))) as (P & Q); auto.
    - unfold Rdiv. rewrite Rabs_mult, (Rabs_pos_eq (/ _)) by (apply Rlt_le, Rinv_0_lt_compat; lra). right. field. lra.
    - eapply Rle_trans; [apply (rd_rel _ _ Hr)|]. right. f_equal. unfold Rdiv. rewrite Rabs_mult, (Rabs_pos_eq (/ _)) by (apply Rlt_le, Rinv_0_lt_compat; lra). field. lra.
    - eapply Rle_trans; [apply (rd_rel _ _ Hr)|]. rewrite Rabs_pos_eq by lra. lra.
  Qed.

  (** the ends of the cast of a clamped curve, whatever happens to its knots *)
  Theorem cast_ends_near c : let c' := cast_curve rnd c in
    curve_ok c -> curve_eps eps c -> pos_weights c -> curve_ok c' -> curve_eps eps c' ->
    (forall j, (j <= cdeg c)%nat -> kf (cknots c) j = kf (cknots c) 0) ->
    (forall j, (length (cpts c) <= j <= length (cpts c) + cdeg c)%nat -> kf (cknots c) j = kf (cknots c) (length (cpts c))) ->
    exists p q p' q', first_point c = Ok p /\ end_point c = Ok q /\ first_point c' = Ok p' /\ end_point c' = Ok q' /\
      length p' = length p /\ length q' = length q /\
      forall i, (i < cdim c - 1)%nat -> Rabs (rc i p' - rc i p) <= 2 * mu * Rabs (rc i p) / (1 - mu) /\ Rabs (rc i q' - rc i q) <= 2 * mu * Rabs (rc i q) / (1 - mu).
  Proof.
    cbv zeta. intros Hc He Hw Hc' He' H0 H1. set (c' := cast_curve rnd c) in *.
    assert (Lp : length (cpts c') = length (cpts c)) by apply map_length. assert (El : clast c' = clast c) by (unfold clast; now rewrite Lp).
    pose proof (co_dim c Hc) as HD. pose proof (co_len c Hc) as HL. assert (Hl : (clast c < length (cpts c))%nat) by (unfold clast; lia).
    assert (Z : cknots c <> []) by (pose proof (curve_len c Hc); intros E; rewrite E in *; cbn in *; lia).
    assert (Kf : forall j, kf (cknots c') j = rnd (kf (cknots c) j)) by (intros j; now apply kf_map).
    assert (Wp : forall j, (j < length (cpts c))%nat -> 0 < cpc c' (cdim c' - 1) j).
    { intros j Hj. unfold cpc, c', rc. cbn [cast_curve cpts cdim]. rewrite (nth_map_lt (map rnd) (cpts c) j [] []) by exact Hj.
      rewrite (nth_map_lt rnd (nth j (cpts c) []) (cdim c - 1) 0 0); [apply (cast_pos mu rnd Hr); now apply Hw|].
      pose proof (co_pts c Hc) as F. rewrite Forall_forall in F. rewrite F by (now apply nth_In). lia. }
    exists (affine_point c 0), (affine_point c (clast c)), (affine_point c' 0), (affine_point c' (clast c)).
    split; [apply clamped_start; auto; apply Rgt_not_eq, Hw; lia|].
    split; [apply clamped_end; auto; apply Rgt_not_eq, Hw; exact Hl|].
    split; [apply clamped_start; auto; [intros j Hj; rewrite !Kf; f_equal; now apply H0|apply Rgt_not_eq, Wp; lia]|].
    split; [rewrite <- El; apply clamped_end; auto; [intros j Hj; rewrite Lp in *; rewrite !Kf; f_equal; now apply H1|rewrite El; apply Rgt_not_eq, Wp; exact Hl]|].
    rewrite !affine_point_length by (auto; rewrite ?Lp; lia). split; [reflexivity|]. split; [reflexivity|].
    intros i Hi. split; apply control_near; auto; lia.
  Qed.
End Ends.
