(** * Surfaces have no jumps (C55) *)
From Coq Require Import Reals Lra Lia ZArith Bool List.
From Verif Require Import Base BaseFacts Scalar RSum BSplineSpec BSpline KnotModel KnotSpec
  KnotFacts KnotProofs VecFacts MiscModel MiscProofs CurveModel CurveSpec CurveProofs CurveGeom CurveGeom2 Continuity
  SurfaceModel SurfaceSpec SurfaceProofs.
Import ListNotations.
Open Scope R_scope.

(** continuity of a function of two variables on the domain of a surface *)
Definition continuous2_at (s : Surf R) (f : R -> R -> R) (u v : R) : Prop :=
  forall e, 0 < e -> exists d, 0 < d /\ forall u' v', in_dom s u' v' ->
    Rabs (u' - u) < d -> Rabs (v' - v) < d -> Rabs (f u' v' - f u v) < e.
Definition continuous2 (s : Surf R) (f : R -> R -> R) : Prop := forall u v, in_dom s u v -> continuous2_at s f u v.

(** no interior knot of full multiplicity, in either direction *)
Definition surf_cont (s : Surf R) : Prop :=
  interior_cont (sdu s) (nrow s - 1) (kf (suk s)) /\ interior_cont (sdv s) (ncol s - 1) (kf (svk s)).

Lemma c2_ext s f g u v : (forall u' v', in_dom s u' v' -> f u' v' = g u' v') -> in_dom s u v ->
  continuous2_at s f u v -> continuous2_at s g u v.
Proof.
  intros E Hd H e He. destruct (H e He) as (d & Pd & Hc). exists d. split; [exact Pd|].
  intros u' v' Hin Hu Hv. rewrite <- !E by auto. now apply Hc.
Qed.
Lemma c2_const s a u v : continuous2_at s (fun _ _ => a) u v.
Proof. intros e He. exists 1. split; [lra|]. intros. rewrite Rminus_diag_eq by reflexivity. now rewrite Rabs_R0. Qed.
Lemma c2_plus s f g u v : continuous2_at s f u v -> continuous2_at s g u v ->
  continuous2_at s (fun x y => f x y + g x y) u v.
Proof.
  intros Hf Hg e He. destruct (Hf (e / 2) ltac:(lra)) as (d1 & P1 & Q1). destruct (Hg (e / 2) ltac:(lra)) as (d2 & P2 & Q2).
  exists (Rmin d1 d2). split; [now apply Rmin_glb_lt|]. intros u' v' Hin Hu Hv.
  pose proof (Rmin_l d1 d2). pose proof (Rmin_r d1 d2).
  specialize (Q1 u' v' Hin ltac:(lra) ltac:(lra)). specialize (Q2 u' v' Hin ltac:(lra) ltac:(lra)).
  apply Rabs_def2 in Q1, Q2. apply Rabs_def1; lra.
Qed.
Lemma c2_mult s f g u v : continuous2_at s f u v -> continuous2_at s g u v ->
  continuous2_at s (fun x y => f x y * g x y) u v.
Proof.
  intros Hf Hg e He. set (F := Rabs (f u v) + 1). set (G := Rabs (g u v) + 1).
  assert (HF : 1 <= F) by (unfold F; pose proof (Rabs_pos (f u v)); lra).
  assert (HG : 1 <= G) by (unfold G; pose proof (Rabs_pos (g u v)); lra).
  assert (E1 : 0 < Rmin 1 (e / (4 * G))) by (apply Rmin_glb_lt; [lra|]; apply Rdiv_lt_0_compat; lra).
  assert (E2 : 0 < Rmin 1 (e / (4 * F))) by (apply Rmin_glb_lt; [lra|]; apply Rdiv_lt_0_compat; lra).
  destruct (Hf _ E1) as (d1 & P1 & Q1). destruct (Hg _ E2) as (d2 & P2 & Q2).
  exists (Rmin d1 d2). split; [now apply Rmin_glb_lt|]. intros u' v' Hin Hu Hv.
  pose proof (Rmin_l d1 d2). pose proof (Rmin_r d1 d2).
  specialize (Q1 u' v' Hin ltac:(lra) ltac:(lra)). specialize (Q2 u' v' Hin ltac:(lra) ltac:(lra)).
  pose proof (Rmin_l 1 (e / (4 * G))) as M1. pose proof (Rmin_r 1 (e / (4 * G))) as M2.
  pose proof (Rmin_l 1 (e / (4 * F))) as M3. pose proof (Rmin_r 1 (e / (4 * F))) as M4.
  set (a := Rabs (f u' v' - f u v)) in *. set (b := Rabs (g u' v' - g u v)) in *.
  assert (Ha : 0 <= a) by apply Rabs_pos. assert (Hb : 0 <= b) by apply Rabs_pos.
  assert (B1 : a * G <= e / 4).
  { apply Rle_trans with (e / (4 * G) * G); [apply Rmult_le_compat_r; lra|]. apply Req_le. field. lra. }
  assert (B2 : b * F <= e / 4).
  { apply Rle_trans with (e / (4 * F) * F); [apply Rmult_le_compat_r; lra|]. apply Req_le. field. lra. }
  replace (f u' v' * g u' v' - f u v * g u v)
    with ((f u' v' - f u v) * (g u' v' - g u v) + ((f u' v' - f u v) * g u v + f u v * (g u' v' - g u v))) by ring.
  eapply Rle_lt_trans; [apply Rabs_triang|]. eapply Rle_lt_trans; [apply Rplus_le_compat_l, Rabs_triang|].
  rewrite !Rabs_mult. fold a b.
  assert (a * b <= a * 1) by (apply Rmult_le_compat_l; lra).
  assert (a <= a * G) by (rewrite <- (Rmult_1_r a) at 1; apply Rmult_le_compat_l; lra).
  assert (a * Rabs (g u v) <= a * G) by (apply Rmult_le_compat_l; unfold G; lra).
  assert (Rabs (f u v) * b <= b * F) by (rewrite (Rmult_comm b); apply Rmult_le_compat_r; unfold F; lra).
  lra.
Qed.
Lemma c2_inv s f u v : f u v <> 0 -> continuous2_at s f u v -> continuous2_at s (fun x y => / f x y) u v.
Proof.
  intros Hn Hf e He.
  assert (C : continuity_pt (fun x => / x) (f u v)).
  { apply (continuity_pt_inv (fun x => x)); [apply derivable_continuous_pt, derivable_pt_id|exact Hn]. }
  destruct (C e He) as (d0 & P0 & Q0). destruct (Hf d0 P0) as (d & Pd & Q). exists d. split; [exact Pd|].
  intros u' v' Hin Hu Hv. specialize (Q u' v' Hin Hu Hv).
  destruct (Req_dec (f u v) (f u' v')) as [E|E].
  - rewrite E, Rminus_diag_eq by reflexivity. now rewrite Rabs_R0.
  - apply (Q0 (f u' v')). split; [split; [exact I|exact E]|exact Q].
Qed.
Lemma c2_rsum s n F u v : (forall a, (a < n)%nat -> continuous2_at s (F a) u v) ->
  continuous2_at s (fun x y => rsum n (fun a => F a x y)) u v.
Proof.
  induction n as [|n IH]; intros H; cbn [rsum]; [apply c2_const|].
  apply (c2_plus s (fun x y => rsum n (fun a => F a x y)) (F n)); [apply IH; intros; apply H; lia|apply H; lia].
Qed.

(** the blending functions, as coordinates of a curve *)
Definition one_hot (p n a : nat) (k : list R) : Curve R :=
  MkCurve 1 p (map (fun j => [if Nat.eqb j a then 1 else 0]) (seq 0 n)) k.

Lemma one_hot_hcoord p n a k u : (a < n)%nat ->
  hcoord (one_hot p n a k) 0 u = cox_closed (kf k) (kf k n) p a u.
Proof.
  intros Ha. unfold hcoord, dom1. cbn [one_hot cpts cdeg cknots]. rewrite map_length, seq_length.
  rewrite (rsum_single _ a); [|exact Ha|].
  - unfold cpc, rc. cbn [one_hot cpts]. rewrite (nth_map_lt _ _ a 0%nat []) by (rewrite seq_length; lia).
    rewrite seq_nth by lia. cbn [Nat.add nth]. rewrite Nat.eqb_refl. ring.
  - intros j Hj Hne. unfold cpc, rc. cbn [one_hot cpts]. rewrite (nth_map_lt _ _ j 0%nat []) by (rewrite seq_length; lia).
    rewrite seq_nth by lia. cbn [Nat.add nth]. rewrite (proj2 (Nat.eqb_neq j a)) by exact Hne. ring.
Qed.

Lemma one_hot_ok p n a k : (p < n)%nat -> knots_ok p (n - 1) k -> curve_ok (one_hot p n a k).
Proof.
  intros Hp Hk. constructor; unfold clast; cbn [one_hot cdim cpts cdeg cknots]; rewrite ?map_length, ?seq_length; auto.
  apply Forall_forall. intros x Hx. apply in_map_iff in Hx as (j & <- & _). reflexivity.
Qed.

Lemma blending_continuous p n a k : (a < n)%nat -> (p < n)%nat -> knots_ok p (n - 1) k -> interior_cont p (n - 1) (kf k) ->
  continuous_on (fun u => cox_closed (kf k) (kf k n) p a u) (kf k p) (kf k n).
Proof.
  intros Ha Hp Hk Hi.
  pose proof (hcoord_continuous (one_hot p n a k) 0 (one_hot_ok p n a k Hp Hk)) as C.
  assert (L : length (cpts (one_hot p n a k)) = n) by (cbn; now rewrite map_length, seq_length).
  unfold curve_cont, clast, dom0, dom1 in C. rewrite L in C. cbn [one_hot cdeg cknots] in C. specialize (C Hi).
  intros u Hu e He. destruct (C u Hu e He) as (d & Pd & Q). exists d. split; [exact Pd|].
  intros u' Hu' Hd. specialize (Q u' Hu' Hd). rewrite !one_hot_hcoord in Q by exact Ha. exact Q.
Qed.

Lemma shcoord_continuous s i : surf_ok s -> surf_cont s -> continuous2 s (shcoord s i).
Proof.
  intros H (Cu & Cv) u v Hd. pose proof (so_u s H) as Hu. pose proof (so_v s H) as Hv. unfold shcoord.
  apply (c2_rsum s (nrow s) (fun a x y => rsum (ncol s) (fun b => Nu s a x * Nv s b y * spc s i a b))). intros a Ha.
  apply (c2_rsum s (ncol s) (fun b x y => Nu s a x * Nv s b y * spc s i a b)). intros b Hb.
  apply (c2_mult s (fun x y => Nu s a x * Nv s b y) (fun _ _ => spc s i a b)); [|apply c2_const].
  apply (c2_mult s (fun x _ => Nu s a x) (fun _ y => Nv s b y)); intros e He.
  - destruct (blending_continuous (sdu s) (nrow s) a (suk s) Ha Hu (so_uk s H) Cu u (proj1 Hd) e He) as (d & Pd & Q).
    exists d. split; [exact Pd|]. intros u' v' (Hin & _) Hx _. apply Q; auto.
  - destruct (blending_continuous (sdv s) (ncol s) b (svk s) Hb Hv (so_vk s H) Cv v (proj2 Hd) e He) as (d & Pd & Q).
    exists d. split; [exact Pd|]. intros u' v' (_ & Hin) _ Hy. apply Q; auto.
Qed.

Section Real.
  Variables eps maxv : R.
  Local Hint Extern 0 (Scalar R) => exact (ROps eps maxv) : typeclass_instances.

  (** *** C55, surfaces *)
  Theorem surf_point_continuous s i : surf_ok s -> surf_eps eps s -> surf_cont s -> spos s -> (i < sdim s - 1)%nat ->
    exists f, continuous2 s f /\
      forall u v, in_dom s u v -> exists q, surf_point_at s u v = Ok q /\ rc i q = f u v.
  Proof.
    intros H He Hc Hw Hi. exists (snurbs s i).
    assert (P : forall u v, in_dom s u v -> swfun s u v <> 0).
    { intros u v Hd. pose proof (swfun_pos eps maxv s u v H He Hw Hd). lra. }
    split.
    - intros u v Hd. unfold snurbs, Rdiv. apply (c2_mult s (shcoord s i) (fun x y => / swfun s x y)).
      + now apply shcoord_continuous.
      + apply c2_inv; [now apply P|]. now apply shcoord_continuous.
    - intros u v Hd. destruct (surf_point_at_spec eps maxv s u v H He Hd (P u v Hd)) as (q & E & L & V).
      exists q. split; [exact E|]. now apply V.
  Qed.
End Real.
