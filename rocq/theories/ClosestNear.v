(** * The first guess of the closest point search is nearly optimal on the whole curve *)
From Coq Require Import Reals Lra Lia List Rgeom.
From Verif Require Import Base BaseFacts Scalar RSum BSplineSpec BSpline KnotModel KnotSpec KnotFacts VecFacts MiscModel MiscProofs CurveModel CurveSpec CurveProofs
  CurveGeom CurveGeom2 ClosestModel NewtonProofs NewtonMain CurveLipschitz.
Import ListNotations.
Open Scope R_scope.

(** Euclidean norm of the first [n] values *)
Definition enorm (n : nat) (f : nat -> R) : R := sqrt (rsum n (fun i => f i * f i)).

Lemma sq_nonneg n f : 0 <= rsum n (fun i => f i * f i).
Proof. apply rsum_nonneg. intros. apply Rle_0_sqr. Qed.
Lemma enorm_pos n f : 0 <= enorm n f.
Proof. apply sqrt_pos. Qed.
Lemma enorm_sq n f : enorm n f * enorm n f = rsum n (fun i => f i * f i).
Proof. apply sqrt_sqrt, sq_nonneg. Qed.
Lemma enorm_ext n f g : (forall i, (i < n)%nat -> f i = g i) -> enorm n f = enorm n g.
Proof. intros H. unfold enorm. f_equal. apply rsum_ext. intros i Hi. now rewrite H. Qed.
Lemma enorm_le n f g : (forall i, (i < n)%nat -> Rabs (f i) <= g i) -> enorm n f <= enorm n g.
Proof.
  intros H. apply sqrt_le_1_alt. apply rsum_le. intros i Hi. specialize (H i Hi). pose proof (Rabs_pos (f i)).
  replace (f i * f i) with (Rabs (f i) * Rabs (f i)) by (rewrite <- Rabs_mult; apply Rabs_pos_eq, Rle_0_sqr).
  apply Rmult_le_compat; assumption.
Qed.
Lemma enorm_scal n f h : 0 <= h -> enorm n (fun i => h * f i) = h * enorm n f.
Proof.
  intros Hh. unfold enorm. rewrite (rsum_ext n _ (fun i => (h * h) * (f i * f i))) by (intros; ring). rewrite rsum_scal, sqrt_mult by (try apply sq_nonneg; nra).
  now rewrite sqrt_square.
Qed.
Lemma enorm_S n f : enorm (S n) f = sqrt (enorm n f * enorm n f + f n * f n).
Proof. rewrite enorm_sq. reflexivity. Qed.

Lemma plane_triangle a b x y : sqrt ((a + b) * (a + b) + (x + y) * (x + y)) <= sqrt (a * a + x * x) + sqrt (b * b + y * y).
Proof.
  pose proof (triangle 0 0 (a + b) (x + y) a x) as T. unfold dist_euc, Rsqr in T.
  replace ((0 - (a + b)) * (0 - (a + b)) + (0 - (x + y)) * (0 - (x + y))) with ((a + b) * (a + b) + (x + y) * (x + y)) in T by ring.
  replace ((0 - a) * (0 - a) + (0 - x) * (0 - x)) with (a * a + x * x) in T by ring.
  replace ((a - (a + b)) * (a - (a + b)) + (x - (x + y)) * (x - (x + y))) with (b * b + y * y) in T by ring. exact T.
Qed.

Lemma enorm_triangle n f g : enorm n (fun i => f i + g i) <= enorm n f + enorm n g.
Proof.
  induction n as [|n IH]; [unfold enorm; cbn [rsum]; rewrite sqrt_0; lra|]. rewrite !enorm_S.
  eapply Rle_trans; [|apply plane_triangle]. apply sqrt_le_1_alt. apply Rplus_le_compat_r.
  pose proof (enorm_pos n (fun i => f i + g i)). apply Rmult_le_compat; assumption.
Qed.

Section Near.
  Variables eps maxv : R.
  Local Hint Extern 0 (Scalar R) => exact (ROps eps maxv) : typeclass_instances.

  Notation qu l i := (fst (nth i l (0, []))).
  Notation qp l i := (snd (nth i l (0, []))).

  Lemma dist2_enorm p q : sqrt (dist2 p q) = enorm (length p) (fun i => rc i p - rc i q).
  Proof. reflexivity. Qed.

  (** the scan compared with the vertices: exact for the first vertex of every segment, and within
      [eps] for the last one, whose segment may be too short to be searched *)
  Lemma scan_vertices p l min u : 0 < eps -> (forall i, (i < length l)%nat -> length (qp l i) = length p) ->
    let '(m', u') := closest_scan p l min u in
    m' <= min /\ (forall i, (S i < length l)%nat -> m' <= sqrt (dist2 p (qp l i)) /\ m' <= sqrt (dist2 p (qp l (S i))) + eps) /\
    ((m' = min /\ u' = u) \/ on_polyline p l m' u').
  Proof.
    intros He. revert min u. induction l as [|(u0, p0) l IH]; intros min u HL.
    - cbn. split; [lra|]. split; [intros i Hi; cbn in Hi; lia|auto].
    - destruct l as [|(u1, p1) l].
      + cbn. split; [lra|]. split; [intros i Hi; cbn in Hi; lia|auto].
      + set (l1 := (u1, p1) :: l) in *.
        assert (HL1 : forall i, (i < length l1)%nat -> length (qp l1 i) = length p) by (intros i Hi; apply (HL (S i)); cbn [length]; lia).
        assert (L0 : length p0 = length p) by (apply (HL 0%nat); cbn [length]; lia).
        assert (L1 : length p1 = length p) by (apply (HL 1%nat); unfold l1; cbn [length]; lia).
        assert (V : exists s, 0 <= s <= 1 /\ segment_closest_point p p0 p1 u0 u1 = (u0 + (u1 - u0) * s, seg_at p0 p1 s) /\
                      sqrt (dist2 p (seg_at p0 p1 s)) <= sqrt (dist2 p p0) /\ sqrt (dist2 p (seg_at p0 p1 s)) <= sqrt (dist2 p p1) + eps).
        { assert (S0 : seg_at p0 p1 0 = p0) by (apply (vec_ext _ _ (length p)); [now rewrite seg_at_length|exact L0|]; intros i Hi; rewrite rc_seg_at by lia; ring).
          assert (S1 : seg_at p0 p1 1 = p1) by (apply (vec_ext _ _ (length p)); [now rewrite seg_at_length|exact L1|]; intros i Hi; rewrite rc_seg_at by lia; ring).
          destruct (Rlt_le_dec (sqrt (dist2 p1 p0)) eps) as [C|C].
          - exists 0. split; [lra|]. rewrite S0. split; [rewrite (segment_closest_short eps maxv) by (auto; congruence); f_equal; ring|]. split; [lra|].
            rewrite !dist2_enorm in *. rewrite L1 in C. rewrite (enorm_ext (length p) _ (fun i => (rc i p - rc i p1) + (rc i p1 - rc i p0))) by (intros; ring).
            pose proof (enorm_triangle (length p) (fun i => rc i p - rc i p1) (fun i => rc i p1 - rc i p0)). lra.
          - destruct (segment_closest_optimal eps maxv p p0 p1 u0 u1) as (s & Hs01 & E & Opt); auto. exists s. split; [exact Hs01|]. split; [exact E|]. split.
            + apply sqrt_le_1_alt. rewrite <- S0 at 2. apply Opt. lra.
            + apply Rle_trans with (sqrt (dist2 p p1)); [|lra]. apply sqrt_le_1_alt. rewrite <- S1 at 2. apply Opt. lra. }
        destruct V as (s & Hs01 & E & V0 & V1).
        change (closest_scan p ((u0, p0) :: l1) min u) with
          (let '(pu, pp) := segment_closest_point p p0 p1 u0 u1 in
           let d := vnorm (vsub p pp) in if sltb d min then closest_scan p l1 d pu else closest_scan p l1 min u).
        rewrite E. cbv zeta. rewrite (vnorm_dist2 eps maxv) by (now rewrite seg_at_length). rs. set (d := sqrt (dist2 p (seg_at p0 p1 s))) in *.
        assert (Up : forall m' u', on_polyline p l1 m' u' -> on_polyline p ((u0, p0) :: l1) m' u').
        { intros m' u' (i & r & Hi & Hr & Eu & Em). exists (S i), r. split; [cbn [length]; lia|]. auto. }
        assert (Lb : forall m', m' <= d -> (forall i, (S i < length l1)%nat -> m' <= sqrt (dist2 p (qp l1 i)) /\ m' <= sqrt (dist2 p (qp l1 (S i))) + eps) ->
                       forall i, (S i < length ((u0, p0) :: l1))%nat -> m' <= sqrt (dist2 p (qp ((u0, p0) :: l1) i)) /\ m' <= sqrt (dist2 p (qp ((u0, p0) :: l1) (S i))) + eps).
        { intros m' Hm B i Hi. destruct i as [|i]; [|apply (B i); cbn [length] in *; lia]. change (m' <= sqrt (dist2 p p0) /\ m' <= sqrt (dist2 p p1) + eps). lra. }
        destruct (Rltb_spec d min) as [C|C].
        * specialize (IH d (u0 + (u1 - u0) * s) HL1). destruct (closest_scan p l1 d (u0 + (u1 - u0) * s)) as (m', u') eqn:Es.
          destruct IH as (I1 & I2 & I3). split; [lra|]. split; [now apply Lb|]. right. destruct I3 as [(-> & ->)|I3]; [|now apply Up].
          exists 0%nat, s. split; [unfold l1; cbn [length]; lia|]. auto.
        * specialize (IH min u HL1). destruct (closest_scan p l1 min u) as (m', u') eqn:Es.
          destruct IH as (I1 & I2 & I3). split; [lra|]. split; [apply Lb; auto; lra|]. destruct I3 as [I3|I3]; [now left|right; now apply Up].
  Qed.

  (** distance of [p] from the curve point at [u] *)
  Definition cdist (c : Curve R) (p : list R) (u : R) : R := enorm (cdim c - 1) (fun i => rc i p - nurbs c i u).

  Theorem closest_guess_near c p (K : nat -> R) : 0 < eps -> curve_ok c -> curve_eps eps c -> pos_weights c -> curve_cont c -> (1 <= cdeg c)%nat ->
    length p = (cdim c - 1)%nat -> (forall i, (i < cdim c - 1)%nat -> 0 <= K i /\ rational_rate c i (K i)) -> cdist c p (dom0 c) < maxv ->
    exists u, closest_guess c p = Ok u /\ dom0 c <= u <= dom1 c /\
      forall v, dom0 c <= v <= dom1 c ->
        cdist c p u <= cdist c p v + enorm (cdim c - 1) K * ((dom1 c - dom0 c) / (INR (length (cpts c) * cdeg c) - 1)) + eps.
  Proof.
    intros He Hok Hce Hpos Hcont Hp Hlp HK Hmax.
    pose proof (dom_le c Hok) as Hdom.
    set (N := (length (cpts c) * cdeg c)%nat) in *. set (D := (cdim c - 1)%nat) in *.
    assert (HN : (2 <= N)%nat) by (pose proof (co_len c Hok); unfold N; nia).
    destruct (samples_spec eps maxv c N Hok Hce Hpos HN) as (pts & Epts & Lp & Hs).
    assert (Hc : forall j, (j < N)%nat -> length (qp pts j) = D /\ forall i, (i < D)%nat -> rc i (qp pts j) = nurbs c i (sample_u c N j)).
    { intros j Hj. destruct (Hs j Hj) as (_ & Ej). pose proof (sample_u_in c N j Hok HN Hj) as Hin.
      destruct (point_at_spec eps maxv c (sample_u c N j) Hok Hce Hin) as (q & Eq & Lq & Vq); [apply Rgt_not_eq, (wfun_pos eps maxv); assumption|].
      rewrite Ej in Eq. assert (Q : qp pts j = q) by congruence. rewrite Q. split; [exact Lq|exact Vq]. }
    assert (Hvx : forall j, (j < N)%nat -> sqrt (dist2 p (qp pts j)) = cdist c p (sample_u c N j)).
    { intros j Hj. rewrite dist2_enorm, Hlp. apply enorm_ext. intros i Hi. now rewrite (proj2 (Hc j Hj)). }
    assert (Eg : closest_guess c p = Ok (snd (closest_scan p pts maxv (dom0 c)))).
    { unfold closest_guess. rewrite (knots_domain_ok c) by exact Hok. cbn [bind]. fold N. rewrite Epts. cbn [bind]. rewrite usub_ok by lia. reflexivity. }
    assert (Hu : dom0 c <= snd (closest_scan p pts maxv (dom0 c)) <= dom1 c).
    { apply (scan_in eps maxv); [exact He| |lra]. intros x Hx. apply (In_nth _ _ (0, [])) in Hx. destruct Hx as (i & Hi & <-). rewrite Lp in Hi.
      split; [rewrite Hlp; apply (Hc i Hi)|]. destruct (Hs i Hi) as (-> & _). apply sample_u_in; [exact Hok|exact HN|exact Hi]. }
    pose proof (scan_vertices p pts maxv (dom0 c) He ltac:(intros i Hi; rewrite Hlp; apply Hc; lia)) as Sc.
    destruct (closest_scan p pts maxv (dom0 c)) as (m, u). cbn [snd] in *. destruct Sc as (_ & Hlow & On). rewrite Lp in Hlow.
    assert (On' : on_polyline p pts m u).
    { destruct On as [(-> & _)|On]; [|exact On]. exfalso. pose proof (proj1 (Hlow 0%nat ltac:(lia))) as Q. rewrite Hvx in Q by lia.
      replace (sample_u c N 0) with (dom0 c) in Q by (unfold sample_u; cbn [INR]; ring). lra. }
    destruct On' as (i0 & s & Hi0 & Hs0 & Eu & Em).
    exists u. split; [exact Eg|]. split; [exact Hu|]. intros v Hv.
    set (h := (dom1 c - dom0 c) / (INR N - 1)).
    assert (N1 : INR (N - 1) = INR N - 1) by (rewrite minus_INR by lia; cbn [INR]; lra).
    assert (N0 : 1 <= INR (N - 1)) by (change 1 with (INR 1); apply le_INR; lia).
    assert (Hh : 0 <= h) by (unfold h; rewrite <- N1; apply Rmult_le_pos; [lra|apply Rlt_le, Rinv_0_lt_compat; lra]).
    assert (Hnh : INR (N - 1) * h = dom1 c - dom0 c) by (unfold h; rewrite <- N1; field; lra).
    assert (Su : forall j, sample_u c N j = dom0 c + INR j * h) by reflexivity.
    rewrite Lp in *.
    (* distances to the polyline are norms *)
    assert (Hd : forall j t, (S j < N)%nat -> sqrt (dist2 p (seg_at (snd (nth j pts (0, []))) (snd (nth (S j) pts (0, []))) t)) =
                   enorm D (fun i => rc i p - (nurbs c i (sample_u c N j) + t * (nurbs c i (sample_u c N (S j)) - nurbs c i (sample_u c N j))))).
    { intros j t Hj. unfold dist2, enorm. rewrite Hlp. f_equal. apply rsum_ext. intros i Hi. destruct (Hc j ltac:(lia)) as (Lj & Vj). destruct (Hc (S j) Hj) as (_ & Vj').
      rewrite rc_seg_at by lia. rewrite Vj, Vj' by exact Hi. reflexivity. }
    (* the guess is near the best point of the polyline *)
    assert (A : cdist c p u <= m + enorm D K * (h / 2)).
    { rewrite Em, Hd by exact Hi0. unfold cdist. fold D.
      set (w := fun i => nurbs c i (sample_u c N i0) + s * (nurbs c i (sample_u c N (S i0)) - nurbs c i (sample_u c N i0))).
      rewrite (enorm_ext D _ (fun i => (rc i p - w i) + (w i - nurbs c i u))) by (intros; ring).
      eapply Rle_trans; [apply enorm_triangle|]. apply Rplus_le_compat_l.
      rewrite Rmult_comm, <- enorm_scal by lra. apply enorm_le. intros i Hi. destruct (HK i Hi) as (K0 & KR).
      destruct (Hs i0 ltac:(lia)) as (E0 & _). destruct (Hs (S i0) Hi0) as (E1 & _). rewrite E0, E1 in Eu.
      set (x := sample_u c N i0) in *. set (y := sample_u c N (S i0)) in *.
      assert (Hxy : y - x = h) by (unfold x, y; rewrite !Su, S_INR; ring).
      assert (Hx : dom0 c <= x <= dom1 c) by (apply sample_u_in; [exact Hok|exact HN|lia]).
      assert (Hy : dom0 c <= y <= dom1 c) by (apply sample_u_in; [exact Hok|exact HN|lia]).
      pose proof (rational_lipschitz eps maxv c i (K i) x u Hok Hce Hcont Hp Hi KR Hx Hu) as B.
      pose proof (rational_lipschitz eps maxv c i (K i) y u Hok Hce Hcont Hp Hi KR Hy Hu) as C.
      assert (Ux : x - u = - (h * s)) by (rewrite Eu, Hxy; ring). assert (Uy : y - u = h * (1 - s)) by (rewrite Eu; replace y with (x + h) by lra; ring).
      rewrite Ux, Rabs_Ropp, (Rabs_pos_eq (h * s)) in B by (apply Rmult_le_pos; lra). rewrite Uy, (Rabs_pos_eq (h * (1 - s))) in C by (apply Rmult_le_pos; lra).
      unfold w. fold x y.
      replace (nurbs c i x + s * (nurbs c i y - nurbs c i x) - nurbs c i u) with ((1 - s) * (nurbs c i x - nurbs c i u) + s * (nurbs c i y - nurbs c i u)) by ring.
      eapply Rle_trans; [apply Rabs_triang|]. rewrite !Rabs_mult, (Rabs_pos_eq (1 - s)), (Rabs_pos_eq s) by lra.
      apply (Rmult_le_compat_l (1 - s)) in B; [|lra]. apply (Rmult_le_compat_l s) in C; [|lra].
      assert (Q : (1 - s) * (K i * (h * s)) + s * (K i * (h * (1 - s))) <= h / 2 * K i).
      { assert (Hkh : 0 <= K i * h) by (apply Rmult_le_pos; assumption). assert (Z : 2 * (s * (1 - s)) <= / 2) by (pose proof (Rle_0_sqr (s - / 2)) as Y; unfold Rsqr in Y; lra).
        apply (Rmult_le_compat_l (K i * h)) in Z; [|exact Hkh]. lra. }
      lra. }
    (* and the polyline comes near every point of the curve *)
    assert (B : m <= cdist c p v + enorm D K * (h / 2) + eps).
    { destruct (nearest_step h Hh (N - 1) (v - dom0 c) ltac:(lra)) as (j & Hj & Dj).
      assert (Hm : m <= enorm D (fun i => rc i p - nurbs c i (sample_u c N j)) + eps).
      { destruct (Nat.eq_dec j (N - 1)) as [->|Hne].
        - pose proof (proj2 (Hlow (N - 2)%nat ltac:(lia))) as Q. replace (S (N - 2)) with (N - 1)%nat in Q by lia. rewrite Hvx in Q by lia. exact Q.
        - pose proof (proj1 (Hlow j ltac:(lia))) as Q. rewrite Hvx in Q by lia. unfold cdist in Q. fold D in Q. lra. }
      eapply Rle_trans; [exact Hm|]. apply Rplus_le_compat_r. unfold cdist. fold D.
      rewrite (enorm_ext D _ (fun i => (rc i p - nurbs c i v) + (nurbs c i v - nurbs c i (sample_u c N j)))) by (intros; ring).
      eapply Rle_trans; [apply enorm_triangle|]. apply Rplus_le_compat_l. rewrite Rmult_comm, <- enorm_scal by lra. apply enorm_le. intros i Hi. destruct (HK i Hi) as (K0 & KR).
      eapply Rle_trans; [apply (rational_lipschitz eps maxv c i (K i)); try assumption; apply sample_u_in; [exact Hok|exact HN|lia]|].
      rewrite Su. replace (v - (dom0 c + INR j * h)) with (v - dom0 c - INR j * h) by ring. rewrite Rmult_comm. apply Rmult_le_compat_r; assumption. }
    lra.
  Qed.
End Near.
