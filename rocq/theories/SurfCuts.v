(** * C89: cutting a surface along u and along v in either order gives the same four pieces *)
From Coq Require Import Reals Lra Lia Sorted Permutation.
From Verif Require Import Base BaseFacts Scalar KnotModel RSum BSplineSpec BSpline KnotSpec KnotFacts KnotProofs VecFacts
  CurveModel CurveSpec CurveProofs KnotMisc CurveGeom CurveGeom2
  SurfaceModel SurfaceSpec SurfaceProofs SurfaceRefine SurfaceSplit Unique Unique2 SurfUnique Cuts.
Import ListNotations.
Open Scope R_scope.

Lemma count_firstn_le (k : list R) n x : (count_occ Req_EM_T (firstn n k) x <= count_occ Req_EM_T k x)%nat.
Proof. rewrite <- (firstn_skipn n k) at 2. rewrite count_occ_app. lia. Qed.
Lemma count_skipn_le (k : list R) n x : (count_occ Req_EM_T (skipn n k) x <= count_occ Req_EM_T k x)%nat.
Proof. rewrite <- (firstn_skipn n k) at 2. rewrite count_occ_app. lia. Qed.

Section Real.
  Variables eps maxv : R.
  Local Hint Extern 0 (Scalar R) => exact (ROps eps maxv) : typeclass_instances.

  (** at most [degree + 1] equal knots strictly between [a] and [b] *)
  Definition thin (k : list R) (p : nat) (a b : R) : Prop := forall x, a < x < b -> (count_occ Req_EM_T k x <= S p)%nat.

  Lemma slow_thin s : surf_ok s -> slow s <-> thin (suk s) (sdu s) (u0 s) (u1 s) /\ thin (svk s) (sdv s) (v0 s) (v1 s).
  Proof.
    intros H. pose proof (so_u s H). destruct (ucol_dom s 0) as (A & B). destruct (vrow_dom s 0 H ltac:(lia)) as (C & D).
    unfold slow, low_mult, thin. rewrite A, B, C, D. reflexivity.
  Qed.

  Lemma thin_left k p a b t n : thin k p a b -> t <= b -> thin (firstn n k ++ repeat t (p + 1)) p a t.
  Proof.
    intros H Ht x Hx. rewrite count_occ_app, count_repeat_ne by lra. pose proof (count_firstn_le k n x). specialize (H x ltac:(lra)). lia.
  Qed.
  Lemma thin_right k p a b t n : thin k p a b -> a <= t -> thin (repeat t (p + 1) ++ skipn n k) p t b.
  Proof.
    intros H Ht x Hx. rewrite count_occ_app, count_repeat_ne by lra. pose proof (count_skipn_le k n x). specialize (H x ltac:(lra)). lia.
  Qed.

  Lemma quarter s q q' a b c d : surf_ok q -> surf_ok q' -> same_hom s q a b c d -> same_hom s q' a b c d ->
    sdim q' = sdim q -> sdu q' = sdu q -> sdv q' = sdv q -> suk q' = suk q -> svk q' = svk q ->
    thin (suk q) (sdu q) a b -> thin (svk q) (sdv q) c d -> q' = q.
  Proof.
    intros H H' (A1 & A2 & A3 & A4 & A5) (B1 & B2 & B3 & B4 & B5) E1 E2 E3 E4 E5 Tu Tv.
    apply net_unique; auto.
    - apply slow_thin; auto. rewrite A1, A2, A3, A4. auto.
    - intros i u v _ (Du & Dv) _ _. rewrite A1, A2 in Du. rewrite A3, A4 in Dv. rewrite A5, B5; auto.
  Qed.

  Lemma hom_trans s s1 q a b c d a' b' c' d' : same_hom s s1 a b c d -> same_hom s1 q a' b' c' d' ->
    a <= a' -> b' <= b -> c <= c' -> d' <= d -> same_hom s q a' b' c' d'.
  Proof.
    intros (_ & _ & _ & _ & A) (B1 & B2 & B3 & B4 & B5) H1 H2 H3 H4. do 4 (split; [assumption|]).
    intros i u v Hu Hv. rewrite B5, A; auto; lra.
  Qed.

  Lemma ncol_of s s' : surf_ok s -> surf_ok s' -> svk s' = svk s -> sdv s' = sdv s -> ncol s' = ncol s.
  Proof.
    intros H H' E1 E2. pose proof (ko_len _ _ _ (so_vk s H)) as A. pose proof (ko_len _ _ _ (so_vk s' H')) as B.
    pose proof (so_v s H). pose proof (so_v s' H'). rewrite E1, E2 in *. lia.
  Qed.
  Lemma nrow_of s s' : surf_ok s -> surf_ok s' -> suk s' = suk s -> sdu s' = sdu s -> nrow s' = nrow s.
  Proof.
    intros H H' E1 E2. pose proof (ko_len _ _ _ (so_uk s H)) as A. pose proof (ko_len _ _ _ (so_uk s' H')) as B.
    pose proof (so_u s H). pose proof (so_u s' H'). rewrite E1, E2 in *. lia.
  Qed.

  Theorem surf_cut_order s a b : surf_ok s -> surf_eps eps s -> slow s -> u0 s < a < u1 s -> v0 s < b < v1 s ->
    (forall y, In y (suk s) -> eps <= Rabs (y - a)) -> (forall y, In y (svk s) -> eps <= Rabs (y - b)) ->
    exists sl sr sb st q00 q01 q10 q11,
      surf_split s a DirU = Ok (sl, sr) /\ surf_split sl b DirV = Ok (q00, q01) /\ surf_split sr b DirV = Ok (q10, q11) /\
      surf_split s b DirV = Ok (sb, st) /\ surf_split sb a DirU = Ok (q00, q10) /\ surf_split st a DirU = Ok (q01, q11).
  Proof.
    intros H He Hl Ha Hb Oa Ob. apply (slow_thin s H) in Hl. destruct Hl as (Tu & Tv).
    destruct (surf_split_u_full eps maxv s a H He Ha Oa) as (sl & sr & sa & E1 & L1 & L2 & R1 & R2 & L3 & L4 & L5 & R3 & R4 & R5 & L6 & R6 & Sa & L7 & R7 & HL & HR).
    destruct (surf_split_v_full eps maxv s b H He Hb Ob) as (sb & st & sv & E2 & B1 & B2 & T1 & T2 & B3 & B4 & B5 & T3 & T4 & T5 & B6 & T6 & Sv & B7 & T7 & HB & HT).
    pose proof HL as (l1 & l2 & l3 & l4 & _). pose proof HR as (r1 & r2 & r3 & r4 & _). pose proof HB as (b1 & b2 & b3 & b4 & _). pose proof HT as (t1 & t2 & t3 & t4 & _).
    destruct (surf_split_v_full eps maxv sl b L1 L2) as (q00 & q01 & s1 & F1 & q1 & _ & q2 & _ & q3 & q4 & q5 & q6 & q7 & q8 & q9 & q10 & q11 & q12 & q13 & q14 & q15); [lra|rewrite L6; exact Ob|].
    destruct (surf_split_v_full eps maxv sr b R1 R2) as (p00 & p01 & s2 & F2 & p1 & _ & p2 & _ & p3 & p4 & p5 & p6 & p7 & p8 & p9 & p10 & p11 & p12 & p13 & p14 & p15); [lra|rewrite R6; exact Ob|].
    destruct (surf_split_u_full eps maxv sb a B1 B2) as (m00 & m01 & s3 & F3 & m1 & _ & m2 & _ & m3 & m4 & m5 & m6 & m7 & m8 & m9 & m10 & m11 & m12 & m13 & m14 & m15); [lra|rewrite B6; exact Oa|].
    destruct (surf_split_u_full eps maxv st a T1 T2) as (n00 & n01 & s4 & F4 & n1 & _ & n2 & _ & n3 & n4 & n5 & n6 & n7 & n8 & n9 & n10 & n11 & n12 & n13 & n14 & n15); [lra|rewrite T6; exact Oa|].
    rewrite L6, L5, (ncol_of s sl H L1 L6 L5), Sv in q11. injection q11 as <-.
    rewrite R6, R5, (ncol_of s sr H R1 R6 R5), Sv in p11. injection p11 as <-.
    rewrite B6, B4, (nrow_of s sb H B1 B6 B4), Sa in m11. injection m11 as <-.
    rewrite T6, T4, (nrow_of s st H T1 T6 T4), Sa in n11. injection n11 as <-.
    rewrite L5, L6 in *. rewrite R5, R6 in *. rewrite B4, B6 in *. rewrite T4, T6 in *.
    rewrite l1, l2, l3, l4 in *. rewrite r1, r2, r3, r4 in *. rewrite b1, b2, b3, b4 in *. rewrite t1, t2, t3, t4 in *.
    exists sl, sr, sb, st, q00, q01, p00, p01. split; [exact E1|]. split; [exact F1|]. split; [exact F2|]. split; [exact E2|].
    assert (X1 : m00 = q00).
    { apply (quarter s q00 m00 (u0 s) a (v0 s) b); auto.
      - apply (hom_trans s sl _ _ _ _ _ _ _ _ _ HL q14); lra.
      - apply (hom_trans s sb _ _ _ _ _ _ _ _ _ HB m14); lra.
      - congruence.
      - congruence.
      - congruence.
      - congruence.
      - congruence.
      - rewrite q9, L7, q4, L4. apply (thin_left _ _ _ (u1 s)); auto. lra.
      - rewrite q12, q5. apply (thin_left _ _ _ (v1 s)); auto. lra. }
    assert (X2 : m01 = p00).
    { apply (quarter s p00 m01 a (u1 s) (v0 s) b); auto.
      - apply (hom_trans s sr _ _ _ _ _ _ _ _ _ HR p14); lra.
      - apply (hom_trans s sb _ _ _ _ _ _ _ _ _ HB m15); lra.
      - congruence.
      - congruence.
      - congruence.
      - congruence.
      - congruence.
      - rewrite p9, R7, p4, R4. apply (thin_right _ _ (u0 s)); auto. lra.
      - rewrite p12, p5. apply (thin_left _ _ _ (v1 s)); auto. lra. }
    assert (X3 : n00 = q01).
    { apply (quarter s q01 n00 (u0 s) a b (v1 s)); auto.
      - apply (hom_trans s sl _ _ _ _ _ _ _ _ _ HL q15); lra.
      - apply (hom_trans s st _ _ _ _ _ _ _ _ _ HT n14); lra.
      - congruence.
      - congruence.
      - congruence.
      - congruence.
      - congruence.
      - rewrite q10, L7, q7, L4. apply (thin_left _ _ _ (u1 s)); auto. lra.
      - rewrite q13, q8. apply (thin_right _ _ (v0 s)); auto. lra. }
    assert (X4 : n01 = p01).
    { apply (quarter s p01 n01 a (u1 s) b (v1 s)); auto.
      - apply (hom_trans s sr _ _ _ _ _ _ _ _ _ HR p15); lra.
      - apply (hom_trans s st _ _ _ _ _ _ _ _ _ HT n15); lra.
      - congruence.
      - congruence.
      - congruence.
      - congruence.
      - congruence.
      - rewrite p10, R7, p7, R4. apply (thin_right _ _ (u0 s)); auto. lra.
      - rewrite p13, p8. apply (thin_right _ _ (v0 s)); auto. lra. }
    subst m00 m01 n00 n01. split; [exact F3|exact F4].
  Qed.
End Real.
