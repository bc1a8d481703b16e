(** * Smoothness at the knots (C78): a curve of degree p is p - m times differentiable at a knot of
    multiplicity m, and the returned derivatives are its derivatives there too. *)
From Coq Require Import Reals Lra Lia ZArith Bool List Sorted.
From Verif Require Import Base BaseFacts Scalar RSum BSplineSpec BSpline BSplineDeriv KnotModel KnotSpec
  KnotFacts KnotProofs VecFacts MiscModel MiscProofs CurveModel CurveSpec CurveProofs DerivKnot CurveDeriv.
Import ListNotations.
Open Scope R_scope.

(** multiplicity of a parameter in the knot vector *)
Definition multiplicity (k : list R) (u : R) : nat := count_occ Req_EM_T k u.

(** a sorted list around a value *)
Lemma sorted_split (l : list R) u : Sorted Rle l ->
  exists l1 l3, l = l1 ++ repeat u (multiplicity l u) ++ l3 /\
    Forall (fun x => x < u) l1 /\ Forall (fun x => u < x) l3.
Proof.
  unfold multiplicity. intros Hs. apply Sorted_StronglySorted in Hs; [|intros x y z; apply Rle_trans].
  induction Hs as [|x l Hs IH Hx]; [exists [], []; auto|].
  destruct IH as (l1 & l3 & E & H1 & H3). cbn [count_occ].
  destruct (Req_EM_T x u) as [->|Hne].
  - assert (l1 = []) as ->.
    { destruct l1 as [|y l1]; [reflexivity|]. inversion H1; subst. rewrite E in Hx. inversion Hx; subst. lra. }
    exists [], l3. split; [cbn [app repeat] in *; now rewrite E at 1|]. auto.
  - destruct (Rlt_le_dec x u) as [C|C].
    + exists (x :: l1), l3. split; [cbn [app]; now rewrite E at 1|]. split; [now constructor|auto].
    + assert (l1 = []) as ->.
      { destruct l1 as [|y l1]; [reflexivity|]. inversion H1; subst. rewrite E in Hx. inversion Hx; subst. lra. }
      assert (Z : count_occ Req_EM_T l u = 0%nat).
      { destruct (count_occ Req_EM_T l u) eqn:Ec; [reflexivity|]. rewrite E in Hx. cbn [app repeat] in Hx. inversion Hx; subst. lra. }
      rewrite Z in *. cbn [repeat app] in *. exists [], (x :: l). split; [reflexivity|]. split; [constructor|].
      subst l. constructor; [lra|exact H3].
Qed.

Lemma knot_run (k : list R) u a b : Sorted Rle k -> (a < length k)%nat -> (b < length k)%nat ->
  kf k a < u < kf k b ->
  exists s, (a <= s)%nat /\ (s + multiplicity k u < b)%nat /\ kf k s < u /\ u < kf k (S (s + multiplicity k u)) /\
    forall j, (1 <= j <= multiplicity k u)%nat -> kf k (s + j) = u.
Proof.
  intros Hs Ha Hb Hu. destruct (sorted_split k u Hs) as (l1 & l3 & E & H1 & H3).
  set (m := multiplicity k u) in *.
  assert (V1 : forall j, (j < length l1)%nat -> kf k j < u).
  { intros j Hj. rewrite (kf_nth k j 0) by (rewrite E, app_length; lia). rewrite E, app_nth1 by lia.
    rewrite Forall_forall in H1. apply H1, nth_In. lia. }
  assert (L : length k = (length l1 + (m + length l3))%nat) by (rewrite E at 1; rewrite !app_length, repeat_length; lia).
  assert (V2 : forall j, (j < m)%nat -> kf k (length l1 + j) = u).
  { intros j Hj. rewrite (kf_nth k _ 0) by lia. rewrite E, app_nth2 by lia.
    rewrite app_nth1 by (rewrite repeat_length; lia). replace (length l1 + j - length l1)%nat with j by lia.
    now apply nth_repeat_lt. }
  assert (V3 : forall j, (length l1 + m <= j)%nat -> (j < length k)%nat -> u < kf k j).
  { intros j Hj Hl. rewrite (kf_nth k _ 0) by lia. rewrite E, app_nth2 by lia.
    rewrite app_nth2 by (rewrite repeat_length; lia). rewrite repeat_length.
    rewrite Forall_forall in H3. apply H3, nth_In. lia. }
  assert (Ca : (a < length l1)%nat).
  { destruct (Nat.lt_ge_cases a (length l1)) as [C|C]; [exact C|]. exfalso.
    destruct (Nat.lt_ge_cases a (length l1 + m)) as [C'|C'].
    - pose proof (V2 (a - length l1)%nat ltac:(lia)) as V. replace (length l1 + (a - length l1))%nat with a in V by lia. lra.
    - pose proof (V3 a C' Ha). lra. }
  assert (Cb : (length l1 + m <= b)%nat).
  { destruct (Nat.lt_ge_cases b (length l1 + m)) as [C|C]; [|exact C]. exfalso.
    destruct (Nat.lt_ge_cases b (length l1)) as [C'|C'].
    - pose proof (V1 b C'). lra.
    - pose proof (V2 (b - length l1)%nat ltac:(lia)) as V. replace (length l1 + (b - length l1))%nat with b in V by lia. lra. }
  exists (length l1 - 1)%nat. split; [lia|]. split; [lia|]. split; [apply V1; lia|].
  split; [apply V3; lia|]. intros j Hj. replace (length l1 - 1 + j)%nat with (length l1 + (j - 1))%nat by lia.
  apply V2. lia.
Qed.

(** ** Span polynomials on the two sides of a knot *)
Lemma dbs_smooth k s m p r i :
  mono k -> (1 <= m)%nat -> (r + m <= p)%nat -> k s < k (S s) -> k (s + m)%nat < k (S (s + m)) ->
  (forall j, (1 <= j <= m)%nat -> k (s + j)%nat = k (S s)) ->
  dbs k s p r i (k (S s)) = dbs k (s + m) p r i (k (S s)).
Proof.
  intros Hm H1 Hr Hs Hs' He. unfold dbs. f_equal. apply rsum_ext. intros j Hj. f_equal.
  apply bs_continuous; auto. lia.
Qed.

(** gluing two differentiable functions *)
Lemma derivable_glue f g h a b u l : a < u < b ->
  (forall x, a < x < u -> f x = g x) -> (forall x, u <= x < b -> f x = h x) -> g u = h u ->
  derivable_pt_lim g u l -> derivable_pt_lim h u l -> derivable_pt_lim f u l.
Proof.
  intros Hu Hg Hh E Dg Dh e He. destruct (Dg e He) as (d1 & P1). destruct (Dh e He) as (d2 & P2).
  assert (Hd : 0 < Rmin (Rmin d1 d2) (Rmin (u - a) (b - u))).
  { pose proof (cond_pos d1). pose proof (cond_pos d2). repeat apply Rmin_glb_lt; lra. }
  exists (mkposreal _ Hd). cbn [pos]. intros x Hx Hlt.
  assert (Q : Rabs x < d1 /\ Rabs x < d2 /\ Rabs x < u - a /\ Rabs x < b - u).
  { pose proof (Rmin_l (Rmin d1 d2) (Rmin (u - a) (b - u))). pose proof (Rmin_r (Rmin d1 d2) (Rmin (u - a) (b - u))).
    pose proof (Rmin_l d1 d2). pose proof (Rmin_r d1 d2). pose proof (Rmin_l (u - a) (b - u)). pose proof (Rmin_r (u - a) (b - u)).
    cbn [pos] in Hlt. repeat split; lra. }
  destruct Q as (Q1 & Q2 & Q3 & Q4). apply Rabs_def2 in Q3, Q4.
  rewrite (Hh u) by lra. destruct (Rlt_le_dec x 0) as [C|C].
  - rewrite (Hg (u + x)) by lra. rewrite <- E. now apply P1.
  - rewrite (Hh (u + x)) by lra. now apply P2.
Qed.

Lemma continuous_glue f g h a b u : a < u < b ->
  (forall x, a < x < u -> f x = g x) -> (forall x, u <= x < b -> f x = h x) -> g u = h u ->
  continuity_pt g u -> continuity_pt h u -> continuity_pt f u.
Proof.
  intros Hu Hg Hh E Dg Dh e He. destruct (Dg e He) as (d1 & Hd1 & P1). destruct (Dh e He) as (d2 & Hd2 & P2).
  assert (Hd : 0 < Rmin (Rmin d1 d2) (Rmin (u - a) (b - u))) by (repeat apply Rmin_glb_lt; lra).
  exists (Rmin (Rmin d1 d2) (Rmin (u - a) (b - u))). split; [exact Hd|].
  intros x (Hx & Hlt). cbn [dist R_met Base] in *. unfold R_dist in *.
  assert (Q : Rabs (x - u) < d1 /\ Rabs (x - u) < d2 /\ Rabs (x - u) < u - a /\ Rabs (x - u) < b - u).
  { pose proof (Rmin_l (Rmin d1 d2) (Rmin (u - a) (b - u))). pose proof (Rmin_r (Rmin d1 d2) (Rmin (u - a) (b - u))).
    pose proof (Rmin_l d1 d2). pose proof (Rmin_r d1 d2). pose proof (Rmin_l (u - a) (b - u)). pose proof (Rmin_r (u - a) (b - u)).
    repeat split; lra. }
  destruct Q as (Q1 & Q2 & Q3 & Q4). apply Rabs_def2 in Q3, Q4.
  rewrite (Hh u) by lra. destruct (Rlt_le_dec x u) as [C|C].
  - rewrite (Hg x) by lra. rewrite <- E. apply P1. auto.
  - rewrite (Hh x) by lra. apply P2. auto.
Qed.

Section Real.
  Variables eps maxv : R.
  Local Hint Extern 0 (Scalar R) => exact (ROps eps maxv) : typeclass_instances.

  (** [D r] is the r-th derivative returned for coordinate [i], at every parameter of the domain *)
  Definition returned (c : Curve R) (i : nat) (D : nat -> R -> R) : Prop :=
    forall u r, dom0 c <= u <= dom1 c ->
      exists ds, rational_derivatives c u r = Ok ds /\ length ds = S r /\ rc i (nth r ds []) = D r u.

  Lemma returned_span c i D s u r :
    curve_ok c -> curve_eps eps c -> pos_weights c -> (i < cdim c - 1)%nat -> returned c i D ->
    (cdeg c <= s <= clast c)%nat -> in_span (cknots c) (clast c) s u -> D r u = ratd c s i r u.
  Proof.
    intros Hc He Hw Hi HD Hs Hin. pose proof (curve_mono c Hc) as Hm. pose proof (clast_S c Hc) as Hn.
    destruct (rational_derivatives_all eps maxv c s Hc He Hw Hs (proj1 Hin)) as (_ & V).
    destruct (V u r Hin) as (ds & E & L & W).
    destruct (HD u r) as (ds' & E' & L' & W').
    { pose proof (in_span_le _ _ _ _ Hin) as Hle. unfold dom0, dom1. rewrite <- Hn.
      pose proof (mono_le _ (cdeg c) s Hm ltac:(lia)). pose proof (mono_le _ (S s) (S (clast c)) Hm ltac:(lia)). lra. }
    rewrite E in E'. injection E' as <-. rewrite <- W'. now apply (W r).
  Qed.

  Lemma ratd_deriv c s i r u :
    curve_ok c -> curve_eps eps c -> pos_weights c -> (i < cdim c - 1)%nat ->
    (cdeg c <= s <= clast c)%nat -> kf (cknots c) s < kf (cknots c) (S s) ->
    kf (cknots c) s <= u <= kf (cknots c) (S s) ->
    derivable_pt_lim (ratd c s i r) u (ratd c s i (S r) u).
  Proof.
    intros Hc He Hw Hi Hs Hne Hu.
    destruct (rational_derivatives_all eps maxv c s Hc He Hw Hs Hne) as (A & _). now apply (A i Hi).
  Qed.

  (** such a [D] exists *)
  Theorem returned_exists c i :
    curve_ok c -> curve_eps eps c -> pos_weights c -> (i < cdim c - 1)%nat ->
    exists D, returned c i D /\ forall u, dom0 c <= u <= dom1 c -> D 0%nat u = nurbs c i u.
  Proof.
    intros Hc He Hw Hi.
    exists (fun r u => match rational_derivatives c u r with Ok ds => rc i (nth r ds []) | _ => 0 end).
    split.
    - intros u r Hu. destruct (span_of eps maxv c u Hc He Hu) as (s & Hs & Hin & _).
      destruct (rational_derivatives_all eps maxv c s Hc He Hw Hs (proj1 Hin)) as (_ & V).
      destruct (V u r Hin) as (ds & E & L & W). exists ds. rewrite E. auto.
    - intros u Hu. destruct (span_of eps maxv c u Hc He Hu) as (s & Hs & Hin & _).
      destruct (rational_derivatives_all eps maxv c s Hc He Hw Hs (proj1 Hin)) as (_ & V).
      destruct (V u 0%nat Hin) as (ds & E & L & W). rewrite E. destruct (W 0%nat ltac:(lia)) as (_ & W0). rewrite (W0 i Hi).
      unfold ratd. rewrite cq_eq. cbn [rsum]. rewrite !(dpiece_0 c s) by (auto; lia). unfold nurbs, wfun. unfold Rdiv. ring.
  Qed.

  Lemma ratd_smooth c s m i r :
    mono (kf (cknots c)) -> (1 <= m)%nat -> (r + m <= cdeg c)%nat ->
    kf (cknots c) s < kf (cknots c) (S s) -> kf (cknots c) (s + m) < kf (cknots c) (S (s + m)) ->
    (forall j, (1 <= j <= m)%nat -> kf (cknots c) (s + j) = kf (cknots c) (S s)) ->
    ratd c s i r (kf (cknots c) (S s)) = ratd c (s + m) i r (kf (cknots c) (S s)).
  Proof.
    intros Hm H1 Hr Hs Hs' He. unfold ratd.
    apply (cq_pointwise_le r); [lia| |]; intros r' Hr'; unfold dpiece; apply rsum_ext; intros j Hj; f_equal;
      apply dbs_smooth; auto; lia.
  Qed.

  (** *** C78 *)
  Section AtKnot.
    Variables (c : Curve R) (i : nat) (D : nat -> R -> R) (u : R).
    Hypotheses (Hc : curve_ok c) (He : curve_eps eps c) (Hw : pos_weights c) (Hi : (i < cdim c - 1)%nat)
      (HD : returned c i D) (Hu : dom0 c < u < dom1 c).

    Lemma around : exists s, (cdeg c <= s)%nat /\ (s + multiplicity (cknots c) u <= clast c)%nat /\
      kf (cknots c) s < u /\ u < kf (cknots c) (S (s + multiplicity (cknots c) u)) /\
      forall j, (1 <= j <= multiplicity (cknots c) u)%nat -> kf (cknots c) (s + j) = u.
    Proof.
      pose proof (co_knots c Hc) as K. pose proof (clast_S c Hc) as Hn. pose proof (co_len c Hc) as Hl.
      pose proof (ko_len _ _ _ K) as Lk.
      destruct (knot_run (cknots c) u (cdeg c) (length (cpts c)) (ko_sorted _ _ _ K)) as (s & A & B & C);
        [lia|lia|exact Hu|].
      exists s. split; [exact A|]. split; [lia|exact C].
    Qed.

    Lemma sides r (m := multiplicity (cknots c) u) : (m = 0 \/ r + m <= cdeg c)%nat ->
      exists s, (cdeg c <= s)%nat /\ (s + m <= clast c)%nat /\
        kf (cknots c) s < u /\ u < kf (cknots c) (S (s + m)) /\
        u <= kf (cknots c) (S s) /\ kf (cknots c) (s + m) <= u /\
        (forall q x, kf (cknots c) s < x < u -> D q x = ratd c s i q x) /\
        (forall q x, u <= x < kf (cknots c) (S (s + m)) -> D q x = ratd c (s + m) i q x) /\
        (forall q, (q <= r)%nat -> ratd c s i q u = ratd c (s + m) i q u).
    Proof.
      intros Hr. destruct around as (s & A & B & C1 & C2 & C3). fold m in B, C2, C3.
      pose proof (curve_mono c Hc) as Hm. pose proof (clast_S c Hc) as Hn.
      assert (U1 : u <= kf (cknots c) (S s)).
      { destruct (Nat.eq_dec m 0) as [Z|Z].
        - rewrite Z, Nat.add_0_r in C2. lra.
        - rewrite <- (C3 1%nat) by lia. replace (s + 1)%nat with (S s) by lia. lra. }
      assert (U2 : kf (cknots c) (s + m) <= u).
      { destruct (Nat.eq_dec m 0) as [Z|Z]; [rewrite Z, Nat.add_0_r; lra|]. rewrite C3 by lia. lra. }
      exists s. split; [exact A|]. split; [exact B|]. split; [exact C1|]. split; [exact C2|].
      split; [exact U1|]. split; [exact U2|]. split; [|split].
      - intros q x Hx. apply returned_span; auto; [lia|]. unfold in_span. split; [lra|]. split; [lra|]. left; lra.
      - intros q x Hx. apply returned_span; auto; [lia|]. unfold in_span. split; [lra|]. split; [lra|]. left; lra.
      - intros q Hq. destruct (Nat.eq_dec m 0) as [Z|Z]; [now rewrite Z, Nat.add_0_r|].
        assert (E1 : kf (cknots c) (S s) = u) by (replace (S s) with (s + 1)%nat by lia; apply C3; lia).
        rewrite <- E1. apply ratd_smooth; auto; try lia; try lra. intros j Hj. rewrite C3, E1 by lia. reflexivity.
    Qed.

    (** the returned derivative of order r+1 is the derivative of the one of order r, wherever the
        multiplicity of the parameter leaves room *)
    Theorem smooth_at_knots r : (multiplicity (cknots c) u = 0 \/ S r + multiplicity (cknots c) u <= cdeg c)%nat ->
      derivable_pt_lim (D r) u (D (S r) u).
    Proof.
      intros Hr. destruct (sides (S r) Hr) as (s & A & B & C1 & C2 & U1 & U2 & L & Rt & E).
      rewrite (Rt (S r) u) by lra.
      apply (derivable_glue (D r) (ratd c s i r) (ratd c (s + multiplicity (cknots c) u) i r)
               (kf (cknots c) s) (kf (cknots c) (S (s + multiplicity (cknots c) u)))); auto.
      - rewrite <- E by lia. apply ratd_deriv; auto; [lia|lra|lra].
      - apply ratd_deriv; auto; [lia|lra|lra].
    Qed.

    (** and the derivative of order p - m is still continuous *)
    Theorem continuous_at_knots r : (multiplicity (cknots c) u = 0 \/ r + multiplicity (cknots c) u <= cdeg c)%nat ->
      continuity_pt (D r) u.
    Proof.
      intros Hr. destruct (sides r Hr) as (s & A & B & C1 & C2 & U1 & U2 & L & Rt & E).
      apply (continuous_glue (D r) (ratd c s i r) (ratd c (s + multiplicity (cknots c) u) i r)
               (kf (cknots c) s) (kf (cknots c) (S (s + multiplicity (cknots c) u)))); auto.
      - apply derivable_continuous_pt. exists (ratd c s i (S r) u). apply ratd_deriv; auto; [lia|lra|lra].
      - apply derivable_continuous_pt. exists (ratd c (s + multiplicity (cknots c) u) i (S r) u). apply ratd_deriv; auto; [lia|lra|lra].
    Qed.
  End AtKnot.

  Theorem derivatives_smooth c i D u r :
    curve_ok c -> curve_eps eps c -> pos_weights c -> (i < cdim c - 1)%nat -> returned c i D ->
    dom0 c < u < dom1 c -> (multiplicity (cknots c) u = 0 \/ S r + multiplicity (cknots c) u <= cdeg c)%nat ->
    derivable_pt_lim (D r) u (D (S r) u).
  Proof. intros Hc He Hw Hi HD Hu. now apply (smooth_at_knots c i D u). Qed.

  Theorem derivatives_continuous c i D u r :
    curve_ok c -> curve_eps eps c -> pos_weights c -> (i < cdim c - 1)%nat -> returned c i D ->
    dom0 c < u < dom1 c -> (multiplicity (cknots c) u = 0 \/ r + multiplicity (cknots c) u <= cdeg c)%nat ->
    continuity_pt (D r) u.
  Proof. intros Hc He Hw Hi HD Hu. now apply (continuous_at_knots c i D u). Qed.
End Real.

(** ** Sharpness: at full multiplicity the curve may have a corner *)
Definition roof : Curve R := MkCurve 2 1 [[0; 1]; [1; 1]; [0; 1]] [0; 0; 1; 2; 2].

Lemma roof_ok : curve_ok roof.
Proof.
  constructor; cbn; try lia; [repeat constructor|]. constructor; cbn; try lia; unfold kf; cbn; try lra.
  repeat constructor; lra.
Qed.
Lemma roof_pos : pos_weights roof.
Proof. intros j Hj. cbn in Hj. unfold cpc, rc. destruct j as [|[|[|j]]]; [| | |lia]; cbn; lra. Qed.

Lemma roof_left x : ratd roof 1 0 0 x = x.
Proof.
  unfold ratd. rewrite cq_eq. cbn [rsum]. unfold dpiece. cbn [length roof cpts cdeg cdim cknots rsum].
  rewrite !dbs_0. cbn [bs Nat.eqb Nat.add]. unfold wl, wr, kf, cpc, rc, quot0. cbn.
  repeat match goal with |- context [Req_EM_T ?a ?b] => destruct (Req_EM_T a b) as [Q|Q]; [try (exfalso; lra)|try (exfalso; apply Q; lra)]; try clear Q end.
  all: try (field; lra). all: try lra. all: try field.
Qed.
Lemma roof_right x : ratd roof 2 0 0 x = 2 - x.
Proof.
  unfold ratd. rewrite cq_eq. cbn [rsum]. unfold dpiece. cbn [length roof cpts cdeg cdim cknots rsum].
  rewrite !dbs_0. cbn [bs Nat.eqb Nat.add]. unfold wl, wr, kf, cpc, rc, quot0. cbn.
  repeat match goal with |- context [Req_EM_T ?a ?b] => destruct (Req_EM_T a b) as [Q|Q]; [try (exfalso; lra)|try (exfalso; apply Q; lra)]; try clear Q end.
  all: try (field; lra). all: try lra. all: try field.
Qed.

Lemma no_corner f u a b d : 0 < d -> a <> b -> (forall h, 0 < h < d -> f (u - h) = f u - a * h) ->
  (forall h, 0 < h < d -> f (u + h) = f u + b * h) -> forall l, ~ derivable_pt_lim f u l.
Proof.
  intros Hd Hab Hl Hr l D. assert (He : 0 < Rabs (a - b) / 4).
  { assert (0 < Rabs (a - b)) by (apply Rabs_pos_lt; lra). lra. }
  destruct (D _ He) as (e & P). pose proof (cond_pos e) as Hp. set (h := Rmin e d / 2).
  assert (Hm : 0 < Rmin e d) by (apply Rmin_glb_lt; lra).
  pose proof (Rmin_l e d) as M1. pose proof (Rmin_r e d) as M2.
  assert (Hh : 0 < h < d /\ h < e) by (unfold h; lra).
  pose proof (P h ltac:(lra)) as P1. rewrite Rabs_right in P1 by lra. specialize (P1 ltac:(lra)).
  pose proof (P (- h) ltac:(lra)) as P2. rewrite Rabs_Ropp, Rabs_right in P2 by lra. specialize (P2 ltac:(lra)).
  rewrite Hr in P1 by lra. change (u + - h) with (u - h) in P2. rewrite Hl in P2 by lra.
  replace ((f u + b * h - f u) / h - l) with (b - l) in P1 by (field; lra).
  replace ((f u - a * h - f u) / - h - l) with (a - l) in P2 by (field; lra).
  assert (T : Rabs (a - b) <= Rabs (a - l) + Rabs (b - l)).
  { replace (a - b) with ((a - l) + (- (b - l))) by ring. rewrite <- (Rabs_Ropp (b - l)). apply Rabs_triang. }
  lra.
Qed.

Theorem corner_at_full_multiplicity eps maxv : 0 < eps <= 1 ->
  exists c u, curve_ok c /\ curve_eps eps c /\ pos_weights c /\ dom0 c < u < dom1 c /\ multiplicity (cknots c) u = cdeg c /\
    forall D, returned eps maxv c 0 D -> forall l, ~ derivable_pt_lim (D 0%nat) u l.
Proof.
  intros He. exists roof, 1. pose proof roof_ok as Hc. pose proof roof_pos as Hw.
  assert (Hce : curve_eps eps roof) by (unfold curve_eps, eps_ok, kf; cbn; lra).
  split; [exact Hc|]. split; [exact Hce|]. split; [exact Hw|]. split; [unfold dom0, dom1, kf; cbn; lra|].
  split; [unfold multiplicity, roof; cbn; repeat (destruct (Req_EM_T _ _); try lra); reflexivity|].
  intros D HD. assert (V : forall s x, (1 <= s <= 2)%nat -> in_span (cknots roof) (clast roof) s x -> D 0%nat x = ratd roof s 0 0 x).
  { intros s x Hs Hx. apply (returned_span eps maxv roof 0 D s x 0); auto; cbn; lia. }
  assert (V2 : forall x, 1 <= x < 2 -> D 0%nat x = 2 - x).
  { intros x Hx. rewrite (V 2%nat), roof_right; [reflexivity|lia|]. unfold in_span, kf. cbn. lra. }
  apply (no_corner (D 0%nat) 1 1 (-1) 1); [lra|lra| |].
  - intros h Hh. rewrite (V2 1) by lra. rewrite (V 1%nat), roof_left; [ring|lia|]. unfold in_span, kf. cbn. lra.
  - intros h Hh. rewrite !V2 by lra. ring.
Qed.
