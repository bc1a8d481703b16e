(** * Circles, arcs and ellipses: what the constructors return *)
From Coq Require Import Reals Lra Sorted ZArith String.
From Verif Require Import Base BaseFacts Scalar RSum BSplineSpec BSpline KnotModel KnotSpec KnotFacts KnotProofs VecFacts
  MiscModel MiscProofs CurveModel CurveSpec CurveProofs CurveGeom CurveGeom2 CurveShapes Refine ArcModel ArcProofs ArcMain ArcCircle.
Open Scope list_scope. Open Scope R_scope.

(** the half axis of length [r] along [v] *)
Definition half_axis (v : list R) (r : R) : list R := map (fun z => z / sqrt (dot v v) * r) v.

Section Real.
  Variables eps maxv : R.
  Local Hint Extern 0 (Scalar R) => exact (ROps eps maxv) : typeclass_instances.
  Local Hint Extern 0 (Trig R) => exact TrigR : typeclass_instances.

  (** [c] runs along the ellipse with centre [C] and half-axes [A], [B], from [start] to [fin] *)
  Definition traces (c : Curve R) (D : nat) (C A B : list R) (start fin : R) : Prop :=
    curve_ok c /\ cdim c = D /\ dom0 c = start /\ dom1 c = fin /\
    (forall u, start <= u <= fin -> exists phi,
       point_at c u = Ok (on_ellipse C A B phi) /\ (fin - start <= 8 * PI -> start <= phi <= fin)) /\
    point_at c start = Ok (on_ellipse C A B start) /\
    point_at c fin = Ok (on_ellipse C A B fin) /\
    (fin - start < 8 * PI -> forall phi, start <= phi <= fin -> exists u, start <= u <= fin /\ point_at c u = Ok (on_ellipse C A B phi)).

  Lemma arc_count_small (theta : R) : 0 <= theta -> arc_count theta = 4%nat \/ theta < 2 * PI.
  Proof.
    intros H. unfold arc_count. cbn [sfloor TrigR shalf_pi]. rs. pose proof PI_RGT_0 as Hp.
    set (q := theta / (PI / 2)). assert (Hq : 0 <= q) by (unfold q; apply Rmult_le_pos; [lra|left; apply Rinv_0_lt_compat; lra]).
    assert (Et : theta = q * (PI / 2)) by (unfold q; field; lra).
    destruct (Rlt_dec q 0); [lra|]. destruct (le_lt_dec 4 (Z.to_nat (Int_part q))) as [G|G]; [left; lia|right].
    assert (Z : (Int_part q < 4)%Z) by lia. destruct (base_Int_part q) as (_ & B). apply IZR_lt in Z.
    assert (IZR (Int_part q) <= 3). { apply (IZR_le _ 3). apply lt_IZR in Z. lia. }
    assert (q < 4) by lra. rewrite Et. nra.
  Qed.

  Lemma arc_count_circle : arc_count (2 * PI - 0) = 4%nat.
  Proof.
    unfold arc_count. cbn [sfloor TrigR shalf_pi]. rs. pose proof PI_RGT_0.
    replace ((2 * PI - 0) / (PI / 2)) with (INR 4) by (cbn; field; lra).
    destruct (Rlt_dec (INR 4) 0) as [C|_]; [cbn in C; lra|]. rewrite Int_part_INR. reflexivity.
  Qed.

  Lemma piece_of_angle start dtheta m phi : 0 < dtheta -> start <= phi < start + INR m * dtheta ->
    exists i, (i < m)%nat /\ start + INR i * dtheta <= phi < start + INR (S i) * dtheta.
  Proof.
    intros Hd. induction m as [|m IH]; intros H; [cbn in H; lra|].
    destruct (Rlt_dec phi (start + INR m * dtheta)) as [L|L].
    - destruct IH as (i & Hi & Hb); [lra|]. exists i. split; [lia|exact Hb].
    - exists m. split; [lia|]. lra.
  Qed.

  (** once every piece succeeds *)
  Lemma built_traces D C A B start fin :
    (1 <= D)%nat -> length C = (D - 1)%nat -> length A = (D - 1)%nat -> length B = (D - 1)%nat ->
    0 < dot A A -> 0 < dot B B -> start < fin ->
    let m := arc_count (fin - start) in let dtheta := (fin - start) / INR m in
    0 < eps <= dtheta -> -1 < cos (dtheta / 2) ->
    (forall i, (i < m)%nat -> good_step eps maxv (D - 1) C A B (vnormalize A) (vnormalize B) (vnorm A) (vnorm B) dtheta (start + INR i * dtheta)) ->
    exists c, try_ellipse_arc D C A B start fin = Ok c /\ traces c D C A B start fin.
  Proof.
    intros HD LC LA LB HA HB Hse m dtheta He Hc Hg.
    destruct (ellipse_arc_built eps maxv D C A B start fin HD LC LA LB HA HB Hse Hg) as (pts & ws & HP & E).
    fold m in HP, E. fold dtheta in HP, E. pose proof (arc_count_bounds eps maxv (fin - start)) as Hm. fold m in Hm.
    assert (Hm0 : 0 < INR m) by (apply lt_0_INR; lia).
    assert (Hdt : 0 < dtheta) by (unfold dtheta; apply Rmult_lt_0_compat; [lra|now apply Rinv_0_lt_compat]).
    assert (Ef : start + INR m * dtheta = fin) by (unfold dtheta; field; lra).
    assert (Hm1 : (1 <= m)%nat) by lia.
    assert (Sm : forall k, fin - start <= k -> k <= 8 * PI -> 2 * PI <= k -> dtheta <= k / 4 \/ dtheta < 2 * PI).
    { intros k H1 H2 H3. destruct (arc_count_small (fin - start) ltac:(lra)) as [E4|L].
      - left. fold m in E4. unfold dtheta. rewrite E4. cbn. lra.
      - right. assert (1 <= INR m) by (change 1 with (INR 1); apply le_INR; lia).
        assert (INR m * dtheta = fin - start) by lra. nra. }
    eexists. split; [exact E|]. set (c := MkCurve _ _ _ _).
    assert (Dm' : dom0 c = start /\ dom1 c = fin).
    { destruct (arc_dom eps maxv D C A B start dtheta m pts ws) as (X & Y); try assumption. split; [exact X|]. fold c in Y. rewrite Y. exact Ef. }
    destruct Dm' as (D0 & D1).
    split; [|split; [reflexivity|split; [exact D0|split; [exact D1|split; [|split; [|split]]]]]].
    - apply (arc_curve_ok eps maxv D C A B start dtheta m pts ws); assumption.
    - intros u Hu. destruct (arc_find eps maxv D C A B start dtheta m pts ws HD LC Hm1 Hdt HP u) as (i & t & Hi & Ht & Eu).
      { fold c. rewrite D0, D1. exact Hu. }
      destruct (arc_point eps maxv D C A B start dtheta m pts ws HD LC Hm1 Hdt He Hc HP i t Hi Ht) as (phi & Ep & Hphi).
      exists phi. rewrite Eu. split; [exact Ep|]. intros H8.
      assert (H2 : dtheta <= 2 * PI).
      { destruct (Rle_dec (2 * PI) (fin - start)) as [G|G].
        - destruct (Sm (fin - start)); lra.
        - destruct (Sm (2 * PI)); pose proof PI_RGT_0; lra. }
      destruct (Hphi H2) as ((P1 & P2) & _). rewrite <- Ef.
      assert (0 <= INR i * dtheta) by (apply Rmult_le_pos; [apply pos_INR|lra]).
      assert (INR (S i) * dtheta <= INR m * dtheta) by (apply Rmult_le_compat_r; [lra|apply le_INR; lia]). lra.
    - pose proof (arc_point_first eps maxv D C A B start dtheta m pts ws HD LC Hm1 Hdt He Hc HP 0 ltac:(lia)) as Q.
      cbn [INR] in Q. replace (start + 0 * dtheta) with start in Q by ring. exact Q.
    - pose proof (arc_point_last eps maxv D C A B start dtheta m pts ws HD LC Hm1 Hdt He Hc HP) as Q. rewrite Ef in Q. exact Q.
    - intros H8 phi Hphi. destruct (Req_dec phi fin) as [->|N].
      + exists fin. split; [lra|].
        pose proof (arc_point_last eps maxv D C A B start dtheta m pts ws HD LC Hm1 Hdt He Hc HP) as Q. rewrite Ef in Q. exact Q.
      + destruct (piece_of_angle start dtheta m phi Hdt ltac:(rewrite Ef; lra)) as (i & Hi & Hb).
        assert (H2 : dtheta < 2 * PI).
        { destruct (Rle_dec (2 * PI) (fin - start)) as [G|G].
          - destruct (Sm (fin - start)); lra.
          - destruct (Sm (2 * PI)); pose proof PI_RGT_0; lra. }
        destruct (arc_reached eps maxv D C A B start dtheta m pts ws HD LC Hm1 Hdt He Hc HP i phi Hi H2 Hb) as (t & Ht & Ep).
        eexists. split; [|exact Ep]. rewrite <- Ef.
        assert (0 <= INR i * dtheta) by (apply Rmult_le_pos; [apply pos_INR|lra]).
        assert (0 <= t * dtheta) by (apply Rmult_le_pos; lra).
        assert (t * dtheta <= 1 * dtheta) by (apply Rmult_le_compat_r; lra).
        assert (INR (S i) * dtheta <= INR m * dtheta) by (apply Rmult_le_compat_r; [lra|apply le_INR; lia]).
        rewrite S_INR in *. lra.
  Qed.

  (** ** Unit vectors *)
  Lemma dot_pos_sqrt a : 0 < dot a a -> 0 < sqrt (dot a a).
  Proof. apply sqrt_lt_R0. Qed.

  Lemma dot_scaled a b j k : length a = length b ->
    dot (map (fun z => z * j) a) (map (fun z => z * k) b) = j * k * dot a b.
  Proof.
    intros L. unfold dot. rewrite map_length, <- rsum_scal. apply rsum_ext. intros l Hl. 
    change (rc l (vscale a j) * rc l (vscale b k) = j * k * (rc l a * rc l b)). rewrite !rc_vscale. ring.
  Qed.

  Lemma unit_dot a b : length a = length b -> 0 < dot a a -> 0 < dot b b ->
    dot (vnormalize a) (vnormalize b) = dot a b / (sqrt (dot a a) * sqrt (dot b b)).
  Proof.
    intros L Ha Hb. apply dot_pos_sqrt in Ha, Hb. unfold vnormalize. rewrite !vnorm_dot.
    assert (N : forall v, vdivs v (sqrt (dot v v)) = map (fun z => z * / sqrt (dot v v)) v) by reflexivity.
    rewrite !N, dot_scaled by exact L. field. lra.
  Qed.
  Lemma unit_norm a : 0 < dot a a -> dot (vnormalize a) (vnormalize a) = 1.
  Proof.
    intros Ha. rewrite unit_dot by auto. rewrite sqrt_sqrt by lra. field. lra.
  Qed.

  Lemma scale_unit a : 0 < dot a a -> vscale (vnormalize a) (vnorm a) = a.
  Proof.
    intros Ha. apply (vec_ext _ _ (length a)); [now apply vscale_length, vdivs_length|reflexivity|].
    intros l _. rewrite rc_vscale. now apply unit_of_rc.
  Qed.

  (** ** Circular axes *)
  Lemma sin2_small t : 0 <= t -> sin t * sin t <= t.
  Proof.
    intros Ht. pose proof (SIN_bound t) as Hb. destruct (Rle_dec t 1) as [H|H]; [|nra].
    assert (Hs : sin t <= t). { destruct (Req_dec t 0) as [->|]; [rewrite sin_0; lra|]. left. apply sin_lt_x. lra. }
    pose proof PI_4. pose proof PI_RGT_0. assert (P : 0 <= sin t).
    { apply sin_ge_0; [exact Ht|]. pose proof PI2_1. lra. }
    nra.
  Qed.

  Section Circular.
    Variables (D : nat) (C A B : list R) (rho start fin : R).
    Hypothesis HD : (1 <= D)%nat.
    Hypothesis LC : length C = (D - 1)%nat.
    Hypothesis LA : length A = (D - 1)%nat.
    Hypothesis LB : length B = (D - 1)%nat.
    Hypothesis Hr : 0 < rho.
    Hypothesis HA : dot A A = rho * rho.
    Hypothesis HB : dot B B = rho * rho.
    Hypothesis HAB : dot A B = 0.
    Hypothesis Hse : start < fin.
    Let m := arc_count (fin - start).
    Let dtheta := (fin - start) / INR m.

    Lemma circ_facts : 0 < dot A A /\ 0 < dot B B /\ vnorm A = rho /\ vnorm B = rho /\
      length (vnormalize A) = (D - 1)%nat /\ length (vnormalize B) = (D - 1)%nat /\
      dot (vnormalize A) (vnormalize A) = 1 /\ dot (vnormalize B) (vnormalize B) = 1 /\ dot (vnormalize A) (vnormalize B) = 0.
    Proof.
      assert (0 < rho * rho) by nra. assert (PA : 0 < dot A A) by lra. assert (PB : 0 < dot B B) by lra.
      split; [exact PA|]. split; [exact PB|].
      split; [rewrite vnorm_dot, HA; apply sqrt_square; lra|]. split; [rewrite vnorm_dot, HB; apply sqrt_square; lra|].
      split; [now apply vdivs_length|]. split; [now apply vdivs_length|].
      split; [now apply unit_norm|]. split; [now apply unit_norm|].
      rewrite unit_dot by (congruence || assumption). rewrite HAB. unfold Rdiv. ring.
    Qed.

    Lemma circular_traces : 0 < eps -> eps <= sin dtheta * sin dtheta ->
      exists c, try_ellipse_arc D C A B start fin = Ok c /\ traces c D C A B start fin.
    Proof.
      intros He Hs. destruct circ_facts as (PA & PB & NA & NB & Lx & Ly & XX & YY & XY).
      pose proof (arc_count_bounds eps maxv (fin - start)) as Hm. fold m in Hm.
      assert (Hm0 : 0 < INR m) by (apply lt_0_INR; lia).
      assert (Hdt : 0 < dtheta) by (unfold dtheta; apply Rmult_lt_0_compat; [lra|now apply Rinv_0_lt_compat]).
      apply built_traces; try assumption; fold m; fold dtheta.
      - split; [exact He|]. pose proof (sin2_small dtheta ltac:(lra)). lra.
      - destruct (COS_bound (dtheta / 2)) as ([G|G] & _); [exact G|exfalso].
        pose proof (sin2_cos2 (dtheta / 2)) as S. unfold Rsqr in S. rewrite <- G in S.
        assert (Z : sin (dtheta / 2) * sin (dtheta / 2) = 0) by lra.
        assert (Es : sin dtheta = 2 * sin (dtheta / 2) * cos (dtheta / 2)) by (rewrite <- sin_2a; f_equal; field).
        rewrite Es, <- G in Hs. nra.
      - intros i Hi.
        pose proof (proj2 (circle_step eps maxv (D - 1) C (vnormalize A) (vnormalize B) rho dtheta (start + INR i * dtheta)
          LC Lx Ly XX YY XY) (conj He Hs)) as G.
        rewrite NA, NB. pose proof (scale_unit A PA) as SA. pose proof (scale_unit B PB) as SB. rewrite NA in SA. rewrite NB in SB.
        rewrite SA, SB in G. exact G.
    Qed.

    Lemma circular_fails : sin dtheta * sin dtheta < eps -> errs (try_ellipse_arc D C A B start fin).
    Proof.
      intros Hs. destruct circ_facts as (PA & PB & NA & NB & Lx & Ly & XX & YY & XY).
      pose proof (arc_count_bounds eps maxv (fin - start)) as Hm. fold m in Hm.
      pose proof (proj1 (circle_step eps maxv (D - 1) C (vnormalize A) (vnormalize B) rho dtheta start LC Lx Ly XX YY XY) Hs) as G.
      unfold piece_rays in G.
      unfold try_ellipse_arc. rs. destruct (Rltb_spec start fin); [|lra]. cbn [ensure bind]. fold m.
      rewrite (sofnat_INR eps maxv). fold dtheta.
      unfold for_range. replace (m + 1 - 1)%nat with (S (m - 1)) by lia.
      cbn [for_]. unfold arc_step at 1. cbn [as_p0 as_t0 as_angle]. change (sadd start dtheta) with (start + dtheta).
      change (sqrt (vnorm2 A)) with (vnorm A). change (sqrt (vnorm2 B)) with (vnorm B).
      rewrite NA, NB, G. cbn. eexists. reflexivity.
    Qed.

    Lemma circular_dist phi : rdist (on_ellipse C A B phi) C = rho.
    Proof.
      unfold rdist. rewrite on_ellipse_length.
      transitivity (sqrt (rho * rho)); [f_equal|apply sqrt_square; lra].
      transitivity (dot A A * (cos phi * cos phi) + 2 * dot A B * (cos phi * sin phi) + dot B B * (sin phi * sin phi)).
      - unfold dot. rewrite LA, LB, LC. replace (2 * rsum (D - 1) (fun l => rc l A * rc l B)) with (rsum (D - 1) (fun l => 2 * (rc l A * rc l B))) by apply rsum_scal.
        rewrite <- !rsum_scal_r, <- !rsum_plus. apply rsum_ext. intros l Hl. rewrite rc_on_ellipse by lia. ring.
      - rewrite HA, HB, HAB. pose proof (sin2_cos2 phi) as S. unfold Rsqr in S.
        replace (rho * rho) with (rho * rho * (sin phi * sin phi + cos phi * cos phi)) at 3 by (rewrite S; ring). ring.
    Qed.
  End Circular.

  (** ** [try_arc] *)
  Lemma half_axis_eq v r : vscale (vnormalize v) r = half_axis v r.
  Proof.
    unfold half_axis, vnormalize. rewrite vnorm_dot. unfold vscale, vdivs. rewrite map_map. reflexivity.
  Qed.
  Lemma half_axis_length v r : length (half_axis v r) = length v.
  Proof. apply map_length. Qed.
  Lemma half_axis_dot v w r : length v = length w -> 0 < dot v v -> 0 < dot w w ->
    dot (half_axis v r) (half_axis w r) = r * r * dot v w / (sqrt (dot v v) * sqrt (dot w w)).
  Proof.
    intros L Hv Hw. apply dot_pos_sqrt in Hv, Hw.
    assert (E : forall a, half_axis a r = map (fun z => z * (/ sqrt (dot a a) * r)) a).
    { intros a. apply map_ext. intros z. unfold Rdiv. ring. }
    rewrite !E, dot_scaled by exact L. field. lra.
  Qed.
  Lemma half_axis_self v r : 0 < dot v v -> dot (half_axis v r) (half_axis v r) = r * r.
  Proof. intros Hv. rewrite half_axis_dot by auto. rewrite sqrt_sqrt by lra. field. lra. Qed.

  Definition axes_ok (D : nat) (C X Y : list R) : Prop :=
    (1 <= D)%nat /\ length C = (D - 1)%nat /\ length X = (D - 1)%nat /\ length Y = (D - 1)%nat /\ 0 < dot X X /\ 0 < dot Y Y.

  (** on a circle of radius [r] *)
  Definition on_circle (c : Curve R) (C : list R) (r : R) : Prop :=
    forall u, dom0 c <= u <= dom1 c -> exists p, point_at c u = Ok p /\ rdist p C = Rabs r.

  Lemma arc_gen D C X Y r start fin :
    axes_ok D C X Y -> dot X Y = 0 -> r <> 0 -> start < fin -> 0 < eps ->
    let dtheta := (fin - start) / INR (arc_count (fin - start)) in
    (eps <= sin dtheta * sin dtheta -> exists c, try_arc D C X Y r start fin = Ok c /\
       traces c D C (half_axis X r) (half_axis Y r) start fin /\ on_circle c C r) /\
    (sin dtheta * sin dtheta < eps -> errs (try_arc D C X Y r start fin)).
  Proof.
    intros (HD & LC & LX & LY & PX & PY) HXY Hr Hse He dtheta. unfold try_arc. rewrite !half_axis_eq.
    assert (R0 : 0 < Rabs r) by (now apply Rabs_pos_lt).
    assert (RR : Rabs r * Rabs r = r * r) by (rewrite <- Rabs_mult; apply Rabs_right; nra).
    assert (LA := half_axis_length X r). assert (LB := half_axis_length Y r). rewrite LX in LA. rewrite LY in LB.
    assert (HA : dot (half_axis X r) (half_axis X r) = Rabs r * Rabs r) by (rewrite RR; now apply half_axis_self).
    assert (HB : dot (half_axis Y r) (half_axis Y r) = Rabs r * Rabs r) by (rewrite RR; now apply half_axis_self).
    assert (HAB : dot (half_axis X r) (half_axis Y r) = 0).
    { rewrite half_axis_dot by (congruence || assumption). rewrite HXY. unfold Rdiv. ring. }
    split; intros Hs.
    - destruct (circular_traces D C _ _ (Rabs r) start fin HD LC LA LB R0 HA HB HAB Hse He Hs) as (c & E & T).
      exists c. split; [exact E|]. split; [exact T|]. destruct T as (_ & _ & D0 & D1 & T & _).
      intros u Hu. rewrite D0, D1 in Hu. destruct (T u Hu) as (phi & Ep & _). eexists. split; [exact Ep|].
      now apply (circular_dist D C _ _ (Rabs r) start fin).
    - now apply (circular_fails D C _ _ (Rabs r) start fin).
  Qed.

  (** number of pieces and their angle *)
  Lemma arc_count_val theta n : INR n * (PI / 2) <= theta < INR (S n) * (PI / 2) -> arc_count theta = Nat.min (Nat.max n 1) 4.
  Proof.
    intros H. unfold arc_count. cbn [sfloor TrigR shalf_pi]. rs. pose proof PI_RGT_0 as Hp.
    set (q := theta / (PI / 2)). assert (Et : theta = q * (PI / 2)) by (unfold q; field; lra).
    assert (Hq : INR n <= q < INR (S n)) by (rewrite Et in H; split; apply (Rmult_le_reg_r (PI / 2)) || apply (Rmult_lt_reg_r (PI / 2)); lra).
    pose proof (pos_INR n). destruct (Rlt_dec q 0); [lra|].
    replace (Int_part q) with (Z.of_nat n); [now rewrite Nat2Z.id|].
    rewrite S_INR in Hq. rewrite INR_IZR_INZ in Hq. unfold Int_part. rewrite <- (tech_up q (Z.of_nat n + 1)) by (rewrite plus_IZR; lra). lia.
  Qed.

  Lemma sin2_ge_half t : PI / 2 <= t <= 3 * PI / 4 -> 1 / 2 <= sin t * sin t.
  Proof.
    intros H. pose proof PI_RGT_0. assert (S : 1 / sqrt 2 <= sin t).
    { rewrite <- sin_PI4. replace (sin t) with (sin (PI - t)) by (rewrite sin_minus, sin_PI, cos_PI; ring).
      apply sin_incr_1; lra. }
    assert (0 < 1 / sqrt 2) by (apply Rmult_lt_0_compat; [lra|apply Rinv_0_lt_compat, sqrt_lt_R0; lra]).
    assert (Q : 1 / sqrt 2 * (1 / sqrt 2) = 1 / 2).
    { assert (QQ : sqrt 2 * sqrt 2 = 2) by (apply sqrt_sqrt; lra). assert (0 < sqrt 2) by (apply sqrt_lt_R0; lra).
      transitivity (1 / (sqrt 2 * sqrt 2)); [field; lra|]. rewrite QQ. reflexivity. }
    nra.
  Qed.

  (** arcs of at most a full turn *)
  Theorem arc_traces D C X Y r start fin :
    axes_ok D C X Y -> dot X Y = 0 -> r <> 0 -> 0 < eps <= 1 / 2 ->
    start < fin <= start + 2 * PI -> (fin - start < PI -> eps <= sin (fin - start) * sin (fin - start)) ->
    exists c, try_arc D C X Y r start fin = Ok c /\
      traces c D C (half_axis X r) (half_axis Y r) start fin /\ on_circle c C r.
  Proof.
    intros HX HXY Hr He Hse Hs. apply (arc_gen D C X Y r start fin); try assumption; try lra.
    set (theta := fin - start) in *. pose proof PI_RGT_0 as Hp.
    assert (Ht : 0 < theta <= 2 * PI) by (unfold theta; lra).
    destruct (Rlt_dec theta PI) as [L|L].
    - assert (E : arc_count theta = 1%nat).
      { destruct (Rlt_dec theta (PI / 2)) as [L2|L2]; [rewrite (arc_count_val theta 0)|rewrite (arc_count_val theta 1)]; try reflexivity; cbn; lra. }
      rewrite E. cbn [INR]. replace (theta / 1) with theta by field. auto.
    - assert (G : exists n, arc_count theta = n /\ PI / 2 <= theta / INR n <= 3 * PI / 4).
      { destruct (Rlt_dec theta (3 * (PI / 2))) as [L2|L2].
        - exists 2%nat. split; [rewrite (arc_count_val theta 2); [reflexivity|cbn; lra]|cbn; lra].
        - destruct (Rlt_dec theta (2 * PI)) as [L3|L3].
          + exists 3%nat. split; [rewrite (arc_count_val theta 3); [reflexivity|cbn; lra]|cbn; lra].
          + exists 4%nat. split; [rewrite (arc_count_val theta 4); [reflexivity|cbn; lra]|cbn; lra]. }
      destruct G as (n & -> & G). pose proof (sin2_ge_half _ G). lra.
  Qed.

  Theorem circle_traces D C X Y r :
    axes_ok D C X Y -> dot X Y = 0 -> r <> 0 -> 0 < eps <= 1 / 2 ->
    exists c, try_circle D C X Y r = Ok c /\
      traces c D C (half_axis X r) (half_axis Y r) 0 (2 * PI) /\ on_circle c C r.
  Proof.
    intros HX HXY Hr He. pose proof PI_RGT_0. apply (arc_traces D C X Y r 0 (2 * PI)); try assumption; lra.
  Qed.

  (** angles in the wrong order are refused, whatever the axes *)
  Theorem arc_angle_order D C X Y start fin : fin <= start ->
    errs (try_ellipse_arc D C X Y start fin) /\ forall r, errs (try_arc D C X Y r start fin).
  Proof.
    intros H. assert (E : forall A B, errs (try_ellipse_arc D C A B start fin)).
    { intros A B. unfold try_ellipse_arc. rs. destruct (Rltb_spec start fin); [lra|]. cbn. eexists. reflexivity. }
    split; [apply E|intros; apply E].
  Qed.

  (** ** Full ellipses *)
  Theorem ellipse_traces D C X Y :
    axes_ok D C X Y -> 0 < eps <= 1 / 2 -> dot X Y * dot X Y <= (1 - eps) * (dot X X * dot Y Y) ->
    exists c, try_ellipse D C X Y = Ok c /\ traces c D C X Y 0 (2 * PI).
  Proof.
    intros (HD & LC & LX & LY & PX & PY) He Hg. pose proof PI_RGT_0 as Hp. pose proof PI2_1 as Hp1.
    assert (Em : arc_count (2 * PI - 0) = 4%nat) by apply arc_count_circle.
    unfold try_ellipse. change szero with 0. change stau with (2 * PI).
    assert (Ed : (2 * PI - 0) / INR (arc_count (2 * PI - 0)) = PI / 2) by (rewrite Em; cbn; field).
    apply built_traces; try assumption; try lra; rewrite ?Ed.
    - replace (PI / 2 / 2) with (PI / 4) by field. pose proof (cos_gt_0 (PI / 4) ltac:(lra) ltac:(lra)). lra.
    - rewrite Em. intros i Hi.
      assert (G : 0 < eps <= 1 - dot (vnormalize X) (vnormalize Y) * dot (vnormalize X) (vnormalize Y)).
      { split; [lra|]. rewrite unit_dot by (congruence || assumption).
        pose proof (dot_pos_sqrt X PX) as SX. pose proof (dot_pos_sqrt Y PY) as SY.
        assert (QX : sqrt (dot X X) * sqrt (dot X X) = dot X X) by (apply sqrt_sqrt; lra).
        assert (QY : sqrt (dot Y Y) * sqrt (dot Y Y) = dot Y Y) by (apply sqrt_sqrt; lra).
        assert (PP : 0 < dot X X * dot Y Y) by nra.
        assert (EE : dot X Y / (sqrt (dot X X) * sqrt (dot Y Y)) * (dot X Y / (sqrt (dot X X) * sqrt (dot Y Y))) =
                     dot X Y * dot X Y / (dot X X * dot Y Y)).
        { transitivity (dot X Y * dot X Y / ((sqrt (dot X X) * sqrt (dot X X)) * (sqrt (dot Y Y) * sqrt (dot Y Y)))); [field; lra|].
          rewrite QX, QY. reflexivity. }
        rewrite EE. enough (dot X Y * dot X Y / (dot X X * dot Y Y) <= 1 - eps) by lra.
        apply (Rmult_le_reg_r (dot X X * dot Y Y)); [exact PP|]. unfold Rdiv. rewrite Rmult_assoc, Rinv_l by lra. lra. }
      assert (Z : cos (0 + INR i * (PI / 2)) * sin (0 + INR i * (PI / 2)) = 0).
      { rewrite Rplus_0_l. destruct i as [|[|[|[|i]]]]; try lia; cbn [INR].
        - rewrite Rmult_0_l, sin_0. ring.
        - rewrite Rmult_1_l, cos_PI2. ring.
        - replace ((1 + 1) * (PI / 2)) with PI by field. rewrite sin_PI. ring.
        - replace ((1 + 1 + 1) * (PI / 2)) with (3 * (PI / 2)) by field. rewrite cos_3PI2. ring. }
      pose proof (proj2 (quarter_step eps maxv (D - 1) C (vnormalize X) (vnormalize Y) (vnorm X) (vnorm Y) _ LC
        (vdivs_length X _ (D - 1) LX) (vdivs_length Y _ (D - 1) LY) (unit_norm X PX) (unit_norm Y PY) Z) G) as Q.
      rewrite (scale_unit X PX), (scale_unit Y PY) in Q. exact Q.
  Qed.
End Real.
