(** * Arc length: the quadrature, the bisection, searching and dividing by length *)
From Coq Require Import Reals Lra Lia Psatz Sorted ZArith.
From Verif Require Import Base BaseFacts Scalar RSum BSplineSpec BSpline BSplineDeriv KnotModel KnotSpec KnotFacts
  VecFacts CurveModel CurveKnotModel CurveSpec CurveProofs CurveGeom CurveGeom2 KnotMisc CurveShapes
  Boehm Refine SplitModel SplitProofs Decompose CurveDeriv BBoxModel BBoxProofs TraversalProofs LengthModel.
Open Scope R_scope.

(** sum over a quadrature rule *)
Fixpoint wsum (rule : list (R * R)) (g : R -> R) : R :=
  match rule with [] => 0 | xw :: rule => g (fst xw) * snd xw + wsum rule g end.

(** the quadrature of [f] over [a, t] *)
Definition quad (rule : list (R * R)) (f : R -> R) (a t : R) : R :=
  (t - a) / 2 * wsum rule (fun x => f (((t - a) * x + (t + a)) / 2)).

(** nodes in [-1, 1], weights not negative *)
Definition rule_ok (rule : list (R * R)) : Prop :=
  Forall (fun xw => -1 <= fst xw <= 1 /\ 0 <= snd xw) rule.

Lemma wsum_ext rule f g : (forall xw, In xw rule -> f (fst xw) = g (fst xw)) -> wsum rule f = wsum rule g.
Proof.
  induction rule as [|xw rule IH]; cbn; intros H; [reflexivity|]. rewrite H, IH; auto.
Qed.

Lemma wsum_nonneg rule f : rule_ok rule -> (forall x, -1 <= x <= 1 -> 0 <= f x) -> 0 <= wsum rule f.
Proof.
  induction 1 as [|xw rule (H1 & H2) _ IH]; cbn; intros Hf; [lra|].
  pose proof (Rmult_le_pos _ _ (Hf _ H1) H2). specialize (IH Hf). lra.
Qed.

Lemma wsum_const rule k : wsum rule (fun _ => k) = k * wsum rule (fun _ => 1).
Proof. induction rule as [|xw rule IH]; cbn; [ring|]. rewrite IH. ring. Qed.

Lemma node_range a t x : a <= t -> -1 <= x <= 1 -> a <= ((t - a) * x + (t + a)) / 2 <= t.
Proof. intros H1 H2. split; nra. Qed.

Lemma quad_nonneg rule f a t : rule_ok rule -> a <= t -> (forall x, a <= x <= t -> 0 <= f x) -> 0 <= quad rule f a t.
Proof.
  intros Hr Ht Hf. unfold quad. apply Rmult_le_pos; [lra|]. apply wsum_nonneg; auto.
  intros x Hx. apply Hf. now apply node_range.
Qed.

Lemma quad_continuous rule f a b : rule_ok rule -> (forall x, a <= x <= b -> continuity_pt f x) ->
  forall u, a <= u <= b -> continuity_pt (quad rule f a) u.
Proof.
  intros Hr Hf u Hu. unfold quad.
  assert (Ca : forall x, continuity_pt (fun t => ((t - a) * x + (t + a)) / 2) u).
  { intros x. apply derivable_continuous_pt. eexists.
    instantiate (1 := (x + 1) / 2). intros e He. exists (mkposreal 1 Rlt_0_1). intros h Hh _.
    replace ((((u + h - a) * x + (u + h + a)) / 2 - ((u - a) * x + (u + a)) / 2) / h - (x + 1) / 2) with 0 by (field; auto).
    now rewrite Rabs_R0. }
  apply (continuity_pt_mult (fun t => (t - a) / 2)
          (fun t => wsum rule (fun x => f (((t - a) * x + (t + a)) / 2))) u).
  - apply derivable_continuous_pt. eexists. instantiate (1 := / 2). intros e He. exists (mkposreal 1 Rlt_0_1). intros h Hh _.
    replace (((u + h - a) / 2 - (u - a) / 2) / h - / 2) with 0 by (field; auto). now rewrite Rabs_R0.
  - induction Hr as [|[x w] rule (H1 & H2) Hr IH]; cbn [wsum fst snd].
    + apply continuity_pt_const. intros s t. reflexivity.
    + apply (continuity_pt_plus (fun t => f (((t - a) * x + (t + a)) / 2) * w)
               (fun t => wsum rule (fun x => f (((t - a) * x + (t + a)) / 2))) u); [|exact IH].
      apply (continuity_pt_mult (fun t => f (((t - a) * x + (t + a)) / 2)) (fun _ => w) u).
      * apply (continuity_pt_comp (fun t => ((t - a) * x + (t + a)) / 2) f u); [apply Ca|].
        apply Hf. pose proof (node_range a u x ltac:(lra) H1). lra.
      * apply continuity_pt_const. intros s t. reflexivity.
Qed.

(** uniform continuity on a segment *)
Lemma uniform_delta f a b e : (forall x, a <= x <= b -> continuity_pt f x) -> 0 < e ->
  exists d, 0 < d /\ forall u v, a <= u <= b -> a <= v <= b -> Rabs (u - v) < d -> Rabs (f u - f v) < e.
Proof.
  intros Hf He. destruct (Heine f (fun c => a <= c <= b) (compact_P3 a b) Hf (mkposreal e He)) as (d & Hd).
  exists d. split; [apply cond_pos|]. intros u v Hu Hv Huv. now apply (Hd u v).
Qed.

Section Real.
  Variables eps maxv : R.
  Local Hint Extern 0 (Scalar R) => exact (ROps eps maxv) : typeclass_instances.

  (** a single Bezier segment with positive weights *)
  Record bezier_seg (s : Curve R) : Prop := {
    bg_ok : curve_ok s; bg_eps : curve_eps eps s; bg_pos : pos_weights s; bg_len : length (cpts s) = S (cdeg s)
  }.

  (** the length of the derivative of the curve *)
  Definition speed (s : Curve R) (x : R) : R :=
    sqrt (rsum (cdim s - 1) (fun i => ratd s (cdeg s) i 1 x * ratd s (cdeg s) i 1 x)).

  Lemma seg_clast s : bezier_seg s -> clast s = cdeg s.
  Proof. intros H. unfold clast. rewrite (bg_len s H). lia. Qed.

  Lemma seg_span s u : bezier_seg s -> dom0 s <= u <= dom1 s -> in_span (cknots s) (clast s) (cdeg s) u.
  Proof.
    intros H Hu. pose proof (seg_clast s H) as Hc. unfold dom0, dom1 in Hu. rewrite (bg_len s H) in Hu.
    pose proof (ko_first _ _ _ (co_knots _ (bg_ok s H))) as K. rewrite Nat.add_1_r in K.
    unfold in_span. rewrite Hc. repeat split; try lra.
    destruct (Rle_lt_dec (kf (cknots s) (S (cdeg s))) u); [right|left]; auto. split; [reflexivity|lra].
  Qed.

  Lemma seg_dom s : bezier_seg s -> kf (cknots s) (cdeg s) = dom0 s /\ kf (cknots s) (S (cdeg s)) = dom1 s /\ dom0 s < dom1 s.
  Proof.
    intros H. unfold dom0, dom1. rewrite (bg_len s H). repeat split.
    pose proof (ko_first _ _ _ (co_knots _ (bg_ok s H))) as K. now rewrite Nat.add_1_r in K.
  Qed.

  (** [speed] is the norm of the tangent *)
  Lemma seg_tangent s u : bezier_seg s -> dom0 s <= u <= dom1 s ->
    exists d v, rational_derivatives s u 1 = Ok d /\ get d 1 = Ok v /\ vnorm v = speed s u.
  Proof.
    intros H Hu. pose proof (seg_clast s H) as Hc. destruct (seg_dom s H) as (D0 & D1 & Dl).
    destruct (rational_derivatives_all eps maxv s (cdeg s)) as (_ & V); try apply H; try lia; try lra.
    destruct (V u 1%nat (seg_span s u H Hu)) as (d & E & L & Vm). destruct (Vm 1%nat ltac:(lia)) as (L1 & V1).
    exists d, (nth 1 d []). split; [exact E|]. split; [apply get_ok; lia|].
    unfold vnorm, vnorm2, speed. rewrite vdot_rsum by reflexivity. rewrite L1. rs. f_equal.
    apply rsum_ext. intros i Hi. rewrite V1 by auto. reflexivity.
  Qed.

  Lemma speed_continuous s x : bezier_seg s -> dom0 s <= x <= dom1 s -> continuity_pt (speed s) x.
  Proof.
    intros H Hx. pose proof (seg_clast s H) as Hc. destruct (seg_dom s H) as (D0 & D1 & Dl).
    destruct (rational_derivatives_all eps maxv s (cdeg s)) as (V & _); try apply H; try lia; try lra.
    unfold speed.
    apply (continuity_pt_comp (fun x => rsum (cdim s - 1) (fun i => ratd s (cdeg s) i 1 x * ratd s (cdeg s) i 1 x)) sqrt x).
    - rewrite D0, D1 in V. revert V. generalize (cdim s - 1)%nat as n. induction n as [|n IH]; intros V; cbn [rsum].
      + apply continuity_pt_const. intros s' t. reflexivity.
      + apply (continuity_pt_plus (fun x => rsum n (fun i => ratd s (cdeg s) i 1 x * ratd s (cdeg s) i 1 x))
                 (fun x => ratd s (cdeg s) n 1 x * ratd s (cdeg s) n 1 x) x).
        * apply IH. intros i Hi. apply V. lia.
        * assert (C : continuity_pt (ratd s (cdeg s) n 1) x).
          { apply derivable_continuous_pt. exists (ratd s (cdeg s) n 2 x). apply (V n); [lia|exact Hx]. }
          apply (continuity_pt_mult (ratd s (cdeg s) n 1) (ratd s (cdeg s) n 1) x); exact C.
    - apply continuity_pt_sqrt. clear. induction (cdim s - 1)%nat as [|n IH]; cbn [rsum]; [lra|]. nra.
  Qed.

  Lemma speed_nonneg s x : 0 <= speed s x.
  Proof. apply sqrt_pos. Qed.

  (** the measured length *)
  Definition mlen (rule : list (R * R)) (s : Curve R) (u : R) : R :=
    if Rlt_dec (dom0 s + eps) u then quad rule (speed s) (dom0 s) (Rmin (dom1 s) u) else 0.

  Lemma integrate_ok rule a b f g : (forall xw, In xw rule -> f (((b - a) * fst xw + (b + a)) / 2) = Ok (g (((b - a) * fst xw + (b + a)) / 2))) ->
    integrate rule a b f = Ok (quad rule g a b).
  Proof.
    intros H. unfold integrate.
    set (step := fun (acc : R) (xw : R * R) => _).
    assert (G : forall l acc, (forall xw, In xw l -> In xw rule) ->
              foldM step l acc = Ok (acc + wsum l (fun x => g (((b - a) * x + (b + a)) / 2)))).
    { induction l as [|xw l IH]; intros acc Hl; cbn [foldM wsum].
      - now rewrite Rplus_0_r.
      - assert (E : step acc xw = Ok (acc + g (((b - a) * fst xw + (b + a)) / 2) * snd xw)).
        { unfold step. rs. change (sofnat 2) with 2.
          replace (1 / 2 * ((b - a) * fst xw + (b + a))) with (((b - a) * fst xw + (b + a)) / 2) by field.
          rewrite H by (apply Hl; now left). cbn [bind]. reflexivity. }
        rewrite E. cbn [bind]. rewrite IH by (intros; apply Hl; now right).
        f_equal. ring. }
    rewrite G by auto. cbn [bind]. f_equal. rs. change (sofnat 2) with 2. unfold quad. field.
  Qed.

  (** *** What is computed: the quadrature of the speed *)
  Theorem seg_length_value rule s u : bezier_seg s -> rule_ok rule -> seg_length rule s u = Ok (mlen rule s u).
  Proof.
    intros H Hr. destruct (seg_dom s H) as (_ & _ & Dl). unfold seg_length, mlen. rewrite knots_domain_ok by apply H. cbn [bind]. rs.
    assert (He : 0 < eps) by apply (bg_eps s H).
    destruct (Rltb_spec (dom0 s + eps) u) as [C|C]; destruct (Rlt_dec (dom0 s + eps) u) as [C'|C']; try lra; [|reflexivity].
    rewrite smin_R. apply integrate_ok. intros xw Hx. unfold rule_ok in Hr. rewrite Forall_forall in Hr. destruct (Hr xw Hx) as (Hx1 & _).
    pose proof (Rmin_l (dom1 s) u). pose proof (Rmin_r (dom1 s) u).
    assert (dom0 s <= Rmin (dom1 s) u) by (apply Rmin_glb; lra).
    pose proof (node_range (dom0 s) (Rmin (dom1 s) u) (fst xw) ltac:(lra) Hx1) as Hn.
    destruct (seg_tangent s _ H ltac:(split; [apply Hn|lra]) : exists d v, rational_derivatives s (((Rmin (dom1 s) u - dom0 s) * fst xw + (Rmin (dom1 s) u + dom0 s)) / 2) 1 = Ok d /\ get d 1 = Ok v /\ vnorm v = speed s (((Rmin (dom1 s) u - dom0 s) * fst xw + (Rmin (dom1 s) u + dom0 s)) / 2)) as (d & v & E1 & E2 & E3).
    rewrite E1. cbn [bind]. rewrite E2. cbn [bind]. now rewrite E3.
  Qed.

  Lemma mlen_start rule s : 0 < eps -> mlen rule s (dom0 s) = 0.
  Proof. intros He. unfold mlen. destruct (Rlt_dec _ _); [lra|reflexivity]. Qed.

  Lemma mlen_nonneg rule s u : bezier_seg s -> rule_ok rule -> 0 <= mlen rule s u.
  Proof.
    intros H Hr. unfold mlen. destruct (Rlt_dec _ _) as [C|C]; [|lra]. destruct (seg_dom s H) as (_ & _ & Dl).
    assert (He : 0 < eps) by apply (bg_eps s H).
    apply quad_nonneg; [exact Hr| |].
    - apply Rmin_glb; lra.
    - intros x _. apply speed_nonneg.
  Qed.

  (** the measured length of the first [eps] of the segment, below which the code answers 0 *)
  Definition head_length (rule : list (R * R)) (s : Curve R) : R := quad rule (speed s) (dom0 s) (dom0 s + eps).

  Lemma mlen_delta rule s tol : bezier_seg s -> rule_ok rule -> 0 < tol -> head_length rule s < tol ->
    exists d, 0 < d /\ forall u v, dom0 s <= u <= dom1 s -> dom0 s <= v <= dom1 s -> Rabs (u - v) < d ->
      Rabs (mlen rule s u - mlen rule s v) <= tol.
  Proof.
    intros H Hr Ht Hh. destruct (seg_dom s H) as (K0 & K1 & Dl). assert (He : 0 < eps) by apply (bg_eps s H).
    assert (Hee : dom0 s + eps <= dom1 s).
    { pose proof (bg_eps s H) as E. unfold curve_eps, eps_ok in E. rewrite (seg_clast s H), K0 in E.
      replace (cdeg s + 1)%nat with (S (cdeg s)) in E by lia. rewrite K1 in E. lra. }
    pose proof (quad_continuous rule (speed s) (dom0 s) (dom1 s) Hr (fun x Hx => speed_continuous s x H Hx)) as Cq.
    destruct (uniform_delta _ (dom0 s) (dom1 s) (tol - head_length rule s) Cq) as (d & Hd & Ud); [lra|].
    assert (Hh0 : 0 <= head_length rule s) by (apply quad_nonneg; [auto|lra|intros; apply speed_nonneg]).
    exists d. split; [exact Hd|]. intros u v Hu Hv Huv. unfold mlen.
    assert (G : forall x, dom0 s <= x <= dom1 s -> Rmin (dom1 s) x = x) by (intros; apply Rmin_right; lra).
    rewrite !G by auto.
    destruct (Rlt_dec (dom0 s + eps) u) as [Cu|Cu]; destruct (Rlt_dec (dom0 s + eps) v) as [Cv|Cv].
    - pose proof (Ud u v Hu Hv Huv). lra.
    - assert (Hud : Rabs (u - (dom0 s + eps)) < d).
      { rewrite Rabs_right by lra. rewrite Rabs_right in Huv by lra. lra. }
      pose proof (Ud u (dom0 s + eps) Hu ltac:(lra) Hud) as B. fold (head_length rule s) in B.
      rewrite Rminus_0_r. rewrite Rabs_right.
      + apply Rabs_def2 in B. lra.
      + apply Rle_ge, quad_nonneg; [auto|lra|intros; apply speed_nonneg].
    - assert (Hud : Rabs (v - (dom0 s + eps)) < d).
      { rewrite Rabs_right by lra. rewrite Rabs_left1 in Huv by lra. lra. }
      pose proof (Ud v (dom0 s + eps) Hv ltac:(lra) Hud) as B. fold (head_length rule s) in B.
      rewrite Rabs_left1.
      + apply Rabs_def2 in B. lra.
      + assert (0 <= quad rule (speed s) (dom0 s) v); [|lra]. apply quad_nonneg; [auto|lra|intros; apply speed_nonneg].
    - rewrite Rminus_diag_eq by reflexivity. rewrite Rabs_R0. lra.
  Qed.

  (** ** The bisection *)
  Definition bstep (rule : list (R * R)) (s : Curve R) (len : R) (st : (R * R) * (R * R)) : Res ((R * R) * (R * R)) :=
    let '((a, la), (b, lb)) := st in
    let m := ((a + b) * (sone / sofnat 2))%S in
    lm <- seg_length rule s m ;;
    if sltb len lm then Ok ((a, la), (m, lm)) else Ok ((m, lm), (b, lb)).
  Definition bcond (tol : R) (st : (R * R) * (R * R)) : Res bool :=
    let '((_, la), (_, lb)) := st in Ok (sltb tol (lb - la)%S).

  (** where the answer [p] to a search for [len] lies: between two parameters whose measured lengths enclose [len] *)
  Definition bracket (rule : list (R * R)) (s : Curve R) (len tol p : R) : Prop :=
    exists a b la lb, dom0 s <= a <= b /\ b <= dom1 s /\ p = (a + b) / 2 /\
      seg_length rule s a = Ok la /\ seg_length rule s b = Ok lb /\ la <= len < lb /\ lb - la <= tol.

  Lemma bisect_loop rule s len tol d n : bezier_seg s -> rule_ok rule ->
    (forall u v, dom0 s <= u <= dom1 s -> dom0 s <= v <= dom1 s -> Rabs (u - v) < d ->
      Rabs (mlen rule s u - mlen rule s v) <= tol) ->
    forall a b fuel, dom0 s <= a <= b -> b <= dom1 s -> mlen rule s a <= len < mlen rule s b ->
      b - a < d * 2 ^ n -> (n < fuel)%nat ->
      exists a' b', while_ fuel (bcond tol) (bstep rule s len) ((a, mlen rule s a), (b, mlen rule s b))
          = Ok ((a', mlen rule s a'), (b', mlen rule s b')) /\
        dom0 s <= a' <= b' /\ b' <= dom1 s /\ mlen rule s a' <= len < mlen rule s b' /\
        mlen rule s b' - mlen rule s a' <= tol.
  Proof.
    intros H Hr Hd. induction n as [|n IH]; intros a b fuel Hab Hb Hl Hn Hf; (destruct fuel as [|fuel]; [lia|]);
      unfold while_; cbn [loop_]; unfold bcond at 1; cbn [bind]; rs;
      (destruct (Rltb_spec tol (mlen rule s b - mlen rule s a)) as [C|C];
       [|cbn [bind]; exists a, b; split; [reflexivity|]; repeat split; lra]).
    - exfalso. cbn [pow] in Hn. specialize (Hd b a ltac:(lra) ltac:(lra)).
      rewrite Rabs_right in Hd by lra. specialize (Hd ltac:(lra)). rewrite Rabs_right in Hd by lra. lra.
    - unfold bstep at 1. cbn zeta. rewrite seg_length_value by auto. cbn [bind]. rs. change (sofnat 2) with 2.
      replace ((a + b) * (1 / 2)) with ((a + b) / 2) by field. set (m := (a + b) / 2) in *.
      assert (Hm : a <= m <= b) by (unfold m; lra). cbn [pow] in Hn.
      destruct (Rltb_spec len (mlen rule s m)) as [C'|C']; cbn [bind].
      + apply (IH a m fuel); try lra; [unfold m in *; lra|lia].
      + apply (IH m b fuel); try lra; [unfold m in *; lra|lia].
  Qed.

  Theorem seg_parameter_terminates rule s tol : bezier_seg s -> rule_ok rule -> 0 < tol -> head_length rule s < tol ->
    exists fuel0, forall fuel, (fuel0 <= fuel)%nat -> forall len total, seg_length rule s (dom1 s) = Ok total ->
      exists p, seg_parameter fuel rule s len tol total = Ok p.
  Proof.
    intros H Hr Ht Hh. destruct (seg_dom s H) as (K0 & K1 & Dl). assert (He : 0 < eps) by apply (bg_eps s H).
    destruct (mlen_delta rule s tol H Hr Ht Hh) as (d & Hd & Ud).
    destruct (Pow_x_infinity 2) with (b := (dom1 s - dom0 s) / d + 1) as (N & HN).
    { rewrite Rabs_right; lra. }
    exists (S N). intros fuel Hf len total Etot. unfold seg_parameter. rewrite knots_domain_ok by apply H. cbn [bind]. rs.
    destruct (Rleb_spec len 0) as [C|C]; [eauto|]. destruct (Rleb_spec total len) as [C'|C']; [eauto|].
    rewrite seg_length_value in Etot by auto. injection Etot as Etot.
    destruct (bisect_loop rule s len tol d N H Hr Ud (dom0 s) (dom1 s) fuel) as (a & b & E & _); try lra.
    { rewrite mlen_start by auto. lra. }
    { specialize (HN N ltac:(lia)). rewrite Rabs_right in HN by (apply Rle_ge, pow_le; lra).
      apply Rmult_lt_reg_r with (/ d); [now apply Rinv_0_lt_compat|].
      replace (d * 2 ^ N * / d) with (2 ^ N) by (field; lra). unfold Rdiv in HN. lra. }
    { lia. }
    rewrite mlen_start in E by auto. rewrite Etot in E.
    unfold bcond, bstep in E. rs. rewrite E. cbn [bind]. eauto.
  Qed.

  Lemma seg_length_start rule s : curve_ok s -> 0 < eps -> seg_length rule s (dom0 s) = Ok 0.
  Proof.
    intros H He. unfold seg_length. rewrite knots_domain_ok by auto. cbn [bind]. rs.
    destruct (Rltb_spec (dom0 s + eps) (dom0 s)); [lra|reflexivity].
  Qed.

  (** *** C34: whatever the measured lengths are, an answer lies in the segment and is bracketed *)
  Theorem seg_parameter_bracket fuel rule s len tol total p : bezier_seg s ->
    seg_length rule s (dom1 s) = Ok total -> seg_parameter fuel rule s len tol total = Ok p ->
    dom0 s <= p <= dom1 s /\ (len <= 0 -> p = dom0 s) /\ (0 < len -> total <= len -> p = dom1 s) /\
    (0 < len < total -> bracket rule s len tol p).
  Proof.
    intros H Et E. destruct (seg_dom s H) as (_ & _ & Dl). assert (He : 0 < eps) by apply (bg_eps s H).
    unfold seg_parameter in E. rewrite knots_domain_ok in E by apply H. cbn [bind] in E. rs.
    destruct (Rleb_spec len 0) as [C|C].
    { injection E as <-. repeat split; intros; lra. }
    destruct (Rleb_spec total len) as [C'|C'].
    { injection E as <-. repeat split; intros; lra. }
    match type of E with context [while_ fuel ?cnd ?bdy ?st] => set (cond := cnd) in E; set (body := bdy) in E end.
    apply bind_ok in E. destruct E as ([[a la] [b lb]] & E & Ep). injection Ep as <-. change (sofnat 2) with 2 in *.
    assert (G : dom0 s <= a <= b /\ b <= dom1 s /\ seg_length rule s a = Ok la /\ seg_length rule s b = Ok lb /\
                la <= len < lb /\ lb - la <= tol).
    { pose proof (loop_partial (fun st : (R * R) * (R * R) => let '((a, la), (b, lb)) := st in
          dom0 s <= a <= b /\ b <= dom1 s /\ seg_length rule s a = Ok la /\ seg_length rule s b = Ok lb /\ la <= len < lb)
        (fun st : (R * R) * (R * R) => let '((a, la), (b, lb)) := st in
          dom0 s <= a <= b /\ b <= dom1 s /\ seg_length rule s a = Ok la /\ seg_length rule s b = Ok lb /\
          la <= len < lb /\ lb - la <= tol) fuel) as L. unfold while_ in E.
      eapply (L _ ((dom0 s, 0), (dom1 s, total)) ((a, la), (b, lb))); [| | |exact E].
      - repeat split; try lra; [now apply seg_length_start; [apply H|]|exact Et].
      - intros [[x lx] [y ly]] st' (I1 & I2 & I3 & I4 & I5) Es. unfold cond at 1 in Es. cbn [bind] in Es.
        destruct (Rltb_spec tol (ly - lx)) as [D|D]; [|discriminate].
        unfold body at 1 in Es. apply bind_ok in Es. destruct Es as (st'' & Es & Es'). injection Es' as <-.
        apply bind_ok in Es. destruct Es as (lm & Em & Es).
        assert (Hm : x <= (x + y) * (1 / 2) <= y) by lra.
        destruct (Rltb_spec len lm) as [D'|D']; injection Es as <-; repeat split; auto; lra.
      - intros [[x lx] [y ly]] st' (I1 & I2 & I3 & I4 & I5) Es. unfold cond at 1 in Es. cbn [bind] in Es.
        destruct (Rltb_spec tol (ly - lx)) as [D|D].
        + apply bind_ok in Es. destruct Es as (st'' & Es & Es'). discriminate.
        + injection Es as <-. repeat split; auto; lra. }
    destruct G as (G1 & G2 & G3 & G4 & G5 & G6).
    replace ((a + b) * (1 / 2)) with ((a + b) / 2) by field.
    repeat split; try (intros; lra). intros _. exists a, b, la, lb. auto 10.
  Qed.

  (** if the measured length grows with the parameter, the measured length at the answer is within the tolerance *)
  Theorem seg_parameter_accuracy fuel rule s len tol total p : bezier_seg s -> rule_ok rule ->
    (forall u v, dom0 s <= u <= v -> v <= dom1 s -> mlen rule s u <= mlen rule s v) ->
    0 <= len <= total -> 0 <= tol ->
    seg_length rule s (dom1 s) = Ok total -> seg_parameter fuel rule s len tol total = Ok p ->
    exists l, seg_length rule s p = Ok l /\ Rabs (l - len) <= tol.
  Proof.
    intros H Hr Hm Hl Ht Et E. assert (He : 0 < eps) by apply (bg_eps s H).
    destruct (seg_parameter_bracket fuel rule s len tol total p H Et E) as (B1 & B2 & B3 & B4).
    destruct (Rle_lt_dec len 0) as [C|C].
    { rewrite (B2 C), seg_length_value, mlen_start by auto. exists 0. split; [reflexivity|].
      assert (len = 0) by lra. subst len. rewrite Rminus_0_r, Rabs_R0. exact Ht. }
    destruct (Rle_lt_dec total len) as [C'|C'].
    { rewrite (B3 C C'). exists total. split; [exact Et|]. assert (len = total) by lra. subst len.
      rewrite Rminus_diag_eq by reflexivity. rewrite Rabs_R0. exact Ht. }
    destruct B4 as (a & b & la & lb & A1 & A2 & A3 & A4 & A5 & A6 & A7); [lra|].
    rewrite seg_length_value in A4, A5 by auto. injection A4 as A4. injection A5 as A5.
    rewrite seg_length_value by auto. eexists. split; [reflexivity|].
    pose proof (Hm a p ltac:(lra) ltac:(lra)). pose proof (Hm p b ltac:(lra) ltac:(lra)).
    apply Rabs_le. lra.
  Qed.

  (** a negative tolerance is never reached *)
  Theorem seg_parameter_diverges fuel rule s len tol total : bezier_seg s -> rule_ok rule -> tol < 0 -> 0 < len < total ->
    seg_length rule s (dom1 s) = Ok total -> seg_parameter fuel rule s len tol total = OutOfFuel.
  Proof.
    intros H Hr Ht Hl Et. unfold seg_parameter. rewrite knots_domain_ok by apply H. cbn [bind]. rs.
    destruct (Rleb_spec len 0); [lra|]. destruct (Rleb_spec total len); [lra|].
    match goal with |- context [while_ fuel ?cnd ?bdy ?st] => set (cond := cnd); set (body := bdy) end.
    assert (G : forall fuel a la b lb, la <= len < lb -> while_ fuel cond body ((a, la), (b, lb)) = OutOfFuel).
    { clear fuel. induction fuel as [|fuel IH]; intros a la b lb Hlen; [reflexivity|].
      unfold while_. cbn [loop_]. unfold cond at 1. cbn [bind]. destruct (Rltb_spec tol (lb - la)) as [C|C]; [|lra].
      unfold body at 1. rewrite seg_length_value by auto. cbn [bind].
      destruct (Rltb_spec len (mlen rule s ((a + b) * (1 / sofnat 2)))); cbn [bind]; apply (IH _ _ _ _); lra. }
    rewrite G by lra. reflexivity.
  Qed.

  (** ** Decomposition into segments *)
  Lemma repeat_head (a : R) q r X Y : (forall x, In x X -> a < x) -> (forall x, In x Y -> a < x) ->
    repeat a r ++ X = repeat a q ++ Y -> r = q /\ X = Y.
  Proof.
    revert q. induction r as [|r IH]; intros q HX HY E.
    - destruct q as [|q]; [auto|]. cbn in E. assert (In a X) by (rewrite E; now left). specialize (HX a H). lra.
    - destruct q as [|q].
      + cbn in E. assert (In a Y) by (rewrite <- E; now left). specialize (HY a H). lra.
      + cbn in E. injection E as E. destruct (IH q HX HY E). subst. auto.
  Qed.

  Lemma runs_head a q rest m : (1 <= q)%nat -> (forall x, In x rest -> a < x) ->
    expand m = repeat a q ++ rest -> StronglySorted Rlt (run_keys m) -> Forall (fun e => (1 <= snd e)%nat) m ->
    exists m', m = (a, q) :: m' /\ expand m' = rest /\ StronglySorted Rlt (run_keys m') /\ Forall (fun e => (1 <= snd e)%nat) m'.
  Proof.
    intros Hq Hr E HS Hp. destruct m as [|[v r] m'].
    { destruct q; [lia|discriminate]. }
    unfold run_keys in HS. cbn [map fst] in HS. inversion HS as [|? ? S1 S2]; subst. inversion Hp as [|? ? P1 P2]; subst. cbn [snd] in P1.
    assert (Ex : expand ((v, r) :: m') = repeat v r ++ expand m') by reflexivity. rewrite Ex in E.
    assert (v = a).
    { destruct r; [lia|]. destruct q; [lia|]. cbn in E. now injection E. }
    subst v. rewrite Forall_forall in S2.
    destruct (repeat_head a q r (expand m') rest) as (-> & E'); auto.
    { intros x Hx. apply S2. now apply in_expand. }
    exists m'. auto.
  Qed.

  (** a single clamped segment is its own decomposition *)
  Lemma decompose_single s a b : bezier_seg s -> cknots s = repeat a (cdeg s + 1) ++ repeat b (cdeg s + 1) -> a + eps < b ->
    multiplicity (cknots s) = Ok [(a, cdeg s + 1); (b, cdeg s + 1)]%nat /\ try_decompose_bezier_segments s = Ok [s].
  Proof.
    intros H Ek Hab. assert (He : 0 < eps) by apply (bg_eps s H). set (q := (cdeg s + 1)%nat) in *.
    pose proof (ko_sorted _ _ _ (co_knots _ (bg_ok s H))) as Ks.
    assert (Hsep : separated eps (cknots s)).
    { intros x y Hx Hy. rewrite Ek in Hx, Hy. apply in_app_or in Hx, Hy.
      destruct Hx as [Hx|Hx]; destruct Hy as [Hy|Hy]; apply repeat_spec in Hx, Hy; subst; auto; right;
        [rewrite Rabs_left1 by lra|rewrite Rabs_right by lra]; lra. }
    destruct (@multiplicity_total R (ROps eps maxv) (cknots s)) as (m & Em & _).
    { rewrite Ek. unfold q. rewrite Nat.add_1_r. discriminate. }
    destruct (multiplicity_exact eps maxv (cknots s) m ltac:(lra) Ks Hsep Em) as (X & S & P).
    rewrite Ek in X.
    destruct (runs_head a q (repeat b q) m) as (m1 & -> & X1 & S1 & P1); auto; [unfold q; lia| |].
    { intros x Hx. apply repeat_spec in Hx. subst. lra. }
    destruct (runs_head b q [] m1) as (m2 & -> & X2 & S2 & P2); auto; [unfold q; lia| | |].
    { intros x []. } { now rewrite app_nil_r. }
    assert (m2 = []) as ->.
    { destruct m2 as [|[v r] m2]; [reflexivity|]. inversion P2 as [|? ? P3 _]; subst. cbn [snd] in P3. destruct r; [lia|discriminate]. }
    split; [exact Em|].
    unfold try_decompose_bezier_segments, curve_is_clamped, is_clamped. rewrite Em. cbn [bind head map last snd].
    assert (Q : (cdeg s <? q)%nat = true) by (apply Nat.ltb_lt; unfold q; lia). rewrite Q. cbn [andb bind].
    rewrite Em. cbn [bind foldM snd fst]. fold q. rewrite Nat.ltb_irrefl. cbn [bind].
    assert (L : (length (cknots s) / q)%nat = 2%nat).
    { rewrite Ek, app_length, !repeat_length. replace (q + q)%nat with (2 * q)%nat by lia. apply Nat.div_mul. unfold q; lia. }
    rewrite L. cbn [usub]. replace (usub 2 1) with (Ok 1%nat) by reflexivity. cbn [bind seq mapM].
    rewrite (slice_ok (cknots s)) by (rewrite ?Ek, ?app_length, ?repeat_length; lia). cbn [bind].
    rewrite (slice_ok (cpts s)) by (rewrite ?(bg_len s H); unfold q; lia). cbn [bind length Nat.leb]. reflexivity.
  Qed.

  (** [segs] cuts [c] at the values [vs] *)
  Record cut (c : Curve R) (vs : list R) (segs : list (Curve R)) : Prop := {
    ct_len : S (length segs) = length vs;
    ct_ne : (0 < length segs)%nat;
    ct_first : nth 0 vs 0 = dom0 c;
    ct_last : nth (length segs) vs 0 = dom1 c;
    ct_seg : forall i, (i < length segs)%nat -> bezier_seg (nth i segs c);
    ct_deg : forall i, (i < length segs)%nat -> cdim (nth i segs c) = cdim c /\ cdeg (nth i segs c) = cdeg c;
    ct_knots : forall i, (i < length segs)%nat ->
      cknots (nth i segs c) = repeat (nth i vs 0) (cdeg c + 1) ++ repeat (nth (S i) vs 0) (cdeg c + 1);
    ct_step : forall i, (i < length segs)%nat -> nth i vs 0 + eps < nth (S i) vs 0;
    ct_dom : forall i, (i < length segs)%nat -> dom0 (nth i segs c) = nth i vs 0 /\ dom1 (nth i segs c) = nth (S i) vs 0;
    ct_in : forall x, In x vs <-> In x (cknots c);
    ct_point : forall i u, (i < length segs)%nat -> nth i vs 0 <= u <= nth (S i) vs 0 -> point_at (nth i segs c) u = point_at c u;
    ct_unit : Forall (fun p => rc (cdim c - 1) p = 1) (cpts c) ->
      forall i, (i < length segs)%nat -> Forall (fun p => rc (cdim c - 1) p = 1) (cpts (nth i segs c))
  }.

  (** what the length functions need of a curve *)
  Record length_curve (c : Curve R) : Prop := {
    lc_ok : curve_ok c; lc_eps : curve_eps eps c; lc_cont : curve_cont c; lc_clamped : clamped c;
    lc_sep : separated eps (cknots c); lc_pos : pos_weights c
  }.

  Lemma cut_mono c vs segs : cut c vs segs -> 0 < eps -> forall i j, (i <= j <= length segs)%nat -> nth i vs 0 <= nth j vs 0.
  Proof.
    intros H He i j Hij. induction j as [|j IH]; [replace i with 0%nat by lia; lra|].
    destruct (Nat.eq_dec i (S j)) as [->|]; [lra|]. specialize (IH ltac:(lia)). pose proof (ct_step _ _ _ H j ltac:(lia)). lra.
  Qed.

  Lemma pos_weights_forall c : curve_ok c -> pos_weights c <-> Forall (fun p => 0 < rc (cdim c - 1) p) (cpts c).
  Proof.
    intros Hc. unfold pos_weights, cpc. rewrite Forall_forall. split.
    - intros H p Hp. apply (In_nth _ _ []) in Hp. destruct Hp as (j & Hj & <-). now apply H.
    - intros H j Hj. apply H. now apply nth_In.
  Qed.

  Lemma decompose_cut c : length_curve c ->
    exists vs segs, try_decompose_bezier_segments c = Ok segs /\ cut c vs segs.
  Proof.
    intros [Hc He Hcc Hcl Hsep Hw]. assert (Hp : 0 < eps) by apply He.
    destruct (decompose_spec_full eps maxv c Hc He Hcc Hcl Hsep) as (vs & segs & Es & HS & Hin & Hl & V).
    exists vs, segs. split; [exact Es|].
    pose proof (curve_mono c Hc) as Hm. pose proof (curve_len c Hc) as Hlen. pose proof (co_len c Hc) as Hcl'.
    assert (D0 : In (dom0 c) vs). { apply Hin. unfold dom0. rewrite (kf_nth _ _ 0) by lia. apply nth_In. lia. }
    assert (D1 : In (dom1 c) vs). { apply Hin. unfold dom1. rewrite (kf_nth _ _ 0) by lia. apply nth_In. lia. }
    assert (Dlt : dom0 c < dom1 c).
    { pose proof (ko_first _ _ _ (co_knots _ Hc)) as K. unfold dom0, dom1.
      pose proof (mono_le _ (cdeg c + 1) (length (cpts c)) Hm ltac:(lia)). lra. }
    assert (Lo : forall x, In x vs -> dom0 c <= x).
    { intros x Hx. apply Hin in Hx. destruct Hcl as (<- & _). apply (In_nth _ _ 0) in Hx. destruct Hx as (j & Hj & <-).
      rewrite <- (kf_nth _ j 0) by lia. apply mono_le; auto. lia. }
    assert (Hi : forall x, In x vs -> x <= dom1 c).
    { intros x Hx. apply Hin in Hx. destruct Hcl as (_ & <-). apply (In_nth _ _ 0) in Hx. destruct Hx as (j & Hj & <-).
      rewrite <- (kf_nth _ j 0) by lia. apply mono_le; auto. lia. }
    assert (Mono : forall l : list R, StronglySorted Rlt l -> forall i j, (i < j < length l)%nat -> nth i l 0 < nth j l 0).
    { intros l Hl0. induction Hl0 as [|x l Hl0 IH F]; intros i j Hij; cbn [length] in Hij; [lia|].
      rewrite Forall_forall in F. destruct j as [|j]; [lia|]. destruct i as [|i]; cbn [nth].
      - apply F. apply nth_In. lia.
      - apply IH. lia. }
    assert (Ne : (0 < length segs)%nat).
    { destruct segs; [|cbn; lia]. exfalso. cbn in Hl. destruct vs as [|x [|]]; cbn in Hl; try lia.
      destruct D0 as [->|[]], D1 as [E|[]]. lra. }
    assert (F0 : nth 0 vs 0 = dom0 c).
    { apply Rle_antisym; [|apply Lo, nth_In; lia]. apply (In_nth _ _ 0) in D0. destruct D0 as (j & Hj & <-).
      destruct (Nat.eq_dec j 0) as [->|]; [lra|]. left. apply Mono; auto. lia. }
    assert (F1 : nth (length segs) vs 0 = dom1 c).
    { apply Rle_antisym; [apply Hi, nth_In; lia|]. apply (In_nth _ _ 0) in D1. destruct D1 as (j & Hj & <-).
      destruct (Nat.eq_dec j (length segs)) as [->|]; [lra|]. left. apply Mono; auto. lia. }
    constructor; auto.
    - intros i Hi'. destruct (V i Hi') as (V1 & V2 & V3 & V4 & V5 & V6 & V7 & V8 & V9 & V10 & V11).
      constructor; auto; [|now rewrite V4]. apply pos_weights_forall; auto. rewrite V3. apply V11.
      + intros p q t Lp Lq Ht P1 Q1. rewrite (rc_vlerp eps maxv) by congruence. nra.
      + now apply pos_weights_forall.
    - intros i Hi'. destruct (V i Hi') as (V1 & V2 & V3 & V4 & _). auto.
    - intros i Hi'. destruct (V i Hi') as (_ & _ & _ & _ & _ & V6 & _). exact V6.
    - intros i Hi'. pose proof (Mono vs HS i (S i) ltac:(lia)).
      destruct (Hsep (nth (S i) vs 0) (nth i vs 0)) as [E|E]; try (apply Hin, nth_In; lia); [lra|].
      rewrite Rabs_right in E by lra. lra.
    - intros i Hi'. destruct (V i Hi') as (_ & _ & _ & _ & _ & _ & V7 & V8 & _). auto.
    - intros i u Hi' Hu. destruct (V i Hi') as (_ & _ & _ & _ & _ & _ & _ & _ & V9 & _). auto.
    - intros U i Hi'. destruct (V i Hi') as (_ & _ & _ & _ & _ & _ & _ & _ & _ & _ & V11). apply V11; auto.
      intros p q t Lp Lq Ht P1 Q1. rewrite (rc_vlerp eps maxv) by congruence. nra.
  Qed.

  (** lengths of the segments, and of the first ones *)
  Definition seg_lengths (rule : list (R * R)) (segs : list (Curve R)) : list R := map (fun s => mlen rule s (dom1 s)) segs.
  Definition psum (ls : list R) (i : nat) : R := rsum i (fun j => nth j ls 0).

  Lemma fold_add_psum ls a : fold_left Rplus ls a = a + psum ls (length ls).
  Proof.
    revert a. induction ls as [|l ls IH]; intros a; cbn [fold_left length]; [unfold psum; cbn; lra|].
    rewrite IH. unfold psum. rewrite rsum_S_l. cbn [nth]. rewrite Rplus_assoc. reflexivity.
  Qed.

  Lemma seg_lengths_nth rule segs i d : (i < length segs)%nat ->
    nth i (seg_lengths rule segs) 0 = mlen rule (nth i segs d) (dom1 (nth i segs d)).
  Proof. intros H. unfold seg_lengths. now rewrite (nth_map_lt _ _ i d). Qed.

  Lemma single_span_curve c vs segs : length_curve c -> cut c vs segs -> length segs = 1%nat -> bezier_seg c /\
    cknots c = repeat (dom0 c) (cdeg c + 1) ++ repeat (dom1 c) (cdeg c + 1).
  Proof.
    intros [Hc He Hcc Hcl Hsep Hw] H L1. pose proof (ct_len _ _ _ H) as Lv. pose proof (ct_first _ _ _ H) as F0.
    pose proof (ct_last _ _ _ H) as F1. rewrite L1 in *. destruct vs as [|x [|y [|]]]; cbn in Lv; try lia. cbn in F0, F1. subst x y.
    pose proof (curve_mono c Hc) as Hm. pose proof (curve_len c Hc) as Hlen. pose proof (co_len c Hc) as Hcl'.
    pose proof (ko_first _ _ _ (co_knots _ Hc)) as K1. pose proof (ko_last _ _ _ (co_knots _ Hc)) as K2.
    assert (In2 : forall j, (j < length (cknots c))%nat -> kf (cknots c) j = dom0 c \/ kf (cknots c) j = dom1 c).
    { intros j Hj. rewrite (kf_nth _ _ 0) by auto. pose proof (proj2 (ct_in _ _ _ H (nth j (cknots c) 0)) ltac:(now apply nth_In)) as Hi.
      cbn in Hi. destruct Hi as [Hi|[Hi|[]]]; auto. }
    assert (Dlt : dom0 c < dom1 c) by (pose proof (ct_step _ _ _ H 0%nat ltac:(lia)) as G; cbn in G; pose proof (proj1 He); lra).
    pose proof (clast_S c Hc) as Hn.
    assert (Kd : kf (cknots c) (cdeg c + 1) = dom1 c).
    { destruct (In2 (cdeg c + 1)%nat ltac:(lia)) as [E|E]; auto. fold (dom0 c) in K1. lra. }
    assert (Hcd : clast c = cdeg c).
    { pose proof (ko_pn _ _ _ (co_knots _ Hc)). destruct (Nat.eq_dec (clast c) (cdeg c)); auto. exfalso.
      pose proof (mono_le _ (cdeg c + 1) (clast c) Hm ltac:(lia)) as G1.
      destruct (In2 (clast c + 1)%nat ltac:(lia)) as [E|E]; lra. }
    assert (Bs : bezier_seg c) by (constructor; auto; unfold clast in *; lia).
    split; [exact Bs|]. apply (list_ext 0).
    - rewrite app_length, !repeat_length. lia.
    - intros j Hj. rewrite <- (kf_nth _ _ 0) by auto. destruct (Nat.lt_ge_cases j (cdeg c + 1)) as [C|C].
      + rewrite app_nth1 by (rewrite repeat_length; auto). rewrite nth_repeat_lt by auto.
        pose proof (mono_le _ 0 j Hm ltac:(lia)). pose proof (mono_le _ j (cdeg c) Hm ltac:(lia)). destruct Hcl as (C0 & _). unfold dom0 in *. lra.
      + rewrite app_nth2 by (rewrite repeat_length; auto). rewrite repeat_length, nth_repeat_lt by lia.
        pose proof (mono_le _ (cdeg c + 1) j Hm ltac:(lia)). destruct (In2 j ltac:(lia)); lra.
  Qed.

  (** the length of a single segment *)
  Lemma try_length_single gauss s a b : bezier_seg s -> rule_ok (gauss (16 + cdeg s)%nat) ->
    cknots s = repeat a (cdeg s + 1) ++ repeat b (cdeg s + 1) -> a + eps < b ->
    try_length gauss s = Ok (mlen (gauss (16 + cdeg s)%nat) s (dom1 s)).
  Proof.
    intros H Hr Ek Hab. destruct (decompose_single s a b H Ek Hab) as (Em & Ed).
    unfold try_length. rewrite Em. cbn [bind head unwrap map last]. rewrite Ed. cbn [bind snd length].
    rewrite Nat.sub_diag, Nat.ltb_irrefl. cbn [bind]. rewrite slice_ok by (cbn; lia). cbn [bind Nat.sub firstn skipn].
    rewrite knots_domain_ok by apply H. cbn [bind length Nat.leb]. now apply seg_length_value.
  Qed.

  Lemma clamped_is_clamped c : length_curve c -> exists m s e, multiplicity (cknots c) = Ok m /\
    head m = Some s /\ last (map Some m) None = Some e /\ (cdeg c < snd s)%nat /\ (cdeg c < snd e)%nat.
  Proof.
    intros [Hc He Hcc Hcl Hsep Hw]. pose proof (curve_mono c Hc) as Hm. pose proof (curve_len c Hc) as Hl. pose proof (co_len c Hc) as Hcl'.
    pose proof (co_knots c Hc) as [_ _ Ks _ _]. pose proof (proj1 He) as He0.
    destruct (is_clamped_iff eps maxv (cknots c) (cdeg c) ltac:(lra) Ks Hsep ltac:(lia)) as (b & Eb & Hb).
    assert (b = true) as ->.
    { apply Hb. destruct Hcl as (C0 & C1). split; intros j Hj.
      - rewrite <- !(kf_nth _ _ 0) by lia.
        pose proof (mono_le _ 0 j Hm ltac:(lia)). pose proof (mono_le _ j (cdeg c) Hm Hj). unfold dom0 in *. lra.
      - rewrite <- !(kf_nth _ _ 0) by lia.
        pose proof (mono_le _ (length (cknots c) - 1 - j) (length (cknots c) - 1) Hm ltac:(lia)).
        pose proof (mono_le _ (length (cpts c)) (length (cknots c) - 1 - j) Hm ltac:(lia)). unfold dom1 in *. lra. }
    unfold is_clamped in Eb. apply bind_ok in Eb. destruct Eb as (m & Em & Eb).
    destruct (head m) as [s|] eqn:Eh; [|discriminate]. destruct (last (map Some m) None) as [e|] eqn:El; [|discriminate].
    injection Eb as Eb. apply andb_prop in Eb. destruct Eb as (B1 & B2). apply Nat.ltb_lt in B1, B2.
    exists m, s, e. auto.
  Qed.

  (** *** The length of a curve is the sum of the measured lengths of its segments *)
  Theorem try_length_spec gauss c : length_curve c -> rule_ok (gauss (16 + cdeg c)%nat) ->
    exists vs segs ls, try_decompose_bezier_segments c = Ok segs /\ cut c vs segs /\
      mapM (fun s => seg_length (gauss (16 + cdeg c)%nat) s (dom1 s)) segs = Ok ls /\
      Forall (fun l => 0 <= l) ls /\
      try_length gauss c = Ok (psum ls (length ls)).
  Proof.
    intros H Hr. destruct (decompose_cut c H) as (vs & segs & Es & Hcut). set (rule := gauss (16 + cdeg c)%nat) in *.
    assert (He : 0 < eps) by apply (lc_eps c H).
    assert (Bz : forall s, In s segs -> bezier_seg s).
    { intros s Hs. apply (In_nth _ _ c) in Hs. destruct Hs as (i & Hi & <-). now apply (ct_seg _ _ _ Hcut). }
    exists vs, segs, (seg_lengths rule segs). split; [exact Es|]. split; [exact Hcut|]. split.
    { apply mapM_ok. intros s Hs. apply seg_length_value; auto. }
    split.
    { apply Forall_map, Forall_forall. intros s Hs. apply mlen_nonneg; auto. }
    unfold try_length. destruct (clamped_is_clamped c H) as (m & s & e & Em & Eh & El & Hs & He').
    rewrite Em. cbn [bind]. rewrite Eh, El. cbn [unwrap bind]. rewrite Es. cbn [bind].
    replace (cdeg c + 1 - snd s)%nat with 0%nat by lia.
    destruct (Nat.ltb_spec (snd e) (cdeg c + 1)); [lia|]. cbn [bind]. rewrite slice_ok by lia. cbn [bind].
    rewrite Nat.sub_0_r. cbn [skipn]. rewrite firstn_all. rewrite knots_domain_ok by apply H. cbn [bind].
    fold rule. destruct (Nat.leb_spec (length segs) 1) as [C|C].
    - pose proof (ct_ne _ _ _ Hcut). destruct (single_span_curve c vs segs H Hcut ltac:(lia)) as (Hb & Ek).
      destruct (decompose_single c (dom0 c) (dom1 c) Hb Ek) as (_ & Ed).
      { pose proof (ct_step _ _ _ Hcut 0%nat ltac:(lia)) as G. rewrite (ct_first _ _ _ Hcut) in G.
        replace 1%nat with (length segs) in G by lia. now rewrite (ct_last _ _ _ Hcut) in G. }
      rewrite Ed in Es. injection Es as <-. rewrite seg_length_value by auto. f_equal. unfold psum. cbn. lra.
    - rewrite (mapM_ok _ (fun s => mlen rule s (dom1 s))).
      + cbn [bind]. fold (seg_lengths rule segs). destruct segs as [|s0 segs]; [cbn in C; lia|]. cbn [seg_lengths map]. rs.
        fold (seg_lengths rule segs). rewrite fold_add_psum. f_equal. unfold psum. cbn [length].
        rewrite rsum_S_l. reflexivity.
      + intros x Hx. rewrite seg_length_value by auto. f_equal. unfold mlen.
        apply (In_nth _ _ c) in Hx. destruct Hx as (i & Hi & <-). destruct (ct_dom _ _ _ Hcut i Hi) as (D0 & D1). rewrite D0, D1.
        pose proof (ct_step _ _ _ Hcut i Hi). pose proof (cut_mono c vs segs Hcut He (S i) (length segs) ltac:(lia)) as G.
        rewrite (ct_last _ _ _ Hcut) in G.
        destruct (Rlt_dec (nth i vs 0 + eps) (dom1 c)); destruct (Rlt_dec (nth i vs 0 + eps) (nth (S i) vs 0)); try lra.
        rewrite !Rmin_left by lra. reflexivity.
  Qed.
End Real.
