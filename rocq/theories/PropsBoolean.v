(** * Boundaries of the results of boolean operations

    Only statements: each theorem is proved elsewhere; its statement is repeated here, followed by
    a concrete case that meets its hypotheses. *)
From Coq Require Import Reals Lra Lia List Sorted Permutation.
From Verif Require Import Base BaseFacts Scalar RSum BSplineSpec BSpline KnotModel KnotSpec KnotFacts VecFacts MiscModel CurveModel CurveKnotModel
  CurveSpec CurveProofs CurveGeom CurveGeom2 KnotMisc Boehm Refine SplitModel SplitProofs Decompose CompoundModel CompoundProofs CompoundCycle TrimFine
  ClipModel ClipSpec Boolean Demo.
Import ListNotations.
Local Open Scope R_scope.

(** a closed polygon with four corners *)
Definition square (a b c d : list R) : Curve R := MkCurve 3 1 (map (fun p => p ++ [1]) [a; b; c; d; a]) [0; 0; 1; 2; 3; 4; 4].
Lemma sq_ok x0 y0 x1 y1 x2 y2 x3 y3 : curve_ok (square [x0; y0] [x1; y1] [x2; y2] [x3; y3]).
Proof. constructor; cbn; try lia; [repeat constructor|]. constructor; cbn; try lia; unfold kf; cbn; try lra. repeat constructor; lra. Qed.
Lemma sq_fine x0 y0 x1 y1 x2 y2 x3 y3 : fine eps0 (square [x0; y0] [x1; y1] [x2; y2] [x3; y3]).
Proof.
  split; [split; [apply sq_ok|split]|split].
  - unfold curve_eps, eps_ok, eps0, kf; cbn; lra.
  - intros j Hj. cbn in Hj. unfold cpc, rc. destruct j as [|[|[|[|[|j]]]]]; cbn; try lra; lia.
  - unfold clamped, dom0, dom1, kf. cbn. lra.
  - intros j H1 H2. cbn in H1, H2. unfold kf. destruct j as [|[|[|[|[|j]]]]]; cbn; try lra; lia.
Qed.
Lemma sq_hcoord i s u a b c d : curve_ok (square a b c d) -> (1 <= s <= 4)%nat -> INR (s - 1) <= u < INR s ->
  hcoord (square a b c d) i u = (INR s - u) * cpc (square a b c d) i (s - 1) + (u - INR (s - 1)) * cpc (square a b c d) i s.
Proof.
  intros Hc Hs Hu. assert (Hin : in_span (cknots (square a b c d)) (clast (square a b c d)) s u).
  { unfold in_span, kf. destruct s as [|[|[|[|[|s]]]]]; try lia; cbn in *; (split; [lra|split; [lra|left; lra]]). }
  rewrite <- (piece_hcoord _ s i u Hc Hin) by (cbn; lia). unfold piece. cbn [cdeg square]. change (length (cpts (square a b c d))) with 5%nat.
  cbn [rsum]. generalize (cpc (square a b c d) i). intros f.
  destruct s as [|[|[|[|[|s]]]]]; try lia; cbn [bs Nat.eqb Nat.add]; unfold wl, wr, quot0; cbn [Nat.add]; unfold kf; cbn [nth cknots square last];
  cbn [INR Nat.sub] in *;
  repeat match goal with |- context [Req_EM_T ?x ?y] => destruct (Req_EM_T x y); try lra end; field_simplify; try lra.
Qed.
Section Points.
  Local Hint Extern 0 (Scalar R) => exact (ROps eps0 maxv0) : typeclass_instances.
  Lemma sq_point s u x0 y0 x1 y1 x2 y2 x3 y3 : let c := square [x0; y0] [x1; y1] [x2; y2] [x3; y3] in (1 <= s <= 4)%nat -> INR (s - 1) <= u < INR s ->
    point_at c u = Ok [(INR s - u) * cpc c 0 (s - 1) + (u - INR (s - 1)) * cpc c 0 s; (INR s - u) * cpc c 1 (s - 1) + (u - INR (s - 1)) * cpc c 1 s].
  Proof.
    intros c Hs Hu. pose proof (sq_ok x0 y0 x1 y1 x2 y2 x3 y3) as Hc. fold c in Hc. destruct (sq_fine x0 y0 x1 y1 x2 y2 x3 y3) as ((_ & He & _) & _). fold c in He.
    assert (W : wfun c u = 1).
    { unfold wfun. unfold c. rewrite (sq_hcoord _ s u) by auto. unfold cpc, rc. destruct s as [|[|[|[|[|s]]]]]; try lia; cbn; cbn [INR Nat.sub] in *; lra. }
    assert (Hd : dom0 c <= u <= dom1 c).
    { unfold dom0, dom1, kf. cbn. destruct s as [|[|[|[|[|s]]]]]; try lia; cbn [INR Nat.sub] in *; lra. }
    destruct (point_at_spec eps0 maxv0 c u Hc He Hd ltac:(lra)) as (p & E & L & Ep). rewrite E. f_equal.
    apply (vec_ext _ _ 2); [exact L|reflexivity|]. intros i Hi. rewrite Ep by (cbn; lia). unfold nurbs. rewrite W. unfold c. rewrite (sq_hcoord i s u) by auto.
    destruct i as [|[|i]]; [| |lia]; unfold rc; cbn [nth]; field.
  Qed.
  Lemma sq_ends x0 y0 x1 y1 x2 y2 x3 y3 : let c := square [x0; y0] [x1; y1] [x2; y2] [x3; y3] in
    point_at c 0 = Ok [x0; y0] /\ point_at c 4 = Ok [x0; y0].
  Proof.
    intros c. pose proof (sq_ok x0 y0 x1 y1 x2 y2 x3 y3) as Hc. fold c in Hc. destruct (sq_fine x0 y0 x1 y1 x2 y2 x3 y3) as ((_ & He & Hw) & _). fold c in He, Hw.
    split.
    - pose proof (sq_point 1 0 x0 y0 x1 y1 x2 y2 x3 y3 ltac:(lia) ltac:(cbn; lra)) as E. cbv zeta in E. fold c in E. rewrite E. unfold cpc, rc. cbn. do 2 f_equal; [lra|f_equal; lra].
    - assert (D1 : dom1 c = 4) by reflexivity. destruct (point_at_spec eps0 maxv0 c 4 Hc He ltac:(unfold dom0, dom1, kf; cbn; lra)) as (p & E & L & Ep).
      { apply Rgt_not_eq, (wfun_pos eps0 maxv0); auto. unfold dom0, dom1, kf; cbn; lra. }
      rewrite E. f_equal. apply (vec_ext _ _ 2); [exact L|reflexivity|]. intros i Hi. rewrite Ep by (cbn; lia). unfold nurbs, wfun.
      assert (Ca : forall t, (length (cpts c) <= t <= length (cpts c) + cdeg c)%nat -> kf (cknots c) t = kf (cknots c) (length (cpts c))).
      { intros t Ht. cbn in Ht. unfold kf. destruct t as [|[|[|[|[|[|[|t]]]]]]]; cbn; try lra; lia. }
      rewrite <- D1. rewrite !(hcoord_end c) by auto. unfold cpc, rc. destruct i as [|[|i]]; cbn; try lra; lia.
  Qed.
End Points.
(** two overlapping squares, the second one starting at its far corner; they cross in (4, 2) and (2, 4) *)
Definition sq1 : Curve R := square [0; 0] [4; 0] [4; 4] [0; 4].
Definition sq2 : Curve R := square [6; 6] [2; 6] [2; 2] [6; 2].
Definition sq_cross : list (R * R) := [(3 / 2, 5 / 2); (5 / 2, 3 / 2)].
Lemma sq_half (s : bool) : let c := if s then sq1 else sq2 in
  point_or eps0 maxv0 c (3 / 2) = (if s then [4; 2] else [2; 4]) /\ point_or eps0 maxv0 c (5 / 2) = (if s then [2; 4] else [4; 2]) /\
  st eps0 maxv0 c = (if s then [0; 0] else [6; 6]) /\ en eps0 maxv0 c = (if s then [0; 0] else [6; 6]).
Proof.
  cbv zeta. unfold st, en, point_or.
  replace (dom0 (if s then sq1 else sq2)) with 0 by (destruct s; reflexivity). replace (dom1 (if s then sq1 else sq2)) with 4 by (destruct s; reflexivity).
  destruct s; unfold sq1, sq2; rewrite (proj1 (sq_ends _ _ _ _ _ _ _ _)), (proj2 (sq_ends _ _ _ _ _ _ _ _));
    rewrite (sq_point 2 (3 / 2)) by (try lia; cbn; lra); rewrite (sq_point 3 (5 / 2)) by (try lia; cbn; lra); unfold cpc, rc; cbn [nth cpts square map app Nat.sub INR];
    (split; [f_equal; [lra|f_equal; lra]|split; [f_equal; [lra|f_equal; lra]|auto]]).
Qed.
Lemma far_sq (a b c d : R) : 1 <= (a - c) * (a - c) + (b - d) * (b - d) -> far eps0 maxv0 [a; b] [c; d].
Proof.
  intros H. unfold far, vnorm, vnorm2, vdot. cbn. rs.
  assert (G : forall x, 1 <= x -> 1 / 10000 <= sqrt x). { intros x Hx. apply Rle_trans with 1; [lra|]. rewrite <- sqrt_1. now apply sqrt_le_1_alt. }
  split; apply G; lra.
Qed.
Lemma sq_crossings : crossings_ok eps0 maxv0 sq1 sq2 sq_cross.
Proof.
  destruct (sq_half true) as (A1 & A2 & A3 & A4). destruct (sq_half false) as (B1 & B2 & B3 & B4). cbv zeta in *.
  constructor.
  - intros side x [<-|[<-|[]]]; destruct side; unfold dom0, dom1, kf; cbn; lra.
  - intros side x [<-|[<-|[]]]; destruct side; cbn [par_of fst snd cur]; intros y Hy; cbn in Hy; unfold eps0;
      repeat destruct Hy as [<-|Hy]; try (destruct Hy); try (rewrite Rabs_pos_eq; lra); rewrite Rabs_left; lra.
  - assert (G : forall c d u v, curve_ok c -> curve_ok d -> curve_eps eps0 c -> curve_eps eps0 d -> pos_weights c -> pos_weights d ->
      dom0 c <= u <= dom1 c -> dom0 d <= v <= dom1 d -> point_or eps0 maxv0 c u = point_or eps0 maxv0 d v ->
      @point_at R (ROps eps0 maxv0) c u = @point_at R (ROps eps0 maxv0) d v).
    { intros c d u v H1 H2 H3 H4 H5 H6 H7 H8 E. destruct (good_point eps0 maxv0 c u (conj H1 (conj H3 H5)) H7) as (p & P1 & _).
      destruct (good_point eps0 maxv0 d v (conj H2 (conj H4 H6)) H8) as (q & Q1 & _). unfold point_or in E. rewrite P1, Q1 in *. congruence. }
    destruct (sq_fine 0 0 4 0 4 4 0 4) as ((F1 & F2 & F3) & _). destruct (sq_fine 6 6 2 6 2 2 6 2) as ((F4 & F5 & F6) & _).
    intros x [<-|[<-|[]]]; cbn [fst snd]; apply G; auto; try (unfold dom0, dom1, kf; cbn; lra); congruence.
  - intros side. apply FOP_cons; [|apply FOP_cons; [apply Forall_nil|apply FOP_nil]]. apply Forall_cons; [|apply Forall_nil].
    destruct side; cbn [par_of fst snd]; unfold eps0; [rewrite Rabs_left|rewrite Rabs_pos_eq]; lra.
  - apply FOP_cons; [|apply FOP_cons; [apply Forall_nil|apply FOP_nil]]. apply Forall_cons; [|apply Forall_nil]. cbn [fst]. rewrite A1, A2. apply far_sq. lra.
  - intros side x [<-|[<-|[]]]; cbn [fst]; destruct side; cbn [cur]; rewrite ?A1, ?A2, ?A3, ?B3; apply far_sq; lra.
  - rewrite A3, B3. apply far_sq. lra.
Qed.
Section Select.
  Local Hint Extern 0 (Scalar R) => exact (ROps eps0 maxv0) : typeclass_instances.
  Lemma sq_select : clip_select (map (fun x => (x, DNone : Degeneracy R)) sq_cross) = Ok sq_cross.
  Proof. reflexivity. Qed.
End Select.
Definition in_box (a b : R) (p : list R) : bool := Rltb a (rc 0 p) && Rltb (rc 0 p) b && (Rltb a (rc 1 p) && Rltb (rc 1 p) b).
Lemma sq_status side t p : dom0 (cur sq1 sq2 side) <= t <= dom1 (cur sq1 sq2 side) -> @point_at R (ROps eps0 maxv0) (cur sq1 sq2 side) t = Ok p ->
  (forall x, In x sq_cross -> t <> par_of side x) -> inside_at sq_cross false false side t = (if side then in_box 2 6 else in_box 0 4) p.
Proof.
  intros Ht Ep Hn. assert (N1 : t <> 3 / 2) by (destruct side; [apply (Hn (3 / 2, 5 / 2)); now left|apply (Hn (5 / 2, 3 / 2)); right; now left]).
  assert (N2 : t <> 5 / 2) by (destruct side; [apply (Hn (5 / 2, 3 / 2)); right; now left|apply (Hn (3 / 2, 5 / 2)); now left]).
  assert (Hd : 0 <= t <= 4) by (destruct side; exact Ht). clear Ht Hn.
  assert (Ei : inside_at sq_cross false false side t = (if Rlt_dec (3 / 2) t then if Rlt_dec (5 / 2) t then false else true else false)).
  { unfold inside_at, passed, sq_cross. cbn [filter]. destruct side; cbn [par_of fst snd];
      destruct (Rlt_dec (3 / 2) t), (Rlt_dec (5 / 2) t); try lra; reflexivity. }
  rewrite Ei. clear Ei. unfold in_box.
  assert (Hs : t = 4 \/ exists s, (1 <= s <= 4)%nat /\ INR (s - 1) <= t < INR s).
  { destruct (Rlt_dec t 1); [right; exists 1%nat; split; [lia|cbn; lra]|]. destruct (Rlt_dec t 2); [right; exists 2%nat; split; [lia|cbn; lra]|].
    destruct (Rlt_dec t 3); [right; exists 3%nat; split; [lia|cbn; lra]|]. destruct (Rlt_dec t 4); [right; exists 4%nat; split; [lia|cbn; lra]|]. left. lra. }
  destruct Hs as [->|(s & S1 & S2)].
  - destruct side; cbn [cur] in Ep; unfold sq1, sq2 in Ep; rewrite (proj2 (sq_ends _ _ _ _ _ _ _ _)) in Ep; injection Ep as <-; unfold rc; cbn [nth];
      destruct (Rlt_dec (3 / 2) 4), (Rlt_dec (5 / 2) 4); try lra; repeat match goal with |- context [Rltb ?x ?y] => destruct (Rltb_spec x y); try lra end; reflexivity.
  - destruct side; cbn [cur] in Ep; unfold sq1, sq2 in Ep; rewrite (sq_point s t) in Ep by auto; injection Ep as <-; unfold cpc, rc;
      destruct s as [|[|[|[|[|s]]]]]; try lia; cbn [INR Nat.sub nth cpts square map app] in *;
      destruct (Rlt_dec (3 / 2) t), (Rlt_dec (5 / 2) t); try lra; repeat match goal with |- context [Rltb ?x ?y] => destruct (Rltb_spec x y); try lra end; reflexivity.
Qed.


Section C92_trim_inside_fine_statement.
  Variables eps maxv : R.
  Local Hint Extern 0 (Scalar R) => exact (ROps eps maxv) : typeclass_instances.
  Local Notation far := (far eps maxv).
  Local Notation st := (st eps maxv).
  Local Notation en := (en eps maxv).
  Local Notation on := (on eps maxv).
  Local Notation cut := (cut eps maxv).
  Local Notation fine := (fine eps).
  Local Notation off_knots := (off_knots eps).

  Theorem C92_trim_inside_fine : forall c a b,
    0 < eps -> fine c -> dom0 c < a -> a + eps <= b -> b < dom1 c -> off_knots c a -> off_knots c b ->
    exists t, try_trim_range c a b = Ok [t] /\ cut c t a b.
  Proof. first [exact (trim_inside_fine eps maxv) | exact (trim_inside_fine eps) | exact trim_inside_fine]. Qed.
End C92_trim_inside_fine_statement.
Section C92_case_inside_section.
  Local Hint Extern 0 (Scalar R) => exact (ROps eps0 maxv0) : typeclass_instances.
  Example C92_case_inside : fine eps0 sq1 /\ off_knots eps0 sq1 (3 / 2) /\ off_knots eps0 sq1 (5 / 2).
  Proof. split; [apply sq_fine|]. split; [exact (xo_off _ _ _ _ _ sq_crossings true (3 / 2, 5 / 2) (or_introl eq_refl))|exact (xo_off _ _ _ _ _ sq_crossings true (5 / 2, 3 / 2) (or_intror (or_introl eq_refl)))]. Qed.
End C92_case_inside_section.
Print Assumptions C92_trim_inside_fine.

Section C92_trim_outside_fine_statement.
  Variables eps maxv : R.
  Local Hint Extern 0 (Scalar R) => exact (ROps eps maxv) : typeclass_instances.
  Local Notation far := (far eps maxv).
  Local Notation st := (st eps maxv).
  Local Notation en := (en eps maxv).
  Local Notation on := (on eps maxv).
  Local Notation cut := (cut eps maxv).
  Local Notation fine := (fine eps).
  Local Notation off_knots := (off_knots eps).

  Theorem C92_trim_outside_fine : forall c a b,
    0 < eps -> fine c -> dom0 c < b -> b + eps <= a -> a < dom1 c -> off_knots c a -> off_knots c b ->
    exists t h, try_trim_range c a b = Ok [t; h] /\ cut c t a (dom1 c) /\ cut c h (dom0 c) b.
  Proof. first [exact (trim_outside_fine eps maxv) | exact (trim_outside_fine eps) | exact trim_outside_fine]. Qed.
End C92_trim_outside_fine_statement.
Print Assumptions C92_trim_outside_fine.

Section C92_clip_boundary_statement.
  Variables eps maxv : R.
  Local Hint Extern 0 (Scalar R) => exact (ROps eps maxv) : typeclass_instances.
  Local Notation far := (far eps maxv).
  Local Notation st := (st eps maxv).
  Local Notation en := (en eps maxv).
  Local Notation on := (on eps maxv).
  Local Notation cut := (cut eps maxv).
  Local Notation fine := (fine eps).
  Local Notation off_knots := (off_knots eps).
  Variables sub clp : Curve R.
  Local Notation cur := (cur sub clp).
  Local Notation trim := (trim eps maxv sub clp).
  Local Notation crossings_ok := (crossings_ok eps maxv sub clp).

  Theorem C92_clip_boundary : forall op ca cb (l : list ((R * R) * Degeneracy R)) sel,
    0 < eps -> fine sub -> fine clp -> st sub = en sub -> st clp = en clp ->
    clip_select l = Ok sel -> sel <> [] -> crossings_ok sel ->
    exists rs, clip trim compound_new [sub] [clp] op (Ok ca) (Ok cb) l = Ok rs /\
    Forall (fun r => rinteriors r = [] /\ compound_is_closed (rexterior r) = Ok true) rs /\
    forall p, (exists r t, In r rs /\ compound_point_at (rexterior r) t = Ok (Some p)) <->
    exists side t, dom0 (cur side) <= t <= dom1 (cur side) /\ point_at (cur side) t = Ok p /\
    ((exists x, In x sel /\ t = par_of side x) \/ segment_kept op side (inside_at sel ca cb side t) = true).
  Proof. first [exact (clip_boundary eps maxv sub clp) | exact (clip_boundary eps sub clp) | exact clip_boundary]. Qed.
End C92_clip_boundary_statement.
Section C92_case_boundary_section.
  Local Hint Extern 0 (Scalar R) => exact (ROps eps0 maxv0) : typeclass_instances.
  Example C92_case_boundary : 0 < eps0 /\ fine eps0 sq1 /\ fine eps0 sq2 /\ st eps0 maxv0 sq1 = en eps0 maxv0 sq1 /\ st eps0 maxv0 sq2 = en eps0 maxv0 sq2 /\
    clip_select (map (fun x => (x, DNone : Degeneracy R)) sq_cross) = Ok sq_cross /\ sq_cross <> [] /\ crossings_ok eps0 maxv0 sq1 sq2 sq_cross.
  Proof. split; [unfold eps0; lra|]. split; [apply sq_fine|]. split; [apply sq_fine|]. destruct (sq_half true) as (_ & _ & A3 & A4). destruct (sq_half false) as (_ & _ & B3 & B4). cbv zeta in *.
    split; [congruence|]. split; [congruence|]. split; [reflexivity|]. split; [discriminate|]. exact sq_crossings. Qed.
End C92_case_boundary_section.
Print Assumptions C92_clip_boundary.

Section C92_clip_boundary_sets_statement.
  Variables eps maxv : R.
  Local Hint Extern 0 (Scalar R) => exact (ROps eps maxv) : typeclass_instances.
  Local Notation far := (far eps maxv).
  Local Notation st := (st eps maxv).
  Local Notation en := (en eps maxv).
  Local Notation on := (on eps maxv).
  Local Notation cut := (cut eps maxv).
  Local Notation fine := (fine eps).
  Local Notation off_knots := (off_knots eps).
  Variables sub clp : Curve R.
  Local Notation cur := (cur sub clp).
  Local Notation trim := (trim eps maxv sub clp).
  Local Notation crossings_ok := (crossings_ok eps maxv sub clp).

  Theorem C92_clip_boundary_sets : forall op ca cb (l : list ((R * R) * Degeneracy R)) sel (inA inB : list R -> bool),
    0 < eps -> fine sub -> fine clp -> st sub = en sub -> st clp = en clp ->
    clip_select l = Ok sel -> sel <> [] -> crossings_ok sel ->
    (forall side t p, dom0 (cur side) <= t <= dom1 (cur side) -> point_at (cur side) t = Ok p -> (forall x, In x sel -> t <> par_of side x) ->
    inside_at sel ca cb side t = (if side then inB else inA) p) ->
    exists rs, clip trim compound_new [sub] [clp] op (Ok ca) (Ok cb) l = Ok rs /\
    forall p, (exists r t, In r rs /\ compound_point_at (rexterior r) t = Ok (Some p)) <->
    (exists x, In x sel /\ point_at sub (fst x) = Ok p) \/
    (on sub p /\ match op with Intersection => inB p = true | Union => inB p = false | Difference => inB p = false end) \/
    (on clp p /\ match op with Intersection => inA p = true | Union => inA p = false | Difference => inA p = true end).
  Proof. first [exact (clip_boundary_sets eps maxv sub clp) | exact (clip_boundary_sets eps sub clp) | exact clip_boundary_sets]. Qed.
End C92_clip_boundary_sets_statement.
Section C92_case_sets_section.
  Local Hint Extern 0 (Scalar R) => exact (ROps eps0 maxv0) : typeclass_instances.
  Example C92_case_sets : forall side t p, dom0 (cur sq1 sq2 side) <= t <= dom1 (cur sq1 sq2 side) -> point_at (cur sq1 sq2 side) t = Ok p ->
    (forall x, In x sq_cross -> t <> par_of side x) -> inside_at sq_cross false false side t = (if side then in_box 2 6 else in_box 0 4) p.
  Proof. exact sq_status. Qed.
End C92_case_sets_section.
Print Assumptions C92_clip_boundary_sets.
