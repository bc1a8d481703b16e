(** * Degree elevation of quadratic curves and polylines with four pieces, where the result arrays fit *)
From Coq Require Import Reals Lra Lia List ZArith Sorted.
From Verif Require Import Base BaseFacts Scalar RSum BSplineSpec BSpline KnotModel KnotFacts KnotSpec VecFacts MiscModel CurveModel CurveSpec CurveProofs CurveGeom CurveGeom2 ElevateModel.
Import ListNotations.

(** one round of the main loop, computed with the given end of the run of knots *)
Ltac el_round r := match goal with |- context [el_step ?c ?i ?p ?m ?z ?s] =>
  let ty := type of s in let st' := fresh in evar (st' : ty);
  let E := fresh in assert (E : el_step c i p m z s = Ok st');
    [ unfold el_step; cbn [e_b cknots]; rewrite r; cbn [bind]; lazy -[sadd ssub smul sdiv sofz sone szero vlerp vadd vscale vzero]; subst st'; reflexivity
    | rewrite E; subst st'; clear E; cbn [bind e_b Nat.ltb Nat.leb]] end.
Ltac el_prelude := repeat match goal with
  | |- context [for_incl ?x ?y ?f ?l] => let t := eval cbv -[szero] in (for_incl x y f l) in change (for_incl x y f l) with t; cbn [bind]
  | |- context [slice ?l ?x ?y] => let t := eval cbv -[vzero] in (slice l x y) in change (slice l x y) with t; cbn [bind]
  end.

Section Any.
  Context {T : Type} {SO : Scalar T}.

  Section Quadratic.
    Variables (D : nat) (P0 P1 P2 P3 P4 P5 : list T) (a k1 k2 k3 b : T).
    Hypothesis H1 : seqb k1 k2 = false.
    Hypothesis H2 : seqb k2 k3 = false.
    Hypothesis H3 : seqb k3 b = false.
    Hypothesis H4 : seqb b b = true.
    Notation qc := (MkCurve D 2 [P0; P1; P2; P3; P4; P5] [a; a; a; k1; k2; k3; b; b; b]).

    Definition one_third : T := smul (smul (sdiv sone (sadd (sadd sone sone) sone)) sone) sone.
    Definition two_thirds : T := smul (smul (sdiv sone (sadd (sadd sone sone) sone)) (sadd sone sone)) sone.
    (** [1/3 p + 2/3 q] and [2/3 p + 1/3 q] as the code computes them *)
    Definition near (p q : list T) : list T := vadd (vadd (vzero D) (vscale p one_third)) (vscale q two_thirds).
    Definition far (p q : list T) : list T := vadd (vadd (vzero D) (vscale p two_thirds)) (vscale q one_third).
    (** the joint of two pieces *)
    Definition joint (p q : list T) (x y z : T) : list T := vlerp q p (ssub sone (sdiv (ssub y x) (ssub z x))).

    Lemma quad_bezalfs : bezalfs 2 1 = Ok [[sone; szero; szero]; [one_third; two_thirds; szero]; [szero; two_thirds; one_third]; [szero; szero; sone]].
    Proof. reflexivity. Qed.
    Lemma quad_run0 : run_end [a; a; a; k1; k2; k3; b; b; b] 8 3 = Ok 3%nat. Proof. cbn. rewrite H1. reflexivity. Qed.
    Lemma quad_run1 : run_end [a; a; a; k1; k2; k3; b; b; b] 8 4 = Ok 4%nat. Proof. cbn. rewrite H2. reflexivity. Qed.
    Lemma quad_run2 : run_end [a; a; a; k1; k2; k3; b; b; b] 8 5 = Ok 5%nat. Proof. cbn. rewrite H3. reflexivity. Qed.
    Lemma quad_run3 : run_end [a; a; a; k1; k2; k3; b; b; b] 8 6 = Ok 8%nat. Proof. cbn. rewrite !H4. cbn. rewrite H4. reflexivity. Qed.

    Lemma quad_elevated : try_elevate_degree qc 3 =
      Ok (MkCurve D 3 [P0; near P0 P1; far P1 (joint P1 P2 a k1 k2); near (joint P1 P2 a k1 k2) P2; far P2 (joint P2 P3 k1 k2 k3);
                       near (joint P2 P3 k1 k2 k3) P3; far P3 (joint P3 P4 k2 k3 b); near (joint P3 P4 k2 k3 b) P4; far P4 P5;
                       vadd (vzero D) (vscale P5 sone)]
                      [a; a; a; a; k1; k1; k2; k2; k3; k3; b; b; b; b]).
    Proof.
      unfold try_elevate_degree. cbn [cdeg cknots cpts cdim Nat.leb].
      change (usub (length [a; a; a; k1; k2; k3; b; b; b]) 2) with (Ok 7%nat). cbn [bind]. change (usub 7 2) with (Ok 5%nat). cbn [bind].
      change (3 - 2)%nat with 1%nat. rewrite quad_bezalfs. cbn [bind].
      change (get [a; a; a; k1; k2; k3; b; b; b] 0) with (Ok a). cbn [bind]. change (get [P0; P1; P2; P3; P4; P5] 0) with (Ok P0). cbn [bind].
      change (length [P0; P1; P2; P3; P4; P5] + 1 + 3)%nat with 10%nat. change (5 + 2 + 1)%nat with 8%nat.
      cbn [repeat set_ upd length Nat.ltb Nat.leb]. cbn [bind]. el_prelude. cbn [skipn app Nat.add].
      unfold while_. cbn [loop_ e_b Nat.ltb Nat.leb bind].
      el_round quad_run0. el_round quad_run1. el_round quad_run2. el_round quad_run3. cbn [bind e_qw e_uh]. reflexivity.
    Qed.
  End Quadratic.

  Section Linear.
    Variables (D : nat) (P0 P1 P2 P3 P4 : list T) (a k1 k2 k3 b : T).
    Hypothesis H1 : seqb k1 k2 = false.
    Hypothesis H2 : seqb k2 k3 = false.
    Hypothesis H3 : seqb k3 b = false.
    Hypothesis H4 : seqb b b = true.
    Notation lc := (MkCurve D 1 [P0; P1; P2; P3; P4] [a; a; k1; k2; k3; b; b]).
    Definition one_half : T := smul (smul (sdiv sone (sadd sone sone)) sone) sone.
    Definition middle (p q : list T) : list T := vadd (vadd (vzero D) (vscale p one_half)) (vscale q one_half).
    Definition same (p : list T) : list T := vadd (vzero D) (vscale p sone).

    Lemma lin_bezalfs : bezalfs 1 1 = Ok [[sone; szero]; [one_half; one_half]; [szero; sone]].
    Proof. reflexivity. Qed.
    Lemma lin_run0 : run_end [a; a; k1; k2; k3; b; b] 6 2 = Ok 2%nat. Proof. cbn. rewrite H1. reflexivity. Qed.
    Lemma lin_run1 : run_end [a; a; k1; k2; k3; b; b] 6 3 = Ok 3%nat. Proof. cbn. rewrite H2. reflexivity. Qed.
    Lemma lin_run2 : run_end [a; a; k1; k2; k3; b; b] 6 4 = Ok 4%nat. Proof. cbn. rewrite H3. reflexivity. Qed.
    Lemma lin_run3 : run_end [a; a; k1; k2; k3; b; b] 6 5 = Ok 6%nat. Proof. cbn. rewrite !H4. cbn. rewrite ?H4. reflexivity. Qed.

    Lemma lin_elevated : try_elevate_degree lc 2 =
      Ok (MkCurve D 2 [P0; middle P0 P1; same P1; middle P1 P2; same P2; middle P2 P3; same P3; middle P3 P4; same P4]
                      [a; a; a; k1; k1; k2; k2; k3; k3; b; b; b]).
    Proof.
      unfold try_elevate_degree. cbn [cdeg cknots cpts cdim Nat.leb].
      change (usub (length [a; a; k1; k2; k3; b; b]) 1) with (Ok 6%nat). cbn [bind]. change (usub 6 2) with (Ok 4%nat). cbn [bind].
      change (2 - 1)%nat with 1%nat. rewrite lin_bezalfs. cbn [bind].
      change (get [a; a; k1; k2; k3; b; b] 0) with (Ok a). cbn [bind]. change (get [P0; P1; P2; P3; P4] 0) with (Ok P0). cbn [bind].
      change (length [P0; P1; P2; P3; P4] + 1 + 3)%nat with 9%nat. change (4 + 1 + 1)%nat with 6%nat.
      cbn [repeat set_ upd length Nat.ltb Nat.leb]. cbn [bind]. el_prelude. cbn [skipn app Nat.add].
      unfold while_. cbn [loop_ e_b Nat.ltb Nat.leb bind].
      el_round lin_run0. el_round lin_run1. el_round lin_run2. el_round lin_run3. cbn [bind e_qw e_uh]. reflexivity.
    Qed.
  End Linear.
End Any.

(** ** The results have the same shape *)
Open Scope R_scope.
Ltac eval_piece := rewrite piece_window by (cbn [length]; lia); cbn [rsum bs Nat.sub Nat.add Nat.eqb]; unfold wl, wr; cbn [Nat.add kf nth];
  repeat first [rewrite Rmult_0_r | rewrite Rmult_0_l | rewrite Rplus_0_r | rewrite Rplus_0_l | rewrite Rmult_1_r]; rewrite !quot0_nz by lra.

Section Real.
  Variables eps maxv : R.
  Local Hint Extern 0 (Scalar R) => exact (ROps eps maxv) : typeclass_instances.
  Hypothesis He : 0 < eps.

  Lemma neq_seqb (x y : R) : x < y -> seqb x y = false.
  Proof. intros H. cbn [seqb ROps]. destruct (Reqb_spec x y); [lra|reflexivity]. Qed.
  Lemma refl_seqb (x : R) : seqb x x = true.
  Proof. cbn [seqb ROps]. destruct (Reqb_spec x x); [reflexivity|lra]. Qed.

  Section Points.
    Variable D : nat.
    Ltac len := repeat first [assumption | apply vadd_length | apply vscale_length | apply vzero_length | apply vlerp_length].
    Ltac both := match goal with |- length ?a = length ?b => transitivity D; [|symmetry]; len end.
    Lemma len_near (p q : list R) : length p = D -> length q = D -> length (near D p q) = D.
    Proof. intros. unfold near. len. Qed.
    Lemma len_far (p q : list R) : length p = D -> length q = D -> length (far D p q) = D.
    Proof. intros. unfold far. len. Qed.
    Lemma len_joint (p q : list R) (x y z : R) : length p = D -> length q = D -> length (joint p q x y z) = D.
    Proof. intros. unfold joint. len. Qed.
    Lemma len_middle (p q : list R) : length p = D -> length q = D -> length (middle D p q) = D.
    Proof. intros. unfold middle. len. Qed.
    Lemma len_same (p : list R) : length p = D -> length (same D p) = D.
    Proof. intros. unfold same. len. Qed.
    Lemma rc_near (i : nat) (p q : list R) : length p = D -> length q = D -> rc i (near D p q) = (rc i p + 2 * rc i q) / 3.
    Proof.
      intros. unfold near. rewrite !rc_vadd by both. rewrite !rc_vscale, rc_vzero. unfold one_third, two_thirds. rs. field.
    Qed.
    Lemma rc_far (i : nat) (p q : list R) : length p = D -> length q = D -> rc i (far D p q) = (2 * rc i p + rc i q) / 3.
    Proof.
      intros. unfold far. rewrite !rc_vadd by both. rewrite !rc_vscale, rc_vzero. unfold one_third, two_thirds. rs. field.
    Qed.
    Lemma rc_joint (i : nat) (p q : list R) (x y z : R) : length p = D -> length q = D -> x < z -> rc i (joint p q x y z) = ((z - y) * rc i p + (y - x) * rc i q) / (z - x).
    Proof. intros. unfold joint. rewrite rc_vlerp by lia. rs. field. lra. Qed.
    Lemma rc_middle (i : nat) (p q : list R) : length p = D -> length q = D -> rc i (middle D p q) = (rc i p + rc i q) / 2.
    Proof.
      intros. unfold middle. rewrite !rc_vadd by both. rewrite !rc_vscale, rc_vzero. unfold one_half. rs. field.
    Qed.
    Lemma rc_same (i : nat) (p : list R) : length p = D -> rc i (same D p) = rc i p.
    Proof.
      intros. unfold same. rewrite !rc_vadd by both. rewrite !rc_vscale, rc_vzero. rs. ring.
    Qed.
  End Points.

  Lemma four_cases (a k1 k2 k3 b u : R) : a < k1 < k2 -> k2 < k3 < b -> a <= u <= b -> a <= u <= k1 \/ k1 <= u <= k2 \/ k2 <= u <= k3 \/ k3 <= u <= b.
  Proof. intros. destruct (Rle_or_lt u k1); [lra|]. destruct (Rle_or_lt u k2); [lra|]. destruct (Rle_or_lt u k3); lra. Qed.

  (** a quadratic curve with four pieces and simple interior knots is elevated correctly *)
  Theorem elevate_four_quadratic c a k1 k2 k3 b :
    curve_ok c -> curve_eps eps c -> cdeg c = 2%nat -> cknots c = [a; a; a; k1; k2; k3; b; b; b] -> a < k1 < k2 -> k2 < k3 < b ->
    exists c', try_elevate_degree c 3 = Ok c' /\ curve_ok c' /\ curve_eps eps c' /\ cdim c' = cdim c /\ cdeg c' = 3%nat /\
      dom0 c' = dom0 c /\ dom1 c' = dom1 c /\
      forall u, dom0 c <= u <= dom1 c -> (forall i, hcoord c' i u = hcoord c i u) /\ point_at c' u = point_at c u.
  Proof.
    intros Hc Hce Hp Hk Ha Hb. destruct c as [D p pts k]. cbn [cdeg cknots] in Hp, Hk. subst p k.
    pose proof (co_pts _ Hc) as Hl. pose proof (curve_len _ Hc) as Hn. cbn [cdeg cknots cpts cdim length] in Hl, Hn.
    destruct pts as [|P0 [|P1 [|P2 [|P3 [|P4 [|P5 [|]]]]]]]; cbn [length] in Hn; try lia. clear Hn.
    rewrite Forall_forall in Hl. assert (L0 : length P0 = D) by (apply Hl; cbn; tauto). assert (L1 : length P1 = D) by (apply Hl; cbn; tauto).
    assert (L2 : length P2 = D) by (apply Hl; cbn; tauto). assert (L3 : length P3 = D) by (apply Hl; cbn; tauto).
    assert (L4 : length P4 = D) by (apply Hl; cbn; tauto). assert (L5 : length P5 = D) by (apply Hl; cbn; tauto).
    rewrite quad_elevated by (try apply refl_seqb; apply neq_seqb; lra).
    eexists. split; [reflexivity|].
    set (c' := MkCurve D 3 _ _). set (c := MkCurve D 2 _ _) in *.
    assert (LJ : forall p q x y z, length p = D -> length q = D -> length (joint p q x y z) = D) by (intros; now apply len_joint).
    assert (Hc' : curve_ok c').
    { constructor.
      - exact (co_dim _ Hc).
      - cbn [c' cpts cdim]. apply Forall_forall. intros q Hq. cbn [In] in Hq.
        repeat (destruct Hq as [<- | Hq]; [first [assumption | apply len_near; auto | apply len_far; auto | apply (len_same D P5); exact L5]|]). contradiction.
      - cbn. lia.
      - constructor; cbn [c' clast cpts cdeg cknots length Nat.sub]; [reflexivity|lia| | |].
        + repeat (first [apply Sorted_nil | apply Sorted_cons; [|first [apply HdRel_nil | apply HdRel_cons; lra]]]).
        + cbn [kf nth Nat.add]. lra.
        + cbn [kf nth Nat.add]. lra. }
    assert (Hce' : curve_eps eps c').
    { unfold curve_eps, eps_ok, clast in *. cbn [c c' cpts cdeg cknots length Nat.sub Nat.add kf nth] in *. exact Hce. }
    assert (Hcc : curve_cont c). { intros j H1 H2. unfold clast in H2. cbn [c cpts cdeg cknots length Nat.sub] in *. assert (j = 3 \/ j = 4 \/ j = 5)%nat as [-> | [-> | ->]] by lia; cbn [kf nth Nat.add]; lra. }
    assert (Hcc' : curve_cont c'). { intros j H1 H2. unfold clast in H2. cbn [c' cpts cdeg cknots length Nat.sub] in *. assert (j = 4 \/ j = 5 \/ j = 6 \/ j = 7 \/ j = 8 \/ j = 9)%nat as [-> | [-> | [-> | [-> | [-> | ->]]]]] by lia; cbn [kf nth Nat.add]; lra. }
    split; [exact Hc'|]. split; [exact Hce'|]. split; [reflexivity|]. split; [reflexivity|].
    assert (D0 : dom0 c = a) by reflexivity. assert (D1 : dom1 c = b) by reflexivity.
    assert (D0' : dom0 c' = a) by reflexivity. assert (D1' : dom1 c' = b) by reflexivity.
    rewrite D0, D1, D0', D1'. split; [reflexivity|]. split; [reflexivity|]. intros u Hu.
    assert (G : forall i, hcoord c' i u = hcoord c i u).
    { intros i. destruct (four_cases a k1 k2 k3 b u Ha Hb Hu) as [S4|[S4|[S4|S4]]].
      - rewrite (hcoord_any_span c 2 i u Hc Hcc), (hcoord_any_span c' 3 i u Hc' Hcc') by (unfold clast; cbn [c c' cpts cdeg cknots length Nat.sub kf nth]; lia || lra).
        cbn [c c' cpts cdeg cknots]. eval_piece. eval_piece. unfold cpc. cbn [c c' cpts nth].
        rewrite ?rc_near, ?rc_far by auto. rewrite !(rc_joint D) by (auto || lra). field. repeat split; lra.
      - rewrite (hcoord_any_span c 3 i u Hc Hcc), (hcoord_any_span c' 5 i u Hc' Hcc') by (unfold clast; cbn [c c' cpts cdeg cknots length Nat.sub kf nth]; lia || lra).
        cbn [c c' cpts cdeg cknots]. eval_piece. eval_piece. unfold cpc. cbn [c c' cpts nth].
        rewrite ?rc_near, ?rc_far by auto. rewrite !(rc_joint D) by (auto || lra). field. repeat split; lra.
      - rewrite (hcoord_any_span c 4 i u Hc Hcc), (hcoord_any_span c' 7 i u Hc' Hcc') by (unfold clast; cbn [c c' cpts cdeg cknots length Nat.sub kf nth]; lia || lra).
        cbn [c c' cpts cdeg cknots]. eval_piece. eval_piece. unfold cpc. cbn [c c' cpts nth].
        rewrite ?rc_near, ?rc_far by auto. rewrite !(rc_joint D) by (auto || lra). field. repeat split; lra.
      - rewrite (hcoord_any_span c 5 i u Hc Hcc), (hcoord_any_span c' 9 i u Hc' Hcc') by (unfold clast; cbn [c c' cpts cdeg cknots length Nat.sub kf nth]; lia || lra).
        cbn [c c' cpts cdeg cknots]. eval_piece. eval_piece. unfold cpc. cbn [c c' cpts nth]. fold (same D P5). rewrite ?rc_same by auto.
        rewrite ?rc_near, ?rc_far by auto. rewrite !(rc_joint D) by (auto || lra). field. repeat split; lra. }
    split; [exact G|]. apply (point_at_transfer eps maxv c c' u u Hc Hc' Hce Hce'); [rewrite D0, D1; lra|rewrite D0', D1'; lra|reflexivity|exact G].
  Qed.

  (** a polyline with four pieces is elevated correctly *)
  Theorem elevate_four_polyline c a k1 k2 k3 b :
    curve_ok c -> curve_eps eps c -> cdeg c = 1%nat -> cknots c = [a; a; k1; k2; k3; b; b] -> a < k1 < k2 -> k2 < k3 < b ->
    exists c', try_elevate_degree c 2 = Ok c' /\ curve_ok c' /\ curve_eps eps c' /\ cdim c' = cdim c /\ cdeg c' = 2%nat /\
      dom0 c' = dom0 c /\ dom1 c' = dom1 c /\
      forall u, dom0 c <= u <= dom1 c -> (forall i, hcoord c' i u = hcoord c i u) /\ point_at c' u = point_at c u.
  Proof.
    intros Hc Hce Hp Hk Ha Hb. destruct c as [D p pts k]. cbn [cdeg cknots] in Hp, Hk. subst p k.
    pose proof (co_pts _ Hc) as Hl. pose proof (curve_len _ Hc) as Hn. cbn [cdeg cknots cpts cdim length] in Hl, Hn.
    destruct pts as [|P0 [|P1 [|P2 [|P3 [|P4 [|]]]]]]; cbn [length] in Hn; try lia. clear Hn.
    rewrite Forall_forall in Hl. assert (L0 : length P0 = D) by (apply Hl; cbn; tauto). assert (L1 : length P1 = D) by (apply Hl; cbn; tauto).
    assert (L2 : length P2 = D) by (apply Hl; cbn; tauto). assert (L3 : length P3 = D) by (apply Hl; cbn; tauto).
    assert (L4 : length P4 = D) by (apply Hl; cbn; tauto).
    rewrite lin_elevated by (try apply refl_seqb; apply neq_seqb; lra).
    eexists. split; [reflexivity|].
    set (c' := MkCurve D 2 _ _). set (c := MkCurve D 1 _ _) in *.
    assert (Hc' : curve_ok c').
    { constructor.
      - exact (co_dim _ Hc).
      - cbn [c' cpts cdim]. apply Forall_forall. intros q Hq. cbn [In] in Hq.
        repeat (destruct Hq as [<- | Hq]; [first [assumption | apply len_middle; auto | apply len_same; auto]|]). contradiction.
      - cbn. lia.
      - constructor; cbn [c' clast cpts cdeg cknots length Nat.sub]; [reflexivity|lia| | |].
        + repeat (first [apply Sorted_nil | apply Sorted_cons; [|first [apply HdRel_nil | apply HdRel_cons; lra]]]).
        + cbn [kf nth Nat.add]. lra.
        + cbn [kf nth Nat.add]. lra. }
    assert (Hce' : curve_eps eps c').
    { unfold curve_eps, eps_ok, clast in *. cbn [c c' cpts cdeg cknots length Nat.sub Nat.add kf nth] in *. exact Hce. }
    assert (Hcc : curve_cont c). { intros j H1 H2. unfold clast in H2. cbn [c cpts cdeg cknots length Nat.sub] in *. assert (j = 2 \/ j = 3 \/ j = 4)%nat as [-> | [-> | ->]] by lia; cbn [kf nth Nat.add]; lra. }
    assert (Hcc' : curve_cont c'). { intros j H1 H2. unfold clast in H2. cbn [c' cpts cdeg cknots length Nat.sub] in *. assert (j = 3 \/ j = 4 \/ j = 5 \/ j = 6 \/ j = 7 \/ j = 8)%nat as [-> | [-> | [-> | [-> | [-> | ->]]]]] by lia; cbn [kf nth Nat.add]; lra. }
    split; [exact Hc'|]. split; [exact Hce'|]. split; [reflexivity|]. split; [reflexivity|].
    assert (D0 : dom0 c = a) by reflexivity. assert (D1 : dom1 c = b) by reflexivity.
    assert (D0' : dom0 c' = a) by reflexivity. assert (D1' : dom1 c' = b) by reflexivity.
    rewrite D0, D1, D0', D1'. split; [reflexivity|]. split; [reflexivity|]. intros u Hu.
    assert (G : forall i, hcoord c' i u = hcoord c i u).
    { intros i. destruct (four_cases a k1 k2 k3 b u Ha Hb Hu) as [S4|[S4|[S4|S4]]].
      - rewrite (hcoord_any_span c 1 i u Hc Hcc), (hcoord_any_span c' 2 i u Hc' Hcc') by (unfold clast; cbn [c c' cpts cdeg cknots length Nat.sub kf nth]; lia || lra).
        cbn [c c' cpts cdeg cknots]. eval_piece. eval_piece. unfold cpc. cbn [c c' cpts nth].
        rewrite ?rc_middle by auto. rewrite ?rc_same by auto. field. repeat split; lra.
      - rewrite (hcoord_any_span c 2 i u Hc Hcc), (hcoord_any_span c' 4 i u Hc' Hcc') by (unfold clast; cbn [c c' cpts cdeg cknots length Nat.sub kf nth]; lia || lra).
        cbn [c c' cpts cdeg cknots]. eval_piece. eval_piece. unfold cpc. cbn [c c' cpts nth].
        rewrite ?rc_middle by auto. rewrite ?rc_same by auto. field. repeat split; lra.
      - rewrite (hcoord_any_span c 3 i u Hc Hcc), (hcoord_any_span c' 6 i u Hc' Hcc') by (unfold clast; cbn [c c' cpts cdeg cknots length Nat.sub kf nth]; lia || lra).
        cbn [c c' cpts cdeg cknots]. eval_piece. eval_piece. unfold cpc. cbn [c c' cpts nth].
        rewrite ?rc_middle by auto. rewrite ?rc_same by auto. field. repeat split; lra.
      - rewrite (hcoord_any_span c 4 i u Hc Hcc), (hcoord_any_span c' 8 i u Hc' Hcc') by (unfold clast; cbn [c c' cpts cdeg cknots length Nat.sub kf nth]; lia || lra).
        cbn [c c' cpts cdeg cknots]. eval_piece. eval_piece. unfold cpc. cbn [c c' cpts nth].
        rewrite ?rc_middle by auto. rewrite ?rc_same by auto. field. repeat split; lra. }
    split; [exact G|]. apply (point_at_transfer eps maxv c c' u u Hc Hc' Hce Hce'); [rewrite D0, D1; lra|rewrite D0', D1'; lra|reflexivity|exact G].
  Qed.
End Real.
