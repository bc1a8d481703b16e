(** * A lawful triangulation, a flat sheet and trimming curves for concrete cases; what inversion does to a trimmed sheet *)
From Coq Require Import Reals Lra Lia List ZArith Bool Sorted.
From Verif Require Import Base BaseFacts Scalar RSum BSplineSpec BSpline KnotModel KnotFacts KnotSpec VecFacts MiscModel CurveModel CurveSpec CurveProofs CurveGeom CurveGeom2
  CompoundModel SurfaceModel SurfaceSpec SurfaceProofs SurfaceShapes MergeModel ClipModel AdaptModel AdaptPoly AdaptTotal AdaptMain SerdeModel NewtonProofs TessCurveModel PolygonProofs PolygonConnected
  TrimModel TrimSpec TrimProofs TrimTheorems TrimUV TrimOps Demo.
Import ListNotations.
Open Scope R_scope.

(** ** Vertices in order of insertion, all constraints accepted, faces given by a table *)
Section Toy.
  Context {V : Type} (pos : V -> list R) (faces : list (list R) -> list (nat * nat) -> list (nat * nat * nat)).

  Fixpoint place (vs : list V) (v : V) : list V * nat :=
    match vs with
    | [] => ([v], 0%nat)
    | w :: vs => if list_eq_dec Req_EM_T (pos w) (pos v) then (v :: vs, 0%nat)
                 else let '(vs, h) := place vs v in (w :: vs, S h)
    end.
  Definition toy : Delaunay V := {|
    dt := (list V * list (nat * nat))%type;
    dt_empty := ([], []);
    dt_insert := fun t v => let '(vs, h) := place (fst t) v in ((vs, snd t), Some h);
    dt_can_add := fun _ _ _ => true;
    dt_add := fun t a b => (fst t, (a, b) :: snd t);
    dt_vertices := fun t => fst t;
    dt_faces := fun t => faces (map pos (fst t)) (snd t)
  |}.
  Definition toy_wall (t : dt toy) (x : list R) : Prop :=
    exists a b p q, In (a, b) (snd t) /\ nth_error (map pos (fst t)) a = Some p /\ nth_error (map pos (fst t)) b = Some q /\ on_seg p q x.

  Lemma place_spec vs v : forall vs' h, place vs v = (vs', h) ->
    (vs' = vs ++ [v] /\ h = length vs) \/ (exists l1 w l2, vs = l1 ++ w :: l2 /\ h = length l1 /\ pos w = pos v /\ vs' = l1 ++ v :: l2).
  Proof.
    induction vs as [|w vs IH]; intros vs' h E; cbn [place] in E; [injection E as <- <-; now left|].
    destruct (list_eq_dec Req_EM_T (pos w) (pos v)) as [H|H].
    - injection E as <- <-. right. exists [], w, vs. auto.
    - destruct (place vs v) as [r k]. injection E as <- <-. destruct (IH r k eq_refl) as [(-> & ->)|(l1 & w' & l2 & -> & -> & Hw & ->)].
      + left. auto.
      + right. exists (w :: l1), w', l2. auto.
  Qed.

  Theorem toy_lawful :
    (forall ps cs a b c, In (a, b, c) (faces ps cs) -> (a < length ps)%nat /\ (b < length ps)%nat /\ (c < length ps)%nat) ->
    (forall ps cs a b c p q r x, In (a, b, c) (faces ps cs) -> nth_error ps a = Some p -> nth_error ps b = Some q -> nth_error ps c = Some r ->
       in_triangle p q r x -> forall i j y z, In (i, j) cs -> nth_error ps i = Some y -> nth_error ps j = Some z -> ~ on_seg y z x) ->
    lawful toy pos toy_wall.
  Proof.
    intros Fr Fc.
    assert (Keep : forall vs v vs' h i p, place vs v = (vs', h) -> nth_error (map pos vs) i = Some p -> nth_error (map pos vs') i = Some p).
    { intros vs v vs' h i p E N. destruct (place_spec vs v vs' h E) as [(-> & _)|(l1 & w & l2 & -> & _ & Hw & ->)].
      - rewrite map_app. rewrite nth_error_app1; [exact N|]. apply nth_error_Some. congruence.
      - rewrite map_app in *. cbn [map] in *. now rewrite <- Hw. }
    constructor; try reflexivity.
    - intros t v t' h E. cbn [dt_insert toy] in E. destruct (place (fst t) v) as [vs k] eqn:Ep. injection E as <- <-. exact (place_spec _ _ _ _ Ep).
    - intros t v t' E. cbn [dt_insert toy] in E. destruct (place (fst t) v) as [vs k]. discriminate E.
    - intros t v x (a & b & p & q & Hi & Ha & Hb & Hs). cbn [dt_insert toy]. destruct (place (fst t) v) as [vs k] eqn:Ep. cbn [fst].
      exists a, b, p, q. cbn [fst snd]. split; [exact Hi|]. split; [eapply Keep; eauto|]. split; [eapply Keep; eauto|exact Hs].
    - intros t a b x (a' & b' & p & q & Hi & Ha & Hb & Hs). exists a', b', p, q. cbn [dt_add toy fst snd]. split; [now right|auto].
    - intros t a b p q x _ Ha Hb Hs. exists a, b, (pos p), (pos q). cbn [dt_add toy fst snd dt_vertices] in *. split; [now left|].
      rewrite !nth_error_map, Ha, Hb. auto.
    - intros t a b c H. cbn [dt_faces dt_vertices toy] in *. destruct (Fr _ _ _ _ _ H) as (A & B & C). rewrite map_length in *. auto.
    - intros t a b c p q r x H Ha Hb Hc _ Hx (i & j & y & z & Hi & Hy & Hz & Hs). cbn [dt_faces dt_vertices toy] in *.
      refine (Fc _ _ a b c (pos p) (pos q) (pos r) x H _ _ _ Hx i j y z Hi Hy Hz Hs); rewrite nth_error_map; [rewrite Ha|rewrite Hb|rewrite Hc]; reflexivity.
  Qed.
End Toy.

(** no faces *)
Definition no_faces : list (list R) -> list (nat * nat) -> list (nat * nat * nat) := fun _ _ => [].
Lemma empty_lawful {V} (pos : V -> list R) : lawful (toy pos no_faces) pos (toy_wall pos no_faces).
Proof. apply toy_lawful; intros; contradiction. Qed.
Lemma empty_accepts {V} (pos : V -> list R) loops : forall t, loops_accepted (toy pos no_faces) t loops.
Proof.
  set (D := toy pos no_faces).
  assert (H : forall vs t, exists t' hs, insert_all D t vs = (t', map Some hs)).
  { induction vs as [|v vs IH]; intros t; [exists t, []; reflexivity|]. cbn [insert_all]. destruct (dt_insert D t v) as [t1 o] eqn:E1.
    destruct (IH t1) as (t' & hs & E). rewrite E. cbn [D toy dt_insert] in E1. destruct (place pos (fst t) v) as [r h]. injection E1 as _ <-. exists t', (h :: hs). reflexivity. }
  assert (A : forall l t, (forall e, In e l -> exists a b, e = (Some a, Some b)) -> edges_accepted D t l).
  { induction l as [|e l IH]; intros t Hl; [exact I|]. destruct (Hl e (or_introl eq_refl)) as (a & b & ->). split; [|apply IH; intros; apply Hl; now right].
    exists a, b. split; [reflexivity|]. now right. }
  induction loops as [|vs loops IH]; intros t; [exact I|]. split; [|apply IH].
  unfold loop_accepted. destruct (H vs t) as (t' & hs & E). rewrite E. apply A. intros e He.
  destruct hs as [|h hs]; [destruct He|]. cbn [map] in He. change (Some h :: map Some hs) with (map Some (h :: hs)) in He.
  replace (map Some hs ++ [Some h]) with (map Some (hs ++ [h])) in He by (rewrite map_app; reflexivity).
  destruct e as [x y]. pose proof (in_combine_l _ _ _ _ He) as Hx. pose proof (in_combine_r _ _ _ _ He) as Hy.
  apply in_map_iff in Hx. apply in_map_iff in Hy. destruct Hx as (a & <- & _). destruct Hy as (b & <- & _). eauto.
Qed.

(** ** A triangle with a triangular hole *)
Definition six : list (list R) := [[0; 0]; [6; 0]; [0; 6]; [1; 1]; [3; 1]; [1; 3]].
Definition six_edges : list (nat * nat) := [(0, 1); (1, 2); (2, 0); (0, 0); (3, 4); (4, 5); (5, 3); (3, 3)]%nat.
Definition six_faces : list (nat * nat * nat) := [(3, 4, 5); (0, 1, 4); (0, 4, 3); (1, 2, 4); (2, 5, 4); (2, 0, 5); (0, 3, 5)]%nat.
Definition pair_dec (a b : nat * nat) : {a = b} + {a <> b}.
Proof. decide equality; apply Nat.eq_dec. Defined.
Definition faces6 (ps : list (list R)) (cs : list (nat * nat)) : list (nat * nat * nat) :=
  if list_eq_dec (list_eq_dec Req_EM_T) ps six then
    if forallb (fun c => if in_dec pair_dec c six_edges then true else false) cs then six_faces else []
  else [].
Lemma six_lawful : lawful (toy (fun p => p) faces6) (fun p => p) (toy_wall (fun p => p) faces6).
Proof.
  assert (F : forall ps cs f, In f (faces6 ps cs) -> ps = six /\ In f six_faces /\ forall e, In e cs -> In e six_edges).
  { intros ps cs f H. unfold faces6 in H. destruct (list_eq_dec (list_eq_dec Req_EM_T) ps six) as [->|]; [|destruct H].
    destruct (forallb _ cs) eqn:E; [|destruct H]. split; [reflexivity|]. split; [exact H|]. intros e He.
    rewrite forallb_forall in E. specialize (E e He). cbv beta in E. destruct (in_dec pair_dec e six_edges); [assumption|discriminate E]. }
  apply toy_lawful.
  - intros ps cs a b c H. destruct (F _ _ _ H) as (-> & K & _). cbn in K. cbn [six length].
    decompose [or] K; try contradiction; match goal with E : (_, _, _) = (a, b, c) |- _ => injection E as <- <- <- end; lia.
  - intros ps cs a b c p q r x H Ha Hb Hc Hx i j y z He Hy Hz Hs. destruct (F _ _ _ H) as (-> & K & Ke). specialize (Ke _ He). clear H F He.
    destruct Hx as (ka & kb & kc & Pa & Pb & Pc & Sm & X0 & X1). destruct Hs as (s & S01 & Y0 & Y1). rewrite X0 in Y0. rewrite X1 in Y1. clear X0 X1.
    cbn in K, Ke. unfold six in *.
    decompose [or] K; try contradiction; match goal with E : (_, _, _) = (a, b, c) |- _ => injection E as <- <- <- end; cbn in Ha, Hb, Hc;
      injection Ha as <-; injection Hb as <-; injection Hc as <-; clear K;
      (decompose [or] Ke; try contradiction; match goal with E : (_, _) = (i, j) |- _ => injection E as <- <- end; cbn in Hy, Hz;
       injection Hy as <-; injection Hz as <-; clear Ke; unfold rc in *; cbn [nth] in *; lra).
Qed.

(** ** The curves *)
Definition tri (p q r : R * R) : Curve R :=
  MkCurve 3 1 [[fst p; snd p; 1]; [fst q; snd q; 1]; [fst r; snd r; 1]; [fst p; snd p; 1]] [0; 0; 1; 2; 3; 3].
Definition holed : Region (list (Curve R)) := MkRegion [tri (0, 0) (6, 0) (0, 6)] [[tri (1, 1) (3, 1) (1, 3)]].

Section Region.
  Local Hint Extern 0 (Scalar R) => exact (ROps eps0 maxv0) : typeclass_instances.

  Lemma tri_ok p q r : curve_ok (tri p q r) /\ curve_eps eps0 (tri p q r) /\ pos_weights (tri p q r).
  Proof.
    split; [|split].
    - constructor; cbn; try lia; [repeat constructor|]. constructor; cbn; try lia; unfold kf; cbn; try lra. repeat constructor; lra.
    - unfold curve_eps, eps_ok, eps0, kf. cbn. lra.
    - intros j Hj. cbn in Hj. unfold cpc, rc. destruct j as [|[|[|[|]]]]; [cbn; lra..|lia].
  Qed.
  Lemma tri_tess p q r rng fuel k : tessellate_compound rng fuel [tri p q r] None k = Ok ([[fst p; snd p]; [fst q; snd q]; [fst r; snd r]; [fst p; snd p]], k).
  Proof.
    destruct (tri_ok p q r) as (H1 & H2 & H3). pose proof (dom_le _ H1) as Hd.
    assert (C : exists b, compound_is_closed [tri p q r] = Ok b).
    { unfold compound_is_closed. cbn [List.last]. rewrite knots_domain_ok by exact H1. cbn [bind].
      destruct (guess_points eps0 maxv0 (tri p q r) (dom0 (tri p q r)) H1 H2 H3 ltac:(lra)) as (a & -> & _). cbn [bind].
      destruct (guess_points eps0 maxv0 (tri p q r) (dom1 (tri p q r)) H1 H2 H3 ltac:(lra)) as (b & -> & _). cbn [bind]. eauto. }
    destruct C as (b & Ec). unfold tessellate_compound. rewrite Ec. cbn [bind].
    assert (E : tessellate rng fuel (tri p q r) None k = Ok ([[fst p; snd p]; [fst q; snd q]; [fst r; snd r]; [fst p; snd p]], k)).
    { unfold tessellate. cbn [tri cdeg Nat.eqb]. unfold dehomogenized_control_points, dehomogenize, coord. cbn [tri cpts cdim mapM nth Nat.sub firstn]. cbv zeta. rs. cbn [mapM nth Nat.sub firstn].
      rewrite (proj2 (Reqb_false 1 0)) by lra. cbn [unwrap bind]. unfold vdivs. cbn [map]. rs. unfold Rdiv. rewrite !Rinv_1, !Rmult_1_r. reflexivity. }
    cbn [tessellate_spans]. rewrite E. cbn [bind]. destruct b; reflexivity.
  Qed.

  (** the loops of the region with a hole are accepted by the triangulation *)
  Example holed_case : exists ext ints, tessellate_compound (fun _ => 1 / 2) 0 (rexterior holed) None 0 = Ok (ext, 0%nat) /\
    tessellate_loops (fun _ => 1 / 2) 0 (rinteriors holed) None 0 = Ok (ints, 0%nat) /\
    (forall l v, In l (ext :: ints) -> In v l -> length v = 2%nat) /\
    lawful (toy (fun p => p) faces6) (fun p => p) (toy_wall (fun p => p) faces6) /\
    loops_accepted (toy (fun p => p) faces6) (dt_empty (toy (fun p => p) faces6)) (ext :: ints) /\
    length (dt_faces (toy (fun p => p) faces6) (fold_left (insert_loop (toy (fun p => p) faces6)) (ext :: ints) (dt_empty (toy (fun p => p) faces6)))) = 7%nat.
  Proof.
    exists [[0; 0]; [6; 0]; [0; 6]; [0; 0]], [[[1; 1]; [3; 1]; [1; 3]; [1; 1]]].
    split; [exact (tri_tess (0, 0) (6, 0) (0, 6) _ 0 0)|]. split.
    { cbn [rinteriors holed tessellate_loops]. rewrite (tri_tess (1, 1) (3, 1) (1, 3) (fun _ => 1 / 2) 0 0). reflexivity. }
    split. { intros l v Hl Hv. cbn in Hl. decompose [or] Hl; subst; try contradiction; cbn in Hv; decompose [or] Hv; subst; try contradiction; reflexivity. }
    split; [exact six_lawful|].
    set (D := toy (fun p => p) faces6).
    assert (NE : forall (a b c d : R), a <> c \/ b <> d -> exists H, list_eq_dec Req_EM_T [a; b] [c; d] = right H).
    { intros a b c d H. destruct (list_eq_dec Req_EM_T [a; b] [c; d]) as [E|N]; [injection E as -> ->; tauto|eauto]. }
    assert (EQ : forall a b : R, exists H, list_eq_dec Req_EM_T [a; b] [a; b] = left H).
    { intros a b. destruct (list_eq_dec Req_EM_T [a; b] [a; b]) as [E|N]; [eauto|elim N; reflexivity]. }
    Ltac dec1 NE EQ := repeat match goal with
      | |- context [list_eq_dec Req_EM_T [?a; ?b] [?a; ?b]] => let H := fresh in let E := fresh in destruct (EQ a b) as (H & E); rewrite E; clear E; cbn [fst snd app]
      | |- context [list_eq_dec Req_EM_T [?a; ?b] [?c; ?d]] => let H := fresh in let E := fresh in destruct (NE a b c d ltac:(first [left; lra|right; lra])) as (H & E); rewrite E; clear E; cbn [fst snd app]
      end.
    assert (I1 : insert_all D (dt_empty D) [[0; 0]; [6; 0]; [0; 6]; [0; 0]] = (([[0; 0]; [6; 0]; [0; 6]], []), [Some 0; Some 1; Some 2; Some 0]%nat)).
    { cbn [insert_all dt_empty dt_insert D toy place fst snd]. dec1 NE EQ. cbn [place fst snd]. dec1 NE EQ. cbn [place fst snd]. dec1 NE EQ. reflexivity. }
    set (t1 := (([[0; 0]; [6; 0]; [0; 6]], [(0, 0); (2, 0); (1, 2); (0, 1)]%nat) : dt D)).
    assert (L1 : insert_loop D (dt_empty D) [[0; 0]; [6; 0]; [0; 6]; [0; 0]] = t1) by (unfold insert_loop; rewrite I1; reflexivity).
    assert (I2 : insert_all D t1 [[1; 1]; [3; 1]; [1; 3]; [1; 1]] = ((six, snd t1), [Some 3; Some 4; Some 5; Some 3]%nat)).
    { cbn [insert_all dt_insert D toy place fst snd t1]. dec1 NE EQ. cbn [place fst snd]. dec1 NE EQ. cbn [place fst snd]. dec1 NE EQ. cbn [place fst snd]. dec1 NE EQ. reflexivity. }
    assert (L2 : insert_loop D t1 [[1; 1]; [3; 1]; [1; 3]; [1; 1]] = (six, [(3, 3); (5, 3); (4, 5); (3, 4); (0, 0); (2, 0); (1, 2); (0, 1)]%nat))
      by (unfold insert_loop; rewrite I2; reflexivity).
    split.
    - cbn [loops_accepted]. rewrite L1. split; [|split; [|exact I]]; unfold loop_accepted; [rewrite I1|rewrite I2]; cbn [app combine edges_accepted];
        (repeat split; do 2 eexists; (split; [reflexivity|]); right; reflexivity).
    - cbn [fold_left]. rewrite L1, L2. cbn [dt_faces D toy fst snd]. rewrite map_id. unfold faces6.
      destruct (list_eq_dec (list_eq_dec Req_EM_T) six six) as [_|N]; [reflexivity|elim N; reflexivity].
  Qed.
End Region.

(** ** A flat sheet and a drop-shaped trimming curve *)
Definition sheet : Surf R := MkSurf 4 1 1 [0; 0; 1; 1] [0; 0; 1; 1] [ [[0; 0; 0; 1]; [0; 1; 0; 1]]; [[1; 0; 0; 1]; [1; 1; 0; 1]] ].
Definition drop_uv : Curve R := MkCurve 3 3 [[1 / 8; 1 / 8; 1]; [1 / 2; 1 / 8; 1]; [1 / 8; 1 / 2; 1]; [1 / 8; 1 / 8; 1]] [0; 0; 0; 0; 1; 1; 1; 1].
Definition trimmed_sheet : Trimmed R := MkTrimmed sheet (Some drop_uv) [].

Lemma sheet_ok : surf_ok sheet.
Proof.
  constructor; cbn; try lia; try (repeat constructor; fail).
  - constructor; cbn; try lia; unfold kf; cbn; try lra. repeat constructor; lra.
  - constructor; cbn; try lia; unfold kf; cbn; try lra. repeat constructor; lra.
Qed.
Lemma sheet_eps : surf_eps eps0 sheet.
Proof. split; unfold eps_ok, eps0, kf; cbn; lra. Qed.
Lemma sheet_pos : spos sheet.
Proof. intros a b Ha Hb. cbn in Ha, Hb. unfold spc, rc. destruct a as [|[|a]]; [| |lia]; (destruct b as [|[|b]]; [| |lia]); cbn; lra. Qed.
Lemma sheet_cont : ucont sheet /\ vcont sheet.
Proof. split; intros j H1 H2; cbn in *; lia. Qed.
Lemma sheet_dom u v : in_dom sheet u v <-> 0 <= u <= 1 /\ 0 <= v <= 1.
Proof. unfold in_dom, u0, u1, v0, v1, kf. cbn. lra. Qed.
Lemma sheet_simple : simple1 (sdu sheet) (nrow sheet - 1) (suk sheet) /\ simple1 (sdv sheet) (ncol sheet - 1) (svk sheet).
Proof. split; intros _ i Hi; cbn in *; assert (i = 1)%nat as -> by lia; unfold kf; cbn; lra. Qed.
Lemma sheet_flat : flat sheet [0; 0; 0] [1; 0; 0] [0; 1; 0].
Proof.
  intros u v i Hd Hi. apply sheet_dom in Hd. destruct Hd as (Hu & Hv). destruct (bern1 u Hu) as (A0 & A1). destruct (bern1 v Hv) as (B0 & B1).
  unfold snurbs, swfun, shcoord, Nu, Nv. change (u1 sheet) with 1. change (v1 sheet) with 1. cbn [sheet nrow ncol snet length nth suk svk sdu sdv sdim rsum Nat.sub].
  change (nrow sheet) with 2%nat. change (ncol sheet) with 2%nat. cbn [rsum]. rewrite A0, A1, B0, B1.
  unfold spc, rc. cbn [sheet snet nth]. destruct i as [|[|[|]]]; [| | |lia]; cbn [nth]; field; lra.
Qed.
Lemma drop_ok : curve_ok drop_uv /\ curve_eps eps0 drop_uv /\ pos_weights drop_uv /\ curve_cont drop_uv.
Proof.
  split; [|split; [|split]].
  - constructor; cbn; try lia; [repeat constructor|]. constructor; cbn; try lia; unfold kf; cbn; try lra. repeat constructor; lra.
  - unfold curve_eps, eps_ok, eps0, kf. cbn. lra.
  - intros j Hj. cbn in Hj. unfold cpc, rc. destruct j as [|[|[|[|]]]]; [cbn; lra..|lia].
  - intros j H1 H2. cbn in *. lia.
Qed.
Lemma drop_range u i : dom0 drop_uv <= u <= dom1 drop_uv -> (i < 2)%nat -> 1 / 8 <= nurbs drop_uv i u <= 1 / 2.
Proof.
  intros Hu Hi. destruct drop_ok as (H1 & H2 & H3 & _). pose proof (wfun_pos eps0 maxv0 drop_uv u H1 H2 H3 Hu) as Wp.
  unfold nurbs. set (N := fun j => cox_closed (kf (cknots drop_uv)) (dom1 drop_uv) (cdeg drop_uv) j u).
  assert (EW : wfun drop_uv u = rsum 4 (fun j => N j * 1)).
  { unfold wfun, hcoord. change (length (cpts drop_uv)) with 4%nat. apply rsum_ext. intros j Hj. fold (N j). f_equal. destruct j as [|[|[|[|]]]]; [reflexivity..|lia]. }
  assert (EH : hcoord drop_uv i u = rsum 4 (fun j => N j * (cpc drop_uv i j * 1))).
  { unfold hcoord. change (length (cpts drop_uv)) with 4%nat. apply rsum_ext. intros j Hj. fold (N j). ring. }
  rewrite EW in Wp. rewrite EW, EH. apply mean_between; auto; try (intros; lra).
  - intros j Hj. apply (cox_nonneg drop_uv j u H1 Hu).
  - intros j Hj. destruct i as [|[|]]; [| |lia]; destruct j as [|[|[|[|]]]]; try lia; unfold cpc, rc; cbn; lra.
Qed.
Lemma drop_trims : trims eps0 drop_uv sheet.
Proof.
  destruct drop_ok as (H1 & H2 & H3 & _). constructor; auto; [exact sheet_ok|exact sheet_eps|exact sheet_pos|].
  intros u Hu. pose proof (drop_range u 0 Hu ltac:(lia)). pose proof (drop_range u 1 Hu ltac:(lia)).
  unfold in_rect, dom_rect. cbn [fst snd]. unfold u0, u1, v0, v1, kf. cbn. lra.
Qed.

Section Invert.
Local Hint Extern 0 (Scalar R) => exact (ROps eps0 maxv0) : typeclass_instances.
(** *** Refuted: inverting a trimmed surface keeps the trimmed region in place *)
Theorem trimmed_invert_moves_refuted :
  exists (ts ts' : Trimmed R) c c' t q p,
    surf_ok (tr_surface ts) /\ tr_exterior ts = Some c /\ curve_ok c /\
    trimmed_invert ts = Ok ts' /\ tr_exterior ts' = Some c' /\ point_at c' t = Ok q /\ surf_point_at (tr_surface ts') (rc 0 q) (rc 1 q) = Ok p /\ rc 0 p = 7 / 8 /\
    forall t' q' p', dom0 c <= t' <= dom1 c -> point_at c t' = Ok q' -> surf_point_at (tr_surface ts) (rc 0 q') (rc 1 q') = Ok p' -> rc 0 p' <= 1 / 2.
Proof.
  destruct drop_ok as (H1 & H2 & H3 & H4). pose proof (dom_le _ H1) as Hd.
  assert (EP : forall t, dom0 drop_uv <= t <= dom1 drop_uv -> exists q, point_at drop_uv t = Ok q /\ length q = 2%nat /\ forall i, (i < 2)%nat -> rc i q = nurbs drop_uv i t)
    by (intros t Ht; exact (guess_points eps0 maxv0 drop_uv t H1 H2 H3 Ht)).
  assert (ES : forall u v, in_dom sheet u v -> exists x, surf_point_at sheet u v = Ok x /\ rc 0 x = u).
  { intros u v Hin. destruct (surf_point_at_spec eps0 maxv0 sheet u v sheet_ok sheet_eps Hin) as (x & E & _ & V).
    { apply Rgt_not_eq. apply (swfun_pos eps0 maxv0 sheet); auto using sheet_ok, sheet_eps, sheet_pos. }
    exists x. split; [exact E|]. rewrite (V 0%nat ltac:(cbn; lia)), (sheet_flat u v 0%nat Hin ltac:(lia)). unfold rc. cbn. ring. }
  destruct (EP (dom0 drop_uv) ltac:(lra)) as (q & Eq & Lq & Vq).
  assert (Q : rc 0 q = 1 / 8 /\ rc 1 q = 1 / 8).
  { assert (St : forall i, (i < 2)%nat -> nurbs drop_uv i (dom0 drop_uv) = 1 / 8).
    { intros i Hi. unfold nurbs, wfun. rewrite !(hcoord_start drop_uv); auto; try (intros j Hj; destruct j as [|[|[|[|]]]]; [reflexivity..|cbn in Hj; lia]).
      unfold cpc, rc. cbn. destruct i as [|[|]]; [cbn; field..|lia]. }
    split; rewrite Vq by lia; apply St; lia. }
  destruct Q as (Q0 & Q1).
  destruct (invert_boundary eps0 maxv0 trimmed_sheet drop_uv (dom0 drop_uv) q) as (ts' & c' & Ei & Ec & _ & Ep & Es).
  - exact sheet_ok.
  - exact sheet_eps.
  - apply sheet_cont.
  - apply sheet_cont.
  - intros c [E|[]]. injection E as <-. auto.
  - reflexivity.
  - lra.
  - exact Eq.
  - assert (M : umirror sheet = 1 /\ vmirror sheet = 1) by (unfold umirror, vmirror, kf; cbn; split; ring). destruct M as (Mu & Mv).
    change (tr_surface trimmed_sheet) with sheet in Es. rewrite Mu, Mv, Q0, Q1 in Es.
    assert (Di : in_dom sheet (1 - 1 / 8) (1 - 1 / 8)) by (apply sheet_dom; lra).
    destruct (ES _ _ Di) as (p & Ex & X0). specialize (Es Di). rewrite Ex in Es.
    exists trimmed_sheet, ts', drop_uv, c', (mirror_c drop_uv - dom0 drop_uv), q, p. rewrite Q0, Q1.
    split; [exact sheet_ok|]. split; [reflexivity|]. split; [exact H1|]. split; [exact Ei|]. split; [exact Ec|]. split; [exact Ep|]. split; [exact Es|]. split; [lra|].
    intros t' q' p' Ht Eq' Ep'. destruct (EP t' Ht) as (q2 & Eq2 & _ & Vq2). rewrite Eq2 in Eq'. injection Eq' as <-.
    pose proof (drop_range t' 0 Ht ltac:(lia)) as R0. pose proof (drop_range t' 1 Ht ltac:(lia)) as R1. rewrite <- Vq2 in R0, R1 by lia.
    destruct (ES (rc 0 q2) (rc 1 q2)) as (x & Ex' & Xx); [apply sheet_dom; lra|]. cbn [tr_surface trimmed_sheet] in Ep'. rewrite Ex' in Ep'. injection Ep' as <-. lra.
Qed.
End Invert.
