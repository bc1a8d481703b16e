(** * Constrained triangulation of loops, choice of the triangles *)
From Coq Require Import Reals Lra Lia List ZArith Bool.
From Verif Require Import Base BaseFacts Scalar RSum KnotFacts VecFacts MiscModel CurveModel SurfaceModel MergeModel AdaptModel SerdeModel
  PolygonProofs PolygonConnected TrimModel TrimSpec.
Import ListNotations.
Open Scope R_scope.

Section Loops.
  Context {V : Type} (D : Delaunay V) (pos : V -> list R) (wall : dt D -> list R -> Prop) (L : lawful D pos wall).

  (** [t'] comes later than [t] *)
  Record later (t t' : dt D) : Prop := {
    lt_pos : exists l, map pos (dt_vertices D t') = map pos (dt_vertices D t) ++ l;
    lt_wall : forall x, wall t x -> wall t' x
  }.
  Lemma later_refl t : later t t.
  Proof. constructor; [exists []; now rewrite app_nil_r|auto]. Qed.
  Lemma later_trans a b c : later a b -> later b c -> later a c.
  Proof.
    intros [(l & E) W] [(l' & E') W']. constructor; [|auto]. exists (l ++ l'). now rewrite E', E, app_assoc.
  Qed.

  (** the handle names a vertex at the position *)
  Definition named (t : dt D) (h : nat) (x : list R) : Prop := nth_error (map pos (dt_vertices D t)) h = Some x.
  Lemma named_later t t' h x : later t t' -> named t h x -> named t' h x.
  Proof.
    intros [(l & E) _] H. unfold named in *. rewrite E. rewrite nth_error_app1; [exact H|]. apply nth_error_Some. now rewrite H.
  Qed.

  Lemma insert_later t v : later t (fst (dt_insert D t v)).
  Proof.
    destruct (dt_insert D t v) as [t' [h|]] eqn:E; cbn [fst].
    - constructor.
      + destruct (lw_insert _ _ _ L _ _ _ _ E) as [(Ev & _)|(l1 & w & l2 & E1 & _ & Ep & E2)].
        * exists [pos v]. now rewrite Ev, map_app.
        * exists []. rewrite E1, E2, app_nil_r, !map_app. cbn [map]. now rewrite Ep.
      + intros x H. apply (lw_keep_insert _ _ _ L t v x) in H. now rewrite E in H.
    - constructor.
      + exists []. now rewrite (lw_refuse _ _ _ L _ _ _ E), app_nil_r.
      + intros x H. apply (lw_keep_insert _ _ _ L t v x) in H. now rewrite E in H.
  Qed.
  Lemma insert_named t v t' h : dt_insert D t v = (t', Some h) -> named t' h (pos v).
  Proof.
    intros E. unfold named. destruct (lw_insert _ _ _ L _ _ _ _ E) as [(Ev & ->)|(l1 & w & l2 & E1 & -> & Ep & E2)].
    - rewrite Ev, map_app. rewrite nth_error_app2 by (rewrite map_length; lia). rewrite map_length, Nat.sub_diag. reflexivity.
    - rewrite E2, map_app. rewrite nth_error_app2 by (rewrite map_length; lia). rewrite map_length, Nat.sub_diag. reflexivity.
  Qed.
  Lemma insert_in t v x : In x (dt_vertices D (fst (dt_insert D t v))) -> In x (dt_vertices D t) \/ x = v.
  Proof.
    destruct (dt_insert D t v) as [t' [h|]] eqn:E; cbn [fst].
    - destruct (lw_insert _ _ _ L _ _ _ _ E) as [(Ev & _)|(l1 & w & l2 & E1 & _ & Ep & E2)].
      + rewrite Ev, in_app_iff. intros [H|[H|[]]]; auto.
      + rewrite E1, E2, !in_app_iff. cbn [In]. intros [H|[H|H]]; auto.
    - rewrite (lw_refuse _ _ _ L _ _ _ E). auto.
  Qed.

  Lemma insert_all_spec vs : forall t t' hs, insert_all D t vs = (t', hs) ->
    later t t' /\ length hs = length vs /\ (forall i v h, nth_error vs i = Some v -> nth_error hs i = Some (Some h) -> named t' h (pos v)) /\
    (forall x, In x (dt_vertices D t') -> In x (dt_vertices D t) \/ In x vs).
  Proof.
    induction vs as [|v vs IH]; intros t t' hs; cbn [insert_all].
    - intros E. injection E as <- <-. split; [apply later_refl|]. split; [reflexivity|]. split; [|auto]. intros [|i] w h H; discriminate H.
    - destruct (dt_insert D t v) as [t1 o] eqn:E1. destruct (insert_all D t1 vs) as [t2 hs2] eqn:E2. intros E. injection E as <- <-.
      destruct (IH _ _ _ E2) as (A & B & C & I).
      assert (A1 : later t t1) by (pose proof (insert_later t v) as K; now rewrite E1 in K).
      split; [exact (later_trans _ _ _ A1 A)|]. split; [cbn; lia|]. split.
      + intros [|i] w h; cbn [nth_error]; [|apply C]. intros Ew Eh. injection Ew as <-. injection Eh as ->.
        apply (named_later t1 t2 h _ A). exact (insert_named _ _ _ _ E1).
      + intros x Hx. apply I in Hx. destruct Hx as [Hx|Hx]; [|right; now right].
        pose proof (insert_in t v x) as K. rewrite E1 in K. destruct (K Hx) as [K'|K']; [now left|right; left; auto].
  Qed.

  Lemma add_edge_later t e : later t (add_edge D t e).
  Proof.
    destruct e as [[a|] [b|]]; cbn [add_edge]; try apply later_refl. destruct (dt_can_add D t a b); [|apply later_refl].
    constructor; [exists []; now rewrite (lw_add _ _ _ L), app_nil_r|]. intros x. apply (lw_keep_add _ _ _ L).
  Qed.
  Lemma add_edge_vertices t e : dt_vertices D (add_edge D t e) = dt_vertices D t.
  Proof. destruct e as [[a|] [b|]]; cbn [add_edge]; try reflexivity. destruct (dt_can_add D t a b); [apply (lw_add _ _ _ L)|reflexivity]. Qed.
  Lemma add_edges_later l : forall t, later t (fold_left (add_edge D) l t).
  Proof.
    induction l as [|e l IH]; intros t; [apply later_refl|]. cbn [fold_left]. exact (later_trans _ _ _ (add_edge_later t e) (IH _)).
  Qed.
  Lemma add_edges_vertices l : forall t, dt_vertices D (fold_left (add_edge D) l t) = dt_vertices D t.
  Proof. induction l as [|e l IH]; intros t; [reflexivity|]. cbn [fold_left]. now rewrite IH, add_edge_vertices. Qed.

  (** [x] lies on an edge with two different ends *)
  Lemma edge_wall t a b p q x : named t a p -> named t b q -> a = b \/ dt_can_add D t a b = true -> on_seg p q x ->
    p = q \/ wall (add_edge D t (Some a, Some b)) x.
  Proof.
    intros Na Nb H Hx. destruct (Nat.eq_dec a b) as [->|Nab]; [left; unfold named in *; congruence|]. right.
    destruct H as [H|H]; [contradiction|]. cbn [add_edge]. rewrite H. unfold named in *.
    rewrite nth_error_map in Na, Nb.
    destruct (nth_error (dt_vertices D t) a) as [va|] eqn:Ea; [|discriminate Na]. injection Na as <-.
    destruct (nth_error (dt_vertices D t) b) as [vb|] eqn:Eb; [|discriminate Nb]. injection Nb as <-.
    exact (lw_wall _ _ _ L t a b va vb x H Ea Eb Hx).
  Qed.

  Lemma edges_walls t0 (l : list (option nat * option nat)) (ps : list (list R * list R)) : length l = length ps ->
    (forall i e o, nth_error l i = Some o -> nth_error ps i = Some e ->
       forall a b, o = (Some a, Some b) -> named t0 a (fst e) /\ named t0 b (snd e)) ->
    edges_accepted D t0 l -> forall e x, In e ps -> on_seg (fst e) (snd e) x -> fst e = snd e \/ wall (fold_left (add_edge D) l t0) x.
  Proof.
    revert t0 ps. induction l as [|o l IH]; intros t0 ps El H Ha e x He Hx; destruct ps as [|p ps]; try discriminate El; [destruct He|].
    cbn [edges_accepted] in Ha. destruct Ha as ((a & b & -> & Hab) & Ha). cbn [fold_left].
    destruct He as [<-|He].
    - destruct (H 0%nat p _ eq_refl eq_refl a b eq_refl) as (Na & Nb). destruct (edge_wall t0 a b _ _ x Na Nb Hab Hx) as [E|W]; [now left|right].
      apply (lt_wall _ _ (add_edges_later l _)). exact W.
    - apply (IH (add_edge D t0 (Some a, Some b)) ps); auto. intros i e' o' E1 E2 a' b' E3.
      destruct (H (S i) e' o' E1 E2 a' b' E3) as (N1 & N2). split; eapply named_later; eauto using add_edge_later.
  Qed.

  Lemma nth_error_combine {A B} (l : list A) (m : list B) i x : nth_error (combine l m) i = Some x ->
    nth_error l i = Some (fst x) /\ nth_error m i = Some (snd x).
  Proof.
    revert m i. induction l as [|a l IH]; intros m i H; destruct m as [|b m]; try (destruct i; discriminate H).
    destruct i as [|i]; cbn in *; [injection H as <-; auto|auto].
  Qed.
  Lemma circ_len {A B} (l : list A) (m : list B) : length l = length m -> length (circular_pairs l) = length (circular_pairs m).
  Proof.
    destruct l as [|a l], m as [|b m]; intros H; try discriminate H; [reflexivity|]. cbn in H. cbn [circular_pairs].
    rewrite !combine_length, !app_length. cbn [length] in *. lia.
  Qed.
  Lemma circ_nth {A} (l : list A) i e : nth_error (circular_pairs l) i = Some e ->
    nth_error l i = Some (fst e) /\ nth_error l (if (S i =? length l)%nat then 0 else S i)%nat = Some (snd e).
  Proof.
    destruct l as [|a l]; [destruct i; discriminate|]. cbn [circular_pairs]. intros H. apply nth_error_combine in H. destruct H as (H1 & H2).
    split; [exact H1|]. assert (Hi : (i < length (a :: l))%nat) by (apply nth_error_Some; congruence).
    destruct (Nat.eqb_spec (S i) (length (a :: l))) as [E|N].
    - rewrite nth_error_app2 in H2 by (cbn in *; lia). cbn in E. replace (i - length l)%nat with 0%nat in H2 by lia. exact H2.
    - rewrite nth_error_app1 in H2 by (cbn in *; lia). exact H2.
  Qed.

  Lemma loop_later t vs : later t (insert_loop D t vs).
  Proof.
    unfold insert_loop. destruct (insert_all D t vs) as [t1 hs] eqn:E. destruct (insert_all_spec vs _ _ _ E) as (A & _).
    exact (later_trans _ _ _ A (add_edges_later _ _)).
  Qed.
  Lemma loop_in t vs x : In x (dt_vertices D (insert_loop D t vs)) -> In x (dt_vertices D t) \/ In x vs.
  Proof.
    unfold insert_loop. destruct (insert_all D t vs) as [t1 hs] eqn:E. destruct (insert_all_spec vs _ _ _ E) as (_ & _ & _ & I).
    rewrite add_edges_vertices. apply I.
  Qed.

  (** the edges of an accepted loop are walls, its points are vertices *)
  Lemma loop_spec t vs : loop_accepted D t vs ->
    (forall e x, In e (edges (map pos vs)) -> on_seg (fst e) (snd e) x -> fst e = snd e \/ wall (insert_loop D t vs) x) /\
    (forall v, In v vs -> exists h, named (insert_loop D t vs) h (pos v)).
  Proof.
    unfold loop_accepted, insert_loop. destruct (insert_all D t vs) as [t1 hs] eqn:E. intros Ha.
    change (match hs with [] => [] | h :: r => combine hs (r ++ [h]) end) with (circular_pairs hs) in Ha.
    destruct (insert_all_spec vs _ _ _ E) as (A & Eh & N & _). split.
    - intros e x He Hx. change (edges (map pos vs)) with (circular_pairs (map pos vs)) in He.
      apply (edges_walls t1 (circular_pairs hs) (circular_pairs (map pos vs))); auto.
      + apply circ_len. now rewrite map_length.
      + intros i e' o Eo Ee a b ->. apply circ_nth in Eo. apply circ_nth in Ee. cbn [fst snd] in Eo. destruct Eo as (O1 & O2). destruct Ee as (E1 & E2).
        rewrite map_length in E2. rewrite Eh in O2. rewrite nth_error_map in E1, E2.
        destruct (nth_error vs i) as [v1|] eqn:V1; [|discriminate E1]. injection E1 as <-.
        destruct (nth_error vs (if (S i =? length vs)%nat then 0 else S i)%nat) as [v2|] eqn:V2; [|discriminate E2]. injection E2 as <-.
        split; [exact (N _ _ _ V1 O1)|exact (N _ _ _ V2 O2)].
    - intros v Hv. apply In_nth_error in Hv. destruct Hv as (i & Hi).
      assert (Li : (i < length vs)%nat) by (apply nth_error_Some; congruence).
      destruct (nth_error hs i) as [o|] eqn:Eo; [|apply nth_error_None in Eo; lia].
      assert (Ho : exists h, o = Some h).
      { assert (G : forall l t, edges_accepted D t l -> forall e, In e l -> exists a b, e = (Some a, Some b)).
        { clear. induction l as [|e l IH]; intros t H e' He; [destruct He|]. destruct H as ((a & b & -> & _) & H). destruct He as [<-|He]; eauto. }
        assert (Hp : exists o', In (o, o') (circular_pairs hs)).
        { destruct hs as [|h hs]; [destruct i; discriminate Eo|]. cbn [circular_pairs].
          assert (Lr : (i < length (hs ++ [h]))%nat) by (rewrite app_length; cbn in *; lia).
          destruct (nth_error (hs ++ [h]) i) as [o'|] eqn:Eo'; [|apply nth_error_None in Eo'; lia].
          exists o'. revert Eo Eo'. generalize (h :: hs) (hs ++ [h]). clear. revert i o o'. induction i as [|i IH]; intros o o' l m Hl Hm.
          - destruct l, m; try discriminate. injection Hl as ->. injection Hm as ->. now left.
          - destruct l, m; try discriminate. right. eapply IH; eauto. }
        destruct Hp as (o' & Hp). destruct (G _ _ Ha _ Hp) as (a & b & Eab). exists a. congruence. }
      destruct Ho as (h & ->). exists h. apply (named_later t1); [apply add_edges_later|]. exact (N _ _ _ Hi Eo).
  Qed.

  Lemma loops_later loops : forall t, later t (fold_left (insert_loop D) loops t).
  Proof. induction loops as [|l loops IH]; intros t; [apply later_refl|]. exact (later_trans _ _ _ (loop_later t l) (IH _)). Qed.

  Lemma loops_spec loops : forall t, loops_accepted D t loops -> forall l, In l loops ->
    (forall e x, In e (edges (map pos l)) -> on_seg (fst e) (snd e) x -> fst e = snd e \/ wall (fold_left (insert_loop D) loops t) x) /\
    (forall v, In v l -> exists h, named (fold_left (insert_loop D) loops t) h (pos v)).
  Proof.
    induction loops as [|l0 loops IH]; intros t Ha l Hl; [destruct Hl|]. destruct Ha as (H0 & Ha). cbn [fold_left]. destruct Hl as [<-|Hl].
    - destruct (loop_spec t l0 H0) as (W & N). pose proof (loops_later loops (insert_loop D t l0)) as Lt. split.
      + intros e x He Hx. destruct (W e x He Hx) as [E|W']; [now left|right]. exact (lt_wall _ _ Lt x W').
      + intros v Hv. destruct (N v Hv) as (h & Nh). exists h. exact (named_later _ _ _ _ Lt Nh).
    - apply (IH (insert_loop D t l0) Ha l Hl).
  Qed.
  Lemma loops_in loops : forall t x, In x (dt_vertices D (fold_left (insert_loop D) loops t)) -> In x (dt_vertices D t) \/ exists l, In l loops /\ In x l.
  Proof.
    induction loops as [|l loops IH]; intros t x; cbn [fold_left]; [auto|]. intros H. apply IH in H. destruct H as [H|(l' & H1 & H2)].
    - apply loop_in in H. destruct H as [H|H]; [now left|right; exists l; split; [now left|exact H]].
    - right. exists l'. split; [now right|exact H2].
  Qed.
End Loops.

(** ** The triangles *)
Lemma in_triangle_convex p q r x y z : in_triangle p q r x -> in_triangle p q r y -> on_seg x y z -> in_triangle p q r z.
Proof.
  intros (a & b & c & Ha & Hb & Hc & E & E0 & E1) (a' & b' & c' & Ha' & Hb' & Hc' & E' & E0' & E1') (s & Hs & Z0 & Z1).
  exists (a + s * (a' - a)), (b + s * (b' - b)), (c + s * (c' - c)).
  assert (P : forall u v, 0 < u -> 0 < v -> 0 < u + s * (v - u)).
  { intros u v Hu Hv. destruct (Req_dec s 1) as [->|N]; [lra|]. assert (0 < (1 - s) * u) by (apply Rmult_lt_0_compat; lra).
    assert (0 <= s * v) by (apply Rmult_le_pos; lra). lra. }
  split; [now apply P|]. split; [now apply P|]. split; [now apply P|]. split.
  - replace (a + s * (a' - a) + (b + s * (b' - b)) + (c + s * (c' - c))) with ((a + b + c) + s * ((a' + b' + c') - (a + b + c))) by ring. rewrite E, E'. ring.
  - split; [rewrite Z0, E0, E0'|rewrite Z1, E1, E1']; ring.
Qed.

Section Real.
  Variables eps maxv : R.
  Local Hint Extern 0 (Scalar R) => exact (ROps eps maxv) : typeclass_instances.

  (** inside the outer loop and outside of the holes *)
  Definition inside (exterior : option (list (list R))) (interiors : list (list (list R))) (x : list R) : Prop :=
    match exterior with Some e => polygon_contains e x = true | None => True end /\
    forall i, In i interiors -> polygon_contains i x = false.
  Definition centroid (p q r : list R) : list R := vscale (vadd (vadd p q) r) (1 / 3).

  Lemma keep_triangle_spec ext ints (p q r : list R) : length p = 2%nat -> length q = 2%nat -> length r = 2%nat ->
    (keep_triangle ext ints p q r = true <-> eps <= Rabs (turn p q r) /\ inside ext ints (centroid p q r)).
  Proof.
    intros Lp Lq Lr. unfold keep_triangle. rewrite !(coord_rc eps maxv). rs.
    rewrite !rc_vsub by congruence.
    replace ((rc 0 q - rc 0 p) * (rc 1 r - rc 1 q) - (rc 1 q - rc 1 p) * (rc 0 r - rc 0 q)) with (turn p q r) by (unfold turn; ring).
    change (vscale (vadd (vadd p q) r) (1 / 3)) with (centroid p q r).
    destruct (Rltb_spec (Rabs (turn p q r)) eps) as [H|H].
    - split; [discriminate|]. intros (K & _). lra.
    - unfold inside. rewrite andb_true_iff, negb_true_iff. split.
      + intros (K1 & K2). split; [lra|]. split; [destruct ext; [exact K1|exact I]|]. intros i Hi.
        destruct (polygon_contains i (centroid p q r)) eqn:E; [|reflexivity]. exfalso.
        assert (existsb (fun i => polygon_contains i (centroid p q r)) ints = true) by (apply existsb_exists; eauto). congruence.
      + intros (_ & K1 & K2). split; [destruct ext; auto|]. apply not_true_is_false. intros E. apply existsb_exists in E. destruct E as (i & Hi & E).
        rewrite (K2 i Hi) in E. discriminate E.
  Qed.

  Lemma keep_faces_spec {V} (pos : V -> list R) ext ints verts faces kept : keep_faces pos ext ints verts faces = Ok kept ->
    forall a b c, In (a, b, c) kept <->
      In (a, b, c) faces /\ exists va vb vc, nth_error verts a = Some va /\ nth_error verts b = Some vb /\ nth_error verts c = Some vc /\
        keep_triangle ext ints (pos va) (pos vb) (pos vc) = true.
  Proof.
    revert kept. induction faces as [|[[a0 b0] c0] faces IH]; intros kept E a b c; cbn [keep_faces] in E.
    - injection E as <-. split; [intros []|intros ([] & _)].
    - apply bind_ok in E. destruct E as (va & Ea & E). apply bind_ok in E. destruct E as (vb & Eb & E). apply bind_ok in E. destruct E as (vc & Ec & E).
      apply bind_ok in E. destruct E as (rest & Er & E). injection E as <-.
      assert (G : forall l i (x : V), get l i = Ok x -> nth_error l i = Some x).
      { intros l i x. unfold get. destruct (nth_error l i); [now injection 1 as ->|discriminate]. }
      apply G in Ea. apply G in Eb. apply G in Ec. specialize (IH rest Er a b c).
      destruct (keep_triangle ext ints (pos va) (pos vb) (pos vc)) eqn:Ek; cbn [In]; rewrite IH; split.
      + intros [H|(H1 & H2)]; [injection H as <- <- <-; split; [now left|]; exists va, vb, vc; auto|split; auto].
      + intros ([H|H] & K); [left; exact H|right; auto].
      + intros (H1 & H2). split; auto.
      + intros ([H|H] & K); [|auto]. injection H as <- <- <-. destruct K as (xa & xb & xc & X1 & X2 & X3 & X4).
        rewrite Ea in X1. rewrite Eb in X2. rewrite Ec in X3. congruence.
  Qed.
  Lemma keep_faces_total {V} (pos : V -> list R) ext ints verts faces :
    (forall a b c, In (a, b, c) faces -> (a < length verts)%nat /\ (b < length verts)%nat /\ (c < length verts)%nat) ->
    exists kept, keep_faces pos ext ints verts faces = Ok kept.
  Proof.
    induction faces as [|[[a b] c] faces IH]; intros H; cbn [keep_faces]; [eauto|].
    destruct (H a b c (or_introl eq_refl)) as (Ha & Hb & Hc).
    assert (G : forall i, (i < length verts)%nat -> exists v, get verts i = Ok v).
    { intros i Hi. unfold get. destruct (nth_error verts i) eqn:E; [eauto|]. apply nth_error_None in E. lia. }
    destruct (G a Ha) as (va & Ea). destruct (G b Hb) as (vb & Eb). destruct (G c Hc) as (vc & Ec).
    destruct IH as (rest & Er); [intros; apply H; now right|].
    rewrite Ea. cbn [bind]. rewrite Eb. cbn [bind]. rewrite Ec. cbn [bind]. rewrite Er. cbn [bind]. eauto.
  Qed.

  Lemma centroid_in p q r : length p = 2%nat -> length q = 2%nat -> length r = 2%nat -> in_triangle p q r (centroid p q r).
  Proof.
    intros Lp Lq Lr. exists (1 / 3), (1 / 3), (1 / 3). split; [lra|]. split; [lra|]. split; [lra|]. split; [lra|].
    unfold centroid. assert (Lv : length (vadd p q) = 2%nat) by (apply vadd_length; auto).
    rewrite !rc_vscale, !rc_vadd by congruence. split; lra.
  Qed.

  (** walls that contain the loops make a triangle lie entirely inside or outside *)
  Lemma triangle_uniform (w : list R -> Prop) ext ints p q r : 
    (forall l, (ext = Some l \/ In l ints) -> forall e x, In e (edges l) -> on_seg (fst e) (snd e) x -> fst e = snd e \/ w x) ->
    (forall x, in_triangle p q r x -> ~ w x) ->
    forall x y, in_triangle p q r x -> in_triangle p q r y -> inside ext ints x -> inside ext ints y.
  Proof.
    intros Hw Hc x y Hx Hy (I1 & I2).
    assert (C : forall l, (ext = Some l \/ In l ints) -> polygon_contains l x = polygon_contains l y).
    { intros l Hl. unfold polygon_contains. rewrite (winding_avoids eps maxv l x y); [reflexivity|].
      intros e He. destruct (Req_dec (rc 0 (fst e)) (rc 0 (snd e))) as [E0|N0]; [destruct (Req_dec (rc 1 (fst e)) (rc 1 (snd e))) as [E1|N1]|].
      - left. split; assumption.
      - right. intros z Hz Hz'. destruct (Hw l Hl e z He Hz') as [E|W]; [congruence|]. exact (Hc z (in_triangle_convex p q r x y z Hx Hy Hz) W).
      - right. intros z Hz Hz'. destruct (Hw l Hl e z He Hz') as [E|W]; [congruence|]. exact (Hc z (in_triangle_convex p q r x y z Hx Hy Hz) W). }
    split.
    - destruct ext as [l|]; [|exact I]. rewrite <- (C l (or_introl eq_refl)). exact I1.
    - intros i Hi. rewrite <- (C i (or_intror Hi)). exact (I2 i Hi).
  Qed.
End Real.
