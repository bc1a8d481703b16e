(** * Adaptive tessellation with prescribed boundary parameters: which vertices a mesh has *)
From Coq Require Import String ZArith Lia List.
From Verif Require Import Base BaseFacts Scalar KnotModel MiscModel CurveModel SurfaceModel AdaptModel AdaptProofs AdaptForest AdaptSurface.
Import ListNotations.
Local Open Scope nat_scope.

Section Any.
  Context {T : Type} {SO : Scalar T}.
  Variable s : Surf T.

  Definition corners_sat (P : SPoint T -> Prop) (n : ANode T) : Prop := forall e, P (four (an_corners n) e).

  Lemma edge_sat (P : SPoint T -> Prop) nodes : Forall (corners_sat P) nodes -> forall fuel id e l, get_edge_corners fuel nodes id e = Ok l -> Forall P l.
  Proof.
    intros HN. induction fuel as [|fuel IH]; intros id e l E; [discriminate|]. cbn [get_edge_corners] in E. apply bind_ok in E. destruct E as (n & En & E).
    assert (Hn : corners_sat P n).
    { apply nth_error_get, nth_error_In in En. rewrite Forall_forall in HN. auto. }
    destruct (an_children n) as [[c0 c1]|].
    - destruct (an_dir n), e; try (now apply IH in E); apply bind_ok in E; destruct E as (a & Ea & E); apply bind_ok in E; destruct E as (b & Eb & E); injection E as <-;
        apply Forall_app; split; eapply IH; eauto.
    - injection E as <-. constructor; [apply Hn|constructor].
  Qed.
  Lemma all_corners_sat (P : SPoint T -> Prop) nodes n e l : Forall (corners_sat P) nodes -> corners_sat P n -> get_all_corners nodes n e = Ok l ->
    Forall P l /\ In (four (an_corners n) e) l.
  Proof.
    intros HN Hn E. unfold get_all_corners in E. destruct (four (an_nb n) e) as [nb|].
    - apply bind_ok in E. destruct E as (cs & Ec & E). injection E as <-. apply (edge_sat P nodes HN) in Ec. split; [|now left]. constructor; [apply Hn|].
      apply Forall_rev. rewrite Forall_forall in *. intros x Hx. apply filter_In in Hx. apply Ec. tauto.
    - injection E as <-. split; [|now left]. constructor; [apply Hn|constructor].
  Qed.

  (** the polygon of a leaf: corners of leaves, snapped *)
  Lemma polygon_sat (P : SPoint T -> Prop) nodes b n sid pts : Forall (corners_sat P) nodes -> corners_sat P n -> leaf_polygon nodes (Some b) n = Ok (sid, pts) ->
    exists raw, Forall2 (fun p q => snap b p = Ok q) raw pts /\ Forall P raw /\ forall e, In (four (an_corners n) e) raw.
  Proof.
    intros HN Hn EL. unfold leaf_polygon in EL. apply bind_ok in EL. destruct EL as (cs & Ecs & EL). apply bind_ok in EL. destruct EL as (ps & Eps & EL). injection EL as _ <-.
    exists (concat cs). split; [now apply mapM_inv|].
    assert (G : forall es cs, Forall2 (fun e l => get_all_corners nodes n e = Ok l) es cs -> Forall P (concat cs) /\ forall e, In e es -> In (four (an_corners n) e) (concat cs)).
    { induction 1 as [|e l es' cs' H F IH]; [split; [constructor|intros e []]|]. cbn [concat]. destruct IH as (I1 & I2).
      destruct (all_corners_sat P nodes n e l HN Hn H) as (A & B). split; [now apply Forall_app|].
      intros e' [<-|He']; apply in_or_app; [now left|right; auto]. }
    apply mapM_inv in Ecs. apply G in Ecs. destruct Ecs as (A & B). split; [exact A|]. intros e. apply B. destruct e; cbn; tauto.
  Qed.

  Lemma combine_app {A B} (a a' : list A) (b b' : list B) : length a = length b -> combine (a ++ a') (b ++ b') = combine a b ++ combine a' b'.
  Proof. revert b. induction a as [|x a IH]; intros [|y b] H; try discriminate; [reflexivity|]. cbn [app combine]. f_equal. apply IH. cbn in H. lia. Qed.
  Lemma combine_map_pair {A B C} (f : A -> B) (g : A -> C) l : combine (map f l) (map g l) = map (fun x => (f x, g x)) l.
  Proof. induction l as [|x l IH]; [reflexivity|]. cbn [map combine]. now rewrite IH. Qed.

  (** what the mesh of a list of nodes consists of *)
  Definition verts (m : Tess T) : list ((T * T) * list T) := combine (tuvs m) (tpts m).
  Definition balanced (m : Tess T) : Prop := length (tuvs m) = length (tpts m).
  Lemma triangulate_verts nodes b m n m' : balanced m -> triangulate s nodes b m n = Ok m' ->
    balanced m' /\
    ((an_children n <> None /\ m' = m) \/
     (an_children n = None /\ exists sid pts tail, leaf_polygon nodes b n = Ok (sid, pts) /\
        verts m' = verts m ++ map (fun p => (sp_uv p, sp_point p)) pts ++ tail /\ tuvs m' = tuvs m ++ map sp_uv pts ++ map fst tail /\
        (forall x, In x tail -> fst x = an_center n))).
  Proof.
    intros HM E. unfold triangulate in E. destruct (an_children n); [injection E as <-; split; [exact HM|left; split; [discriminate|reflexivity]]|].
    apply bind_ok in E. destruct E as ([sid pts] & EL & E). cbv zeta in E. unfold balanced, verts in *.
    destruct (length pts =? 4); [|destruct (length pts =? 5)].
    - injection E as <-. cbn [tuvs tpts]. split; [rewrite !app_length, !map_length; lia|]. right. split; [reflexivity|]. exists sid, pts, [].
      split; [exact EL|]. rewrite app_nil_r, combine_app, combine_map_pair by exact HM. cbn [map]. rewrite app_nil_r. repeat split; auto. intros x [].
    - apply bind_ok in E. destruct E as (a & _ & E). injection E as <-. cbn [tuvs tpts]. split; [rewrite !app_length, !map_length; lia|]. right. split; [reflexivity|]. exists sid, pts, [].
      split; [exact EL|]. rewrite app_nil_r, combine_app, combine_map_pair by exact HM. cbn [map]. rewrite app_nil_r. repeat split; auto. intros x [].
    - apply bind_ok in E. destruct E as (c & Ec & E). apply bind_ok in E. destruct E as (k & _ & E). injection E as <-. cbn [tuvs tpts].
      split; [rewrite !app_length, !map_length; cbn [length]; lia|]. right. split; [reflexivity|]. exists sid, pts, [(sp_uv c, sp_point c)].
      split; [exact EL|]. rewrite <- !app_assoc, combine_app, combine_app, combine_map_pair by (rewrite ?map_length; auto). cbn [map fst combine]. repeat split; auto.
      intros x [<-|[]]. cbn [fst]. now apply evaluate_uv in Ec.
  Qed.
  Lemma tess_sat (Q : T * T -> Prop) nodes b m : 
    (forall n sid pts, In n nodes -> an_children n = None -> leaf_polygon nodes b n = Ok (sid, pts) -> Forall (fun p => Q (sp_uv p)) pts) ->
    (forall n, In n nodes -> Q (an_center n)) ->
    foldM (triangulate s nodes b) nodes (MkTess [] [] [] []) = Ok m -> Forall Q (tuvs m).
  Proof.
    intros H1 H2 E.
    assert (G : forall l m0, (forall n, In n l -> In n nodes) -> balanced m0 -> Forall Q (tuvs m0) -> foldM (triangulate s nodes b) l m0 = Ok m -> Forall Q (tuvs m)).
    { induction l as [|n l IH]; intros m0 Hl HB HQ E0; cbn [foldM] in E0; [injection E0 as <-; exact HQ|].
      apply bind_ok in E0. destruct E0 as (m1 & E1 & E0). destruct (triangulate_verts nodes b m0 n m1 HB E1) as (HB1 & [(_ & ->)|(Cn & sid & pts & tail & EL & _ & EU & HT)]).
      - apply (IH m0); auto. intros n' Hn'. apply Hl. now right.
      - apply (IH m1); auto; [intros n' Hn'; apply Hl; now right|]. rewrite EU. apply Forall_app. split; [exact HQ|]. apply Forall_app. split.
        + specialize (H1 n sid pts (Hl n (or_introl eq_refl)) Cn EL). clear - H1. induction H1; cbn [map]; constructor; auto.
        + apply Forall_forall. intros x Hx. apply in_map_iff in Hx. destruct Hx as (y & <- & Hy). rewrite (HT y Hy). apply H2. apply Hl. now left. }
    apply (G nodes (MkTess [] [] [] [])); auto; [reflexivity|constructor].
  Qed.
  Lemma tess_has nodes b m n : In n nodes -> an_children n = None -> foldM (triangulate s nodes b) nodes (MkTess [] [] [] []) = Ok m ->
    exists sid pts, leaf_polygon nodes b n = Ok (sid, pts) /\ forall p, In p pts -> In (sp_uv p, sp_point p) (verts m).
  Proof.
    intros Hn Cn.
    assert (G : forall l m0, balanced m0 -> foldM (triangulate s nodes b) l m0 = Ok m ->
              (forall x, In x (verts m0) -> In x (verts m)) /\
              (In n l -> exists sid pts, leaf_polygon nodes b n = Ok (sid, pts) /\ forall p, In p pts -> In (sp_uv p, sp_point p) (verts m))).
    { induction l as [|n0 l IH]; intros m0 HB E0; cbn [foldM] in E0; [injection E0 as <-; split; [auto|intros []]|].
      apply bind_ok in E0. destruct E0 as (m1 & E1 & E0). destruct (triangulate_verts nodes b m0 n0 m1 HB E1) as (HB1 & [(Cn0 & ->)|(Cn0 & sid & pts & tail & EL & EV & _ & _)]).
      - destruct (IH m0 HB E0) as (A & B). split; [exact A|]. intros [->|Hin]; [congruence|auto].
      - destruct (IH m1 HB1 E0) as (A & B). split.
        + intros x Hx. apply A. rewrite EV. apply in_or_app. now left.
        + intros [->|Hin]; [|auto]. exists sid, pts. split; [exact EL|]. intros p Hp. apply A. rewrite EV. apply in_or_app. right. apply in_or_app. left.
          apply in_map_iff. eauto. }
    intros E. apply (G nodes (MkTess [] [] [] []) eq_refl E). exact Hn.
  Qed.

  (** ** Corners of the grid survive subdivision *)
  Definition like (p q : SPoint T) : Prop :=
    sp_uv p = sp_uv q /\ sp_point p = sp_point q /\ sp_umin p = sp_umin q /\ sp_umax p = sp_umax q /\ sp_vmin p = sp_vmin q /\ sp_vmax p = sp_vmax q.
  Lemma like_trans a b c : like a b -> like b c -> like a c.
  Proof. unfold like. intros (A1 & A2 & A3 & A4 & A5 & A6) (B1 & B2 & B3 & B4 & B5 & B6). repeat split; congruence. Qed.
  Lemma like_refl a : like a a.
  Proof. unfold like. tauto. Qed.
  Lemma fix_like p a b : like (fix_normal p a b) p.
  Proof. unfold fix_normal. destruct (sp_degen p); unfold like, with_normal; cbn; tauto. Qed.
  Definition kept (p : SPoint T) (nodes : list (ANode T)) : Prop :=
    exists j n e, nth_error nodes j = Some n /\ an_children n = None /\ like (four (an_corners n) e) p.
  Lemma should_divide_like o depth n n' d : should_divide o depth n = (n', d) ->
    an_children n' = an_children n /\ forall e, like (four (an_corners n') e) (four (an_corners n) e).
  Proof.
    intros E. unfold should_divide in E.
    destruct (depth <? ao_min_depth o); [injection E as <- <-; split; [reflexivity|intros; apply like_refl]|].
    destruct (ao_max_depth o <=? depth); [injection E as <- <-; split; [reflexivity|intros; apply like_refl]|].
    destruct (has_bad_normals (an_corners n)).
    - injection E as <- <-. cbn [an_corners an_children]. split; [reflexivity|]. unfold fix_normals. cbv zeta. intros []; apply fix_like.
    - cbv zeta in E. repeat match type of E with (if ?a then _ else _) = _ => destruct a end; injection E as <- <-; split; try reflexivity; intros; apply like_refl.
  Qed.
  Lemma nth_error_upd {A} (l : list A) i j v : nth_error (upd l i v) j = if Nat.eqb i j then (if j <? length l then Some v else None) else nth_error l j.
  Proof.
    revert i j. induction l as [|a l IH]; intros [|i] [|j]; cbn [upd nth_error Nat.eqb]; try reflexivity.
    - destruct (Nat.eqb i j); reflexivity.
    - rewrite IH. destruct (Nat.eqb i j); reflexivity.
  Qed.
  Lemma iterate_kept o p : forall fuel nodes id depth dir nodes', iterate fuel s o nodes id depth dir = Ok nodes' -> kept p nodes -> kept p nodes'.
  Proof.
    induction fuel as [|fuel IH]; intros nodes id depth dir nodes' E (j & n & e & Ej & Cn & Hl); [discriminate|]. cbn [iterate] in E.
    apply bind_ok in E. destruct E as (n0 & En0 & E). apply nth_error_get in En0.
    destruct (should_divide o depth n0) as [n' [dv|]] eqn:Es; apply should_divide_like in Es; destruct Es as (Cc & HL).
    - apply bind_ok in E. destruct E as ([c0 c1] & Esp & E). apply bind_ok in E. destruct E as (nodes1 & E1 & E). apply bind_ok in E. destruct E as (nodes2 & E2 & E).
      apply set_inv in E1. destruct E1 as (Hid & ->). refine (IH _ _ _ _ _ E (IH _ _ _ _ _ E2 _)).
      set (d := match dv with DivBoth => dir | DivU => DirU | DivV => DirV end) in *.
      destruct (Nat.eq_dec id j) as [<-|Hne].
      + rewrite En0 in Ej. injection Ej as <-.
        assert (L : forall v, length (upd nodes id v) = length nodes) by (intros; apply upd_length).
        assert (K : (an_children c0 = None /\ an_children c1 = None) /\ exists i e', (i < 2)%nat /\ like (four (an_corners (nth i [c0; c1] c0)) e') p).
        { unfold split_node in Esp. cbv zeta in Esp. specialize (HL e).
          destruct d; apply bind_ok in Esp; destruct Esp as (x & _ & Esp); apply bind_ok in Esp; destruct Esp as (y & _ & Esp); injection Esp as <- <-;
            (split; [split; reflexivity|]); pose proof (like_trans _ _ _ HL Hl) as HL'; destruct e; cbn [four] in HL';
            first [exists 0, South; split; [lia|exact HL'] | exists 0, East; split; [lia|exact HL'] | exists 0, North; split; [lia|exact HL'] | exists 0, West; split; [lia|exact HL']
                  |exists 1, South; split; [lia|exact HL'] | exists 1, East; split; [lia|exact HL'] | exists 1, North; split; [lia|exact HL'] | exists 1, West; split; [lia|exact HL']]. }
        destruct K as ((K0 & K1) & i & e' & Hi & HK). exists (length nodes + i)%nat, (nth i [c0; c1] c0), e'.
        split; [|split; [|exact HK]].
        * rewrite nth_error_app2 by (rewrite L; lia). rewrite L. replace (length nodes + i - length nodes) with i by lia. destruct i as [|[|i]]; [reflexivity|reflexivity|lia].
        * destruct i as [|[|i]]; [exact K0|exact K1|lia].
      + exists j, n, e. split; [|auto]. rewrite nth_error_app1 by (rewrite upd_length; apply nth_error_Some; congruence).
        rewrite nth_error_upd. destruct (Nat.eqb_spec id j); [congruence|exact Ej].
    - apply set_inv in E. destruct E as (Hid & ->). destruct (Nat.eq_dec id j) as [<-|Hne].
      + rewrite En0 in Ej. injection Ej as <-. exists id, n', e. rewrite nth_error_upd, Nat.eqb_refl. destruct (Nat.ltb_spec id (length nodes)); [|lia].
        split; [reflexivity|]. split; [congruence|]. eapply like_trans; [apply HL|exact Hl].
      + exists j, n, e. split; [|auto]. rewrite nth_error_upd. destruct (Nat.eqb_spec id j); [congruence|exact Ej].
  Qed.

  (** ** Snapping *)
  Definition snap_side (b : BEval T) (p : SPoint T) (l : list (SPoint T)) : Prop :=
    (sp_umin p = true /\ be_u_vmin b = Some l) \/ (sp_umax p = true /\ be_u_vmax b = Some l) \/
    (sp_vmin p = true /\ be_v_umin b = Some l) \/ (sp_vmax p = true /\ be_v_umax b = Some l).
  Lemma snap_cases b p q : snap b p = Ok q ->
    (exists l, snap_side b p l /\ closest_of p l = Ok q) \/
    (q = p /\ forall l, ~ snap_side b p l).
  Proof.
    unfold snap, snap_side. cbv zeta.
    destruct (sp_umin p) eqn:F1; [destruct (be_u_vmin b) as [l1|] eqn:B1; [intros E; left; exists l1; split; [tauto|exact E]|]|];
    (destruct (sp_umax p) eqn:F2; [destruct (be_u_vmax b) as [l2|] eqn:B2; [intros E; left; exists l2; split; [tauto|exact E]|]|]);
    (destruct (sp_vmin p) eqn:F3; [destruct (be_v_umin b) as [l3|] eqn:B3; [intros E; left; exists l3; split; [tauto|exact E]|]|]);
    (destruct (sp_vmax p) eqn:F4; [destruct (be_v_umax b) as [l4|] eqn:B4; [intros E; left; exists l4; split; [tauto|exact E]|]|]);
    (intros E; injection E as <-; right; split; [reflexivity|]; intros l [(A & B)|[(A & B)|[(A & B)|(A & B)]]]; congruence).
  Qed.
  Lemma closest_in p l q : closest_of p l = Ok q -> In q l.
  Proof.
    destruct l as [|a l]; cbn [closest_of]; [discriminate|]. intros E. injection E as <-.
    set (f := fun m x => _). assert (G : forall l a, In (fold_left f l a) (a :: l)).
    { clear l a. induction l as [|x l IH]; intros a; [now left|]. cbn [fold_left]. destruct (IH (f a x)) as [H|H]; [|right; now right].
      rewrite <- H. unfold f. destruct (_ <? _)%S; [right; now left|now left]. }
    apply G.
  Qed.

  (** the evaluated boundary: the listed parameters, on their side *)
  Definition listed (c : BCons T) (ua ub va vb : T) (uv : T * T) : Prop :=
    (exists l, bc_u_vmin c = Some l /\ In (fst uv) l /\ snd uv = va) \/ (exists l, bc_u_vmax c = Some l /\ In (fst uv) l /\ snd uv = vb) \/
    (exists l, bc_v_umin c = Some l /\ In (snd uv) l /\ fst uv = ua) \/ (exists l, bc_v_umax c = Some l /\ In (snd uv) l /\ fst uv = ub).
  Definition at_params (f : T -> T * T) (ps : option (list T)) (o : option (list (SPoint T))) : Prop :=
    match ps, o with
    | Some l, Some r => Forall2 (fun t p => sp_uv p = f t /\ sp_on s p) l r
    | None, None => True
    | _, _ => False
    end.
  Lemma boundary_points_at f ps o : boundary_points s f ps = Ok o -> at_params f ps o.
  Proof.
    destruct ps as [l|]; cbn [boundary_points]; [|intros E; now injection E as <-]. intros E. apply bind_ok in E. destruct E as (r & Er & E). injection E as <-.
    apply mapM_inv in Er. cbn [at_params]. induction Er as [|t p l r H F IH]; constructor; auto. split; [|now apply boundary_on in H].
    unfold boundary_point in H. do 4 (apply bind_ok in H; destruct H as (? & _ & H)). now injection H as <-.
  Qed.
  Lemma boundary_evaluation_at c b : boundary_evaluation s c = Ok b -> exists ua ub va vb, domain (suk s) (sdu s) = Ok (ua, ub) /\ domain (svk s) (sdv s) = Ok (va, vb) /\
    at_params (fun u => (u, va)) (bc_u_vmin c) (be_u_vmin b) /\ at_params (fun u => (u, vb)) (bc_u_vmax c) (be_u_vmax b) /\
    at_params (fun v => (ua, v)) (bc_v_umin c) (be_v_umin b) /\ at_params (fun v => (ub, v)) (bc_v_umax c) (be_v_umax b).
  Proof.
    unfold boundary_evaluation. intros E. apply bind_ok in E. destruct E as ([ua ub] & Eu & E). apply bind_ok in E. destruct E as ([va vb] & Ev & E).
    apply bind_ok in E. destruct E as (a & Ea & E). apply bind_ok in E. destruct E as (b' & Eb & E). apply bind_ok in E. destruct E as (x & Ex & E).
    apply bind_ok in E. destruct E as (y & Ey & E). injection E as <-. exists ua, ub, va, vb. apply boundary_points_at in Ea, Eb, Ex, Ey. auto 10.
  Qed.
  Lemma at_params_in f ps l q : at_params f ps (Some l) -> In q l -> exists r t, ps = Some r /\ In t r /\ sp_uv q = f t.
  Proof.
    destruct ps as [r|]; cbn [at_params]; [|contradiction]. intros F H. exists r. revert H. induction F as [|t p r l (A & _) F IH]; [intros []|]. intros [<-|H].
    - exists t. split; [reflexivity|]. split; [now left|exact A].
    - destruct (IH H) as (t' & _ & B & C). exists t'. split; [reflexivity|]. split; [now right|exact C].
  Qed.
  Lemma at_params_of f r o t : at_params f (Some r) o -> In t r -> exists l q, o = Some l /\ In q l /\ sp_uv q = f t /\ sp_on s q.
  Proof.
    destruct o as [l|]; cbn [at_params]; [|contradiction]. intros F H. exists l. revert H. induction F as [|t' p r l (A & B) F IH]; [intros []|]. intros [->|H].
    - exists p. split; [reflexivity|]. split; [now left|auto].
    - destruct (IH H) as (q & E & C & D). exists q. split; [reflexivity|]. split; [now right|auto].
  Qed.
  Lemma snapped_listed c b p q : boundary_evaluation s c = Ok b -> snap b p = Ok q ->
    exists ua ub va vb, domain (suk s) (sdu s) = Ok (ua, ub) /\ domain (svk s) (sdv s) = Ok (va, vb) /\
      (listed c ua ub va vb (sp_uv q) \/
       (q = p /\ (sp_umin p = true -> bc_u_vmin c = None) /\ (sp_umax p = true -> bc_u_vmax c = None) /\ (sp_vmin p = true -> bc_v_umin c = None) /\ (sp_vmax p = true -> bc_v_umax c = None))).
  Proof.
    intros EB ES. destruct (boundary_evaluation_at c b EB) as (ua & ub & va & vb & Du & Dv & A1 & A2 & A3 & A4). exists ua, ub, va, vb. split; [exact Du|]. split; [exact Dv|].
    destruct (snap_cases b p q ES) as [(l & HS & EC)|(-> & HN)].
    - left. apply closest_in in EC. unfold listed. destruct HS as [(_ & B)|[(_ & B)|[(_ & B)|(_ & B)]]]; rewrite B in *.
      + destruct (at_params_in _ _ _ _ A1 EC) as (r & t & E1 & E2 & E3). left. exists r. rewrite E3. auto.
      + destruct (at_params_in _ _ _ _ A2 EC) as (r & t & E1 & E2 & E3). right. left. exists r. rewrite E3. auto.
      + destruct (at_params_in _ _ _ _ A3 EC) as (r & t & E1 & E2 & E3). right. right. left. exists r. rewrite E3. auto.
      + destruct (at_params_in _ _ _ _ A4 EC) as (r & t & E1 & E2 & E3). right. right. right. exists r. rewrite E3. auto.
    - right. split; [reflexivity|]. unfold snap_side in HN.
      assert (G : forall f ps o, at_params f ps o -> (forall l, o <> Some l) -> ps = None).
      { intros f [r|] [l|] H K; cbn [at_params] in H; try contradiction; [now destruct (K l)|reflexivity]. }
      split; [|split; [|split]]; intros F.
      + apply (G _ _ _ A1). intros l B. apply (HN l). tauto.
      + apply (G _ _ _ A2). intros l B. apply (HN l). tauto.
      + apply (G _ _ _ A3). intros l B. apply (HN l). tauto.
      + apply (G _ _ _ A4). intros l B. apply (HN l). tauto.
  Qed.
End Any.
