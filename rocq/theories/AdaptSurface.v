(** * Every vertex of an adaptive mesh is the surface point at its parameters *)
From Coq Require Import String ZArith Lia List.
From Verif Require Import Base BaseFacts Scalar KnotModel MiscModel CurveModel SurfaceModel AdaptModel AdaptProofs.
Import ListNotations.
Local Open Scope nat_scope.

Section Surface.
  Context {T : Type} {SO : Scalar T}.
  Variable s : Surf T.

  Definition point_of (uv : T * T) (p : list T) : Prop :=
    exists ds, surf_rational_derivatives s (fst uv) (snd uv) 1 = Ok ds /\ get2 ds 0 0 = Ok p.
  Definition sp_on (p : SPoint T) : Prop := point_of (sp_uv p) (sp_point p).
  Definition four_on (c : Four (SPoint T)) : Prop := forall e, sp_on (four c e).
  Definition nodes_on (nodes : list (ANode T)) : Prop := Forall (fun n => four_on (an_corners n)) nodes.

  Lemma evaluate_on uv p : evaluate_surface s uv = Ok p -> sp_on p.
  Proof.
    unfold evaluate_surface. intros E. apply bind_ok in E. destruct E as (ds & Ed & E). apply bind_ok in E. destruct E as (pt & Ep & E).
    do 2 (apply bind_ok in E; destruct E as (? & _ & E)). injection E as <-. exists ds. auto.
  Qed.
  Lemma boundary_on uv p : boundary_point s uv = Ok p -> sp_on p.
  Proof.
    unfold boundary_point. intros E. apply bind_ok in E. destruct E as (ds & Ed & E). apply bind_ok in E. destruct E as (pt & Ep & E).
    do 2 (apply bind_ok in E; destruct E as (? & _ & E)). injection E as <-. exists ds. auto.
  Qed.
  Lemma grid_point_on c du dv iv iu v u p : grid_point s c du dv iv iu v u = Ok p -> sp_on p.
  Proof.
    unfold grid_point. intros E. apply bind_ok in E. destruct E as (lv & _ & E). apply bind_ok in E. destruct E as (ds & Ed & E).
    apply bind_ok in E. destruct E as (pt & Ep & E). do 3 (apply bind_ok in E; destruct E as (? & _ & E)). injection E as <-. exists ds. auto.
  Qed.
  Lemma fix_normal_on (p a b : SPoint T) : sp_on p -> sp_on (fix_normal p a b).
  Proof. unfold fix_normal. destruct (sp_degen p); auto. Qed.
  Lemma four_on_intro (a b c d : SPoint T) : sp_on a -> sp_on b -> sp_on c -> sp_on d -> four_on (MkFour a b c d).
  Proof. intros ? ? ? ? []; assumption. Qed.
  Lemma should_divide_on o depth n n' d : four_on (an_corners n) -> should_divide o depth n = (n', d) -> four_on (an_corners n').
  Proof.
    intros H E. unfold should_divide in E.
    destruct (depth <? ao_min_depth o); [injection E as <- <-; exact H|]. destruct (ao_max_depth o <=? depth); [injection E as <- <-; exact H|].
    destruct (has_bad_normals (an_corners n)).
    - injection E as <- <-. cbn [an_corners]. unfold fix_normals. cbv zeta. apply four_on_intro; apply fix_normal_on; [apply (H South)|apply (H East)|apply (H North)|apply (H West)].
    - cbv zeta in E. repeat match type of E with (if ?a then _ else _) = _ => destruct a end; injection E as <- <-; exact H.
  Qed.
  Lemma upd_Forall {A} (P : A -> Prop) : forall l i v, Forall P l -> P v -> Forall P (upd l i v).
  Proof. induction l as [|a l IH]; intros [|i] v F Hv; inversion F; subst; cbn; constructor; auto. Qed.
  Lemma iterate_on o : forall fuel nodes id depth dir nodes', nodes_on nodes -> iterate fuel s o nodes id depth dir = Ok nodes' -> nodes_on nodes'.
  Proof.
    induction fuel as [|fuel IH]; intros nodes id depth dir nodes' HN E; [discriminate|]. cbn [iterate] in E.
    apply bind_ok in E. destruct E as (n & En & E).
    assert (Hn : four_on (an_corners n)).
    { apply nth_error_get, nth_error_In in En. unfold nodes_on in HN. rewrite Forall_forall in HN. auto. }
    destruct (should_divide o depth n) as [n' [dv|]] eqn:Es; apply (should_divide_on _ _ _ _ _ Hn) in Es.
    - apply bind_ok in E. destruct E as ([c0 c1] & Esp & E). apply bind_ok in E. destruct E as (nodes1 & E1 & E). apply bind_ok in E. destruct E as (nodes2 & E2 & E).
      apply set_inv in E1. destruct E1 as (_ & ->).
      refine (IH _ _ _ _ _ _ E). refine (IH _ _ _ _ _ _ E2). apply Forall_app. split; [apply upd_Forall; [exact HN|exact Es]|].
      unfold split_node in Esp. cbv zeta in Esp. pose proof (Es South) as A0. pose proof (Es East) as A1. pose proof (Es North) as A2. pose proof (Es West) as A3. cbn [four] in *.
      destruct (match dv with DivBoth => dir | DivU => DirU | DivV => DirV end); apply bind_ok in Esp; destruct Esp as (p & Ep & Esp); apply bind_ok in Esp; destruct Esp as (q & Eq & Esp);
        injection Esp as <- <-; apply evaluate_on in Ep, Eq; (constructor; [|constructor; [|constructor]]); unfold an_new; cbn [an_corners]; apply four_on_intro; assumption.
    - apply set_inv in E. destruct E as (_ & ->). now apply upd_Forall.
  Qed.
  Lemma edge_on nodes : nodes_on nodes -> forall fuel id e l, get_edge_corners fuel nodes id e = Ok l -> Forall sp_on l.
  Proof.
    intros HN. induction fuel as [|fuel IH]; intros id e l E; [discriminate|]. cbn [get_edge_corners] in E. apply bind_ok in E. destruct E as (n & En & E).
    assert (Hn : four_on (an_corners n)).
    { apply nth_error_get, nth_error_In in En. unfold nodes_on in HN. rewrite Forall_forall in HN. auto. }
    destruct (an_children n) as [[c0 c1]|].
    - destruct (an_dir n), e; try (now apply IH in E); apply bind_ok in E; destruct E as (a & Ea & E); apply bind_ok in E; destruct E as (b & Eb & E); injection E as <-;
        apply Forall_app; split; eapply IH; eauto.
    - injection E as <-. constructor; [apply Hn|constructor].
  Qed.
  Lemma all_corners_on nodes n e l : nodes_on nodes -> four_on (an_corners n) -> get_all_corners nodes n e = Ok l -> Forall sp_on l.
  Proof.
    intros HN Hn E. unfold get_all_corners in E. destruct (four (an_nb n) e) as [nb|].
    - apply bind_ok in E. destruct E as (cs & Ec & E). injection E as <-. apply (edge_on nodes HN) in Ec. constructor; [apply Hn|].
      apply Forall_rev. rewrite Forall_forall in *. intros x Hx. apply filter_In in Hx. apply Ec. tauto.
    - injection E as <-. constructor; [apply Hn|constructor].
  Qed.
  Definition beval_on (b : BEval T) : Prop :=
    forall l, (be_u_vmin b = Some l \/ be_u_vmax b = Some l \/ be_v_umin b = Some l \/ be_v_umax b = Some l) -> Forall sp_on l.
  Lemma boundary_points_on f ps l : boundary_points s f ps = Ok (Some l) -> Forall sp_on l.
  Proof.
    destruct ps as [ps|]; cbn [boundary_points]; [|discriminate]. intros E. apply bind_ok in E. destruct E as (r & Er & E). injection E as <-.
    apply mapM_inv in Er. induction Er; constructor; auto. eapply boundary_on; eauto.
  Qed.
  Lemma boundary_evaluation_on c b : boundary_evaluation s c = Ok b -> beval_on b.
  Proof.
    unfold boundary_evaluation. intros E. apply bind_ok in E. destruct E as ([ua ub] & _ & E). apply bind_ok in E. destruct E as ([va vb] & _ & E).
    apply bind_ok in E. destruct E as (a & Ea & E). apply bind_ok in E. destruct E as (b' & Eb & E). apply bind_ok in E. destruct E as (x & Ex & E).
    apply bind_ok in E. destruct E as (y & Ey & E). injection E as <-. intros l. cbn [be_u_vmin be_u_vmax be_v_umin be_v_umax].
    intros [H|[H|[H|H]]]; subst; eapply boundary_points_on; eauto.
  Qed.
  Lemma closest_on p l q : Forall sp_on l -> closest_of p l = Ok q -> sp_on q.
  Proof.
    destruct l as [|a l]; cbn [closest_of]; [discriminate|]. intros F E. injection E as <-. inversion F as [|? ? Ha Fl]; subst. clear F.
    revert a Ha. induction l as [|x l IH]; intros a Ha; [exact Ha|]. inversion Fl; subst. cbn [fold_left]. apply IH; [assumption|]. destruct (_ <? _)%S; assumption.
  Qed.
  Lemma snap_on b p q : beval_on b -> sp_on p -> snap b p = Ok q -> sp_on q.
  Proof.
    intros HB Hp E. unfold snap in E. cbv zeta in E.
    assert (G : forall (flag : bool) l k, (forall l', l = Some l' -> Forall sp_on l') -> (k = Ok q -> sp_on q) ->
       (if flag then match l with Some l => closest_of p l | None => k end else k) = Ok q -> sp_on q).
    { intros flag l k Hl Hk. destruct flag; [|exact Hk]. destruct l as [l|]; [|exact Hk]. intros E'. eapply closest_on; [|exact E']. now apply Hl. }
    revert E. do 4 (apply G; [intros l' Hl'; apply HB; tauto|]). intros E. injection E as <-. exact Hp.
  Qed.

  (** every vertex of the mesh *)
  Definition mesh_on (m : Tess T) : Prop := Forall2 point_of (tuvs m) (tpts m).
  Lemma pts_on ps : Forall sp_on ps -> Forall2 point_of (map sp_uv ps) (map sp_point ps).
  Proof. induction 1; cbn [map]; constructor; auto. Qed.
  Lemma triangulate_on nodes b m n m' : nodes_on nodes -> four_on (an_corners n) -> (forall b', b = Some b' -> beval_on b') -> mesh_on m ->
    triangulate s nodes b m n = Ok m' -> mesh_on m'.
  Proof.
    intros HN Hn HB HM E. unfold triangulate in E. destruct (an_children n); [injection E as <-; exact HM|].
    apply bind_ok in E. destruct E as ([sid pts] & EL & E).
    assert (HP : Forall sp_on pts).
    { unfold leaf_polygon in EL. apply bind_ok in EL. destruct EL as (cs & Ecs & EL). apply bind_ok in EL. destruct EL as (ps & Eps & EL). injection EL as _ <-.
      assert (HC : Forall sp_on (concat cs)).
      { apply mapM_inv in Ecs. clear - Ecs HN Hn. induction Ecs as [|e l es cs H F IH]; [constructor|]. cbn [concat]. apply Forall_app. split; [|exact IH].
        eapply all_corners_on; eauto. }
      destruct b as [b|]; [|injection Eps as <-; exact HC]. specialize (HB b eq_refl). apply mapM_inv in Eps. clear - Eps HC HB. revert HC.
      induction Eps as [|p q ps qs H F IH]; intros HC; [constructor|]. inversion HC; subst. constructor; [eapply snap_on; eauto|auto]. }
    apply pts_on in HP. cbv zeta in E. destruct (length pts =? 4); [|destruct (length pts =? 5)].
    - injection E as <-. unfold mesh_on in *. cbn [tuvs tpts]. now apply Forall2_app.
    - apply bind_ok in E. destruct E as (a & _ & E). injection E as <-. unfold mesh_on in *. cbn [tuvs tpts]. now apply Forall2_app.
    - apply bind_ok in E. destruct E as (c & Ec & E). apply bind_ok in E. destruct E as (k & _ & E). injection E as <-. apply evaluate_on in Ec.
      unfold mesh_on in *. cbn [tuvs tpts]. apply Forall2_app; [now apply Forall2_app|]. constructor; [exact Ec|constructor].
  Qed.

  Lemma get2_grid c us vs du dv pts i j p : grid_points s c us vs du dv = Ok pts -> get2 pts i j = Ok p -> sp_on p.
  Proof.
    intros E G. unfold get2 in G. apply bind_ok in G. destruct G as (row & Er & G). apply nth_error_get, nth_error_In in Er, G.
    unfold grid_points in E. apply mapM_inv in E. clear - E Er G. induction E as [|[iv v] r l rows H F IH]; [destruct Er|]. destruct Er as [->|Er]; [|auto].
    apply mapM_inv in H. clear - H G. induction H as [|[iu u] q l' qs H' F' IH']; [destruct G|]. destruct G as [->|G]; [|auto]. eapply grid_point_on; eauto.
  Qed.

  Theorem adaptive_on_surface c opts m : adaptive_tessellate s c opts = Ok m -> Forall2 point_of (tuvs m) (tpts m).
  Proof.
    unfold adaptive_tessellate. intros E. apply bind_ok in E. destruct E as (nodes & EN & E).
    assert (HN : nodes_on nodes).
    { unfold adaptive_nodes in EN. apply bind_ok in EN. destruct EN as ([us vs] & _ & EN). do 2 (apply bind_ok in EN; destruct EN as (? & _ & EN)).
      apply bind_ok in EN. destruct EN as (pts & Ep & EN). apply bind_ok in EN. destruct EN as (cells & Ec & EN).
      assert (HC : nodes_on cells).
      { apply mapM_inv in Ec. clear EN. induction Ec as [|i n l ns H F IH]; constructor; [|exact IH]. unfold grid_cell in H. cbv zeta in H.
        do 2 (apply bind_ok in H; destruct H as (? & _ & H)). apply bind_ok in H. destruct H as (a & Ea & H). apply bind_ok in H. destruct H as (b & Eb & H).
        apply bind_ok in H. destruct H as (c' & Ec' & H). apply bind_ok in H. destruct H as (d & Ed & H). do 4 (apply bind_ok in H; destruct H as (? & _ & H)).
        injection H as <-. unfold an_new. cbn [an_corners]. apply four_on_intro; eapply get2_grid; eauto. }
      destruct opts as [o|]; [|injection EN as <-; exact HC].
      clear - EN HC. revert cells HC EN. induction (seq 0 _) as [|j l IH]; intros cells HC EN; cbn [foldM] in EN; [injection EN as <-; exact HC|].
      apply bind_ok in EN. destruct EN as (cells1 & E1 & EN). apply (IH cells1); [|exact EN]. eapply iterate_on; [exact HC|exact E1]. }
    unfold tess_new in E. apply bind_ok in E. destruct E as (b & Eb & E).
    assert (HB : forall b', b = Some b' -> beval_on b').
    { destruct c as [c|]; [|injection Eb as <-; discriminate]. apply bind_ok in Eb. destruct Eb as (b0 & Eb0 & Eb). injection Eb as <-. intros b' E'. injection E' as <-.
      eapply boundary_evaluation_on; eauto. }
    change (mesh_on m).
    assert (G : forall l m0, Forall (fun n => four_on (an_corners n)) l -> mesh_on m0 -> foldM (triangulate s nodes b) l m0 = Ok m -> mesh_on m).
    { induction l as [|n l IH]; intros m0 Hl I E0; cbn [foldM] in E0; [injection E0 as <-; exact I|].
      inversion Hl; subst. apply bind_ok in E0. destruct E0 as (m1 & E1 & E0). apply (IH m1); auto. apply (triangulate_on nodes b m0 n m1); auto. }
    apply (G nodes (MkTess [] [] [] [])); [exact HN|constructor|exact E].
  Qed.
End Surface.
