(** * The vertex normals of adaptive meshes *)
From Coq Require Import String ZArith Lia List.
From Verif Require Import Base BaseFacts Scalar KnotModel MiscModel CurveModel SurfaceModel AdaptModel AdaptProofs AdaptSurface AdaptConstr.
Import ListNotations.
Local Open Scope nat_scope.

Section Any.
  Context {T : Type} {SO : Scalar T}.
  Variable s : Surf T.

  (** a normal of the surface, as computed somewhere, normalised or not *)
  Definition some_normal (nm : list T) : Prop := exists u v n, normal_at s u v = Ok n /\ (nm = vnormalize n \/ nm = n).
  (** the normal of a vertex: the normalised normal at its own parameters; when [raw], possibly not normalised;
      and where the two partial derivatives are (nearly) parallel, a normal from elsewhere *)
  Definition vertex_normal (raw : Prop) (uv : T * T) (nm : list T) : Prop :=
    exists n, normal_at s (fst uv) (snd uv) = Ok n /\
      (nm = vnormalize n \/ (raw /\ nm = n) \/ (sltb (vnorm2 n) seps = true /\ some_normal nm)).

  Definition sp_fine (p : SPoint T) : Prop :=
    exists n, normal_at s (fst (sp_uv p)) (snd (sp_uv p)) = Ok n /\
      (sp_degen p = false -> sp_normal p = vnormalize n) /\ (sp_degen p = true -> sltb (vnorm2 n) seps = true /\ some_normal (sp_normal p)).
  Lemma fine_some p : sp_fine p -> some_normal (sp_normal p).
  Proof. intros (n & E & H1 & H2). destruct (sp_degen p); [apply H2; reflexivity|]. exists (fst (sp_uv p)), (snd (sp_uv p)), n. auto. Qed.
  Lemma fine_vertex raw p : sp_fine p -> vertex_normal raw (sp_uv p) (sp_normal p).
  Proof. intros (n & E & H1 & H2). exists n. split; [exact E|]. destruct (sp_degen p); auto. Qed.

  Lemma evaluate_fine uv p : evaluate_surface s uv = Ok p -> sp_fine p.
  Proof.
    unfold evaluate_surface. intros E. apply bind_ok in E. destruct E as (ds & Ed & E). apply bind_ok in E. destruct E as (pt & _ & E).
    apply bind_ok in E. destruct E as (a & Ea & E). apply bind_ok in E. destruct E as (b & Eb & E). injection E as <-.
    assert (N : normal_at s (fst uv) (snd uv) = Ok (cross3 a b)) by (unfold normal_at; rewrite Ed; cbn [bind]; rewrite Ea; cbn [bind]; rewrite Eb; reflexivity).
    exists (cross3 a b). unfold sp_new. cbn [sp_uv sp_degen sp_normal]. split; [exact N|]. split; intros H; rewrite H; [reflexivity|]. split; [reflexivity|].
    exists (fst uv), (snd uv), (cross3 a b). auto.
  Qed.
  Lemma boundary_raw uv p (raw : Prop) : raw -> boundary_point s uv = Ok p -> vertex_normal raw (sp_uv p) (sp_normal p).
  Proof.
    unfold boundary_point. intros Hr E. apply bind_ok in E. destruct E as (ds & Ed & E). apply bind_ok in E. destruct E as (pt & _ & E).
    apply bind_ok in E. destruct E as (a & Ea & E). apply bind_ok in E. destruct E as (b & Eb & E). injection E as <-. unfold sp_new. cbn [sp_uv sp_normal].
    exists (cross3 a b). split; [unfold normal_at; rewrite Ed; cbn [bind]; rewrite Ea; cbn [bind]; rewrite Eb; reflexivity|]. auto.
  Qed.
  Lemma grid_point_fine c du dv iv iu v u p : grid_point s c du dv iv iu v u = Ok p -> sp_fine p.
  Proof.
    unfold grid_point. intros E. apply bind_ok in E. destruct E as (lv & _ & E). apply bind_ok in E. destruct E as (ds & Ed & E). apply bind_ok in E. destruct E as (pt & _ & E).
    apply bind_ok in E. destruct E as (a & Ea & E). apply bind_ok in E. destruct E as (b & Eb & E). apply bind_ok in E. destruct E as (lu & _ & E). injection E as <-.
    exists (cross3 a b). cbn [sp_uv sp_degen sp_normal fst snd]. split; [unfold normal_at; rewrite Ed; cbn [bind]; rewrite Ea; cbn [bind]; rewrite Eb; reflexivity|].
    split; [reflexivity|discriminate].
  Qed.
  Lemma fix_normal_fine (p a b : SPoint T) : sp_fine p -> sp_fine a -> sp_fine b -> sp_fine (fix_normal p a b).
  Proof.
    intros Hp Ha Hb. unfold fix_normal. destruct (sp_degen p) eqn:D; [|exact Hp]. destruct Hp as (n & E & _ & H2). exists n.
    unfold with_normal. cbn [sp_uv sp_degen sp_normal]. split; [exact E|]. split; [congruence|]. intros _. split; [now apply H2|].
    destruct (sp_degen a); now apply fine_some.
  Qed.
  Lemma sat_intro (P : SPoint T -> Prop) (a b c d : SPoint T) nb : P a -> P b -> P c -> P d -> corners_sat P (an_new (MkFour a b c d) nb).
  Proof. intros ? ? ? ? []; assumption. Qed.
  Lemma should_divide_fine o depth n n' d : corners_sat sp_fine n -> should_divide o depth n = (n', d) -> corners_sat sp_fine n'.
  Proof.
    intros H E. unfold should_divide in E.
    destruct (depth <? ao_min_depth o); [injection E as <- <-; exact H|]. destruct (ao_max_depth o <=? depth); [injection E as <- <-; exact H|].
    destruct (has_bad_normals (an_corners n)).
    - injection E as <- <-. pose proof (H South) as A0. pose proof (H East) as A1. pose proof (H North) as A2. pose proof (H West) as A3. cbn [four] in *.
      unfold fix_normals. cbv zeta. pose proof (fix_normal_fine _ _ _ A0 A1 A3) as B0. pose proof (fix_normal_fine _ _ _ A1 A2 B0) as B1.
      pose proof (fix_normal_fine _ _ _ A2 A3 B1) as B2. pose proof (fix_normal_fine _ _ _ A3 B0 B2) as B3. intros []; assumption.
    - cbv zeta in E. repeat match type of E with (if ?a then _ else _) = _ => destruct a end; injection E as <- <-; exact H.
  Qed.
  Lemma iterate_fine o : forall fuel nodes id depth dir nodes', Forall (corners_sat sp_fine) nodes -> iterate fuel s o nodes id depth dir = Ok nodes' -> Forall (corners_sat sp_fine) nodes'.
  Proof.
    induction fuel as [|fuel IH]; intros nodes id depth dir nodes' HN E; [discriminate|]. cbn [iterate] in E.
    apply bind_ok in E. destruct E as (n & En & E).
    assert (Hn : corners_sat sp_fine n).
    { apply nth_error_get, nth_error_In in En. rewrite Forall_forall in HN. auto. }
    destruct (should_divide o depth n) as [n' [dv|]] eqn:Es; apply (should_divide_fine _ _ _ _ _ Hn) in Es.
    - apply bind_ok in E. destruct E as ([c0 c1] & Esp & E). apply bind_ok in E. destruct E as (nodes1 & E1 & E). apply bind_ok in E. destruct E as (nodes2 & E2 & E).
      apply set_inv in E1. destruct E1 as (_ & ->).
      refine (IH _ _ _ _ _ _ E). refine (IH _ _ _ _ _ _ E2). apply Forall_app. split; [apply upd_Forall; [exact HN|exact Es]|].
      unfold split_node in Esp. cbv zeta in Esp. pose proof (Es South) as A0. pose proof (Es East) as A1. pose proof (Es North) as A2. pose proof (Es West) as A3. cbn [four] in *.
      destruct (match dv with DivBoth => dir | DivU => DirU | DivV => DirV end); apply bind_ok in Esp; destruct Esp as (p & Ep & Esp); apply bind_ok in Esp; destruct Esp as (q & Eq & Esp);
        injection Esp as <- <-; apply evaluate_fine in Ep, Eq; (constructor; [|constructor; [|constructor]]); apply sat_intro; assumption.
    - apply set_inv in E. destruct E as (_ & ->). now apply upd_Forall.
  Qed.

  Section Raw.
    Variable raw : Prop.
    Local Notation vn := (fun p : SPoint T => vertex_normal raw (sp_uv p) (sp_normal p)).
    Lemma closest_vn p l q : Forall vn l -> closest_of p l = Ok q -> vn q.
    Proof.
      destruct l as [|a l]; cbn [closest_of]; [discriminate|]. intros F E. injection E as <-. inversion F as [|? ? Ha Fl]; subst. clear F.
      revert a Ha. induction l as [|x l IH]; intros a Ha; [exact Ha|]. inversion Fl; subst. cbn [fold_left]. apply IH; [assumption|]. destruct (_ <? _)%S; assumption.
    Qed.
    Definition beval_vn (b : BEval T) : Prop :=
      forall l, (be_u_vmin b = Some l \/ be_u_vmax b = Some l \/ be_v_umin b = Some l \/ be_v_umax b = Some l) -> Forall vn l.
    Lemma boundary_points_vn f ps l : raw -> boundary_points s f ps = Ok (Some l) -> Forall vn l.
    Proof.
      intros Hr. destruct ps as [ps|]; cbn [boundary_points]; [|discriminate]. intros E. apply bind_ok in E. destruct E as (r & Er & E). injection E as <-.
      apply mapM_inv in Er. induction Er; constructor; auto. eapply boundary_raw; eauto.
    Qed.
    Lemma boundary_evaluation_vn c b : raw -> boundary_evaluation s c = Ok b -> beval_vn b.
    Proof.
      intros Hr. unfold boundary_evaluation. intros E. apply bind_ok in E. destruct E as ([ua ub] & _ & E). apply bind_ok in E. destruct E as ([va vb] & _ & E).
      apply bind_ok in E. destruct E as (a & Ea & E). apply bind_ok in E. destruct E as (b' & Eb & E). apply bind_ok in E. destruct E as (x & Ex & E).
      apply bind_ok in E. destruct E as (y & Ey & E). injection E as <-. intros l. cbn [be_u_vmin be_u_vmax be_v_umin be_v_umax].
      intros [H|[H|[H|H]]]; subst; eapply boundary_points_vn; eauto.
    Qed.
    Lemma snap_vn b p q : beval_vn b -> vn p -> snap b p = Ok q -> vn q.
    Proof.
      intros HB Hp E. unfold snap in E. cbv zeta in E.
      assert (G : forall (flag : bool) l k, (forall l', l = Some l' -> Forall vn l') -> (k = Ok q -> vn q) ->
         (if flag then match l with Some l => closest_of p l | None => k end else k) = Ok q -> vn q).
      { intros flag l k Hl Hk. destruct flag; [|exact Hk]. destruct l as [l|]; [|exact Hk]. intros E'. eapply closest_vn; [|exact E']. now apply Hl. }
      revert E. do 4 (apply G; [intros l' Hl'; apply HB; tauto|]). intros E. injection E as <-. exact Hp.
    Qed.
    Definition mesh_vn (m : Tess T) : Prop := Forall2 (vertex_normal raw) (tuvs m) (tnormals m).
    Lemma pts_vn ps : Forall vn ps -> Forall2 (vertex_normal raw) (map sp_uv ps) (map sp_normal ps).
    Proof. induction 1; cbn [map]; constructor; auto. Qed.
    Lemma triangulate_vn nodes b m n m' : Forall (corners_sat sp_fine) nodes -> corners_sat sp_fine n -> (forall b', b = Some b' -> beval_vn b') -> mesh_vn m ->
      triangulate s nodes b m n = Ok m' -> mesh_vn m'.
    Proof.
      intros HN Hn HB HM E. unfold triangulate in E. destruct (an_children n); [injection E as <-; exact HM|].
      apply bind_ok in E. destruct E as ([sid pts] & EL & E).
      assert (HP : Forall vn pts).
      { unfold leaf_polygon in EL. apply bind_ok in EL. destruct EL as (cs & Ecs & EL). apply bind_ok in EL. destruct EL as (ps & Eps & EL). injection EL as _ <-.
        assert (HC : Forall vn (concat cs)).
        { apply mapM_inv in Ecs. clear - Ecs HN Hn. induction Ecs as [|e l es cs H F IH]; [constructor|]. cbn [concat]. apply Forall_app. split; [|exact IH].
          destruct (all_corners_sat sp_fine nodes n e l HN Hn H) as (A & _). eapply Forall_impl; [|exact A]. intros p. apply fine_vertex. }
        destruct b as [b|]; [|injection Eps as <-; exact HC]. specialize (HB b eq_refl). apply mapM_inv in Eps. clear - Eps HC HB. revert HC.
        induction Eps as [|p q ps qs H F IH]; intros HC; [constructor|]. inversion HC; subst. constructor; [eapply snap_vn; eauto|auto]. }
      apply pts_vn in HP. cbv zeta in E. destruct (length pts =? 4); [|destruct (length pts =? 5)].
      - injection E as <-. unfold mesh_vn in *. cbn [tuvs tnormals]. now apply Forall2_app.
      - apply bind_ok in E. destruct E as (a & _ & E). injection E as <-. unfold mesh_vn in *. cbn [tuvs tnormals]. now apply Forall2_app.
      - apply bind_ok in E. destruct E as (c & Ec & E). apply bind_ok in E. destruct E as (k & _ & E). injection E as <-. apply evaluate_fine in Ec.
        unfold mesh_vn in *. cbn [tuvs tnormals]. apply Forall2_app; [now apply Forall2_app|]. constructor; [now apply fine_vertex|constructor].
    Qed.
  End Raw.

  Lemma get2_grid_fine c us vs du dv pts i j p : grid_points s c us vs du dv = Ok pts -> get2 pts i j = Ok p -> sp_fine p.
  Proof.
    intros E G. unfold get2 in G. apply bind_ok in G. destruct G as (row & Er & G). apply nth_error_get, nth_error_In in Er, G.
    unfold grid_points in E. apply mapM_inv in E. clear - E Er G. induction E as [|[iv v] r l rows H F IH]; [destruct Er|]. destruct Er as [->|Er]; [|auto].
    apply mapM_inv in H. clear - H G. induction H as [|[iu u] q l' qs H' F' IH']; [destruct G|]. destruct G as [->|G]; [|auto]. eapply grid_point_fine; eauto.
  Qed.

  (** *** Every vertex normal *)
  Theorem adaptive_normals c opts m : adaptive_tessellate s c opts = Ok m -> Forall2 (vertex_normal (c <> None)) (tuvs m) (tnormals m).
  Proof.
    unfold adaptive_tessellate. intros E. apply bind_ok in E. destruct E as (nodes & EN & E).
    assert (HN : Forall (corners_sat sp_fine) nodes).
    { unfold adaptive_nodes in EN. apply bind_ok in EN. destruct EN as ([us vs] & _ & EN). do 2 (apply bind_ok in EN; destruct EN as (? & _ & EN)).
      apply bind_ok in EN. destruct EN as (pts & Ep & EN). apply bind_ok in EN. destruct EN as (cells & Ec & EN).
      assert (HC : Forall (corners_sat sp_fine) cells).
      { apply mapM_inv in Ec. clear EN. induction Ec as [|i n l ns H F IH]; constructor; [|exact IH]. unfold grid_cell in H. cbv zeta in H.
        do 2 (apply bind_ok in H; destruct H as (? & _ & H)). apply bind_ok in H. destruct H as (a & Ea & H). apply bind_ok in H. destruct H as (b & Eb & H).
        apply bind_ok in H. destruct H as (c' & Ec' & H). apply bind_ok in H. destruct H as (d & Ed & H). do 4 (apply bind_ok in H; destruct H as (? & _ & H)).
        injection H as <-. apply sat_intro; eapply get2_grid_fine; eauto. }
      destruct opts as [o|]; [|injection EN as <-; exact HC].
      clear - EN HC. revert cells HC EN. induction (seq 0 _) as [|j l IH]; intros cells HC EN; cbn [foldM] in EN; [injection EN as <-; exact HC|].
      apply bind_ok in EN. destruct EN as (cells1 & E1 & EN). apply (IH cells1); [|exact EN]. eapply iterate_fine; [exact HC|exact E1]. }
    unfold tess_new in E. apply bind_ok in E. destruct E as (b & Eb & E).
    assert (HB : forall b', b = Some b' -> beval_vn (c <> None) b').
    { destruct c as [c|]; [|injection Eb as <-; discriminate]. apply bind_ok in Eb. destruct Eb as (b0 & Eb0 & Eb). injection Eb as <-. intros b' E'. injection E' as <-.
      eapply boundary_evaluation_vn; eauto. discriminate. }
    assert (G : forall l m0, Forall (corners_sat sp_fine) l -> mesh_vn (c <> None) m0 -> foldM (triangulate s nodes b) l m0 = Ok m -> mesh_vn (c <> None) m).
    { induction l as [|n l IH]; intros m0 Hl I E0; cbn [foldM] in E0; [injection E0 as <-; exact I|].
      inversion Hl; subst. apply bind_ok in E0. destruct E0 as (m1 & E1 & E0). apply (IH m1); auto. apply (triangulate_vn _ nodes b m0 n m1); auto. }
    apply (G nodes (MkTess [] [] [] [])); [exact HN|constructor|exact E].
  Qed.

  (** *** Repairing the degenerate corners of a cell: each takes the normal of a corner that is not degenerate, unless
      all four are, or the first one and both its neighbours are *)
  Theorem fix_normals_spec (c : Four (SPoint T)) e : let p := four c e in let q := four (fix_normals c) e in
    sp_uv q = sp_uv p /\ sp_point q = sp_point p /\ (sp_degen p = false -> sp_normal q = sp_normal p) /\
    (sp_degen p = true ->
       (exists e', sp_degen (four c e') = false /\ sp_normal q = sp_normal (four c e')) \/
       (forall e', sp_degen (four c e') = true) \/
       (e = South /\ sp_degen (f1 c) = true /\ sp_degen (f3 c) = true /\ sp_normal q = sp_normal (f3 c))).
  Proof.
    destruct c as [p0 p1 p2 p3]. cbv zeta. unfold fix_normals, fix_normal, with_normal. cbn [f0 f1 f2 f3].
    split; [destruct e; cbn [four f0 f1 f2 f3]; destruct (sp_degen p0), (sp_degen p1), (sp_degen p2), (sp_degen p3); reflexivity|].
    split; [destruct e; cbn [four f0 f1 f2 f3]; destruct (sp_degen p0), (sp_degen p1), (sp_degen p2), (sp_degen p3); reflexivity|].
    split; [destruct e; cbn [four f0 f1 f2 f3]; intros ->; reflexivity|].
    intros H. destruct (sp_degen p0) eqn:D0, (sp_degen p1) eqn:D1, (sp_degen p2) eqn:D2, (sp_degen p3) eqn:D3; destruct e; cbn [four f0 f1 f2 f3 sp_degen sp_normal] in *;
      try congruence;
      repeat match goal with K : sp_degen ?p = ?b |- context [sp_degen ?p] => rewrite K end; cbn [sp_degen sp_normal];
      first [right; left; intros []; cbn [four f0 f1 f2 f3]; assumption
            |left; first [exists South; split; [assumption|reflexivity]|exists East; split; [assumption|reflexivity]|exists North; split; [assumption|reflexivity]|exists West; split; [assumption|reflexivity]]
            |right; right; repeat split; reflexivity].
  Qed.

  (** *** What the depth test does to a cell whose depth lies between the two limits: a cell with a degenerate corner is
      repaired and not divided, one without is left as it is *)
  Theorem repair_spec o depth (n n' : ANode T) d : should_divide o depth n = (n', d) -> (ao_min_depth o <= depth < ao_max_depth o)%nat ->
    ((exists e, sp_degen (four (an_corners n) e) = true) -> d = None) /\
    forall e, let p := four (an_corners n) e in let q := four (an_corners n') e in
      sp_uv q = sp_uv p /\ sp_point q = sp_point p /\ (sp_degen p = false -> sp_normal q = sp_normal p) /\
      (sp_degen p = true ->
         (exists e', sp_degen (four (an_corners n) e') = false /\ sp_normal q = sp_normal (four (an_corners n) e')) \/
         (forall e', sp_degen (four (an_corners n) e') = true) \/
         (e = South /\ sp_degen (f1 (an_corners n)) = true /\ sp_degen (f3 (an_corners n)) = true /\ sp_normal q = sp_normal (f3 (an_corners n)))).
  Proof.
    intros E [Hlo Hhi]. unfold should_divide in E. apply Nat.ltb_ge in Hlo. apply Nat.leb_gt in Hhi. rewrite Hlo, Hhi in E. cbv zeta in E.
    destruct (has_bad_normals (an_corners n)) eqn:Hb.
    - injection E as <- <-. split; [reflexivity|]. intros e. exact (fix_normals_spec (an_corners n) e).
    - unfold has_bad_normals in Hb. apply orb_false_iff in Hb. destruct Hb as (Hb & H3). apply orb_false_iff in Hb. destruct Hb as (Hb & H2). apply orb_false_iff in Hb. destruct Hb as (H0 & H1).
      assert (Good : forall e, sp_degen (four (an_corners n) e) = false) by (intros []; assumption).
      assert (En : n' = n) by (repeat match type of E with (if ?a then _ else _) = _ => destruct a end; now injection E as <- <-).
      subst n'. split; [intros (e & K); rewrite Good in K; discriminate|]. intros e. cbv zeta. do 3 (split; [reflexivity|]). intros K. rewrite Good in K. discriminate.
  Qed.
End Any.
