(** * The main theorem on adaptive tessellation *)
From Coq Require Import Reals Lra Lia List Sorted.
From Verif Require Import Base BaseFacts Scalar RSum BSpline KnotFacts KnotSpec KnotModel KnotProofs VecFacts MiscModel CurveModel SurfaceModel SurfaceSpec SurfaceProofs SurfaceSample SurfaceDeriv SurfaceRational
  AdaptModel AdaptProofs AdaptForest AdaptReal AdaptEdges AdaptPoly AdaptMesh AdaptTiling AdaptSurface AdaptTotal.
Import ListNotations.
Open Scope R_scope.

Section Real.
  Variables eps maxv : R.
  Local Hint Extern 0 (Scalar R) => exact (ROps eps maxv) : typeclass_instances.

  (** ** The grid lines *)
  Lemma sofnat_INR n : sofnat n = INR n.
  Proof. unfold sofnat. cbn. symmetry. apply INR_IZR_INZ. Qed.
  Lemma grid_params_spec k p n mn mult : knots_ok p n k -> (1 <= p)%nat -> (0 < mult)%nat ->
    ((p <= 1)%nat -> forall i, (p <= i <= n)%nat -> kf k i < kf k (S i)) ->
    exists l d, grid_params k p (S n) mn mult = Ok l /\ length l = S d /\ (0 < d)%nat /\ increasing l /\ nth 0 l 0 = kf k p /\ nth d l 0 = kf k (S n).
  Proof.
    intros H Hp Hm HS. unfold grid_params. pose proof (ko_len _ _ _ H) as L. pose proof (ko_pn _ _ _ H) as Hpn.
    destruct (Nat.leb_spec p 1) as [C|C].
    - assert (p = 1%nat) as -> by lia. rewrite usub_ok by lia. cbn [bind]. eexists _, n. split; [reflexivity|].
      set (m := (length k - 2)%nat).
      assert (LL : length (firstn m (skipn 1 k)) = S n) by (rewrite firstn_length, skipn_length; unfold m; lia).
      assert (N : forall i, (i <= n)%nat -> nth i (firstn m (skipn 1 k)) 0 = kf k (S i)).
      { intros i Hi. rewrite nth_firstn by (unfold m; lia). rewrite nth_skipn. rewrite (kf_nth k (S i) 0) by lia. reflexivity. }
      split; [exact LL|]. split; [lia|]. split; [|split; [apply N; lia|apply N; lia]].
      intros i Hi. rewrite LL in Hi. rewrite !N by lia. apply (HS (le_n _)). lia.
    - rewrite usub_ok by lia. cbn [bind]. rewrite (domain_ok k p n H). cbn [bind].
      set (divs := Nat.max mn ((S n - 1) * mult)). assert (D : (0 < divs)%nat) by (unfold divs; nia).
      eexists _, divs. split; [reflexivity|].
      assert (PD : 0 < INR divs) by (now apply lt_0_INR).
      assert (LT : kf k p < kf k (S n)).
      { pose proof (ko_first _ _ _ H). pose proof (mono_le (kf k) (p + 1) (S n) (sorted_mono _ (ko_sorted _ _ _ H)) ltac:(lia)). lra. }
      assert (N : forall i, (i <= divs)%nat -> nth i (map (fun i => sadd (kf k p) (smul (sdiv (ssub (kf k (S n)) (kf k p)) (sofnat divs)) (sofnat i))) (seq 0 (S divs))) 0
                     = kf k p + (kf k (S n) - kf k p) / INR divs * INR i).
      { intros i Hi. rewrite (nth_map_lt _ _ _ 0%nat) by (rewrite seq_length; lia). rewrite seq_nth by lia. cbn [Nat.add]. rewrite !sofnat_INR. reflexivity. }
      split; [now rewrite map_length, seq_length|]. split; [exact D|]. split; [|split].
      + intros i Hi. rewrite map_length, seq_length in Hi. rewrite !N by lia. rewrite S_INR.
        assert (0 < (kf k (S n) - kf k p) / INR divs) by (apply Rdiv_lt_0_compat; lra). lra.
      + rewrite N by lia. cbn [INR]. lra.
      + rewrite N by lia. field. lra.
  Qed.

  (** ** The vertices stay in the domain *)
  Lemma side_in e r l : rect_ok r -> side e r l -> Forall (in_rect r) l.
  Proof.
    intros (H1 & H2) (xs & -> & _ & F). constructor; [destruct e; unfold in_rect; cbn; lra|]. eapply Forall_impl; [|exact F].
    intros p (P1 & P2). unfold in_rect. destruct e; cbn in *; lra.
  Qed.
  Lemma triangulate_in s nodes m n m' r : rect_ok r -> an_center n = centre r -> 
    (forall e l, get_all_corners nodes n e = Ok l -> side e r (map sp_uv l)) ->
    triangulate s nodes None m n = Ok m' -> exists ws, tuvs m' = tuvs m ++ ws /\ Forall (in_rect r) ws.
  Proof.
    intros Hr Hce HS E. unfold triangulate in E. destruct (an_children n); [injection E as <-; exists []; split; [now rewrite app_nil_r|constructor]|].
    apply bind_ok in E. destruct E as ([sid pts] & EL & E).
    assert (HP : Forall (in_rect r) (map sp_uv pts)).
    { unfold leaf_polygon in EL. apply bind_ok in EL. destruct EL as (cs & Ecs & EL). cbn [bind] in EL. injection EL as _ <-.
      apply mapM_inv in Ecs. clear - Ecs Hr HS. induction Ecs as [|e l es cs H F IH]; [constructor|]. cbn [concat]. rewrite map_app. apply Forall_app. split; [|exact IH].
      apply (side_in e); [exact Hr|]. now apply HS. }
    cbv zeta in E. destruct (length pts =? 4)%nat; [|destruct (length pts =? 5)%nat].
    - injection E as <-. cbn [tuvs]. eauto.
    - apply bind_ok in E. destruct E as (a & _ & E). injection E as <-. cbn [tuvs]. eauto.
    - apply bind_ok in E. destruct E as (c & Ec & E). apply bind_ok in E. destruct E as (k & _ & E). injection E as <-. cbn [tuvs].
      eexists. split; [symmetry; apply app_assoc|]. apply Forall_app. split; [exact HP|]. apply evaluate_uv in Ec. rewrite Ec, Hce. constructor; [|constructor].
      destruct Hr. unfold in_rect, centre. cbn. lra.
  Qed.
  Lemma tess_in us vs du dv (Lu : length us = S du) (Lv : length vs = S dv) (Iu : increasing us) (Iv : increasing vs) s nodes h b m : 0 < eps ->
    forest nodes h (dv * du) (cell_rect us vs du dv) (cell_nb du dv) b -> tess_new s nodes None = Ok m -> Forall (in_rect (whole us vs du dv)) (tuvs m).
  Proof.
    intros He F E. unfold tess_new in E. cbn [bind] in E.
    destruct (forest_partition eps maxv us vs du dv Lu Lv Iu Iv nodes h _ b F) as (P1 & _ & _).
    assert (G : forall l m0, (forall n, In n l -> In n nodes) -> Forall (in_rect (whole us vs du dv)) (tuvs m0) -> foldM (triangulate s nodes None) l m0 = Ok m -> Forall (in_rect (whole us vs du dv)) (tuvs m)).
    { induction l as [|n l IH]; intros m0 HI H0 E0; cbn [foldM] in E0; [injection E0 as <-; exact H0|].
      apply bind_ok in E0. destruct E0 as (m1 & E1 & E0). apply (IH m1); [intros n' Hn'; apply HI; now right| |exact E0].
      destruct (an_children n) as [ch|] eqn:Ch; [unfold triangulate in E1; rewrite Ch in E1; injection E1 as <-; exact H0|].
      destruct (In_nth_error _ _ (HI n (or_introl eq_refl))) as (j & Ej).
      destruct (forest_polygons eps maxv us vs du dv Lu Lv Iu Iv nodes h b He F j n Ej Ch) as (r & Sh & Ce & Hr & HS).
      destruct (triangulate_in s nodes m0 n m1 r Hr Ce HS E1) as (ws & -> & Hw). apply Forall_app. split; [exact H0|].
      destruct (P1 j r) as (_ & W); [exists n; auto|]. eapply Forall_impl; [|exact Hw]. intros p. unfold in_rect, within in *. lra. }
    apply (G nodes (MkTess [] [] [] [])); auto. constructor.
  Qed.

  Lemma point_of_spec s uv p : surf_ok s -> surf_eps eps s -> in_rect (dom_rect s) uv -> point_of s uv p ->
    length p = (sdim s - 1)%nat /\ forall i, (i < sdim s - 1)%nat -> rc i p = snurbs s i (fst uv) (snd uv).
  Proof.
    intros Hs Hse (Hu & Hv) (ds & E & G). cbn [dom_rect rl rr rb rt] in *. assert (Hse' := Hse). destruct Hse' as (E1 & E2).
    destruct (span_exists eps maxv (suk s) (sdu s) (nrow s - 1) (fst uv) (so_uk s Hs) E1) as (su & Hsu & Iu).
    { unfold u0, u1 in Hu. replace (S (nrow s - 1)) with (nrow s) by (pose proof (so_u s Hs); lia). exact Hu. }
    destruct (span_exists eps maxv (svk s) (sdv s) (ncol s - 1) (snd uv) (so_vk s Hs) E2) as (sv & Hsv & Iv).
    { unfold v0, v1 in Hv. replace (S (ncol s - 1)) with (ncol s) by (pose proof (so_v s Hs); lia). exact Hv. }
    destruct (surf_rational_piece eps maxv s (fst uv) (snd uv) 1 su sv Hs Hse Hsu Hsv Iu Iv) as (ds' & E' & L & V).
    rewrite E in E'. injection E' as <-. destruct (V 0%nat ltac:(lia)) as (L0 & V0). destruct (V0 0%nat ltac:(lia)) as (L00 & V00).
    rewrite get2_ent in G by lia. injection G as <-. split; [exact L00|]. intros i Hi. rewrite (V00 i Hi).
    unfold rsurf. rewrite q2_eq. unfold z2. cbn [rsum Nat.add Nat.eqb]. unfold snurbs, swfun. rewrite !dsurf_0; auto. f_equal. ring.
  Qed.

  (** knots of a degree-one direction are simple *)
  Definition simple1 (p n : nat) (k : list R) : Prop := (p <= 1)%nat -> forall i, (p <= i <= n)%nat -> kf k i < kf k (S i).

  Theorem adaptive_mesh s opts : surf_ok s -> surf_eps eps s -> sdim s = 4%nat -> (1 <= sdu s)%nat -> (1 <= sdv s)%nat ->
    simple1 (sdu s) (nrow s - 1) (suk s) -> simple1 (sdv s) (ncol s - 1) (svk s) ->
    exists m, adaptive_tessellate s None opts = Ok m /\ tiles (mesh_tris m) (dom_rect s) /\
      Forall2 (fun uv p => in_rect (dom_rect s) uv /\ forall i, (i < 3)%nat -> rc i p = snurbs s i (fst uv) (snd uv)) (tuvs m) (tpts m).
  Proof.
    intros Hs Hse HD Hdu Hdv Su Sv. set (o := match opts with Some o => o | None => ao_default end).
    assert (He : 0 < eps) by (destruct Hse as ((H & _) & _); exact H).
    destruct (grid_params_spec (suk s) (sdu s) (nrow s - 1) (ao_divs_u o) 2 (so_uk s Hs) Hdu ltac:(lia) Su) as (us & du & Eu & Lu & Pu & Iu & U0 & U1).
    destruct (grid_params_spec (svk s) (sdv s) (ncol s - 1) (ao_divs_v o) 2 (so_vk s Hs) Hdv ltac:(lia) Sv) as (vs & dv & Ev & Lv & Pv & Iv & V0 & V1).
    pose proof (so_u s Hs) as Nr. pose proof (so_v s Hs) as Nc.
    replace (S (nrow s - 1)) with (nrow s) in * by lia. replace (S (ncol s - 1)) with (ncol s) in * by lia.
    assert (EG : adaptive_grid s None o = Ok (us, vs)).
    { unfold adaptive_grid. cbv zeta. change (length (snet s)) with (nrow s). rewrite Eu. cbn [bind].
      assert (ER : exists row, (if (sdv s <=? 1)%nat then Ok [] else get (snet s) 0) = Ok row /\ grid_params (svk s) (sdv s) (length row) (ao_divs_v o) 2 = Ok vs).
      { destruct (Nat.leb_spec (sdv s) 1) as [C|C].
        - exists []. split; [reflexivity|]. unfold grid_params in *. rewrite (proj2 (Nat.leb_le _ _) C) in *. exact Ev.
        - exists (nth 0 (snet s) []). split; [apply get_ok; unfold nrow in Nr; lia|].
          replace (length (nth 0 (snet s) [])) with (ncol s); [exact Ev|]. symmetry. pose proof (so_rect s Hs) as FR. rewrite Forall_forall in FR. apply FR. apply nth_In. unfold nrow in Nr; lia. }
      destruct ER as (row & -> & Er). cbn [bind]. rewrite Er. reflexivity. }
    assert (WD : whole us vs du dv = dom_rect s) by (unfold whole, dom_rect; rewrite U0, U1, V0, V1; reflexivity).
    destruct (nodes_total eps maxv s Hs Hse us vs du dv Lu Lv Iu Iv Pu Pv) with (bc := @None (BCons R)) (opts := opts) as (nodes & EN); [rewrite WD; unfold within; lra|exact EG|].
    destruct (adaptive_forest s None opts nodes EN) as (us' & vs' & du' & dv' & b & FX). fold o in FX. cbv zeta in FX. destruct FX as (EG' & Lu' & Lv' & F).
    rewrite EG in EG'. injection EG' as <- <-. assert (du' = du) as -> by lia. assert (dv' = dv) as -> by lia.
    assert (WI : within (whole us vs du dv) (dom_rect s)) by (rewrite WD; unfold within; lra).
    destruct (tess_total eps maxv s Hs Hse us vs du dv Lu Lv Iu Iv Pu Pv WI nodes _ b He F) as (m & Em).
    exists m. assert (EA : adaptive_tessellate s None opts = Ok m) by (unfold adaptive_tessellate; rewrite EN; exact Em).
    split; [exact EA|]. split; [rewrite <- WD; exact (forest_tiles eps maxv us vs du dv Lu Lv Iu Iv Pu Pv s nodes _ b m He F Em)|].
    pose proof (adaptive_on_surface s None opts m EA) as FO. pose proof (tess_in us vs du dv Lu Lv Iu Iv s nodes _ b m He F Em) as FI. rewrite WD in FI.
    clear - FO FI Hs Hse HD. induction FO as [|uv p uvs ps H FO IH]; [constructor|]. inversion FI; subst. constructor; [|auto].
    split; [assumption|]. destruct (point_of_spec s uv p Hs Hse ltac:(assumption) H) as (_ & X). intros i Hi. apply X. lia.
  Qed.
End Real.
