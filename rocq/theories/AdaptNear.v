(** * How far an adaptive mesh is from its surface, in both directions *)
From Coq Require Import Reals Lra Lia List Sorted.
From Verif Require Import Base BaseFacts Scalar RSum BSpline KnotFacts KnotSpec KnotModel KnotProofs VecFacts MiscModel CurveModel SurfaceModel SurfaceSpec SurfaceProofs SurfaceSample SurfaceDeriv SurfaceRational SurfContinuity SurfLipschitz
  AdaptModel AdaptProofs AdaptForest AdaptReal AdaptEdges AdaptPoly AdaptMesh AdaptTiling AdaptSurface AdaptTotal AdaptMain MeshNear.
Import ListNotations.
Open Scope R_scope.

(** the cells of the grid an adaptive mesh starts from are at most [w] wide: the knots for degree one, otherwise
    the larger of the requested number of parts and two parts per control span *)
Definition grid_width (k : list R) (p n divs : nat) (lo hi w : R) : Prop :=
  if (p <=? 1)%nat then forall i, (1 <= i < n)%nat -> kf k (S i) - kf k i <= w
  else (hi - lo) / INR (Nat.max divs ((n - 1) * 2)) <= w.

Section Real.
  Variables eps maxv : R.
  Local Hint Extern 0 (Scalar R) => exact (ROps eps maxv) : typeclass_instances.

  Lemma grid_params_width k p n divs l w : knots_ok p n k -> (1 <= p)%nat -> grid_params k p (S n) divs 2 = Ok l ->
    grid_width k p (S n) divs (kf k p) (kf k (S n)) w -> forall j, (S j < length l)%nat -> nth (S j) l 0 - nth j l 0 <= w.
  Proof.
    intros H Hp E W j Hj. unfold grid_params in E. unfold grid_width in W. pose proof (ko_len _ _ _ H) as L. pose proof (ko_pn _ _ _ H) as Hpn.
    destruct (Nat.leb_spec p 1) as [C|C].
    - assert (p = 1%nat) as -> by lia. rewrite usub_ok in E by lia. cbn [bind] in E. assert (EL : l = firstn (length k - 2) (skipn 1 k)) by congruence. rewrite EL in *. clear E EL.
      rewrite firstn_length, skipn_length in Hj. rewrite !nth_firstn by lia. rewrite !nth_skipn. specialize (W (1 + j)%nat ltac:(lia)).
      rewrite (kf_nth k (S (1 + j)) 0), (kf_nth k (1 + j) 0) in W by lia. replace (1 + S j)%nat with (S (1 + j)) by lia. exact W.
    - rewrite usub_ok in E by lia. cbn [bind] in E. rewrite (domain_ok k p n H) in E. cbn [bind] in E. match type of E with Ok ?y = _ => assert (EL : l = y) by congruence end. rewrite EL in *. clear E EL.
      rewrite map_length, seq_length in Hj. set (D := Nat.max divs ((S n - 1) * 2)) in *.
      rewrite !(nth_map_lt _ _ _ 0%nat) by (rewrite seq_length; lia). rewrite !seq_nth by lia. cbn [Nat.add]. rewrite !(AdaptMain.sofnat_INR eps maxv). rs. rewrite S_INR.
      apply Rle_trans with ((kf k (S n) - kf k p) / INR D); [apply Req_le; ring|exact W].
  Qed.

  Section Grid.
    Variables (us vs : list R) (du dv : nat).
    Hypotheses (Lu : length us = S du) (Lv : length vs = S dv) (Iu : increasing us) (Iv : increasing vs) (Pu : (0 < du)%nat) (Pv : (0 < dv)%nat).
    Local Notation cell := (@cell_rect R (ROps eps maxv) us vs du dv).

    (** every triangle lies in one cell of the grid *)
    Lemma tris_in_cells s nodes h b m : 0 < eps -> forest nodes h (dv * du) cell (cell_nb du dv) b -> tess_new s nodes None = Ok m ->
      forall t, In t (mesh_tris m) -> exists a c, (a < du)%nat /\ (c < dv)%nat /\ verts_in (MkRect (nth a us 0) (nth c vs 0) (nth (S a) us 0) (nth (S c) vs 0)) t.
    Proof.
      intros He F E t Ht. destruct (tess_pieces eps maxv s nodes m) as (tss & FT & EM); [|exact E|].
      { intros n Hn Cn. apply In_nth_error in Hn. destruct Hn as (j & Hj). exact (forest_polygons eps maxv us vs du dv Lu Lv Iu Iv nodes h b He F j n Hj Cn). }
      rewrite EM in Ht. apply in_concat_nth in Ht. destruct Ht as (j & ts & Ej & Ht).
      destruct (Forall2_nth_error _ _ _ _ _ FT Ej) as (n & En & Hn). unfold node_tiles in Hn. destruct (an_children n) eqn:Ch; [subst ts; destruct Ht|].
      destruct Hn as (r & Sh & Hr & (T1 & _)). rewrite Forall_forall in T1. destruct (T1 t Ht) as (_ & V).
      assert (Lr : leaf_rect nodes j r) by (exists n; auto).
      destruct (forest_locate _ _ _ _ _ _ F j) as (i & Hi & Hj); [apply nth_error_Some; congruence|].
      assert (F' := F). destruct F' as (_ & _ & TR). destruct (TR i Hi) as (_ & Ti).
      destruct (tree_leaves eps maxv _ _ _ _ _ _ _ Ti (cell_ok eps maxv us vs du dv Lu Lv Iu Iv i Hi) j r Hj Lr) as (_ & W).
      set (a := (i mod du)%nat). set (q := (i / du)%nat). assert (Ha : (a < du)%nat) by (apply Nat.mod_upper_bound; lia).
      assert (Hq : (q < dv)%nat) by (apply Nat.div_lt_upper_bound; lia).
      assert (Ei : i = ((dv - 1 - (dv - 1 - q)) * du + a)%nat) by (replace (dv - 1 - (dv - 1 - q))%nat with q by lia; unfold q, a; rewrite Nat.mul_comm; apply Nat.div_mod; lia).
      exists a, (dv - 1 - q)%nat. split; [exact Ha|]. split; [lia|]. rewrite <- (cell_at eps maxv us vs du dv Lu Lv Pu Pv a (dv - 1 - q)%nat Ha ltac:(lia)), <- Ei.
      unfold within in W. destruct t as [[x y] z]. unfold verts_in, in_rect in *. intuition lra.
    Qed.
  End Grid.

  (** a point of a triangle of positive area is a weighted mean of its corners *)
  Lemma in_tri_bary a b c p : 0 < tri_area2 (a, b, c) -> in_tri (a, b, c) p -> exists x y z, bary x y z /\
    fst p = x * fst a + y * fst b + z * fst c /\ snd p = x * snd a + y * snd b + z * snd c.
  Proof.
    intros HA (H1 & H2 & H3). cbn [tri_area2] in HA. set (A := area2 a b c) in *.
    exists (area2 b c p / A), (area2 c a p / A), (area2 a b p / A). split; [|split].
    - unfold bary. repeat match goal with |- _ /\ _ => split end; try (apply Rmult_le_pos; [assumption|apply Rlt_le, Rinv_0_lt_compat; exact HA]).
      apply (Rmult_eq_reg_r A); [|lra]. replace ((area2 b c p / A + area2 c a p / A + area2 a b p / A) * A) with (area2 b c p + area2 c a p + area2 a b p) by (field; lra).
      unfold A, area2. ring.
    - apply (Rmult_eq_reg_r A); [|lra]. replace ((area2 b c p / A * fst a + area2 c a p / A * fst b + area2 a b p / A * fst c) * A) with (area2 b c p * fst a + area2 c a p * fst b + area2 a b p * fst c) by (field; lra).
      unfold A, area2. ring.
    - apply (Rmult_eq_reg_r A); [|lra]. replace ((area2 b c p / A * snd a + area2 c a p / A * snd b + area2 a b p / A * snd c) * A) with (area2 b c p * snd a + area2 c a p * snd b + area2 a b p * snd c) by (field; lra).
      unfold A, area2. ring.
  Qed.

  Theorem adaptive_mesh_near s opts wu wv : surf_ok s -> surf_eps eps s -> surf_cont s -> sdim s = 4%nat -> (1 <= sdu s)%nat -> (1 <= sdv s)%nat ->
    simple1 (sdu s) (nrow s - 1) (suk s) -> simple1 (sdv s) (ncol s - 1) (svk s) ->
    let o := match opts with Some o => o | None => ao_default end in
    grid_width (suk s) (sdu s) (nrow s) (ao_divs_u o) (u0 s) (u1 s) wu -> grid_width (svk s) (sdv s) (ncol s) (ao_divs_v o) (v0 s) (v1 s) wv ->
    exists m, adaptive_tessellate s None opts = Ok m /\
    (forall a b c x y z, In [a; b; c] (tfaces m) -> bary x y z -> exists u v, in_dom s u v /\
       forall i Ku Kv, (i < 3)%nat -> 0 <= Ku -> 0 <= Kv -> surf_rate s i Ku Kv -> Rabs (face_coord m i a b c x y z - snurbs s i u v) <= Ku * (wu / 2) + Kv * (wv / 2)) /\
    (forall u v, in_dom s u v -> exists a b c x y z, In [a; b; c] (tfaces m) /\ bary x y z /\
       forall i Ku Kv, (i < 3)%nat -> 0 <= Ku -> 0 <= Kv -> surf_rate s i Ku Kv -> Rabs (face_coord m i a b c x y z - snurbs s i u v) <= Ku * (wu / 2) + Kv * (wv / 2)).
  Proof.
    intros Hs Hse Hcont HD Hdu Hdv Su Sv o GU GV.
    assert (He : 0 < eps) by (destruct Hse as ((H & _) & _); exact H).
    destruct (grid_params_spec eps maxv (suk s) (sdu s) (nrow s - 1) (ao_divs_u o) 2 (so_uk s Hs) Hdu ltac:(lia) Su) as (us & du & Eu & Lu & Pu & Iu & U0 & U1).
    destruct (grid_params_spec eps maxv (svk s) (sdv s) (ncol s - 1) (ao_divs_v o) 2 (so_vk s Hs) Hdv ltac:(lia) Sv) as (vs & dv & Ev & Lv & Pv & Iv & V0 & V1).
    pose proof (so_u s Hs) as Nr. pose proof (so_v s Hs) as Nc.
    assert (WU : forall j, (S j < length us)%nat -> nth (S j) us 0 - nth j us 0 <= wu).
    { apply (grid_params_width _ _ _ _ _ wu (so_uk s Hs) Hdu Eu). replace (S (nrow s - 1)) with (nrow s) by lia. exact GU. }
    assert (WV : forall j, (S j < length vs)%nat -> nth (S j) vs 0 - nth j vs 0 <= wv).
    { apply (grid_params_width _ _ _ _ _ wv (so_vk s Hs) Hdv Ev). replace (S (ncol s - 1)) with (ncol s) by lia. exact GV. }
    replace (S (nrow s - 1)) with (nrow s) in * by lia. replace (S (ncol s - 1)) with (ncol s) in * by lia.
    assert (EG : adaptive_grid s None o = Ok (us, vs)).
    { unfold adaptive_grid. cbv zeta. change (length (snet s)) with (nrow s). rewrite Eu. cbn [bind].
      assert (ER : exists row, (if (sdv s <=? 1)%nat then Ok [] else get (snet s) 0) = Ok row /\ grid_params (svk s) (sdv s) (length row) (ao_divs_v o) 2 = Ok vs).
      { destruct (Nat.leb_spec (sdv s) 1) as [C|C].
        - exists []. split; [reflexivity|]. unfold grid_params in *. rewrite (proj2 (Nat.leb_le _ _) C) in *. exact Ev.
        - exists (nth 0 (snet s) []). split; [apply get_ok; unfold nrow in Nr; lia|].
          replace (length (nth 0 (snet s) [])) with (ncol s); [exact Ev|]. symmetry. pose proof (so_rect s Hs) as FR. rewrite Forall_forall in FR. apply FR. apply nth_In. unfold nrow in Nr; lia. }
      destruct ER as (row & -> & Er). cbn [bind]. rewrite Er. reflexivity. }
    assert (WD : whole us vs du dv = dom_rect s) by (unfold whole, dom_rect; rewrite U0, U1, V0, V1; reflexivity).
    destruct (nodes_total eps maxv s Hs Hse us vs du dv Lu Lv Iu Iv Pu Pv) with (bc := @None (BCons R)) (opts := opts) as (nodes & EN); [rewrite WD; unfold within; lra|exact EG|].
    destruct (adaptive_forest s None opts nodes EN) as (us' & vs' & du' & dv' & b & FX). fold o in FX. cbv zeta in FX. destruct FX as (EG' & Lu' & Lv' & F).
    rewrite EG in EG'. injection EG' as <- <-. assert (du' = du) as -> by lia. assert (dv' = dv) as -> by lia.
    assert (WI : within (whole us vs du dv) (dom_rect s)) by (rewrite WD; unfold within; lra).
    destruct (tess_total eps maxv s Hs Hse us vs du dv Lu Lv Iu Iv Pu Pv WI nodes _ b He F) as (m & Em).
    exists m. assert (EA : adaptive_tessellate s None opts = Ok m) by (unfold adaptive_tessellate; rewrite EN; exact Em).
    split; [exact EA|]. pose proof (tris_in_cells us vs du dv Lu Lv Iu Iv Pu Pv s nodes _ b m He F Em) as TC.
    destruct (adaptive_mesh eps maxv s opts Hs Hse HD Hdu Hdv Su Sv) as (m' & EA' & (T1 & _ & T3 & _) & FO).
    assert (m' = m) as -> by congruence. clear EA'.
    destruct (adaptive_indices s None opts m EA) as (_ & LU & FF). rewrite Forall_forall in FF, T1.
    assert (Hon : on_surface s m).
    { intros k Hk. destruct (nth_error (tpts m) k) as [p|] eqn:Ep; [|apply nth_error_None in Ep; lia].
      destruct (Forall2_nth_error _ _ _ _ _ FO Ep) as (uv & Euv & (D & V)). unfold uvk. rewrite (nth_error_nth _ _ (0, 0) Euv), (nth_error_nth _ _ [] Ep).
      split; [exact D|exact V]. }
    apply (mesh_near eps); try assumption.
    - intros f Hf. destruct (FF f Hf) as (L3 & FI). split; [exact L3|]. intros k l Hk Hl. rewrite Forall_forall in FI. split; [exact (FI k Hk)|].
      destruct (TC (face_tri (tuvs m) f)) as (a & c & Ha & Hc & V); [unfold mesh_tris; now apply in_map|].
      assert (K : forall k, In k f -> in_rect (MkRect (nth a us 0) (nth c vs 0) (nth (S a) us 0) (nth (S c) vs 0)) (uvk m k)).
      { intros k0 Hk0. destruct f as [|x [|y [|z [|]]]]; try discriminate. cbn [face_tri] in V. destruct V as (Vx & Vy & Vz). destruct Hk0 as [<-|[<-|[<-|[]]]]; assumption. }
      pose proof (K k Hk) as (K1 & K2). pose proof (K l Hl) as (K3 & K4). cbn [rl rr rb rt] in *. specialize (WU a ltac:(lia)). specialize (WV c ltac:(lia)).
      split; apply Rabs_le; lra.
    - intros u v D. destruct (T3 (u, v)) as (t & Ht & Hin); [destruct D; split; assumption|]. destruct (T1 t Ht) as (A & _).
      unfold mesh_tris in Ht. apply in_map_iff in Ht. destruct Ht as (f & <- & Hf). destruct (FF f Hf) as (L3 & _). destruct f as [|x [|y [|z [|]]]]; try discriminate. cbn [face_tri] in *.
      destruct (in_tri_bary _ _ _ _ A Hin) as (p & q & r & Hb & E1 & E2). exists x, y, z, p, q, r. split; [exact Hf|]. split; [exact Hb|]. split; [exact E1|exact E2].
  Qed.
End Real.
