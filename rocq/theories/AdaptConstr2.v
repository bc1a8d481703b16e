(** * Adaptive tessellation with prescribed boundary parameters *)
From Coq Require Import Reals Lra Lia List Sorted Permutation.
From Verif Require Import Base BaseFacts Scalar RSum BSpline KnotFacts KnotSpec KnotModel KnotMisc KnotProofs VecFacts MiscModel MiscProofs CurveModel SurfaceModel SurfaceSpec SurfaceProofs SurfaceSample SurfaceDeriv SurfaceRational
  MergeModel MergeProofs AdaptModel AdaptProofs AdaptForest AdaptReal AdaptEdges AdaptPoly AdaptMesh AdaptTiling AdaptSurface AdaptTotal AdaptMain AdaptConstr.
Import ListNotations.
Open Scope R_scope.

(** ** Lists of parameters *)
Lemma increasing_sorted l : increasing l <-> StronglySorted Rlt l.
Proof.
  split.
  - induction l as [|a l IH]; intros H; constructor.
    + apply IH. intros i Hi. apply (H (S i)). cbn [length]. lia.
    + apply Forall_forall. intros x Hx. apply (In_nth _ _ 0) in Hx. destruct Hx as (i & Hi & <-).
      apply (increasing_lt (a :: l) 0 (S i) H). cbn [length]. lia.
  - induction 1 as [|a l Hl IH F]; intros i Hi; cbn [length] in Hi; [lia|]. destruct i as [|i]; cbn [nth].
    + destruct l as [|b l]; cbn [length] in Hi; [lia|]. inversion F; subst. assumption.
    + apply IH. lia.
Qed.

(** a strictly increasing list that spans an interval *)
Definition spans (lo hi : R) (l : list R) (d : nat) : Prop :=
  length l = S d /\ (0 < d)%nat /\ increasing l /\ nth 0 l 0 = lo /\ nth d l 0 = hi.
Lemma spans_in lo hi l d x : spans lo hi l d -> In x l -> lo <= x <= hi.
Proof.
  intros (L & _ & I & E0 & E1) Hx. apply (In_nth _ _ 0) in Hx. destruct Hx as (i & Hi & <-).
  pose proof (increasing_le l 0 i I ltac:(lia)). pose proof (increasing_le l i d I ltac:(lia)). lra.
Qed.
Lemma spans_intro lo hi l : lo < hi -> StronglySorted Rlt l -> In lo l -> In hi l -> Forall (fun x => lo <= x <= hi) l -> exists d, spans lo hi l d.
Proof.
  intros Hlt HS H0 H1 F. apply increasing_sorted in HS. rewrite Forall_forall in F.
  apply (In_nth _ _ 0) in H0, H1. destruct H0 as (i & Hi & Ei), H1 as (j & Hj & Ej).
  assert (N : forall k, (k < length l)%nat -> lo <= nth k l 0 <= hi) by (intros k Hk; apply F; now apply nth_In).
  assert (E0 : nth 0 l 0 = lo).
  { pose proof (increasing_le l 0 i HS ltac:(lia)). pose proof (N 0%nat ltac:(lia)). lra. }
  exists (length l - 1)%nat. unfold spans. split; [lia|]. split; [|split; [exact HS|split; [exact E0|]]].
  - destruct (length l) as [|[|n]] eqn:E; [lia| |lia]. assert (i = 0%nat) as -> by lia. assert (j = 0%nat) as -> by lia. lra.
  - pose proof (increasing_le l j (length l - 1) HS ltac:(lia)). pose proof (N (length l - 1)%nat ltac:(lia)). lra.
Qed.

(** lists of constraint parameters: strictly increasing, inside the domain, not empty *)
Definition params_ok (lo hi : R) (o : option (list R)) : Prop :=
  forall l, o = Some l -> l <> [] /\ StronglySorted Rlt l /\ Forall (fun x => lo <= x <= hi) l.
Definition constraints_ok (s : Surf R) (c : BCons R) : Prop :=
  params_ok (u0 s) (u1 s) (bc_u_vmin c) /\ params_ok (u0 s) (u1 s) (bc_u_vmax c) /\
  params_ok (v0 s) (v1 s) (bc_v_umin c) /\ params_ok (v0 s) (v1 s) (bc_v_umax c).

Section Real.
  Variables eps maxv : R.
  Local Hint Extern 0 (Scalar R) => exact (ROps eps maxv) : typeclass_instances.

  Lemma dedup_spec (l : list R) : Sorted Rle l -> StronglySorted Rlt (dedup l) /\ forall x, In x (dedup l) <-> In x l.
  Proof.
    induction l as [|a l IH]; intros HS; [split; [constructor|tauto]|].
    assert (Hl : Sorted Rle l) by now inversion HS. pose proof (sorted_tail_ge _ _ HS) as F. rewrite Forall_forall in F.
    destruct (IH Hl) as (D & I). cbn [dedup]. destruct (dedup l) as [|y t] eqn:E.
    - split; [repeat constructor|]. intros x. cbn [In]. rewrite <- I. cbn. tauto.
    - inversion D as [|? ? Dt Ft]; subst. assert (Ha : a <= y) by (apply F; apply I; now left).
      cbn [seqb ROps]. destruct (Reqb_spec a y) as [->|Hne].
      + split; [exact D|]. intros x. rewrite I. cbn [In]. split; [tauto|]. intros [<-|H]; [apply I; now left|exact H].
      + rewrite Forall_forall in Ft. split.
        * constructor; [exact D|]. apply Forall_forall. intros x [<-|Hx]; [lra|]. specialize (Ft x Hx). lra.
        * intros x. cbn [In]. rewrite <- I. cbn [In]. tauto.
  Qed.
  Lemma sorted_parameters_spec lo hi a b : params_ok lo hi a -> params_ok lo hi b ->
    params_ok lo hi (sorted_parameters a b) /\
    forall l x, (a = Some l \/ b = Some l) -> In x l -> exists r, sorted_parameters a b = Some r /\ In x r.
  Proof.
    intros Ha Hb. destruct a as [la|], b as [lb|]; cbn [sorted_parameters].
    - destruct (Ha la eq_refl) as (A1 & A2 & A3). destruct (Hb lb eq_refl) as (B1 & B2 & B3).
      destruct (dedup_spec (ksort (la ++ lb)) (ksort_sorted eps maxv _)) as (D & I).
      assert (P : forall x, In x (dedup (ksort (la ++ lb))) <-> In x la \/ In x lb).
      { intros x. rewrite I. rewrite <- in_app_iff. split; apply Permutation_in; [|symmetry]; apply ksort_perm. }
      split.
      + intros l E. injection E as <-. split; [|split; [exact D|]].
        * intros E. destruct la as [|x la]; [now apply A1|]. assert (X : In x []) by (rewrite <- E; apply P; left; now left). destruct X.
        * apply Forall_forall. intros x Hx. apply P in Hx. rewrite Forall_forall in A3, B3. destruct Hx; auto.
      + intros l x Hl Hx. eexists. split; [reflexivity|]. apply P. destruct Hl as [Hl|Hl]; injection Hl as <-; tauto.
    - split; [exact Ha|]. intros l x [Hl|Hl] Hx; [injection Hl as <-; eauto|discriminate].
    - split; [exact Hb|]. intros l x [Hl|Hl] Hx; [discriminate|injection Hl as <-; eauto].
    - split; [exact Ha|]. intros l x [Hl|Hl] Hx; discriminate.
  Qed.
  Lemma with_boundary_spans lo hi l d o : spans lo hi l d -> params_ok lo hi o -> exists d',
    spans lo hi (with_boundary o l) d' /\ forall r x, o = Some r -> In x r -> In x (with_boundary o l).
  Proof.
    intros HS HP. destruct o as [r|]; cbn [with_boundary]; [|exists d; split; [exact HS|discriminate]].
    destruct (HP r eq_refl) as (_ & SR & FR). pose proof HS as (L & D & I & E0 & E1).
    change (AdaptModel.merge_sorted l r) with (MergeModel.merge_sorted l r).
    assert (M : forall x, In x (MergeModel.merge_sorted l r) <-> In x l \/ In x r) by apply (merge_in eps maxv).
    destruct (spans_intro lo hi (MergeModel.merge_sorted l r)) as (d' & Hd').
    - pose proof (increasing_lt l 0 d I ltac:(lia)). lra.
    - apply (merge_strict eps maxv); [now apply increasing_sorted|exact SR].
    - apply M. left. rewrite <- E0. apply nth_In. lia.
    - apply M. left. rewrite <- E1. apply nth_In. lia.
    - apply Forall_forall. intros x Hx. apply M in Hx. destruct Hx as [Hx|Hx]; [now apply (spans_in lo hi l d)|]. rewrite Forall_forall in FR. auto.
    - exists d'. split; [exact Hd'|]. intros r' x E Hx. injection E as <-. apply M. now right.
  Qed.

  (** ** The grid *)
  Section Grid.
    Variable s : Surf R.
    Hypotheses (Hs : surf_ok s) (Hse : surf_eps eps s) (Hdu : (1 <= sdu s)%nat) (Hdv : (1 <= sdv s)%nat).
    Hypotheses (Su : simple1 (sdu s) (nrow s - 1) (suk s)) (Sv : simple1 (sdv s) (ncol s - 1) (svk s)).
    Variables (c : BCons R) (opts : option (AOpts R)).
    Hypothesis (Hc : constraints_ok s c).
    Let o := match opts with Some o => o | None => ao_default end.

    Lemma constrained_grid : exists us vs du dv, adaptive_grid s (Some c) o = Ok (us, vs) /\ spans (u0 s) (u1 s) us du /\ spans (v0 s) (v1 s) vs dv /\
      (forall l x, (bc_u_vmin c = Some l \/ bc_u_vmax c = Some l) -> In x l -> In x us) /\
      (forall l x, (bc_v_umin c = Some l \/ bc_v_umax c = Some l) -> In x l -> In x vs).
    Proof.
      destruct Hc as (C1 & C2 & C3 & C4).
      destruct (grid_params_spec eps maxv (suk s) (sdu s) (nrow s - 1) (ao_divs_u o) 1 (so_uk s Hs) Hdu ltac:(lia) Su) as (us & du & Eu & Lu & Pu & Iu & U0 & U1).
      destruct (grid_params_spec eps maxv (svk s) (sdv s) (ncol s - 1) (ao_divs_v o) 1 (so_vk s Hs) Hdv ltac:(lia) Sv) as (vs & dv & Ev & Lv & Pv & Iv & V0 & V1).
      pose proof (so_u s Hs) as Nr. pose proof (so_v s Hs) as Nc.
      replace (S (nrow s - 1)) with (nrow s) in * by lia. replace (S (ncol s - 1)) with (ncol s) in * by lia.
      assert (SU : spans (u0 s) (u1 s) us du) by (repeat split; auto).
      assert (SV : spans (v0 s) (v1 s) vs dv) by (repeat split; auto).
      destruct (sorted_parameters_spec _ _ _ _ C1 C2) as (PU & MU). destruct (sorted_parameters_spec _ _ _ _ C3 C4) as (PV & MV).
      destruct (with_boundary_spans _ _ us du _ SU PU) as (du' & SU' & IU). destruct (with_boundary_spans _ _ vs dv _ SV PV) as (dv' & SV' & IV).
      exists (with_boundary (u_parameters c) us), (with_boundary (v_parameters c) vs), du', dv'.
      split; [|split; [exact SU'|split; [exact SV'|split]]].
      - unfold adaptive_grid. cbv zeta. change (length (snet s)) with (nrow s). rewrite Eu. cbn [bind].
        assert (ER : exists row, (if (sdv s <=? 1)%nat then Ok [] else get (snet s) 0) = Ok row /\ grid_params (svk s) (sdv s) (length row) (ao_divs_v o) 1 = Ok vs).
        { destruct (Nat.leb_spec (sdv s) 1) as [C|C].
          - exists []. split; [reflexivity|]. unfold grid_params in *. rewrite (proj2 (Nat.leb_le _ _) C) in *. exact Ev.
          - exists (nth 0 (snet s) []). split; [apply get_ok; unfold nrow in Nr; lia|].
            replace (length (nth 0 (snet s) [])) with (ncol s); [exact Ev|]. symmetry. pose proof (so_rect s Hs) as FR. rewrite Forall_forall in FR. apply FR. apply nth_In. unfold nrow in Nr; lia. }
        destruct ER as (row & -> & Er). cbn [bind]. rewrite Er. reflexivity.
      - intros l x Hl Hx. destruct (MU l x Hl Hx) as (r & Er & Hr). now apply (IU r).
      - intros l x Hl Hx. destruct (MV l x Hl Hx) as (r & Er & Hr). now apply (IV r).
    Qed.

    Lemma domains : domain (suk s) (sdu s) = Ok (u0 s, u1 s) /\ domain (svk s) (sdv s) = Ok (v0 s, v1 s).
    Proof.
      pose proof (so_u s Hs) as Nr. pose proof (so_v s Hs) as Nc. rewrite (domain_ok _ _ _ (so_uk s Hs)), (domain_ok _ _ _ (so_vk s Hs)).
      unfold u0, u1, v0, v1. replace (S (nrow s - 1)) with (nrow s) by lia. replace (S (ncol s - 1)) with (ncol s) by lia. auto.
    Qed.

    (** *** The mesh exists *)
    Lemma boundary_total : exists b, boundary_evaluation s c = Ok b /\ forall p, is_ok (snap b p).
    Proof.
      destruct domains as (Du & Dv). destruct Hc as (C1 & C2 & C3 & C4).
      assert (LU : u0 s < u1 s) by (destruct constrained_grid as (us & vs & du & dv & _ & (L & P & I & E0 & E1) & _); pose proof (increasing_lt us 0 du I ltac:(lia)); lra).
      assert (LV : v0 s < v1 s) by (destruct constrained_grid as (us & vs & du & dv & _ & _ & (L & P & I & E0 & E1) & _); pose proof (increasing_lt vs 0 dv I ltac:(lia)); lra).
      assert (BP : forall f ps lo hi, params_ok lo hi ps -> (forall t, lo <= t <= hi -> in_rect (dom_rect s) (f t)) -> exists r, boundary_points s f ps = Ok r /\ forall l, r = Some l -> l <> []).
      { intros f ps lo hi HP HF. destruct ps as [l|]; cbn [boundary_points]; [|eexists; split; [reflexivity|discriminate]].
        destruct (HP l eq_refl) as (Hne & _ & FR). rewrite Forall_forall in FR.
        destruct (mapM_total (fun t => boundary_point s (f t)) l) as (r & Er).
        - intros t Ht. specialize (HF t (FR t Ht)). rewrite (surjective_pairing (f t)) in HF. destruct (derivs_ok eps maxv s Hs Hse _ _ HF) as (ds & E & (x & Ea) & (y & Eb) & (z & Ec)).
          unfold boundary_point. rewrite E. cbn [bind]. rewrite Ea. cbn [bind]. rewrite Eb. cbn [bind]. rewrite Ec. cbn [bind]. eexists. reflexivity.
        - rewrite Er. cbn [bind]. eexists. split; [reflexivity|]. intros l' E. injection E as <-. apply mapM_inv, Forall2_len in Er. intros ->. destruct l; [now apply Hne|discriminate Er]. }
      unfold boundary_evaluation. rewrite Du, Dv. cbn [bind].
      destruct (BP (fun u => (u, v0 s)) _ _ _ C1) as (r1 & E1 & N1); [intros t Ht; unfold in_rect, dom_rect; cbn; lra|]. rewrite E1. cbn [bind].
      destruct (BP (fun u => (u, v1 s)) _ _ _ C2) as (r2 & E2 & N2); [intros t Ht; unfold in_rect, dom_rect; cbn; lra|]. rewrite E2. cbn [bind].
      destruct (BP (fun v => (u0 s, v)) _ _ _ C3) as (r3 & E3 & N3); [intros t Ht; unfold in_rect, dom_rect; cbn; lra|]. rewrite E3. cbn [bind].
      destruct (BP (fun v => (u1 s, v)) _ _ _ C4) as (r4 & E4 & N4); [intros t Ht; unfold in_rect, dom_rect; cbn; lra|]. rewrite E4. cbn [bind].
      eexists. split; [reflexivity|]. intros p. unfold snap. cbn [be_u_vmin be_u_vmax be_v_umin be_v_umax]. cbv zeta.
      assert (CO : forall l, l <> [] -> is_ok (closest_of p l)) by (intros [|x l] H; [now destruct H|eexists; reflexivity]).
      assert (G : forall (flag : bool) r (k : Res (SPoint R)), (forall l, r = Some l -> l <> []) -> is_ok k -> is_ok (if flag then match r with Some l => closest_of p l | None => k end else k)).
      { intros [] [l|] k Hr Hk; auto. }
      repeat (apply G; [assumption|]). eexists. reflexivity.
    Qed.

    Theorem constrained_total : is_ok (adaptive_tessellate s (Some c) opts).
    Proof.
      assert (He : 0 < eps) by (destruct Hse as ((H & _) & _); exact H).
      destruct constrained_grid as (us & vs & du & dv & EG & (Lu & Pu & Iu & U0 & U1) & (Lv & Pv & Iv & V0 & V1) & _).
      assert (WD : whole us vs du dv = dom_rect s) by (unfold whole, dom_rect; rewrite U0, U1, V0, V1; reflexivity).
      assert (WI : within (whole us vs du dv) (dom_rect s)) by (rewrite WD; unfold within; lra).
      destruct (nodes_total eps maxv s Hs Hse us vs du dv Lu Lv Iu Iv Pu Pv WI (Some c) opts EG) as (nodes & EN).
      destruct (adaptive_forest s (Some c) opts nodes EN) as (us' & vs' & du' & dv' & b & FX). fold o in FX. cbv zeta in FX. destruct FX as (EG' & Lu' & Lv' & F).
      rewrite EG in EG'. injection EG' as <- <-. assert (du' = du) as -> by lia. assert (dv' = dv) as -> by lia.
      destruct boundary_total as (be & EB & HB).
      unfold adaptive_tessellate, tess_new. rewrite EN. cbn [bind]. rewrite EB. cbn [bind].
      apply (triangulate_total eps maxv s Hs Hse us vs du dv Lu Lv Iu Iv Pu Pv WI nodes _ b (Some be) He F). intros b' E. injection E as <-. exact HB.
    Qed.
  End Grid.
End Real.
