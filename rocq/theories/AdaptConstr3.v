(** * The constrained sides of adaptive meshes *)
From Coq Require Import Reals Lra Lia List Sorted Permutation.
From Verif Require Import Base BaseFacts Scalar RSum BSpline KnotFacts KnotSpec KnotModel KnotMisc KnotProofs VecFacts MiscModel MiscProofs CurveModel SurfaceModel SurfaceSpec SurfaceProofs SurfaceSample SurfaceDeriv SurfaceRational
  AdaptModel AdaptProofs AdaptForest AdaptReal AdaptEdges AdaptPoly AdaptMesh AdaptTiling AdaptSurface AdaptTotal AdaptMain AdaptConstr AdaptConstr2.
Import ListNotations.
Open Scope R_scope.

(** side [DirU]: the parameter [u] runs along it and [v] is minimal; side [DirV] likewise *)
Definition across (d : UV) (uv : R * R) : R := match d with DirU => snd uv | DirV => fst uv end.
Definition con_of (d : UV) (p : SPoint R) : bool := match d with DirU => sp_ucon p | DirV => sp_vcon p end.
Definition low_of (d : UV) (p : SPoint R) : bool := match d with DirU => sp_umin p | DirV => sp_vmin p end.
Definition low_list (d : UV) (c : BCons R) : option (list R) := match d with DirU => bc_u_vmin c | DirV => bc_v_umin c end.

Section Real.
  Variables eps maxv : R.
  Local Hint Extern 0 (Scalar R) => exact (ROps eps maxv) : typeclass_instances.
  Variable s : Surf R.
  Variables (d : UV) (lo : R).

  (** points on the side carry its flags *)
  Definition good (p : SPoint R) : Prop := lo <= across d (sp_uv p) /\ (across d (sp_uv p) = lo -> con_of d p = true /\ low_of d p = true).
  Definition node_good (n : ANode R) : Prop :=
    corners_sat good n /\ lo < across d (sp_uv (f2 (an_corners n))) /\
    across d (an_center n) = (across d (sp_uv (f0 (an_corners n))) + across d (sp_uv (f2 (an_corners n)))) / 2.

  Lemma an_new_good q nb : good (f0 q) -> good (f1 q) -> good (f2 q) -> good (f3 q) -> lo < across d (sp_uv (f2 q)) -> node_good (an_new q nb).
  Proof.
    intros G0 G1 G2 G3 H. unfold node_good, an_new, corners_sat. cbn [an_corners an_center]. split; [intros []; assumption|]. split; [exact H|].
    unfold across, shalf, slit. destruct d; cbn [fst snd]; rs; cbn; lra.
  Qed.
  Lemma eval_good uv p : evaluate_surface s uv = Ok p -> lo < across d uv -> good p.
  Proof. intros E H. apply evaluate_uv in E. unfold good. rewrite E. split; lra. Qed.

  Lemma fix_good p a b : good p -> good (fix_normal p a b).
  Proof. unfold fix_normal. destruct (sp_degen p); auto. Qed.

  Lemma should_divide_good o depth n n' dv : ao_min_depth o = 0%nat -> node_good n -> should_divide o depth n = (n', dv) ->
    node_good n' /\ (forall x, dv = Some x -> n' = n /\ (x <> match d with DirU => DivU | DirV => DivV end -> forall e, lo < across d (sp_uv (four (an_corners n) e)))).
  Proof.
    intros Ho Hn E. unfold should_divide in E. rewrite Ho in E. change (depth <? 0)%nat with false in E. cbv iota in E.
    destruct (ao_max_depth o <=? depth)%nat; [injection E as <- <-; split; [exact Hn|discriminate]|].
    destruct (has_bad_normals (an_corners n)).
    - injection E as <- <-. split; [|discriminate]. destruct Hn as (H1 & H2 & H3). unfold node_good. cbn [an_corners an_center].
      split; [|split].
      + unfold fix_normals, corners_sat. cbv zeta. intros []; apply fix_good; [apply (H1 South)|apply (H1 East)|apply (H1 North)|apply (H1 West)].
      + unfold fix_normals. cbv zeta. cbn [f2]. now rewrite fix_normal_uv.
      + unfold fix_normals. cbv zeta. cbn [f0 f2]. now rewrite !fix_normal_uv.
    - cbv zeta in E. destruct Hn as (H1 & H2 & H3).
      assert (K : (negb (con_of d (f0 (an_corners n))) && negb (con_of d (f1 (an_corners n))) && negb (con_of d (f2 (an_corners n))) && negb (con_of d (f3 (an_corners n))))%bool = true ->
                forall e, lo < across d (sp_uv (four (an_corners n) e))).
      { intros Hc e. destruct (H1 e) as (A & B). destruct (Req_dec (across d (sp_uv (four (an_corners n) e))) lo) as [Q|Q]; [|lra].
        destruct (B Q) as (B1 & _). rewrite !Bool.andb_true_iff, !Bool.negb_true_iff in Hc. destruct e; cbn [four] in B1; destruct Hc as (((C0 & C1) & C2) & C3); congruence. }
      assert (N : node_good n) by (split; auto).
      destruct ((normals_differ _ (f1 _) (f2 _) || normals_differ _ (f3 _) (f0 _)) && _)%bool eqn:B;
        destruct ((normals_differ _ (f0 _) (f1 _) || normals_differ _ (f2 _) (f3 _)) && _)%bool eqn:A in E; injection E as <- <-; (split; [exact N|]); intros x Ex; try discriminate; injection Ex as <-; (split; [reflexivity|]); intros Hx;
        apply K; clear K; destruct d; cbn [con_of] in *; try congruence; try (apply andb_prop in A; exact (proj2 A)); try (apply andb_prop in B; exact (proj2 B)).
  Qed.

  Lemma split_good n x i0 i1 c0 c1 : node_good n -> (x <> d -> forall e, lo < across d (sp_uv (four (an_corners n) e))) ->
    split_node s n x i0 i1 = Ok (c0, c1) -> node_good c0 /\ node_good c1.
  Proof.
    intros (H1 & H2 & H3) HX E. unfold split_node in E. cbv zeta in E.
    pose proof (H1 South) as G0. pose proof (H1 East) as G1. pose proof (H1 North) as G2. pose proof (H1 West) as G3. cbn [four] in *.
    assert (Hmid : lo < across d (an_center n)) by (rewrite H3; destruct G0; lra).
    assert (HX' : x <> d -> lo < across d (sp_uv (f0 (an_corners n))) /\ lo < across d (sp_uv (f1 (an_corners n))) /\ lo < across d (sp_uv (f2 (an_corners n)))).
    { intros Hx. split; [apply (HX Hx South)|]. split; [apply (HX Hx East)|exact H2]. }
    destruct x; apply bind_ok in E; destruct E as (p & Ep & E); apply bind_ok in E; destruct E as (q & Eq & E); injection E as <- <-;
      unfold evaluate_mid_point, mid_uv in Ep, Eq; pose proof (evaluate_uv _ _ _ Ep) as Up; pose proof (evaluate_uv _ _ _ Eq) as Uq.
    - assert (Kp : lo < across d (sp_uv p)).
      { rewrite Up. destruct d; cbn [across fst snd] in *; [exact Hmid|]. destruct (HX' ltac:(discriminate)) as (_ & K & _). exact K. }
      assert (Kq : lo < across d (sp_uv q)).
      { rewrite Uq. destruct d; cbn [across fst snd] in *; [exact Hmid|]. destruct (HX' ltac:(discriminate)) as (K & _ & _). exact K. }
      assert (Gp : good p) by (unfold good; split; lra). assert (Gq : good q) by (unfold good; split; lra).
      split; apply an_new_good; cbn [f0 f1 f2 f3]; auto.
    - assert (Kp : lo < across d (sp_uv p)).
      { rewrite Up. destruct d; cbn [across fst snd] in *; [|exact Hmid]. destruct (HX' ltac:(discriminate)) as (K & _ & _). exact K. }
      assert (Kq : lo < across d (sp_uv q)).
      { rewrite Uq. destruct d; cbn [across fst snd] in *; [|exact Hmid]. destruct (HX' ltac:(discriminate)) as (_ & _ & K). exact K. }
      assert (Gp : good p) by (unfold good; split; lra). assert (Gq : good q) by (unfold good; split; lra).
      split; apply an_new_good; cbn [f0 f1 f2 f3]; auto.
  Qed.

  Lemma iterate_good o : ao_min_depth o = 0%nat -> forall fuel nodes id depth dir nodes', Forall node_good nodes -> iterate fuel s o nodes id depth dir = Ok nodes' -> Forall node_good nodes'.
  Proof.
    intros Ho. induction fuel as [|fuel IH]; intros nodes id depth dir nodes' HN E; [discriminate|]. cbn [iterate] in E.
    apply bind_ok in E. destruct E as (n & En & E).
    assert (Hn : node_good n).
    { apply nth_error_get, nth_error_In in En. rewrite Forall_forall in HN. auto. }
    destruct (should_divide o depth n) as [n' [dv|]] eqn:Es; destruct (should_divide_good _ _ _ _ _ Ho Hn Es) as (Hn' & HD).
    - apply bind_ok in E. destruct E as ([c0 c1] & Esp & E). apply bind_ok in E. destruct E as (nodes1 & E1 & E). apply bind_ok in E. destruct E as (nodes2 & E2 & E).
      apply set_inv in E1. destruct E1 as (_ & ->). destruct (HD dv eq_refl) as (-> & HX).
      refine (IH _ _ _ _ _ _ E). refine (IH _ _ _ _ _ _ E2). apply Forall_app. split; [apply upd_Forall; [exact HN|exact Hn]|].
      assert (AB : node_good c0 /\ node_good c1).
      { eapply split_good; [exact Hn| |exact Esp]. intros Hne. apply HX. intros ->. apply Hne. now destruct d. }
      destruct AB as (A & B). constructor; [exact A|constructor; [exact B|constructor]].
    - apply set_inv in E. destruct E as (_ & ->). now apply upd_Forall.
  Qed.

  (** ** The cells of the grid *)
  Lemma grid_point_flags c us vs du dv pts iv iu p : grid_points s c us vs du dv = Ok pts -> get2 pts iv iu = Ok p ->
    sp_uv p = (nth iu us 0, nth iv vs 0) /\ sp_on s p /\ sp_umin p = Nat.eqb iv 0 /\ sp_vmin p = Nat.eqb iu 0 /\
    (forall c', c = Some c' -> iv = 0%nat -> bc_u_vmin c' <> None -> sp_ucon p = true) /\ (forall c', c = Some c' -> iu = 0%nat -> bc_v_umin c' <> None -> sp_vcon p = true).
  Proof.
    intros E G. pose proof (grid_points_uv s c us vs du dv pts iv iu p E G) as U. pose proof (get2_grid s c us vs du dv pts iv iu p E G) as ON.
    unfold grid_points, get2 in *. apply bind_ok in G. destruct G as (row & Gr & Gp). apply nth_error_get in Gr, Gp.
    destruct (mapM_nth_error _ _ _ _ _ E Gr) as ([jv v] & Nv & Ev). apply combine_seq in Nv. cbn [fst snd Nat.add] in Nv. destruct Nv as (-> & _).
    destruct (mapM_nth_error _ _ _ _ _ Ev Gp) as ([ju u] & Nu & Eu). apply combine_seq in Nu. cbn [fst snd Nat.add] in Nu. destruct Nu as (-> & _).
    unfold grid_point in Eu. do 6 (apply bind_ok in Eu; destruct Eu as (? & _ & Eu)). injection Eu as <-. cbn [sp_uv sp_umin sp_vmin sp_ucon sp_vcon] in *.
    split; [exact U|]. split; [exact ON|]. split; [reflexivity|]. split; [reflexivity|].
    split; intros c' -> -> H; cbn [Nat.eqb]; [destruct (bc_u_vmin c')|destruct (bc_v_umin c')]; [reflexivity|congruence|reflexivity|congruence].
  Qed.
  Lemma cell_good c us vs du dv pts i n ua ub va vb : spans ua ub us du -> spans va vb vs dv -> grid_points s (Some c) us vs du dv = Ok pts -> (i < dv * du)%nat ->
    lo = match d with DirU => va | DirV => ua end -> low_list d c <> None -> grid_cell pts du dv i = Ok n -> node_good n.
  Proof.
    intros (Lu & Pu & Iu & U0 & U1) (Lv & Pv & Iv & V0 & V1) Ep Hi Hlo Hll H.
    unfold grid_cell in H. cbv zeta in H.
    assert (Hb1 : (i / du < dv)%nat) by (apply Nat.div_lt_upper_bound; lia). assert (Hb2 : (i mod du < du)%nat) by (apply Nat.mod_upper_bound; lia).
    apply bind_ok in H. destruct H as (r & Er & H). apply bind_ok in H. destruct H as (r1 & Er1 & H). apply usub_inv in Er, Er1. destruct Er as (Hr & ->), Er1 as (Hr1 & ->).
    apply bind_ok in H. destruct H as (a & Ea & H). apply bind_ok in H. destruct H as (b & Eb & H).
    apply bind_ok in H. destruct H as (c' & Ec' & H). apply bind_ok in H. destruct H as (e & Ee & H). do 4 (apply bind_ok in H; destruct H as (? & _ & H)).
    injection H as <-.
    assert (G : forall iv iu p, (iv <= dv)%nat -> (iu <= du)%nat -> get2 pts iv iu = Ok p -> good p).
    { intros iv iu p Hv Hu Hp. destruct (grid_point_flags _ _ _ _ _ _ _ _ _ Ep Hp) as (Uv & _ & F1 & F2 & F3 & F4). unfold good. rewrite Uv. destruct d; cbn [across fst snd con_of low_of low_list] in *.
      - pose proof (increasing_le vs 0 iv Iv ltac:(lia)). split; [lra|]. intros Q.
        assert (iv = 0%nat) as -> by (destruct iv as [|iv]; [reflexivity|]; pose proof (increasing_lt vs 0 (S iv) Iv ltac:(lia)); lra). split; [now apply (F3 c)|exact F1].
      - pose proof (increasing_le us 0 iu Iu ltac:(lia)). split; [lra|]. intros Q.
        assert (iu = 0%nat) as -> by (destruct iu as [|iu]; [reflexivity|]; pose proof (increasing_lt us 0 (S iu) Iu ltac:(lia)); lra). split; [now apply (F4 c)|exact F2]. }
    apply an_new_good; cbn [f0 f1 f2 f3].
    - apply (fun A B => G _ _ _ A B Ea); lia.
    - apply (fun A B => G _ _ _ A B Eb); lia.
    - apply (fun A B => G _ _ _ A B Ec'); lia.
    - apply (fun A B => G _ _ _ A B Ee); lia.
    - rewrite (grid_points_uv _ _ _ _ _ _ _ _ _ _ Ep Ec'). change (@szero R (ROps eps maxv)) with 0. rewrite Hlo. destruct d; cbn [across fst snd].
      + pose proof (increasing_lt vs 0 (dv - i / du) Iv ltac:(lia)). lra.
      + pose proof (increasing_lt us 0 (i mod du + 1) Iu ltac:(lia)). lra.
  Qed.
End Real.

Section Main.
  Variables eps maxv : R.
  Local Hint Extern 0 (Scalar R) => exact (ROps eps maxv) : typeclass_instances.

  Definition side_start (s : Surf R) (d : UV) : R := match d with DirU => v0 s | DirV => u0 s end.

  (** *** Constraints inside the domain never fail *)
  Theorem constrained_answers s c opts : surf_ok s -> surf_eps eps s -> (1 <= sdu s)%nat -> (1 <= sdv s)%nat ->
    simple1 (sdu s) (nrow s - 1) (suk s) -> simple1 (sdv s) (ncol s - 1) (svk s) -> constraints_ok s c ->
    is_ok (adaptive_tessellate s (Some c) opts).
  Proof. intros Hs Hse Hdu Hdv Su Sv Hc. now apply constrained_total. Qed.

  (** *** Every vertex on a constrained side of least [u] or [v] has a listed parameter *)
  Theorem constrained_sides s c opts m d uv : surf_ok s -> surf_eps eps s -> (1 <= sdu s)%nat -> (1 <= sdv s)%nat ->
    simple1 (sdu s) (nrow s - 1) (suk s) -> simple1 (sdv s) (ncol s - 1) (svk s) -> constraints_ok s c ->
    (forall o, opts = Some o -> ao_min_depth o = 0%nat) -> adaptive_tessellate s (Some c) opts = Ok m ->
    low_list d c <> None -> In uv (tuvs m) -> across d uv = side_start s d -> listed c (u0 s) (u1 s) (v0 s) (v1 s) uv.
  Proof.
    intros Hs Hse Hdu Hdv Su Sv Hc Ho E Hll Huv Hside. unfold adaptive_tessellate in E. apply bind_ok in E. destruct E as (nodes & EN & E).
    destruct (constrained_grid eps maxv s Hs Hdu Hdv Su Sv c opts Hc) as (us & vs & du & dv & EG & SU & SV & _).
    assert (HN : Forall (node_good d (side_start s d)) nodes).
    { unfold adaptive_nodes in EN. rewrite EG in EN. cbn [bind] in EN. pose proof SU as (Lu & Pu & _). pose proof SV as (Lv & Pv & _). rewrite Lu, Lv in EN. rewrite !usub_ok in EN by lia. cbn [bind] in EN.
      replace (S du - 1)%nat with du in EN by lia. replace (S dv - 1)%nat with dv in EN by lia.
      apply bind_ok in EN. destruct EN as (pts & Ep & EN). apply bind_ok in EN. destruct EN as (cells & Ec & EN).
      assert (HC : Forall (node_good d (side_start s d)) cells).
      { apply Forall_forall. intros n Hn. apply In_nth_error in Hn. destruct Hn as (k & Hk). destruct (mapM_nth_error _ _ _ _ _ Ec Hk) as (i & Hi & Ei).
        apply nth_error_In, in_seq in Hi. apply (cell_good eps maxv s d (side_start s d) c us vs du dv pts i n _ _ _ _ SU SV Ep); auto. lia. }
      destruct opts as [o|]; [|injection EN as <-; exact HC]. specialize (Ho o eq_refl).
      clear - EN HC Ho. revert cells HC EN. induction (seq 0 _) as [|j l IH]; intros cells HC EN; cbn [foldM] in EN; [injection EN as <-; exact HC|].
      apply bind_ok in EN. destruct EN as (cells1 & E1 & EN). apply (IH cells1); [|exact EN]. eapply (iterate_good eps maxv); [exact Ho|exact HC|exact E1]. }
    unfold tess_new in E. apply bind_ok in E. destruct E as (be & EB & E). apply bind_ok in EB. destruct EB as (b & EB & E'). injection E' as <-.
    destruct (domains s Hs Hdu Hdv) as (Du & Dv).
    assert (HF : Forall (corners_sat (good d (side_start s d))) nodes) by (eapply Forall_impl; [|exact HN]; intros n H; apply H).
    assert (Q : Forall (fun uv => across d uv = side_start s d -> listed c (u0 s) (u1 s) (v0 s) (v1 s) uv) (tuvs m)).
    { apply (tess_sat s (fun uv => across d uv = side_start s d -> listed c (u0 s) (u1 s) (v0 s) (v1 s) uv) nodes (Some b) m); [| |exact E].
      - intros n sid pts Hn Cn EL. rewrite Forall_forall in HN.
        destruct (polygon_sat (good d (side_start s d)) nodes b n sid pts HF (proj1 (HN n Hn)) EL) as (raw & F2 & FR & _).
        clear - F2 FR EB Du Dv Hll. induction F2 as [|p q ps qs H F2 IH]; [constructor|]. inversion FR as [|? ? Gp FR']; subst. constructor; [|auto]. intros Hq.
        destruct (snapped_listed s c b p q EB H) as (ua & ub & va & vb & Du' & Dv' & [K|(-> & K1 & _ & K3 & _)]).
        + rewrite Du in Du'. rewrite Dv in Dv'. injection Du' as <- <-. injection Dv' as <- <-. exact K.
        + exfalso. destruct Gp as (_ & G). destruct (G Hq) as (_ & G2). destruct d; cbn [low_of low_list] in *; [apply Hll, K1, G2|apply Hll, K3, G2].
      - intros n Hn Hq. exfalso. rewrite Forall_forall in HN. destruct (HN n Hn) as (A & B & C). specialize (A South). destruct A as (A & _). cbn [four] in A. lra. }
    rewrite Forall_forall in Q. now apply Q.
  Qed.

  (** ** Every listed parameter of such a side gives a vertex *)
  Lemma closest_least (p q : SPoint R) l : closest_of p l = Ok q -> forall x, In x l -> vnorm2 (vsub (sp_point q) (sp_point p)) <= vnorm2 (vsub (sp_point x) (sp_point p)).
  Proof.
    destruct l as [|a l]; cbn [closest_of]; [discriminate|]. intros E. injection E as <-. set (f := fun m x => _). set (g := fun x => vnorm2 (vsub (sp_point x) (sp_point p))).
    assert (G : forall l a, g (fold_left f l a) <= g a /\ forall x, In x l -> g (fold_left f l a) <= g x).
    { clear l a. induction l as [|y l IH]; intros a; [split; [apply Rle_refl|intros x []]|]. cbn [fold_left]. destruct (IH (f a y)) as (A & B).
      assert (F : g (f a y) <= g a /\ g (f a y) <= g y).
      { unfold f. cbn [sltb ROps]. fold (g a) (g y). destruct (Rltb_spec (g y) (g a)); lra. }
      split; [lra|]. intros x [<-|Hx]; [lra|auto]. }
    destruct (G l a) as (A & B). intros x [<-|Hx]; [exact A|exact (B x Hx)].
  Qed.
  Lemma same_points (a b : list R) : length a = length b -> vnorm2 (vsub a b) <= 0 -> forall i, rc i a = rc i b.
  Proof.
    intros L H i. rewrite (vnorm2_rsum eps maxv), (vsub_length a b (length a)) in H by auto.
    destruct (Nat.lt_ge_cases i (length a)) as [Hi|Hi]; [|unfold rc; rewrite !nth_overflow by lia; reflexivity].
    assert (P : forall j, (j < length a)%nat -> 0 <= rc j (vsub a b) * rc j (vsub a b)) by (intros j _; apply Rle_0_sqr).
    assert (Z : rc i (vsub a b) * rc i (vsub a b) <= 0).
    { apply Rnot_lt_le. intros C. pose proof (rsum_pos (length a) (fun j => rc j (vsub a b) * rc j (vsub a b)) i P Hi C). lra. }
    rewrite (rc_vsub eps maxv) in Z by auto. assert (rc i a - rc i b = 0) by nra. lra.
  Qed.

  Theorem constrained_complete s c opts m l t : surf_ok s -> surf_eps eps s -> (1 <= sdu s)%nat -> (1 <= sdv s)%nat ->
    simple1 (sdu s) (nrow s - 1) (suk s) -> simple1 (sdv s) (ncol s - 1) (svk s) -> constraints_ok s c ->
    adaptive_tessellate s (Some c) opts = Ok m -> bc_u_vmin c = Some l -> In t l ->
    exists u p, In ((u, v0 s), p) (combine (tuvs m) (tpts m)) /\ In u l /\ forall i, (i < sdim s - 1)%nat -> rc i p = snurbs s i t (v0 s).
  Proof.
    intros Hs Hse Hdu Hdv Su Sv Hc E El Ht. unfold adaptive_tessellate in E. apply bind_ok in E. destruct E as (nodes & EN & E).
    destruct (constrained_grid eps maxv s Hs Hdu Hdv Su Sv c opts Hc) as (us & vs & du & dv & EG & SU & SV & MU & _).
    pose proof SU as (Lu & Pu & Iu & U0 & U1). pose proof SV as (Lv & Pv & Iv & V0 & V1).
    assert (HK : exists p, sp_uv p = (t, v0 s) /\ sp_on s p /\ sp_umin p = true /\ kept p nodes).
    { unfold adaptive_nodes in EN. rewrite EG in EN. cbn [bind] in EN. rewrite Lu, Lv in EN. rewrite !usub_ok in EN by lia. cbn [bind] in EN.
      replace (S du - 1)%nat with du in EN by lia. replace (S dv - 1)%nat with dv in EN by lia.
      apply bind_ok in EN. destruct EN as (pts & Ep & EN). apply bind_ok in EN. destruct EN as (cells & Ec & EN).
      pose proof (MU l t (or_introl El) Ht) as Hin. apply (In_nth _ _ 0) in Hin. destruct Hin as (iu & Hiu & Eiu).
      set (k := Nat.min iu (du - 1)). set (i := ((dv - 1) * du + k)%nat).
      assert (Hi : (i < dv * du)%nat) by (unfold i, k; nia).
      assert (Hd : (i / du = dv - 1)%nat) by (unfold i; rewrite Nat.div_add_l by lia; rewrite (Nat.div_small k du) by (unfold k; lia); lia).
      assert (Hm : (i mod du = k)%nat) by (unfold i; rewrite Nat.add_comm, Nat.mod_add by lia; apply Nat.mod_small; unfold k; lia).
      assert (LC : length cells = (dv * du)%nat) by (erewrite <- (Forall2_len _ _ _ (mapM_inv _ _ _ Ec)); apply seq_length).
      destruct (nth_error cells i) as [n|] eqn:En; [|apply nth_error_None in En; lia].
      destruct (mapM_nth_error _ _ _ _ _ Ec En) as (i' & Ei & H).
      assert (i' = i) as -> by (apply (nth_error_nth _ _ 0%nat) in Ei; rewrite seq_nth in Ei by lia; lia).
      assert (HC : exists p, sp_uv p = (t, v0 s) /\ sp_on s p /\ sp_umin p = true /\ kept p cells).
      { unfold grid_cell in H. cbv zeta in H. rewrite Hd, Hm in H.
        apply bind_ok in H. destruct H as (r & Er & H). apply bind_ok in H. destruct H as (r1 & Er1 & H). apply usub_inv in Er, Er1. destruct Er as (Hr & ->), Er1 as (Hr1 & ->).
        apply bind_ok in H. destruct H as (a & Ea & H). apply bind_ok in H. destruct H as (b & Eb & H).
        apply bind_ok in H. destruct H as (c' & Ec' & H). apply bind_ok in H. destruct H as (e & Ee & H). do 4 (apply bind_ok in H; destruct H as (? & _ & H)).
        injection H as <-. replace (dv - (dv - 1) - 1)%nat with 0%nat in * by lia.
        destruct (Nat.eq_dec iu k) as [Q|Q].
        - destruct (grid_point_flags eps maxv _ _ _ _ _ _ _ _ _ _ Ep Ea) as (A1 & A2 & A3 & _). exists a. rewrite A1, <- Q, Eiu, V0. split; [reflexivity|]. split; [exact A2|]. split; [exact A3|].
          eexists i, _, South. split; [exact En|]. split; [reflexivity|]. apply like_refl.
        - destruct (grid_point_flags eps maxv _ _ _ _ _ _ _ _ _ _ Ep Eb) as (A1 & A2 & A3 & _). exists b. rewrite A1. replace (k + 1)%nat with iu by (unfold k in *; lia). rewrite Eiu, V0. split; [reflexivity|]. split; [exact A2|]. split; [exact A3|].
          eexists i, _, East. split; [exact En|]. split; [reflexivity|]. apply like_refl. }
      destruct HC as (p & P1 & P2 & P3 & HC). exists p. split; [exact P1|]. split; [exact P2|]. split; [exact P3|].
      destruct opts as [o|]; [|injection EN as <-; exact HC].
      clear - EN HC. revert cells HC EN. induction (seq 0 _) as [|j l' IH]; intros cells HC EN; cbn [foldM] in EN; [injection EN as <-; exact HC|].
      apply bind_ok in EN. destruct EN as (cells1 & E1 & EN). apply (IH cells1); [|exact EN]. eapply iterate_kept; [exact E1|exact HC]. }
    destruct HK as (p & P1 & P2 & P3 & (j & n & e & Ej & Cn & L1 & L2 & L3 & _)).
    unfold tess_new in E. apply bind_ok in E. destruct E as (be & EB & E). apply bind_ok in EB. destruct EB as (b & EB & E'). injection E' as <-.
    destruct (tess_has s nodes (Some b) m n (nth_error_In _ _ Ej) Cn E) as (sid & pts & EL & HV).
    destruct (polygon_sat (fun _ => True) nodes b n sid pts) as (raw & F2 & _ & FI); [apply Forall_forall; intros x _ y; exact I|intros y; exact I|exact EL|].
    specialize (FI e). set (q0 := four (an_corners n) e) in *.
    assert (HQ : exists q, In q pts /\ snap b q0 = Ok q).
    { clear - F2 FI. induction F2 as [|x y xs ys H F IH]; [destruct FI|]. destruct FI as [->|FI]; [exists y; split; [now left|exact H]|].
      destruct (IH FI) as (q & A & B). exists q. split; [now right|exact B]. }
    destruct HQ as (q & Hq & ES). specialize (HV q Hq).
    destruct (boundary_evaluation_at s c b EB) as (ua & ub & va & vb & Du & Dv & A1 & _). destruct (domains s Hs Hdu Hdv) as (Du' & Dv').
    rewrite Dv in Dv'. injection Dv' as -> ->. rewrite El in A1.
    destruct (at_params_of s _ _ _ t A1 Ht) as (pl & qt & Epl & Hqt & Uqt & Oqt).
    unfold snap in ES. cbv zeta in ES. rewrite L3, P3, Epl in ES.
    pose proof (closest_in _ _ _ ES) as Hql. rewrite Epl in A1. destruct (at_params_in s _ _ _ _ A1 Hql) as (r & u & Er & Hu & Uq). injection Er as <-.
    exists u, (sp_point q). rewrite Uq in HV. split; [exact HV|]. split; [exact Hu|].
    assert (Hdom : forall x, In x l -> in_rect (dom_rect s) (x, v0 s)).
    { intros x Hx. pose proof (spans_in _ _ _ _ _ SU (MU l x (or_introl El) Hx)). pose proof (increasing_lt vs 0 dv Iv ltac:(lia)). unfold in_rect, dom_rect. cbn. lra. }
    assert (Oq : sp_on s q).
    { cbn [at_params] in A1. clear - A1 Hql. induction A1 as [|x y xs ys (_ & H) F IH]; [destruct Hql|]. destruct Hql as [<-|Hql]; auto. }
    unfold sp_on in Oq, Oqt, P2. rewrite Uq in Oq. rewrite Uqt in Oqt. rewrite P1 in P2.
    assert (EP : sp_point qt = sp_point p).
    { destruct Oqt as (ds & D1 & D2), P2 as (ds' & D1' & D2'). rewrite D1 in D1'. injection D1' as <-. rewrite D2 in D2'. now injection D2' as <-. }
    destruct (point_of_spec eps maxv s _ _ Hs Hse (Hdom u Hu) Oq) as (Lq & _).
    destruct (point_of_spec eps maxv s _ _ Hs Hse (Hdom t Ht) P2) as (Lp & Vp). cbn [fst snd] in Vp.
    intros i Hi. rewrite <- (Vp i Hi). apply same_points; [lia|].
    pose proof (closest_least _ _ _ ES qt Hqt) as CL. rewrite L2, EP in CL. eapply Rle_trans; [exact CL|].
    right. rewrite (vnorm2_rsum eps maxv). apply rsum_0. intros k Hk. destruct (Nat.lt_ge_cases k (length (sp_point p))) as [K|K].
    - rewrite (rc_vsub eps maxv) by auto. ring.
    - rewrite (vsub_length _ _ (length (sp_point p))) in Hk by auto. lia.
  Qed.
End Main.
