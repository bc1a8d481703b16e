(** * Areas of meshes, degenerate crossings and the default tolerance of bounding box trees *)
From Coq Require Import Reals Lra Lia List.
From Verif Require Import Base BaseFacts Scalar RSum BSplineSpec BSpline KnotModel KnotSpec KnotFacts VecFacts CurveModel CurveKnotModel CurveSpec CurveProofs
  CurveGeom2 MiscModel MiscProofs BBoxModel BBoxProofs MergeModel ClipModel TraversalModel.
Import ListNotations.
Open Scope R_scope.

(** twice the signed area of a planar triangle, and the squared norm and the product of two edges *)
Definition det2 (a b c : list R) : R := (rc 0 b - rc 0 a) * (rc 1 c - rc 1 a) - (rc 1 b - rc 1 a) * (rc 0 c - rc 0 a).
Definition edge_dot (n : nat) (a b c : list R) : R := rsum n (fun i => (rc i b - rc i a) * (rc i c - rc i a)).
(** corner [k] of face [i] *)
Definition corner {V} (d : V) (m : Mesh V) (i k : nat) : V :=
  let '(x, y, z) := nth i (mfaces m) (0, 0, 0)%nat in nth (nth k [x; y; z] 0%nat) (mverts m) d.
Definition faces_ok {V} (m : Mesh V) : Prop := Forall (fun '(x, y, z) => (x < length (mverts m) /\ y < length (mverts m) /\ z < length (mverts m))%nat) (mfaces m).

Lemma triangles_spec {V} (d : V) (m : Mesh V) : faces_ok m -> exists ts, triangles m = Ok ts /\ length ts = length (mfaces m) /\
  forall i, (i < length (mfaces m))%nat -> nth i ts (d, d, d) = (corner d m i 0, corner d m i 1, corner d m i 2).
Proof.
  unfold faces_ok, triangles, corner. intros H. induction (mfaces m) as [|[[x y] z] l IH].
  - exists []. split; [reflexivity|]. split; [reflexivity|]. cbn. lia.
  - inversion H as [|? ? H0 Hl]; subst. destruct H0 as (Hx & Hy & Hz). destruct (IH Hl) as (ts & E & L & N). cbn [mapM].
    rewrite (get_ok _ x d Hx), (get_ok _ y d Hy), (get_ok _ z d Hz). cbn [bind]. rewrite E. cbn [bind]. eexists. split; [reflexivity|]. split; [cbn; lia|].
    intros [|i] Hi; [reflexivity|]. cbn [nth]. apply N. cbn in Hi. lia.
Qed.

Lemma collinear_dec l m : collinear l m \/ ~ collinear l m.
Proof. unfold collinear. destruct (Req_EM_T (side l (lstart m)) 0), (Req_EM_T (side l (lend m)) 0), (Req_EM_T (side m (lstart l)) 0), (Req_EM_T (side m (lend l)) 0); tauto. Qed.

Section Real.
  Variables eps maxv : R.
  Local Hint Extern 0 (Scalar R) => exact (ROps eps maxv) : typeclass_instances.

  Lemma fold_sum (l : list R) a : fold_left Rplus l a = a + rsum (length l) (fun i => nth i l 0).
  Proof.
    revert a. induction l as [|x l IH]; intros a; cbn [fold_left length]; [cbn; lra|]. rewrite IH. rewrite rsum_S_l. cbn [nth]. lra.
  Qed.

  Lemma fold_corners (m : Mesh (list R)) ts (f : list R -> list R -> list R -> R) : length ts = length (mfaces m) ->
    (forall i, (i < length (mfaces m))%nat -> nth i ts ([], [], []) = (corner [] m i 0, corner [] m i 1, corner [] m i 2)) ->
    fold_left Rplus (map (fun '(a, b, c) => f a b c) ts) 0 = rsum (length (mfaces m)) (fun i => f (corner [] m i 0) (corner [] m i 1) (corner [] m i 2)).
  Proof.
    intros L N. rewrite fold_sum, map_length, L, Rplus_0_l. apply rsum_ext. intros i Hi.
    rewrite (nth_map_lt _ _ _ ([], [], []) 0) by lia. now rewrite N.
  Qed.
  Lemma corner_len d (m : Mesh (list R)) i k : faces_ok m -> Forall (fun v => length v = d) (mverts m) -> (i < length (mfaces m))%nat -> (k < 3)%nat -> length (corner [] m i k) = d.
  Proof.
    intros Hf Hv Hi Hk. unfold corner, faces_ok in *. rewrite Forall_forall in Hf, Hv. specialize (Hf _ (nth_In _ (0, 0, 0)%nat Hi)).
    destruct (nth i (mfaces m) _) as [[x y] z]. destruct Hf as (Hx & Hy & Hz). apply Hv, nth_In. destruct k as [|[|[|k]]]; cbn [nth]; lia.
  Qed.

  (** the planar area is half the sum of the absolute determinants of the faces: it does not depend on their orientation *)
  Theorem mesh_area2_spec (m : Mesh (list R)) : faces_ok m -> Forall (fun v => length v = 2%nat) (mverts m) ->
    mesh_area2 m = Ok (rsum (length (mfaces m)) (fun i => Rabs (det2 (corner [] m i 0) (corner [] m i 1) (corner [] m i 2)) / 2)).
  Proof.
    intros Hf Hv. unfold mesh_area2. destruct (triangles_spec [] m Hf) as (ts & E & L & N). rewrite E. cbn [bind]. f_equal. rs.
    rewrite (fold_corners m ts (fun a b c => Rabs (coord 0 (vsub b a) * coord 1 (vsub c a) - coord 1 (vsub b a) * coord 0 (vsub c a)))) by auto.
    unfold Rdiv. rewrite rsum_scal_r. change (IZR 2) with 2. f_equal. apply rsum_ext. intros i Hi.
    assert (Lc : forall k, (k < 3)%nat -> length (corner [] m i k) = 2%nat) by (intros k Hk; now apply corner_len).
    change (@coord R (ROps eps maxv)) with rc. rewrite !(rc_vsub eps maxv) by (rewrite !Lc by lia; reflexivity). reflexivity.
  Qed.

  (** the area in space is half the sum of the areas of the parallelograms spanned by the faces, each the root of Gram's determinant *)
  Theorem mesh_area3_spec (m : Mesh (list R)) : faces_ok m -> Forall (fun v => length v = 3%nat) (mverts m) ->
    mesh_area3 m = Ok (rsum (length (mfaces m)) (fun i =>
      let a := corner [] m i 0 in let b := corner [] m i 1 in let c := corner [] m i 2 in
      sqrt (edge_dot 3 a b b * edge_dot 3 a c c - edge_dot 3 a b c * edge_dot 3 a b c) / 2)).
  Proof.
    intros Hf Hv. unfold mesh_area3. destruct (triangles_spec [] m Hf) as (ts & E & L & N). rewrite E. cbn [bind]. f_equal. rs.
    match goal with |- fold_left Rplus (map ?g ts) _ / _ = _ => set (G := g) end.
    rewrite (map_ext G (fun '(a, b, c) => G (a, b, c))) by (intros [[? ?] ?]; reflexivity).
    rewrite (fold_corners m ts (fun a b c => G (a, b, c))) by auto.
    unfold Rdiv. rewrite rsum_scal_r. change (IZR 2) with 2. f_equal. apply rsum_ext. intros i Hi. subst G. cbv beta iota zeta.
    assert (Lc : forall k, (k < 3)%nat -> length (corner [] m i k) = 3%nat) by (intros k Hk; now apply corner_len).
    change (@coord R (ROps eps maxv)) with rc. rewrite !(rc_vsub eps maxv) by (rewrite !Lc by lia; reflexivity).
    unfold vnorm. cbn [ssqrt ROps]. f_equal. unfold vnorm2, vdot, ssum, edge_dot. cbn [map2 fold_left rsum]. rs. ring.
  Qed.

  (** neither area is negative *)
  Theorem mesh_area_nonneg (m : Mesh (list R)) x : (mesh_area2 m = Ok x -> 0 <= x) /\ (mesh_area3 m = Ok x -> 0 <= x).
  Proof.
    assert (F : forall l : list R, Forall (fun y => 0 <= y) l -> 0 <= fold_left Rplus l 0 / 2).
    { intros l H. rewrite fold_sum. cut (0 <= rsum (length l) (fun i => nth i l 0)); [lra|]. apply rsum_nonneg. intros i Hi. rewrite Forall_forall in H. apply H, nth_In, Hi. }
    split; intros E; [unfold mesh_area2 in E|unfold mesh_area3 in E]; apply bind_ok in E; destruct E as (ts & _ & E); injection E as <-; rs; change (IZR 2) with 2; apply F; apply Forall_forall;
      intros y Hy; apply in_map_iff in Hy; destruct Hy as ([[a b] c] & <- & _); [apply Rabs_pos|apply sqrt_pos].
  Qed.

  (** ** Degenerate crossings *)
  Theorem degeneracy_spec (a b : Curve R) ta tb a0 a1 b0 b1 : 0 <= eps ->
    point_at a (ta - 1 / 10000) = Ok a0 -> point_at a (ta + 1 / 10000) = Ok a1 -> point_at b (tb - 1 / 10000) = Ok b0 -> point_at b (tb + 1 / 10000) = Ok b1 ->
    Forall (fun p => length p = 2%nat /\ bounded maxv 2 p) [a0; a1; b0; b1] -> 0 < edge_dot 2 a0 a1 a1 -> 0 < edge_dot 2 b0 b1 b1 ->
    let l := MkLine a0 a1 in let k := MkLine b0 b1 in
    let cosine := Rabs ((rc 0 a1 - rc 0 a0) * (rc 0 b1 - rc 0 b0) + (rc 1 a1 - rc 1 a0) * (rc 1 b1 - rc 1 b0)) / (sqrt (edge_dot 2 a0 a1 a1) * sqrt (edge_dot 2 b0 b1 b1)) in
    exists d, degeneracy a b ta tb = Ok d /\
      (~ share_point l k -> d = DLine) /\ (d = DLine -> share_point l k -> collinear l k) /\
      (d <> DLine -> share_point l k /\ d = if Rlt_dec cosine (9975 / 10000) then DNone else DAngle cosine).
  Proof.
    intros He Ea0 Ea1 Eb0 Eb1 Hp Na Nb l k cosine.
    inversion Hp as [|? ? (La0 & Ba0) Hp1]; subst. inversion Hp1 as [|? ? (La1 & Ba1) Hp2]; subst. inversion Hp2 as [|? ? (Lb0 & Bb0) Hp3]; subst.
    inversion Hp3 as [|? ? (Lb1 & Bb1) _]; subst.
    unfold degeneracy. cbv zeta. change (sdiv sone (sofz 10000)) with (1 / 10000). change (ssub ta (1 / 10000)) with (ta - 1 / 10000). change (sadd ta (1 / 10000)) with (ta + 1 / 10000).
    change (ssub tb (1 / 10000)) with (tb - 1 / 10000). change (sadd tb (1 / 10000)) with (tb + 1 / 10000).
    rewrite Ea0, Ea1, Eb0, Eb1. cbn [bind]. fold l. fold k.
    destruct (line_intersects l k) eqn:E; cbn [negb].
    - pose proof (line_intersects_sound eps maxv l k E) as Sh.
      assert (Ec : sabs (vdot (vnormalize (vsub a1 a0)) (vnormalize (vsub b1 b0))) = cosine).
      { assert (Lu : length (vsub a1 a0) = 2%nat) by (apply vsub_length; auto). assert (Lv : length (vsub b1 b0) = 2%nat) by (apply vsub_length; auto).
        unfold vnormalize. rewrite (vdot_rsum eps maxv) by (unfold vdivs; rewrite !map_length; congruence). unfold vdivs at 1. rewrite map_length, Lu.
        rewrite (rsum_ext 2 _ (fun i => (rc i a1 - rc i a0) * (rc i b1 - rc i b0) * / (sqrt (edge_dot 2 a0 a1 a1) * sqrt (edge_dot 2 b0 b1 b1)))).
        2:{ intros i Hi. rewrite !(rc_vdivs eps maxv), !(rc_vsub eps maxv) by congruence. unfold vnorm, vnorm2. cbn [ssqrt ROps]. rewrite !(vdot_rsum eps maxv), Lu, Lv by reflexivity.
            replace (rsum 2 (fun i0 => rc i0 (vsub a1 a0) * rc i0 (vsub a1 a0))) with (edge_dot 2 a0 a1 a1) by (apply rsum_ext; intros j Hj; rewrite !(rc_vsub eps maxv) by congruence; reflexivity).
            replace (rsum 2 (fun i0 => rc i0 (vsub b1 b0) * rc i0 (vsub b1 b0))) with (edge_dot 2 b0 b1 b1) by (apply rsum_ext; intros j Hj; rewrite !(rc_vsub eps maxv) by congruence; reflexivity).
            apply sqrt_lt_R0 in Na. apply sqrt_lt_R0 in Nb. field. split; lra. }
        rewrite rsum_scal_r. unfold cosine. rs. rewrite Rabs_mult. unfold Rdiv. f_equal.
        - f_equal. cbn [rsum]. ring.
        - apply Rabs_right. apply Rle_ge. left. apply Rinv_0_lt_compat. apply Rmult_lt_0_compat; now apply sqrt_lt_R0. }
      rewrite Ec. exists (if Rlt_dec cosine (9975 / 10000) then DNone else DAngle cosine). split; [|split; [|split]].
      + f_equal. change (sltb cosine (sofz 9975 / sofz 10000)%S) with (Rltb cosine (9975 / 10000)). unfold Rltb. destruct (Rlt_dec _ _); reflexivity.
      + intros H. contradiction.
      + intros H. destruct (Rlt_dec _ _); discriminate.
      + intros _. split; [exact Sh|reflexivity].
    - exists DLine. split; [reflexivity|]. split; [reflexivity|]. split; [|congruence].
      intros _ Sh. destruct (collinear_dec l k) as [H|H]; [exact H|]. exfalso.
      rewrite (line_intersects_complete eps maxv l k) in E; auto; discriminate.
  Qed.

  (** ** Default tolerance of the trees: a piece is divided again while its range is longer than one 64th of that of the whole *)
  Theorem ct_default_divides (c q : Curve R) : curve_ok c -> curve_ok q -> (2 <= cdeg q)%nat ->
    exists t, ct_new c None = Ok t /\ ct_curve t = c /\
      exists b, ct_dividable (MkCTree q (ct_tol t)) = Ok b /\ (b = true <-> dom1 c - dom0 c < 64 * (dom1 q - dom0 q)).
  Proof.
    intros Hc Hq Hd. unfold ct_new, knots_domain_interval. rewrite !knots_domain_ok by auto. cbn [bind]. eexists. split; [reflexivity|]. split; [reflexivity|].
    unfold ct_dividable, knots_domain_interval. cbn [ct_curve ct_tol]. rewrite !knots_domain_ok by auto. cbn [bind].
    replace (cdeg q =? 1)%nat with false by (symmetry; apply Nat.eqb_neq; lia).
    rewrite (sofnat_INR eps maxv). replace (INR 64) with 64 by (rewrite INR_IZR_INZ; reflexivity).
    change (sltb ?x ?y) with (Rltb x y). change (ssub ?x ?y) with (x - y). change (sdiv ?x ?y) with (x / y).
    destruct (Rltb _ _) eqn:E; [apply Rltb_true in E|apply Rltb_false in E]; eexists; (split; [reflexivity|]); split; intros H; try discriminate; try reflexivity; lra.
  Qed.
End Real.
