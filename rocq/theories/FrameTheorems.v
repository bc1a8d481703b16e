(** * Moving frames along a curve; sweeping *)
From Coq Require Import Reals Lra Sorted ZArith String.
From Verif Require Import Base BaseFacts Scalar RSum BSplineSpec BSpline KnotModel KnotSpec KnotFacts KnotProofs KnotMisc VecFacts
  MiscModel MiscProofs CurveModel CurveSpec CurveProofs CurveGeom CurveGeom2 CurveShapes CurveDeriv InterpProofs Decompose MergeModel MergeProofs
  SurfaceModel SurfaceSpec SurfaceProofs LoftModel LoftProofs
  ArcModel ArcProofs ArcMain ArcTheorems RevolveModel RevolveProofs RevolveSphere FrameModel FrameProofs.
Open Scope list_scope. Open Scope R_scope.

(** a point given in the coordinates of a frame: the third coordinate runs along the tangent, the second
    along the normal, the first against the binormal *)
Definition placed (f : Frame R) (p : list R) : list R :=
  map (fun l => rc l (fr_pos f) - rc 0 p * rc l (fr_bin f) + rc 1 p * rc l (fr_nor f) + rc 2 p * rc l (fr_tan f)) (seq 0 3).

(** successive frames are related by the smallest turn of the tangent; a reversed tangent keeps the normal *)
Definition follows (f g : Frame R) : Prop :=
  (dot (fr_tan f) (fr_tan g) <> -1 -> carried (fr_tan f) (fr_tan g) (fr_nor f) (fr_nor g)) /\
  (dot (fr_tan f) (fr_tan g) = -1 -> fr_nor g = fr_nor f).

Definition frame0 : Frame R := MkFrame [] [] [] [].

Section FrameT.
  Variables eps maxv : R.
  Local Hint Extern 0 (Scalar R) => exact (ROps eps maxv) : typeclass_instances.
  Local Hint Extern 0 (Trig R) => exact TrigR : typeclass_instances.
  Local Hint Extern 0 (Acos R) => exact AcosR : typeclass_instances.

  Lemma tangent_at_ok c u : curve_ok c -> curve_eps eps c -> pos_weights c -> dom0 c <= u <= dom1 c ->
    exists t, tangent_at c u = Ok t /\ length t = (cdim c - 1)%nat.
  Proof.
    intros Hc He Hw Hu. destruct (domain_span c u Hc Hu) as (s & Hs & Hin).
    destruct (rational_derivatives_all eps maxv c s Hc He Hw Hs (proj1 Hin)) as (_ & B). destruct (B u 1%nat Hin) as (ds & E & L & V).
    destruct (V 1%nat (le_n _)) as (L1 & _). exists (nth 1 ds []). split; [|exact L1].
    unfold tangent_at. rewrite E. cbn [bind]. apply get_ok. lia.
  Qed.

  Lemma carry_normals_spec ts : 0 <= eps < 1 -> Forall (fun t => length t = 3%nat /\ dot t t = 1) ts -> forall t0 n0,
    length t0 = 3%nat -> dot t0 t0 = 1 -> length n0 = 3%nat -> dot n0 n0 = 1 -> dot t0 n0 = 0 ->
    let ns := n0 :: carry_normals t0 n0 ts in let ts' := t0 :: ts in
    length ns = length ts' /\
    (forall i, (i < length ts')%nat -> length (nth i ns []) = 3%nat /\ dot (nth i ns []) (nth i ns []) = 1 /\ dot (nth i ts' []) (nth i ns []) = 0) /\
    (forall i, (S i < length ts')%nat ->
       let ta := nth i ts' [] in let tb := nth (S i) ts' [] in
       (dot ta tb <> -1 -> carried ta tb (nth i ns []) (nth (S i) ns [])) /\ (dot ta tb = -1 -> nth (S i) ns [] = nth i ns [])).
  Proof.
    intros He Ft. induction Ft as [|t1 ts (L1 & U1) Ft IH]; intros t0 n0 L0 U0 Ln Un On.
    - cbn. split; [reflexivity|]. split; [|intros; lia]. intros i Hi. assert (i = 0%nat) by lia. subst i. auto.
    - destruct (next_normal_spec eps maxv t0 t1 n0 He L0 L1 Ln U0 U1 Un On) as (A1 & A2 & A3 & A4 & A5).
      set (n1 := next_normal t0 t1 n0) in *. destruct (IH t1 n1 L1 U1 A1 A2 A3) as (B1 & B2 & B3).
      cbn [carry_normals]. fold n1. cbv zeta in *. split; [cbn [length] in *; congruence|]. split.
      + intros [|i] Hi; [cbn [nth]; auto|]. apply B2. cbn [length] in *. lia.
      + intros [|i] Hi; [cbn [nth]; auto|]. apply B3. cbn [length] in *. lia.
  Qed.

  Theorem frames_spec c params : 0 < eps < 1 -> 1 <= maxv ->
    curve_ok c -> curve_eps eps c -> pos_weights c -> cdim c = 4%nat -> params <> [] ->
    Forall (fun u => dom0 c <= u <= dom1 c) params ->
    (forall u t, In u params -> tangent_at c u = Ok t -> dot t t <> 0) ->
    exists fs, compute_frenet_frames c params = Ok fs /\ length fs = length params /\
      (forall i, (i < length params)%nat -> let f := nth i fs frame0 in
         point_at c (nth i params 0) = Ok (fr_pos f) /\ length (fr_pos f) = 3%nat /\
         (exists t, tangent_at c (nth i params 0) = Ok t /\ forall l, rc l (fr_tan f) = rc l t / sqrt (dot t t)) /\
         orthoframe (fr_tan f) (fr_nor f) (fr_bin f)) /\
      (forall i, (S i < length params)%nat -> follows (nth i fs frame0) (nth (S i) fs frame0)).
  Proof.
    intros He Hm Hc Hce Hw Hd Hne Hdom Htan. rewrite Forall_forall in Hdom.
    set (tg := fun u => match tangent_at c u with Ok t => t | _ => [] end).
    set (pt := fun u => match point_at c u with Ok t => t | _ => [] end).
    assert (Etg : forall u, In u params -> tangent_at c u = Ok (tg u) /\ length (tg u) = 3%nat).
    { intros u Hu. destruct (tangent_at_ok c u Hc Hce Hw (Hdom u Hu)) as (t & E & L). unfold tg. rewrite E. rewrite Hd in L. auto. }
    assert (Ept : forall u, In u params -> point_at c u = Ok (pt u) /\ length (pt u) = 3%nat).
    { intros u Hu. pose proof (wfun_pos eps maxv c u Hc Hce Hw (Hdom u Hu)) as P.
      destruct (point_at_spec eps maxv c u Hc Hce (Hdom u Hu) ltac:(lra)) as (p & E & L & _). unfold pt. rewrite E. rewrite Hd in L. auto. }
    unfold compute_frenet_frames.
    rewrite (mapM_ok _ (fun u => vnormalize (tg u))). 2:{ intros u Hu. destruct (Etg u Hu) as (-> & _). reflexivity. }
    cbn [bind]. set (ts := map (fun u => vnormalize (tg u)) params).
    assert (Fts : Forall (fun t => length t = 3%nat /\ dot t t = 1) ts).
    { unfold ts. rewrite Forall_map. apply Forall_forall. intros u Hu. destruct (Etg u Hu) as (E & L).
      rewrite (len_vnormalize eps maxv). split; [exact L|]. apply (unit_norm3 eps maxv). apply (Htan u _ Hu E). }
    assert (Lts : length ts = length params) by apply map_length.
    rewrite (get_ok ts 0 []) by (rewrite Lts; destruct params; [congruence|cbn; lia]). cbn [bind].
    rewrite (mapM_ok _ pt). 2:{ intros u Hu. apply Ept. exact Hu. }
    cbn [bind]. eexists. split; [reflexivity|].
    assert (Sp : ts = nth 0 ts [] :: skipn 1 ts) by (destruct ts; [destruct params; [congruence|discriminate Lts]|reflexivity]).
    set (t0 := nth 0 ts []) in *. set (n0 := first_normal t0).
    assert (F0 : length t0 = 3%nat /\ dot t0 t0 = 1). { rewrite Sp in Fts. inversion Fts. assumption. }
    destruct (first_normal_spec eps maxv t0 Hm (proj1 F0) (proj2 F0)) as (N1 & N2 & N3). fold n0 in N1, N2, N3.
    assert (Fr : Forall (fun t => length t = 3%nat /\ dot t t = 1) (skipn 1 ts)). { rewrite Sp in Fts. inversion Fts. assumption. }
    destruct (carry_normals_spec (skipn 1 ts) ltac:(lra) Fr t0 n0 (proj1 F0) (proj2 F0) N1 N2 N3) as (A & B & C).
    cbv zeta in A, B, C. rewrite <- Sp in A, B, C. set (ns := n0 :: carry_normals t0 n0 (skipn 1 ts)) in *.
    set (mk := fun '(p, (t, n)) => MkFrame p t n (vnormalize (cross3 t n))).
    assert (Lf : length (map mk (combine (map pt params) (combine ts ns))) = length params).
    { rewrite map_length, !combine_length, map_length. lia. }
    split; [exact Lf|].
    assert (Nf : forall i, (i < length params)%nat -> nth i (map mk (combine (map pt params) (combine ts ns))) frame0 =
                  MkFrame (pt (nth i params 0)) (nth i ts []) (nth i ns []) (vnormalize (cross3 (nth i ts []) (nth i ns [])))).
    { intros i Hi. rewrite (nth_map_lt mk _ i ([], ([], [])) frame0) by (rewrite map_length in Lf; lia).
      rewrite combine_nth by (rewrite map_length, combine_length; lia). rewrite combine_nth by lia. cbn [mk].
      f_equal. rewrite (nth_map_lt pt params i 0 []) by lia. reflexivity. }
    split.
    - intros i Hi. cbv zeta. rewrite Nf by assumption. cbn [fr_pos fr_tan fr_nor fr_bin].
      assert (Hin : In (nth i params 0) params) by (apply nth_In; lia).
      destruct (Ept _ Hin) as (P1 & P2). split; [exact P1|]. split; [exact P2|].
      assert (Et : nth i ts [] = vnormalize (tg (nth i params 0))) by (unfold ts; rewrite (nth_map_lt _ params i 0 []) by lia; reflexivity).
      split.
      + exists (tg (nth i params 0)). split; [apply Etg; exact Hin|]. intros l. rewrite Et. apply vnormalize_rc.
      + rewrite Forall_forall in Fts. destruct (Fts (nth i ts [])) as (T1 & T2); [apply nth_In; lia|].
        destruct (B i ltac:(lia)) as (Q1 & Q2 & Q3).
        destruct (turn_takes _ _ T1 Q1 T2 Q2) as (K1 & _ & _).
        rewrite (vnormalize_unit eps maxv). 2:{ rewrite cross3_l, K1, Q3. ring. }
        repeat (split; [first [assumption | reflexivity]|]). intros l Hl. now apply rc_cross.
    - intros i Hi. unfold follows. rewrite !Nf by lia. cbn [fr_pos fr_tan fr_nor fr_bin]. apply C. lia.
  Qed.

  (** ** The matrix of a frame *)
  Lemma frame_axes_eq f : orthoframe (fr_tan f) (fr_nor f) (fr_bin f) ->
    frame_axes f = (map Ropp (fr_bin f), fr_nor f, fr_tan f).
  Proof.
    destruct f as [P t n b]. cbn [fr_tan fr_nor fr_bin]. intros (L1 & L2 & L3 & U1 & U2 & O & B). unfold frame_axes. cbn [fr_tan fr_nor fr_bin].
    rewrite (vnormalize_unit eps maxv t U1).
    pose proof (B 0%nat ltac:(lia)) as B0. pose proof (B 1%nat ltac:(lia)) as B1. pose proof (B 2%nat ltac:(lia)) as B2. clear B.
    destruct (turn_takes _ _ L1 L2 U1 U2) as (K & _). rewrite O in K.
    assert (X : cross3 n t = map Ropp b).
    { rewrite cross3_l. revert B0 B1 B2. clear - L1 L2 L3. ex3 L1. ex3 L2. ex3 L3. unfold cross_l, rc. cbn [nth map seq]. intros -> -> ->.
      do 3 (apply f_equal2; [ring|]). reflexivity. }
    assert (UX : dot (map Ropp b) (map Ropp b) = 1).
    { rewrite <- X, cross3_l. clear - K L1 L2. ex3 L1. ex3 L2. unfold cross_l, rc in *. cbn [nth map seq] in *. rewrite dot3 in *. lra. }
    rewrite X. rewrite (vnormalize_unit eps maxv _ UX).
    assert (Y : cross3 t (map Ropp b) = n).
    { rewrite <- X. rewrite !cross3_l. clear - L1 L2 U1 O. ex3 L1. ex3 L2. rewrite dot3 in *. unfold cross_l, rc. cbn [nth map seq].
      assert (G : forall a b, a * (x * x + y * y + z * z) - b * (x * x0 + y * y0 + z * z0) = a) by (intros; rewrite U1, O; ring).
      apply f_equal2; [transitivity (x0 * (x * x + y * y + z * z) - x * (x * x0 + y * y0 + z * z0)); [ring|apply G]|].
      apply f_equal2; [transitivity (y0 * (x * x + y * y + z * z) - y * (x * x0 + y * y0 + z * z0)); [ring|apply G]|].
      apply f_equal2; [transitivity (z0 * (x * x + y * y + z * z) - z * (x * x0 + y * y0 + z * z0)); [ring|apply G]|]. reflexivity. }
    rewrite Y, (vnormalize_unit eps maxv n U2). reflexivity.
  Qed.

  Lemma frame_matrix_affine f : affine_matrix 4 (frame_matrix f).
  Proof.
    unfold frame_matrix. destruct (frame_axes f) as ((x, y), z). split; [reflexivity|]. split.
    - cbn [map seq app]. repeat (apply Forall_cons; [reflexivity|]). constructor.
    - split; [|reflexivity]. intros j Hj. destruct j as [|[|[|]]]; try lia; reflexivity.
  Qed.

  Theorem frame_places f p : orthoframe (fr_tan f) (fr_nor f) (fr_bin f) -> length p = 3%nat ->
    apply_affine 4 (frame_matrix f) p = placed f p.
  Proof.
    intros Ho Lp. unfold frame_matrix. rewrite (frame_axes_eq f Ho). destruct Ho as (L1 & L2 & L3 & _).
    destruct f as [P t n b]. cbn [fr_pos fr_tan fr_nor fr_bin] in *. unfold apply_affine, placed. cbn [fr_pos fr_tan fr_nor fr_bin].
    ex3 L1. ex3 L2. ex3 L3. ex3 Lp. unfold coord, rc. cbn [map seq app Nat.sub rsum nth].
    change (@szero R (ROps eps maxv)) with 0. do 3 (apply f_equal2; [ring|]). reflexivity.
  Qed.

  (** placing a figure in a frame is a rigid motion *)
  Theorem placed_rigid f p q : orthoframe (fr_tan f) (fr_nor f) (fr_bin f) -> length p = 3%nat -> length q = 3%nat ->
    rdist (placed f p) (placed f q) = rdist p q.
  Proof.
    intros (L1 & L2 & L3 & U1 & U2 & O & B) Lp Lq. destruct f as [P t n b]. cbn [fr_pos fr_tan fr_nor fr_bin] in *.
    destruct (turn_takes _ _ L1 L2 U1 U2) as (K & Kt & Kn). rewrite O in K.
    assert (Eb : map (cross_l t n) (seq 0 3) = b).
    { pose proof (B 0%nat ltac:(lia)) as B0. pose proof (B 1%nat ltac:(lia)) as B1. pose proof (B 2%nat ltac:(lia)) as B2.
      cbn [map seq]. rewrite <- B0, <- B1, <- B2. clear - L3. ex3 L3. reflexivity. }
    rewrite Eb in K, Kt, Kn. unfold rdist, placed. cbn [fr_pos fr_tan fr_nor fr_bin]. f_equal.
    rewrite map_length, seq_length, Lp. rewrite (rsum_ext 3 _ (fun l =>
      (- (rc 0 p - rc 0 q) * rc l b + (rc 1 p - rc 1 q) * rc l n + (rc 2 p - rc 2 q) * rc l t) *
      (- (rc 0 p - rc 0 q) * rc l b + (rc 1 p - rc 1 q) * rc l n + (rc 2 p - rc 2 q) * rc l t))).
    2:{ intros l Hl. rewrite !rc_map_seq by assumption. ring. }
    clear B Eb. ex3 L1. ex3 L2. ex3 L3. ex3 Lp. ex3 Lq. rewrite dot3 in *. unfold rc. cbn [rsum nth].
    set (a := x2 - x3). set (bb := y2 - y3). set (cc := z2 - z3).
    transitivity (a * a * (x1 * x1 + y1 * y1 + z1 * z1) + bb * bb * (x0 * x0 + y0 * y0 + z0 * z0) + cc * cc * (x * x + y * y + z * z)
       - 2 * a * bb * (x1 * x0 + y1 * y0 + z1 * z0) - 2 * a * cc * (x1 * x + y1 * y + z1 * z) + 2 * bb * cc * (x * x0 + y * y0 + z * z0)); [ring|].
    rewrite K, Kt, Kn, U1, U2, O. ring.
  Qed.
End FrameT.
