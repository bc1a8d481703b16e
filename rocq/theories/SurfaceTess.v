(** * Regular tessellation of surfaces (C50) *)
From Coq Require Import Reals Lra Lia ZArith Bool.
From Verif Require Import Base BaseFacts Scalar RSum BSplineSpec BSpline BSplineDeriv KnotModel KnotSpec KnotFacts
  KnotProofs VecFacts MiscModel MiscProofs CurveModel CurveSpec CurveProofs CurveGeom CurveShapes DerivKnot CurveDeriv
  SurfaceModel SurfaceSpec SurfaceProofs SurfaceSample SurfaceDeriv SurfaceRational.

(** ** Lists of rows *)
Section Lists.
  Local Open Scope nat_scope.

  Lemma flat_map_len {A B} (f : A -> list B) l n : (forall x, In x l -> length (f x) = n) ->
    length (flat_map f l) = length l * n.
  Proof.
    induction l as [|x l IH]; cbn [flat_map length]; intros H; [lia|].
    rewrite app_length, H, IH by (auto using in_eq, in_cons). lia.
  Qed.

  Lemma nth_flat_map {A B} (f : A -> list B) l n i j (a : A) (b : B) :
    (forall x, In x l -> length (f x) = n) -> i < length l -> j < n ->
    nth (i * n + j) (flat_map f l) b = nth j (f (nth i l a)) b.
  Proof.
    revert i. induction l as [|x l IH]; cbn [flat_map length]; intros i H Hi Hj; [lia|].
    destruct i as [|i].
    - rewrite app_nth1 by (rewrite H; auto using in_eq). reflexivity.
    - rewrite app_nth2 by (rewrite H by auto using in_eq; cbn; lia).
      rewrite H by auto using in_eq. replace (S i * n + j - n) with (i * n + j) by (cbn; lia).
      rewrite IH by (auto using in_cons; lia). reflexivity.
  Qed.

  Lemma nth_concat_rows {B} (g : list (list B)) n i j (b : B) :
    (forall i, i < length g -> length (nth i g []) = n) -> i < length g -> j < n ->
    nth (i * n + j) (concat g) b = nth j (nth i g []) b.
  Proof.
    intros H Hi Hj. rewrite <- (map_id g) at 1. rewrite <- flat_map_concat_map.
    rewrite (nth_flat_map (fun x => x) g n i j [] b); auto.
    intros x Hx. destruct (In_nth g x [] Hx) as (k & Hk & <-). now apply H.
  Qed.

  Lemma concat_rows_len {B} (g : list (list B)) n :
    (forall i, i < length g -> length (nth i g []) = n) -> length (concat g) = length g * n.
  Proof.
    intros H. rewrite <- (map_id g) at 1. rewrite <- flat_map_concat_map. apply flat_map_len.
    intros x Hx. destruct (In_nth g x [] Hx) as (k & Hk & <-). now apply H.
  Qed.

  (** ** The face list.  [vid] numbers the grid vertices row by row. *)
  Definition vid (dv i j : nat) : nat := i * (dv + 1) + j.

  Lemma grid_faces_len du dv : length (grid_faces du dv) = 2 * du * dv.
  Proof.
    unfold grid_faces. rewrite (flat_map_len _ _ (2 * dv)).
    - rewrite seq_length. lia.
    - intros i _. rewrite (flat_map_len _ _ 2) by reflexivity. rewrite seq_length. lia.
  Qed.

  (** cell (i, j) is covered by the two triangles sharing its diagonal *)
  Lemma grid_faces_cell du dv i j : i < du -> j < dv ->
    nth (2 * (i * dv + j)) (grid_faces du dv) [] = [vid dv i j; vid dv (i + 1) (j + 1); vid dv i (j + 1)] /\
    nth (2 * (i * dv + j) + 1) (grid_faces du dv) [] = [vid dv i j; vid dv (i + 1) j; vid dv (i + 1) (j + 1)].
  Proof.
    intros Hi Hj. unfold grid_faces, vid.
    assert (L : forall x, In x (seq 0 du) -> length (flat_map (fun iv =>
        [ [x * (dv + 1) + iv; x * (dv + 1) + iv + dv + 2; x * (dv + 1) + iv + 1];
          [x * (dv + 1) + iv; x * (dv + 1) + iv + dv + 1; x * (dv + 1) + iv + dv + 2] ]) (seq 0 dv)) = 2 * dv).
    { intros x _. rewrite (flat_map_len _ _ 2) by reflexivity. rewrite seq_length. lia. }
    replace (2 * (i * dv + j)) with (i * (2 * dv) + (j * 2 + 0)) by lia.
    replace (i * (2 * dv) + (j * 2 + 0) + 1) with (i * (2 * dv) + (j * 2 + 1)) by lia.
    rewrite !(nth_flat_map _ (seq 0 du) (2 * dv) i _ 0 []) by (auto; rewrite ?seq_length; lia).
    rewrite !seq_nth by lia. rewrite !Nat.add_0_l.
    rewrite !(nth_flat_map _ (seq 0 dv) 2 j _ 0 []) by (auto; rewrite ?seq_length; lia).
    rewrite !seq_nth by lia. rewrite !Nat.add_0_l. cbn [nth].
    assert (E3 : forall a b c a' b' c' : nat, a = a' -> b = b' -> c = c' -> [a; b; c] = [a'; b'; c'])
      by (intros; subst; reflexivity).
    split; apply E3; lia.
  Qed.

  Lemma grid_faces_range du dv f : In f (grid_faces du dv) ->
    length f = 3 /\ NoDup f /\ Forall (fun v => v < (du + 1) * (dv + 1)) f.
  Proof.
    unfold grid_faces. intros Hf. apply in_flat_map in Hf as (i & Hi & Hf). apply in_flat_map in Hf as (j & Hj & Hf).
    apply in_seq in Hi. apply in_seq in Hj.
    assert (B : i * (dv + 1) + (dv + 1) + (dv + 1) <= (du + 1) * (dv + 1)).
    { replace (i * (dv + 1) + (dv + 1) + (dv + 1)) with ((i + 2) * (dv + 1)) by lia. apply Nat.mul_le_mono_r. lia. }
    set (o := i * (dv + 1)) in *. clearbody o. set (m := (du + 1) * (dv + 1)) in *. clearbody m.
    destruct Hf as [<-|[<-|[]]]; (split; [reflexivity|]); split;
      repeat (constructor; [cbn [In]; lia|]); constructor.
  Qed.
End Lists.
Open Scope R_scope.

Section Real.
  Variables eps maxv : R.
  Local Hint Extern 0 (Scalar R) => exact (ROps eps maxv) : typeclass_instances.

  (** the sampled normals are the normals of [normal_at], divided by their length *)
  Theorem regular_sample_normals_spec s du dv : surf_ok s -> surf_eps eps s -> sdim s = 4%nat ->
    (1 <= sdu s)%nat -> (1 <= sdv s)%nat ->
    exists g, regular_sample_normals s du dv = Ok g /\ length g = S du /\
      forall i, (i <= du)%nat -> length (nth i g []) = S dv /\
        forall j, (j <= dv)%nat -> exists n,
          normal_at s (gridu s du i) (gridv s dv j) = Ok n /\
          length (nth j (nth i g []) []) = 3%nat /\
          forall c, rc c (nth j (nth i g []) []) = rc c n / sqrt (rsum 3 (fun c => rc c n * rc c n)).
  Proof.
    intros H He HD Pu Pv. pose proof He as (Eu & Ev). pose proof (so_u s H) as Hu. pose proof (so_v s H) as Hv.
    assert (S1 : S (nrow s - 1) = nrow s) by lia. assert (S2 : S (ncol s - 1) = ncol s) by lia.
    unfold regular_sample_normals, regular_sample_derivatives.
    destruct (regular_derivative_basis_spec eps maxv (suk s) (sdu s) (nrow s - 1) du (so_uk s H) Eu)
      as (spu & bu & E1 & L1 & L1' & V1). rewrite S1 in V1.
    destruct (regular_derivative_basis_spec eps maxv (svk s) (sdv s) (ncol s - 1) dv (so_vk s H) Ev)
      as (spv & bv & E2 & L2 & L2' & V2). rewrite S2 in V2.
    rewrite E1. cbn [bind]. rewrite E2. cbn [bind].
    match goal with |- exists g, (ders <- mapM ?f _ ;; _) = _ /\ _ =>
      destruct (mapM_ex f (fun i row => length row = S dv /\ forall j, (j <= dv)%nat ->
        tab_ok 2 2 4 (nth j row []) /\ forall k l, (k + l <= 1)%nat -> forall c,
          rc c (ent (nth j row []) k l) = dsurf s (nth i spu 0%nat) (nth j spv 0%nat) c k l (gridu s du i) (gridv s dv j))
        (seq 0 (du + 1))) as (t & Et & Ft) end.
    { intros i Hi. apply in_seq in Hi.
      match goal with |- exists g, mapM ?f _ = _ /\ _ =>
        destruct (mapM_ex f (fun j tb => tab_ok 2 2 4 tb /\ forall k l, (k + l <= 1)%nat -> forall c,
          rc c (ent tb k l) = dsurf s (nth i spu 0%nat) (nth j spv 0%nat) c k l (gridu s du i) (gridv s dv j))
          (seq 0 (dv + 1))) as (row & E & F) end.
      - intros j Hj. apply in_seq in Hj.
        rewrite (get_ok spu i 0%nat) by lia. cbn [bind]. rewrite (get_ok spv j 0%nat) by lia. cbn [bind].
        rewrite (get_ok bu i []) by lia. cbn [bind]. rewrite (get_ok bv j []) by lia. cbn [bind].
        destruct (V1 i ltac:(lia)) as (A1 & A2 & A3 & A4). destruct (V2 j ltac:(lia)) as (B1 & B2 & B3 & B4).
        rewrite <- S1 in A3. rewrite <- S2 in B3.
        destruct (surf_derivatives_given_piece eps maxv s (gridu s du i) (gridv s dv j) 1 (nth i spu 0%nat) (nth j spv 0%nat)
          (nth i bu []) (nth j bv []) (nrow s - 1) (ncol s - 1) H ltac:(lia) A1 B1 A3 B3 ltac:(lia) ltac:(lia) A4 B4)
          as (tb & Etb & Ttb & Vtb).
        replace (Nat.min 1 (sdu s)) with 1%nat in Ttb, Vtb by lia. rewrite HD in Ttb.
        exists tb. split; [exact Etb|]. split; [exact Ttb|]. intros k l Hkl c. apply Vtb; lia.
      - exists row. split; [exact E|]. destruct (Forall2_seq_nth _ _ _ _ [] F) as (L & V).
        split; [lia|]. intros j Hj. apply (V j). lia. }
    rewrite Et. cbn [bind]. destruct (Forall2_seq_nth _ _ _ _ [] Ft) as (Lt & Vt).
    assert (MM : forall {A B} (f : A -> Res B) (l : list A) (a : A) (b : B) (P : nat -> B -> Prop),
      (forall i, (i < length l)%nat -> exists y, f (nth i l a) = Ok y /\ P i y) ->
      exists r, mapM f l = Ok r /\ length r = length l /\ forall i, (i < length l)%nat -> P i (nth i r b)).
    { intros A B f l a b P. revert P. induction l as [|x l IH]; intros P HP.
      - exists []. repeat split. intros; cbn in *; lia.
      - destruct (HP 0%nat ltac:(cbn; lia)) as (y & Ey & Py). cbn [nth] in Ey.
        destruct (IH (fun i => P (S i))) as (r & Er & Lr & Pr).
        { intros i Hi. apply (HP (S i)). cbn; lia. }
        exists (y :: r). cbn [mapM]. rewrite Ey. cbn [bind]. rewrite Er. cbn [bind]. split; [reflexivity|].
        split; [cbn; lia|]. intros [|i] Hi; [exact Py|]. apply Pr. cbn in Hi; lia. }
    match goal with |- exists g, mapM ?f _ = _ /\ _ =>
      destruct (MM _ _ f t [] [] (fun i row => length row = S dv /\ forall j, (j <= dv)%nat -> exists n,
          normal_at s (gridu s du i) (gridv s dv j) = Ok n /\ length (nth j row []) = 3%nat /\
          forall c, rc c (nth j row []) = rc c n / sqrt (rsum 3 (fun c => rc c n * rc c n))))
        as (g & Eg & Lg & Vg) end.
    { intros i Hi. destruct (Vt i ltac:(lia)) as (Lr & Vr).
      match goal with |- exists g, mapM ?f _ = _ /\ _ =>
        destruct (MM _ _ f (nth i t []) [] [] (fun j q => exists n,
          normal_at s (gridu s du i) (gridv s dv j) = Ok n /\ length q = 3%nat /\
          forall c, rc c q = rc c n / sqrt (rsum 3 (fun c => rc c n * rc c n)))) as (row & E & L & V) end.
      - intros j Hj. destruct (Vr j ltac:(lia)) as (Tb & Vb). rewrite Nat.add_0_l in Vb. set (tb := nth j (nth i t []) []) in *. clearbody tb.
        destruct (V1 i ltac:(lia)) as (A1 & A2 & _). destruct (V2 j ltac:(lia)) as (B1 & B2 & _).
        set (su := nth i spu 0%nat) in *. set (sv := nth j spv 0%nat) in *. clearbody su sv.
        destruct Tb as (Ltb & Tb).
        destruct (surf_rational_of_spec eps maxv (sdim s) tb 1 (fun c k l => dsurf s su sv c k l (gridu s du i) (gridv s dv j)))
          as (sk & Ek & Lk & Vk).
        { lia. } { exact Ltb. }
        { intros k Hk. destruct (Tb k ltac:(lia)) as (-> & _). lia. }
        { intros k l Hkl. destruct (Tb k ltac:(lia)) as (_ & T'). rewrite HD. apply T'. lia. }
        { intros c k l Hkl. symmetry. now apply Vb. }
        rewrite Ek. cbn [bind].
        destruct (Vk 0%nat ltac:(lia)) as (L0 & V0). destruct (Vk 1%nat ltac:(lia)) as (L1x & V1x).
        rewrite (get2_ent sk 1 0) by lia. cbn [bind]. rewrite (get2_ent sk 0 1) by lia. cbn [bind].
        destruct (V1x 0%nat ltac:(lia)) as (La & Va). destruct (V0 1%nat ltac:(lia)) as (Lb & Vb').
        destruct (normal_piece eps maxv s (gridu s du i) (gridv s dv j) su sv) as (a & b & En & Lna & Lnb & Vn); auto.
        assert (ent sk 1 0 = a) as ->.
        { apply (vec_ext _ _ 3); [lia|lia|]. intros c Hc. rewrite Va by lia. destruct (Vn c Hc) as (-> & _).
          unfold rsurf. apply (q2_ext _ _ _ _ _ _ _ _ 1); auto. }
        assert (ent sk 0 1 = b) as ->.
        { apply (vec_ext _ _ 3); [lia|lia|]. intros c Hc. rewrite Vb' by lia. destruct (Vn c Hc) as (_ & ->).
          unfold rsurf. apply (q2_ext _ _ _ _ _ _ _ _ 1); auto. }
        eexists. split; [reflexivity|]. exists (cross3 a b). split; [exact En|]. split; [reflexivity|].
        intros c. rewrite rc_vdivs. unfold vnorm. rewrite vnorm2_rsum. reflexivity.
      - exists row. split; [exact E|]. split; [lia|]. intros j Hj. apply V. lia. }
    exists g. split; [exact Eg|]. split; [rewrite Lg, Lt, Nat.add_1_r; reflexivity|]. intros i Hi. apply Vg. lia.
  Qed.

  (** ** The mesh *)
  Theorem regular_tessellate_spec s du dv : surf_ok s -> surf_eps eps s -> spos s -> sdim s = 4%nat ->
    (1 <= sdu s)%nat -> (1 <= sdv s)%nat ->
    exists m, regular_tessellate s du dv = Ok m /\
      length (tpts m) = ((du + 1) * (dv + 1))%nat /\
      length (tnormals m) = ((du + 1) * (dv + 1))%nat /\
      length (tuvs m) = ((du + 1) * (dv + 1))%nat /\
      length (tfaces m) = (2 * du * dv)%nat /\
      (forall f, In f (tfaces m) -> length f = 3%nat /\ NoDup f /\ Forall (fun v => (v < length (tpts m))%nat) f) /\
      (forall i j, (i <= du)%nat -> (j <= dv)%nat ->
         surf_point_at s (gridu s du i) (gridv s dv j) = Ok (nth (vid dv i j) (tpts m) []) /\
         nth (vid dv i j) (tuvs m) (0, 0) = (gridu s du i, gridv s dv j) /\
         exists n, normal_at s (gridu s du i) (gridv s dv j) = Ok n /\
           forall c, rc c (nth (vid dv i j) (tnormals m) []) = rc c n / sqrt (rsum 3 (fun c => rc c n * rc c n))) /\
      (forall i j, (i < du)%nat -> (j < dv)%nat ->
         nth (2 * (i * dv + j)) (tfaces m) [] = [vid dv i j; vid dv (i + 1) (j + 1); vid dv i (j + 1)] /\
         nth (2 * (i * dv + j) + 1) (tfaces m) [] = [vid dv i j; vid dv (i + 1) j; vid dv (i + 1) (j + 1)]).
  Proof.
    intros H He Hw HD Pu Pv. unfold regular_tessellate.
    destruct (regular_sample_points_spec eps maxv s du dv H He) as (g & E & L & V).
    { intros i j Hi Hj. pose proof (swfun_pos eps maxv s _ _ H He Hw (grid_dom s du dv i j H Hi Hj)). lra. }
    rewrite E. cbn [bind].
    destruct (regular_sample_normals_spec s du dv H He HD Pu Pv) as (n & En & Ln & Vn).
    rewrite En. cbn [bind].
    rewrite (regularly_spaced_span_ok eps maxv _ _ _ du (so_uk s H)). cbn [bind].
    rewrite (regularly_spaced_span_ok eps maxv _ _ _ dv (so_vk s H)). cbn [bind].
    assert (Lp : length (concat g) = ((du + 1) * (dv + 1))%nat).
    { rewrite (concat_rows_len g (dv + 1)); [rewrite L; lia|]. intros i Hi. rewrite (proj1 (V i ltac:(lia))). lia. }
    eexists. split; [reflexivity|]. cbn [tpts tnormals tuvs tfaces].
    split; [exact Lp|]. split.
    { rewrite (concat_rows_len n (dv + 1)); [rewrite Ln; lia|]. intros i Hi. rewrite (proj1 (Vn i ltac:(lia))). lia. }
    split.
    { unfold grid_uvs. rewrite (flat_map_len _ _ (dv + 1)); [now rewrite seq_length|].
      intros i Hi. now rewrite map_length, seq_length. }
    split; [apply grid_faces_len|]. split.
    { intros f Hf. rewrite Lp. now apply grid_faces_range. }
    split.
    - intros i j Hi Hj. destruct (V i Hi) as (Lr & Vr). destruct (Vn i Hi) as (Lr' & Vr').
      unfold vid. rewrite (nth_concat_rows g (dv + 1)) by (try lia; intros k Hk; rewrite (proj1 (V k ltac:(lia))); lia).
      rewrite (nth_concat_rows n (dv + 1)) by (try lia; intros k Hk; rewrite (proj1 (Vn k ltac:(lia))); lia).
      split; [now apply Vr|]. split.
      + unfold grid_uvs. rewrite (nth_flat_map _ _ (dv + 1) i j 0%nat).
        2:{ intros x _. now rewrite map_length, seq_length. }
        2:{ rewrite seq_length. lia. } 2:{ lia. }
        rewrite seq_nth by lia. rewrite (nth_map_lt _ _ _ 0%nat) by (rewrite seq_length; lia). rewrite seq_nth by lia.
        unfold gridu, gridv, reg. rs. rewrite !sofnat_INR. rewrite !Nat.add_0_l.
        pose proof (so_u s H). pose proof (so_v s H).
        replace (S (nrow s - 1)) with (nrow s) by lia. replace (S (ncol s - 1)) with (ncol s) by lia.
        fold (u0 s) (u1 s) (v0 s) (v1 s). f_equal; ring.
      + destruct (Vr' j Hj) as (x & Ex & _ & Vx). eauto.
    - intros i j Hi Hj. now apply grid_faces_cell.
  Qed.

  (** a non-zero normal is sampled as a unit vector *)
  Lemma unit_normal (n m : list R) : (exists c, (c < 3)%nat /\ rc c n <> 0) ->
    (forall c, rc c m = rc c n / sqrt (rsum 3 (fun c => rc c n * rc c n))) ->
    rsum 3 (fun c => rc c m * rc c m) = 1.
  Proof.
    intros (c & Hc & Nz) Hm. set (q := rsum 3 (fun c => rc c n * rc c n)) in *.
    assert (Pq : 0 < q).
    { unfold q. apply (rsum_pos _ _ c); auto; intros; nra. }
    cbn [rsum]. rewrite !Hm. pose proof (sqrt_sqrt q ltac:(lra)) as Sq. pose proof (sqrt_lt_R0 q Pq) as Ps.
    assert (Eq : q = 0 + rc 0 n * rc 0 n + rc 1 n * rc 1 n + rc 2 n * rc 2 n) by reflexivity.
    set (r := sqrt q) in *.
    transitivity ((0 + rc 0 n * rc 0 n + rc 1 n * rc 1 n + rc 2 n * rc 2 n) / (r * r)); [field; lra|].
    rewrite <- Eq, Sq. field. lra.
  Qed.
End Real.
