(** * C88: reversing a surface in either direction commutes with knot refinement *)
From Coq Require Import Reals Lra Lia Sorted Permutation.
From Verif Require Import Base BaseFacts Scalar KnotModel RSum BSplineSpec BSpline KnotSpec KnotFacts KnotProofs VecFacts
  CurveModel CurveKnotModel CurveSpec CurveProofs KnotMisc Boehm Refine SplitProofs CurveGeom CurveGeom2 MiscModel MiscProofs
  SurfaceModel SurfaceSpec SurfaceProofs SurfaceRefine SurfaceShapes Unique Unique2 SurfUnique SurfUnique2.
Import ListNotations.
Open Scope R_scope.

Lemma transpose_eq {A} (d : A) r c g t : (1 <= r)%nat -> rect r c g -> rect c r t ->
  (forall i j, (i < r)%nat -> (j < c)%nat -> nth i (nth j t []) d = nth j (nth i g []) d) -> transpose g = Ok t.
Proof.
  intros Hr Hg (T1 & T2) N. destruct (transpose_spec d r c g Hr Hg) as (t' & E & (T1' & T2') & N'). rewrite E. f_equal.
  rewrite Forall_forall in T2, T2'.
  apply (list_ext []); [lia|]. intros j Hj. rewrite T1' in Hj.
  assert (L1 : length (nth j t' []) = r) by (apply T2', nth_In; lia).
  assert (L2 : length (nth j t []) = r) by (apply T2, nth_In; lia).
  apply (list_ext d); [lia|]. intros i Hi. rewrite N', N by lia. reflexivity.
Qed.

Lemma rect_rev {A} r c (g : list (list A)) : rect r c g -> rect r c (rev g).
Proof. intros (L & F). split; [now rewrite rev_length|now apply Forall_rev]. Qed.
Lemma rect_map_rev {A} r c (g : list (list A)) : rect r c g -> rect r c (map (@rev A) g).
Proof. intros (L & F). split; [now rewrite map_length|]. apply Forall_map. eapply Forall_impl; [|exact F]. intros l Hl. cbv beta. now rewrite rev_length. Qed.

Lemma transpose_rev {A} (d : A) r c g : (1 <= r)%nat -> rect r c g ->
  exists t, transpose g = Ok t /\ rect c r t /\ transpose (rev g) = Ok (map (@rev A) t) /\ transpose (map (@rev A) g) = Ok (rev t).
Proof.
  intros Hr Hg. destruct (transpose_spec d r c g Hr Hg) as (t & E & Ht & N). exists t. split; [exact E|]. split; [exact Ht|].
  pose proof Hg as (G1 & G2). pose proof Ht as (T1 & T2). rewrite Forall_forall in G2, T2.
  assert (Lg : forall i, (i < r)%nat -> length (nth i g []) = c) by (intros i Hi; apply G2, nth_In; lia).
  assert (Lt : forall j, (j < c)%nat -> length (nth j t []) = r) by (intros j Hj; apply T2, nth_In; lia).
  split.
  - apply (transpose_eq d r c); auto using rect_rev, rect_map_rev. intros i j Hi Hj.
    rewrite (nth_map_lt (@rev A) t j [] []) by lia. rewrite rev_nth by (rewrite Lt; lia). rewrite rev_nth by lia. rewrite Lt, G1 by lia. apply N; lia.
  - apply (transpose_eq d r c); auto using rect_rev, rect_map_rev. intros i j Hi Hj.
    rewrite (nth_map_lt (@rev A) g i [] []) by lia. rewrite !rev_nth by (rewrite ?Lg; lia). rewrite Lg, T1 by lia. apply N; lia.
Qed.

Lemma mapM_rev {A B} (f : A -> Res B) l : forall r, mapM f l = Ok r -> mapM f (rev l) = Ok (rev r).
Proof.
  assert (App : forall l1 l2 r1 r2, mapM f l1 = Ok r1 -> mapM f l2 = Ok r2 -> mapM f (l1 ++ l2) = Ok (r1 ++ r2)).
  { induction l1 as [|x l1 IH]; intros l2 r1 r2 E1 E2; cbn in *; [injection E1 as <-; exact E2|].
    apply bind_ok in E1 as (y & Ey & E1). apply bind_ok in E1 as (ys & Es & E1). injection E1 as <-. rewrite Ey. cbn [bind]. rewrite (IH _ _ _ Es E2). reflexivity. }
  induction l as [|x l IH]; intros r E; cbn in E; [injection E as <-; reflexivity|].
  apply bind_ok in E as (y & Ey & E). apply bind_ok in E as (ys & Es & E). injection E as <-. cbn [rev]. apply App; [now apply IH|]. cbn. now rewrite Ey.
Qed.

Section Real.
  Variables eps maxv : R.
  Local Hint Extern 0 (Scalar R) => exact (ROps eps maxv) : typeclass_instances.
  Local Notation insertable := (insertable eps).
  Local Notation reflect m zs := (rev (map (fun z => m - z) zs)).

  Definition mirror_k (k : list R) : R := kf k 0 + kf k (length k - 1).

  Lemma lines_invert D p k k' xs lines : kinvert k = Ok k' ->
    (forall line, In line lines -> let c := lcurve D p k line in curve_ok c /\ curve_eps eps c /\ insertable c xs) ->
    exists cs cs', mapM (refine_row D p k xs) lines = Ok cs /\ mapM (refine_row D p k' (reflect (mirror_k k) xs)) (map (@rev _) lines) = Ok cs' /\
      Forall2 (fun c c' => invert c = Ok c') cs cs'.
  Proof.
    intros Ek H. induction lines as [|l lines IH]; [exists [], []; repeat split; constructor|].
    destruct (H l (or_introl eq_refl)) as (Hc & He & Hi). destruct (refine_invert eps maxv _ xs Hc He Hi) as (c1 & d & c' & E1 & E2 & E3 & E4).
    destruct IH as (cs & cs' & F1 & F2 & F3). { intros line Hl. apply H. now right. }
    exists (c1 :: cs), (c' :: cs'). cbn [map mapM]. rewrite F1, F2.
    assert (Ed : d = lcurve D p k' (rev l)).
    { unfold invert in E3. cbn [lcurve cknots cdim cdeg cpts] in E3. rewrite Ek in E3. cbn [bind] in E3. now injection E3 as <-. }
    destruct (invert_mirrored eps maxv _ Hc) as (d' & E3' & Md). rewrite E3 in E3'. injection E3' as <-. pose proof (mirrored_ok _ _ Hc Md) as Od. rewrite Ed in Od, E4.
    unfold refine_row at 1 2. rewrite !try_new_sorted; cbn [bind].
    - change (MkCurve D p l k) with (lcurve D p k l). change (MkCurve D p (rev l) k') with (lcurve D p k' (rev l)). rewrite E1. cbn [bind].
      change (mirror_c (lcurve D p k l)) with (mirror_k k) in E4. rewrite E4. cbn [bind]. repeat split. now constructor.
    - apply (co_len _ Od).
    - apply (curve_len _ Od).
    - apply (ko_sorted _ _ _ (co_knots _ Od)).
    - apply (co_len _ Hc).
    - apply (curve_len _ Hc).
    - apply (ko_sorted _ _ _ (co_knots _ Hc)).
  Qed.

  Lemma inverted_pts (cs cs' : list (Curve R)) : Forall2 (fun c c' => invert c = Ok c') cs cs' -> map cpts cs' = map (@rev _) (map cpts cs).
  Proof.
    induction 1 as [|c c' cs cs' E F IH]; [reflexivity|]. cbn [map]. rewrite IH. f_equal. unfold invert in E. apply bind_ok in E as (k & _ & E). now injection E as <-.
  Qed.
  Lemma inverted_knots (cs cs' : list (Curve R)) k : Forall2 (fun c c' => invert c = Ok c') cs cs' -> option_map cknots (hd_error cs) = Some k ->
    exists k', kinvert k = Ok k' /\ option_map cknots (hd_error cs') = Some k'.
  Proof.
    intros [|c c' l l' E F] H; [discriminate|]. cbn in *. injection H as <-. unfold invert in E. apply bind_ok in E as (k' & Ek & E). injection E as <-. exists k'. auto.
  Qed.

  Lemma ok_or_some {A} (o : option A) m x : ok_or o m = Ok x -> o = Some x.
  Proof. destruct o; cbn; [now intros [= ->]|discriminate]. Qed.

  Lemma all_cols s zs : surf_ok s -> surf_eps eps s -> insertable (ucol s 0) zs -> forall cols, transpose (snet s) = Ok cols ->
    forall line, In line cols -> let c := lcurve (sdim s) (sdu s) (suk s) line in curve_ok c /\ curve_eps eps c /\ insertable c zs.
  Proof.
    intros H He Hi cols Et line Hl. destruct (net_cols s H) as (cols' & Et' & Lc & Hc). rewrite Et in Et'. injection Et' as <-.
    destruct (In_nth _ _ [] Hl) as (b & Hb & <-). rewrite Lc in Hb. destruct (Hc b Hb) as (_ & ->). cbv zeta.
    split; [now apply ucol_ok|]. split; [now apply ucol_eps|]. destruct (ucol_dom s b) as (D0 & D1). destruct (ucol_dom s 0) as (D0' & D1'). apply (insertable_lines eps (ucol s 0)); auto; congruence.
  Qed.
  Lemma all_rows s zs : surf_ok s -> surf_eps eps s -> insertable (vrow s 0) zs ->
    forall line, In line (snet s) -> let c := lcurve (sdim s) (sdv s) (svk s) line in curve_ok c /\ curve_eps eps c /\ insertable c zs.
  Proof.
    intros H He Hi line Hl. pose proof (so_u s H) as Hu. destruct (In_nth _ _ [] Hl) as (a & Ha & <-). fold (nrow s) in Ha.
    change (lcurve (sdim s) (sdv s) (svk s) (nth a (snet s) [])) with (vrow s a). cbv zeta.
    split; [now apply vrow_ok|]. split; [now apply vrow_eps|]. destruct (vrow_dom s a H Ha) as (D0 & D1). destruct (vrow_dom s 0 H ltac:(lia)) as (D0' & D1').
    apply (insertable_lines eps (vrow s 0)); auto; congruence.
  Qed.

  Lemma kinvert_some (k : list R) : k <> [] -> exists k', kinvert k = Ok k'.
  Proof. intros Hk. destruct (kinvert_kf eps maxv k Hk) as (k' & E & _). eauto. Qed.
  Lemma knots_ne (s : Surf R) : surf_ok s -> suk s <> [] /\ svk s <> [].
  Proof.
    intros H. split; intros E.
    - pose proof (ko_len _ _ _ (so_uk s H)) as Z. rewrite E in Z. pose proof (so_u s H). cbn in Z. lia.
    - pose proof (ko_len _ _ _ (so_vk s H)) as Z. rewrite E in Z. pose proof (so_v s H). cbn in Z. lia.
  Qed.

  (** the direction that is refined is reversed: the new knots are reflected *)
  Lemma refine_flip_v s zs : surf_ok s -> surf_eps eps s -> insertable (vrow s 0) zs ->
    exists s1 s2 s', surf_refine s zs DirV = Ok s1 /\ flip_v s1 = Ok s' /\ flip_v s = Ok s2 /\ surf_refine s2 (reflect (vmirror s) zs) DirV = Ok s'.
  Proof.
    intros H He Hi. destruct (kinvert_some _ (proj2 (knots_ne s H))) as (k' & Ek).
    destruct (lines_invert (sdim s) (sdv s) (svk s) k' zs (snet s) Ek (all_rows s zs H He Hi)) as (cs & cs' & E1 & E2 & F).
    destruct (srefines_v eps maxv s zs H He Hi) as (s1 & Es & _). unfold surf_refine in Es. rewrite E1 in Es. cbn [bind] in Es.
    apply bind_ok in Es as (k & Eh & Es). injection Es as <-. destruct (inverted_knots _ _ _ F (ok_or_some _ _ _ Eh)) as (k1 & Ek1 & Eh1).
    unfold flip_v. eexists _, _, _. split; [unfold surf_refine; rewrite E1; cbn [bind]; rewrite Eh; cbn [bind]; reflexivity|].
    cbn [svk sdim sdu sdv suk snet]. rewrite Ek1. cbn [bind]. split; [reflexivity|]. rewrite Ek. cbn [bind]. split; [reflexivity|].
    unfold surf_refine. cbn [svk sdim sdu sdv suk snet]. change (vmirror s) with (mirror_k (svk s)). rewrite E2. cbn [bind]. rewrite Eh1. cbn [ok_or bind]. now rewrite (inverted_pts _ _ F).
  Qed.

  Lemma refine_flip_u s zs : surf_ok s -> surf_eps eps s -> insertable (ucol s 0) zs ->
    exists s1 s2 s', surf_refine s zs DirU = Ok s1 /\ flip_u s1 = Ok s' /\ flip_u s = Ok s2 /\ surf_refine s2 (reflect (umirror s) zs) DirU = Ok s'.
  Proof.
    intros H He Hi. pose proof (so_u s H) as Hu. pose proof (so_v s H) as Hv. destruct (kinvert_some _ (proj1 (knots_ne s H))) as (k' & Ek).
    destruct (transpose_rev [] (nrow s) (ncol s) (snet s) ltac:(lia)) as (cols & Et & (Lc & _) & Er & _). { split; [reflexivity|apply H]. }
    destruct (lines_invert (sdim s) (sdu s) (suk s) k' zs cols Ek (all_cols s zs H He Hi cols Et)) as (cs & cs' & E1 & E2 & F).
    destruct (srefines_u eps maxv s zs H He Hi) as (s1 & Es & R1). pose proof Es as Es0. unfold surf_refine in Es. rewrite Et in Es. cbn [bind] in Es. rewrite E1 in Es. cbn [bind] in Es.
    apply bind_ok in Es as (k & Eh & Es). apply bind_ok in Es as (net & En & Es). destruct (inverted_knots _ _ _ F (ok_or_some _ _ _ Eh)) as (k1 & Ek1 & Eh1).
    assert (Hr : exists m, rect (length cs) m (map cpts cs)).
    { destruct (refine_lines eps maxv (sdim s) (sdu s) (suk s) (nrow s) zs cols) as (cs0 & k0 & E0 & L0 & _ & _ & V).
      - intros ->. cbn in Lc. lia.
      - intros a Ha. rewrite Lc in Ha. destruct (net_cols s H) as (cols' & Et' & _ & Hc). rewrite Et in Et'. injection Et' as <-. destruct (Hc a Ha) as (La & ->). split; [exact La|]. split; [now apply ucol_ok|now apply ucol_eps].
      - destruct (all_cols s zs H He Hi cols Et (nth 0 cols []) ltac:(apply nth_In; lia)) as (_ & _ & Q). exact (proj1 Q).
      - rewrite E1 in E0. injection E0 as <-. exists (nrow s + length zs)%nat. split; [apply map_length|]. apply Forall_map, Forall_forall. intros c Hc. destruct (In_nth _ _ (lcurve 0 0 [] []) Hc) as (a & Ha & <-).
        rewrite L0 in Ha. destruct (V a Ha) as (_ & _ & _ & Q & _). exact Q. }
    destruct Hr as (m & Hr). assert (Lcs : (1 <= length cs)%nat) by (destruct cs; [discriminate Eh|cbn; lia]).
    destruct (transpose_rev [] (length cs) m _ Lcs Hr) as (net' & En' & _ & _ & Er'). rewrite En in En'. injection En' as <-.
    injection Es as <-. eexists _, _, _. split; [exact Es0|]. unfold flip_u. cbn [svk sdim sdu sdv suk snet]. rewrite Ek1. cbn [bind]. split; [reflexivity|]. rewrite Ek. cbn [bind]. split; [reflexivity|].
    unfold surf_refine. cbn [svk sdim sdu sdv suk snet]. rewrite Er. cbn [bind]. change (umirror s) with (mirror_k (suk s)). rewrite E2. cbn [bind]. rewrite Eh1. cbn [ok_or bind]. rewrite (inverted_pts _ _ F), Er'. reflexivity.
  Qed.

  (** the other direction is reversed: the new knots stay *)
  Lemma hd_rev_knots D p k m xs lines cs : lines <> [] ->
    (forall line, In line lines -> let c := lcurve D p k line in curve_ok c /\ curve_eps eps c /\ insertable c xs) -> Forall (fun l => length l = m) lines ->
    mapM (refine_row D p k xs) lines = Ok cs -> option_map cknots (hd_error (rev cs)) = option_map cknots (hd_error cs) /\ rect (length cs) (m + length xs) (map cpts cs) /\ (1 <= length cs)%nat.
  Proof.
    intros Hne H Fm E. assert (L1 : (1 <= length lines)%nat) by (destruct lines; [contradiction|cbn; lia]). rewrite Forall_forall in Fm.
    destruct (refine_lines eps maxv D p k m xs lines) as (cs0 & k0 & E0 & L0 & _ & _ & V); auto.
    { intros a Ha. assert (Hl : In (nth a lines []) lines) by now apply nth_In. destruct (H _ Hl) as (A & B & _). auto. }
    { destruct (H (nth 0 lines []) ltac:(apply nth_In; lia)) as (_ & _ & Q). exact (proj1 Q). }
    rewrite E in E0. injection E0 as <-.
    assert (K : forall c, In c cs -> cknots c = k0 /\ length (cpts c) = (m + length xs)%nat).
    { intros c Hc. destruct (In_nth _ _ (lcurve 0 0 [] []) Hc) as (a & Ha & <-). rewrite L0 in Ha. destruct (V a Ha) as (_ & _ & Q1 & Q2 & _). auto. }
    split; [|split; [split; [apply map_length|apply Forall_map, Forall_forall; intros c Hc; now apply K]|lia]].
    assert (Q : forall l, (forall c, In c l -> cknots c = k0) -> l <> [] -> option_map cknots (hd_error l) = Some k0) by (intros [|c l] G N; [contradiction|cbn; now rewrite (G c (or_introl eq_refl))]).
    assert (Nc : cs <> []) by (intros ->; cbn in L0; lia).
    rewrite !Q; auto.
    - intros c Hc. now apply K.
    - intros c Hc. apply in_rev in Hc. now apply K.
    - intros Z. apply Nc. rewrite <- (rev_involutive cs), Z. reflexivity.
  Qed.

  Lemma refine_v_flip_u s zs : surf_ok s -> surf_eps eps s -> insertable (vrow s 0) zs ->
    exists s1 s2 s', surf_refine s zs DirV = Ok s1 /\ flip_u s1 = Ok s' /\ flip_u s = Ok s2 /\ surf_refine s2 zs DirV = Ok s'.
  Proof.
    intros H He Hi. destruct (kinvert_some _ (proj1 (knots_ne s H))) as (k' & Ek).
    destruct (srefines_v eps maxv s zs H He Hi) as (s1 & Es & _). pose proof Es as Es0. unfold surf_refine in Es. apply bind_ok in Es as (cs & E1 & Es).
    apply bind_ok in Es as (k & Eh & Es). injection Es as <-.
    destruct (hd_rev_knots (sdim s) (sdv s) (svk s) (ncol s) zs (snet s) cs (net_ne s H) (all_rows s zs H He Hi) (so_rect s H) E1) as (Hk & _).
    eexists _, _, _. split; [exact Es0|]. unfold flip_u. cbn [svk sdim sdu sdv suk snet]. rewrite Ek. cbn [bind]. split; [reflexivity|]. split; [reflexivity|].
    unfold surf_refine. cbn [svk sdim sdu sdv suk snet]. rewrite (mapM_rev _ _ _ E1). cbn [bind]. rewrite Hk, Eh. cbn [bind]. now rewrite map_rev.
  Qed.

  Lemma refine_u_flip_v s zs : surf_ok s -> surf_eps eps s -> insertable (ucol s 0) zs ->
    exists s1 s2 s', surf_refine s zs DirU = Ok s1 /\ flip_v s1 = Ok s' /\ flip_v s = Ok s2 /\ surf_refine s2 zs DirU = Ok s'.
  Proof.
    intros H He Hi. pose proof (so_u s H) as Hu. pose proof (so_v s H) as Hv. destruct (kinvert_some _ (proj2 (knots_ne s H))) as (k' & Ek).
    destruct (transpose_rev [] (nrow s) (ncol s) (snet s) ltac:(lia)) as (cols & Et & (Lc & Fc) & _ & Er). { split; [reflexivity|apply H]. }
    destruct (srefines_u eps maxv s zs H He Hi) as (s1 & Es & _). pose proof Es as Es0. unfold surf_refine in Es. rewrite Et in Es. cbn [bind] in Es. apply bind_ok in Es as (cs & E1 & Es).
    apply bind_ok in Es as (k & Eh & Es). apply bind_ok in Es as (net & En & Es). injection Es as <-.
    destruct (hd_rev_knots (sdim s) (sdu s) (suk s) (nrow s) zs cols cs) as (Hk & Hr & L1); auto.
    { intros ->. cbn in Lc. lia. } { now apply all_cols. }
    destruct (transpose_rev [] (length cs) _ _ L1 Hr) as (net' & En' & _ & Er' & _). rewrite En in En'. injection En' as <-.
    eexists _, _, _. split; [exact Es0|]. unfold flip_v. cbn [svk sdim sdu sdv suk snet]. rewrite Ek. cbn [bind]. split; [reflexivity|]. split; [reflexivity|].
    unfold surf_refine. cbn [svk sdim sdu sdv suk snet]. rewrite Er. cbn [bind]. rewrite (mapM_rev _ _ _ E1). cbn [bind]. rewrite Hk, Eh. cbn [bind]. now rewrite map_rev, Er'.
  Qed.

  Lemma flip_u_ok s s' : surf_ok s -> surf_eps eps s -> flip_u s = Ok s' -> surf_ok s' /\ surf_eps eps s' /\ svk s' = svk s /\ sdv s' = sdv s /\ ncol s' = ncol s.
  Proof.
    intros H He E. pose proof (so_u s H) as Hu. pose proof (so_v s H) as Hv. destruct (kinvert_kf eps maxv (suk s) (proj1 (knots_ne s H))) as (k' & Ek & Lk & Vk).
    unfold flip_u in E. rewrite Ek in E. cbn [bind] in E. injection E as <-. set (s' := MkSurf (sdim s) (sdu s) (sdv s) k' (svk s) (rev (snet s))).
    assert (Nr : nrow s' = nrow s) by (unfold nrow, s'; cbn [snet]; apply rev_length).
    assert (Nc : ncol s' = ncol s).
    { unfold ncol at 1, s'. cbn [snet]. pose proof (so_rect s H) as F. rewrite Forall_forall in F. apply F.
      apply in_rev. apply nth_In. fold (nrow s) in *. rewrite rev_length. unfold nrow in Hu. lia. }
    assert (Mi : mirrored (ucol s 0) (ucol s' 0)) by (unfold mirrored, ucol, s'; cbn [cdim cdeg cpts cknots sdim sdu suk snet]; rewrite map_rev; repeat split; auto).
    pose proof (ucol_ok s 0 H ltac:(lia)) as O0. pose proof (mirrored_ok _ _ O0 Mi) as O0'. pose proof (mirrored_eps eps _ _ O0 Mi (ucol_eps eps s 0 He)) as E0'.
    split; [|split; [|repeat split; exact Nc]].
    - constructor.
      + apply (so_dim s H).
      + rewrite Nc. unfold s'. cbn [snet]. apply Forall_rev. apply H.
      + unfold s'. cbn [snet sdim]. apply Forall_rev. apply H.
      + rewrite Nr. exact Hu.
      + rewrite Nc. exact Hv.
      + pose proof (co_knots _ O0') as K. unfold clast in K. cbn [ucol cpts cdeg cknots] in K. rewrite map_length in K. exact K.
      + rewrite Nc. apply (so_vk s H).
    - split.
      + unfold curve_eps, clast in E0'. cbn [ucol cpts cdeg cknots] in E0'. rewrite map_length in E0'. exact E0'.
      + rewrite Nc. apply He.
  Qed.
  Lemma flip_v_ok s s' : surf_ok s -> surf_eps eps s -> flip_v s = Ok s' -> surf_ok s' /\ surf_eps eps s' /\ suk s' = suk s /\ sdu s' = sdu s /\ nrow s' = nrow s.
  Proof.
    intros H He E. pose proof (so_u s H) as Hu. pose proof (so_v s H) as Hv. destruct (kinvert_kf eps maxv (svk s) (proj2 (knots_ne s H))) as (k' & Ek & Lk & Vk).
    unfold flip_v in E. rewrite Ek in E. cbn [bind] in E. injection E as <-. set (s' := MkSurf (sdim s) (sdu s) (sdv s) (suk s) k' (map (@rev _) (snet s))).
    assert (Nr : nrow s' = nrow s) by (unfold nrow, s'; cbn [snet]; apply map_length).
    assert (Rw : nth 0 (snet s') [] = rev (nth 0 (snet s) [])) by (unfold s'; cbn [snet]; now rewrite (nth_map_lt (@rev _) _ _ [] []) by (fold (nrow s); lia)).
    assert (Nc : ncol s' = ncol s) by (unfold ncol at 1; rewrite Rw, rev_length; reflexivity).
    assert (Mi : mirrored (vrow s 0) (vrow s' 0)) by (unfold mirrored, vrow; rewrite Rw; unfold s'; cbn [cdim cdeg cpts cknots sdim sdv svk]; repeat split; auto).
    pose proof (vrow_ok s 0 H ltac:(lia)) as O0. pose proof (mirrored_ok _ _ O0 Mi) as O0'. pose proof (mirrored_eps eps _ _ O0 Mi (vrow_eps eps s 0 H ltac:(lia) He)) as E0'.
    split; [|split; [|repeat split; exact Nr]].
    - constructor.
      + apply (so_dim s H).
      + rewrite Nc. unfold s'. cbn [snet]. apply Forall_map. eapply Forall_impl; [|apply (so_rect s H)]. intros r Hr. cbv beta. now rewrite rev_length.
      + unfold s'. cbn [snet sdim]. apply Forall_map. eapply Forall_impl; [|apply (so_pts s H)]. intros r Hr. now apply Forall_rev.
      + rewrite Nr. exact Hu.
      + rewrite Nc. exact Hv.
      + rewrite Nr. apply (so_uk s H).
      + exact (co_knots _ O0').
    - split; [rewrite Nr; apply He|exact E0'].
  Qed.

  Lemma flips_commute (s a b : Surf R) : flip_v s = Ok a -> flip_u a = Ok b -> flip s FlipUV = Ok b.
  Proof.
    unfold flip, flip_u, flip_v. intros Ea Eb. apply bind_ok in Ea as (kv & Ev & Ea). injection Ea as <-. cbn [suk] in Eb. apply bind_ok in Eb as (ku & Eu & Eb). injection Eb as <-.
    rewrite Eu. cbn [bind svk]. rewrite Ev. cbn [bind sdim sdu sdv suk svk snet]. now rewrite map_rev.
  Qed.

  (** the new knots, seen from the reversed surface *)
  Definition reflected (s : Surf R) (d : UV) (f : Flip) (zs : list R) : list R :=
    match d, f with
    | DirU, FlipU | DirU, FlipUV => reflect (umirror s) zs
    | DirV, FlipV | DirV, FlipUV => reflect (vmirror s) zs
    | _, _ => zs
    end.

  Theorem surf_refine_flip s zs d f : surf_ok s -> surf_eps eps s -> insertable (match d with DirU => ucol s 0 | DirV => vrow s 0 end) zs ->
    exists s1 s2 s', surf_refine s zs d = Ok s1 /\ flip s1 f = Ok s' /\ flip s f = Ok s2 /\ surf_refine s2 (reflected s d f zs) d = Ok s'.
  Proof.
    intros H He Hi. pose proof (so_u s H) as Hu. destruct d, f; cbn [reflected].
    - destruct (refine_flip_u s zs H He Hi) as (s1 & s2 & s' & A & B & C & D). exists s1, s2, s'. unfold flip. rewrite B, C. cbn [bind]. auto.
    - destruct (refine_u_flip_v s zs H He Hi) as (s1 & s2 & s' & A & B & C & D). exists s1, s2, s'. unfold flip. cbn [bind]. auto.
    - destruct (refine_u_flip_v s zs H He Hi) as (s1 & s2 & s' & A & B & C & D). destruct (flip_v_ok s s2 H He C) as (O2 & Oe2 & K2 & D2 & N2).
      destruct (refine_flip_u s2 zs O2 Oe2) as (t1 & t2 & t' & A' & B' & C' & D').
      { destruct (ucol_dom s 0) as (P0 & P1). destruct (ucol_dom s2 0) as (Q0 & Q1). apply (insertable_lines eps (ucol s 0)); auto.
        - rewrite P0, Q0. unfold u0. now rewrite K2, D2.
        - rewrite P1, Q1. unfold u1. now rewrite K2, N2. }
      rewrite D in A'. injection A' as <-. exists s1, t2, t'. split; [exact A|]. split; [now apply (flips_commute _ s')|]. split; [now apply (flips_commute _ s2)|].
      replace (umirror s) with (umirror s2) by (unfold umirror; now rewrite K2). exact D'.
    - destruct (refine_v_flip_u s zs H He Hi) as (s1 & s2 & s' & A & B & C & D). exists s1, s2, s'. unfold flip. rewrite B, C. cbn [bind]. auto.
    - destruct (refine_flip_v s zs H He Hi) as (s1 & s2 & s' & A & B & C & D). exists s1, s2, s'. unfold flip. cbn [bind]. auto.
    - destruct (refine_v_flip_u s zs H He Hi) as (s1 & s2 & s' & A & B & C & D). destruct (flip_u_ok s s2 H He C) as (O2 & Oe2 & K2 & D2 & N2).
      destruct (refine_flip_v s2 zs O2 Oe2) as (t1 & t2 & t' & A' & B' & C' & D').
      { destruct (vrow_dom s 0 H ltac:(lia)) as (P0 & P1). destruct (vrow_dom s2 0 O2 ltac:(pose proof (so_u s2 O2); lia)) as (Q0 & Q1). apply (insertable_lines eps (vrow s 0)); auto.
        - rewrite P0, Q0. unfold v0. now rewrite K2, D2.
        - rewrite P1, Q1. unfold v1. now rewrite K2, N2. }
      rewrite D in A'. injection A' as <-. exists s1, t2, t'. split; [exact A|]. unfold flip. rewrite B, C. cbn [bind]. split; [exact B'|]. split; [exact C'|].
      replace (vmirror s) with (vmirror s2) by (unfold vmirror; now rewrite K2). exact D'.
  Qed.

  (** reversing twice gives the surface back *)
  Lemma kinvert_back (k : list R) : k <> [] -> exists k', kinvert k = Ok k' /\ kinvert k' = Ok k.
  Proof.
    intros Hk. destruct (kinvert_kf eps maxv k Hk) as (k' & E & L & V). exists k'. split; [exact E|].
    assert (Hk' : k' <> []) by (intros ->; destruct k; [contradiction|discriminate L]). assert (L1 : (0 < length k)%nat) by (destruct k; [contradiction|cbn; lia]).
    destruct (kinvert_kf eps maxv k' Hk') as (k2 & E2 & L2 & V2). rewrite E2. f_equal. apply (list_ext 0); [lia|]. intros i Hi. rewrite <- !kf_nth by lia.
    rewrite V2 by lia. rewrite L, !V by lia. replace (length k - 1 - (length k - 1))%nat with 0%nat by lia. replace (length k - 1 - 0)%nat with (length k - 1)%nat by lia.
    replace (length k - 1 - (length k - 1 - i))%nat with i by lia. lra.
  Qed.
  Theorem flip_involutive s f : surf_ok s -> exists s', flip s f = Ok s' /\ flip s' f = Ok s.
  Proof.
    intros H. destruct (knots_ne s H) as (Nu & Nv). destruct (kinvert_back _ Nu) as (ku & Eu & Fu). destruct (kinvert_back _ Nv) as (kv & Ev & Fv).
    assert (RR : forall n : list (list (list R)), map (@rev _) (map (@rev _) n) = n) by (induction n as [|x n IH]; cbn [map]; [reflexivity|now rewrite rev_involutive, IH]).
    destruct s as [D du dv uk vk net]. cbn [suk svk] in *.
    destruct f; unfold flip, flip_u, flip_v; cbn [sdim sdu sdv suk svk snet bind]; rewrite ?Eu, ?Ev; cbn [sdim sdu sdv suk svk snet bind]; rewrite ?Ev; cbn [bind];
      (eexists; split; [reflexivity|]); cbn [sdim sdu sdv suk svk snet bind]; rewrite ?Fu, ?Fv; cbn [sdim sdu sdv suk svk snet bind]; rewrite ?Fv; cbn [bind]; rewrite <- ?map_rev, ?RR, ?rev_involutive, ?RR; reflexivity.
  Qed.
End Real.
