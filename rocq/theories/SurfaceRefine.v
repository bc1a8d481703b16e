(** * Knot refinement, splitting and iso-parametric curves of surfaces (C48) *)
From Coq Require Import Reals Lra Lia ZArith Bool Sorted Permutation.
From Verif Require Import Base BaseFacts Scalar RSum BSplineSpec BSpline KnotModel KnotSpec KnotFacts KnotMisc
  KnotProofs VecFacts MiscModel MiscProofs CurveModel CurveKnotModel CurveSpec CurveProofs CurveGeom CurveGeom2 Boehm Refine
  SplitProofs SurfaceModel SurfaceSpec SurfaceProofs SurfaceSample SurfaceDeriv.
Open Scope R_scope.

(** the curve in one direction through a line (row or column) of the net *)
Definition lcurve (D p : nat) (k : list R) (line : list (list R)) : Curve R := MkCurve D p line k.

Lemma mapM_nth {A B} (f : A -> Res B) (l : list A) (a : A) (b : B) (P : nat -> B -> Prop) :
  (forall i, (i < length l)%nat -> exists y, f (nth i l a) = Ok y /\ P i y) ->
  exists r, mapM f l = Ok r /\ length r = length l /\ forall i, (i < length l)%nat -> P i (nth i r b).
Proof.
  revert P. induction l as [|x l IH]; intros P HP.
  - exists []. repeat split. intros; cbn in *; lia.
  - destruct (HP 0%nat ltac:(cbn; lia)) as (y & Ey & Py). cbn [nth] in Ey.
    destruct (IH (fun i => P (S i))) as (r & Er & Lr & Pr).
    { intros i Hi. apply (HP (S i)). cbn; lia. }
    exists (y :: r). cbn [mapM]. rewrite Ey. cbn [bind]. rewrite Er. cbn [bind]. split; [reflexivity|].
    split; [cbn; lia|]. intros [|i] Hi; [exact Py|]. apply Pr. cbn in Hi; lia.
Qed.

Section Real.
  Variables eps maxv : R.
  Local Hint Extern 0 (Scalar R) => exact (ROps eps maxv) : typeclass_instances.

  (** ** Equal homogeneous coordinates give equal points *)
  Lemma surf_same_point s s' u v : surf_ok s -> surf_ok s' -> surf_eps eps s -> surf_eps eps s' ->
    sdim s' = sdim s -> in_dom s u v -> in_dom s' u v ->
    (forall i, shcoord s' i u v = shcoord s i u v) ->
    surf_point_at s' u v = surf_point_at s u v.
  Proof.
    intros H H' He He' ED Hd Hd' Hh.
    destruct (surf_point_spec eps maxv s u v H He Hd) as (p & E & L & V).
    destruct (surf_point_spec eps maxv s' u v H' He' Hd') as (p' & E' & L' & V').
    assert (p' = p) as ->.
    { apply (vec_ext p' p (sdim s)); auto; [lia|]. intros i Hi. now rewrite V, V', Hh. }
    unfold surf_point_at. now rewrite E, E', ED.
  Qed.

  Lemma rows_same s s' i u v : surf_ok s -> surf_ok s' -> suk s' = suk s -> sdu s' = sdu s -> nrow s' = nrow s ->
    (forall a, (a < nrow s)%nat -> hcoord (vrow s' a) i v = hcoord (vrow s a) i v) ->
    shcoord s' i u v = shcoord s i u v.
  Proof.
    intros H H' E1 E2 E3 Hh. rewrite !shcoord_rows by auto. rewrite E3. apply rsum_ext. intros a Ha.
    rewrite Hh by auto. unfold Nu, u1. now rewrite E1, E2, E3.
  Qed.
  Lemma cols_same s s' i u v : surf_ok s -> surf_ok s' -> svk s' = svk s -> sdv s' = sdv s -> ncol s' = ncol s ->
    (forall b, (b < ncol s)%nat -> hcoord (ucol s' b) i u = hcoord (ucol s b) i u) ->
    shcoord s' i u v = shcoord s i u v.
  Proof.
    intros H H' E1 E2 E3 Hh. rewrite !shcoord_cols by auto. rewrite E3. apply rsum_ext. intros b Hb.
    rewrite Hh by auto. unfold Nv, v1. now rewrite E1, E2, E3.
  Qed.

  (** ** A surface from its row or column curves *)
  Section Lines.
    Variables (D p : nat) (k : list R) (m : nat).
    Variable cs : list (Curve R).
    Hypothesis Hne : cs <> [].
    Hypothesis Hcs : forall a, (a < length cs)%nat -> forall c, c = nth a cs (lcurve 0 0 [] []) ->
      cdim c = D /\ cdeg c = p /\ cknots c = k /\ length (cpts c) = m /\ curve_ok c /\ curve_eps eps c.

    Let c0 := nth 0 cs (lcurve 0 0 [] []).
    Lemma cs_len : (0 < length cs)%nat.
    Proof. destruct cs; [contradiction|cbn; lia]. Qed.

    Lemma lines_nth a : (a < length cs)%nat -> nth a (map cpts cs) [] = cpts (nth a cs (lcurve 0 0 [] [])).
    Proof. intros Ha. now rewrite (nth_map_lt cpts cs a (lcurve 0 0 [] []) []) by auto. Qed.

    Lemma lines_curve a : (a < length cs)%nat ->
      MkCurve D p (nth a (map cpts cs) []) k = nth a cs (lcurve 0 0 [] []).
    Proof.
      intros Ha. rewrite lines_nth by auto. destruct (Hcs a Ha _ eq_refl) as (<- & <- & <- & _).
      now destruct (nth a cs (lcurve 0 0 [] [])).
    Qed.

    Lemma lines_rect : rect (length cs) m (map cpts cs).
    Proof.
      split; [apply map_length|]. apply Forall_map, Forall_forall. intros c Hc.
      destruct (In_nth cs c (lcurve 0 0 [] []) Hc) as (a & Ha & <-). now apply (Hcs a Ha _ eq_refl).
    Qed.

    Lemma lines_pts : Forall (Forall (fun q => length q = D)) (map cpts cs).
    Proof.
      apply Forall_map, Forall_forall. intros c Hc.
      destruct (In_nth cs c (lcurve 0 0 [] []) Hc) as (a & Ha & <-).
      destruct (Hcs a Ha _ eq_refl) as (<- & _ & _ & _ & Ho & _). apply Ho.
    Qed.

    Lemma lines_knots : (p < m)%nat /\ knots_ok p (m - 1) k /\ eps_ok eps p (m - 1) k /\ (1 <= D)%nat.
    Proof.
      destruct (Hcs 0 cs_len _ eq_refl) as (E1 & E2 & E3 & E4 & Ho & He).
      fold c0 in E1, E2, E3, E4, Ho, He. destruct Ho as [O1 O2 O3 O4]. unfold curve_eps, clast in *.
      rewrite E1, E2, E3, E4 in *. repeat split; auto; apply O4 || apply He.
    Qed.

    Lemma surf_of_rows du uk : (du < length cs)%nat -> knots_ok du (length cs - 1) uk ->
      eps_ok eps du (length cs - 1) uk ->
      let s' := MkSurf D du p uk k (map cpts cs) in
      surf_ok s' /\ surf_eps eps s' /\ nrow s' = length cs /\ ncol s' = m /\
      forall a, (a < length cs)%nat -> vrow s' a = nth a cs (lcurve 0 0 [] []).
    Proof.
      intros Hd Hk Hke s'. destruct lines_rect as (R1 & R2). destruct lines_knots as (K1 & K2 & K3 & K4).
      assert (En : nrow s' = length cs) by exact R1.
      assert (Ec : ncol s' = m).
      { unfold ncol, s'. cbn [snet]. rewrite Forall_forall in R2. apply R2, nth_In. rewrite R1. apply cs_len. }
      split; [|split; [|split; [|split]]]; auto.
      - constructor; cbn [s' sdim sdu sdv suk svk snet]; fold s'; rewrite ?En, ?Ec; auto. apply lines_pts.
      - split; cbn [s' sdu sdv suk svk]; fold s'; rewrite ?En, ?Ec; auto.
      - intros a Ha. unfold vrow, s'. cbn [sdim sdv snet svk]. now apply lines_curve.
    Qed.

    Lemma surf_of_cols dv vk : (dv < length cs)%nat -> knots_ok dv (length cs - 1) vk ->
      eps_ok eps dv (length cs - 1) vk ->
      exists net, transpose (map cpts cs) = Ok net /\
      let s' := MkSurf D p dv k vk net in
      surf_ok s' /\ surf_eps eps s' /\ nrow s' = m /\ ncol s' = length cs /\
      forall b, (b < length cs)%nat -> ucol s' b = nth b cs (lcurve 0 0 [] []).
    Proof.
      intros Hd Hk Hke. pose proof lines_rect as R. destruct lines_knots as (K1 & K2 & K3 & K4).
      pose proof cs_len as Lc.
      destruct (transpose_spec [] (length cs) m (map cpts cs) ltac:(lia) R) as (net & E & (T1 & T2) & N).
      exists net. split; [exact E|]. intros s'.
      assert (En : nrow s' = m) by exact T1.
      assert (Ec : ncol s' = length cs).
      { unfold ncol, s'. cbn [snet]. rewrite Forall_forall in T2. apply T2, nth_In. lia. }
      assert (PT : Forall (Forall (fun q => length q = D)) net).
      { apply Forall_forall. intros row Hr. destruct (In_nth net row [] Hr) as (j & Hj & <-).
        apply Forall_forall. intros q Hq. destruct (In_nth _ q [] Hq) as (i & Hi & <-).
        rewrite Forall_forall in T2. rewrite (T2 _ (nth_In _ _ Hj)) in Hi.
        rewrite N by lia. pose proof lines_pts as P. destruct R as (R1 & R2).
        assert (Hi' : (i < length (map cpts cs))%nat) by lia.
        rewrite Forall_forall in P. specialize (P (nth i (map cpts cs) []) (nth_In _ _ Hi')).
        rewrite Forall_forall in P. apply P, nth_In. rewrite Forall_forall in R2. rewrite R2 by (apply nth_In; lia). lia. }
      split; [|split; [|split; [|split]]]; auto.
      - constructor; cbn [s' sdim sdu sdv suk svk snet]; fold s'; rewrite ?En, ?Ec; auto.
      - split; cbn [s' sdu sdv suk svk]; fold s'; rewrite ?En, ?Ec; auto.
      - intros b Hb. rewrite <- (lines_curve b Hb). unfold ucol, s'. cbn [sdim sdu snet suk]. f_equal.
        destruct R as (R1 & R2).
        assert (Lb : length (nth b (map cpts cs) []) = m) by (rewrite Forall_forall in R2; apply R2, nth_In; lia).
        apply (list_ext []); [rewrite map_length; lia|]. rewrite map_length. intros i Hi.
        rewrite (nth_map_lt (fun row => nth b row []) _ _ [] []) by auto. apply N; lia.
    Qed.
  End Lines.

  (** ** Refining all the lines with the same knots *)
  Local Notation dc := (lcurve 0 0 [] []).

  Lemma refine_ok_transfer c c' xs : cknots c' = cknots c -> dom0 c' = dom0 c -> dom1 c' = dom1 c ->
    refine_ok eps c xs -> refine_ok eps c' xs.
  Proof. intros E1 E2 E3 [R1 R2 R3]. constructor; rewrite ?E1, ?E2, ?E3; auto. Qed.

  Lemma refine_lines D p k m xs (lines : list (list (list R))) : lines <> [] ->
    (forall a, (a < length lines)%nat -> length (nth a lines []) = m /\
       curve_ok (lcurve D p k (nth a lines [])) /\ curve_eps eps (lcurve D p k (nth a lines []))) ->
    refine_ok eps (lcurve D p k (nth 0 lines [])) xs ->
    exists cs k', mapM (refine_row D p k xs) lines = Ok cs /\ length cs = length lines /\
      Permutation k' (k ++ xs) /\ Sorted Rle k' /\
      forall a, (a < length lines)%nat ->
        cdim (nth a cs dc) = D /\ cdeg (nth a cs dc) = p /\ cknots (nth a cs dc) = k' /\
        length (cpts (nth a cs dc)) = (m + length xs)%nat /\
        same_curve (lcurve D p k (nth a lines [])) (nth a cs dc) /\
        (inside (lcurve D p k (nth 0 lines [])) xs -> curve_ok (nth a cs dc) /\ curve_eps eps (nth a cs dc)).
  Proof.
    intros Hne Hl Hr. assert (L0 : (0 < length lines)%nat) by (destruct lines; [contradiction|cbn; lia]).
    destruct (Hl 0%nat L0) as (M0 & _).
    destruct (mapM_nth (refine_row D p k xs) lines [] dc (fun a c' =>
        cdim c' = D /\ cdeg c' = p /\ length (cpts c') = (m + length xs)%nat /\
        Permutation (cknots c') (k ++ xs) /\ Sorted Rle (cknots c') /\
        same_curve (lcurve D p k (nth a lines [])) c' /\
        (inside (lcurve D p k (nth 0 lines [])) xs -> curve_ok c' /\ curve_eps eps c')))
      as (cs & E & L & V).
    { intros a Ha. destruct (Hl a Ha) as (Ma & Oa & Ea). set (c := lcurve D p k (nth a lines [])) in *.
      assert (Hr' : refine_ok eps c xs).
      { apply (refine_ok_transfer (lcurve D p k (nth 0 lines []))); auto; unfold dom0, dom1; cbn [lcurve c cpts cdeg cknots];
          now rewrite ?M0, ?Ma. }
      unfold refine_row. rewrite try_new_sorted.
      2:{ apply (co_len c Oa). } 2:{ apply (curve_len c Oa). } 2:{ apply (ko_sorted _ _ _ (co_knots c Oa)). }
      cbn [bind]. change (MkCurve D p (nth a lines []) k) with c.
      destruct (refine_spec eps maxv c xs Oa Ea Hr') as (c' & E & Sc & In & Pm & Lc).
      exists c'. split; [exact E|]. split; [apply (sc_dim _ _ Sc)|]. split; [apply (sc_deg _ _ Sc)|].
      split; [rewrite Lc; unfold c; cbn [lcurve cpts]; now rewrite Ma|]. split; [exact Pm|].
      split; [apply (wf_sorted _ (sc_wf _ _ Sc))|]. split; [exact Sc|]. intros Hin. apply In.
      unfold inside in *. eapply Forall_impl; [|exact Hin]. intros x Hx. unfold dom0, dom1 in *.
      unfold c. cbn [lcurve cpts cdeg cknots] in *. now rewrite Ma, <- M0. }
    exists cs, (cknots (nth 0 cs dc)). split; [exact E|]. split; [exact L|].
    destruct (V 0%nat L0) as (_ & _ & _ & P0 & S0 & _). split; [exact P0|]. split; [exact S0|].
    intros a Ha. destruct (V a Ha) as (V1 & V2 & V3 & V4 & V5 & V6 & V7).
    split; [exact V1|]. split; [exact V2|]. split.
    { apply sorted_perm_eq; auto. eapply Permutation_trans; [exact V4|]. now apply Permutation_sym. }
    auto.
  Qed.

  (** ** [try_refine_knot] leaves the surface unchanged *)
  Lemma net_ne s : surf_ok s -> snet s <> [].
  Proof. intros H E. pose proof (so_u s H) as Hu. unfold nrow in Hu. rewrite E in Hu. cbn in Hu. lia. Qed.

  Lemma surf_refine_v_lines s xs : surf_ok s -> surf_eps eps s ->
    refine_ok eps (vrow s 0) xs -> inside (vrow s 0) xs ->
    exists s', surf_refine s xs DirV = Ok s' /\ surf_ok s' /\ surf_eps eps s' /\
      sdim s' = sdim s /\ sdu s' = sdu s /\ sdv s' = sdv s /\ suk s' = suk s /\
      Permutation (svk s') (svk s ++ xs) /\ nrow s' = nrow s /\ ncol s' = (ncol s + length xs)%nat /\
      v0 s' = v0 s /\ v1 s' = v1 s /\
      (forall a, (a < nrow s)%nat -> same_curve (vrow s a) (vrow s' a)) /\
      forall u v, in_dom s u v ->
        (forall i, shcoord s' i u v = shcoord s i u v) /\ surf_point_at s' u v = surf_point_at s u v.
  Proof.
    intros H He Hr Hin. pose proof (so_u s H) as Hu. pose proof (so_v s H) as Hv.
    destruct (refine_lines (sdim s) (sdv s) (svk s) (ncol s) xs (snet s)) as (cs & k' & E & L & Pk & Sk & V).
    { now apply net_ne. }
    { intros a Ha. split; [now apply row_len|]. split; [now apply vrow_ok|now apply vrow_eps]. }
    { exact Hr. }
    fold (nrow s) in L, V.
    assert (Hcs : cs <> []) by (intros ->; cbn in L; lia).
    assert (Hc : forall a, (a < length cs)%nat -> forall c, c = nth a cs dc ->
      cdim c = sdim s /\ cdeg c = sdv s /\ cknots c = k' /\ length (cpts c) = (ncol s + length xs)%nat /\
      curve_ok c /\ curve_eps eps c).
    { intros a Ha c ->. destruct (V a ltac:(lia)) as (V1 & V2 & V3 & V4 & V5 & V6). specialize (V6 Hin). tauto. }
    destruct (surf_of_rows (sdim s) (sdv s) k' (ncol s + length xs) cs Hcs Hc (sdu s) (suk s)) as (O & Oe & On & Oc & Or).
    { lia. } { rewrite L. apply H. } { rewrite L. apply He. }
    unfold surf_refine. rewrite E. cbn [bind].
    destruct cs as [|c1 cs']; [contradiction|]. cbn [hd_error option_map ok_or bind].
    destruct (Hc 0%nat ltac:(cbn; lia) c1 eq_refl) as (_ & _ & Ek & _). rewrite Ek.
    set (cs := c1 :: cs') in *. set (s' := MkSurf (sdim s) (sdu s) (sdv s) (suk s) k' (map cpts cs)) in *.
    assert (Hsame : forall a, (a < nrow s)%nat -> same_curve (vrow s a) (vrow s' a)).
    { intros a Ha. rewrite Or by lia. now apply V. }
    assert (Dv : v0 s' = v0 s /\ v1 s' = v1 s).
    { destruct (vrow_dom s 0 H ltac:(lia)) as (<- & <-). destruct (vrow_dom s' 0 O ltac:(lia)) as (<- & <-).
      pose proof (Hsame 0%nat ltac:(lia)) as S0. split; apply S0. }
    assert (Du : u0 s' = u0 s /\ u1 s' = u1 s).
    { unfold u0, u1. rewrite On, L. split; reflexivity. }
    exists s'. split; [reflexivity|]. split; [exact O|]. split; [exact Oe|].
    split; [reflexivity|]. split; [reflexivity|]. split; [reflexivity|]. split; [reflexivity|].
    split; [exact Pk|]. split; [lia|]. split; [exact Oc|]. split; [apply Dv|]. split; [apply Dv|].
    split; [exact Hsame|].
    intros u v Hd.
    assert (Hh : forall i, shcoord s' i u v = shcoord s i u v).
    { intros i. apply rows_same; auto; [lia|]. intros a Ha. apply same_hcoord.
      - now apply vrow_ok. - apply vrow_ok; auto. lia. - now apply Hsame.
      - destruct (vrow_dom s a H Ha) as (-> & ->). apply Hd. }
    split; [exact Hh|]. apply surf_same_point; auto.
    unfold in_dom. destruct Dv as (-> & ->). destruct Du as (-> & ->). exact Hd.
  Qed.

  Theorem surf_refine_v s xs : surf_ok s -> surf_eps eps s ->
    refine_ok eps (vrow s 0) xs -> inside (vrow s 0) xs ->
    exists s', surf_refine s xs DirV = Ok s' /\ surf_ok s' /\ surf_eps eps s' /\
      sdim s' = sdim s /\ sdu s' = sdu s /\ sdv s' = sdv s /\ suk s' = suk s /\
      Permutation (svk s') (svk s ++ xs) /\ nrow s' = nrow s /\ ncol s' = (ncol s + length xs)%nat /\
      v0 s' = v0 s /\ v1 s' = v1 s /\
      forall u v, in_dom s u v ->
        (forall i, shcoord s' i u v = shcoord s i u v) /\ surf_point_at s' u v = surf_point_at s u v.
  Proof.
    intros H He Hr Hin. destruct (surf_refine_v_lines s xs H He Hr Hin) as (s' & A1 & A2 & A3 & A4 & A5 & A6 & A7 & A8 & A9 & A10 & A11 & A12 & _ & A13).
    exists s'. repeat (split; [assumption|]). exact A13.
  Qed.

  Lemma net_cols s : surf_ok s -> exists cols, transpose (snet s) = Ok cols /\ length cols = ncol s /\
    forall b, (b < ncol s)%nat -> length (nth b cols []) = nrow s /\ lcurve (sdim s) (sdu s) (suk s) (nth b cols []) = ucol s b.
  Proof.
    intros H. pose proof (so_u s H) as Hu.
    destruct (transpose_spec [] (nrow s) (ncol s) (snet s) ltac:(lia)) as (cols & E & (T1 & T2) & N).
    { split; [reflexivity|apply H]. }
    exists cols. split; [exact E|]. split; [exact T1|]. intros b Hb.
    assert (Lb : length (nth b cols []) = nrow s) by (rewrite Forall_forall in T2; apply T2, nth_In; lia).
    split; [exact Lb|]. unfold lcurve, ucol. f_equal.
    apply (list_ext []); [rewrite map_length; exact Lb|]. intros i Hi.
    rewrite (nth_map_lt (fun row => nth b row []) _ _ [] []) by (fold (nrow s); lia). apply N; lia.
  Qed.

  Lemma surf_refine_u_lines s xs : surf_ok s -> surf_eps eps s ->
    refine_ok eps (ucol s 0) xs -> inside (ucol s 0) xs ->
    exists s', surf_refine s xs DirU = Ok s' /\ surf_ok s' /\ surf_eps eps s' /\
      sdim s' = sdim s /\ sdu s' = sdu s /\ sdv s' = sdv s /\ svk s' = svk s /\
      Permutation (suk s') (suk s ++ xs) /\ nrow s' = (nrow s + length xs)%nat /\ ncol s' = ncol s /\
      u0 s' = u0 s /\ u1 s' = u1 s /\
      (forall b, (b < ncol s)%nat -> same_curve (ucol s b) (ucol s' b)) /\
      forall u v, in_dom s u v ->
        (forall i, shcoord s' i u v = shcoord s i u v) /\ surf_point_at s' u v = surf_point_at s u v.
  Proof.
    intros H He Hr Hin. pose proof (so_u s H) as Hu. pose proof (so_v s H) as Hv.
    destruct (net_cols s H) as (cols & Ec & Lc & Vc).
    destruct (refine_lines (sdim s) (sdu s) (suk s) (nrow s) xs cols) as (cs & k' & E & L & Pk & Sk & V).
    { intros ->. cbn in Lc. lia. }
    { intros b Hb. destruct (Vc b ltac:(lia)) as (L1 & ->). split; [exact L1|].
      split; [apply ucol_ok; auto; lia|now apply ucol_eps]. }
    { destruct (Vc 0%nat ltac:(lia)) as (_ & ->). exact Hr. }
    rewrite Lc in L, V. destruct (Vc 0%nat ltac:(lia)) as (_ & Ec0). rewrite Ec0 in V.
    assert (Hcs : cs <> []) by (intros ->; cbn in L; lia).
    assert (Hc : forall a, (a < length cs)%nat -> forall c, c = nth a cs dc ->
      cdim c = sdim s /\ cdeg c = sdu s /\ cknots c = k' /\ length (cpts c) = (nrow s + length xs)%nat /\
      curve_ok c /\ curve_eps eps c).
    { intros a Ha c ->. destruct (V a ltac:(lia)) as (V1 & V2 & V3 & V4 & V5 & V6). specialize (V6 Hin). tauto. }
    destruct (surf_of_cols (sdim s) (sdu s) k' (nrow s + length xs) cs Hcs Hc (sdv s) (svk s))
      as (net & En & O & Oe & On & Oc & Or).
    { lia. } { rewrite L. apply H. } { rewrite L. apply He. }
    unfold surf_refine. rewrite Ec. cbn [bind]. rewrite E. cbn [bind].
    destruct cs as [|c1 cs']; [contradiction|]. cbn [hd_error option_map ok_or bind].
    destruct (Hc 0%nat ltac:(cbn; lia) c1 eq_refl) as (_ & _ & Ek & _). rewrite Ek. cbn [bind].
    set (cs := c1 :: cs') in *. rewrite En. cbn [bind].
    set (s' := MkSurf (sdim s) (sdu s) (sdv s) k' (svk s) net) in *.
    assert (Hsame : forall b, (b < ncol s)%nat -> same_curve (ucol s b) (ucol s' b)).
    { intros b Hb. rewrite Or by lia. destruct (Vc b Hb) as (_ & <-). now apply V. }
    assert (Du : u0 s' = u0 s /\ u1 s' = u1 s).
    { destruct (ucol_dom s 0) as (<- & <-). destruct (ucol_dom s' 0) as (<- & <-).
      pose proof (Hsame 0%nat ltac:(lia)) as S0. split; apply S0. }
    assert (Dv : v0 s' = v0 s /\ v1 s' = v1 s).
    { unfold v0, v1. rewrite Oc, L. split; reflexivity. }
    exists s'. split; [reflexivity|]. split; [exact O|]. split; [exact Oe|].
    split; [reflexivity|]. split; [reflexivity|]. split; [reflexivity|]. split; [reflexivity|].
    split; [exact Pk|]. split; [exact On|]. split; [lia|]. split; [apply Du|]. split; [apply Du|].
    split; [exact Hsame|].
    intros u v Hd.
    assert (Hh : forall i, shcoord s' i u v = shcoord s i u v).
    { intros i. apply cols_same; auto; [lia|]. intros b Hb. apply same_hcoord.
      - now apply ucol_ok. - apply ucol_ok; auto. lia. - now apply Hsame.
      - destruct (ucol_dom s b) as (-> & ->). apply Hd. }
    split; [exact Hh|]. apply surf_same_point; auto.
    unfold in_dom. destruct Dv as (-> & ->). destruct Du as (-> & ->). exact Hd.
  Qed.

  Theorem surf_refine_u s xs : surf_ok s -> surf_eps eps s ->
    refine_ok eps (ucol s 0) xs -> inside (ucol s 0) xs ->
    exists s', surf_refine s xs DirU = Ok s' /\ surf_ok s' /\ surf_eps eps s' /\
      sdim s' = sdim s /\ sdu s' = sdu s /\ sdv s' = sdv s /\ svk s' = svk s /\
      Permutation (suk s') (suk s ++ xs) /\ nrow s' = (nrow s + length xs)%nat /\ ncol s' = ncol s /\
      u0 s' = u0 s /\ u1 s' = u1 s /\
      forall u v, in_dom s u v ->
        (forall i, shcoord s' i u v = shcoord s i u v) /\ surf_point_at s' u v = surf_point_at s u v.
  Proof.
    intros H He Hr Hin. destruct (surf_refine_u_lines s xs H He Hr Hin) as (s' & A1 & A2 & A3 & A4 & A5 & A6 & A7 & A8 & A9 & A10 & A11 & A12 & _ & A13).
    exists s'. repeat (split; [assumption|]). exact A13.
  Qed.
End Real.
