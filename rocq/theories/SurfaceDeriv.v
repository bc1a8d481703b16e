(** * Partial derivatives of surfaces (C48) *)
From Coq Require Import Reals Lra Lia ZArith Bool.
From Verif Require Import Base BaseFacts Scalar RSum BSplineSpec BSpline BSplineDeriv KnotModel KnotSpec KnotFacts
  KnotProofs VecFacts MiscModel CurveModel CurveSpec CurveProofs CurveGeom CurveShapes DerivKnot CurveDeriv
  SurfaceModel SurfaceSpec SurfaceProofs SurfaceSample.
Open Scope R_scope.

(** ** Specification: a family of partial derivatives on a rectangle.  [F 0 0] is [f] inside, and
    [F (k+1) l], [F k (l+1)] are the partial derivatives of [F k l]. *)
Definition partial_chain (a b c d : R) (f : R -> R -> R) (F : nat -> nat -> R -> R -> R) : Prop :=
  (forall u v, a <= u < b -> c <= v < d -> F 0%nat 0%nat u v = f u v) /\
  (forall k l u v, a <= u <= b -> c <= v <= d ->
     derivable_pt_lim (fun x => F k l x v) u (F (S k) l u v) /\
     derivable_pt_lim (fun y => F k l u y) v (F k (S l) u v)).

(** entry (k, l) of a table of vectors *)
Definition ent (m : list (list (list R))) (k l : nat) : list R := nth l (nth k m []) [].
Definition tab_ok (r c D : nat) (m : list (list (list R))) : Prop :=
  length m = r /\ forall k, (k < r)%nat -> length (nth k m []) = c /\
    forall l, (l < c)%nat -> length (ent m k l) = D.

Lemma tab_repeat r c D (z : list R) : length z = D -> tab_ok r c D (repeat (repeat z c) r) /\
  forall k l, (k < r)%nat -> (l < c)%nat -> ent (repeat (repeat z c) r) k l = z.
Proof.
  intros Hz.
  assert (E : forall k l, (k < r)%nat -> (l < c)%nat -> ent (repeat (repeat z c) r) k l = z).
  { intros k l Hk Hl. unfold ent. rewrite nth_repeat_lt by auto. now rewrite nth_repeat_lt by auto. }
  split; [|exact E]. split; [apply repeat_length|]. intros k Hk. split.
  - rewrite nth_repeat_lt by auto. apply repeat_length.
  - intros l Hl. now rewrite E.
Qed.

Lemma tab_set r c D m k l x : tab_ok r c D m -> (k < r)%nat -> (l < c)%nat -> length x = D ->
  tab_ok r c D (upd m k (upd (nth k m []) l x)) /\
  forall k' l', (k' < r)%nat -> (l' < c)%nat ->
    ent (upd m k (upd (nth k m []) l x)) k' l' = if (k' =? k)%nat && (l' =? l)%nat then x else ent m k' l'.
Proof.
  intros (H1 & H2) Hk Hl Hx.
  assert (E : forall k' l', (k' < r)%nat -> (l' < c)%nat ->
    ent (upd m k (upd (nth k m []) l x)) k' l' = if (k' =? k)%nat && (l' =? l)%nat then x else ent m k' l').
  { intros k' l' Hk' Hl'. unfold ent. destruct (Nat.eqb_spec k' k) as [->|].
    - rewrite nth_upd_same by lia. destruct (H2 k Hk) as (Lr & _).
      destruct (Nat.eqb_spec l' l) as [->|]; cbn [andb].
      + now rewrite nth_upd_same by lia.
      + now rewrite nth_upd_other by lia.
    - cbn [andb]. now rewrite nth_upd_other by lia. }
  split; [|exact E]. split; [now rewrite upd_length|]. intros k' Hk'. split.
  - destruct (Nat.eq_dec k' k) as [->|].
    + rewrite nth_upd_same by lia. rewrite upd_length. now apply H2.
    + rewrite nth_upd_other by lia. now apply H2.
  - intros l' Hl'. rewrite E by auto. destruct ((k' =? k)%nat && (l' =? l)%nat); [exact Hx|].
    now apply H2.
Qed.

(** the (k, l) partial derivative of a coordinate on the spans (su, sv) *)
Definition dsurf (s : Surf R) (su sv i k l : nat) (u v : R) : R :=
  rsum (nrow s) (fun a => rsum (ncol s) (fun b =>
    dbs (kf (suk s)) su (sdu s) k a u * dbs (kf (svk s)) sv (sdv s) l b v * spc s i a b)).

Lemma dsurf_high s su sv i k l u v : (sdu s < k \/ sdv s < l)%nat -> dsurf s su sv i k l u v = 0.
Proof.
  intros H. unfold dsurf. apply rsum_0. intros a Ha. apply rsum_0. intros b Hb.
  destruct H as [H|H].
  - unfold dbs at 1. rewrite falling_0 by auto. ring.
  - unfold dbs at 2. rewrite falling_0 by auto. ring.
Qed.

Lemma dsurf_window s su sv i k l u v : (k <= sdu s)%nat -> (l <= sdv s)%nat ->
  (sdu s <= su)%nat -> (su < nrow s)%nat -> (sdv s <= sv)%nat -> (sv < ncol s)%nat ->
  dsurf s su sv i k l u v =
  rsum (S (sdv s)) (fun j =>
    rsum (S (sdu s)) (fun r => dbs (kf (suk s)) su (sdu s) k (su - sdu s + r) u
                               * spc s i (su - sdu s + r) (sv - sdv s + j))
    * dbs (kf (svk s)) sv (sdv s) l (sv - sdv s + j) v).
Proof.
  intros Hk Hl H1 H2 H3 H4. unfold dsurf. rewrite rsum_swap.
  rewrite (rsum_window (ncol s) (sv - sdv s) (S (sdv s))).
  - apply rsum_ext. intros j Hj.
    rewrite (rsum_window (nrow s) (su - sdu s) (S (sdu s))).
    + rewrite <- rsum_scal_r. apply rsum_ext. intros r Hr. ring.
    + lia.
    + intros a Ha Hor. rewrite (dbs_support _ su) by lia. ring.
  - lia.
  - intros b Hb Hor. apply rsum_0. intros a Ha. rewrite (dbs_support _ sv) by lia. ring.
Qed.

Lemma dsurf_0 s su sv i u v : surf_ok s ->
  (sdu s <= su <= nrow s - 1)%nat -> (sdv s <= sv <= ncol s - 1)%nat ->
  in_span (suk s) (nrow s - 1) su u -> in_span (svk s) (ncol s - 1) sv v ->
  dsurf s su sv i 0 0 u v = shcoord s i u v.
Proof.
  intros H Hsu Hsv Iu Iv. pose proof (so_u s H). pose proof (so_v s H). rewrite <- (win2_full s i su sv u v) by auto.
  rewrite dsurf_window by lia. unfold win2. apply rsum_ext. intros j Hj. rewrite dbs_0. f_equal.
  apply rsum_ext. intros r Hr. now rewrite dbs_0.
Qed.

Lemma dsurf_deriv_u s su sv i k l u v : mono (kf (suk s)) ->
  derivable_pt_lim (fun x => dsurf s su sv i k l x v) u (dsurf s su sv i (S k) l u v).
Proof.
  intros Hm. unfold dsurf.
  apply (derivable_rsum _ (fun a x => rsum (ncol s) (fun b =>
    dbs (kf (suk s)) su (sdu s) k a x * dbs (kf (svk s)) sv (sdv s) l b v * spc s i a b))
    (fun a x => rsum (ncol s) (fun b =>
    dbs (kf (suk s)) su (sdu s) (S k) a x * dbs (kf (svk s)) sv (sdv s) l b v * spc s i a b))).
  intros a Ha.
  apply (derivable_rsum _ (fun b x =>
    dbs (kf (suk s)) su (sdu s) k a x * dbs (kf (svk s)) sv (sdv s) l b v * spc s i a b)
    (fun b x =>
    dbs (kf (suk s)) su (sdu s) (S k) a x * dbs (kf (svk s)) sv (sdv s) l b v * spc s i a b)).
  intros b Hb.
  pose proof (derivable_pt_lim_scal _ (dbs (kf (svk s)) sv (sdv s) l b v * spc s i a b) u _
    (dbs_deriv _ su (sdu s) k a u Hm)) as D.
  match type of D with derivable_pt_lim _ _ ?x => match goal with |- derivable_pt_lim _ _ ?y =>
    replace y with x by ring end end.
  eapply derivable_pt_lim_ext; [|exact D]. intros x. unfold mult_real_fct. ring.
Qed.
Lemma dsurf_deriv_v s su sv i k l u v : mono (kf (svk s)) ->
  derivable_pt_lim (fun y => dsurf s su sv i k l u y) v (dsurf s su sv i k (S l) u v).
Proof.
  intros Hm. unfold dsurf.
  apply (derivable_rsum _ (fun a x => rsum (ncol s) (fun b =>
    dbs (kf (suk s)) su (sdu s) k a u * dbs (kf (svk s)) sv (sdv s) l b x * spc s i a b))
    (fun a x => rsum (ncol s) (fun b =>
    dbs (kf (suk s)) su (sdu s) k a u * dbs (kf (svk s)) sv (sdv s) (S l) b x * spc s i a b))).
  intros a Ha.
  apply (derivable_rsum _ (fun b x =>
    dbs (kf (suk s)) su (sdu s) k a u * dbs (kf (svk s)) sv (sdv s) l b x * spc s i a b)
    (fun b x =>
    dbs (kf (suk s)) su (sdu s) k a u * dbs (kf (svk s)) sv (sdv s) (S l) b x * spc s i a b)).
  intros b Hb.
  pose proof (derivable_pt_lim_scal _ (dbs (kf (suk s)) su (sdu s) k a u * spc s i a b) v _
    (dbs_deriv _ sv (sdv s) l b v Hm)) as D.
  match type of D with derivable_pt_lim _ _ ?x => match goal with |- derivable_pt_lim _ _ ?y =>
    replace y with x by ring end end.
  eapply derivable_pt_lim_ext; [|exact D]. intros x. unfold mult_real_fct. ring.
Qed.

Section Real.
  Variables eps maxv : R.
  Local Hint Extern 0 (Scalar R) => exact (ROps eps maxv) : typeclass_instances.

  Lemma surf_uder_spec s ui vi (bu : list (list R)) m k j : surf_ok s ->
    (ui + sdu s < nrow s)%nat -> (vi + j < ncol s)%nat -> shape (S m) (S (sdu s)) bu -> (k <= m)%nat ->
    exists q, surf_uder s ui vi bu k j = Ok q /\ length q = sdim s /\
      forall i, rc i q = rsum (S (sdu s)) (fun r => at2 bu k r * spc s i (ui + r) (vi + j)).
  Proof.
    intros H Hu Hv Sh Hk. unfold surf_uder.
    match goal with |- context [for_incl 0 (sdu s) ?g _] => set (g' := g) end.
    destruct (for_incl_rule
      (fun r tmp => length tmp = sdim s /\ forall i, rc i tmp =
         rsum r (fun r => at2 bu k r * spc s i (ui + r) (vi + j)))
      0 (sdu s) g' (vzero (sdim s))) as (q & Eq & Lq & Hq).
    - lia.
    - split; [apply vzero_length|]. intros i. apply rc_vzero.
    - intros r tmp Hr (Lt & Ht). unfold g'.
      rewrite (get_ok (snet s) _ []) by (unfold nrow in Hu; lia). cbn [bind].
      rewrite (get_ok _ (vi + j) []) by (rewrite row_len by (auto; lia); lia). cbn [bind].
      rewrite (get2_ok (S m) (S (sdu s))) by (auto; lia). cbn [bind].
      assert (Lp : length (nth (vi + j) (nth (ui + r) (snet s) []) []) = sdim s) by (apply net_pt; auto; lia).
      eexists. split; [reflexivity|]. split.
      + apply vadd_length; [exact Lt|now apply vscale_length].
      + intros i. rewrite rc_vadd by (rewrite (vscale_length _ _ _ Lp); lia).
        rewrite rc_vscale, Ht. cbn [rsum]. unfold spc. lra.
    - exists q. auto.
  Qed.

  (** the column sums of one order in u *)
  Lemma surf_uders_spec s ui vi (bu : list (list R)) m k : surf_ok s ->
    (ui + sdu s < nrow s)%nat -> (vi + sdv s < ncol s)%nat -> shape (S m) (S (sdu s)) bu -> (k <= m)%nat ->
    exists temp, mapM (surf_uder s ui vi bu k) (seq 0 (sdv s + 1)) = Ok temp /\ length temp = S (sdv s) /\
      forall j, (j <= sdv s)%nat -> length (nth j temp []) = sdim s /\
        forall i, rc i (nth j temp []) = rsum (S (sdu s)) (fun r => at2 bu k r * spc s i (ui + r) (vi + j)).
  Proof.
    intros H Hu Hv Sh Hk.
    destruct (mapM_ex (surf_uder s ui vi bu k) (fun j q => length q = sdim s /\
      forall i, rc i q = rsum (S (sdu s)) (fun r => at2 bu k r * spc s i (ui + r) (vi + j)))
      (seq 0 (sdv s + 1))) as (temp & E & F).
    - intros j Hj. apply in_seq in Hj. apply (surf_uder_spec s ui vi bu m); auto; lia.
    - exists temp. split; [exact E|]. destruct (Forall2_seq_nth _ _ _ _ [] F) as (L & V).
      split; [lia|]. intros j Hj. apply (V j). lia.
  Qed.

  Lemma min_if a b : (if (a <? b)%nat then a else b) = Nat.min a b.
  Proof. destruct (Nat.ltb_spec a b); lia. Qed.

  (** the homogeneous partial derivatives on given spans *)
  Lemma surf_derivatives_piece s u v d su sv : surf_ok s -> surf_eps eps s ->
    find_span (suk s) (nrow s - 1) (sdu s) u = Ok su -> find_span (svk s) (ncol s - 1) (sdv s) v = Ok sv ->
    (sdu s <= su <= nrow s - 1)%nat -> (sdv s <= sv <= ncol s - 1)%nat ->
    kf (suk s) su < kf (suk s) (S su) -> kf (svk s) sv < kf (svk s) (S sv) ->
    exists ds, surf_derivatives s u v d = Ok ds /\ tab_ok (S d) (S d) (sdim s) ds /\
      forall k l, (k + l <= d)%nat -> forall i, rc i (ent ds k l) = dsurf s su sv i k l u v.
  Proof.
    intros H He Es Es' Hsu Hsv Nu Nv. pose proof (so_u s H) as Hu. pose proof (so_v s H) as Hv.
    pose proof (ko_len _ _ _ (so_uk s H)) as Lu. pose proof (ko_len _ _ _ (so_vk s H)) as Lv.
    unfold surf_derivatives. rewrite (klast_index_ok _ _ _ (so_uk s H)). cbn [bind].
    rewrite (klast_index_ok _ _ _ (so_vk s H)). cbn [bind]. rewrite Es, Es'. cbn [bind].
    rewrite !min_if.
    destruct (derivative_basis_spec eps maxv (suk s) su (sdu s) (nrow s - 1) u) as (bu & Eb & Shu & Vu); try lia; auto.
    { apply sorted_mono, (so_uk s H). }
    destruct (derivative_basis_spec eps maxv (svk s) sv (sdv s) (ncol s - 1) v) as (bv & Eb' & Shv & Vv); try lia; auto.
    { apply sorted_mono, (so_vk s H). }
    rewrite Eb. cbn [bind]. rewrite Eb'. cbn [bind].
    rewrite usub_ok by lia. cbn [bind]. rewrite usub_ok by lia. cbn [bind].
    set (du := Nat.min d (sdu s)). set (dv := Nat.min d (sdv s)).
    set (I := fun K (t : list (list (list R))) => tab_ok (S d) (S d) (sdim s) t /\
      forall k l, (k + l <= d)%nat -> forall i,
        rc i (ent t k l) = if (k <? K)%nat then dsurf s su sv i k l u v else 0).
    replace (d + 1)%nat with (S d) by lia.
    match goal with |- context [for_incl 0 du ?g ?x] => destruct (for_incl_rule I 0 du g x) as (ds & E & T & V) end.
    - lia.
    - destruct (tab_repeat (S d) (S d) (sdim s) (vzero (sdim s)) (vzero_length _)) as (T & V).
      split; [exact T|]. intros k l Hkl i. rewrite V by lia. apply rc_vzero.
    - intros K t HK (T & V).
      destruct (surf_uders_spec s (su - sdu s) (sv - sdv s) bu (nrow s - 1) K H) as (temp & Et & Lt & Vt); auto; try lia.
      rewrite Et. cbn [bind]. rewrite usub_ok by lia. cbn [bind]. rewrite min_if.
      set (dd := Nat.min (d - K) dv).
      set (J := fun Lo (t' : list (list (list R))) => tab_ok (S d) (S d) (sdim s) t' /\
        forall k l, (k <= d)%nat -> (l <= d)%nat -> forall i,
          rc i (ent t' k l) = if (k =? K)%nat && (l <? Lo)%nat then dsurf s su sv i k l u v else rc i (ent t k l)).
      match goal with |- context [for_incl 0 dd ?g t] => destruct (for_incl_rule J 0 dd g t) as (t1 & E1 & T1 & V1) end.
      + lia.
      + split; [exact T|]. intros k l _ _ i. now rewrite Bool.andb_false_r.
      + intros l0 t1 Hl0 (T1 & V1).
        assert (Hl0v : (l0 <= sdv s)%nat) by lia. assert (HKu : (K <= sdu s)%nat) by lia.
        assert (Z0 : forall i, rc i (ent t1 K l0) = 0).
        { intros i. rewrite V1 by lia. rewrite Nat.eqb_refl. destruct (Nat.ltb_spec l0 l0); [lia|]. cbn [andb].
          rewrite V by lia. destruct (Nat.ltb_spec K K); [lia|reflexivity]. }
        set (M := fun Jj (t' : list (list (list R))) => tab_ok (S d) (S d) (sdim s) t' /\
          forall k l, (k <= d)%nat -> (l <= d)%nat -> forall i,
            rc i (ent t' k l) = if (k =? K)%nat && (l =? l0)%nat
              then rsum Jj (fun j => rsum (S (sdu s)) (fun r => dbs (kf (suk s)) su (sdu s) K (su - sdu s + r) u
                               * spc s i (su - sdu s + r) (sv - sdv s + j))
                               * dbs (kf (svk s)) sv (sdv s) l0 (sv - sdv s + j) v)
              else rc i (ent t1 k l)).
        match goal with |- context [for_incl 0 (sdv s) ?g t1] =>
          destruct (for_incl_rule M 0 (sdv s) g t1) as (t2 & E2 & T2 & V2) end.
        * lia.
        * split; [exact T1|]. intros k l Hk Hl i. destruct (Nat.eqb_spec k K) as [->|]; [|reflexivity].
          destruct (Nat.eqb_spec l l0) as [->|]; [|reflexivity]. cbn [andb rsum]. apply Z0.
        * intros j t2 Hj (T2 & V2).
          rewrite (get_ok temp j []) by lia. cbn [bind].
          rewrite (get2_ok (S (ncol s - 1)) (S (sdv s))) by (auto; lia). cbn [bind].
          pose proof T2 as (La & Lb). destruct (Lb K ltac:(lia)) as (Lrow & Lent).
          rewrite (get_ok t2 K []) by lia. cbn [bind]. rewrite (get_ok _ l0 []) by lia. cbn [bind].
          rewrite set_ok by lia. cbn [bind]. rewrite set_ok by lia.
          destruct (Vt j ltac:(lia)) as (Ltj & Vtj).
          match goal with |- context [upd (nth K t2 []) l0 ?x] => set (x' := x) end.
          assert (Lx : length x' = sdim s).
          { unfold x'. apply vadd_length; [apply (Lent l0); lia|now apply vscale_length]. }
          destruct (tab_set (S d) (S d) (sdim s) t2 K l0 x' T2 ltac:(lia) ltac:(lia) Lx) as (T3 & V3).
          eexists. split; [reflexivity|]. split; [exact T3|]. intros k l Hk Hl i. rewrite V3 by lia.
          destruct (Nat.eqb_spec k K) as [->|Hne]; destruct (Nat.eqb_spec l l0) as [->|Hne']; cbn [andb].
          -- unfold x'. rewrite rc_vadd.
             2:{ rewrite (vscale_length _ _ _ Ltj). apply (Lent l0). lia. }
             change (nth l0 (nth K t2 []) []) with (ent t2 K l0).
             rewrite V2 by lia. rewrite !Nat.eqb_refl. cbn [andb]. rewrite rc_vscale, Vtj.
             rewrite Vv by lia. cbn [rsum]. f_equal. f_equal.
             rewrite (rsum_ext (sdu s) _ (fun r => dbs (kf (suk s)) su (sdu s) K (su - sdu s + r) u
                               * spc s i (su - sdu s + r) (sv - sdv s + j))).
             2:{ intros r Hr. now rewrite Vu by lia. }
             now rewrite Vu by lia.
          -- rewrite V2 by lia. rewrite Nat.eqb_refl. destruct (Nat.eqb_spec l l0); [lia|reflexivity].
          -- rewrite V2 by lia. destruct (Nat.eqb_spec k K); [lia|reflexivity].
          -- rewrite V2 by lia. destruct (Nat.eqb_spec k K); [lia|reflexivity].
        * exists t2. split; [exact E2|]. split; [exact T2|]. intros k l Hk Hl i. rewrite V2, V1 by lia.
          destruct (Nat.eqb_spec k K) as [->|]; cbn [andb]; [|reflexivity].
          destruct (Nat.eqb_spec l l0) as [->|].
          -- destruct (Nat.ltb_spec l0 (S l0)); [|lia]. rewrite <- dsurf_window by lia. reflexivity.
          -- destruct (Nat.ltb_spec l l0); destruct (Nat.ltb_spec l (S l0)); try lia; reflexivity.
      + exists t1. split; [exact E1|]. split; [exact T1|]. intros k l Hkl i. rewrite V1 by lia. rewrite V by lia.
        destruct (Nat.eqb_spec k K) as [->|]; cbn [andb].
        * destruct (Nat.ltb_spec K (S K)); [|lia]. destruct (Nat.ltb_spec l (S dd)); [reflexivity|].
          destruct (Nat.ltb_spec K K); [lia|]. symmetry. apply dsurf_high. right. lia.
        * destruct (Nat.ltb_spec k K); destruct (Nat.ltb_spec k (S K)); try lia; reflexivity.
    - exists ds. split; [exact E|]. split; [exact T|]. intros k l Hkl i. rewrite V by auto.
      destruct (Nat.ltb_spec k (S du)); [reflexivity|]. symmetry. apply dsurf_high. left. lia.
  Qed.

  Lemma span_unique k n s s' u : mono (kf k) -> in_span k n s u -> in_span k n s' u -> (s <= n)%nat -> (s' <= n)%nat ->
    s = s'.
  Proof.
    intros Hm (A1 & A2 & A3) (B1 & B2 & B3) H1 H2.
    destruct (Nat.lt_trichotomy s s') as [C|[C|C]]; [|auto|]; exfalso.
    - pose proof (mono_le _ (S s) s' Hm ltac:(lia)). destruct A3 as [A3|[-> A3]]; [lra|]. lia.
    - pose proof (mono_le _ (S s') s Hm ltac:(lia)). destruct B3 as [B3|[-> B3]]; [lra|]. lia.
  Qed.

  Lemma find_span_in k p n s u : knots_ok p n k -> eps_ok eps p n k -> (p <= s <= n)%nat -> in_span k n s u ->
    find_span k n p u = Ok s.
  Proof.
    intros Hk He Hs Hin. assert (Hm : mono (kf k)) by (apply sorted_mono, Hk).
    destruct (find_span_brackets eps maxv k p n u Hk He) as (s' & E & Hs' & Hin').
    { pose proof (in_span_le _ _ _ _ Hin) as Hle.
      pose proof (mono_le _ p s Hm ltac:(lia)). rewrite Nat.add_1_r.
      pose proof (mono_le _ (S s) (S n) Hm ltac:(lia)). lra. }
    rewrite E. f_equal. apply (span_unique k n s' s u); auto; lia.
  Qed.

  Theorem surf_derivatives_spec s su sv i : surf_ok s -> surf_eps eps s ->
    (sdu s <= su <= nrow s - 1)%nat -> (sdv s <= sv <= ncol s - 1)%nat ->
    exists F, partial_chain (kf (suk s) su) (kf (suk s) (S su)) (kf (svk s) sv) (kf (svk s) (S sv)) (shcoord s i) F /\
      forall u v d, in_span (suk s) (nrow s - 1) su u -> in_span (svk s) (ncol s - 1) sv v ->
        exists ds, surf_derivatives s u v d = Ok ds /\ length ds = S d /\
          forall k l, (k + l <= d)%nat -> rc i (ent ds k l) = F k l u v.
  Proof.
    intros H He Hsu Hsv. pose proof (so_u s H) as Hu. pose proof (so_v s H) as Hv.
    exists (dsurf s su sv i). split; [split|].
    - intros u v Hu' Hv'. apply dsurf_0; auto.
      + unfold in_span. split; [lra|]. split; [lra|]. left; lra.
      + unfold in_span. split; [lra|]. split; [lra|]. left; lra.
    - intros k l u v _ _. split.
      + apply dsurf_deriv_u, sorted_mono, (so_uk s H).
      + apply dsurf_deriv_v, sorted_mono, (so_vk s H).
    - intros u v d Iu Iv.
      destruct (surf_derivatives_piece s u v d su sv H He) as (ds & E & T & V); auto.
      + apply find_span_in; auto; [apply H|apply He].
      + apply find_span_in; auto; [apply H|apply He].
      + apply Iu.
      + apply Iv.
      + exists ds. split; [exact E|]. split; [apply T|]. intros k l Hkl. now apply V.
  Qed.

  (** ** The table used by the regular sampling *)
  Lemma surf_derivatives_given_piece s u v d su sv bu bv m1 m2 : surf_ok s ->
    Nat.min d (sdu s) = Nat.min d (sdv s) ->
    (sdu s <= su <= nrow s - 1)%nat -> (sdv s <= sv <= ncol s - 1)%nat ->
    shape (S m1) (S (sdu s)) bu -> shape (S m2) (S (sdv s)) bv -> (sdu s <= m1)%nat -> (sdv s <= m2)%nat ->
    (forall m r, (m <= m1)%nat -> (r <= sdu s)%nat -> at2 bu m r = dbs (kf (suk s)) su (sdu s) m (su - sdu s + r) u) ->
    (forall m r, (m <= m2)%nat -> (r <= sdv s)%nat -> at2 bv m r = dbs (kf (svk s)) sv (sdv s) m (sv - sdv s + r) v) ->
    exists ds, surf_derivatives_given s su sv bu bv d = Ok ds /\
      tab_ok (S (Nat.min d (sdu s))) (S (Nat.min d (sdu s))) (sdim s) ds /\
      forall k l, (k + l <= d)%nat -> (k <= Nat.min d (sdu s))%nat -> (l <= Nat.min d (sdu s))%nat ->
        forall i, rc i (ent ds k l) = dsurf s su sv i k l u v.
  Proof.
    intros H Hd Hsu Hsv Shu Shv Hm1 Hm2 Vu Vv. pose proof (so_u s H) as Hu. pose proof (so_v s H) as Hv.
    unfold surf_derivatives_given. rewrite !min_if.
    set (du := Nat.min d (sdu s)) in *. rewrite <- Hd. replace (du + 1)%nat with (S du) by lia.
    set (I := fun K (t : list (list (list R))) => tab_ok (S du) (S du) (sdim s) t /\
      forall k l, (k < K)%nat -> (k + l <= d)%nat -> (l <= du)%nat -> forall i,
        rc i (ent t k l) = dsurf s su sv i k l u v).
    match goal with |- context [for_incl 0 du ?g ?x] => destruct (for_incl_rule I 0 du g x) as (ds & E & T & V) end.
    - lia.
    - destruct (tab_repeat (S du) (S du) (sdim s) (vzero (sdim s)) (vzero_length _)) as (T & V).
      split; [exact T|]. intros; lia.
    - intros K t HK (T & V). rewrite usub_ok by lia. cbn [bind]. rewrite usub_ok by lia. cbn [bind].
      destruct (surf_uders_spec s (su - sdu s) (sv - sdv s) bu m1 K H) as (temp & Et & Lt & Vt); auto; try lia.
      rewrite Et. cbn [bind]. rewrite usub_ok by lia. cbn [bind]. rewrite min_if.
      set (dd := Nat.min (d - K) du).
      set (J := fun Lo (t' : list (list (list R))) => tab_ok (S du) (S du) (sdim s) t' /\
        (forall k l, (k < K)%nat -> (l <= du)%nat -> ent t' k l = ent t k l) /\
        forall l, (l < Lo)%nat -> forall i, rc i (ent t' K l) = dsurf s su sv i K l u v).
      match goal with |- context [for_incl 0 dd ?g t] => destruct (for_incl_rule J 0 dd g t) as (t1 & E1 & T1 & O1 & V1) end.
      + lia.
      + split; [exact T|]. split; [auto|intros; lia].
      + intros l0 t1 Hl0 (T1 & O1 & V1).
        match goal with |- context [for_incl 0 (sdv s) ?g ?x] =>
          destruct (for_incl_rule (fun j q => length q = sdim s /\ forall i, rc i q =
            rsum j (fun j => rsum (S (sdu s)) (fun r => dbs (kf (suk s)) su (sdu s) K (su - sdu s + r) u
                               * spc s i (su - sdu s + r) (sv - sdv s + j))
                               * dbs (kf (svk s)) sv (sdv s) l0 (sv - sdv s + j) v)) 0 (sdv s) g x)
            as (q & Eq & Lq & Vq) end.
        * lia.
        * split; [apply vzero_length|]. intros i. apply rc_vzero.
        * intros j q Hj (Lq & Vq). rewrite (get_ok temp j []) by lia. cbn [bind].
          rewrite (get2_ok (S m2) (S (sdv s))) by (auto; lia). cbn [bind].
          destruct (Vt j ltac:(lia)) as (Ltj & Vtj).
          eexists. split; [reflexivity|]. split; [apply vadd_length; [exact Lq|now apply vscale_length]|].
          intros i. rewrite rc_vadd by (rewrite (vscale_length _ _ _ Ltj); lia).
          rewrite rc_vscale, Vq, Vtj, Vv by lia. cbn [rsum]. f_equal. f_equal.
          rewrite (rsum_ext (sdu s) _ (fun r => dbs (kf (suk s)) su (sdu s) K (su - sdu s + r) u
                               * spc s i (su - sdu s + r) (sv - sdv s + j))).
          2:{ intros r Hr. now rewrite Vu by lia. }
          now rewrite Vu by lia.
        * rewrite Eq. cbn [bind].
          pose proof T1 as (La & Lb). destruct (Lb K ltac:(lia)) as (Lrow & Lent).
          rewrite (get_ok t1 K []) by lia. cbn [bind].
          rewrite set_ok by lia. cbn [bind]. rewrite set_ok by lia.
          destruct (tab_set (S du) (S du) (sdim s) t1 K l0 q T1 ltac:(lia) ltac:(lia) Lq) as (T3 & V3).
          eexists. split; [reflexivity|]. split; [exact T3|]. split.
          -- intros k l Hk Hl. rewrite V3 by lia. destruct (Nat.eqb_spec k K); [lia|]. cbn [andb]. now apply O1.
          -- intros l Hl i. rewrite V3 by lia. rewrite Nat.eqb_refl. destruct (Nat.eqb_spec l l0) as [->|]; cbn [andb].
             ++ rewrite Vq. rewrite dsurf_window by lia. reflexivity.
             ++ apply V1. lia.
      + exists t1. split; [exact E1|]. split; [exact T1|]. intros k l Hk Hkl Hl i.
        destruct (Nat.eq_dec k K) as [->|].
        * apply V1. lia.
        * rewrite O1 by lia. apply V; lia.
    - exists ds. split; [exact E|]. split; [exact T|]. intros k l Hkl Hk Hl i. apply V; lia.
  Qed.
End Real.
