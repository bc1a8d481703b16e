(** * C88: a surface has one control net on its knots; refinements in both directions commute *)
From Coq Require Import Reals Lra Lia Sorted Permutation.
From Verif Require Import Base BaseFacts Scalar KnotModel RSum BSplineSpec BSpline KnotSpec KnotFacts KnotProofs VecFacts
  CurveModel CurveKnotModel CurveSpec CurveProofs KnotMisc Boehm Refine SplitProofs CurveGeom CurveGeom2
  SurfaceModel SurfaceSpec SurfaceProofs SurfaceRefine Unique Unique2.
Import ListNotations.
Open Scope R_scope.

(** the blending functions of a curve are linearly independent on its domain *)
Lemma basis_independent c P : curve_ok c -> low_mult c ->
  (forall u, dom0 c <= u <= dom1 c -> ~ In u (cknots c) ->
    rsum (length (cpts c)) (fun j => cox_closed (kf (cknots c)) (dom1 c) (cdeg c) j u * P j) = 0) ->
  forall j, (j < length (cpts c))%nat -> P j = 0.
Proof.
  intros Hc Hl H j Hj.
  set (mk := fun Q : nat -> R => MkCurve 1 (cdeg c) (map (fun j => [Q j]) (seq 0 (length (cpts c)))) (cknots c)).
  assert (Lm : forall Q, length (cpts (mk Q)) = length (cpts c)) by (intros Q; cbn; now rewrite map_length, seq_length).
  assert (O : forall Q, curve_ok (mk Q)).
  { intros Q. constructor; cbn [cdim mk cdeg cknots].
    - lia.
    - cbn. apply Forall_forall. intros p Hp. apply in_map_iff in Hp. destruct Hp as (t & <- & _). reflexivity.
    - rewrite Lm. apply Hc.
    - unfold clast. rewrite Lm. apply Hc. }
  assert (D1 : forall Q, dom1 (mk Q) = dom1 c) by (intros Q; unfold dom1; now rewrite Lm).
  assert (V : forall Q t, (t < length (cpts c))%nat -> cpc (mk Q) 0 t = Q t).
  { intros Q t Ht. unfold cpc. cbn [cpts mk]. rewrite (nth_map_lt _ _ t 0%nat []) by (now rewrite seq_length). rewrite seq_nth by auto. reflexivity. }
  assert (E : mk P = mk (fun _ => 0)).
  { apply control_points_unique; auto.
    - intros x Hx. rewrite D1 in Hx. exact (Hl x Hx).
    - intros i u Hi Hu Hn. assert (i = 0%nat) as -> by (cbn in Hi; lia). rewrite D1 in Hu. change (dom0 c <= u <= dom1 c) in Hu.
      unfold hcoord. rewrite !D1, !Lm. cbn [cdeg mk cknots].
      rewrite (rsum_ext _ _ (fun t => cox_closed (kf (cknots c)) (dom1 c) (cdeg c) t u * P t)) by (intros t Ht; now rewrite V).
      rewrite (rsum_ext _ (fun t => _ * cpc (mk (fun _ => 0)) 0 t) (fun t => 0 * 0)) by (intros t Ht; rewrite V by auto; ring).
      rewrite H by auto. rewrite rsum_scal. ring. }
  rewrite <- (V P j Hj), E. now apply V.
Qed.

(** no interior knot of multiplicity above [degree + 1], in either direction *)
Definition slow (s : Surf R) : Prop := low_mult (ucol s 0) /\ low_mult (vrow s 0).

Theorem net_unique s s' : surf_ok s -> surf_ok s' -> slow s ->
  sdim s' = sdim s -> sdu s' = sdu s -> sdv s' = sdv s -> suk s' = suk s -> svk s' = svk s ->
  (forall i u v, (i < sdim s)%nat -> in_dom s u v -> ~ In u (suk s) -> ~ In v (svk s) -> shcoord s' i u v = shcoord s i u v) -> s' = s.
Proof.
  intros H H' (Lu & Lv) Ed Epu Epv Eu Ev Hh. pose proof (so_u s H) as Hu. pose proof (so_v s H) as Hv. pose proof (so_u s' H') as Hu'. pose proof (so_v s' H') as Hv'.
  assert (Er : nrow s' = nrow s).
  { pose proof (ko_len _ _ _ (so_uk s H)) as A. pose proof (ko_len _ _ _ (so_uk s' H')) as B. rewrite Eu, Epu in *. lia. }
  assert (Ec : ncol s' = ncol s).
  { pose proof (ko_len _ _ _ (so_vk s H)) as A. pose proof (ko_len _ _ _ (so_vk s' H')) as B. rewrite Ev, Epv in *. lia. }
  assert (Ru : u1 s' = u1 s) by (unfold u1; now rewrite Eu, Er).
  assert (G : forall a, (a < nrow s)%nat -> vrow s' a = vrow s a).
  { intros a Ha. destruct (vrow_dom s a H Ha) as (D0 & D1). destruct (vrow_dom s 0 H ltac:(lia)) as (D0' & D1').
    apply control_points_unique; auto; try (apply vrow_ok; auto; lia).
    - intros x Hx. rewrite D0, D1 in Hx. apply (Lv x). now rewrite D0', D1'.
    - intros i v Hi Dv Nv0. rewrite D0, D1 in Dv. cbn [vrow cdim cknots] in Hi, Nv0.
      assert (Z : hcoord (vrow s' a) i v - hcoord (vrow s a) i v = 0); [|lra].
      assert (Lc : length (cpts (ucol s 0)) = nrow s) by (cbn; apply map_length).
      apply (basis_independent (ucol s 0) (fun a => hcoord (vrow s' a) i v - hcoord (vrow s a) i v)); auto.
      + apply ucol_ok; auto. lia.
      + intros u Du Nu0. destruct (ucol_dom s 0) as (U0 & U1). rewrite U0, U1 in Du. rewrite Lc, U1. cbn [ucol cknots cdeg] in *.
        rewrite (rsum_ext _ _ (fun t => Nu s t u * hcoord (vrow s' t) i v + (-1) * (Nu s t u * hcoord (vrow s t) i v))) by (intros; unfold Nu; ring).
        rewrite rsum_plus, rsum_scal. rewrite <- shcoord_rows by auto.
        pose proof (shcoord_rows s' i u v H') as R'. rewrite Er in R'.
        rewrite (rsum_ext _ (fun t => Nu s' t u * _) (fun t => Nu s t u * hcoord (vrow s' t) i v)) in R' by (intros; unfold Nu; now rewrite Eu, Epu, Ru).
        rewrite <- R', Hh; auto; [ring|]. split; auto.
      + now rewrite Lc. }
  assert (N : snet s' = snet s).
  { apply (list_ext []); [exact Er|]. intros a Ha. specialize (G a ltac:(fold (nrow s') in Ha; lia)). unfold vrow in G. now injection G. }
  destruct s, s'. cbn in *. congruence.
Qed.

(** [s'] is [s] with the knots [zu] and [zv] added and the shape unchanged *)
Record srefines (eps : R) (s : Surf R) (zu zv : list R) (s' : Surf R) : Prop := {
  sr_ok : surf_ok s'; sr_eps : surf_eps eps s';
  sr_dim : sdim s' = sdim s; sr_du : sdu s' = sdu s; sr_dv : sdv s' = sdv s;
  sr_uk : Permutation (suk s') (suk s ++ zu); sr_vk : Permutation (svk s') (svk s ++ zv);
  sr_u0 : u0 s' = u0 s; sr_u1 : u1 s' = u1 s; sr_v0 : v0 s' = v0 s; sr_v1 : v1 s' = v1 s;
  sr_same : forall i u v, in_dom s u v -> shcoord s' i u v = shcoord s i u v
}.

(** a sequence of refinements: the new knots and the direction of each *)
Definition Steps := list (list R * UV).
Definition knots_u (l : Steps) : list R := flat_map (fun st => match snd st with DirU => fst st | DirV => [] end) l.
Definition knots_v (l : Steps) : list R := flat_map (fun st => match snd st with DirV => fst st | DirU => [] end) l.

Section Real.
  Variables eps maxv : R.
  Local Hint Extern 0 (Scalar R) => exact (ROps eps maxv) : typeclass_instances.
  Local Notation insertable := (insertable eps).
  Local Notation srefines := (srefines eps).

  Lemma insertable_rest c c1 zs xs ys : insertable c zs -> Permutation zs (xs ++ ys) -> Sorted Rle ys ->
    dom0 c1 = dom0 c -> dom1 c1 = dom1 c -> cdeg c1 = cdeg c -> Permutation (cknots c1) (cknots c ++ xs) -> insertable c1 ys.
  Proof.
    intros ([_ D S] & I & F) P Hs D0 D1 Ed P1.
    assert (In1 : forall x, In x ys -> In x zs) by (intros x Hx; apply (Permutation_in x (Permutation_sym P)), in_or_app; now right).
    assert (PP : Permutation (cknots c1 ++ ys) (cknots c ++ zs)).
    { rewrite P1, <- app_assoc. now apply Permutation_app_head, Permutation_sym. }
    split; [|split].
    - constructor; [exact Hs| |].
      + rewrite Forall_forall in *. rewrite D0, D1. auto.
      + intros x y Hx Hy. apply S; [auto|]. now apply (Permutation_in y PP).
    - unfold inside in *. rewrite Forall_forall in *. rewrite D0, D1. auto.
    - intros x Hx. rewrite D0, D1 in Hx. rewrite (count_perm _ _ x PP), Ed. now apply F.
  Qed.

  Lemma srefines_refl s : surf_ok s -> surf_eps eps s -> srefines s [] [] s.
  Proof. intros H He. constructor; auto; now rewrite app_nil_r. Qed.

  Lemma srefines_trans s zu zv s1 yu yv s2 : srefines s zu zv s1 -> srefines s1 yu yv s2 -> srefines s (zu ++ yu) (zv ++ yv) s2.
  Proof.
    intros A B. constructor; try apply B.
    - rewrite (sr_dim _ _ _ _ _ B). apply A.
    - rewrite (sr_du _ _ _ _ _ B). apply A.
    - rewrite (sr_dv _ _ _ _ _ B). apply A.
    - rewrite (sr_uk _ _ _ _ _ B), (sr_uk _ _ _ _ _ A). now rewrite app_assoc.
    - rewrite (sr_vk _ _ _ _ _ B), (sr_vk _ _ _ _ _ A). now rewrite app_assoc.
    - rewrite (sr_u0 _ _ _ _ _ B). apply A.
    - rewrite (sr_u1 _ _ _ _ _ B). apply A.
    - rewrite (sr_v0 _ _ _ _ _ B). apply A.
    - rewrite (sr_v1 _ _ _ _ _ B). apply A.
    - intros i u v Hd. rewrite (sr_same _ _ _ _ _ B), (sr_same _ _ _ _ _ A); auto.
      unfold in_dom in *. now rewrite (sr_u0 _ _ _ _ _ A), (sr_u1 _ _ _ _ _ A), (sr_v0 _ _ _ _ _ A), (sr_v1 _ _ _ _ _ A).
  Qed.

  Lemma srefines_u s zs : surf_ok s -> surf_eps eps s -> insertable (ucol s 0) zs -> exists s', surf_refine s zs DirU = Ok s' /\ srefines s zs [] s'.
  Proof.
    intros H He (R & I & _). destruct (surf_refine_u eps maxv s zs H He R I) as (s' & E & A1 & A2 & A3 & A4 & A5 & A6 & A7 & A8 & A9 & A10 & A11 & A12).
    exists s'. split; [exact E|]. constructor; auto.
    - rewrite app_nil_r, A6. reflexivity.
    - unfold v0. now rewrite A6, A5.
    - unfold v1. now rewrite A6, A9.
    - intros i u v Hd. now apply A12.
  Qed.
  Lemma srefines_v s zs : surf_ok s -> surf_eps eps s -> insertable (vrow s 0) zs -> exists s', surf_refine s zs DirV = Ok s' /\ srefines s [] zs s'.
  Proof.
    intros H He (R & I & _). destruct (surf_refine_v eps maxv s zs H He R I) as (s' & E & A1 & A2 & A3 & A4 & A5 & A6 & A7 & A8 & A9 & A10 & A11 & A12).
    exists s'. split; [exact E|]. constructor; auto.
    - rewrite app_nil_r, A6. reflexivity.
    - unfold u0. now rewrite A6, A4.
    - unfold u1. now rewrite A6, A8.
    - intros i u v Hd. now apply A12.
  Qed.

  Lemma rest_u s s1 zs xu xv ys : surf_ok s -> srefines s xu xv s1 -> insertable (ucol s 0) zs -> Permutation zs (xu ++ ys) -> Sorted Rle ys -> insertable (ucol s1 0) ys.
  Proof.
    intros H A I P S. destruct (ucol_dom s 0) as (D0 & D1). destruct (ucol_dom s1 0) as (D0' & D1').
    apply (insertable_rest (ucol s 0) (ucol s1 0) zs xu ys I P S).
    - rewrite D0, D0'. apply A.
    - rewrite D1, D1'. apply A.
    - apply A.
    - apply A.
  Qed.
  Lemma rest_v s s1 zs xu xv ys : surf_ok s -> srefines s xu xv s1 -> insertable (vrow s 0) zs -> Permutation zs (xv ++ ys) -> Sorted Rle ys -> insertable (vrow s1 0) ys.
  Proof.
    intros H A I P S. pose proof (sr_ok _ _ _ _ _ A) as H1. pose proof (so_u s H). pose proof (so_u s1 H1).
    destruct (vrow_dom s 0 H ltac:(lia)) as (D0 & D1). destruct (vrow_dom s1 0 H1 ltac:(lia)) as (D0' & D1').
    apply (insertable_rest (vrow s 0) (vrow s1 0) zs xv ys I P S).
    - rewrite D0, D0'. apply A.
    - rewrite D1, D1'. apply A.
    - apply A.
    - apply A.
  Qed.

  (** refinements with the same knots are equal *)
  Lemma srefines_unique s zu zv zu' zv' s1 s2 : surf_ok s -> few (ucol s 0) zu -> few (vrow s 0) zv ->
    srefines s zu zv s1 -> srefines s zu' zv' s2 -> Permutation zu zu' -> Permutation zv zv' -> s2 = s1.
  Proof.
    intros H Fu Fv A B Pu Pv. pose proof (sr_ok _ _ _ _ _ A) as O1. pose proof (sr_ok _ _ _ _ _ B) as O2. pose proof (so_u s H). pose proof (so_u s1 O1).
    destruct (vrow_dom s 0 H ltac:(lia)) as (V0 & V1). destruct (vrow_dom s1 0 O1 ltac:(lia)) as (V0' & V1').
    destruct (ucol_dom s 0) as (U0 & U1). destruct (ucol_dom s1 0) as (U0' & U1').
    apply net_unique; auto.
    - split.
      + intros x Hx. rewrite U0', U1', (sr_u0 _ _ _ _ _ A), (sr_u1 _ _ _ _ _ A), <- U0, <- U1 in Hx. cbn [ucol cknots cdeg].
        rewrite (count_perm _ _ x (sr_uk _ _ _ _ _ A)), (sr_du _ _ _ _ _ A). exact (Fu x Hx).
      + intros x Hx. rewrite V0', V1', (sr_v0 _ _ _ _ _ A), (sr_v1 _ _ _ _ _ A), <- V0, <- V1 in Hx. cbn [vrow cknots cdeg].
        rewrite (count_perm _ _ x (sr_vk _ _ _ _ _ A)), (sr_dv _ _ _ _ _ A). exact (Fv x Hx).
    - rewrite (sr_dim _ _ _ _ _ B). symmetry. apply A.
    - rewrite (sr_du _ _ _ _ _ B). symmetry. apply A.
    - rewrite (sr_dv _ _ _ _ _ B). symmetry. apply A.
    - apply sorted_perm_eq; [apply (ko_sorted _ _ _ (so_uk s2 O2))|apply (ko_sorted _ _ _ (so_uk s1 O1))|].
      rewrite (sr_uk _ _ _ _ _ A), (sr_uk _ _ _ _ _ B), Pu. reflexivity.
    - apply sorted_perm_eq; [apply (ko_sorted _ _ _ (so_vk s2 O2))|apply (ko_sorted _ _ _ (so_vk s1 O1))|].
      rewrite (sr_vk _ _ _ _ _ A), (sr_vk _ _ _ _ _ B), Pv. reflexivity.
    - intros i u v _ Hd _ _. assert (Hd' : in_dom s u v).
      { unfold in_dom in *. now rewrite (sr_u0 _ _ _ _ _ A), (sr_u1 _ _ _ _ _ A), (sr_v0 _ _ _ _ _ A), (sr_v1 _ _ _ _ _ A) in Hd. }
      now rewrite (sr_same _ _ _ _ _ A), (sr_same _ _ _ _ _ B).
  Qed.

  Definition run (l : Steps) (s : Surf R) : Res (Surf R) := foldM (fun s st => surf_refine s (fst st) (snd st)) l s.

  Lemma run_srefines l : forall s zu zv, surf_ok s -> surf_eps eps s -> insertable (ucol s 0) zu -> insertable (vrow s 0) zv ->
    Permutation zu (knots_u l) -> Permutation zv (knots_v l) -> Forall (fun st => Sorted Rle (fst st)) l ->
    exists s', run l s = Ok s' /\ srefines s (knots_u l) (knots_v l) s'.
  Proof.
    induction l as [|(xs & d) l IH]; intros s zu zv H He Iu Iv Pu Pv Hs.
    - exists s. split; [reflexivity|]. now apply srefines_refl.
    - inversion Hs as [|? ? Sx Hs']; subst. cbn [fst] in Sx. unfold run. cbn [foldM fst snd].
      assert (St : exists s1, surf_refine s xs d = Ok s1 /\ srefines s (match d with DirU => xs | DirV => [] end) (match d with DirV => xs | DirU => [] end) s1).
      { destruct d.
        - apply srefines_u; auto. apply (insertable_sub eps (ucol s 0) zu xs Iu Sx). exists (knots_u l). exact Pu.
        - apply srefines_v; auto. apply (insertable_sub eps (vrow s 0) zv xs Iv Sx). exists (knots_v l). exact Pv. }
      destruct St as (s1 & E & A). rewrite E. cbn [bind].
      destruct (IH s1 (ksort (knots_u l)) (ksort (knots_v l))) as (s' & E' & B); auto; try apply A; try apply ksort_perm.
      + apply (rest_u s s1 zu _ _ _ H A Iu); [|apply (ksort_sorted eps maxv)].
        rewrite Pu. destruct d; cbn [knots_u flat_map snd fst app]; [apply Permutation_app_head|]; apply Permutation_sym, ksort_perm.
      + apply (rest_v s s1 zv _ _ _ H A Iv); [|apply (ksort_sorted eps maxv)].
        rewrite Pv. destruct d; cbn [knots_v flat_map snd fst app]; [|apply Permutation_app_head]; apply Permutation_sym, ksort_perm.
      + exists s'. split; [exact E'|]. pose proof (srefines_trans _ _ _ _ _ _ _ A B) as C. destruct d; exact C.
  Qed.

  (** ** Refinements in any chunks, directions and order *)
  Theorem surf_refine_any_order s zu zv l : surf_ok s -> surf_eps eps s -> insertable (ucol s 0) zu -> insertable (vrow s 0) zv ->
    Permutation zu (knots_u l) -> Permutation zv (knots_v l) -> Forall (fun st => Sorted Rle (fst st)) l ->
    exists s1 s', surf_refine s zu DirU = Ok s1 /\ surf_refine s1 zv DirV = Ok s' /\
      foldM (fun s st => surf_refine s (fst st) (snd st)) l s = Ok s'.
  Proof.
    intros H He Iu Iv Pu Pv Hs.
    destruct (run_srefines l s zu zv H He Iu Iv Pu Pv Hs) as (s' & E' & B).
    destruct (srefines_u s zu H He Iu) as (s1 & E1 & A1).
    destruct (srefines_v s1 zv (sr_ok _ _ _ _ _ A1) (sr_eps _ _ _ _ _ A1)) as (s2 & E2 & A2).
    { apply (rest_v s s1 zv _ _ zv H A1 Iv); [reflexivity|]. apply (ro_sorted _ _ _ (proj1 Iv)). }
    exists s1, s2. split; [exact E1|]. split; [exact E2|].
    pose proof (srefines_trans _ _ _ _ _ _ _ A1 A2) as C. rewrite app_nil_r in C. cbn [app] in C.
    unfold run in E'. rewrite E'. f_equal. apply (srefines_unique s zu zv (knots_u l) (knots_v l)); auto; [apply Iu|apply Iv].
  Qed.

  Theorem surf_refine_commute s zu zv : surf_ok s -> surf_eps eps s -> insertable (ucol s 0) zu -> insertable (vrow s 0) zv ->
    exists s1 s2 s', surf_refine s zu DirU = Ok s1 /\ surf_refine s1 zv DirV = Ok s' /\
      surf_refine s zv DirV = Ok s2 /\ surf_refine s2 zu DirU = Ok s'.
  Proof.
    intros H He Iu Iv.
    destruct (surf_refine_any_order s zu zv [(zv, DirV); (zu, DirU)] H He Iu Iv) as (s1 & s' & E1 & E2 & E3).
    - cbn. now rewrite app_nil_r.
    - cbn. now rewrite app_nil_r.
    - constructor; [apply (ro_sorted _ _ _ (proj1 Iv))|]. constructor; [apply (ro_sorted _ _ _ (proj1 Iu))|constructor].
    - cbn [foldM fst snd] in E3. apply bind_ok in E3. destruct E3 as (s2 & A & E3). apply bind_ok in E3. destruct E3 as (s3 & B & E3). injection E3 as ->.
      exists s1, s2, s'. auto.
  Qed.
End Real.
