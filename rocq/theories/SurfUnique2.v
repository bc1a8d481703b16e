(** * C88: refining a surface commutes with affine maps; a surface with unit weights is determined by its points *)
From Coq Require Import Reals Lra Lia Sorted Permutation.
From Verif Require Import Base BaseFacts Scalar KnotModel RSum BSplineSpec BSpline KnotSpec KnotFacts KnotProofs VecFacts
  CurveModel CurveKnotModel CurveSpec CurveProofs KnotMisc Boehm Refine SplitProofs CurveGeom CurveGeom2 MiscModel MiscProofs
  SurfaceModel SurfaceSpec SurfaceProofs SurfaceRefine Unique Unique2 SurfUnique.
Import ListNotations.
Open Scope R_scope.

Lemma push_row_map {A B} (f : A -> B) row : forall cols r, push_row cols row = Ok r ->
  push_row (map (map f) cols) (map f row) = Ok (map (map f) r).
Proof.
  induction row as [|p row IH]; intros cols r E; destruct cols as [|c cols]; cbn in *; try discriminate; try (injection E as <-; reflexivity).
  apply bind_ok in E. destruct E as (r' & E1 & E2). injection E2 as <-. rewrite (IH _ _ E1). cbn. now rewrite map_app.
Qed.

Lemma transpose_map {A B} (f : A -> B) g t : transpose g = Ok t -> transpose (map (map f) g) = Ok (map (map f) t).
Proof.
  unfold transpose. intros E. apply bind_ok in E. destruct E as (first & E1 & E2).
  assert (G : get (map (map f) g) 0 = Ok (map f first)).
  { destruct g; [discriminate E1|]. cbn in *. injection E1 as ->. reflexivity. }
  rewrite G. cbn [bind]. clear E1 G. rewrite map_length.
  assert (Rp : forall n, repeat (@nil B) n = map (map f) (repeat [] n)) by (induction n as [|n IHn]; cbn; congruence).
  rewrite Rp. clear Rp.
  revert E2. generalize (repeat (@nil A) (length first)). induction g as [|row g IH]; intros cols E; cbn in *.
  - now injection E as <-.
  - apply bind_ok in E. destruct E as (c1 & E1 & E2). rewrite (push_row_map f _ _ _ E1). cbn. now apply IH.
Qed.

Section Real.
  Variables eps maxv : R.
  Local Hint Extern 0 (Scalar R) => exact (ROps eps maxv) : typeclass_instances.
  Local Notation insertable := (insertable eps).

  Lemma insertable_lines c c' zs : insertable c zs -> dom0 c' = dom0 c -> dom1 c' = dom1 c -> cdeg c' = cdeg c -> cknots c' = cknots c -> insertable c' zs.
  Proof.
    intros ([A B C] & D & F) D0 D1 Ed Ek. split; [constructor|split].
    - exact A.
    - now rewrite D0, D1.
    - now rewrite Ek.
    - unfold inside. now rewrite D0, D1.
    - intros x Hx. rewrite D0, D1 in Hx. rewrite Ek, Ed. now apply F.
  Qed.

  Lemma refine_row_transform D p k m xs line : let c := lcurve D p k line in
    curve_ok c -> curve_eps eps c -> pos_weights c -> insertable c xs -> affine_matrix D m ->
    exists c1, refine_row D p k xs line = Ok c1 /\ cdim c1 = D /\ refine_row D p k xs (map (transform_point D m) line) = Ok (transform m c1).
  Proof.
    intros c Hc He Hw Hi Hm. destruct (refine_transform eps maxv c xs m Hc He Hw Hi Hm) as (c1 & E1 & E2).
    exists c1. unfold refine_row. rewrite !try_new_sorted; cbn [bind].
    - split; [exact E1|]. split; [|exact E2].
      destruct (refine_spec eps maxv c xs Hc He (proj1 Hi)) as (c2 & E & S & _). change (try_refine_knot c xs = Ok c1) in E1. rewrite E1 in E. injection E as <-. apply (sc_dim _ _ S).
    - rewrite map_length. apply (co_len c Hc).
    - rewrite map_length. apply (curve_len c Hc).
    - apply (ko_sorted _ _ _ (co_knots c Hc)).
    - apply (co_len c Hc).
    - apply (curve_len c Hc).
    - apply (ko_sorted _ _ _ (co_knots c Hc)).
  Qed.

  Lemma lines_transform D p k m xs lines :
    (forall line, In line lines -> let c := lcurve D p k line in curve_ok c /\ curve_eps eps c /\ pos_weights c /\ insertable c xs) -> affine_matrix D m ->
    exists cs, mapM (refine_row D p k xs) lines = Ok cs /\ Forall (fun c => cdim c = D) cs /\
      mapM (refine_row D p k xs) (map (map (transform_point D m)) lines) = Ok (map (transform m) cs).
  Proof.
    intros H Hm. induction lines as [|l lines IH]; [exists []; split; [reflexivity|]; split; [constructor|reflexivity]|].
    destruct (H l (or_introl eq_refl)) as (A & B & C & D0). destruct (refine_row_transform D p k m xs l A B C D0 Hm) as (c1 & E1 & Ed & E2).
    destruct IH as (cs & F1 & Fd & F2). { intros line Hl. apply H. now right. }
    exists (c1 :: cs). cbn [map mapM]. rewrite E1, E2, F1, F2. cbn [bind]. split; [reflexivity|]. split; [now constructor|reflexivity].
  Qed.

  Lemma pts_transform D m (cs : list (Curve R)) : Forall (fun c => cdim c = D) cs ->
    map cpts (map (transform m) cs) = map (map (transform_point D m)) (map cpts cs).
  Proof. induction 1 as [|c cs Hc Hcs IH]; [reflexivity|]. cbn [map]. rewrite IH. cbn [transform cpts]. now rewrite Hc. Qed.
  Lemma hd_transform m (cs : list (Curve R)) : option_map cknots (hd_error (map (transform m) cs)) = option_map cknots (hd_error cs).
  Proof. now destruct cs. Qed.

  Theorem surf_refine_transform s zs d m : surf_ok s -> surf_eps eps s -> spos s -> affine_matrix (sdim s) m ->
    insertable (match d with DirU => ucol s 0 | DirV => vrow s 0 end) zs ->
    exists s1, surf_refine s zs d = Ok s1 /\ surf_refine (surf_transform m s) zs d = Ok (surf_transform m s1).
  Proof.
    intros H He Hw Hm Hi. pose proof (so_u s H) as Hu. pose proof (so_v s H) as Hv. destruct d.
    - destruct (net_cols s H) as (cols & Et & Lc & Hc).
      destruct (lines_transform (sdim s) (sdu s) (suk s) m zs cols) as (cs & E1 & Fd & E2); auto.
      { intros line Hl. destruct (In_nth _ _ [] Hl) as (b & Hb & <-). rewrite Lc in Hb. destruct (Hc b Hb) as (_ & ->). cbv zeta.
        split; [now apply ucol_ok|]. split; [now apply ucol_eps|]. split.
        - intros a Ha. cbn [ucol cpts] in Ha. rewrite map_length in Ha. rewrite ucol_cpc by exact Ha. now apply Hw.
        - destruct (ucol_dom s b) as (D0 & D1). destruct (ucol_dom s 0) as (D0' & D1'). apply (insertable_lines (ucol s 0)); auto; congruence. }
      destruct (srefines_u eps maxv s zs H He Hi) as (s1 & Es & _). exists s1. split; [exact Es|].
      unfold surf_refine in *. cbn [surf_transform snet sdim sdu sdv suk svk].
      rewrite (transpose_map _ _ _ Et). rewrite Et in Es. cbn [bind] in *. rewrite E1 in Es. rewrite E2. cbn [bind] in *. rewrite hd_transform.
      apply bind_ok in Es. destruct Es as (k & Ek & Es). rewrite Ek. cbn [bind]. apply bind_ok in Es. destruct Es as (net & En & Es). injection Es as <-.
      rewrite (pts_transform (sdim s)) by exact Fd. rewrite (transpose_map _ _ _ En). reflexivity.
    - destruct (lines_transform (sdim s) (sdv s) (svk s) m zs (snet s)) as (cs & E1 & Fd & E2); auto.
      { intros line Hl. destruct (In_nth _ _ [] Hl) as (a & Ha & <-). fold (nrow s) in Ha. change (lcurve (sdim s) (sdv s) (svk s) (nth a (snet s) [])) with (vrow s a). cbv zeta.
        split; [now apply vrow_ok|]. split; [now apply vrow_eps|]. split.
        - intros b Hb. cbn [vrow cpts] in Hb. rewrite row_len in Hb by auto. rewrite vrow_cpc. now apply Hw.
        - destruct (vrow_dom s a H Ha) as (D0 & D1). destruct (vrow_dom s 0 H ltac:(lia)) as (D0' & D1').
          apply (insertable_lines (vrow s 0)); auto; congruence. }
      destruct (srefines_v eps maxv s zs H He Hi) as (s1 & Es & _). exists s1. split; [exact Es|].
      unfold surf_refine in *. cbn [surf_transform snet sdim sdu sdv suk svk].
      rewrite E1 in Es. rewrite E2. cbn [bind] in *. rewrite hd_transform.
      apply bind_ok in Es. destruct Es as (k & Ek & Es). rewrite Ek. cbn [bind]. injection Es as <-.
      rewrite (pts_transform (sdim s)) by exact Fd. reflexivity.
  Qed.

  (** ** Unit weights *)
  Definition sweight_one (s : Surf R) : Prop := forall a b, (a < nrow s)%nat -> (b < ncol s)%nat -> spc s (sdim s - 1) a b = 1.

  Lemma sweight_one_w s u v : surf_ok s -> sweight_one s -> in_dom s u v -> swfun s u v = 1.
  Proof.
    intros H Hw (Du & Dv). pose proof (so_u s H) as Hu. pose proof (so_v s H) as Hv.
    assert (R1 : forall a, (a < nrow s)%nat -> hcoord (vrow s a) (sdim s - 1) v = 1).
    { intros a Ha. destruct (vrow_dom s a H Ha) as (D0 & D1).
      apply (weight_one_wfun (vrow s a) v (vrow_ok s a H Ha)); [|now rewrite D0, D1].
      apply Forall_forall. intros p Hp. destruct (In_nth _ _ [] Hp) as (b & Hb & <-). cbn [vrow cpts] in *. rewrite row_len in Hb by auto. now apply Hw. }
    unfold swfun. rewrite shcoord_rows by auto. rewrite (rsum_ext _ _ (fun a => Nu s a u)) by (intros a Ha; rewrite R1 by auto; ring).
    set (one := MkCurve 1 (sdu s) (repeat [1] (nrow s)) (suk s)).
    assert (Lo : length (cpts one) = nrow s) by apply repeat_length.
    assert (Oo : curve_ok one).
    { constructor; unfold clast; rewrite ?Lo; cbn [one cdim cdeg cknots cpts]; [lia| |apply H|apply H].
      apply Forall_forall. intros p Hp. apply repeat_spec in Hp. now subst p. }
    assert (Do : dom0 one = u0 s /\ dom1 one = u1 s) by (unfold dom0, dom1; rewrite Lo; split; reflexivity). destruct Do as (O0 & O1).
    rewrite <- (weight_one_wfun one u Oo); [|apply Forall_forall; intros p Hp; apply repeat_spec in Hp; now subst p|now rewrite O0, O1].
    unfold wfun, hcoord. rewrite Lo, O1. apply rsum_ext. intros a Ha. unfold Nu. cbn [one cdim cdeg cknots]. unfold cpc. cbn [one cpts].
    rewrite nth_repeat_lt by exact Ha. unfold rc. cbn [nth Nat.sub]. ring.
  Qed.

  Theorem points_determine_surface s s' : surf_ok s -> surf_eps eps s -> surf_ok s' -> sweight_one s -> sweight_one s' -> slow s ->
    sdim s' = sdim s -> sdu s' = sdu s -> sdv s' = sdv s -> suk s' = suk s -> svk s' = svk s ->
    (forall u v, in_dom s u v -> surf_point_at s' u v = surf_point_at s u v) -> s' = s.
  Proof.
    intros H He H' Hw Hw' Hl Ed Epu Epv Eu Ev Hp.
    pose proof (so_u s H) as Hu. pose proof (so_v s H) as Hv. pose proof (so_u s' H') as Hu'. pose proof (so_v s' H') as Hv'.
    assert (Er : nrow s' = nrow s).
    { pose proof (ko_len _ _ _ (so_uk s H)) as A. pose proof (ko_len _ _ _ (so_uk s' H')) as B. rewrite Eu, Epu in *. lia. }
    assert (Ec : ncol s' = ncol s).
    { pose proof (ko_len _ _ _ (so_vk s H)) as A. pose proof (ko_len _ _ _ (so_vk s' H')) as B. rewrite Ev, Epv in *. lia. }
    assert (He' : surf_eps eps s') by (unfold surf_eps in *; now rewrite Eu, Epu, Er, Ev, Epv, Ec).
    apply net_unique; auto. intros i u v Hi Hd _ _.
    assert (Hd' : in_dom s' u v) by (unfold in_dom, u0, u1, v0, v1 in *; now rewrite Eu, Epu, Er, Ev, Epv, Ec).
    pose proof (sweight_one_w s u v H Hw Hd) as W. pose proof (sweight_one_w s' u v H' Hw' Hd') as W'.
    destruct (Nat.eq_dec i (sdim s - 1)) as [->|Ni].
    - unfold swfun in W, W'. rewrite Ed in W'. congruence.
    - destruct (surf_point_at_spec eps maxv s u v H He Hd ltac:(lra)) as (q & Eq & Lq & Hq).
      destruct (surf_point_at_spec eps maxv s' u v H' He' Hd' ltac:(lra)) as (q' & Eq' & Lq' & Hq').
      rewrite (Hp u v Hd), Eq in Eq'. injection Eq' as <-. specialize (Hq i ltac:(lia)). specialize (Hq' i ltac:(lia)).
      unfold snurbs in Hq, Hq'. rewrite W in Hq. rewrite W' in Hq'. lra.
  Qed.
End Real.
