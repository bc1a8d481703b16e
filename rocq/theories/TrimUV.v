(** * Sampling of trimming curves, vertices of trimmed meshes *)
From Coq Require Import Reals Lra Lia List ZArith Bool Sorted.
From Verif Require Import Base BaseFacts Scalar RSum BSpline KnotModel KnotFacts KnotSpec VecFacts MiscModel CurveModel CurveSpec CurveProofs CurveGeom CurveGeom2 NewtonProofs
  SurfaceModel SurfaceSpec SurfaceProofs SurfaceRational MergeModel ClipModel AdaptModel AdaptProofs
  AdaptPoly AdaptTotal AdaptMain SerdeModel TessCurveModel TessCurveProofs PolygonProofs PolygonConnected TrimModel TrimSpec TrimProofs TrimTheorems.
Import ListNotations.
Open Scope R_scope.

(** ** Lists of parameters *)
Lemma sorted_tl_gt a (l : list R) : StronglySorted Rlt l -> (forall u, In u l -> a <= u) -> forall u, In u (tl l) -> a < u.
Proof.
  intros S H u Hu. destruct l as [|x l]; [destruct Hu|]. inversion S as [|? ? S' F]; subst. cbn in Hu. rewrite Forall_forall in F.
  pose proof (F u Hu). pose proof (H x (or_introl eq_refl)). lra.
Qed.
Lemma sorted_tl (l : list R) : StronglySorted Rlt l -> StronglySorted Rlt (tl l).
Proof. intros S. destruct l; [constructor|]. now inversion S. Qed.
Lemma Forall2_tl {A B} (P : A -> B -> Prop) l m : Forall2 P l m -> Forall2 P (tl l) (tl m).
Proof. intros F. inversion F; [constructor|assumption]. Qed.

Section Real.
  Variables eps maxv : R.
  Local Hint Extern 0 (Scalar R) => exact (ROps eps maxv) : typeclass_instances.

  (** the curve is a plane curve that stays in the domain of the surface *)
  Record trims (c : Curve R) (s : Surf R) : Prop := {
    tr_ok : curve_ok c; tr_eps : curve_eps eps c; tr_pos : pos_weights c; tr_dim : cdim c = 3%nat;
    tr_surf : surf_ok s; tr_seps : surf_eps eps s; tr_weight : spos s; tr_sdim : sdim s = 4%nat;
    tr_in : forall u, dom0 c <= u <= dom1 c -> in_rect (dom_rect s) (nurbs c 0 u, nurbs c 1 u)
  }.
  (** the samples are the points of the curve at the parameters [us] *)
  Definition samples (c : Curve R) (us : list R) (pts : list (list R)) : Prop :=
    Forall2 (fun u p => length p = 2%nat /\ rc 0 p = nurbs c 0 u /\ rc 1 p = nurbs c 1 u) us pts.

  Lemma tangent_total c s u : trims c s -> dom0 c <= u <= dom1 c ->
    exists p n, point_tangent_at c u = Ok (p, n) /\ length p = 2%nat /\ rc 0 p = nurbs c 0 u /\ rc 1 p = nurbs c 1 u.
  Proof.
    intros H Hu. destruct (derivs_total eps maxv c u 1 (tr_ok _ _ H) (tr_eps _ _ H) (tr_pos _ _ H) Hu) as (ds & E & L & Ld & V).
    unfold point_tangent_at. rewrite E. cbn [bind]. rewrite !(get_ok _ _ []) by lia. cbn [bind].
    exists (nth 0 ds []), (nth 1 ds []). split; [reflexivity|]. pose proof (Ld 0%nat ltac:(lia)) as L0. pose proof (tr_dim _ _ H) as HD. rewrite HD in *.
    split; [exact L0|]. split; apply V; lia.
  Qed.
  Lemma normal_total c s u p : trims c s -> dom0 c <= u <= dom1 c -> rc 0 p = nurbs c 0 u -> rc 1 p = nurbs c 1 u ->
    exists n, normal_at s (coord 0 p) (coord 1 p) = Ok n.
  Proof.
    intros H Hu E0 E1. rewrite (coord_rc eps maxv 0), (coord_rc eps maxv 1), E0, E1.
    destruct (derivs_ok eps maxv s (tr_surf _ _ H) (tr_seps _ _ H) _ _ (tr_in _ _ H u Hu)) as (ds & E & _ & (a & Ea) & (b & Eb)).
    unfold normal_at. rewrite E. cbn [bind]. rewrite Ea. cbn [bind]. rewrite Eb. cbn [bind]. eauto.
  Qed.

  Lemma iterate_step fuel c s a b tol : trims c s -> dom0 c <= a <= b -> b <= dom1 c ->
    exists p1, (length p1 = 2%nat /\ rc 0 p1 = nurbs c 0 a /\ rc 1 p1 = nurbs c 1 a) /\
    ((b - a < tmin /\ iterate_uv (S fuel) c s a b tol = Ok [p1]) \/
     (tmin <= b - a /\ exists p3 (f : bool), (length p3 = 2%nat /\ rc 0 p3 = nurbs c 0 b /\ rc 1 p3 = nurbs c 1 b) /\
        iterate_uv (S fuel) c s a b tol =
          if f then
            l <- iterate_uv fuel c s a (a + (b - a) * (1 / 2)) tol ;;
            r <- iterate_uv fuel c s (a + (b - a) * (1 / 2)) b tol ;;
            Ok (removelast l ++ r)
          else Ok [p1; p3])).
  Proof.
    intros H Ha Hb. destruct (tangent_total c s a H ltac:(lra)) as (p1 & n1 & E1 & V1). exists p1. split; [exact V1|].
    cbn [iterate_uv]. rewrite E1. cbn [bind]. rs. unfold tess_min. rs. change (1 / 100000000) with tmin.
    destruct (Rltb_spec (b - a) tmin) as [C|C]; [left; auto|right]. split; [exact C|].
    assert (Hab : a < b) by (unfold tmin in C; lra). set (m := a + (b - a) * (1 / 2)).
    assert (Hm : a < m < b) by (unfold m; lra).
    destruct (tangent_total c s m H ltac:(lra)) as (p2 & n2 & E2 & V2). rewrite E2. cbn [bind].
    destruct (tangent_total c s b H ltac:(lra)) as (p3 & n3 & E3 & V3). rewrite E3. cbn [bind].
    destruct (normal_total c s a p1 H ltac:(lra) (proj1 (proj2 V1)) (proj2 (proj2 V1))) as (s1 & S1).
    destruct (normal_total c s m p2 H ltac:(lra) (proj1 (proj2 V2)) (proj2 (proj2 V2))) as (s2 & S2).
    destruct (normal_total c s b p3 H ltac:(lra) (proj1 (proj2 V3)) (proj2 (proj2 V3))) as (s3 & S3).
    exists p3.
    match goal with |- context [if ?f then Ok true else _] => destruct f end; cbn [bind].
    - exists true. split; [exact V3|]. reflexivity.
    - rewrite S1. cbn [bind]. rewrite S2. cbn [bind]. rewrite S3. cbn [bind]. eexists. split; [exact V3|]. reflexivity.
  Qed.

  (** the samples of an interval: points of the curve in strictly increasing order *)
  Theorem iterate_structure n c s tol : trims c s -> forall a b, dom0 c <= a <= b -> b <= dom1 c -> b - a < tmin * 2 ^ n ->
    forall fuel, (n < fuel)%nat -> exists pts us, iterate_uv fuel c s a b tol = Ok pts /\
      samples c us pts /\ us <> [] /\ StronglySorted Rlt us /\ (forall u, In u us -> a <= u <= b) /\ b - tmin < last us a.
  Proof.
    intros H. induction n as [|n IH]; intros a b Ha Hb Hn fuel Hf; (destruct fuel as [|fuel]; [lia|]);
      destruct (iterate_step fuel c s a b tol H Ha Hb) as (p1 & V1 & [(C & E)|(C & p3 & f & V3 & E)]);
      try (exists [p1], [a]; split; [exact E|]; split; [constructor; [exact V1|constructor]|]; split; [discriminate|]; split; [repeat constructor|];
           split; [intros u [<-|[]]; lra|cbn; lra]).
    - cbn in Hn. lra.
    - assert (Hab : a < b) by (unfold tmin in C; lra). destruct f.
      + assert (Hh : (b - a) * (1 / 2) < tmin * 2 ^ n) by (cbn in Hn; lra).
        set (m0 := a + (b - a) * (1 / 2)) in *.
        assert (Hm0 : a < m0 < b) by (unfold m0; lra).
        destruct (IH a m0 ltac:(lra) ltac:(lra) ltac:(unfold m0; lra) fuel ltac:(lia)) as (pl & ul & El & W1 & N1 & S1 & B1 & La).
        destruct (IH m0 b ltac:(lra) ltac:(lra) ltac:(unfold m0; lra) fuel ltac:(lia)) as (pr & ur & Er & W2 & N2 & S2 & B2 & Lb).
        rewrite El in E. cbn [bind] in E. rewrite Er in E. cbn [bind] in E.
        exists (removelast pl ++ pr), (removelast ul ++ ur). split; [exact E|].
        destruct (sorted_removelast ul a S1 N1) as (S1' & Lt).
        assert (Bl : forall x, In x (removelast ul) -> In x ul).
        { intros x Hx. rewrite (app_removelast_last a N1). apply in_or_app. now left. }
        assert (Ll : last ul a <= m0).
        { apply B1. rewrite (app_removelast_last a N1). apply in_or_app. right. left. now rewrite <- (app_removelast_last a N1). }
        split; [apply Forall2_app; [now apply Forall2_removelast|exact W2]|].
        split; [intros X; apply app_eq_nil in X; destruct X; contradiction|].
        split; [apply sorted_app; auto; intros x y Hx Hy; pose proof (Lt x Hx); pose proof (B2 y Hy); lra|].
        split; [intros u Hu; apply in_app_or in Hu; destruct Hu as [Hu|Hu]; [pose proof (B1 u (Bl u Hu))|pose proof (B2 u Hu)]; lra|].
        rewrite last_app_ne by auto. destruct ur as [|x0 ur]; [contradiction|]. revert Lb. clear. revert x0. induction ur as [|x1 ur IH]; intros x0; [auto|exact (IH x1)].
      + exists [p1; p3], [a; b]. split; [exact E|]. split; [constructor; [exact V1|constructor; [exact V3|constructor]]|]. split; [discriminate|].
        split; [repeat constructor; assumption|]. split; [intros u [<-|[<-|[]]]; lra|cbn; unfold tmin; lra].
  Qed.

  (** degree one: span by span *)
  Lemma spans_structure n c s tol fuel : trims c s -> cdeg c = 1%nat -> dom1 c - dom0 c < tmin * 2 ^ n -> (n < fuel)%nat ->
    forall m i, (1 <= i)%nat -> (i + m <= length (cknots c) - 2)%nat ->
    exists l us, mapM (uv_span fuel c s tol) (seq i m) = Ok l /\ samples c us (concat l) /\ StronglySorted Rlt us /\
      (forall u, In u us -> (if (i =? 1)%nat then kf (cknots c) i <= u else kf (cknots c) i < u) /\ u <= kf (cknots c) (i + m)) /\
      ((i = 1)%nat -> (0 < m)%nat -> us <> []).
  Proof.
    intros H Hd Hn Hf. pose proof (tr_ok _ _ H) as Hc. pose proof (co_knots c Hc) as Hk. pose proof (ko_sorted _ _ _ Hk) as Hs. pose proof (curve_len c Hc) as Hl. rewrite Hd in Hl.
    assert (D0 : dom0 c = kf (cknots c) 1) by (unfold dom0; now rewrite Hd).
    assert (D1 : dom1 c = kf (cknots c) (length (cknots c) - 2)). { unfold dom1. f_equal. lia. }
    induction m as [|m IH]; intros i Hi Hm.
    - exists [], []. split; [reflexivity|]. split; [constructor|]. split; [constructor|]. split; [intros u []|lia].
    - cbn [seq mapM]. unfold uv_span at 1. rewrite (get_kf (cknots c) i) by lia. cbn [bind]. rewrite (get_kf (cknots c) (i + 1)) by lia. cbn [bind].
      assert (M : forall j, (1 <= j <= length (cknots c) - 2)%nat -> dom0 c <= kf (cknots c) j <= dom1 c).
      { intros j Hj. rewrite D0, D1. split; (apply (mono_le (kf (cknots c))); [now apply sorted_mono|lia]). }
      assert (Mi : kf (cknots c) i <= kf (cknots c) (i + 1)) by (apply (mono_le (kf (cknots c))); [now apply sorted_mono|lia]).
      pose proof (M i ltac:(lia)) as B1. pose proof (M (i + 1)%nat ltac:(lia)) as B2.
      destruct (iterate_structure n c s tol H (kf (cknots c) i) (kf (cknots c) (i + 1)) ltac:(lra) ltac:(lra) ltac:(lra) fuel Hf)
        as (pts & us & E & V & N & SS & B & _).
      rewrite E. cbn [bind].
      destruct (IH (S i) ltac:(lia) ltac:(lia)) as (l & us' & E' & V' & S' & B' & _). rewrite E'. cbn [bind].
      replace (S i =? 1)%nat with false in B' by (symmetry; apply Nat.eqb_neq; lia).
      replace (S i + m)%nat with (i + S m)%nat in B' by lia. replace (i + 1)%nat with (S i) in * by lia.
      eexists. set (hd := if (i =? 1)%nat then us else skipn 1 us). exists (hd ++ us'). split; [reflexivity|].
      assert (Sk : forall A (x : list A), skipn 1 x = tl x) by (intros A [|? ?]; reflexivity).
      split; [|split; [|split]].
      + cbn [concat]. apply Forall2_app; [|exact V']. unfold hd. destruct (i =? 1)%nat; [exact V|]. rewrite !Sk. now apply Forall2_tl.
      + apply sorted_app; auto; [unfold hd; destruct (i =? 1)%nat; [exact SS|rewrite Sk; now apply sorted_tl]|].
        intros x y Hx Hy. pose proof (proj1 (B' y Hy)). assert (In x us) by (revert Hx; unfold hd; destruct (i =? 1)%nat; [auto|]; destruct us; [auto|now right]).
        pose proof (B x H1). lra.
      + assert (Mm : kf (cknots c) (S i) <= kf (cknots c) (i + S m)) by (apply (mono_le (kf (cknots c))); [now apply sorted_mono|lia]).
        intros u Hu. apply in_app_or in Hu. destruct Hu as [Hu|Hu].
        * unfold hd in Hu. destruct (i =? 1)%nat; [pose proof (B u Hu); lra|]. rewrite Sk in Hu.
          pose proof (sorted_tl_gt (kf (cknots c) i) us SS (fun u Hu => proj1 (B u Hu)) u Hu).
          assert (In u us) by (destruct us; [auto|now right]). pose proof (B u H1). lra.
        * pose proof (B' u Hu). destruct (i =? 1)%nat; lra.
      + intros -> _ X. apply app_eq_nil in X. destruct X as (X & _). exact (N X).
  Qed.

  (** *** The sampling of a trimming curve always ends; it consists of points of the curve in increasing order *)
  Theorem uv_points_structure c s tol : trims c s ->
    exists fuel0, forall fuel, (fuel0 <= fuel)%nat -> exists pts us, uv_points fuel c s tol = Ok pts /\
      samples c us pts /\ us <> [] /\ StronglySorted Rlt us /\ (forall u, In u us -> dom0 c <= u <= dom1 c) /\
      (cdeg c <> 1%nat -> dom1 c - tmin < last us (dom0 c)).
  Proof.
    intros H. pose proof (tr_ok _ _ H) as Hc. pose proof (dom_le c Hc) as Hdl.
    destruct (depth_exists (dom1 c - dom0 c)) as (n & Hn). exists (S n). intros fuel Hf. unfold uv_points.
    destruct (Nat.eqb_spec (cdeg c) 1) as [Hd|Hd].
    - pose proof (curve_len c Hc) as Hl. pose proof (co_len c Hc) as Hlen. rewrite Hd in Hl, Hlen.
      assert (L2 : (4 <= length (cknots c))%nat) by lia.
      unfold usub. rewrite (proj2 (Nat.leb_le 2 (length (cknots c)))) by lia. cbn [bind].
      destruct (spans_structure n c s tol fuel H Hd Hn ltac:(lia) (length (cknots c) - 2 - 1) 1 ltac:(lia) ltac:(lia)) as (l & us & E & V & S & B & N).
      rewrite E. cbn [bind]. exists (concat l), us. split; [reflexivity|]. split; [exact V|]. split; [apply N; lia|]. split; [exact S|]. split; [|contradiction].
      intros u Hu. pose proof (B u Hu) as K. cbn [Nat.eqb] in K. unfold dom0, dom1. rewrite Hd.
      replace (length (cpts c)) with (1 + (length (cknots c) - 2 - 1))%nat by lia. exact K.
    - rewrite knots_domain_ok by exact Hc. cbn [bind].
      destruct (iterate_structure n c s tol H (dom0 c) (dom1 c) ltac:(lra) ltac:(lra) Hn fuel ltac:(lia)) as (pts & us & E & V & N & S & B & L).
      exists pts, us. split; [exact E|]. split; [exact V|]. split; [exact N|]. split; [exact S|]. split; [exact B|]. intros _. exact L.
  Qed.

  (** a vertex lies on the surface *)
  Definition on_surface (s : Surf R) (v : @Vertex R) : Prop :=
    length (vx_uv v) = 2%nat /\ forall i, (i < 3)%nat -> rc i (vx_point v) = snurbs s i (rc 0 (vx_uv v)) (rc 1 (vx_uv v)).

  Lemma surface_vertex_spec c s u p : trims c s -> dom0 c <= u <= dom1 c -> length p = 2%nat -> rc 0 p = nurbs c 0 u -> rc 1 p = nurbs c 1 u ->
    exists v, surface_vertex s p = Ok v /\ vx_uv v = p /\ length (vx_point v) = 3%nat /\ on_surface s v.
  Proof.
    intros H Hu L E0 E1. pose proof (tr_in _ _ H u Hu) as Hi. destruct (normal_total c s u p H Hu E0 E1) as (n & En).
    assert (Hd : in_dom s (rc 0 p) (rc 1 p)) by (rewrite E0, E1; exact Hi).
    destruct (surf_point_at_spec eps maxv s (rc 0 p) (rc 1 p) (tr_surf _ _ H) (tr_seps _ _ H) Hd) as (q & Eq & Lq & Vq).
    { apply Rgt_not_eq. apply (swfun_pos eps maxv s); try apply H; exact Hd. }
    unfold surface_vertex. rewrite En. rewrite (coord_rc eps maxv 0), (coord_rc eps maxv 1). rewrite Eq. cbn [bind].
    exists (MkVx q n p). split; [reflexivity|]. split; [reflexivity|]. rewrite (tr_sdim _ _ H) in *. split; [exact Lq|]. split; [exact L|]. exact Vq.
  Qed.

  (** *** The loop of a trimming curve: vertices on the surface over points of the curve in increasing order *)
  Theorem trim_loop_spec c s tol (k : option (list R)) : trims c s -> (forall ts, k = Some ts -> Forall (fun t => dom0 c <= t <= dom1 c) ts) ->
    exists fuel0, forall fuel, (fuel0 <= fuel)%nat -> exists vs us, trim_loop fuel s tol c k = Ok vs /\
      samples c us (map vx_uv vs) /\ Forall (fun v => length (vx_point v) = 3%nat /\ on_surface s v) vs /\
      match k with
      | Some ts => us = ts
      | None => us <> [] /\ StronglySorted Rlt us /\ (forall u, In u us -> dom0 c <= u <= dom1 c)
      end.
  Proof.
    intros H Hk.
    assert (G : forall us pts, samples c us pts -> (forall u, In u us -> dom0 c <= u <= dom1 c) ->
      exists vs, mapM (surface_vertex s) pts = Ok vs /\ map vx_uv vs = pts /\ Forall (fun v => length (vx_point v) = 3%nat /\ on_surface s v) vs).
    { induction 1 as [|u p us pts (L & E0 & E1) F IH]; intros Hu; [exists []; repeat split; constructor|].
      destruct (surface_vertex_spec c s u p H (Hu u (or_introl eq_refl)) L E0 E1) as (v & Ev & Uv & Ov).
      destruct IH as (vs & Es & Us & Os); [intros; apply Hu; now right|].
      exists (v :: vs). cbn [mapM]. rewrite Ev. cbn [bind]. rewrite Es. cbn [bind map]. rewrite Uv, Us. repeat split; auto. }
    destruct k as [ts|].
    - exists 0%nat. intros fuel _. cbn [trim_loop]. unfold constrained_uv. specialize (Hk ts eq_refl).
      assert (P : exists vs, mapM (fun t => uv <- point_at c t ;; surface_vertex s uv) ts = Ok vs /\ samples c ts (map vx_uv vs) /\ Forall (fun v => length (vx_point v) = 3%nat /\ on_surface s v) vs).
      { induction Hk as [|t ts Ht Hk IH]; [exists []; repeat split; constructor|]. destruct IH as (vs & Es & Us & Os).
        destruct (guess_points eps maxv c t (tr_ok _ _ H) (tr_eps _ _ H) (tr_pos _ _ H) Ht) as (q & Eq & Lq & Vq). rewrite (tr_dim _ _ H) in *.
        destruct (surface_vertex_spec c s t q H Ht Lq (Vq 0%nat ltac:(lia)) (Vq 1%nat ltac:(lia))) as (v & Ev & Uv & Ov).
        exists (v :: vs). cbn [mapM]. rewrite Eq. cbn [bind]. rewrite Ev. cbn [bind]. rewrite Es. cbn [bind map]. rewrite Uv.
        split; [reflexivity|]. split; [|now constructor]. constructor; [|exact Us]. split; [exact Lq|]. split; apply Vq; lia. }
      destruct P as (vs & E1 & E2 & E3). exists vs, ts. auto.
    - destruct (uv_points_structure c s tol H) as (f0 & K). exists f0. intros fuel Hf. destruct (K fuel Hf) as (pts & us & E & V & N & S & B & _).
      cbn [trim_loop]. unfold tessellate_uv. rewrite E. cbn [bind]. destruct (G us pts V B) as (vs & Es & Us & Os). exists vs, us. rewrite Us. split; [exact Es|]. split; [exact V|]. split; [exact Os|]. split; [exact N|]. split; [exact S|exact B].
  Qed.

  Lemma grid_on_surface s m :
    Forall2 (fun uv p => in_rect (dom_rect s) uv /\ forall i, (i < 3)%nat -> rc i p = snurbs s i (fst uv) (snd uv)) (tuvs m) (tpts m) ->
    Forall (on_surface s) (grid_vertices m).
  Proof.
    unfold grid_vertices. destruct m as [pts ns fs uvs]. cbn [tpts tnormals tuvs]. intros F. revert ns.
    induction F as [|uv p uvs pts (_ & V) F IH]; intros ns; destruct ns as [|n ns]; try constructor; [|apply IH].
    split; [reflexivity|exact V].
  Qed.
End Real.
