(** * Tessellation of curves *)
From Coq Require Import Reals Lra Lia Sorted ZArith.
From Verif Require Import Base BaseFacts Scalar RSum BSplineSpec BSpline KnotModel KnotSpec KnotFacts VecFacts MiscModel
  CurveModel CurveKnotModel CurveSpec CurveProofs CurveGeom CurveGeom2 CurveShapes CompoundModel TessCurveModel.
Open Scope R_scope.

(** consecutive elements are related *)
Fixpoint chain (P : R -> R -> Prop) (l : list R) : Prop :=
  match l with
  | x :: l' => match l' with y :: _ => P x y | [] => True end /\ chain P l'
  | [] => True
  end.

Lemma chain_glue P l r m d : last l d = m -> l <> [] -> hd d r = m -> r <> [] -> chain P l -> chain P r -> chain P (removelast l ++ r).
Proof.
  intros Hl Nl Hr Nr. induction l as [|x l IH]; [contradiction|]. intros Cl Cr.
  destruct l as [|y l]; [cbn [removelast app]; exact Cr|].
  cbn [chain] in Cl. destruct Cl as (Pxy & Cl). specialize (IH Hl ltac:(discriminate) Cl Cr).
  change (removelast (x :: y :: l)) with (x :: removelast (y :: l)). cbn [app chain]. split; [|exact IH].
  destruct l as [|z l]; [|exact Pxy]. cbn [removelast app]. destruct r as [|r0 r]; [contradiction|].
  cbn in Hl, Hr. congruence.
Qed.

Lemma sorted_removelast l d : StronglySorted Rlt l -> l <> [] ->
  StronglySorted Rlt (removelast l) /\ forall x, In x (removelast l) -> x < last l d.
Proof.
  induction 1 as [|x l Hs IH F]; intros N; [contradiction|].
  destruct l as [|y l]; [cbn; split; [constructor|intros x0 []]|].
  destruct (IH ltac:(discriminate)) as (S1 & L1). change (removelast (x :: y :: l)) with (x :: removelast (y :: l)).
  change (last (x :: y :: l) d) with (last (y :: l) d). rewrite Forall_forall in F. split.
  - constructor; [exact S1|]. apply Forall_forall. intros z Hz. apply F.
    rewrite (app_removelast_last d (l := y :: l)) by discriminate. apply in_or_app. now left.
  - intros z [<-|Hz]; [|now apply L1]. apply F.
    rewrite (app_removelast_last d (l := y :: l)) by discriminate. apply in_or_app. right. left.
    rewrite <- (app_removelast_last d (l := y :: l)) by discriminate. reflexivity.
Qed.

Lemma sorted_app l r : StronglySorted Rlt l -> StronglySorted Rlt r -> (forall x y, In x l -> In y r -> x < y) ->
  StronglySorted Rlt (l ++ r).
Proof.
  intros Hl Hr H. induction Hl as [|x l Hs IH F]; [exact Hr|]. cbn [app]. constructor.
  - apply IH. intros a b Ha Hb. apply H; [now right|auto].
  - rewrite Forall_forall in *. intros y Hy. apply in_app_or in Hy. destruct Hy as [Hy|Hy]; [now apply F|apply H; [now left|auto]].
Qed.

Lemma last_app_ne {A} (l r : list A) d : r <> [] -> last (l ++ r) d = last r d.
Proof.
  intros N. induction l as [|x l IH]; [reflexivity|]. cbn [app]. destruct (l ++ r) as [|y t] eqn:E.
  - apply app_eq_nil in E. destruct E; contradiction.
  - exact IH.
Qed.

Lemma hd_removelast_app {A} (l r : list A) d : l <> [] -> (length l = 1%nat -> hd d r = hd d l) -> hd d (removelast l ++ r) = hd d l.
Proof. intros N H. destruct l as [|x [|y l]]; [contradiction|cbn in *; auto|reflexivity]. Qed.

Lemma Forall2_removelast {A B} (P : A -> B -> Prop) l r : Forall2 P l r -> Forall2 P (removelast l) (removelast r).
Proof.
  induction 1 as [|x y l r Hxy H IH]; [constructor|]. destruct H; [constructor|].
  cbn [removelast] in *. constructor; auto.
Qed.

(** the squared area of the parallelogram over three points *)
Definition sq_dist (p q : list R) : R := rsum (length p) (fun i => (rc i q - rc i p) * (rc i q - rc i p)).
Definition gram (p1 p2 p3 : list R) : R :=
  let d := rsum (length p1) (fun i => (rc i p2 - rc i p1) * (rc i p3 - rc i p1)) in
  sq_dist p1 p2 * sq_dist p1 p3 - d * d.

Section Real.
  Variables eps maxv : R.
  Local Hint Extern 0 (Scalar R) => exact (ROps eps maxv) : typeclass_instances.
  Variable rng : nat -> R.

  Definition tmin : R := 1 / 100000000.
  Definition evaluates (c : Curve R) (us : list R) (pts : list (list R)) : Prop :=
    Forall2 (fun u p => point_at c u = Ok p) us pts.

  Lemma sq_dist_vdot p q : length p = length q -> vdot (vsub p q) (vsub p q) = sq_dist p q.
  Proof.
    intros H. rewrite vdot_rsum by reflexivity. rewrite (vsub_length p q (length p)) by auto. unfold sq_dist.
    apply rsum_ext. intros i Hi. rewrite (rc_vsub eps maxv) by auto. ring.
  Qed.

  (** the flatness test measures [gram] *)
  Lemma flat_gram D p1 p2 p3 tol : D = 2%nat \/ D = 3%nat -> length p1 = D -> length p2 = D -> length p3 = D ->
    exists b, flat_check D p1 p2 p3 tol = Ok b /\
      (b = true <-> (if (D =? 2)%nat then 0 < tol /\ gram p1 p2 p3 < tol * tol else gram p1 p2 p3 < tol)).
  Proof.
    intros HD L1 L2 L3. unfold flat_check. destruct HD as [-> | ->]; cbn [Nat.eqb orb].
    - eexists. split; [reflexivity|]. unfold three_points_are_flat. cbn [Nat.eqb]. rs. rewrite !coord_rc.
      rewrite !(rc_vsub eps maxv) by congruence. unfold gram, sq_dist. rewrite L1. cbn [rsum].
      match goal with |- context [Rltb (Rabs ?x) tol] => set (z := x); destruct (Rltb_spec (Rabs z) tol) as [C|C] end.
      + split; [intros _|reflexivity]. split; [pose proof (Rabs_pos z); lra|].
        replace (_ - _) with (z * z) by (unfold z; ring). pose proof (Rsqr_abs z) as Q. unfold Rsqr in Q. rewrite Q. pose proof (Rabs_pos z). nra.
      + split; [discriminate|]. intros (T & G). exfalso.
        replace (_ - _) with (z * z) in G by (unfold z; ring). pose proof (Rsqr_abs z) as Q. unfold Rsqr in Q. rewrite Q in G. nra.
    - eexists. split; [reflexivity|]. unfold three_points_are_flat. cbn [Nat.eqb]. rs.
      rewrite vdot_rsum by reflexivity. unfold gram, sq_dist. rewrite L1. unfold cross3. cbn [rsum length]. unfold rc at 1 2 3 4 5 6. cbn [nth]. rs. rewrite !coord_rc.
      rewrite !(rc_vsub eps maxv) by congruence.
      match goal with |- context [Rltb ?x tol] => destruct (Rltb_spec x tol) as [C|C] end.
      + split; [intros _|reflexivity]. eapply Rle_lt_trans; [|exact C]. right. ring.
      + split; [discriminate|]. intros G. exfalso. apply (Rlt_irrefl tol). eapply Rle_lt_trans; [exact C|]. eapply Rle_lt_trans; [|exact G]. right. ring.
  Qed.

  Record tess_curve (c : Curve R) : Prop := {
    tc_ok : curve_ok c; tc_eps : curve_eps eps c; tc_pos : pos_weights c;
    tc_dim : (cdim c - 1 = 2)%nat \/ (cdim c - 1 = 3)%nat
  }.
  Definition rng_ok : Prop := forall k, 0 <= rng k <= 1.

  Lemma eval_total c u : tess_curve c -> dom0 c <= u <= dom1 c -> exists p, point_at c u = Ok p /\ length p = (cdim c - 1)%nat.
  Proof.
    intros [Hc He Hw Hd] Hu. destruct (point_at_spec eps maxv c u Hc He Hu) as (p & E & L & _); [|now exists p].
    apply Rgt_not_eq. now apply (wfun_pos eps maxv).
  Qed.

  Lemma split_spec c p1 p2 p3 tol : tess_curve c -> length p1 = (cdim c - 1)%nat -> length p2 = (cdim c - 1)%nat -> length p3 = (cdim c - 1)%nat ->
    exists b, should_split (cdim c - 1) p1 p2 p3 tol = Ok b /\
      (b = false <-> ~ (sq_dist p1 p3 < tol /\ tol < sq_dist p1 p2) /\
         (if (cdim c - 1 =? 2)%nat then 0 < tol /\ gram p1 p2 p3 < tol * tol else gram p1 p2 p3 < tol)).
  Proof.
    intros H L1 L2 L3. unfold should_split. rs. rewrite !sq_dist_vdot by congruence.
    destruct (flat_gram (cdim c - 1) p1 p2 p3 tol (tc_dim c H) L1 L2 L3) as (f & Ef & Hf). rewrite Ef. cbn [bind].
    destruct (Rltb_spec (sq_dist p1 p3) tol) as [C1|C1], (Rltb_spec tol (sq_dist p1 p2)) as [C2|C2]; cbn [andb].
    - exists true. split; [reflexivity|]. split; [discriminate|]. intros (N & _). exfalso. apply N. auto.
    - exists (negb f). split; [reflexivity|]. rewrite <- Hf. destruct f; cbn; intuition (try discriminate; lra).
    - exists (negb f). split; [reflexivity|]. rewrite <- Hf. destruct f; cbn; intuition (try discriminate; lra).
    - exists (negb f). split; [reflexivity|]. rewrite <- Hf. destruct f; cbn; intuition (try discriminate; lra).
  Qed.

  Lemma adaptive_step fuel c a b tol k : tess_curve c -> rng_ok -> dom0 c <= a <= b -> b <= dom1 c ->
    exists p1, point_at c a = Ok p1 /\ length p1 = (cdim c - 1)%nat /\
    ((b - a < tmin /\ tessellate_adaptive rng (S fuel) c a b tol k = Ok ([p1], k)) \/
     (tmin <= b - a /\ exists p2 p3 m s, point_at c b = Ok p3 /\ length p3 = (cdim c - 1)%nat /\
        point_at c m = Ok p2 /\ length p2 = (cdim c - 1)%nat /\
        a + (b - a) * (1 / 2) <= m <= a + (b - a) * (7 / 10) /\
        should_split (cdim c - 1) p1 p2 p3 tol = Ok s /\
        tessellate_adaptive rng (S fuel) c a b tol k =
          if s then
            ' (l, k1) <- tessellate_adaptive rng fuel c a (a + (b - a) * (1 / 2)) tol (S k) ;;
            ' (r, k2) <- tessellate_adaptive rng fuel c (a + (b - a) * (1 / 2)) b tol k1 ;;
            Ok (removelast l ++ r, k2)
          else Ok ([p1; p3], S k))).
  Proof.
    intros H Hr Ha Hb. destruct (eval_total c a H ltac:(lra)) as (p1 & E1 & L1). exists p1. split; [exact E1|]. split; [exact L1|].
    cbn [tessellate_adaptive]. rewrite E1. cbn [bind]. rs. unfold tess_min. rs. change (1 / 100000000) with tmin.
    destruct (Rltb_spec (b - a) tmin) as [C|C]; [left; auto|right]. split; [exact C|].
    destruct (eval_total c b H ltac:(lra)) as (p3 & E3 & L3). rewrite E3. cbn [bind].
    set (m := a + (b - a) * (1 / 2 + 1 / 5 * rng k)).
    assert (Hm : a + (b - a) * (1 / 2) <= m <= a + (b - a) * (7 / 10)).
    { unfold m. pose proof (Hr k). assert (0 < b - a) by (unfold tmin in C; lra).
      assert (0 <= (b - a) * rng k) by (apply Rmult_le_pos; lra). assert ((b - a) * rng k <= (b - a) * 1) by (apply Rmult_le_compat_l; lra). lra. }
    destruct (eval_total c m H) as (p2 & E2 & L2). { unfold tmin in C. lra. } rewrite E2. cbn [bind].
    destruct (split_spec c p1 p2 p3 tol H L1 L2 L3) as (s & Es & _). rewrite Es. cbn [bind].
    exists p2, p3, m, s. repeat (split; [first [assumption | lra | reflexivity]|]). reflexivity.
  Qed.

  (** *** The tessellation of an interval always ends; it consists of points of the curve in increasing order,
      the last of which is as close to the end as the smallest interval *)
  Theorem adaptive_structure n c tol : tess_curve c -> rng_ok -> forall a b k, dom0 c <= a <= b -> b <= dom1 c -> b - a < tmin * 2 ^ n ->
    forall fuel, (n < fuel)%nat -> exists pts k' us, tessellate_adaptive rng fuel c a b tol k = Ok (pts, k') /\
      evaluates c us pts /\ us <> [] /\ StronglySorted Rlt us /\ (forall u, In u us -> a <= u <= b) /\ b - tmin < last us a.
  Proof.
    intros H Hr. induction n as [|n IH]; intros a b k Ha Hb Hn fuel Hf; (destruct fuel as [|fuel]; [lia|]);
      destruct (adaptive_step fuel c a b tol k H Hr Ha Hb) as (p1 & E1 & L1 & [(C & E)|(C & p2 & p3 & m & s & E3 & L3 & E2 & L2 & Hm & Es & E)]);
      try (exists [p1], k, [a]; split; [exact E|]; split; [repeat constructor; exact E1|]; split; [discriminate|]; split; [repeat constructor|];
           split; [intros u [<-|[]]; lra|cbn; lra]).
    - cbn in Hn. lra.
    - assert (Hab : a < b) by (unfold tmin in C; lra). destruct s.
      + assert (Hh : (b - a) * (1 / 2) < tmin * 2 ^ n) by (cbn in Hn; lra).
        set (m0 := a + (b - a) * (1 / 2)) in *.
        assert (Hm0 : a < m0 < b) by (unfold m0; lra).
        destruct (IH a m0 (S k) ltac:(lra) ltac:(lra) ltac:(unfold m0; lra) fuel ltac:(lia)) as (pl & k1 & ul & El & V1 & N1 & S1 & B1 & La).
        destruct (IH m0 b k1 ltac:(lra) ltac:(lra) ltac:(unfold m0; lra) fuel ltac:(lia)) as (pr & k2 & ur & Er & V2 & N2 & S2 & B2 & Lb).
        rewrite El in E. cbn [bind] in E. rewrite Er in E. cbn [bind] in E.
        exists (removelast pl ++ pr), k2, (removelast ul ++ ur). split; [exact E|].
        destruct (sorted_removelast ul a S1 N1) as (S1' & Lt).
        assert (Bl : forall x, In x (removelast ul) -> In x ul).
        { intros x Hx. rewrite (app_removelast_last a N1). apply in_or_app. now left. }
        assert (Ll : last ul a <= m0).
        { apply B1. rewrite (app_removelast_last a N1). apply in_or_app. right. left. now rewrite <- (app_removelast_last a N1). }
        split; [apply Forall2_app; [now apply Forall2_removelast|exact V2]|].
        split; [intros X; apply app_eq_nil in X; destruct X; contradiction|].
        split; [apply sorted_app; auto; intros x y Hx Hy; pose proof (Lt x Hx); pose proof (B2 y Hy); lra|].
        split; [intros u Hu; apply in_app_or in Hu; destruct Hu as [Hu|Hu]; [pose proof (B1 u (Bl u Hu))|pose proof (B2 u Hu)]; lra|].
        rewrite last_app_ne by auto. destruct ur as [|u0 ur]; [contradiction|]. revert Lb. clear. revert u0. induction ur as [|u1 ur IH]; intros u0; [auto|exact (IH u1)].
      + exists [p1; p3], (S k), [a; b]. split; [exact E|]. split; [repeat constructor; assumption|]. split; [discriminate|].
        split; [repeat constructor; assumption|]. split; [intros u [<-|[<-|[]]]; lra|cbn; unfold tmin; lra].
  Qed.

  Lemma depth_exists x : exists n, x < tmin * 2 ^ n.
  Proof.
    destruct (Pow_x_infinity 2) with (b := Rabs x / tmin + 1) as (N & HN).
    { rewrite Rabs_right; lra. }
    exists N. specialize (HN N (le_n N)). rewrite Rabs_right in HN by (apply Rle_ge, pow_le; lra).
    assert (0 < tmin) by (unfold tmin; lra). pose proof (Rle_abs x).
    apply Rle_lt_trans with (Rabs x); [lra|]. replace (Rabs x) with (tmin * (Rabs x / tmin)) by (field; lra).
    apply Rmult_lt_compat_l; lra.
  Qed.

  Definition tol_of (tolerance : option R) : R := match tolerance with Some t => t | None => 1 / 1000 end.

  Theorem tessellate_structure c tolerance : tess_curve c -> rng_ok -> cdeg c <> 1%nat ->
    exists fuel0, forall fuel k, (fuel0 <= fuel)%nat -> exists pts k' us, tessellate rng fuel c tolerance k = Ok (pts, k') /\
      evaluates c us pts /\ us <> [] /\ StronglySorted Rlt us /\ (forall u, In u us -> dom0 c <= u <= dom1 c) /\
      dom1 c - tmin < last us (dom0 c).
  Proof.
    intros H Hr Hd. destruct (depth_exists (dom1 c - dom0 c)) as (n & Hn). exists (S n). intros fuel k Hf.
    pose proof (dom_le c (tc_ok c H)). unfold tessellate. destruct (Nat.eqb_spec (cdeg c) 1); [contradiction|].
    rewrite knots_domain_ok by apply H. cbn [bind].
    apply (adaptive_structure n); auto; lra.
  Qed.

  (** *** With a tolerance that is not positive every curve of degree above one collapses to one point *)
  Theorem adaptive_nonpositive c tol : tess_curve c -> rng_ok -> tol <= 0 -> forall fuel a b k pts k', dom0 c <= a <= b -> b <= dom1 c ->
    tessellate_adaptive rng fuel c a b tol k = Ok (pts, k') -> length pts = 1%nat.
  Proof.
    intros H Hr Ht. induction fuel as [|fuel IH]; intros a b k pts k' Ha Hb E0; [discriminate|].
    destruct (adaptive_step fuel c a b tol k H Hr Ha Hb) as (p1 & E1 & L1 & [(C & E)|(C & p2 & p3 & m & s & E3 & L3 & E2 & L2 & Hm & Es & E)]);
      rewrite E in E0; [injection E0 as <- <-; reflexivity|].
    assert (s = true) as ->.
    { destruct (split_spec c p1 p2 p3 tol H L1 L2 L3) as (s' & Es' & Hs). rewrite Es in Es'. injection Es' as <-.
      destruct s; [reflexivity|]. exfalso. destruct (proj1 Hs eq_refl) as (_ & Hg). destruct (tc_dim c H) as [D|D]; rewrite D in *; cbn [Nat.eqb] in Hg; [lra|].
      (* the squared area is not negative *)
      assert (G : 0 <= gram p1 p2 p3).
      { unfold gram, sq_dist. rewrite L1. cbn [rsum].
        generalize (rc 0 p2 - rc 0 p1) (rc 1 p2 - rc 1 p1) (rc 2 p2 - rc 2 p1) (rc 0 p3 - rc 0 p1) (rc 1 p3 - rc 1 p1) (rc 2 p3 - rc 2 p1). intros x1 y1 z1 x2 y2 z2.
        pose proof (Rle_0_sqr (x1 * y2 - y1 * x2)). pose proof (Rle_0_sqr (x1 * z2 - z1 * x2)). pose proof (Rle_0_sqr (y1 * z2 - z1 * y2)).
        unfold Rsqr in *. lra. }
      lra. }
    assert (Hab : a < b) by (unfold tmin in C; lra). set (m0 := a + (b - a) * (1 / 2)) in *. assert (Hm0 : a < m0 < b) by (unfold m0; lra).
    apply bind_ok in E0. destruct E0 as ([l k1] & El & E0). apply bind_ok in E0. destruct E0 as ([r k2] & Er & E0). injection E0 as <- <-.
    apply IH in El; [|lra|lra]. apply IH in Er; [|lra|lra]. destruct l as [|x [|y l]]; try discriminate. exact Er.
  Qed.

  Theorem tessellate_nonpositive c tol : tess_curve c -> rng_ok -> cdeg c <> 1%nat -> tol <= 0 ->
    exists fuel0, forall fuel k, (fuel0 <= fuel)%nat -> exists p k' u, tessellate rng fuel c (Some tol) k = Ok ([p], k') /\
      point_at c u = Ok p /\ dom1 c - tmin < u <= dom1 c.
  Proof.
    intros H Hr Hd Ht. destruct (tessellate_structure c (Some tol) H Hr Hd) as (n & Hn). exists n. intros fuel k Hf.
    destruct (Hn fuel k Hf) as (pts & k' & us & E & V & N & S & B & L).
    pose proof (dom_le c (tc_ok c H)).
    assert (Lp : length pts = 1%nat).
    { unfold tessellate in E. destruct (Nat.eqb_spec (cdeg c) 1); [contradiction|]. rewrite knots_domain_ok in E by apply H. cbn [bind] in E.
      apply (adaptive_nonpositive c tol H Hr Ht) in E; auto; lra. }
    destruct pts as [|p [|q pts]]; try discriminate. inversion V as [|u p' us' ? Hu Hrest]; subst. inversion Hrest; subst.
    exists p, k', u. split; [exact E|]. split; [exact Hu|]. cbn in L. pose proof (B u (or_introl eq_refl)). lra.
  Qed.

  (** *** Complete tessellations *)

  (** the curve moves at most [M] times as far as the parameter *)
  Definition moves_at_most (c : Curve R) (M : R) : Prop :=
    forall u v p q, dom0 c <= u <= dom1 c -> dom0 c <= v <= dom1 c -> point_at c u = Ok p -> point_at c v = Ok q ->
      sq_dist p q <= (M * (u - v)) * (M * (u - v)).

  (** the chord from [u] to [v] passed the flatness test at some point between *)
  Definition flat_chord (c : Curve R) (tol u v : R) : Prop :=
    u < v /\ exists p1 p2 p3 m, u + (v - u) * (1 / 2) <= m <= u + (v - u) * (7 / 10) /\
      point_at c u = Ok p1 /\ point_at c m = Ok p2 /\ point_at c v = Ok p3 /\
      (tol <= sq_dist p1 p3 \/ sq_dist p1 p2 <= tol) /\
      (if (cdim c - 1 =? 2)%nat then gram p1 p2 p3 < tol * tol else gram p1 p2 p3 < tol).

  Lemma gram_bound p1 p2 p3 x y : sq_dist p1 p2 <= x -> sq_dist p1 p3 <= y -> gram p1 p2 p3 <= x * y.
  Proof.
    intros H1 H2. unfold gram. match goal with |- _ - ?d * ?d <= _ => assert (0 <= d * d) by apply Rle_0_sqr end.
    assert (0 <= sq_dist p1 p2) by (apply rsum_nonneg; intros; apply Rle_0_sqr).
    assert (0 <= sq_dist p1 p3) by (apply rsum_nonneg; intros; apply Rle_0_sqr). nra.
  Qed.

  Theorem adaptive_complete c tol M : tess_curve c -> rng_ok -> 0 < tol -> moves_at_most c M ->
    let q := (2 * tmin * M) * (2 * tmin * M) in q < tol -> q * q < tol ->
    forall n a b k, dom0 c <= a < b -> b <= dom1 c -> tmin <= b - a -> b - a < tmin * 2 ^ n ->
    forall fuel, (n < fuel)%nat -> exists pts k' us, tessellate_adaptive rng fuel c a b tol k = Ok (pts, k') /\
      evaluates c us pts /\ (2 <= length us)%nat /\ hd a us = a /\ last us a = b /\ chain (flat_chord c tol) us.
  Proof.
    intros H Hr Ht HM q Hq Hq2. induction n as [|n IH]; intros a b k Ha Hb Hd Hn fuel Hf; [cbn in Hn; lra|].
    destruct fuel as [|fuel]; [lia|].
    destruct (adaptive_step fuel c a b tol k H Hr ltac:(lra) Hb) as (p1 & E1 & L1 & [(C & E)|(C & p2 & p3 & m & s & E3 & L3 & E2 & L2 & Hm & Es & E)]); [lra|].
    destruct (split_spec c p1 p2 p3 tol H L1 L2 L3) as (s' & Es' & Hs). rewrite Es in Es'. injection Es' as <-.
    destruct s.
    - (* a divided interval is longer than twice the smallest one *)
      assert (Long : 2 * tmin <= b - a).
      { destruct (Rle_lt_dec (2 * tmin) (b - a)) as [|X]; [auto|]. exfalso.
        assert (Q : forall z, 0 <= z <= b - a -> (M * z) * (M * z) <= q).
        { intros z Hz. unfold q. replace (M * z * (M * z)) with ((M * M) * (z * z)) by ring.
          replace (2 * tmin * M * (2 * tmin * M)) with ((M * M) * ((2 * tmin) * (2 * tmin))) by ring.
          apply Rmult_le_compat_l; [apply Rle_0_sqr|]. apply Rmult_le_compat; lra. }
        pose proof (HM a m p1 p2 ltac:(lra) ltac:(lra) E1 E2) as B2. pose proof (HM a b p1 p3 ltac:(lra) ltac:(lra) E1 E3) as B3.
        replace (M * (a - m) * (M * (a - m))) with (M * (m - a) * (M * (m - a))) in B2 by ring.
        replace (M * (a - b) * (M * (a - b))) with (M * (b - a) * (M * (b - a))) in B3 by ring.
        pose proof (Q (m - a) ltac:(lra)). pose proof (Q (b - a) ltac:(lra)).
        assert (Hg : gram p1 p2 p3 <= q * q) by (apply gram_bound; lra).
        assert (true = false) as X'; [|discriminate X']. apply Hs. split; [lra|].
        assert (0 <= q) by apply Rle_0_sqr.
        destruct (cdim c - 1 =? 2)%nat; [split; [lra|nra]|lra]. }
      set (m0 := a + (b - a) * (1 / 2)) in *. assert (Hm0 : a < m0 < b) by (unfold m0; unfold tmin in *; lra).
      assert (Hh : (b - a) * (1 / 2) < tmin * 2 ^ n) by (cbn in Hn; lra).
      destruct (IH a m0 (S k) ltac:(lra) ltac:(lra) ltac:(unfold m0; lra) ltac:(unfold m0; lra) fuel ltac:(lia)) as (pl & k1 & ul & El & V1 & N1 & F1 & La1 & C1).
      destruct (IH m0 b k1 ltac:(lra) ltac:(lra) ltac:(unfold m0; lra) ltac:(unfold m0; lra) fuel ltac:(lia)) as (pr & k2 & ur & Er & V2 & N2 & F2 & La2 & C2).
      rewrite El in E. cbn [bind] in E. rewrite Er in E. cbn [bind] in E.
      exists (removelast pl ++ pr), k2, (removelast ul ++ ur). split; [exact E|].
      assert (Nl : ul <> []) by (intros ->; cbn in N1; lia). assert (Nr : ur <> []) by (intros ->; cbn in N2; lia).
      split; [apply Forall2_app; [now apply Forall2_removelast|exact V2]|].
      split; [rewrite app_length; lia|].
      split; [rewrite hd_removelast_app; auto; lia|].
      split; [|apply (chain_glue _ ul ur m0 a); auto; destruct ur; [contradiction|exact F2]].
      rewrite last_app_ne by auto. revert La2. destruct ur as [|u0 ur]; [contradiction|]. clear. revert u0. induction ur as [|u1 ur IH]; intros u0; [auto|exact (IH u1)].
    - exists [p1; p3], (S k), [a; b]. split; [exact E|]. split; [repeat constructor; assumption|]. split; [cbn; lia|]. split; [reflexivity|]. split; [reflexivity|].
      cbn [chain]. split; [|auto]. split; [lra|]. exists p1, p2, p3, m. split; [exact Hm|]. split; [exact E1|]. split; [exact E2|]. split; [exact E3|].
      destruct (proj1 Hs eq_refl) as (Hs1 & Hs2). split.
      + destruct (Rle_lt_dec tol (sq_dist p1 p3)); [now left|right]. apply Rnot_lt_le. intros X. apply Hs1. auto.
      + destruct (cdim c - 1 =? 2)%nat; [apply Hs2|exact Hs2].
  Qed.

  Theorem tessellate_complete c tolerance M : tess_curve c -> rng_ok -> cdeg c <> 1%nat -> 0 < tol_of tolerance -> moves_at_most c M ->
    (2 * tmin * M) * (2 * tmin * M) < tol_of tolerance -> (2 * tmin * M) * (2 * tmin * M) * ((2 * tmin * M) * (2 * tmin * M)) < tol_of tolerance ->
    tmin <= dom1 c - dom0 c ->
    exists fuel0, forall fuel k, (fuel0 <= fuel)%nat -> exists pts k' us, tessellate rng fuel c tolerance k = Ok (pts, k') /\
      evaluates c us pts /\ (2 <= length us)%nat /\ hd (dom0 c) us = dom0 c /\ last us (dom0 c) = dom1 c /\
      chain (flat_chord c (tol_of tolerance)) us.
  Proof.
    intros H Hr Hd Ht HM Hq Hq2 Hw. destruct (depth_exists (dom1 c - dom0 c)) as (n & Hn). exists (S n). intros fuel k Hf.
    pose proof (dom_le c (tc_ok c H)). unfold tessellate. destruct (Nat.eqb_spec (cdeg c) 1); [contradiction|].
    rewrite knots_domain_ok by apply H. cbn [bind].
    apply (adaptive_complete c (tol_of tolerance) M H Hr Ht HM Hq Hq2 n); auto; lra.
  Qed.
End Real.
