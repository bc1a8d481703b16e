(** * How far a mesh is from the surface it was made from, in both directions *)
From Coq Require Import Reals Lra Lia List.
From Verif Require Import Base BaseFacts Scalar RSum BSplineSpec BSpline KnotModel KnotSpec KnotFacts VecFacts CurveModel CurveSpec CurveProofs CurveGeom
  SurfaceModel SurfaceSpec SurfaceProofs SurfaceSample SurfaceTess SurfContinuity SurfLipschitz.
Import ListNotations.
Open Scope R_scope.

(** weights of a point of a triangle *)
Definition bary (x y z : R) : Prop := 0 <= x /\ 0 <= y /\ 0 <= z /\ x + y + z = 1.

(** the mean distance from the mean is at most half the range *)
Lemma mean_dev lo hi x y z a b c : bary x y z -> lo <= a <= hi -> lo <= b <= hi -> lo <= c <= hi ->
  let m := x * a + y * b + z * c in x * Rabs (a - m) + y * Rabs (b - m) + z * Rabs (c - m) <= (hi - lo) / 2.
Proof.
  intros (Hx & Hy & Hz & H1) Ha Hb Hc m.
  assert (Hm : lo <= m <= hi).
  { assert (x = 1 - y - z) as -> by lra. unfold m. pose proof (Rmult_le_pos y (b - lo) Hy ltac:(lra)). pose proof (Rmult_le_pos z (c - lo) Hz ltac:(lra)).
    pose proof (Rmult_le_pos (1 - y - z) (a - lo) Hx ltac:(lra)). pose proof (Rmult_le_pos y (hi - b) Hy ltac:(lra)). pose proof (Rmult_le_pos z (hi - c) Hz ltac:(lra)).
    pose proof (Rmult_le_pos (1 - y - z) (hi - a) Hx ltac:(lra)). lra. }
  destruct (Req_dec lo hi) as [E|E].
  { assert (a - m = 0) as -> by lra. assert (b - m = 0) as -> by lra. assert (c - m = 0) as -> by lra. rewrite Rabs_R0. lra. }
  assert (W : 0 < hi - lo) by lra.
  (* the chord of the distance function *)
  assert (Ch : forall t, lo <= t <= hi -> (hi - lo) * Rabs (t - m) <= (hi - t) * (m - lo) + (t - lo) * (hi - m)).
  { intros t Ht. unfold Rabs. destruct (Rcase_abs (t - m)).
    - pose proof (Rmult_le_pos (hi - m) (t - lo) ltac:(lra) ltac:(lra)). lra.
    - pose proof (Rmult_le_pos (m - lo) (hi - t) ltac:(lra) ltac:(lra)). lra. }
  pose proof (Rmult_le_compat_l x _ _ Hx (Ch a Ha)) as A. pose proof (Rmult_le_compat_l y _ _ Hy (Ch b Hb)) as B. pose proof (Rmult_le_compat_l z _ _ Hz (Ch c Hc)) as C.
  apply (Rmult_le_reg_l (hi - lo)); [exact W|].
  set (S := x * Rabs (a - m) + y * Rabs (b - m) + z * Rabs (c - m)).
  assert (Q : (hi - lo) * S <= 2 * ((hi - m) * (m - lo))).
  { apply Rle_trans with (x * ((hi - a) * (m - lo) + (a - lo) * (hi - m)) + y * ((hi - b) * (m - lo) + (b - lo) * (hi - m)) + z * ((hi - c) * (m - lo) + (c - lo) * (hi - m))); [unfold S; lra|].
    apply Req_le. replace (x * ((hi - a) * (m - lo) + (a - lo) * (hi - m)) + y * ((hi - b) * (m - lo) + (b - lo) * (hi - m)) + z * ((hi - c) * (m - lo) + (c - lo) * (hi - m)))
      with (((x + y + z) * hi - m) * (m - lo) + (m - (x + y + z) * lo) * (hi - m)) by (unfold m; ring). rewrite H1. ring. }
  pose proof (Rle_0_sqr ((hi - m) - (m - lo))) as Z. unfold Rsqr in Z. lra.
Qed.

Lemma mean_dev_width w x y z a b c : bary x y z -> Rabs (a - b) <= w -> Rabs (b - c) <= w -> Rabs (a - c) <= w ->
  let m := x * a + y * b + z * c in x * Rabs (a - m) + y * Rabs (b - m) + z * Rabs (c - m) <= w / 2.
Proof.
  intros Hb H1 H2 H3 m.
  assert (K : forall lo hi, lo <= a <= hi -> lo <= b <= hi -> lo <= c <= hi -> hi - lo <= w -> x * Rabs (a - m) + y * Rabs (b - m) + z * Rabs (c - m) <= w / 2).
  { intros lo hi Ha Hb' Hc Hw. eapply Rle_trans; [apply (mean_dev lo hi x y z a b c Hb Ha Hb' Hc)|lra]. }
  revert H1 H2 H3. unfold Rabs at 1 2 3. destruct (Rcase_abs (a - b)), (Rcase_abs (b - c)), (Rcase_abs (a - c)); intros H1 H2 H3;
    first [apply (K a b); lra | apply (K a c); lra | apply (K b a); lra | apply (K b c); lra | apply (K c a); lra | apply (K c b); lra].
Qed.

Section Real.
  Variables eps maxv : R.
  Local Hint Extern 0 (Scalar R) => exact (ROps eps maxv) : typeclass_instances.

  Definition uvk (m : Tess R) (k : nat) : R * R := nth k (tuvs m) (0, 0).
  (** coordinate [i] of the point of a face with given weights *)
  Definition face_coord (m : Tess R) (i a b c : nat) (x y z : R) : R :=
    x * rc i (nth a (tpts m) []) + y * rc i (nth b (tpts m) []) + z * rc i (nth c (tpts m) []).
  (** the vertices lie on the surface at their parameters *)
  Definition on_surface (s : Surf R) (m : Tess R) : Prop :=
    forall k, (k < length (tpts m))%nat -> in_dom s (fst (uvk m k)) (snd (uvk m k)) /\
      forall i, (i < 3)%nat -> rc i (nth k (tpts m) []) = snurbs s i (fst (uvk m k)) (snd (uvk m k)).
  (** every face is at most [wu] by [wv] in the parameters *)
  Definition narrow (m : Tess R) (wu wv : R) : Prop := forall f, In f (tfaces m) -> length f = 3%nat /\
    forall k l, In k f -> In l f -> (k < length (tpts m))%nat /\ Rabs (fst (uvk m k) - fst (uvk m l)) <= wu /\ Rabs (snd (uvk m k) - snd (uvk m l)) <= wv.
  (** every point of the domain lies in the parameters of some face *)
  Definition covering (s : Surf R) (m : Tess R) : Prop := forall u v, in_dom s u v -> exists a b c x y z, In [a; b; c] (tfaces m) /\ bary x y z /\
    u = x * fst (uvk m a) + y * fst (uvk m b) + z * fst (uvk m c) /\ v = x * snd (uvk m a) + y * snd (uvk m b) + z * snd (uvk m c).

  Lemma bary_in lo hi x y z a b c : bary x y z -> lo <= a <= hi -> lo <= b <= hi -> lo <= c <= hi -> lo <= x * a + y * b + z * c <= hi.
  Proof.
    intros (Hx & Hy & Hz & H1) Ha Hb Hc. assert (x = 1 - y - z) as -> by lra. pose proof (Rmult_le_pos y (b - lo) Hy ltac:(lra)). pose proof (Rmult_le_pos z (c - lo) Hz ltac:(lra)).
    pose proof (Rmult_le_pos (1 - y - z) (a - lo) Hx ltac:(lra)). pose proof (Rmult_le_pos y (hi - b) Hy ltac:(lra)). pose proof (Rmult_le_pos z (hi - c) Hz ltac:(lra)).
    pose proof (Rmult_le_pos (1 - y - z) (hi - a) Hx ltac:(lra)). lra.
  Qed.

  Lemma face_near s m wu wv a b c x y z : surf_ok s -> surf_eps eps s -> surf_cont s -> (1 <= sdu s)%nat -> (1 <= sdv s)%nat ->
    on_surface s m -> narrow m wu wv -> In [a; b; c] (tfaces m) -> bary x y z ->
    let u := x * fst (uvk m a) + y * fst (uvk m b) + z * fst (uvk m c) in let v := x * snd (uvk m a) + y * snd (uvk m b) + z * snd (uvk m c) in
    in_dom s u v /\ forall i Ku Kv, (i < 3)%nat -> 0 <= Ku -> 0 <= Kv -> surf_rate s i Ku Kv ->
      Rabs (face_coord m i a b c x y z - snurbs s i u v) <= Ku * (wu / 2) + Kv * (wv / 2).
  Proof.
    intros Hs He Hc Pu Pv Hon Hn Hf Hb u v. destruct (Hn _ Hf) as (_ & N).
    destruct (N a b ltac:(cbn; auto) ltac:(cbn; auto)) as (La & Uab & Vab). destruct (N b c ltac:(cbn; auto) ltac:(cbn; auto)) as (Lb & Ubc & Vbc).
    destruct (N c a ltac:(cbn; auto) ltac:(cbn; auto)) as (Lc & Uca & Vca). rewrite Rabs_minus_sym in Uca, Vca.
    destruct (Hon a La) as (Da & Pa). destruct (Hon b Lb) as (Db & Pb). destruct (Hon c Lc) as (Dc & Pc).
    assert (D : in_dom s u v) by (destruct Da, Db, Dc; split; apply bary_in; assumption).
    split; [exact D|]. intros i Ku Kv Hi HKu HKv HR. unfold face_coord. rewrite Pa, Pb, Pc by exact Hi.
    pose proof (mean_dev_width wu x y z _ _ _ Hb Uab Ubc Uca) as Mu. pose proof (mean_dev_width wv x y z _ _ _ Hb Vab Vbc Vca) as Mv. cbv zeta in Mu, Mv. fold u in Mu. fold v in Mv.
    pose proof (surf_points_lipschitz eps s i Ku Kv _ _ u v Hs He Hc Pu Pv HR Da D) as A.
    pose proof (surf_points_lipschitz eps s i Ku Kv _ _ u v Hs He Hc Pu Pv HR Db D) as B.
    pose proof (surf_points_lipschitz eps s i Ku Kv _ _ u v Hs He Hc Pu Pv HR Dc D) as C.
    destruct Hb as (Hx & Hy & Hz & H1).
    set (sa := snurbs s i (fst (uvk m a)) (snd (uvk m a))) in *. set (sb := snurbs s i (fst (uvk m b)) (snd (uvk m b))) in *. set (sc := snurbs s i (fst (uvk m c)) (snd (uvk m c))) in *. set (q := snurbs s i u v) in *.
    replace (x * sa + y * sb + z * sc - q) with (x * (sa - q) + y * (sb - q) + z * (sc - q)) by (replace q with ((x + y + z) * q) at 4 by (rewrite H1; ring); ring).
    eapply Rle_trans; [apply Rabs_triang|]. eapply Rle_trans; [apply Rplus_le_compat_r, Rabs_triang|]. rewrite !Rabs_mult, (Rabs_pos_eq x), (Rabs_pos_eq y), (Rabs_pos_eq z) by assumption.
    apply (Rmult_le_compat_l x) in A; [|exact Hx]. apply (Rmult_le_compat_l y) in B; [|exact Hy]. apply (Rmult_le_compat_l z) in C; [|exact Hz].
    apply (Rmult_le_compat_l Ku) in Mu; [|exact HKu]. apply (Rmult_le_compat_l Kv) in Mv; [|exact HKv]. lra.
  Qed.

  (** ** Any mesh with vertices on the surface whose faces cover the domain *)
  Theorem mesh_near s m wu wv : surf_ok s -> surf_eps eps s -> surf_cont s -> (1 <= sdu s)%nat -> (1 <= sdv s)%nat ->
    on_surface s m -> narrow m wu wv -> covering s m ->
    (forall a b c x y z, In [a; b; c] (tfaces m) -> bary x y z -> exists u v, in_dom s u v /\
       forall i Ku Kv, (i < 3)%nat -> 0 <= Ku -> 0 <= Kv -> surf_rate s i Ku Kv -> Rabs (face_coord m i a b c x y z - snurbs s i u v) <= Ku * (wu / 2) + Kv * (wv / 2)) /\
    (forall u v, in_dom s u v -> exists a b c x y z, In [a; b; c] (tfaces m) /\ bary x y z /\
       forall i Ku Kv, (i < 3)%nat -> 0 <= Ku -> 0 <= Kv -> surf_rate s i Ku Kv -> Rabs (face_coord m i a b c x y z - snurbs s i u v) <= Ku * (wu / 2) + Kv * (wv / 2)).
  Proof.
    intros Hs He Hc Pu Pv Hon Hn Hcov. split.
    - intros a b c x y z Hf Hb. eexists. eexists. apply (face_near s m wu wv a b c x y z); assumption.
    - intros u v D. destruct (Hcov u v D) as (a & b & c & x & y & z & Hf & Hb & -> & ->). exists a, b, c, x, y, z. split; [exact Hf|]. split; [exact Hb|].
      apply (face_near s m wu wv a b c x y z); assumption.
  Qed.

  (** ** Regular meshes *)
  Lemma reg_step a b n j : (1 <= n)%nat -> reg a b n (j + 1) - reg a b n j = (b - a) / INR n.
  Proof. intros _. unfold reg. rewrite plus_INR. cbn [INR]. ring. Qed.
  Lemma reg_cell a b n x : a <= b -> (1 <= n)%nat -> a <= x <= b -> exists j t, (j < n)%nat /\ 0 <= t <= 1 /\ x = (1 - t) * reg a b n j + t * reg a b n (j + 1).
  Proof.
    intros Hab Hn Hx. assert (N : 0 < INR n) by (apply lt_0_INR; lia).
    assert (Hh : 0 <= (b - a) / INR n) by (apply Rmult_le_pos; [lra|apply Rlt_le, Rinv_0_lt_compat; exact N]).
    assert (G : forall m, (1 <= m <= n)%nat -> x <= reg a b n m -> exists j, (j < m)%nat /\ reg a b n j <= x <= reg a b n (j + 1)).
    { induction m as [|m IH]; intros Hm Hxm; [lia|]. destruct (Rle_dec x (reg a b n m)) as [C|C].
      - destruct (Nat.eq_dec m 0) as [->|Hne]; [exists 0%nat; split; [lia|]; rewrite Nat.add_0_l; split; [unfold reg; cbn [INR]; lra|exact Hxm]|].
        destruct (IH ltac:(lia) C) as (j & Hj & D). exists j. split; [lia|exact D].
      - exists m. split; [lia|]. rewrite Nat.add_1_r. split; [lra|exact Hxm]. }
    destruct (G n ltac:(lia)) as (j & Hj & D). { replace (reg a b n n) with b by (unfold reg; field; lra). lra. }
    pose proof (reg_step a b n j Hn) as St. destruct (Req_dec ((b - a) / INR n) 0) as [Z|Z].
    - exists j, 0. split; [exact Hj|]. split; [lra|]. lra.
    - exists j, ((x - reg a b n j) / ((b - a) / INR n)). split; [exact Hj|].
      set (h := (b - a) / INR n) in *. assert (Hp : 0 < h) by lra. split.
      + split; [apply Rmult_le_pos; [lra|apply Rlt_le, Rinv_0_lt_compat; exact Hp]|]. apply (Rmult_le_reg_r h); [exact Hp|]. replace ((x - reg a b n j) / h * h) with (x - reg a b n j) by (field; lra). lra.
      + replace (reg a b n (j + 1)) with (reg a b n j + h) by lra. field. lra.
  Qed.

  Theorem regular_mesh_near s du dv : surf_ok s -> surf_eps eps s -> spos s -> surf_cont s -> sdim s = 4%nat -> (1 <= sdu s)%nat -> (1 <= sdv s)%nat -> (1 <= du)%nat -> (1 <= dv)%nat ->
    exists m, regular_tessellate s du dv = Ok m /\
    (forall a b c x y z, In [a; b; c] (tfaces m) -> bary x y z -> exists u v, in_dom s u v /\
       forall i Ku Kv, (i < 3)%nat -> 0 <= Ku -> 0 <= Kv -> surf_rate s i Ku Kv ->
         Rabs (face_coord m i a b c x y z - snurbs s i u v) <= Ku * ((u1 s - u0 s) / INR du / 2) + Kv * ((v1 s - v0 s) / INR dv / 2)) /\
    (forall u v, in_dom s u v -> exists a b c x y z, In [a; b; c] (tfaces m) /\ bary x y z /\
       forall i Ku Kv, (i < 3)%nat -> 0 <= Ku -> 0 <= Kv -> surf_rate s i Ku Kv ->
         Rabs (face_coord m i a b c x y z - snurbs s i u v) <= Ku * ((u1 s - u0 s) / INR du / 2) + Kv * ((v1 s - v0 s) / INR dv / 2)).
  Proof.
    intros Hs He Hw Hc HD Pu Pv Hdu Hdv.
    destruct (regular_tessellate_spec eps maxv s du dv Hs He Hw HD Pu Pv) as (m & Em & Lp & _ & _ & Lf & _ & V & F). exists m. split; [exact Em|].
    pose proof (u01 s Hs) as U. pose proof (v01 s Hs) as W.
    assert (HU : forall i j, (i <= du)%nat -> (j <= dv)%nat -> uvk m (vid dv i j) = (gridu s du i, gridv s dv j)) by (intros i j Hi Hj; apply (V i j Hi Hj)).
    assert (HP : forall i j, (i <= du)%nat -> (j <= dv)%nat -> (vid dv i j < length (tpts m))%nat) by (intros i j Hi Hj; rewrite Lp; unfold vid; nia).
    assert (Hon : on_surface s m).
    { intros k Hk. rewrite Lp in Hk. set (i := (k / (dv + 1))%nat). set (j := (k mod (dv + 1))%nat).
      assert (Hi : (i <= du)%nat) by (enough (i < du + 1)%nat by lia; apply Nat.div_lt_upper_bound; lia).
      assert (Hj : (j <= dv)%nat) by (pose proof (Nat.mod_upper_bound k (dv + 1) ltac:(lia)); unfold j; lia).
      assert (Ek : k = vid dv i j) by (unfold vid, i, j; rewrite Nat.mul_comm; apply Nat.div_mod; lia).
      rewrite Ek, (HU i j Hi Hj). cbn [fst snd].
      assert (D : in_dom s (gridu s du i) (gridv s dv j)) by (split; apply reg_le; assumption). split; [exact D|]. intros c Hcc.
      destruct (surf_point_at_spec eps maxv s _ _ Hs He D) as (q & Eq & _ & Vq); [apply Rgt_not_eq, (swfun_pos eps maxv); assumption|].
      destruct (V i j Hi Hj) as (Ep & _). rewrite Ep in Eq. assert (Q : nth (vid dv i j) (tpts m) [] = q) by congruence. rewrite Q. apply Vq. lia. }
    assert (Gu : forall i i', (i <= i' <= i + 1)%nat -> Rabs (gridu s du i - gridu s du i') <= (u1 s - u0 s) / INR du /\ Rabs (gridu s du i' - gridu s du i) <= (u1 s - u0 s) / INR du).
    { intros i i' Hi. assert (0 <= (u1 s - u0 s) / INR du) by (apply Rmult_le_pos; [lra|apply Rlt_le, Rinv_0_lt_compat, lt_0_INR; lia]).
      assert (C : i' = i \/ i' = (i + 1)%nat) by lia. pose proof (reg_step (u0 s) (u1 s) du i Hdu) as St. unfold gridu. destruct C as [-> | ->]; unfold Rabs; repeat (destruct (Rcase_abs _)); lra. }
    assert (Gv : forall i i', (i <= i' <= i + 1)%nat -> Rabs (gridv s dv i - gridv s dv i') <= (v1 s - v0 s) / INR dv /\ Rabs (gridv s dv i' - gridv s dv i) <= (v1 s - v0 s) / INR dv).
    { intros i i' Hi. assert (0 <= (v1 s - v0 s) / INR dv) by (apply Rmult_le_pos; [lra|apply Rlt_le, Rinv_0_lt_compat, lt_0_INR; lia]).
      assert (C : i' = i \/ i' = (i + 1)%nat) by lia. pose proof (reg_step (v0 s) (v1 s) dv i Hdv) as St. unfold gridv. destruct C as [-> | ->]; unfold Rabs; repeat (destruct (Rcase_abs _)); lra. }
    apply mesh_near; try assumption.
    - intros f Hf. apply (In_nth _ _ []) in Hf. destruct Hf as (n & Hn & <-). rewrite Lf in Hn.
      set (q := (n / 2)%nat). set (i := (q / dv)%nat). set (j := (q mod dv)%nat).
      assert (Hq : (q < du * dv)%nat) by (apply Nat.div_lt_upper_bound; lia).
      assert (Hi : (i < du)%nat) by (apply Nat.div_lt_upper_bound; lia).
      assert (Hj : (j < dv)%nat) by (apply Nat.mod_upper_bound; lia).
      assert (Eq : q = (i * dv + j)%nat) by (unfold i, j; rewrite Nat.mul_comm; apply Nat.div_mod; lia).
      destruct (F i j Hi Hj) as (F0 & F1). rewrite <- Eq in F0, F1.
      assert (C : n = (2 * q)%nat \/ n = (2 * q + 1)%nat) by (pose proof (Nat.div_mod n 2 ltac:(lia)); pose proof (Nat.mod_upper_bound n 2 ltac:(lia)); fold q in H; lia).
      assert (A : exists x y z, nth n (tfaces m) [] = [x; y; z] /\ forall k, In k [x; y; z] -> exists i' j', (i <= i' <= i + 1)%nat /\ (j <= j' <= j + 1)%nat /\ k = vid dv i' j').
      { destruct C as [C|C]; [rewrite C, F0|rewrite C, F1]; eexists; eexists; eexists; (split; [reflexivity|]); intros k [<-|[<-|[<-|[]]]].
        - exists i, j. lia. - exists (i + 1)%nat, (j + 1)%nat. lia. - exists i, (j + 1)%nat. lia.
        - exists i, j. lia. - exists (i + 1)%nat, j. lia. - exists (i + 1)%nat, (j + 1)%nat. lia. }
      destruct A as (x & y & z & -> & A). split; [reflexivity|]. intros k l Hk Hl.
      destruct (A k Hk) as (i1 & j1 & I1 & J1 & ->). destruct (A l Hl) as (i2 & j2 & I2 & J2 & ->).
      split; [apply HP; lia|]. rewrite !HU by lia. cbn [fst snd]. split.
      + destruct (Nat.le_gt_cases i1 i2); [apply (Gu i1 i2); lia|apply (Gu i2 i1); lia].
      + destruct (Nat.le_gt_cases j1 j2); [apply (Gv j1 j2); lia|apply (Gv j2 j1); lia].
    - intros u v (Du & Dv). destruct (reg_cell (u0 s) (u1 s) du u U Hdu Du) as (i & p & Hi & Hp & Eu). destruct (reg_cell (v0 s) (v1 s) dv v W Hdv Dv) as (j & q & Hj & Hq & Ev).
      destruct (F i j Hi Hj) as (F0 & F1).
      assert (Hin : forall n, (n < 2 * du * dv)%nat -> In (nth n (tfaces m) []) (tfaces m)) by (intros n Hn; apply nth_In; lia).
      assert (Hc' : (i * dv + j < du * dv)%nat) by nia.
      destruct (Rle_dec p q) as [C|C].
      + exists (vid dv i j), (vid dv (i + 1) (j + 1)), (vid dv i (j + 1)), (1 - q), p, (q - p). split; [rewrite <- F0; apply Hin; lia|]. split; [unfold bary; lra|].
        rewrite !HU by lia. cbn [fst snd]. unfold gridu, gridv. rewrite Eu, Ev. split; ring.
      + exists (vid dv i j), (vid dv (i + 1) j), (vid dv (i + 1) (j + 1)), (1 - p), (p - q), q. split; [rewrite <- F1; apply Hin; lia|]. split; [unfold bary; lra|].
        rewrite !HU by lia. cbn [fst snd]. unfold gridu, gridv. rewrite Eu, Ev. split; ring.
  Qed.
End Real.
