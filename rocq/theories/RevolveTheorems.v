(** * Surfaces of revolution: theorems *)
From Coq Require Import Reals Lra Sorted ZArith String.
From Verif Require Import Base BaseFacts Scalar RSum BSplineSpec BSpline KnotModel KnotSpec KnotFacts KnotProofs VecFacts
  MiscModel MiscProofs CurveModel CurveSpec CurveProofs CurveGeom CurveGeom2 CurveShapes Refine SurfaceModel SurfaceSpec SurfaceProofs
  ArcModel ArcProofs ArcMain ArcCircle ArcTheorems RevolveModel RevolveProofs RevolveColumn RevolveMain.
Open Scope list_scope. Open Scope R_scope.

(** the [j]-th control point of a space curve, without its weight *)
Definition ctrl (c : Curve R) (j : nat) : list R := map (fun l => cpc c l j / cpc c 3 j) (seq 0 3).

Lemma rotated_linear C K phi l : (l < 3)%nat -> length K = 3%nat ->
  exists a0 a1 a2 a3, forall P w, w * rc l (rotated C K phi P) = a0 * (w * rc 0 P) + a1 * (w * rc 1 P) + a2 * (w * rc 2 P) + a3 * w.
Proof.
  intros Hl HK. destruct K as [|k0 [|k1 [|k2 [|]]]]; try discriminate HK.
  set (s := sin phi). set (q := 1 - cos phi).
  set (M := fun l m : nat => (if Nat.eqb l m then cos phi else 0) + nth l [k0; k1; k2] 0 * nth m [k0; k1; k2] 0 * q +
     s * match l, m with 0%nat, 1%nat => - k2 | 0%nat, 2%nat => k1 | 1%nat, 0%nat => k2 | 1%nat, 2%nat => - k0 | 2%nat, 0%nat => - k1 | 2%nat, 1%nat => k0 | _, _ => 0 end).
  exists (M l 0%nat), (M l 1%nat), (M l 2%nat), (rc l C - M l 0%nat * rc 0 C - M l 1%nat * rc 1 C - M l 2%nat * rc 2 C).
  intros P w. unfold rotated. rewrite rc_map_seq by exact Hl. unfold dot, M, q, s, rc.
  destruct l as [|[|[|]]]; [| | |lia]; cbn [length rsum nth cross_l Nat.eqb]; unfold rc; cbn [nth]; ring.
Qed.

Section Real.
  Variables eps maxv : R.
  Local Hint Extern 0 (Scalar R) => exact (ROps eps maxv) : typeclass_instances.
  Local Hint Extern 0 (Trig R) => exact TrigR : typeclass_instances.

  Lemma dehom_points c : curve_ok c -> pos_weights c -> cdim c = 4%nat ->
    dehomogenized_control_points c = Ok (map (ctrl c) (seq 0 (length (cpts c)))) /\
    weights c = map (cpc c 3) (seq 0 (length (cpts c))).
  Proof.
    intros Hc Hw Hd. split.
    - unfold dehomogenized_control_points. rewrite Hd.
      transitivity (Ok (map (fun q => map (fun l => rc l q / rc 3 q) (seq 0 3)) (cpts c))).
      + apply (mapM_ok _ (fun q => map (fun l => rc l q / rc 3 q) (seq 0 3))). intros q Hq.
        destruct (In_nth _ _ [] Hq) as (j & Hj & <-). pose proof (Hw j Hj) as W. rewrite Hd in W. change (cpc c (4 - 1) j) with (rc 3 (nth j (cpts c) [])) in W.
        set (p := nth j (cpts c) []) in *. assert (Lp : length p = 4%nat).
        { pose proof (co_pts c Hc) as F. rewrite Forall_forall in F. rewrite <- Hd. apply F. now apply nth_In. }
        unfold dehomogenize. change (coord (4 - 1) p) with (rc 3 p). rs. rewrite (proj2 (Reqb_false _ _)) by lra. cbn [unwrap]. f_equal.
        destruct p as [|a [|b [|e [|f [|]]]]]; try discriminate Lp. reflexivity.
      + f_equal. apply (list_ext []); [now rewrite !map_length, seq_length|]. intros j Hj. rewrite map_length in Hj.
        rewrite (nth_map_lt _ (cpts c) j [] []) by exact Hj. rewrite (nth_map_lt (ctrl c) (seq 0 (length (cpts c))) j 0%nat []) by (now rewrite seq_length).
        rewrite seq_nth by exact Hj. reflexivity.
    - unfold weights. rewrite Hd. apply (list_ext 0); [now rewrite !map_length, seq_length|]. intros j Hj. rewrite map_length in Hj.
      rewrite (nth_map_lt _ (cpts c) j [] 0) by exact Hj. rewrite (nth_map_lt (cpc c 3) (seq 0 (length (cpts c))) j 0%nat 0) by (now rewrite seq_length).
      rewrite seq_nth by exact Hj. reflexivity.
  Qed.

  Lemma combine_map {X Y Z} (f : X -> Y) (g : X -> Z) l : combine (map f l) (map g l) = map (fun x => (f x, g x)) l.
  Proof. induction l as [|x l IH]; cbn; [reflexivity|]. now rewrite IH. Qed.

  Lemma mapM_exists {A B} (f : A -> Res B) (Q : A -> B -> Prop) : forall l, (forall x, In x l -> exists y, f x = Ok y /\ Q x y) ->
    exists ys, mapM f l = Ok ys /\ Forall2 Q l ys.
  Proof.
    induction l as [|x l IH]; intros H; [exists []; split; [reflexivity|constructor]|].
    destruct (H x (or_introl eq_refl)) as (y & Ey & Qy). destruct IH as (ys & Eys & Qys); [intros z Hz; apply H; now right|].
    exists (y :: ys). cbn [mapM]. rewrite Ey. cbn [bind]. rewrite Eys. cbn [bind]. split; [reflexivity|]. now constructor.
  Qed.

  Lemma mapM_errs {A B} (f : A -> Res B) : forall l x, In x l -> errs (f x) -> (forall z, In z l -> is_ok (f z) \/ errs (f z)) -> errs (mapM f l).
  Proof.
    induction l as [|y l IH]; intros x Hx Ex H; [destruct Hx|]. cbn [mapM].
    destruct (H y (or_introl eq_refl)) as [(z & Ey)|(e & Ey)]; rewrite Ey; cbn [bind]; [|eexists; reflexivity].
    destruct Hx as [->|Hx]; [destruct Ex as (e & Ex); congruence|].
    destruct (IH x Hx Ex) as (e & Ee); [intros w Hw; apply H; now right|]. rewrite Ee. cbn [bind]. eexists; reflexivity.
  Qed.

  (** ** The surface from its columns *)
  Section Columns.
    Variables (c : Curve R) (C K : list R) (dtheta : R) (m : nat) (cols : list (list (list R * R))).
    Hypothesis Hc : curve_ok c.
    Hypothesis He : curve_eps eps c.
    Hypothesis Hw : pos_weights c.
    Hypothesis Hd : cdim c = 4%nat.
    Hypothesis LK : length K = 3%nat.
    Hypothesis Hm : (1 <= m <= 4)%nat.
    Hypothesis Hem : eps <= 1 / 4.
    Hypothesis Hdt : -1 < cos (dtheta / 2).
    Hypothesis Lcols : length cols = length (cpts c).
    Hypothesis Hcols : forall b, (b < length (cpts c))%nat ->
      col_ok (foot C K (ctrl c b)) (arm C K (ctrl c b)) (turn C K (ctrl c b)) (cpc c 3 b) dtheta m (nth b cols []).

    Definition rev_surf : Surf R := MkSurf 4 2 (cdeg c) (aknots m 0 (1 / INR m)) (cknots c)
      (map (fun a => map (fun col => weighted (nth a col ([], 0))) cols) (seq 0 (2 * m + 1))).
    Let s := rev_surf.

    Lemma rev_h : 0 < 1 / INR m.
    Proof. apply Rdiv_lt_0_compat; [lra|]. apply lt_0_INR. lia. Qed.

    Lemma rev_nrow : nrow s = (2 * m + 1)%nat.
    Proof. unfold nrow, s, rev_surf. cbn [snet]. now rewrite map_length, seq_length. Qed.
    Lemma rev_row a : (a < 2 * m + 1)%nat -> nth a (snet s) [] = map (fun col => weighted (nth a col ([], 0))) cols.
    Proof.
      intros Ha. unfold s, rev_surf. cbn [snet].
      rewrite (nth_map_lt _ (seq 0 (2 * m + 1)) a 0%nat []) by (now rewrite seq_length). now rewrite seq_nth by exact Ha.
    Qed.
    Lemma rev_ncol : ncol s = length (cpts c).
    Proof. unfold ncol. rewrite rev_row by lia. now rewrite map_length. Qed.
    Lemma rev_at a b : (a < 2 * m + 1)%nat -> (b < length (cpts c))%nat ->
      nth b (nth a (snet s) []) [] = weighted (nth a (nth b cols []) ([], 0)).
    Proof. intros Ha Hb. rewrite rev_row by exact Ha. rewrite (nth_map_lt _ cols b [] []) by lia. reflexivity. Qed.

    Lemma rev_entry a b : (a < 2 * m + 1)%nat -> (b < length (cpts c))%nat -> exists q w, nth a (nth b cols []) ([], 0) = (q, w) /\ length q = 3%nat.
    Proof.
      intros Ha Hb. pose proof (Hcols b Hb) as Ho. destruct (Nat.Even_or_Odd a) as [(i & ->)|(i & ->)].
      - destruct (cl_end _ _ _ _ _ _ _ Ho i ltac:(lia)) as (q & E & L & _). eauto.
      - destruct (cl_mid _ _ _ _ _ _ _ Ho i ltac:(lia)) as (q & E & L & _). eauto.
    Qed.

    Lemma weighted_rc (q : list R) (w : R) l : length q = 3%nat -> (l < 3)%nat -> rc l (weighted (q, w)) = rc l q * w.
    Proof. intros L Hl. unfold weighted. rewrite rc_app_l by (rewrite (vscale_length _ _ 3); [lia|exact L]). now rewrite rc_vscale. Qed.
    Lemma weighted_w (q : list R) (w : R) : length q = 3%nat -> rc 3 (weighted (q, w)) = w.
    Proof. intros L. unfold weighted. rewrite rc_app_r by (rewrite (vscale_length _ _ 3); [lia|exact L]). rewrite (vscale_length _ _ 3) by exact L. reflexivity. Qed.

    Lemma rev_ok : surf_ok s.
    Proof.
      pose proof (co_len c Hc) as Hl. constructor.
      - cbn. lia.
      - apply Forall_forall. intros row Hr. destruct (In_nth _ _ [] Hr) as (a & Ha & <-). fold (nrow s) in Ha. rewrite rev_nrow in Ha.
        rewrite rev_ncol, rev_row by exact Ha. rewrite map_length. exact Lcols.
      - apply Forall_forall. intros row Hr. destruct (In_nth _ _ [] Hr) as (a & Ha & <-). fold (nrow s) in Ha. rewrite rev_nrow in Ha.
        apply Forall_forall. intros p Hp. destruct (In_nth _ _ [] Hp) as (b & Hb & <-).
        assert (Hb' : (b < length (cpts c))%nat) by (rewrite rev_row, map_length in Hb by exact Ha; lia).
        rewrite rev_at by assumption. destruct (rev_entry a b Ha Hb') as (q & w & E & L). rewrite E. unfold weighted.
        rewrite app_length, (vscale_length _ _ 3) by exact L. reflexivity.
      - rewrite rev_nrow. cbn. lia.
      - rewrite rev_ncol. exact Hl.
      - rewrite rev_nrow. change (sdu s) with 2%nat. change (suk s) with (aknots m 0 (1 / INR m)). replace (2 * m + 1 - 1)%nat with (2 * m)%nat by lia.
        apply aknots_ok; [lia|exact rev_h].
      - rewrite rev_ncol. exact (co_knots c Hc).
    Qed.

    Lemma rev_eps : surf_eps eps s.
    Proof.
      split; [|rewrite rev_ncol; exact He]. rewrite rev_nrow. change (sdu s) with 2%nat. change (suk s) with (aknots m 0 (1 / INR m)).
      unfold eps_ok. replace (2 * m + 1 - 1)%nat with (2 * m)%nat by lia.
      pose proof (aknots_even m 0 (1 / INR m) 0 ltac:(lia)) as E0. pose proof (aknots_odd m 0 (1 / INR m) 1 ltac:(lia)) as E1.
      change (2 * 0 + 2)%nat with 2%nat in E0. change (2 * 1 + 1)%nat with (2 + 1)%nat in E1.
      pose proof (aknots_even m 0 (1 / INR m) (m - 1) ltac:(lia)) as E2. pose proof (aknots_odd m 0 (1 / INR m) m ltac:(lia)) as E3.
      replace (2 * (m - 1) + 2)%nat with (2 * m)%nat in E2 by lia. rewrite E0, E1, E2, E3.
      assert (M : 1 / 4 <= 1 / INR m).
      { assert (INR m <= 4) by (replace 4 with (INR 4) by (cbn; lra); apply le_INR; lia). assert (0 < INR m) by (apply lt_0_INR; lia).
        unfold Rdiv. apply Rmult_le_compat_l; [lra|]. apply Rinv_le_contravar; lra. }
      pose proof (proj1 He) as P. rewrite minus_INR by lia. cbn [INR]. split; [exact P|]. split; lra.
    Qed.

    Lemma rev_dom : u0 s = 0 /\ u1 s = 1 /\ v0 s = dom0 c /\ v1 s = dom1 c.
    Proof.
      unfold u0, u1, v0, v1. rewrite rev_nrow, rev_ncol. change (sdu s) with 2%nat. change (suk s) with (aknots m 0 (1 / INR m)).
      pose proof (aknots_even m 0 (1 / INR m) 0 ltac:(lia)) as E0. change (2 * 0 + 2)%nat with 2%nat in E0. rewrite E0.
      rewrite aknots_odd by lia. cbn [INR]. assert (0 < INR m) by (apply lt_0_INR; lia). split; [lra|]. split; [field; lra|]. split; reflexivity.
    Qed.

    (** the column curve above control point [b] on piece [i] *)
    Lemma rev_col b i t psi : (b < length (cpts c))%nat -> (i < m)%nat -> 0 <= t < 1 \/ (S i = m /\ t = 1) -> on_conic t (dtheta / 2) psi ->
      let u := INR i * (1 / INR m) + t * (1 / INR m) in
      let phi := INR i * dtheta + dtheta / 2 + psi in
      hcoord (ucol s b) 3 u = conic_w t (dtheta / 2) * cpc c 3 b /\
      forall l, (l < 3)%nat -> hcoord (ucol s b) l u = conic_w t (dtheta / 2) * (cpc c 3 b * rc l (rotated C K phi (ctrl c b))).
    Proof.
      intros Hb Hi Ht Hpsi u phi. pose proof (ucol_ok s b rev_ok ltac:(rewrite rev_ncol; exact Hb)) as Hu.
      assert (Q : forall l, hcoord (ucol s b) l u =
        (1 - t) * (1 - t) * spc s l (2 * i) b + 2 * t * (1 - t) * spc s l (2 * i + 1) b + t * t * spc s l (2 * S i) b).
      { intros l. pose proof (quad_piece (ucol s b) m 0 (1 / INR m) l i t Hu eq_refl) as H. rewrite Rplus_0_l in H. fold u in H. rewrite H.
        - rewrite !ucol_cpc by (rewrite rev_nrow; lia). reflexivity.
        - cbn [ucol cpts]. rewrite map_length. exact rev_nrow.
        - reflexivity.
        - exact rev_h.
        - exact Hi.
        - exact Ht. }
      pose proof (Hcols b Hb) as Ho.
      destruct (cl_end _ _ _ _ _ _ _ Ho i ltac:(lia)) as (q0 & E0 & L0 & H0).
      destruct (cl_end _ _ _ _ _ _ _ Ho (S i) ltac:(lia)) as (q2 & E2 & L2 & H2).
      destruct (cl_mid _ _ _ _ _ _ _ Ho i ltac:(lia)) as (q1 & E1 & L1 & H1). split.
      - rewrite Q. unfold spc. rewrite !rev_at by lia. rewrite E0, E1, E2, !weighted_w by assumption. unfold conic_w. ring.
      - intros l Hl. rewrite Q. unfold spc. rewrite !rev_at by lia. rewrite E0, E1, E2, !weighted_rc by assumption.
        rewrite rotated_frame by assumption. unfold phi. rewrite H0, H2 by exact Hl. specialize (H1 l Hl).
        pose proof (conic_point t (dtheta / 2) (INR i * dtheta) psi (rc l (foot C K (ctrl c b))) (rc l (arm C K (ctrl c b))) (rc l (turn C K (ctrl c b))) Hpsi) as X.
        replace (INR i * dtheta + 2 * (dtheta / 2)) with (INR (S i) * dtheta) in X by (rewrite S_INR; field).
        rewrite <- H1 in X. set (w := cpc c 3 b). set (cd := cos (dtheta / 2)) in *. 
        transitivity (w * (conic_w t (dtheta / 2) * (rc l (foot C K (ctrl c b)) + rc l (arm C K (ctrl c b)) * cos (INR i * dtheta + dtheta / 2 + psi) +
            rc l (turn C K (ctrl c b)) * sin (INR i * dtheta + dtheta / 2 + psi)))); [|ring].
        rewrite <- X. ring.
    Qed.

    Lemma rev_point i t psi v p : (i < m)%nat -> 0 <= t < 1 \/ (S i = m /\ t = 1) -> on_conic t (dtheta / 2) psi ->
      dom0 c <= v <= dom1 c -> point_at c v = Ok p ->
      surf_point_at s (INR i * (1 / INR m) + t * (1 / INR m)) v = Ok (rotated C K (INR i * dtheta + dtheta / 2 + psi) p).
    Proof.
      intros Hi Ht Hpsi Hv Ep. set (u := INR i * (1 / INR m) + t * (1 / INR m)). set (phi := INR i * dtheta + dtheta / 2 + psi).
      pose proof rev_h as Hh. assert (Ht01 : 0 <= t <= 1) by (destruct Ht as [|(_ & ->)]; lra).
      pose proof (conic_pos t (dtheta / 2) Ht01 Hdt) as HW. set (W := conic_w t (dtheta / 2)) in *.
      pose proof (wfun_pos eps maxv c v Hc He Hw Hv) as Hwf.
      assert (Cv : forall l, hcoord c l v = rsum (length (cpts c)) (fun b => Nv s b v * cpc c l b)).
      { intros l. unfold hcoord. apply rsum_ext. intros b Hb. unfold Nv. destruct rev_dom as (_ & _ & _ & ->). reflexivity. }
      destruct (point_at_spec eps maxv c v Hc He Hv ltac:(lra)) as (p' & Ep' & Lp & Hp). rewrite Ep' in Ep. injection Ep as ->.
      rewrite Hd in Lp, Hp. change (4 - 1)%nat with 3%nat in Lp, Hp.
      assert (Wf : wfun c v = hcoord c 3 v) by (unfold wfun; now rewrite Hd).
      assert (SW : swfun s u v = W * wfun c v).
      { unfold swfun. change (sdim s - 1)%nat with 3%nat. rewrite shcoord_cols by exact rev_ok. rewrite rev_ncol, Wf, Cv, <- rsum_scal.
        apply rsum_ext. intros b Hb. pose proof (rev_col b i t psi Hb Hi Ht Hpsi) as X. cbv zeta in X. fold u W in X. rewrite (proj1 X). ring. }
      assert (SH : forall l, (l < 3)%nat -> shcoord s l u v = W * (wfun c v * rc l (rotated C K phi p))).
      { intros l Hl. destruct (rotated_linear C K phi l Hl LK) as (a0 & a1 & a2 & a3 & HL). rewrite HL.
        assert (Hq : forall j, (j < 3)%nat -> wfun c v * rc j p = hcoord c j v).
        { intros j Hj. rewrite Hp by exact Hj. unfold nurbs. field. lra. }
        rewrite !Hq by lia. rewrite Wf, !Cv, <- !rsum_scal, <- !rsum_plus, <- rsum_scal.
        rewrite shcoord_cols by exact rev_ok. rewrite rev_ncol. apply rsum_ext. intros b Hb.
        pose proof (rev_col b i t psi Hb Hi Ht Hpsi) as X. cbv zeta in X. fold u W phi in X. rewrite (proj2 X l Hl). rewrite HL.
        assert (Cw : 0 < cpc c 3 b) by (pose proof (Hw b Hb) as X2; rewrite Hd in X2; exact X2).
        assert (Hq2 : forall j, (j < 3)%nat -> cpc c 3 b * rc j (ctrl c b) = cpc c j b).
        { intros j Hj. unfold ctrl. rewrite rc_map_seq by exact Hj. field. lra. }
        rewrite !Hq2 by lia. ring. }
      destruct (surf_point_at_spec eps maxv s u v rev_ok rev_eps) as (q & Eq & Lq & Hq).
      { destruct rev_dom as (A1 & A2 & A3 & A4). unfold in_dom. rewrite A1, A2, A3, A4. split; [|exact Hv]. unfold u.
        assert (0 <= INR i * (1 / INR m)) by (apply Rmult_le_pos; [apply pos_INR|lra]).
        assert (0 <= t * (1 / INR m)) by (apply Rmult_le_pos; lra).
        assert (INR (S i) * (1 / INR m) <= INR m * (1 / INR m)) by (apply Rmult_le_compat_r; [lra|apply le_INR; lia]).
        assert (INR m * (1 / INR m) = 1) by (field; apply not_0_INR; lia).
        rewrite S_INR in *. assert (t * (1 / INR m) <= 1 * (1 / INR m)) by (apply Rmult_le_compat_r; lra). lra. }
      { rewrite SW. nra. }
      rewrite Eq. f_equal. change (sdim s - 1)%nat with 3%nat in *. apply (vec_ext _ _ 3); [exact Lq|reflexivity|].
      intros l Hl. rewrite Hq by exact Hl. unfold snurbs. rewrite SW, SH by exact Hl. field. split; lra.
    Qed.
  End Columns.

  (** [s] is the profile [c] turned about the axis through all the angles between 0 and [theta] *)
  Definition turns (s : Surf R) (c : Curve R) (C K : list R) (theta : R) : Prop :=
    surf_ok s /\ surf_eps eps s /\ sdim s = 4%nat /\ u0 s = 0 /\ u1 s = 1 /\ v0 s = dom0 c /\ v1 s = dom1 c /\
    (forall u, 0 <= u <= 1 -> exists phi, between 0 theta phi /\
       forall v p, dom0 c <= v <= dom1 c -> point_at c v = Ok p -> surf_point_at s u v = Ok (rotated C K phi p)) /\
    (forall v p, dom0 c <= v <= dom1 c -> point_at c v = Ok p ->
       surf_point_at s 0 v = Ok (rotated C K 0 p) /\ surf_point_at s 1 v = Ok (rotated C K theta p)) /\
    (forall phi, between 0 theta phi -> exists u, 0 <= u <= 1 /\
       forall v p, dom0 c <= v <= dom1 c -> point_at c v = Ok p -> surf_point_at s u v = Ok (rotated C K phi p)).

  Lemma rev_turns c C K theta m cols :
    curve_ok c -> curve_eps eps c -> pos_weights c -> cdim c = 4%nat -> length K = 3%nat -> (1 <= m <= 4)%nat -> eps <= 1 / 4 ->
    - (2 * PI) < theta / INR m < 2 * PI -> length cols = length (cpts c) ->
    (forall b, (b < length (cpts c))%nat ->
      col_ok (foot C K (ctrl c b)) (arm C K (ctrl c b)) (turn C K (ctrl c b)) (cpc c 3 b) (theta / INR m) m (nth b cols [])) ->
    turns (rev_surf c m cols) c C K theta.
  Proof.
    intros Hc He Hw Hd LK Hm Hem Hdt Lcols Hcols. set (dtheta := theta / INR m) in *.
    assert (Hm0 : 0 < INR m) by (apply lt_0_INR; lia).
    assert (Et : theta = INR m * dtheta) by (unfold dtheta; field; lra).
    assert (Hcd : -1 < cos (dtheta / 2)).
    { pose proof (COS_bound (dtheta / 2)) as Bd. destruct (Req_dec (cos (dtheta / 2)) (-1)) as [E|N]; [|lra]. exfalso.
      pose proof (sin2_cos2 (dtheta / 2)) as S. unfold Rsqr in S. rewrite E in S. assert (S0 : sin (dtheta / 2) = 0) by nra.
      destruct (Rle_dec 0 dtheta) as [P|P].
      - destruct (Req_dec dtheta 0) as [Z|Z]; [rewrite Z in E; replace (0 / 2) with 0 in E by lra; rewrite cos_0 in E; lra|].
        assert (0 < sin (dtheta / 2)) by (apply sin_gt_0; lra). lra.
      - assert (0 < sin (- (dtheta / 2))) by (apply sin_gt_0; lra). rewrite sin_neg in *. lra. }
    pose proof (rev_point c C K dtheta m cols Hc He Hw Hd LK Hm Hem Hcd Lcols Hcols) as RP. set (s := rev_surf c m cols) in *.
    assert (Hh : 0 < 1 / INR m) by (apply Rdiv_lt_0_compat; lra).
    assert (Hbt : forall i x, (i < m)%nat -> between (INR i * dtheta) (INR (S i) * dtheta) x -> between 0 theta x).
    { intros i x Hi Hx. assert (0 <= INR i) by apply pos_INR. assert (INR (S i) <= INR m) by (apply le_INR; lia). rewrite Et.
      destruct (Rle_dec 0 dtheta) as [P|P].
      - assert (0 <= INR i * dtheta) by (now apply Rmult_le_pos). assert (INR (S i) * dtheta <= INR m * dtheta) by (now apply Rmult_le_compat_r).
        assert (INR i * dtheta <= INR (S i) * dtheta) by (rewrite S_INR; nra). left. destruct Hx; lra.
      - assert (0 <= INR i * - dtheta) by (apply Rmult_le_pos; lra). assert (INR (S i) * - dtheta <= INR m * - dtheta) by (apply Rmult_le_compat_r; lra).
        assert (INR i * - dtheta <= INR (S i) * - dtheta) by (rewrite S_INR; nra). right. destruct Hx; lra. }
    assert (Um : INR m * (1 / INR m) = 1) by (field; lra).
    destruct (rev_dom c K m cols Hd LK Hm Lcols) as (D0 & D1 & D2 & D3). fold s in D0, D1, D2, D3.
    split; [apply (rev_ok c C K dtheta m cols); assumption|]. split; [apply (rev_eps c K m cols); assumption|].
    split; [reflexivity|]. split; [exact D0|]. split; [exact D1|]. split; [exact D2|]. split; [exact D3|].
    split; [|split].
    - intros u Hu. destruct (piece_of_param m 0 (1 / INR m) u Hh ltac:(lia) ltac:(lra)) as (i & t & Hi & Ht & Eu).
      destruct (conic_exists t (dtheta / 2) ltac:(destruct Ht as [|(_ & ->)]; lra) Hcd ltac:(lra)) as (psi & Hpsi & Hb).
      exists (INR i * dtheta + dtheta / 2 + psi). split.
      + apply (Hbt i _ Hi). rewrite S_INR. destruct Hb as [Hb|Hb]; [left|right]; lra.
      + intros v p Hv Ep. rewrite Eu, Rplus_0_l. apply RP; assumption.
    - intros v p Hv Ep. split.
      + pose proof (RP 0%nat 0 (- (dtheta / 2)) v p ltac:(lia) ltac:(left; lra) (conic_0 _) Hv Ep) as H.
        cbn [INR] in H. replace (0 * (1 / INR m) + 0 * (1 / INR m)) with 0 in H by ring.
        replace (0 * dtheta + dtheta / 2 + - (dtheta / 2)) with 0 in H by ring. exact H.
      + pose proof (RP (m - 1)%nat 1 (dtheta / 2) v p ltac:(lia) ltac:(right; split; [lia|reflexivity]) (conic_1 _) Hv Ep) as H.
        rewrite minus_INR in H by lia. cbn [INR] in H.
        replace ((INR m - 1) * (1 / INR m) + 1 * (1 / INR m)) with 1 in H by (field; lra).
        replace ((INR m - 1) * dtheta + dtheta / 2 + dtheta / 2) with theta in H by (rewrite Et; field). exact H.
    - intros phi Hphi. destruct (Req_dec phi theta) as [->|Np].
      { exists 1. split; [lra|]. intros v p Hv Ep. pose proof (RP (m - 1)%nat 1 (dtheta / 2) v p ltac:(lia) ltac:(right; split; [lia|reflexivity]) (conic_1 _) Hv Ep) as H.
        rewrite minus_INR in H by lia. cbn [INR] in H.
        replace ((INR m - 1) * (1 / INR m) + 1 * (1 / INR m)) with 1 in H by (field; lra).
        replace ((INR m - 1) * dtheta + dtheta / 2 + dtheta / 2) with theta in H by (rewrite Et; field). exact H. }
      assert (exists i, (i < m)%nat /\ between (INR i * dtheta) (INR (S i) * dtheta) phi /\ phi <> INR (S i) * dtheta) as (i & Hi & Hb & Hn).
      { destruct (Rlt_dec 0 dtheta) as [P|P].
        - destruct (piece_of_angle 0 dtheta m phi P) as (i & Hi & Hb).
          { assert (0 <= theta) by (rewrite Et; apply Rmult_le_pos; [apply pos_INR|lra]). rewrite <- Et. destruct Hphi; lra. }
          exists i. split; [exact Hi|]. split; [left; lra|lra].
        - destruct (Req_dec dtheta 0) as [Z|Z].
          { exfalso. assert (theta = 0) by (rewrite Et, Z; ring). destruct Hphi; lra. }
          destruct (piece_of_angle 0 (- dtheta) m (- phi)) as (i & Hi & Hb).
          { lra. } { assert (0 <= INR m * - dtheta) by (apply Rmult_le_pos; [apply pos_INR|lra]). destruct Hphi; lra. }
          exists i. split; [exact Hi|]. split; [right; lra|lra]. }
      destruct (conic_reach (dtheta / 2) (phi - INR i * dtheta - dtheta / 2)) as (t & Ht & Hcn).
      { lra. } { rewrite S_INR in Hb. destruct Hb; [left|right]; lra. } { rewrite S_INR in Hn. lra. }
      exists (INR i * (1 / INR m) + t * (1 / INR m)). split.
      + assert (0 <= INR i * (1 / INR m)) by (apply Rmult_le_pos; [apply pos_INR|lra]).
        assert (0 <= t * (1 / INR m)) by (apply Rmult_le_pos; lra).
        assert (INR (S i) * (1 / INR m) <= INR m * (1 / INR m)) by (apply Rmult_le_compat_r; [lra|apply le_INR; lia]).
        rewrite S_INR in *. assert (t * (1 / INR m) <= 1 * (1 / INR m)) by (apply Rmult_le_compat_r; lra). lra.
      + intros v p Hv Ep. pose proof (RP i t _ v p Hi (or_introl Ht) Hcn Hv Ep) as H.
        replace (INR i * dtheta + dtheta / 2 + (phi - INR i * dtheta - dtheta / 2)) with phi in H by ring. exact H.
  Qed.

  (** control points on the axis, or further away from it than the tolerance *)
  Definition clear_of_axis (c : Curve R) (C K : list R) : Prop :=
    forall j, (j < length (cpts c))%nat -> axis_dist2 C K (ctrl c j) = 0 \/ eps * eps < axis_dist2 C K (ctrl c j).

  Theorem revolve_turns c C K theta :
    curve_ok c -> curve_eps eps c -> pos_weights c -> cdim c = 4%nat ->
    length C = 3%nat -> length K = 3%nat -> dot K K = 1 -> clear_of_axis c C K ->
    eps <= 1 / 4 -> - (2 * PI) < theta <= 2 * PI -> (theta <= PI / 2 -> eps <= sin theta * sin theta) ->
    exists s, try_revolve c C K theta = Ok s /\ turns s c C K theta.
  Proof.
    intros Hc He Hw Hd LC LK HK Hax Hem Hth Hsin. pose proof PI_RGT_0 as Hpi. pose proof (proj1 He) as Hep.
    destruct (arcs_count eps maxv theta) as (m & k & E1 & Hm & E2 & M1 & M2 & M3).
    set (dtheta := theta / INR m) in *. assert (Hm0 : 0 < INR m) by (apply lt_0_INR; lia).
    assert (Hs2 : eps <= sin dtheta * sin dtheta /\ - (2 * PI) < dtheta < 2 * PI).
    { destruct (Rle_dec theta (PI / 2)) as [L|L].
      - assert (Ed : dtheta = theta) by (unfold dtheta; rewrite (M1 L); cbn; field). rewrite Ed. split; [now apply Hsin|lra].
      - specialize (M2 ltac:(lra)). specialize (M3 ltac:(lra)). fold dtheta in M2, M3. split; [|lra].
        assert (sin (PI / 4) <= sin dtheta) by (apply sin_incr_1; lra). rewrite sin_PI4 in *.
        assert (S2 : 1 / sqrt 2 * (1 / sqrt 2) = 1 / 2).
        { assert (sqrt 2 <> 0) by (apply Rgt_not_eq, sqrt_lt_R0; lra). assert (sqrt 2 * sqrt 2 = 2) by (apply sqrt_sqrt; lra).
          transitivity (1 / (sqrt 2 * sqrt 2)); [field; assumption|]. match goal with E : sqrt 2 * sqrt 2 = 2 |- _ => now rewrite E end. }
        assert (0 < 1 / sqrt 2) by (apply Rdiv_lt_0_compat; [lra|apply sqrt_lt_R0; lra]). nra. }
    destruct Hs2 as (Hs2 & Hd2).
    destruct (trig_lists eps maxv m dtheta) as (cs & ss & E3 & L1 & L2 & T1 & T2).
    destruct (dehom_points c Hc Hw Hd) as (E4 & E5).
    destruct (mapM_exists (fun '(p, w) => revolve_column C K (cos (dtheta / 2)) cs ss m p w)
       (fun pw col => col_ok (foot C K (fst pw)) (arm C K (fst pw)) (turn C K (fst pw)) (snd pw) dtheta m col)
       (map (fun j => (ctrl c j, cpc c 3 j)) (seq 0 (length (cpts c))))) as (cols & E6 & F).
    { intros (p & w) Hin. apply in_map_iff in Hin. destruct Hin as (j & Ej & Hj). apply in_seq in Hj. injection Ej as <- <-. cbn [fst snd].
      apply (revolve_column_spec eps maxv C K (ctrl c j) (cpc c 3 j) dtheta m cs ss); try assumption; try lia; try reflexivity.
      destruct (Hax j ltac:(lia)); [left|right; split]; assumption. }
    exists (rev_surf c m cols). split.
    - unfold try_revolve. rewrite E4. cbn [bind]. rewrite E1. cbn [bind]. rewrite E2. cbn [bind]. rewrite (sofnat_INR eps maxv). fold dtheta.
      change (sdiv theta (INR m)) with dtheta. rewrite E3. cbn [bind]. rewrite E5, combine_map.
      change (scos (sdiv dtheta stwo)) with (cos (dtheta / 2)). rewrite E6. cbn [bind]. reflexivity.
    - assert (Lcols : length cols = length (cpts c)) by (rewrite <- (Forall2_len _ _ _ F), map_length, seq_length; reflexivity).
      apply rev_turns; try assumption. intros b Hb.
      assert (G : forall l1 l2, Forall2 (fun (pw : list R * R) col => col_ok (foot C K (fst pw)) (arm C K (fst pw)) (turn C K (fst pw)) (snd pw) dtheta m col) l1 l2 ->
        forall i, (i < length l1)%nat -> col_ok (foot C K (fst (nth i l1 ([], 0)))) (arm C K (fst (nth i l1 ([], 0)))) (turn C K (fst (nth i l1 ([], 0)))) (snd (nth i l1 ([], 0))) dtheta m (nth i l2 [])).
      { clear. induction 1 as [|x y l1 l2 H F IH]; intros i Hi; [cbn in Hi; lia|]. destruct i as [|i]; [exact H|]. cbn [nth]. apply IH. cbn in Hi. lia. }
      specialize (G _ _ F b). rewrite map_length, seq_length in G. specialize (G Hb).
      rewrite (nth_map_lt (fun j => (ctrl c j, cpc c 3 j)) (seq 0 (length (cpts c))) b 0%nat) in G by (now rewrite seq_length).
      rewrite seq_nth in G by exact Hb. exact G.
  Qed.

  (** nothing is built from angles whose end tangents are (nearly) parallel *)
  Theorem revolve_rejects c C K theta :
    curve_ok c -> pos_weights c -> cdim c = 4%nat -> 0 < eps ->
    length C = 3%nat -> length K = 3%nat -> dot K K = 1 -> clear_of_axis c C K ->
    theta <= PI / 2 -> sin theta * sin theta < eps ->
    (exists j, (j < length (cpts c))%nat /\ eps * eps < axis_dist2 C K (ctrl c j)) ->
    errs (try_revolve c C K theta).
  Proof.
    intros Hc Hw Hd He LC LK HK Hax Hth Hsin (j0 & Hj0 & Hoff).
    destruct (arcs_count eps maxv theta) as (m & k & E1 & Hm & E2 & M1 & _).
    assert (Ed : theta / INR m = theta) by (rewrite (M1 Hth); cbn; field).
    destruct (trig_lists eps maxv m theta) as (cs & ss & E3 & L1 & L2 & T1 & T2).
    destruct (dehom_points c Hc Hw Hd) as (E4 & E5).
    assert (Hf : forall j, revolve_column C K (cos (theta / 2)) cs ss m (ctrl c j) (cpc c 3 j) = revolve_column C K (cos (theta / 2)) cs ss m (ctrl c j) (cpc c 3 j)) by reflexivity.
    assert (M : errs (mapM (fun '(p, w) => revolve_column C K (cos (theta / 2)) cs ss m p w) (map (fun j => (ctrl c j, cpc c 3 j)) (seq 0 (length (cpts c)))))).
    { apply (mapM_errs _ _ (ctrl c j0, cpc c 3 j0)).
      - apply in_map_iff. exists j0. split; [reflexivity|]. apply in_seq. lia.
      - apply (revolve_column_spec eps maxv C K (ctrl c j0) (cpc c 3 j0) theta m cs ss); try assumption; try lia; reflexivity.
      - intros (p & w) Hin. apply in_map_iff in Hin. destruct Hin as (j & Ej & Hj). apply in_seq in Hj. injection Ej as <- <-.
        destruct (Hax j ltac:(lia)) as [H0|H0].
        + left. destruct (proj1 (revolve_column_spec eps maxv C K (ctrl c j) (cpc c 3 j) theta m cs ss LC LK eq_refl HK ltac:(lia) L1 L2 T1 T2 He) (or_introl H0)) as (col & Ecol & _).
          exists col. exact Ecol.
        + right. apply (revolve_column_spec eps maxv C K (ctrl c j) (cpc c 3 j) theta m cs ss); try assumption; try lia; reflexivity. }
    destruct M as (e & M). unfold try_revolve. rewrite E4. cbn [bind]. rewrite E1. cbn [bind]. rewrite E2. cbn [bind]. rewrite (sofnat_INR eps maxv).
    change (sdiv theta (INR m)) with (theta / INR m). rewrite Ed. rewrite E3. cbn [bind]. rewrite E5, combine_map.
    change (scos (sdiv theta stwo)) with (cos (theta / 2)). rewrite M. cbn [bind]. eexists; reflexivity.
  Qed.
End Real.
