(** * Raising the degree of a single Bezier segment by one *)
From Coq Require Import Reals Lra Lia List ZArith Sorted.
From Verif Require Import Base BaseFacts Scalar RSum BSplineSpec BSpline KnotModel KnotFacts KnotSpec VecFacts MiscModel MiscProofs CurveModel CurveSpec CurveProofs CurveGeom CurveGeom2 NewtonProofs
  ElevateModel Bernstein.
Import ListNotations.
Open Scope R_scope.

Section Real.
  Variables eps maxv : R.
  Local Hint Extern 0 (Scalar R) => exact (ROps eps maxv) : typeclass_instances.

  (** ** The table of coefficients *)
  Definition ent (bz : list (list R)) (i j : nat) : R := nth j (nth i bz []) 0.
  Definition sized (bz : list (list R)) (n m : nat) : Prop := length bz = n /\ forall i, (i < n)%nat -> length (nth i bz []) = m.

  Lemma set2e_ok bz n m i j v : sized bz n m -> (i < n)%nat -> (j < m)%nat -> exists bz', set2e bz i j v = Ok bz' /\ sized bz' n m /\
    forall x y, ent bz' x y = if ((x =? i) && (y =? j))%nat then v else ent bz x y.
  Proof.
    intros (L & Lr) Hi Hj. unfold set2e. rewrite (get_ok bz i []) by lia. cbn [bind]. rewrite set_ok by (rewrite Lr; lia). cbn [bind]. rewrite set_ok by lia.
    eexists. split; [reflexivity|]. split.
    - split; [now rewrite upd_length|]. intros x Hx. rewrite nth_upd. rewrite (proj2 (Nat.ltb_lt i (length bz))) by lia.
      destruct (Nat.eqb_spec x i); cbn [andb]; [rewrite upd_length; now apply Lr|now apply Lr].
    - intros x y. unfold ent. rewrite nth_upd. rewrite (proj2 (Nat.ltb_lt i (length bz))) by lia. destruct (Nat.eqb_spec x i) as [->|]; cbn [andb]; [|reflexivity].
      rewrite nth_upd. rewrite Lr by lia. rewrite (proj2 (Nat.ltb_lt j m)) by lia. destruct (Nat.eqb_spec y j); reflexivity.
  Qed.
  Lemma get2e_ok bz n m i j : sized bz n m -> (i < n)%nat -> (j < m)%nat -> get2e bz i j = Ok (ent bz i j).
  Proof. intros (L & Lr) Hi Hj. unfold get2e. rewrite (get_ok bz i []) by lia. cbn [bind]. rewrite (get_ok _ j 0) by (rewrite Lr; lia). reflexivity. Qed.

  (** the entries used for row [i] *)
  Definition good (p : nat) (bz : list (list R)) (i : nat) : Prop :=
    ((1 <= i)%nat -> ent bz i (i - 1) = INR i / INR (S p)) /\ ((i <= p)%nat -> ent bz i i = INR (S p - i) / INR (S p)).

  Lemma pascal_pos n : forall k, (k <= n)%nat -> (1 <= pascal n k)%nat.
  Proof. induction n as [|n IH]; intros [|k] Hk; cbn [pascal]; try lia. specialize (IH k ltac:(lia)). lia. Qed.
  Lemma coef_left p i : (1 <= i <= S p)%nat -> 1 / INR (pascal (S p) i) * INR (pascal p (i - 1)) * 1 = INR i / INR (S p).
  Proof.
    intros Hi. assert (A : (i * pascal (S p) i = S p * pascal p (i - 1))%nat).
    { destruct i as [|j]; [lia|]. replace (S j - 1)%nat with j by lia. cbn [pascal]. pose proof (pascal_step p j) as H. rewrite Nat.mul_add_distr_l, H. nia. }
    assert (0 < INR (pascal (S p) i)) by (apply lt_0_INR; pose proof (pascal_pos (S p) i); lia).
    assert (0 < INR (S p)) by (apply lt_0_INR; lia). apply (f_equal INR) in A. rewrite !mult_INR in A.
    apply (Rmult_eq_reg_r (INR (pascal (S p) i) * INR (S p))); [|apply Rgt_not_eq; now apply Rmult_lt_0_compat].
    transitivity (INR (S p) * INR (pascal p (i - 1))); [field; lra|]. rewrite <- A. field. lra.
  Qed.
  Lemma coef_right p i : (i <= p)%nat -> 1 / INR (pascal (S p) i) * INR (pascal p i) * 1 = INR (S p - i) / INR (S p).
  Proof.
    intros Hi. assert (A : ((S p - i) * pascal (S p) i = S p * pascal p i)%nat).
    { destruct i as [|j]; [rewrite !pascal_0; lia|]. cbn [pascal]. pose proof (pascal_step p j) as H. replace (S p - S j)%nat with (p - j)%nat by lia. rewrite Nat.mul_add_distr_l, <- H. nia. }
    assert (0 < INR (pascal (S p) i)) by (apply lt_0_INR; pose proof (pascal_pos (S p) i); lia).
    assert (0 < INR (S p)) by (apply lt_0_INR; lia). apply (f_equal INR) in A. rewrite !mult_INR in A.
    apply (Rmult_eq_reg_r (INR (pascal (S p) i) * INR (S p))); [|apply Rgt_not_eq; now apply Rmult_lt_0_compat].
    transitivity (INR (S p) * INR (pascal p i)); [field; lra|]. rewrite <- A. field. lra.
  Qed.

  Lemma sized_repeat n m : sized (repeat (repeat 0 m) n) n m.
  Proof.
    split; [apply repeat_length|]. intros i Hi. assert (In (nth i (repeat (repeat 0 m) n) []) (repeat (repeat 0 m) n)) as H by (apply nth_In; now rewrite repeat_length).
    apply repeat_spec in H. rewrite H. apply repeat_length.
  Qed.

  Lemma bezalfs_one p : (1 <= p)%nat -> exists bz, bezalfs p 1 = Ok bz /\ sized bz (p + 2) (p + 1) /\ forall i, (i <= S p)%nat -> good p bz i.
  Proof.
    intros Hp. assert (Sp : 0 < INR (S p)) by (apply lt_0_INR; lia). unfold bezalfs. cbv zeta. replace (p + 1 + 1)%nat with (p + 2)%nat by lia. replace (p + 1)%nat with (S p) by lia. rs.
    destruct (set2e_ok (repeat (repeat 0 (S p)) (p + 2)) (p + 2) (S p) 0 0 1 (sized_repeat _ _) ltac:(lia) ltac:(lia)) as (b1 & -> & S1 & E1). cbn [bind].
    destruct (set2e_ok b1 (p + 2) (S p) (S p) p 1 S1 ltac:(lia) ltac:(lia)) as (b2 & -> & S2 & E2). cbn [bind].
    assert (Hh : (S p / 2 <= p)%nat) by (apply Nat.div_le_upper_bound; lia).
    assert (Hh2 : (1 <= S p / 2)%nat) by (apply Nat.div_le_lower_bound; lia).
    assert (Hh3 : forall i, (S p / 2 < i)%nat -> (S p < 2 * i)%nat).
    { intros i Hi. pose proof (Nat.mul_succ_div_gt (S p) 2 ltac:(lia)). lia. }
    set (h := (S p / 2)%nat) in *. clearbody h.
    destruct (@for_incl_rule (list (list R) * @memo R) (fun i '(bz, m) => sized bz (p + 2) (S p) /\ @memo_ok m /\ ent bz (S p) p = 1 /\ forall x, (x < i)%nat -> good p bz x) 1 h
                (bez_row1 p 1 (S p)) (b2, [])) as ([b3 m3] & Er1 & S3 & _ & Z3 & G3).
    - lia.
    - split; [exact S2|]. split; [constructor|]. rewrite E2, !Nat.eqb_refl. split; [reflexivity|]. intros x Hx. assert (x = 0)%nat as -> by lia.
      split; [lia|]. intros _. rewrite E2, E1. cbn [Nat.eqb andb]. rewrite Nat.sub_0_r. field. lra.
    - intros i [bz m] Hi (Sz & Mo & Zz & G). unfold bez_row1. destruct (bin_get_spec eps maxv (S p) i m Mo) as (B1 & M1).
      destruct (bin_get (S p) i m) as [bi m1]. cbn [fst snd] in B1, M1. rewrite usub_ok by lia. cbn [bind]. cbv zeta. rewrite Nat.min_r by lia.
      unfold for_incl. replace (S i - (i - 1))%nat with 2%nat by lia. cbn [for_].
      destruct (bin_get_spec eps maxv p (i - 1) m1 M1) as (B2 & M2). destruct (bin_get p (i - 1) m1) as [b0 m2]. cbn [fst snd] in B2, M2. rewrite usub_ok by lia. cbn [bind].
      destruct (bin_get_spec eps maxv 1 (i - (i - 1)) m2 M2) as (B3 & M3). destruct (bin_get 1 (i - (i - 1)) m2) as [b4 m4]. cbn [fst snd] in B3, M3.
      replace (i - (i - 1))%nat with 1%nat in B3 by lia. cbn [pascal Nat.add] in B3. change (INR 1) with 1 in B3. rs.
      destruct (set2e_ok bz (p + 2) (S p) i (i - 1) (1 / bi * b0 * b4) Sz ltac:(lia) ltac:(lia)) as (b5 & -> & S5 & E5). cbn [bind].
      replace (S (i - 1)) with i by lia.
      destruct (bin_get_spec eps maxv p i m4 M3) as (B6 & M6). destruct (bin_get p i m4) as [b6 m6]. cbn [fst snd] in B6, M6. rewrite usub_ok by lia. cbn [bind].
      destruct (bin_get_spec eps maxv 1 (i - i) m6 M6) as (B7 & M7). destruct (bin_get 1 (i - i) m6) as [b7 m7]. cbn [fst snd] in B7, M7.
      rewrite Nat.sub_diag in B7. cbn [pascal] in B7. change (INR 1) with 1 in B7.
      destruct (set2e_ok b5 (p + 2) (S p) i i (1 / bi * b6 * b7) S5 ltac:(lia) ltac:(lia)) as (b8 & -> & S8 & E8). cbn [bind].
      exists (b8, m7). split; [reflexivity|]. split; [exact S8|]. split; [exact M7|]. split.
      { rewrite E8. destruct (Nat.eqb_spec (S p) i); [lia|]. cbn [andb]. rewrite E5. destruct (Nat.eqb_spec (S p) i); [lia|]. exact Zz. }
      intros x Hx. destruct (Nat.eq_dec x i) as [->|Hn].
      + split.
        * intros _. rewrite E8. rewrite !Nat.eqb_refl. destruct (Nat.eqb_spec (i - 1) i); [lia|]. cbn [andb]. rewrite E5. rewrite !Nat.eqb_refl. cbn [andb]. subst. apply coef_left. lia.
        * intros _. rewrite E8. rewrite !Nat.eqb_refl. cbn [andb]. subst. apply coef_right. lia.
      + destruct (G x ltac:(lia)) as (Ga & Gb). split; intros H; rewrite E8; destruct (Nat.eqb_spec x i); try lia; cbn [andb]; rewrite E5; destruct (Nat.eqb_spec x i); try lia; cbn [andb]; auto.
    - rewrite Er1. cbn [bind].
      destruct (for_range_rule (fun i bz => sized bz (p + 2) (S p) /\ ent bz (S p) p = 1 /\ forall x, (x < i)%nat -> good p bz x) (h + 1) (S p) (bez_row2 p 1 (S p)) b3) as (b9 & Er2 & S9 & Z9 & G9).
      + lia.
      + split; [exact S3|]. split; [exact Z3|]. intros x Hx. apply G3. lia.
      + intros i bz Hi (Sz & Zz & G). unfold bez_row2. rewrite usub_ok by lia. cbn [bind]. rewrite Nat.min_r by lia. unfold for_incl. replace (S i - (i - 1))%nat with 2%nat by lia. cbn [for_].
        rewrite (usub_ok (S p) i), (usub_ok p (i - 1)) by lia. cbn [bind]. rewrite (get2e_ok bz (p + 2) (S p)) by (auto; lia). cbn [bind].
        destruct (set2e_ok bz (p + 2) (S p) i (i - 1) (ent bz (S p - i) (p - (i - 1))) Sz ltac:(lia) ltac:(lia)) as (b5 & -> & S5 & E5). cbn [bind].
        replace (S (i - 1)) with i by lia. rewrite (usub_ok p i) by lia. cbn [bind]. rewrite (get2e_ok b5 (p + 2) (S p)) by (auto; lia). cbn [bind].
        destruct (set2e_ok b5 (p + 2) (S p) i i (ent b5 (S p - i) (p - i)) S5 ltac:(lia) ltac:(lia)) as (b8 & -> & S8 & E8). cbn [bind].
        exists b8. split; [reflexivity|]. split; [exact S8|]. pose proof (Hh3 i ltac:(lia)) as Hi2. split.
        { rewrite E8. destruct (Nat.eqb_spec (S p) i); [lia|]. cbn [andb]. rewrite E5. destruct (Nat.eqb_spec (S p) i); [lia|]. exact Zz. }
        destruct (G (S p - i)%nat ltac:(lia)) as (Ga & Gb).
        intros x Hx. destruct (Nat.eq_dec x i) as [->|Hn].
        * split.
          -- intros _. rewrite E8. rewrite !Nat.eqb_refl. destruct (Nat.eqb_spec (i - 1) i); [lia|]. cbn [andb]. rewrite E5. rewrite !Nat.eqb_refl. cbn [andb].
             replace (p - (i - 1))%nat with (S p - i)%nat by lia. rewrite Gb by lia. f_equal. f_equal. lia.
          -- intros _. rewrite E8. rewrite !Nat.eqb_refl. cbn [andb]. rewrite E5. destruct (Nat.eqb_spec (S p - i) i); [lia|]. cbn [andb].
             replace (p - i)%nat with (S p - i - 1)%nat by lia. apply Ga. lia.
        * destruct (G x ltac:(lia)) as (Gx & Gy). split; intros H; rewrite E8; destruct (Nat.eqb_spec x i); try lia; cbn [andb]; rewrite E5; destruct (Nat.eqb_spec x i); try lia; cbn [andb]; auto.
      + rewrite Er2. exists b9. split; [reflexivity|]. split; [exact S9|]. intros i Hi. destruct (Nat.eq_dec i (S p)) as [->|]; [|apply G9; lia].
        split; [|lia]. intros _. replace (S p - 1)%nat with p by lia. rewrite Z9. field. lra.
  Qed.

  (** ** The control points of the raised segment *)
  Definition raised (p : nat) (c : Curve R) (j : nat) (q : list R) : Prop :=
    length q = cdim c /\ forall x, (x < cdim c)%nat -> INR (S p) * rc x q = INR j * cpc c x (j - 1) + INR (S p - j) * cpc c x j.

  Lemma el_bezier_one c p cnt bz bpts ebpts : (1 <= p)%nat -> sized bz (p + 2) (p + 1) -> (forall i, (i <= S p)%nat -> good p bz i) ->
    (p + 2 <= cnt)%nat -> length ebpts = cnt -> (p < length bpts)%nat -> length (cpts c) = S p -> Forall (fun q => length q = cdim c) (cpts c) ->
    (forall j, (j <= p)%nat -> nth j bpts [] = nth j (cpts c) []) ->
    exists eb, el_bezier (cdim c) p 1 (S p) 1 bz bpts ebpts = Ok eb /\ length eb = cnt /\ forall i, (1 <= i <= S p)%nat -> raised p c i (nth i eb []).
  Proof.
    intros Hp Sz G Hc Le Lb Lc Fc Nb. assert (Sp : 0 < INR (S p)) by (apply lt_0_INR; lia). unfold el_bezier.
    assert (Dj : forall j, (j <= p)%nat -> length (nth j (cpts c) []) = cdim c).
    { intros j Hj. rewrite Forall_forall in Fc. apply Fc. apply nth_In. lia. }
    destruct (for_incl_rule (fun i eb => length eb = cnt /\ forall x, (1 <= x < i)%nat -> raised p c x (nth x eb [])) 1 (S p)
      (fun i eb => eb <- set_ eb i (vzero (cdim c)) ;; lo <- usub i 1 ;;
        for_incl lo (Nat.min p i) (fun j eb => e <- get eb i ;; q <- get bpts j ;; al <- get2e bz i j ;; set_ eb i (vadd e (vscale q al))) eb) ebpts) as (eb & E & L & V).
    - lia.
    - split; [exact Le|]. intros x Hx. lia.
    - intros i eb Hi (L & V). rewrite set_ok by lia. cbn [bind]. rewrite usub_ok by lia. cbn [bind].
      assert (Step : forall j e0 eb0, length eb0 = cnt -> nth i eb0 [] = e0 -> (j <= p)%nat ->
        (e <- get eb0 i ;; q <- get bpts j ;; al <- get2e bz i j ;; set_ eb0 i (vadd e (vscale q al))) = Ok (upd eb0 i (vadd e0 (vscale (nth j (cpts c) []) (ent bz i j))))).
      { intros j e0 eb0 L0 N0 Hj. rewrite (get_ok eb0 i []) by lia. cbn [bind]. rewrite (get_ok bpts j []) by lia. cbn [bind]. rewrite (get2e_ok bz (p + 2) (p + 1)) by (auto; lia). cbn [bind].
        rewrite set_ok by lia. rewrite N0, Nb by lia. reflexivity. }
      set (e0 := vzero (cdim c)). assert (L0 : length e0 = cdim c) by apply repeat_length.
      assert (Z0 : forall x, rc x e0 = 0). { intros x. unfold rc, e0, vzero. destruct (Nat.lt_ge_cases x (cdim c)) as [H|H]; [|apply nth_overflow; now rewrite repeat_length]. rs. apply nth_repeat. }
      destruct (G i ltac:(lia)) as (Ga & Gb).
      destruct (Nat.eq_dec i (S p)) as [->|Hn].
      + rewrite Nat.min_l by lia. replace (S p - 1)%nat with p by lia. unfold for_incl. replace (S p - p)%nat with 1%nat by lia. cbn [for_].
        rewrite (Step p e0) by (rewrite ?upd_length; auto; rewrite nth_upd_same by lia; reflexivity). cbn [bind]. eexists. split; [reflexivity|]. rewrite !upd_length. split; [exact L|].
        intros x Hx. destruct (Nat.eq_dec x (S p)) as [->|Hx2].
        * rewrite nth_upd_same by (rewrite upd_length; lia). assert (Lv : length (vscale (nth p (cpts c) []) (ent bz (S p) p)) = cdim c) by (apply vscale_length; apply Dj; lia).
          split; [apply vadd_length; auto|].
          intros y Hy. rewrite (rc_vadd eps maxv) by congruence. rewrite (rc_vscale eps maxv), Z0. replace (S p - 1)%nat with p in * by lia. rewrite Ga by lia. rewrite Nat.sub_diag. cbn [INR]. unfold cpc. field. exact (Rgt_not_eq _ _ Sp).
        * rewrite !nth_upd_other by lia. apply V. lia.
      + rewrite Nat.min_r by lia. unfold for_incl. replace (S i - (i - 1))%nat with 2%nat by lia. cbn [for_].
        rewrite (Step (i - 1)%nat e0) by (rewrite ?upd_length; auto; try lia; rewrite nth_upd_same by lia; reflexivity). cbn [bind]. replace (S (i - 1)) with i by lia.
        rewrite (Step i (vadd e0 (vscale (nth (i - 1) (cpts c) []) (ent bz i (i - 1))))) by (rewrite ?upd_length; auto; try lia; rewrite nth_upd_same by (rewrite upd_length; lia); reflexivity).
        cbn [bind]. eexists. split; [reflexivity|]. rewrite !upd_length. split; [exact L|].
        intros x Hx. destruct (Nat.eq_dec x i) as [->|Hx2].
        * rewrite nth_upd_same by (rewrite !upd_length; lia).
          assert (L1 : length (vadd e0 (vscale (nth (i - 1) (cpts c) []) (ent bz i (i - 1)))) = cdim c) by (apply vadd_length; [exact L0|apply vscale_length; apply Dj; lia]).
          assert (Lv : forall j k, (j <= p)%nat -> length (vscale (nth j (cpts c) []) k) = cdim c) by (intros j k Hj; apply vscale_length; now apply Dj).
          split; [apply vadd_length; [exact L1|apply Lv; lia]|].
          intros y Hy. rewrite !(rc_vadd eps maxv) by (rewrite ?L1, ?Lv by lia; auto).
          rewrite !(rc_vscale eps maxv). rewrite Z0, Ga, Gb by lia. unfold cpc. field. exact (Rgt_not_eq _ _ Sp).
        * rewrite !nth_upd_other by lia. apply V. lia.
    - exists eb. split; [exact E|]. split; [exact L|]. intros i Hi. apply V. lia.
  Qed.

  (** ** The whole function on a single span *)
  Lemma run_end_bezier p a b : run_end (bezier_knots p a b) (2 * p + 1) (p + 1) = Ok (2 * p + 1)%nat.
  Proof.
    unfold run_end. assert (L : length (bezier_knots p a b) = (2 * p + 2)%nat) by (unfold bezier_knots; rewrite app_length, !repeat_length; lia).
    destruct (while_rule (fun x => (p + 1 <= x <= 2 * p + 1)%nat) (fun x => x = (2 * p + 1)%nat) (fun x => (2 * p + 1 - x)%nat) (S (2 * p + 1))
      (fun x => if (x <? 2 * p + 1)%nat then k <- get (bezier_knots p a b) x ;; y <- get (bezier_knots p a b) (x + 1) ;; Ok (seqb k y) else Ok false) (fun x => Ok (x + 1)%nat) (p + 1)%nat) as (x & E & ->).
    - lia.
    - lia.
    - intros x Hx. destruct (Nat.ltb_spec x (2 * p + 1)) as [H|H]; [|left; split; [reflexivity|lia]]. right. split.
      + rewrite !get_kf by lia. cbn [bind]. rewrite !bezier_kf. destruct (Nat.leb_spec x p), (Nat.leb_spec (x + 1) p); try lia. rs. now rewrite (proj2 (Reqb_true b b) eq_refl).
      + exists (x + 1)%nat. split; [reflexivity|]. lia.
    - exact E.
  Qed.

  Theorem elevate_bezier c p a b : (1 <= p)%nat -> cdeg c = p -> cknots c = bezier_knots p a b -> length (cpts c) = S p ->
    Forall (fun q => length q = cdim c) (cpts c) ->
    exists Q, try_elevate_degree c (S p) = Ok (MkCurve (cdim c) (S p) (Q ++ repeat (repeat 0 (cdim c)) 3) (bezier_knots (S p) a b ++ repeat 0 3)) /\
      length Q = (p + 2)%nat /\ forall j, (j <= S p)%nat -> raised p c j (nth j Q []).
  Proof.
    intros Hp Hd Hk Hl Fd. assert (Sp : 0 < INR (S p)) by (apply lt_0_INR; lia). unfold try_elevate_degree. rewrite Hd, Hk, Hl.
    assert (Lk : length (bezier_knots p a b) = (2 * p + 2)%nat) by (unfold bezier_knots; rewrite app_length, !repeat_length; lia). rewrite Lk.
    destruct (Nat.leb_spec (S p) p); [lia|]. rewrite usub_ok by lia. cbn [bind]. rewrite usub_ok by lia. cbn [bind]. cbv zeta.
    replace (2 * p + 2 - p - 2 + p + 1)%nat with (2 * p + 1)%nat by lia. replace (S p - p)%nat with 1%nat by lia. replace (S p + 1 + 3)%nat with (p + 5)%nat by lia.
    destruct (bezalfs_one p Hp) as (bz & Eb & Sz & G). rewrite Eb. cbn [bind].
    rewrite get_kf by lia. cbn [bind]. rewrite bezier_kf. cbn [Nat.leb]. rewrite (get_ok (cpts c) 0 []) by lia. cbn [bind].
    set (zs := repeat (vzero (cdim c)) (p + 5)). assert (Lz : length zs = (p + 5)%nat) by apply repeat_length.
    rewrite set_ok by lia. cbn [bind]. set (qw0 := upd zs 0 (nth 0 (cpts c) [])).
    destruct (for_incl_rule (fun i uh => length uh = (2 * p + 7)%nat /\ forall j, nth j uh 0 = if (j <? i)%nat then a else 0) 0 (S p) (fun i uh => set_ uh i a) (repeat 0 (p + 5 + S p + 1))) as (uh0 & Eu & Lu & Vu).
    { lia. }
    { split; [rewrite repeat_length; lia|]. intros j. rewrite nth_repeat. reflexivity. }
    { intros i uh Hi (L & V). rewrite set_ok by lia. eexists. split; [reflexivity|]. rewrite upd_length. split; [exact L|].
      intros j. rewrite nth_upd, V. destruct (Nat.eqb_spec j i), (Nat.ltb_spec i (length uh)), (Nat.ltb_spec j i), (Nat.ltb_spec j (S i)); cbn [andb]; try lia; reflexivity. }
    change (@szero R (ROps eps maxv)) with 0. rewrite Eu. cbn [bind].
    rewrite slice_ok by lia. cbn [bind]. rewrite slice_ok by lia. cbn [bind]. rewrite Nat.sub_0_r. cbn [skipn]. rewrite firstn_all2 by lia.
    set (bpts := cpts c ++ skipn (p + 1) zs). replace (S (2 * p + 1)) with (S (S (2 * p))) by lia.
    assert (Lb : length bpts = (p + 5)%nat) by (unfold bpts; rewrite app_length, skipn_length, Hl, Lz; lia).
    assert (Nb : forall j, (j <= p)%nat -> nth j bpts [] = nth j (cpts c) []) by (intros j Hj; unfold bpts; rewrite app_nth1 by lia; reflexivity).
    destruct (el_bezier_one c p (p + 5) bz bpts zs Hp Sz G ltac:(lia) Lz ltac:(lia) Hl Fd Nb) as (eb & Ebz & Leb & Veb).
    destruct (for_incl_rule (fun j '(qw, ci) => ci = j /\ length qw = (p + 5)%nat /\ (forall x, (1 <= x < j)%nat -> nth x qw [] = nth x eb []) /\ (forall x, x = 0%nat \/ (j <= x)%nat -> nth x qw [] = nth x qw0 [])) 1 (S p)
      (fun j '(qw, ci) => q <- get eb j ;; qw <- set_ qw ci q ;; Ok (qw, (ci + 1)%nat)) (qw0, 1%nat)) as ([qw ci] & Eq & -> & Lq & Vq & Vz).
    { lia. }
    { split; [reflexivity|]. split; [unfold qw0; now rewrite upd_length|]. split; [lia|reflexivity]. }
    { intros j [qw ci] Hj (-> & L & V & Z). rewrite (get_ok eb j []) by lia. cbn [bind]. rewrite set_ok by lia. cbn [bind]. eexists. split; [reflexivity|]. cbv beta iota. rewrite upd_length.
      split; [lia|]. split; [exact L|]. split.
      - intros x Hx. rewrite nth_upd. destruct (Nat.eqb_spec x j) as [->|]; cbn [andb]; [rewrite (proj2 (Nat.ltb_lt _ _)) by lia; reflexivity|apply V; lia].
      - intros x Hx. rewrite nth_upd_other by lia. apply Z. lia. }
    destruct (for_incl_rule (fun i uh => length uh = (2 * p + 7)%nat /\ forall j, nth j uh 0 = if (j <? p + 2)%nat then a else if (j <? p + 2 + i)%nat then b else 0) 0 (S p)
      (fun i uh => set_ uh (S p + 1 + i) b) uh0) as (uh & Eu2 & Lu2 & Vu2).
    { lia. }
    { split; [exact Lu|]. intros j. rewrite Vu. destruct (Nat.ltb_spec j (S (S p))), (Nat.ltb_spec j (p + 2)), (Nat.ltb_spec j (p + 2 + 0)); try lia; reflexivity. }
    { intros i u Hi (L & V). rewrite set_ok by lia. eexists. split; [reflexivity|]. rewrite upd_length. split; [exact L|].
      intros j. rewrite nth_upd, V. rewrite (proj2 (Nat.ltb_lt (S p + 1 + i) (length u))) by lia.
      destruct (Nat.eqb_spec j (S p + 1 + i)), (Nat.ltb_spec j (p + 2)), (Nat.ltb_spec j (p + 2 + i)), (Nat.ltb_spec j (p + 2 + S i)); cbn [andb]; try lia; reflexivity. }
    set (st0 := MkEl bpts zs zs qw0 uh0 (S p + 1) (-1) p (p + 1) 1 a).
    set (st1 := MkEl bpts eb zs qw uh (S p + 1) (-1) p (2 * p + 1) (S (S p)) a).
    assert (Est : el_step c 1 (S p) (2 * p + 1) bz st0 = Ok st1).
    { unfold el_step. rewrite Hd, Hk. cbn [st0 e_b e_r e_a e_ua e_bpts e_ebpts e_next e_qw e_uh e_kind e_cind]. rewrite run_end_bezier. cbn [bind].
      rewrite get_kf by lia. cbn [bind]. rewrite bezier_kf. destruct (Nat.leb_spec (2 * p + 1) p); [lia|].
      replace (Z.of_nat p - Z.of_nat (2 * p + 1 - (p + 1) + 1))%Z with (-1)%Z by lia.
      change (0 <? -1)%Z with false. change (1 <? -1)%Z with false. cbv beta iota zeta. cbn [bind]. rewrite Ebz. cbn [bind]. rewrite Nat.eqb_refl. cbn [bind].
      rewrite Eq. cbn [bind]. rewrite Nat.ltb_irrefl. rewrite Eu2. reflexivity. }
    unfold while_. cbn [loop_]. cbn [st0 e_b]. rewrite (proj2 (Nat.ltb_lt (p + 1) (2 * p + 1))) by lia. cbn [bind]. fold st0. rewrite Est. cbn [bind].
    replace (2 * p)%nat with (S (2 * p - 1)) at 1 by lia. cbn [loop_]. cbn [st1 e_b]. rewrite Nat.ltb_irrefl. cbn [bind e_qw e_uh].
    exists (firstn (p + 2) qw). split; [|split].
    - change (e_qw st1) with qw. change (e_uh st1) with uh. f_equal. f_equal.
      + apply (list_ext []); [rewrite app_length, firstn_length, repeat_length; lia|]. intros i Hi. destruct (Nat.lt_ge_cases i (p + 2)) as [H1|H1].
        * rewrite app_nth1 by (rewrite firstn_length; lia). now rewrite nth_firstn.
        * rewrite app_nth2 by (rewrite firstn_length; lia). rewrite firstn_length, Lq. rewrite Vz by lia. unfold qw0. rewrite nth_upd_other by lia. unfold zs, vzero. rs.
          assert (N : forall n m (x d : list R), (m < n)%nat -> nth m (repeat x n) d = x) by (intros n m x d Hm; apply (repeat_spec n x); apply nth_In; now rewrite repeat_length).
          rewrite !N by lia. reflexivity.
      + apply (list_ext 0); [rewrite app_length, repeat_length; unfold bezier_knots; rewrite app_length, !repeat_length; lia|]. intros i Hi. rewrite Vu2.
        unfold bezier_knots. rewrite <- app_assoc.
        destruct (Nat.ltb_spec i (p + 2)) as [H1|H1]; [rewrite app_nth1 by (rewrite repeat_length; lia); symmetry; apply (repeat_spec (S (S p)) a); apply nth_In; rewrite repeat_length; lia|].
        rewrite app_nth2 by (rewrite repeat_length; lia). rewrite repeat_length.
        destruct (Nat.ltb_spec i (p + 2 + S (S p))) as [H2|H2]; [rewrite app_nth1 by (rewrite repeat_length; lia); symmetry; apply (repeat_spec (S (S p)) b); apply nth_In; rewrite repeat_length; lia|].
        rewrite app_nth2 by (rewrite repeat_length; lia). symmetry. apply nth_repeat.
    - rewrite firstn_length. lia.
    - intros j Hj. rewrite nth_firstn by lia. destruct (Nat.eq_dec j 0) as [->|].
      + rewrite Vz by lia. unfold qw0. rewrite nth_upd_same by lia. rewrite Forall_forall in Fd. split; [apply Fd; apply nth_In; lia|]. intros x Hx. unfold cpc. cbn [INR Nat.sub]. rewrite Rmult_0_l, Rplus_0_l. reflexivity.
      + rewrite Vq by lia. apply Veb. lia.
  Qed.
End Real.
