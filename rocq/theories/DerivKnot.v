(** * The derivative table of the knot vector (C19): every entry is a derivative of a basis polynomial *)
From Coq Require Import Reals Lra Lia ZArith Bool.
From Verif Require Import Base BaseFacts Scalar RSum BSplineSpec BSpline BSplineDeriv KnotModel KnotSpec
  KnotFacts KnotProofs.
Open Scope R_scope.

(** ** Matrices *)
Definition at2 (m : list (list R)) (i j : nat) : R := nth j (nth i m []) 0.
Definition shape (r c : nat) (m : list (list R)) : Prop :=
  length m = r /\ forall i, (i < r)%nat -> length (nth i m []) = c.

Lemma get2_ok r c m i j : shape r c m -> (i < r)%nat -> (j < c)%nat -> get2 m i j = Ok (at2 m i j).
Proof.
  intros (H1 & H2) Hi Hj. unfold get2. rewrite (get_ok m i []) by lia. cbn [bind].
  specialize (H2 i Hi). rewrite (get_ok _ j 0) by lia. reflexivity.
Qed.

Lemma set2_ok r c m i j v : shape r c m -> (i < r)%nat -> (j < c)%nat ->
  exists m', set2 m i j v = Ok m' /\ shape r c m' /\ at2 m' i j = v /\
    forall i' j', (i' <> i \/ j' <> j) -> at2 m' i' j' = at2 m i' j'.
Proof.
  intros (H1 & H2) Hi Hj. unfold set2. rewrite (get_ok m i []) by lia. cbn [bind].
  pose proof (H2 i Hi) as Hr. rewrite set_ok by lia. cbn [bind]. rewrite set_ok by lia.
  eexists. split; [reflexivity|]. split; [|split].
  - split; [now rewrite upd_length|]. intros i' Hi'. destruct (Nat.eq_dec i' i) as [->|].
    + rewrite nth_upd_same by lia. now rewrite upd_length.
    + rewrite nth_upd_other by lia. now apply H2.
  - unfold at2. rewrite nth_upd_same by lia. rewrite nth_upd_same by lia. reflexivity.
  - intros i' j' Hne. unfold at2. destruct (Nat.eq_dec i' i) as [->|].
    + rewrite nth_upd_same by lia. rewrite nth_upd_other by lia. reflexivity.
    + rewrite nth_upd_other by lia. reflexivity.
Qed.

Lemma repeat_shape r c : shape r c (repeat (repeat 0 c) r).
Proof.
  split; [apply repeat_length|]. intros i Hi. rewrite nth_repeat_lt by auto. apply repeat_length.
Qed.
Lemma repeat_at2 r c i j : at2 (repeat (repeat 0 c) r) i j = 0.
Proof.
  unfold at2. destruct (Nat.lt_ge_cases i r).
  - rewrite nth_repeat_lt by auto. apply nth_repeat.
  - rewrite (nth_overflow (repeat _ r)) by (rewrite repeat_length; auto). destruct j; reflexivity.
Qed.

Section Real.
  Variables eps maxv : R.
  Local Hint Extern 0 (Scalar R) => exact (ROps eps maxv) : typeclass_instances.

  (** take one [set2] step: new matrix [m'], with its shape and entries *)
  Ltac do_set2 m' Sh Same Oth :=
    match goal with
    | Hs : shape ?r ?c ?m |- context [set2 ?m ?i ?j ?v] =>
        let E := fresh "E" in
        destruct (set2_ok r c m i j v Hs) as (m' & E & Sh & Same & Oth); [lia|lia|];
        rewrite E; cbn [bind]; clear E
    end.

  Section Span.
    Variables (k : list R) (s p : nat) (u : R).
    Hypothesis Hm : mono (kf k).
    Hypothesis Hs : kf k s < kf k (S s).
    Hypothesis Hp : (p <= s)%nat.
    Hypothesis Hl : (s + p < length k)%nat.

    (** knot difference stored below the diagonal *)
    Definition kd (j r : nat) : R := kf k (s + r + 1) - kf k (s + 1 - j + r).

    Definition ndu_ok (j : nat) (ndu : list (list R)) : Prop :=
      (forall a b, (b < a < j)%nat -> at2 ndu a b = kd a b) /\
      (forall b a, (b <= a < j)%nat -> at2 ndu b a = bs (kf k) s a (s - a + b) u).

    Lemma ndu_table_ok :
      exists ndu, ndu_table k s u p = Ok ndu /\ shape (S p) (S p) ndu /\ ndu_ok (S p) ndu.
    Proof.
      unfold ndu_table. rs. replace (p + 1)%nat with (S p) by lia. set (z := repeat 0 (S p)).
      assert (Hz : length z = S p) by apply repeat_length.
      pose proof (repeat_shape (S p) (S p)) as Sh0. fold z in Sh0.
      do_set2 m0 Sh1 Sm1 Ot1.
      set (I := fun j (st : list (list R) * list R * list R) =>
         let '(ndu, lft, rgt) := st in
         shape (S p) (S p) ndu /\ length lft = S p /\ length rgt = S p /\ ndu_ok j ndu /\
         (forall m, (1 <= m < j)%nat -> nth m lft 0 = u - kf k (s + 1 - m)) /\
         (forall m, (1 <= m < j)%nat -> nth m rgt 0 = kf k (s + m) - u)).
      destruct (for_incl_rule I 1 p (@ndu_outer R (ROps eps maxv) k s u) (m0, z, z))
        as ([[ndu lft] rgt] & E & HI).
      - lia.
      - cbn [I]. repeat split; auto; try apply Sh1; try (intros; lia).
        intros b a Hab. replace a with 0%nat by lia. replace b with 0%nat by lia. rewrite Sm1.
        cbn [bs]. rewrite (proj2 (Nat.eqb_eq _ _)); [reflexivity|lia].
      - intros j [[ndu lft] rgt] Hj (Sh & L2 & L3 & (N1 & N2) & Hlf & Hrg).
        unfold ndu_outer. rewrite usub_ok by lia. cbn [bind].
        rewrite get_kf by lia. cbn [bind]. rewrite set_ok by lia. cbn [bind].
        rewrite get_kf by lia. cbn [bind]. rewrite set_ok by lia. cbn [bind]. rs.
        set (lft' := upd lft j (u - kf k (s + 1 - j))).
        set (rgt' := upd rgt j (kf k (s + j) - u)).
        assert (Hlf' : forall m, (1 <= m <= j)%nat -> nth m lft' 0 = u - kf k (s + 1 - m)).
        { intros m Hm1. unfold lft'. destruct (Nat.eq_dec m j) as [->|].
          - rewrite nth_upd_same by lia. reflexivity.
          - rewrite nth_upd_other by lia. apply Hlf. lia. }
        assert (Hrg' : forall m, (1 <= m <= j)%nat -> nth m rgt' 0 = kf k (s + m) - u).
        { intros m Hm1. unfold rgt'. destruct (Nat.eq_dec m j) as [->|].
          - rewrite nth_upd_same by lia. reflexivity.
          - rewrite nth_upd_other by lia. apply Hrg. lia. }
        assert (Ll : length lft' = S p) by (unfold lft'; rewrite upd_length; lia).
        assert (Lr : length rgt' = S p) by (unfold rgt'; rewrite upd_length; lia).
        clearbody lft' rgt'.
        set (J := fun r (st : list (list R) * R) =>
           let '(n, saved) := st in
           shape (S p) (S p) n /\ ndu_ok j n /\
           (forall b, (b < r)%nat -> at2 n j b = kd j b) /\
           (forall b, (b < r)%nat -> at2 n b j = bs (kf k) s j (s - j + b) u) /\
           saved = wl (kf k) j (s - j + r) u * bs (kf k) s (j - 1) (s - j + r) u).
        destruct (for_range_rule J 0 j (@ndu_inner R (ROps eps maxv) lft' rgt' j) (ndu, 0))
          as ([n1 saved] & E' & (J1 & (J2 & J2') & J3 & J4 & J5)).
        + lia.
        + cbn [J]. split; [exact Sh|]. split; [split; assumption|]. split; [intros; lia|]. split; [intros; lia|].
          rewrite (bs_support _ s (j - 1)) by lia. lra.
        + intros r [n saved] Hr (G1 & (G2 & G2') & G3 & G4 & G5).
          unfold ndu_inner. rewrite (get_ok rgt' (r + 1) 0) by lia. cbn [bind].
          rewrite usub_ok by lia. cbn [bind]. rewrite (get_ok lft' (j - r) 0) by lia. cbn [bind].
          do_set2 na Sha Sma Ota. rewrite usub_ok by lia. cbn [bind].
          rewrite (get2_ok (S p) (S p) na r (j - 1)) by (auto; lia). cbn [bind].
          rewrite (get2_ok (S p) (S p) na j r) by (auto; lia). cbn [bind].
          do_set2 nb Shb Smb Otb. rs.
          eexists. split; [reflexivity|]. cbn [J].
          rewrite Sma in *. rewrite (Ota r (j - 1)%nat) in * by lia.
          rewrite (G2' r (j - 1)%nat) in * by lia. rewrite Hrg', Hlf' in * by lia.
          replace (s - (j - 1) + r)%nat with (s - j + r + 1)%nat in * by lia.
          replace (s + (r + 1))%nat with (s - j + r + j + 1)%nat in * by lia.
          replace (s + 1 - (j - r))%nat with (s - j + r + 1)%nat in * by lia.
          set (i := (s - j + r)%nat) in *.
          assert (D : 0 < kf k (i + j + 1) - kf k (i + 1))
            by (apply (den_pos (kf k) s Hm Hs); unfold i; lia).
          split; [exact Shb|]. split; [split|split; [|split]].
          * intros a b Hab. rewrite Otb, Ota by lia. apply G2. lia.
          * intros b a Hab. rewrite Otb, Ota by lia. apply G2'. lia.
          * intros b Hb. rewrite Otb by lia. destruct (Nat.eq_dec b r) as [->|].
            -- rewrite Sma. unfold kd.
               replace (s + r + 1)%nat with (i + j + 1)%nat by (unfold i; lia).
               replace (s + 1 - j + r)%nat with (i + 1)%nat by (unfold i; lia). ring.
            -- rewrite Ota by lia. apply G3. lia.
          * intros b Hb. destruct (Nat.eq_dec b r) as [->|].
            -- rewrite Smb, G5. fold i. rewrite (bs_step _ _ j) by lia. f_equal.
               unfold wr. rewrite quot0_nz by lra. field. lra.
            -- rewrite Otb, Ota by lia. apply G4. lia.
          * replace (s - j + S r)%nat with (i + 1)%nat by (unfold i; lia).
            unfold wl. replace (i + 1 + j)%nat with (i + j + 1)%nat by lia.
            rewrite quot0_nz by lra. field. lra.
        + rewrite E'. cbn [bind]. do_set2 nb Shb Smb Otb.
          eexists. split; [reflexivity|]. cbn [I].
          split; [exact Shb|]. split; [exact Ll|]. split; [exact Lr|]. split; [split|split].
          * intros a b Hab. rewrite Otb by lia. destruct (Nat.eq_dec a j) as [->|]; [apply J3; lia|apply J2; lia].
          * intros b a Hab. destruct (Nat.eq_dec a j) as [->|].
            -- destruct (Nat.eq_dec b j) as [->|].
               ++ rewrite Smb, J5. replace (s - j + j)%nat with s by lia.
                  rewrite (bs_step _ _ j) by lia.
                  rewrite (bs_support _ s (j - 1) (s + 1)) by lia. lra.
               ++ rewrite Otb by lia. apply J4. lia.
            -- rewrite Otb by lia. apply J2'. lia.
          * intros m Hm1. apply Hlf'. lia.
          * intros m Hm1. apply Hrg'. lia.
      - rewrite E. cbn [bind]. destruct HI as (H1 & _ & _ & H2 & _). exists ndu. auto.
    Qed.

    Variable ndu : list (list R).
    Hypothesis Hsh : shape (S p) (S p) ndu.
    Hypothesis Hnd : ndu_ok (S p) ndu.

    Lemma get2z_ok (m : list (list R)) a b : get2z m (Z.of_nat a) (Z.of_nat b) = get2 m a b.
    Proof.
      unfold get2z, zidx. destruct (Z.ltb_spec (Z.of_nat a) 0); [lia|].
      destruct (Z.ltb_spec (Z.of_nat b) 0); [lia|]. cbn [bind]. now rewrite !Nat2Z.id.
    Qed.

    (** the two table reads used for the coefficient [j] of the [m]-th derivative *)
    Lemma ndu_den r m j : (1 <= m <= p)%nat -> (m <= r + j)%nat -> (r + j <= p)%nat ->
      get2z ndu (Z.of_nat p - Z.of_nat m + 1) (Z.of_nat r - Z.of_nat m + Z.of_nat j)
      = Ok (kf k (s - p + r + j + (p - (m - 1))) - kf k (s - p + r + j)).
    Proof.
      intros H1 H2 H3.
      replace (Z.of_nat p - Z.of_nat m + 1)%Z with (Z.of_nat (p - m + 1)) by lia.
      replace (Z.of_nat r - Z.of_nat m + Z.of_nat j)%Z with (Z.of_nat (r + j - m)) by lia.
      rewrite get2z_ok, (get2_ok (S p) (S p)) by (auto; lia). f_equal.
      rewrite (proj1 Hnd) by lia. unfold kd.
      replace (s + (r + j - m) + 1)%nat with (s - p + r + j + (p - (m - 1)))%nat by lia.
      replace (s + 1 - (p - m + 1) + (r + j - m))%nat with (s - p + r + j)%nat by lia. reflexivity.
    Qed.
    Lemma ndu_val r m j : (1 <= m <= p)%nat -> (m <= r + j)%nat -> (r + j <= p)%nat ->
      get2z ndu (Z.of_nat r - Z.of_nat m + Z.of_nat j) (Z.of_nat p - Z.of_nat m)
      = Ok (bs (kf k) s (p - m) (s - p + r + j) u).
    Proof.
      intros H1 H2 H3.
      replace (Z.of_nat p - Z.of_nat m)%Z with (Z.of_nat (p - m)) by lia.
      replace (Z.of_nat r - Z.of_nat m + Z.of_nat j)%Z with (Z.of_nat (r + j - m)) by lia.
      rewrite get2z_ok, (get2_ok (S p) (S p)) by (auto; lia). f_equal.
      rewrite (proj2 Hnd) by lia. f_equal. lia.
    Qed.
    Lemma den_nz r m j : (1 <= m <= p)%nat -> (m <= r + j)%nat -> (r + j <= p)%nat ->
      0 < kf k (s - p + r + j + (p - (m - 1))) - kf k (s - p + r + j).
    Proof. intros. apply (den_pos (kf k) s Hm Hs); lia. Qed.

    Definition win (r m j : nat) : bool := Nat.leb (m - r) j && Nat.leb j (p - r).
    Definition term (r m j : nat) : R :=
      if win r m j then dcoef (kf k) p (s - p + r) m j * bs (kf k) s (p - m) (s - p + r + j) u else 0.

    Lemma win_true r m j : (m <= r + j)%nat -> (r + j <= p)%nat -> win r m j = true.
    Proof. intros. unfold win. apply andb_true_intro. split; apply Nat.leb_le; lia. Qed.
    Lemma term_low r m j : (r + j < m)%nat -> term r m j = 0.
    Proof. intros H. unfold term, win. destruct (Nat.leb_spec (m - r) j); [lia|reflexivity]. Qed.
    Lemma term_high r m j : (r <= p)%nat -> (p < r + j)%nat -> term r m j = 0.
    Proof.
      intros Hr H. unfold term, win. destruct (Nat.leb_spec j (p - r)); [lia|]. now rewrite andb_false_r.
    Qed.

    Lemma rsum_skip n m f : (n <= m)%nat -> (forall i, (n <= i < m)%nat -> f i = 0) -> rsum m f = rsum n f.
    Proof.
      intros H Hf. replace m with (n + (m - n))%nat by lia. rewrite rsum_split.
      rewrite (rsum_0 (m - n)); [ring|]. intros i Hi. apply Hf. lia.
    Qed.

    (** one derivative order for one column *)
    Definition row_ok (r m : nat) (a : list (list R)) (row : nat) : Prop :=
      forall j, (m <= r + j)%nat -> (j <= m)%nat -> (r + j <= p)%nat ->
        at2 a row j = dcoef (kf k) p (s - p + r) m j.

    Lemma ders_k_ok n r m a s1 s2 ders :
      (1 <= m <= p)%nat -> (m <= n)%nat -> (r <= p)%nat -> (s1 < 2)%nat -> (s2 < 2)%nat -> s1 <> s2 ->
      shape 2 (S p) a -> shape (S n) (S p) ders -> row_ok r (m - 1) a s1 ->
      exists a' ders', @ders_k R (ROps eps maxv) ndu p r m (a, s1, s2, ders) = Ok (a', s2, s1, ders') /\
        shape 2 (S p) a' /\ shape (S n) (S p) ders' /\ row_ok r m a' s2 /\
        at2 ders' m r = rsum (S m) (term r m) /\
        forall i j, (i <> m \/ j <> r) -> at2 ders' i j = at2 ders i j.
    Proof.
      intros Hmp Hmn Hr H1 H2 H12 Sa Sd Row. unfold ders_k.
      set (pk := (Z.of_nat p - Z.of_nat m)%Z). set (rk := (Z.of_nat r - Z.of_nat m)%Z).
      set (i := (s - p + r)%nat) in *.
      assert (Den : forall j, (m <= r + j)%nat -> (r + j <= p)%nat ->
        get2z ndu (pk + 1) (rk + Z.of_nat j) = Ok (kf k (i + j + (p - (m - 1))) - kf k (i + j))).
      { intros j A B. apply ndu_den; auto. }
      assert (Val : forall j, (m <= r + j)%nat -> (r + j <= p)%nat ->
        get2z ndu (rk + Z.of_nat j) pk = Ok (bs (kf k) s (p - m) (i + j) u)).
      { intros j A B. apply ndu_val; auto. }
      assert (Dnz : forall j, (m <= r + j)%nat -> (r + j <= p)%nat ->
        0 < kf k (i + j + (p - (m - 1))) - kf k (i + j)).
      { intros j A B. apply den_nz; auto. }
      assert (Coef : forall j, (m <= r + j)%nat -> (r + j <= p)%nat ->
        dcoef (kf k) p i m j =
        (dcoef (kf k) p i (m - 1) j - match j with O => 0 | S j' => dcoef (kf k) p i (m - 1) j' end)
        / (kf k (i + j + (p - (m - 1))) - kf k (i + j))).
      { intros j A B. destruct m as [|m']; [lia|]. cbn [dcoef].
        replace (S m' - 1)%nat with m' in * by lia. unfold dq.
        rewrite quot0_nz by (specialize (Dnz j A B); lra). unfold Rdiv. rewrite Rmult_1_l. reflexivity. }
      assert (Term : forall j, (m <= r + j)%nat -> (r + j <= p)%nat ->
        term r m j = dcoef (kf k) p i m j * bs (kf k) s (p - m) (i + j) u).
      { intros j A B. unfold term. rewrite win_true by auto. reflexivity. }
      (* stage A: coefficient 0 *)
      assert (StA : exists aA dA,
        (if (Z.of_nat m <=? Z.of_nat r)%Z
         then x <- get2 a s1 0 ;; nd <- get2z ndu (pk + 1) rk ;; a <- set2 a s2 0 (x / nd) ;;
              v <- get2 a s2 0 ;; w <- get2z ndu rk pk ;; Ok (a, v * w)
         else Ok (a, 0)) = Ok (aA, dA) /\
        shape 2 (S p) aA /\ (forall j, at2 aA s1 j = at2 a s1 j) /\
        ((m <= r)%nat -> at2 aA s2 0 = dcoef (kf k) p i m 0) /\ dA = rsum 1 (term r m)).
      { destruct (Z.leb_spec (Z.of_nat m) (Z.of_nat r)) as [C|C].
        - rewrite (get2_ok 2 (S p)) by (auto; lia). cbn [bind].
          pose proof (Den 0%nat ltac:(lia) ltac:(lia)) as Dn. rewrite Z.add_0_r in Dn. rewrite Dn. cbn [bind].
          do_set2 aA Sha Sma Ota. rewrite (get2_ok 2 (S p)) by (auto; lia). cbn [bind].
          pose proof (Val 0%nat ltac:(lia) ltac:(lia)) as Vl. rewrite Z.add_0_r in Vl. rewrite Vl. cbn [bind].
          eexists _, _. split; [reflexivity|]. split; [exact Sha|].
          assert (Sv : at2 aA s2 0 = dcoef (kf k) p i m 0).
          { rewrite Sma. rewrite Coef by lia. rewrite (Row 0%nat) by lia. fold i. f_equal. ring. }
          split; [intros j; apply Ota; lia|]. split; [auto|].
          rewrite Sv. change (rsum 1 (term r m)) with (0 + term r m 0). rewrite Term by lia. ring.
        - eexists _, _. split; [reflexivity|]. split; [exact Sa|]. split; [auto|]. split; [lia|].
          change (rsum 1 (term r m)) with (0 + term r m 0). rewrite term_low by lia. ring. }
      destruct StA as (aA & dA & EA & ShA & KA & VA & DA).
      change (@szero R (ROps eps maxv)) with 0. change (@sdiv R (ROps eps maxv)) with Rdiv.
      change (@smul R (ROps eps maxv)) with Rmult.
      rewrite EA. cbn [bind]. clear EA.
      (* stage B: the middle coefficients *)
      set (j1 := if (-1 <=? rk)%Z then 1%Z else (- rk)%Z).
      set (j2 := if (Z.of_nat r - 1 <=? pk)%Z then (Z.of_nat m - 1)%Z else (Z.of_nat p - Z.of_nat r)%Z).
      set (n1 := Nat.max 1 (m - r)). set (n2 := if (r + m <=? p)%nat then (m - 1)%nat else (p - r)%nat).
      assert (E1 : j1 = Z.of_nat n1). { unfold j1, n1, rk. destruct (Z.leb_spec (-1) (Z.of_nat r - Z.of_nat m)); lia. }
      assert (E2 : j2 = Z.of_nat n2).
      { unfold j2, n2, pk. destruct (Z.leb_spec (Z.of_nat r - 1) (Z.of_nat p - Z.of_nat m));
          destruct (Nat.leb_spec (r + m) p); lia. }
      assert (Hn12 : (n1 <= S n2)%nat).
      { unfold n1, n2. destruct (Nat.leb_spec (r + m) p); lia. }
      assert (Hn2 : (r + n2 <= p)%nat /\ (n2 <= m - 1)%nat).
      { unfold n2. destruct (Nat.leb_spec (r + m) p); lia. }
      assert (Hn1 : (1 <= n1)%nat /\ (m <= r + n1)%nat) by (unfold n1; lia).
      clearbody j1 j2. subst j1 j2.
      set (K := fun j (st : list (list R) * R) =>
        let '(x, d) := st in shape 2 (S p) x /\ (forall j', at2 x s1 j' = at2 a s1 j') /\
          (forall j', (j' < j)%nat -> (m <= r + j')%nat -> (r + j' <= p)%nat -> at2 x s2 j' = dcoef (kf k) p i m j') /\
          d = rsum j (term r m)).
      destruct (for_incl_rule K n1 n2 (@ders_inner R (ROps eps maxv) ndu s1 s2 rk pk) (aA, dA))
        as ([aB dB] & EB & ShB & KB & VB & DB).
      { exact Hn12. }
      { cbn [K]. split; [exact ShA|]. split; [exact KA|]. split.
        - intros j' A B C. unfold n1 in A. replace j' with 0%nat by lia. apply VA. lia.
        - rewrite DA. symmetry. apply rsum_skip; [lia|]. intros j Hj. apply term_low. unfold n1 in Hj. lia. }
      { intros j [x d] Hj (Shx & Kx & Vx & Dx). unfold ders_inner.
        assert (Wj : (m <= r + j)%nat /\ (r + j <= p)%nat /\ (1 <= j <= m - 1)%nat) by lia.
        rewrite (get2_ok 2 (S p)) by (auto; lia). cbn [bind]. rewrite usub_ok by lia. cbn [bind].
        rewrite (get2_ok 2 (S p)) by (auto; lia). cbn [bind]. rewrite Den by lia. cbn [bind].
        do_set2 y Shy Smy Oty. rewrite (get2_ok 2 (S p)) by (auto; lia). cbn [bind].
        rewrite Val by lia. cbn [bind]. eexists. split; [reflexivity|]. cbn [K].
        assert (Sv : at2 y s2 j = dcoef (kf k) p i m j).
        { rewrite Smy. rs. rewrite !Kx, Coef by lia. rewrite (Row j), (Row (j - 1)%nat) by lia. fold i.
          destruct j as [|j']; [lia|]. replace (S j' - 1)%nat with j' by lia. reflexivity. }
        split; [exact Shy|]. split; [intros j'; rewrite Oty by lia; apply Kx|]. split.
        - intros j' A B C. destruct (Nat.eq_dec j' j) as [->|]; [exact Sv|]. rewrite Oty by lia. apply Vx; lia.
        - rs. rewrite Sv, Dx. change (rsum (S j) (term r m)) with (rsum j (term r m) + term r m j).
          rewrite Term by lia. ring. }
      assert (EB' : (if (Z.of_nat n1 <=? Z.of_nat n2)%Z
        then for_incl (Z.to_nat (Z.of_nat n1)) (Z.to_nat (Z.of_nat n2)) (@ders_inner R (ROps eps maxv) ndu s1 s2 rk pk) (aA, dA)
        else Ok (aA, dA)) = Ok (aB, dB)).
      { rewrite !Nat2Z.id. destruct (Z.leb_spec (Z.of_nat n1) (Z.of_nat n2)) as [C|C]; [exact EB|].
        assert (n1 = S n2) by lia. subst n1. rewrite H in EB. unfold for_incl in EB.
        rewrite Nat.sub_diag in EB. exact EB. }
      rewrite EB'. cbn [bind]. clear EB EB'.
      (* stage C: the last coefficient *)
      assert (StC : exists aC dC,
        (if (Z.of_nat r <=? pk)%Z
         then km <- usub m 1 ;; x <- get2 aB s1 km ;; nd <- get2z ndu (pk + 1) (Z.of_nat r) ;;
              a <- set2 aB s2 m (- x / nd) ;; v <- get2 a s2 m ;; w <- get2z ndu (Z.of_nat r) pk ;; Ok (a, dB + v * w)
         else Ok (aB, dB)) = Ok (aC, dC) /\
        shape 2 (S p) aC /\ row_ok r m aC s2 /\ dC = rsum (S m) (term r m)).
      { destruct (Z.leb_spec (Z.of_nat r) pk) as [C|C]; unfold pk in C.
        - rewrite usub_ok by lia. cbn [bind]. rewrite (get2_ok 2 (S p)) by (auto; lia). cbn [bind].
          pose proof (Den m ltac:(lia) ltac:(lia)) as Dn. pose proof (Val m ltac:(lia) ltac:(lia)) as Vl.
          replace (rk + Z.of_nat m)%Z with (Z.of_nat r) in Dn, Vl by (unfold rk; lia).
          rewrite Dn. cbn [bind]. do_set2 aC Shc Smc Otc. rewrite (get2_ok 2 (S p)) by (auto; lia). cbn [bind].
          rewrite Vl. cbn [bind]. eexists _, _. split; [reflexivity|]. split; [exact Shc|].
          assert (Sv : at2 aC s2 m = dcoef (kf k) p i m m).
          { rewrite Smc, KB, Coef by lia. rewrite (Row (m - 1)%nat) by lia. fold i.
            rewrite (dcoef_big _ _ _ (m - 1) m) by lia. destruct m as [|m']; [lia|].
            replace (S m' - 1)%nat with m' by lia. f_equal. ring. }
          assert (n2 = (m - 1)%nat) as En2. { unfold n2. destruct (Nat.leb_spec (r + m) p); lia. }
          split.
          + intros j A B G. destruct (Nat.eq_dec j m) as [->|]; [exact Sv|]. rewrite Otc by lia. apply VB; lia.
          + rewrite Sv, DB, En2. replace (S (m - 1)) with m by lia.
            change (rsum (S m) (term r m)) with (rsum m (term r m) + term r m m). rewrite Term by lia. ring.
        - eexists _, _. split; [reflexivity|]. split; [exact ShB|].
          assert (n2 = (p - r)%nat) as En2. { unfold n2. destruct (Nat.leb_spec (r + m) p); lia. }
          split.
          + intros j A B G. apply VB; lia.
          + rewrite DB, En2. symmetry. apply rsum_skip; [lia|]. intros j Hj. apply term_high; lia. }
      destruct StC as (aC & dC & EC & ShC & RC & DC).
      change (@sadd R (ROps eps maxv)) with Rplus. change (@sopp R (ROps eps maxv)) with Ropp.
      rewrite EC. cbn [bind]. do_set2 ders' Shd Smd Otd.
      eexists _, _. split; [reflexivity|]. split; [exact ShC|]. split; [exact Shd|]. split; [exact RC|].
      split; [now rewrite Smd|exact Otd].
    Qed.

    (** orders above the degree: nothing is written but a zero *)
    Lemma ders_k_high n r m (a : list (list R)) s1 s2 ders :
      (p < m <= n)%nat -> (r <= p)%nat -> shape (S n) (S p) ders ->
      exists ders', @ders_k R (ROps eps maxv) ndu p r m (a, s1, s2, ders) = Ok (a, s2, s1, ders') /\
        shape (S n) (S p) ders' /\ at2 ders' m r = 0 /\
        forall i j, (i <> m \/ j <> r) -> at2 ders' i j = at2 ders i j.
    Proof.
      intros Hmn Hr Sd. unfold ders_k.
      destruct (Z.leb_spec (Z.of_nat m) (Z.of_nat r)) as [C|_]; [lia|]. cbn [bind].
      match goal with |- context [if (?x <=? ?y)%Z then for_incl _ _ _ _ else _] =>
        assert (Hxy : (y < x)%Z) end.
      { destruct (Z.leb_spec (-1) (Z.of_nat r - Z.of_nat m));
          destruct (Z.leb_spec (Z.of_nat r - 1) (Z.of_nat p - Z.of_nat m)); lia. }
      apply Z.leb_gt in Hxy. rewrite Hxy. cbn [bind].
      destruct (Z.leb_spec (Z.of_nat r) (Z.of_nat p - Z.of_nat m)) as [C|_]; [lia|]. cbn [bind].
      do_set2 ders' Shd Smd Otd. exists ders'. rs. auto.
    Qed.

    (** value stored for the order [m], before scaling *)
    Definition tsum (r m : nat) : R := if (m <=? p)%nat then rsum (S m) (term r m) else 0.

    Lemma ders_r_ok n r a ders : (r <= p)%nat -> shape 2 (S p) a -> shape (S n) (S p) ders ->
      exists a' ders', @ders_r R (ROps eps maxv) ndu p n r (a, ders) = Ok (a', ders') /\
        shape 2 (S p) a' /\ shape (S n) (S p) ders' /\
        (forall m, (1 <= m <= n)%nat -> at2 ders' m r = tsum r m) /\
        forall i j, (i = 0%nat \/ j <> r) -> at2 ders' i j = at2 ders i j.
    Proof.
      intros Hr Sa Sd. unfold ders_r. do_set2 a0 Sh0 Sm0 Ot0.
      set (I := fun m (st : list (list R) * nat * nat * list (list R)) =>
        let '(a, s1, s2, ders') := st in
        (s1 < 2)%nat /\ (s2 < 2)%nat /\ s1 <> s2 /\ shape 2 (S p) a /\ shape (S n) (S p) ders' /\
        ((m <= S p)%nat -> row_ok r (m - 1) a s1) /\
        (forall m', (1 <= m' < m)%nat -> at2 ders' m' r = tsum r m') /\
        (forall i j, (i = 0%nat \/ j <> r) -> at2 ders' i j = at2 ders i j)).
      destruct (for_incl_rule I 1 n (@ders_k R (ROps eps maxv) ndu p r) (a0, 0%nat, 1%nat, ders))
        as ([[[a1 s1] s2] ders'] & E & (_ & _ & _ & A & B & _ & C & D)).
      - lia.
      - cbn [I]. repeat split; auto; try lia; try apply Sh0; try apply Sd.
        intros _ j G1 G2 G3. replace j with 0%nat by lia. rewrite Sm0. reflexivity.
      - intros m [[[x s1] s2] dd] Hmm (B1 & B2 & B3 & Sx & Sdd & Rw & V & O).
        destruct (Nat.le_gt_cases m p) as [Hmp|Hmp].
        + destruct (ders_k_ok n r m x s1 s2 dd) as (x' & dd' & E & Sx' & Sdd' & Rw' & V' & O'); auto; try lia.
          eexists. split; [exact E|]. cbn [I]. replace (S m - 1)%nat with m by lia.
          repeat split; auto; try apply Sx'; try apply Sdd'.
          * intros m' Hm'. destruct (Nat.eq_dec m' m) as [->|].
            -- unfold tsum. destruct (Nat.leb_spec m p); [exact V'|lia].
            -- rewrite O' by lia. apply V. lia.
          * intros i j Hij. rewrite O' by lia. now apply O.
        + destruct (ders_k_high n r m x s1 s2 dd) as (dd' & E & Sdd' & V' & O'); auto; try lia.
          eexists. split; [exact E|]. cbn [I].
          repeat split; auto; try apply Sx; try apply Sdd'; try lia.
          * intros m' Hm'. destruct (Nat.eq_dec m' m) as [->|].
            -- unfold tsum. destruct (Nat.leb_spec m p); [lia|exact V'].
            -- rewrite O' by lia. apply V. lia.
          * intros i j Hij. rewrite O' by lia. now apply O.
      - rewrite E. cbn [bind]. eexists _, _. split; [reflexivity|]. split; [exact A|]. split; [exact B|].
        split; [|exact D]. intros m Hmm. apply C. lia.
    Qed.
  End Span.

  Theorem derivative_basis_spec k s p n u :
    mono (kf k) -> kf k s < kf k (S s) -> (p <= s)%nat -> (s + p < length k)%nat ->
    exists ders, derivative_basis_functions k s u p n = Ok ders /\ shape (S n) (S p) ders /\
      forall m r, (m <= n)%nat -> (r <= p)%nat -> at2 ders m r = dbs (kf k) s p m (s - p + r) u.
  Proof.
    intros Hm Hs Hp Hl. unfold derivative_basis_functions.
    destruct (ndu_table_ok k s p u Hm Hs Hp Hl) as (ndu & En & Shn & Nok).
    rewrite En. cbn [bind]. rs. replace (p + 1)%nat with (S p) by lia. replace (n + 1)%nat with (S n) by lia.
    set (term' := tsum k s p u).
    (* load the values *)
    set (I0 := fun j d => shape (S n) (S p) d /\ forall r, (r < j)%nat -> at2 d 0 r = bs (kf k) s p (s - p + r) u).
    match goal with |- context [for_incl 0 p ?g (repeat (repeat 0 (S p)) (S n))] =>
      destruct (for_incl_rule I0 0 p g (repeat (repeat 0 (S p)) (S n))) as (d0 & E0 & Sh0 & V0) end.
    { lia. }
    { split; [apply repeat_shape|intros; lia]. }
    { intros j d Hj (Shd & Vd). rewrite (get2_ok (S p) (S p)) by (auto; lia). cbn [bind].
      destruct (set2_ok (S n) (S p) d 0 j (at2 ndu j p) Shd) as (d' & E & Sh' & Sm & Ot); [lia|lia|].
      exists d'. split; [exact E|]. split; [exact Sh'|]. intros r Hr. destruct (Nat.eq_dec r j) as [->|].
      - rewrite Sm. rewrite (proj2 Nok) by lia. reflexivity.
      - rewrite Ot by lia. apply Vd. lia. }
    rewrite E0. cbn [bind]. clear E0.
    (* columns *)
    set (I1 := fun j (st : list (list R) * list (list R)) => let '(a, d) := st in
      shape 2 (S p) a /\ shape (S n) (S p) d /\ (forall r, (r <= p)%nat -> at2 d 0 r = bs (kf k) s p (s - p + r) u) /\
      forall m r, (1 <= m <= n)%nat -> (r < j)%nat -> at2 d m r = term' r m).
    destruct (for_incl_rule I1 0 p (@ders_r R (ROps eps maxv) ndu p n) (repeat (repeat 0 (S p)) 2, d0))
      as ([a1 d1] & E1 & _ & Sh1 & V1 & W1).
    { lia. }
    { cbn [I1]. split; [apply repeat_shape|]. split; [exact Sh0|]. split; [intros; apply V0; lia|intros; lia]. }
    { intros r [a d] Hr (Sa & Sd & V & W).
      destruct (ders_r_ok k s p u Hm Hs Hp Hl ndu Shn Nok n r a d) as (a' & d' & E & Sa' & Sd' & V' & O'); auto; try lia.
      eexists. split; [exact E|]. cbn [I1]. split; [exact Sa'|]. split; [exact Sd'|]. split.
      - intros r' Hr'. rewrite O' by auto. now apply V.
      - intros m r' Hm' Hr'. destruct (Nat.eq_dec r' r) as [->|]; [now apply V'|]. rewrite O' by auto. apply W; lia. }
    rewrite E1. cbn [bind]. clear E1.
    (* scaling *)
    set (I2 := fun m (st : list (list R) * Z) => let '(d, acc) := st in
      shape (S n) (S p) d /\ IZR acc = falling p m /\
      (forall r, (r <= p)%nat -> at2 d 0 r = bs (kf k) s p (s - p + r) u) /\
      (forall m' r, (1 <= m' < m)%nat -> (r <= p)%nat -> at2 d m' r = falling p m' * term' r m') /\
      (forall m' r, (m <= m' <= n)%nat -> (r <= p)%nat -> at2 d m' r = term' r m')).
    destruct (for_incl_rule I2 1 n (@ders_scale R (ROps eps maxv) p) (d1, Z.of_nat p))
      as ([d2 acc2] & E2 & Sh2 & _ & V2 & W2 & _).
    { lia. }
    { cbn [I2]. split; [exact Sh1|]. split; [cbn [falling]; rewrite <- INR_IZR_INZ; cbn [INR]; ring|].
      split; [exact V1|]. split; [intros; lia|]. intros; apply W1; lia. }
    { intros m [d acc] Hmm (Shd & Ha & V & W & X). unfold ders_scale.
      set (J := fun j e => shape (S n) (S p) e /\
        (forall r, (r < j)%nat -> at2 e m r = falling p m * term' r m) /\
        (forall m' r, (m' <> m \/ (j <= r)%nat) -> at2 e m' r = at2 d m' r)).
      match goal with |- context [for_incl 0 p ?g d] =>
        destruct (for_incl_rule J 0 p g d) as (e & E & She & Ve & Oe) end.
      { lia. }
      { split; [exact Shd|]. split; [intros; lia|auto]. }
      { intros j e Hj (She & Ve & Oe). rewrite (get2_ok (S n) (S p)) by (auto; lia). cbn [bind].
        destruct (set2_ok (S n) (S p) e m j (at2 e m j * IZR acc) She) as (e' & E & Sh' & Sm & Ot); [lia|lia|].
        exists e'. split; [exact E|]. split; [exact Sh'|]. split.
        - intros r Hr. destruct (Nat.eq_dec r j) as [->|].
          + rewrite Sm, Ha. rewrite Oe by lia. rewrite X by lia. ring.
          + rewrite Ot by lia. apply Ve. lia.
        - intros m' r Hmr. rewrite Ot by lia. apply Oe. lia. }
      rewrite E. cbn [bind]. eexists. split; [reflexivity|]. cbn [I2]. split; [exact She|]. split.
      - cbn [falling]. rewrite mult_IZR, minus_IZR, Ha, <- !INR_IZR_INZ. reflexivity.
      - split; [intros r Hr; rewrite Oe by lia; now apply V|]. split.
        + intros m' r Hm' Hr. destruct (Nat.eq_dec m' m) as [->|]; [apply Ve; lia|]. rewrite Oe by lia. apply W; lia.
        + intros m' r Hm' Hr. rewrite Oe by lia. apply X; lia. }
    rewrite E2. cbn [bind]. exists d2. split; [reflexivity|]. split; [exact Sh2|].
    intros m r Hmn Hr. destruct (Nat.eq_dec m 0) as [->|].
    - rewrite dbs_0. now apply V2.
    - rewrite W2 by lia. unfold dbs. unfold term', tsum. destruct (Nat.leb_spec m p) as [C|C].
      + f_equal. rewrite dbs_window by lia. unfold term, win. reflexivity.
      + rewrite falling_0 by lia. ring.
  Qed.
End Real.
