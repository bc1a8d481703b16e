(** * Rational partial derivatives and normals of surfaces (C48, C50) *)
From Coq Require Import Reals Lra Lia ZArith Bool.
From Verif Require Import Base BaseFacts Scalar RSum BSplineSpec BSpline BSplineDeriv KnotModel KnotSpec KnotFacts
  KnotProofs VecFacts MiscModel MiscProofs CurveModel CurveSpec CurveProofs CurveGeom CurveShapes DerivKnot CurveDeriv
  SurfaceModel SurfaceSpec SurfaceProofs SurfaceSample SurfaceDeriv.
Open Scope R_scope.

(** Pascal's rule inside a convolution *)
Lemma pascal_conv k (phi : nat -> nat -> R) :
  rsum (S (S k)) (fun i => INR (pascal (S k) i) * phi i (S k - i)%nat) =
  rsum (S k) (fun i => INR (pascal k i) * (phi (S i) (k - i)%nat + phi i (S k - i)%nat)).
Proof.
  rewrite rsum_S_l. rewrite pascal_0, Nat.sub_0_r.
  rewrite (rsum_ext (S k) _ (fun i => INR (pascal k i) * phi (S i) (k - i)%nat
                                  + INR (pascal k (S i)) * phi (S i) (k - i)%nat)).
  2:{ intros i Hi. cbn [pascal]. rewrite plus_INR. replace (S k - S i)%nat with (k - i)%nat by lia. ring. }
  rewrite rsum_plus.
  rewrite (rsum_ext (S k) (fun i => INR (pascal k i) * (phi (S i) (k - i)%nat + phi i (S k - i)%nat))
    (fun i => INR (pascal k i) * phi (S i) (k - i)%nat + INR (pascal k i) * phi i (S k - i)%nat)) by (intros; ring).
  rewrite rsum_plus. rewrite (rsum_S_l k (fun i => INR (pascal k i) * phi i (S k - i)%nat)).
  rewrite pascal_0, Nat.sub_0_r.
  change (rsum (S k) (fun i => INR (pascal k (S i)) * phi (S i) (k - i)%nat))
    with (rsum k (fun i => INR (pascal k (S i)) * phi (S i) (k - i)%nat) + INR (pascal k (S k)) * phi (S k) (k - k)%nat).
  rewrite (pascal_big k (S k)) by lia. cbn [INR].
  rewrite (rsum_ext k (fun i => INR (pascal k (S i)) * phi (S i) (S k - S i)%nat)
    (fun i => INR (pascal k (S i)) * phi (S i) (k - i)%nat)).
  2:{ intros i Hi. replace (S k - S i)%nat with (k - i)%nat by lia. reflexivity. }
  change (INR 1) with 1. ring.
Qed.

(** ** Two-variable quotient rule *)
Section Quot2.
  Variables A W : nat -> nat -> R -> R -> R.

  Definition cc (k l i j : nat) : R := INR (pascal k i) * INR (pascal l j).

  Fixpoint q2f (f k l : nat) (u v : R) : R :=
    match f with
    | O => 0
    | S f' => (A k l u v - rsum (S k) (fun i => rsum (S l) (fun j =>
        if (i + j =? 0)%nat then 0 else cc k l i j * (W i j u v * q2f f' (k - i) (l - j) u v)))) / W 0%nat 0%nat u v
    end.
  Definition q2 (k l : nat) (u v : R) : R := q2f (S (k + l)) k l u v.
  Definition z2 (k l : nat) (u v : R) : R := rsum (S k) (fun i => rsum (S l) (fun j =>
    if (i + j =? 0)%nat then 0 else cc k l i j * (W i j u v * q2 (k - i) (l - j) u v))).

  Lemma q2f_enough f : forall k l u v, (k + l < f)%nat -> q2f f k l u v = q2 k l u v.
  Proof.
    induction f as [f IH] using lt_wf_ind. intros k l u v Hf. destruct f as [|f]; [lia|].
    unfold q2. cbn [q2f]. f_equal. f_equal. apply rsum_ext. intros i Hi. apply rsum_ext. intros j Hj.
    destruct (Nat.eqb_spec (i + j) 0); [reflexivity|]. f_equal. f_equal.
    rewrite IH by lia. destruct (Nat.eq_dec f (k + l)) as [->|]; [|rewrite <- (IH (k + l)%nat) by lia; reflexivity].
    rewrite IH by lia. reflexivity.
  Qed.

  Lemma q2_eq k l u v : q2 k l u v = (A k l u v - z2 k l u v) / W 0%nat 0%nat u v.
  Proof.
    unfold q2 at 1. cbn [q2f]. f_equal. f_equal. unfold z2. apply rsum_ext. intros i Hi. apply rsum_ext.
    intros j Hj. destruct (Nat.eqb_spec (i + j) 0); [reflexivity|]. now rewrite q2f_enough by lia.
  Qed.

  Lemma z2_full k l (g : nat -> nat -> R) :
    rsum (S k) (fun i => rsum (S l) (fun j => cc k l i j * g i j)) =
    g 0%nat 0%nat + rsum (S k) (fun i => rsum (S l) (fun j => if (i + j =? 0)%nat then 0 else cc k l i j * g i j)).
  Proof.
    rewrite !(rsum_S_l k). rewrite !(rsum_S_l l). cbn [Nat.add Nat.eqb].
    unfold cc at 1. rewrite !pascal_0. change (INR 1) with 1.
    ring.
  Qed.

  (** Leibniz *)
  Lemma q2_leibniz k l u v : W 0%nat 0%nat u v <> 0 ->
    rsum (S k) (fun i => rsum (S l) (fun j => cc k l i j * (W i j u v * q2 (k - i) (l - j) u v))) = A k l u v.
  Proof.
    intros Hw. rewrite z2_full. fold (z2 k l u v). rewrite !Nat.sub_0_r, (q2_eq k l).
    field. exact Hw.
  Qed.

  Lemma q2_deriv_u k l u v :
    (forall k l, derivable_pt_lim (fun x => A k l x v) u (A (S k) l u v)) ->
    (forall k l, derivable_pt_lim (fun x => W k l x v) u (W (S k) l u v)) ->
    W 0%nat 0%nat u v <> 0 -> derivable_pt_lim (fun x => q2 k l x v) u (q2 (S k) l u v).
  Proof.
    intros HA HW Hw. remember (k + l)%nat as n eqn:En. revert k l En.
    induction n as [n IH] using lt_wf_ind. intros k l ->.
    set (Z' := rsum (S k) (fun i => rsum (S l) (fun j => if (i + j =? 0)%nat then 0 else
      cc k l i j * (W (S i) j u v * q2 (k - i) (l - j) u v + W i j u v * q2 (S (k - i)) (l - j) u v)))).
    assert (DN : derivable_pt_lim (fun x => A k l x v - z2 k l x v) u (A (S k) l u v - Z')).
    { apply (derivable_pt_lim_minus (fun x => A k l x v) (fun x => z2 k l x v)); [apply HA|].
      unfold z2, Z'.
      apply (derivable_rsum (S k) (fun i x => rsum (S l) (fun j => if (i + j =? 0)%nat then 0 else
          cc k l i j * (W i j x v * q2 (k - i) (l - j) x v)))
        (fun i u => rsum (S l) (fun j => if (i + j =? 0)%nat then 0 else
          cc k l i j * (W (S i) j u v * q2 (k - i) (l - j) u v + W i j u v * q2 (S (k - i)) (l - j) u v)))).
      intros i Hi.
      apply (derivable_rsum (S l) (fun j x => if (i + j =? 0)%nat then 0 else
          cc k l i j * (W i j x v * q2 (k - i) (l - j) x v))
        (fun j u => if (i + j =? 0)%nat then 0 else
          cc k l i j * (W (S i) j u v * q2 (k - i) (l - j) u v + W i j u v * q2 (S (k - i)) (l - j) u v))).
      intros j Hj. destruct (Nat.eqb_spec (i + j) 0) as [|Hne]; [apply derivable_pt_lim_const|].
      pose proof (IH (k - i + (l - j))%nat ltac:(lia) (k - i)%nat (l - j)%nat eq_refl) as Di.
      pose proof (derivable_pt_lim_mult _ _ u _ _ (HW i j) Di) as Dm.
      pose proof (derivable_pt_lim_scal _ (cc k l i j) u _ Dm) as Ds.
      eapply derivable_pt_lim_ext; [|exact Ds]. intros x. unfold mult_real_fct, mult_fct. ring. }
    pose proof (derivable_pt_lim_div _ _ u _ _ DN (HW 0%nat 0%nat) Hw) as DQ.
    assert (EN : A k l u v - z2 k l u v = q2 k l u v * W 0%nat 0%nat u v).
    { rewrite (q2_eq k l). field. exact Hw. }
    assert (DQ' : derivable_pt_lim (fun x => q2 k l x v) u
      (((A (S k) l u v - Z') * W 0%nat 0%nat u v - W 1%nat 0%nat u v * (A k l u v - z2 k l u v)) / Rsqr (W 0%nat 0%nat u v))).
    { eapply derivable_pt_lim_ext; [|exact DQ]. intros x. unfold div_fct. symmetry. apply q2_eq. }
    match type of DQ' with derivable_pt_lim _ _ ?x => replace (q2 (S k) l u v) with x; [exact DQ'|] end.
    rewrite EN. unfold Rsqr.
    transitivity ((A (S k) l u v - Z' - W 1%nat 0%nat u v * q2 k l u v) / W 0%nat 0%nat u v); [field; exact Hw|].
    rewrite (q2_eq (S k) l). f_equal.
    match goal with |- _ - ?x - ?y = _ - ?z => enough (x + y = z) by lra end.
    (* add the missing term on both sides and use Pascal's rule *)
    apply (Rplus_eq_reg_l (W 0%nat 0%nat u v * q2 (S k) l u v)).
    pose proof (z2_full (S k) l (fun i j => W i j u v * q2 (S k - i) (l - j) u v)) as E1.
    cbv beta in E1. rewrite !Nat.sub_0_r in E1. fold (z2 (S k) l u v) in E1. rewrite <- E1.
    pose proof (z2_full k l (fun i j => W (S i) j u v * q2 (k - i) (l - j) u v + W i j u v * q2 (S (k - i)) (l - j) u v)) as E2.
    cbv beta in E2. rewrite !Nat.sub_0_r in E2. fold Z' in E2.
    replace (W 0%nat 0%nat u v * q2 (S k) l u v + (Z' + W 1%nat 0%nat u v * q2 k l u v)) with
      (W 1%nat 0%nat u v * q2 k l u v + W 0%nat 0%nat u v * q2 (S k) l u v + Z') by ring.
    rewrite <- E2.
    set (phi := fun i x => rsum (S l) (fun j => INR (pascal l j) * (W i j u v * q2 x (l - j) u v))).
    rewrite (rsum_ext (S (S k)) _ (fun i => INR (pascal (S k) i) * phi i (S k - i)%nat)).
    2:{ intros i Hi. unfold phi. rewrite <- rsum_scal. apply rsum_ext. intros j Hj. unfold cc. ring. }
    rewrite pascal_conv. apply rsum_ext. intros i Hi. unfold phi.
    rewrite <- rsum_plus, <- rsum_scal. apply rsum_ext. intros j Hj.
    replace (S k - i)%nat with (S (k - i)) by lia. unfold cc. ring.
  Qed.
End Quot2.

(** the quotient rule does not depend on the order of the variables *)
Lemma q2_swap A W k l u v :
  q2 A W k l u v = q2 (fun k l u v => A l k v u) (fun k l u v => W l k v u) l k v u.
Proof.
  remember (k + l)%nat as n eqn:En. revert k l En. induction n as [n IH] using lt_wf_ind. intros k l ->.
  rewrite !q2_eq. f_equal. f_equal. unfold z2. rewrite rsum_swap. apply rsum_ext. intros i Hi.
  apply rsum_ext. intros j Hj. rewrite (Nat.add_comm i j). destruct (Nat.eqb_spec (j + i) 0); [reflexivity|].
  rewrite (IH (k - j + (l - i))%nat ltac:(lia) (k - j)%nat (l - i)%nat eq_refl). unfold cc. ring.
Qed.

Lemma q2_deriv_v A W k l u v :
  (forall k l, derivable_pt_lim (fun y => A k l u y) v (A k (S l) u v)) ->
  (forall k l, derivable_pt_lim (fun y => W k l u y) v (W k (S l) u v)) ->
  W 0%nat 0%nat u v <> 0 -> derivable_pt_lim (fun y => q2 A W k l u y) v (q2 A W k (S l) u v).
Proof.
  intros HA HW Hw. rewrite (q2_swap A W k (S l)).
  eapply derivable_pt_lim_ext; [intros x; symmetry; apply q2_swap|].
  apply (q2_deriv_u (fun k l u v => A l k v u) (fun k l u v => W l k v u) l k v u); auto.
Qed.

Lemma q2_ext A W A' W' u v u' v' d k l : (k + l <= d)%nat ->
  (forall k l, (k + l <= d)%nat -> A k l u v = A' k l u' v') ->
  (forall k l, (k + l <= d)%nat -> W k l u v = W' k l u' v') -> q2 A W k l u v = q2 A' W' k l u' v'.
Proof.
  intros Hkl HA HW. remember (k + l)%nat as n eqn:En. revert k l Hkl En.
  induction n as [n IH] using lt_wf_ind. intros k l Hkl ->. rewrite !q2_eq, HA, HW by lia. f_equal. f_equal.
  unfold z2. apply rsum_ext. intros i Hi. apply rsum_ext. intros j Hj.
  destruct (Nat.eqb_spec (i + j) 0); [reflexivity|]. rewrite HW by lia.
  rewrite (IH (k - i + (l - j))%nat) by lia. reflexivity.
Qed.

Section Real.
  Variables eps maxv : R.
  Local Hint Extern 0 (Scalar R) => exact (ROps eps maxv) : typeclass_instances.

  Lemma get2_ent (m : list (list (list R))) k l :
    (k < length m)%nat -> (l < length (nth k m []))%nat -> get2 m k l = Ok (ent m k l).
  Proof.
    intros Hk Hl. unfold get2, ent. rewrite (get_ok m k []) by auto. cbn [bind]. now rewrite (get_ok _ l []) by auto.
  Qed.

  (** the double loop, for any table of homogeneous derivatives *)
  Lemma surf_rational_of_spec D (ders : list (list (list R))) d (A : nat -> nat -> nat -> R) :
    (1 <= D)%nat -> length ders = S d -> (forall k, (k <= d)%nat -> (d - k < length (nth k ders []))%nat) ->
    (forall k l, (k + l <= d)%nat -> length (ent ders k l) = D) ->
    (forall i k l, (k + l <= d)%nat -> A i k l = rc i (ent ders k l)) ->
    exists sk, surf_rational_of D ders d = Ok sk /\ length sk = S d /\
      forall k, (k <= d)%nat -> length (nth k sk []) = S (d - k) /\
        forall l, (k + l <= d)%nat -> length (ent sk k l) = (D - 1)%nat /\
          forall i, (i < D - 1)%nat ->
            rc i (ent sk k l) = q2 (fun k l _ _ => A i k l) (fun k l _ _ => A (D - 1)%nat k l) k l 0 0.
  Proof.
    intros HD Ld Lr Le HA. unfold surf_rational_of.
    set (ad := map (map (firstn (D - 1))) ders). set (wd := map (map (coord (D - 1))) ders).
    assert (Ga : forall k l, (k + l <= d)%nat -> exists q, get2 ad k l = Ok q /\ length q = (D - 1)%nat /\
      forall i, (i < D - 1)%nat -> rc i q = A i k l).
    { intros k l Hkl. unfold ad, get2. specialize (Lr k ltac:(lia)).
      rewrite (get_ok _ k []) by (rewrite map_length; lia). cbn [bind].
      rewrite (nth_map_lt (map (firstn (D - 1))) ders k [] []) by lia.
      rewrite (get_ok _ l []) by (rewrite map_length; lia).
      rewrite (nth_map_lt (firstn (D - 1)) _ l [] []) by lia.
      change (nth l (nth k ders []) []) with (ent ders k l). pose proof (Le k l Hkl) as L1.
      eexists. split; [reflexivity|]. split.
      - rewrite firstn_length. lia.
      - intros i Hi. rewrite rc_firstn by auto. now rewrite HA. }
    assert (Gw : forall k l, (k + l <= d)%nat -> get2 wd k l = Ok (A (D - 1)%nat k l)).
    { intros k l Hkl. unfold wd, get2. specialize (Lr k ltac:(lia)).
      rewrite (get_ok _ k []) by (rewrite map_length; lia). cbn [bind].
      rewrite (nth_map_lt (map (coord (D - 1))) ders k [] []) by lia.
      rewrite (get_ok _ l 0) by (rewrite map_length; lia).
      rewrite (nth_map_lt (coord (D - 1)) _ l [] 0) by lia. rewrite coord_rc.
      change (nth l (nth k ders []) []) with (ent ders k l). now rewrite HA. }
    clearbody ad wd.
    set (W := A (D - 1)%nat) in *.
    set (C := fun i k l => q2 (fun k l _ _ => A i k l) (fun k l _ _ => W k l) k l 0 0).
    set (RowOk := fun k n (row : list (list R)) => length row = n /\ forall l, (l < n)%nat ->
      length (nth l row []) = (D - 1)%nat /\ forall i, (i < D - 1)%nat -> rc i (nth l row []) = C i k l).
    set (I := fun n (st : list (list (list R)) * @memo R) => let '(sk, mm) := st in
      memo_ok mm /\ length sk = n /\ forall k, (k < n)%nat -> RowOk k (S (d - k)) (nth k sk [])).
    match goal with |- context [for_incl 0 d ?g ?x] =>
      destruct (for_incl_rule I 0 d g x) as ([sk mm] & E & _ & HI1 & HI2) end.
    - lia.
    - cbn [I]. split; [constructor|]. split; [reflexivity|]. intros; lia.
    - intros k [sk mm] Hk (Mk & Lk & Vk). rewrite usub_ok by lia. cbn [bind].
      set (J := fun n (st : list (list R) * @memo R) => let '(row, m') := st in memo_ok m' /\ RowOk k n row).
      match goal with |- context [for_incl 0 (d - k) ?g ?x] =>
        destruct (for_incl_rule J 0 (d - k) g x) as ([row m'] & E & Mr & Rr) end.
      + lia.
      + cbn [J]. split; [exact Mk|]. split; [reflexivity|intros; lia].
      + intros l [row m0] Hl (M0 & L0 & V0). unfold rat_entry.
        destruct (Ga k l ltac:(lia)) as (a & Ea & La & Va). rewrite Ea. cbn [bind].
        (* corrections inside the row *)
        set (J1 := fun j (st : list R * @memo R) => let '(v, m1) := st in
          memo_ok m1 /\ length v = (D - 1)%nat /\ forall i, (i < D - 1)%nat ->
            rc i v = A i k l - rsum (j - 1) (fun j => INR (pascal l (S j)) * (W 0%nat (S j) * C i k (l - S j)%nat))).
        match goal with |- context [for_incl 1 l ?g (a, m0)] =>
          destruct (for_incl_rule J1 1 l g (a, m0)) as ([v1 m1] & E1 & M1 & L1 & V1) end.
        { lia. }
        { cbn [J1]. split; [exact M0|]. split; [exact La|]. intros i Hi. rewrite Va by auto. cbn [rsum Nat.sub]. ring. }
        { intros j [v m1] Hj (M1 & L1 & V1).
          destruct (bin_get_spec eps maxv l j m1 M1) as (B1 & B2).
          destruct (bin_get l j m1) as [b m2] eqn:Eb. cbn [fst snd] in B1, B2.
          rewrite Gw by lia. cbn [bind]. rewrite usub_ok by lia. cbn [bind].
          rewrite (get_ok row (l - j) []) by lia. cbn [bind]. eexists. split; [reflexivity|]. cbn [J1].
          destruct (V0 (l - j)%nat ltac:(lia)) as (L2 & V2).
          split; [exact B2|]. split; [apply vsub_length; [exact L1|now apply vscale_length]|].
          intros x Hx. rewrite rc_vsub by (rewrite (vscale_length _ _ _ L2); lia). rewrite rc_vscale, V1, V2 by auto.
          rs. rewrite B1. destruct j as [|j]; [lia|]. replace (S (S j) - 1)%nat with (S j) by lia.
          replace (S j - 1)%nat with j by lia. cbn [rsum]. ring. }
        rewrite E1. cbn [bind]. clear E1 J1.
        (* corrections from the previous rows *)
        set (J2 := fun n (st : list R * @memo R) => let '(v, m1) := st in
          memo_ok m1 /\ length v = (D - 1)%nat /\ forall i, (i < D - 1)%nat ->
            rc i v = rc i v1 - rsum (n - 1) (fun a => INR (pascal k (S a)) * (W (S a) 0%nat * C i (k - S a)%nat l)
              + INR (pascal k (S a)) * rsum l (fun j => INR (pascal l (S j)) * (W (S a) (S j) * C i (k - S a)%nat (l - S j)%nat)))).
        match goal with |- context [for_incl 1 k ?g (v1, m1)] =>
          destruct (for_incl_rule J2 1 k g (v1, m1)) as ([v2 m2] & E2 & M2 & L2 & V2) end.
        { lia. }
        { cbn [J2]. split; [exact M1|]. split; [exact L1|]. intros i Hi. cbn [rsum Nat.sub]. ring. }
        { intros n [v m2] Hn (M2 & L2 & V2).
          destruct (bin_get_spec eps maxv k n m2 M2) as (B1 & B2).
          destruct (bin_get k n m2) as [b m3] eqn:Eb. cbn [fst snd] in B1, B2.
          rewrite Gw by lia. cbn [bind]. rewrite usub_ok by lia. cbn [bind].
          destruct (Vk (k - n)%nat ltac:(lia)) as (Lp & Vp).
          rewrite (get2_ent sk (k - n) l) by lia. cbn [bind].
          destruct (Vp l ltac:(lia)) as (Lpl & Vpl). fold (ent sk (k - n) l) in Lpl, Vpl.
          set (vv := vsub v (vscale (ent sk (k - n) l) (smul b (W n 0%nat)))).
          assert (Lvv : length vv = (D - 1)%nat).
          { apply vsub_length; [exact L2|now apply vscale_length]. }
          set (J3 := fun j (st : list R * @memo R) => let '(w, m1) := st in
            memo_ok m1 /\ length w = (D - 1)%nat /\ forall i, (i < D - 1)%nat ->
              rc i w = rsum (j - 1) (fun j => INR (pascal l (S j)) * (W n (S j) * C i (k - n)%nat (l - S j)%nat))).
          match goal with |- context [for_incl 1 l ?g (vzero ?x, m3)] =>
            destruct (for_incl_rule J3 1 l g (vzero x, m3)) as ([w m4] & E3 & M4 & L4 & V4) end.
          - lia.
          - cbn [J3]. split; [exact B2|]. split; [rewrite vzero_length; exact Lvv|].
            intros i Hi. cbn [rsum Nat.sub]. apply rc_vzero.
          - intros j [w m4] Hj (M4 & L4 & V4).
            destruct (bin_get_spec eps maxv l j m4 M4) as (C1 & C2).
            destruct (bin_get l j m4) as [b' m5] eqn:Eb'. cbn [fst snd] in C1, C2.
            rewrite Gw by lia. cbn [bind]. rewrite usub_ok by lia. cbn [bind].
            rewrite (get2_ent sk (k - n) (l - j)) by lia. cbn [bind].
            destruct (Vp (l - j)%nat ltac:(lia)) as (L5 & V5). fold (ent sk (k - n) (l - j)) in L5, V5.
            assert (L6 : length (vscale (ent sk (k - n) (l - j)) b') = (D - 1)%nat) by now apply vscale_length.
            eexists. split; [reflexivity|]. cbn [J3]. split; [exact C2|].
            split; [apply vadd_length; [exact L4|now apply vscale_length]|].
            intros i Hi. rewrite rc_vadd by (rewrite (vscale_length _ _ _ L6); lia).
            rewrite !rc_vscale, V4, V5 by auto. rewrite C1. destruct j as [|j]; [lia|].
            replace (S (S j) - 1)%nat with (S j) by lia. replace (S j - 1)%nat with j by lia. cbn [rsum]. ring.
          - rewrite E3. cbn [bind].
            destruct (bin_get_spec eps maxv k n m4 M4) as (D1 & D2).
            destruct (bin_get k n m4) as [b' m5] eqn:Eb'. cbn [fst snd] in D1, D2.
            eexists. split; [reflexivity|]. cbn [J2]. split; [exact D2|].
            split; [apply vsub_length; [exact Lvv|now apply vscale_length]|].
            intros i Hi. rewrite rc_vsub by (rewrite (vscale_length _ _ _ L4); lia). rewrite rc_vscale, V4 by auto.
            unfold vv. rewrite rc_vsub by (rewrite (vscale_length _ _ _ Lpl); lia). rewrite rc_vscale, V2, Vpl by auto.
            rs. rewrite B1, D1. destruct n as [|n]; [lia|]. replace (S (S n) - 1)%nat with (S n) by lia.
            replace (S n - 1)%nat with n by lia. replace (S l - 1)%nat with l by lia. cbn [rsum]. ring. }
        rewrite E2. cbn [bind]. rewrite Gw by lia. cbn [bind].
        eexists. split; [reflexivity|]. cbn [J]. split; [exact M2|].
        split; [rewrite app_length; cbn [length]; lia|].
        intros l' Hl'. destruct (Nat.eq_dec l' l) as [->|].
        * rewrite app_nth2 by lia. rewrite L0, Nat.sub_diag. cbn [nth]. split; [now apply vdivs_length|].
          intros i Hi. rewrite rc_vdivs, V2, V1 by auto. unfold C at 4. rewrite q2_eq. f_equal.
          replace (S l - 1)%nat with l by lia. replace (S k - 1)%nat with k by lia.
          unfold z2. rewrite (rsum_S_l k). rewrite (rsum_S_l l). cbn [Nat.add Nat.eqb].
          rewrite !Nat.sub_0_r. unfold Rminus. rewrite Rplus_assoc. f_equal. rewrite Ropp_plus_distr. f_equal.
          -- f_equal. rewrite Rplus_0_l. apply rsum_ext. intros j Hj. unfold cc. rewrite pascal_0. change (INR 1) with 1.
             unfold C. ring.
          -- f_equal. apply rsum_ext. intros a' Ha'. rewrite (rsum_S_l l). rewrite !Nat.sub_0_r. unfold cc at 1.
             rewrite pascal_0. change (INR 1) with 1. fold (C i (k - S a')%nat l). rewrite <- rsum_scal. f_equal; [ring|].
             apply rsum_ext. intros j Hj. unfold cc, C. ring.
        * rewrite app_nth1 by lia. apply V0. lia.
      + rewrite E. cbn [bind]. eexists. split; [reflexivity|]. cbn [I]. split; [exact Mr|].
        split; [rewrite app_length; cbn [length]; lia|].
        intros k' Hk'. destruct (Nat.eq_dec k' k) as [->|].
        * rewrite app_nth2 by lia. rewrite Lk, Nat.sub_diag. cbn [nth]. exact Rr.
        * rewrite app_nth1 by lia. apply Vk. lia.
    - rewrite E. cbn [bind]. exists sk. split; [reflexivity|]. split; [exact HI1|].
      intros k Hk. destruct (HI2 k ltac:(lia)) as (L & V). split; [exact L|]. intros l Hl. apply V. lia.
  Qed.

  Lemma wsum_pos n (f g : nat -> R) : (forall j, (j < n)%nat -> 0 <= f j) -> rsum n f = 1 ->
    (forall j, (j < n)%nat -> 0 < g j) -> 0 < rsum n (fun j => f j * g j).
  Proof.
    intros Hf Hs Hg. destruct (rsum_exists_pos n f) as (j & Hj & Pj); [lra|].
    apply (rsum_pos _ _ j); auto.
    - intros j' Hj'. apply Rmult_le_pos; [now apply Hf|]. now apply Rlt_le, Hg.
    - apply Rmult_lt_0_compat; auto.
  Qed.

  (** the weight polynomial of a cell is positive on the closed cell *)
  Lemma dsurf_weight_pos s su sv u v : surf_ok s -> spos s ->
    (sdu s <= su <= nrow s - 1)%nat -> (sdv s <= sv <= ncol s - 1)%nat ->
    kf (suk s) su < kf (suk s) (S su) -> kf (svk s) sv < kf (svk s) (S sv) ->
    kf (suk s) su <= u <= kf (suk s) (S su) -> kf (svk s) sv <= v <= kf (svk s) (S sv) ->
    0 < dsurf s su sv (sdim s - 1) 0 0 u v.
  Proof.
    intros H Hw Hsu Hsv Nu' Nv' Hu Hv. pose proof (so_u s H) as Lu. pose proof (so_v s H) as Lv.
    pose proof (sorted_mono _ (ko_sorted _ _ _ (so_uk s H))) as Mu.
    pose proof (sorted_mono _ (ko_sorted _ _ _ (so_vk s H))) as Mv.
    unfold dsurf.
    rewrite (rsum_ext _ _ (fun a => bs (kf (suk s)) su (sdu s) a u *
      rsum (ncol s) (fun b => bs (kf (svk s)) sv (sdv s) b v * spc s (sdim s - 1) a b))).
    2:{ intros a Ha. rewrite <- rsum_scal. apply rsum_ext. intros b Hb. rewrite !dbs_0. ring. }
    apply wsum_pos.
    - intros a Ha. now apply bs_nonneg.
    - apply bs_sum; auto; lia.
    - intros a Ha. apply wsum_pos.
      + intros b Hb. now apply bs_nonneg.
      + apply bs_sum; auto; lia.
      + intros b Hb. now apply Hw.
  Qed.

  (** the coordinate [i] of the (k, l) partial derivative of the cell's rational polynomial *)
  Definition rsurf (s : Surf R) (su sv i k l : nat) (u v : R) : R :=
    q2 (dsurf s su sv i) (dsurf s su sv (sdim s - 1)) k l u v.

  Lemma surf_rational_piece s u v d su sv : surf_ok s -> surf_eps eps s ->
    (sdu s <= su <= nrow s - 1)%nat -> (sdv s <= sv <= ncol s - 1)%nat ->
    in_span (suk s) (nrow s - 1) su u -> in_span (svk s) (ncol s - 1) sv v ->
    exists sk, surf_rational_derivatives s u v d = Ok sk /\ length sk = S d /\
      forall k, (k <= d)%nat -> length (nth k sk []) = S (d - k) /\
        forall l, (k + l <= d)%nat -> length (ent sk k l) = (sdim s - 1)%nat /\
          forall i, (i < sdim s - 1)%nat -> rc i (ent sk k l) = rsurf s su sv i k l u v.
  Proof.
    intros H He Hsu Hsv Iu Iv. unfold surf_rational_derivatives.
    destruct (surf_derivatives_piece eps maxv s u v d su sv H He) as (ds & E & T & V); auto.
    { apply find_span_in; auto; [apply H|apply He]. }
    { apply find_span_in; auto; [apply H|apply He]. }
    { apply Iu. } { apply Iv. }
    rewrite E. cbn [bind]. destruct T as (L & T).
    destruct (surf_rational_of_spec (sdim s) ds d (fun i k l => dsurf s su sv i k l u v))
      as (sk & Ek & Lk & Vk).
    { apply H. } { exact L. }
    { intros k Hk. destruct (T k ltac:(lia)) as (-> & _). lia. }
    { intros k l Hkl. destruct (T k ltac:(lia)) as (_ & T'). apply T'. lia. }
    { intros i k l Hkl. symmetry. now apply V. }
    exists sk. split; [exact Ek|]. split; [exact Lk|]. intros k Hk. destruct (Vk k Hk) as (Lr & Vr).
    split; [exact Lr|]. intros l Hl. destruct (Vr l Hl) as (Ll & Vl). split; [exact Ll|].
    intros i Hi. rewrite Vl by auto. unfold rsurf.
    apply (q2_ext _ _ _ _ _ _ _ _ d); auto.
  Qed.

  Lemma rsurf_chain s su sv i : surf_ok s -> spos s ->
    (sdu s <= su <= nrow s - 1)%nat -> (sdv s <= sv <= ncol s - 1)%nat ->
    kf (suk s) su < kf (suk s) (S su) -> kf (svk s) sv < kf (svk s) (S sv) ->
    partial_chain (kf (suk s) su) (kf (suk s) (S su)) (kf (svk s) sv) (kf (svk s) (S sv))
      (snurbs s i) (rsurf s su sv i).
  Proof.
    intros H Hw Hsu Hsv Nu' Nv'.
    pose proof (sorted_mono _ (ko_sorted _ _ _ (so_uk s H))) as Mu.
    pose proof (sorted_mono _ (ko_sorted _ _ _ (so_vk s H))) as Mv.
    split.
    - intros u v Hu Hv. unfold rsurf. rewrite q2_eq. unfold z2. cbn [rsum Nat.add Nat.eqb].
      unfold snurbs, swfun. rewrite !dsurf_0; auto.
      + f_equal. ring.
      + unfold in_span. split; [lra|]. split; [lra|]. left; lra.
      + unfold in_span. split; [lra|]. split; [lra|]. left; lra.
      + unfold in_span. split; [lra|]. split; [lra|]. left; lra.
      + unfold in_span. split; [lra|]. split; [lra|]. left; lra.
    - intros k l u v Hu Hv.
      assert (Hne : dsurf s su sv (sdim s - 1) 0 0 u v <> 0).
      { pose proof (dsurf_weight_pos s su sv u v H Hw Hsu Hsv Nu' Nv' Hu Hv). lra. }
      split.
      + apply q2_deriv_u; [| |exact Hne]; intros; now apply dsurf_deriv_u.
      + apply q2_deriv_v; [| |exact Hne]; intros; now apply dsurf_deriv_v.
  Qed.

  (** ** The rational derivatives are the partial derivatives of the surface *)
  Theorem surf_rational_derivatives_spec s su sv i : surf_ok s -> surf_eps eps s -> spos s ->
    (i < sdim s - 1)%nat ->
    (sdu s <= su <= nrow s - 1)%nat -> (sdv s <= sv <= ncol s - 1)%nat ->
    kf (suk s) su < kf (suk s) (S su) -> kf (svk s) sv < kf (svk s) (S sv) ->
    exists F, partial_chain (kf (suk s) su) (kf (suk s) (S su)) (kf (svk s) sv) (kf (svk s) (S sv)) (snurbs s i) F /\
      forall u v d, in_span (suk s) (nrow s - 1) su u -> in_span (svk s) (ncol s - 1) sv v ->
        exists ds, surf_rational_derivatives s u v d = Ok ds /\ length ds = S d /\
          forall k, (k <= d)%nat -> length (nth k ds []) = S (d - k) /\
            forall l, (k + l <= d)%nat -> rc i (ent ds k l) = F k l u v.
  Proof.
    intros H He Hw Hi Hsu Hsv Nu' Nv'. exists (rsurf s su sv i). split; [now apply rsurf_chain|].
    intros u v d Iu Iv. destruct (surf_rational_piece s u v d su sv) as (ds & E & L & V); auto.
    exists ds. split; [exact E|]. split; [exact L|]. intros k Hk. destruct (V k Hk) as (Lr & Vr).
    split; [exact Lr|]. intros l Hl. now apply (Vr l Hl).
  Qed.

  (** ** Normals *)
  Lemma span_exists k p n u : knots_ok p n k -> eps_ok eps p n k -> kf k p <= u <= kf k (S n) ->
    exists sp, (p <= sp <= n)%nat /\ in_span k n sp u.
  Proof.
    intros Hk He Hu. destruct (find_span_brackets eps maxv k p n u Hk He) as (sp & E & Hs & Hi); eauto.
    now rewrite Nat.add_1_r.
  Qed.

  Lemma normal_piece s u v su sv : surf_ok s -> surf_eps eps s -> sdim s = 4%nat ->
    (sdu s <= su <= nrow s - 1)%nat -> (sdv s <= sv <= ncol s - 1)%nat ->
    in_span (suk s) (nrow s - 1) su u -> in_span (svk s) (ncol s - 1) sv v ->
    exists a b, normal_at s u v = Ok (cross3 a b) /\ length a = 3%nat /\ length b = 3%nat /\
      forall i, (i < 3)%nat -> rc i a = rsurf s su sv i 1 0 u v /\ rc i b = rsurf s su sv i 0 1 u v.
  Proof.
    intros H He HD Hsu Hsv Iu Iv.
    destruct (surf_rational_piece s u v 1 su sv) as (ds & E & L & V); auto.
    destruct (V 0%nat ltac:(lia)) as (L0 & V0). destruct (V 1%nat ltac:(lia)) as (L1 & V1).
    unfold normal_at. rewrite E. cbn [bind]. rewrite (get2_ent ds 1 0) by lia. cbn [bind].
    rewrite (get2_ent ds 0 1) by lia. cbn [bind]. exists (ent ds 1 0), (ent ds 0 1).
    split; [reflexivity|]. destruct (V1 0%nat ltac:(lia)) as (La & Va). destruct (V0 1%nat ltac:(lia)) as (Lb & Vb).
    rewrite HD in *. split; [exact La|]. split; [exact Lb|]. intros i Hi. split; [apply Va|apply Vb]; lia.
  Qed.

  Lemma chain_partials s su sv i u v F :
    partial_chain (kf (suk s) su) (kf (suk s) (S su)) (kf (svk s) sv) (kf (svk s) (S sv)) (snurbs s i) F ->
    kf (suk s) su < u < kf (suk s) (S su) -> kf (svk s) sv < v < kf (svk s) (S sv) ->
    derivable_pt_lim (fun x => snurbs s i x v) u (F 1%nat 0%nat u v) /\
    derivable_pt_lim (fun y => snurbs s i u y) v (F 0%nat 1%nat u v).
  Proof.
    intros (F0 & FD) Hu Hv. destruct (FD 0%nat 0%nat u v ltac:(lra) ltac:(lra)) as (D1 & D2). split.
    - apply (derivable_local (fun x => F 0%nat 0%nat x v) _ (kf (suk s) su) (kf (suk s) (S su))); auto.
      intros x Hx. apply F0; lra.
    - apply (derivable_local (fun y => F 0%nat 0%nat u y) _ (kf (svk s) sv) (kf (svk s) (S sv))); auto.
      intros x Hx. apply F0; lra.
  Qed.

  (** the normal is the cross product of the two partial derivatives, hence orthogonal to both *)
  Theorem normal_at_spec s su sv u v : surf_ok s -> surf_eps eps s -> spos s -> sdim s = 4%nat ->
    (sdu s <= su <= nrow s - 1)%nat -> (sdv s <= sv <= ncol s - 1)%nat ->
    kf (suk s) su < u < kf (suk s) (S su) -> kf (svk s) sv < v < kf (svk s) (S sv) ->
    exists n a b, normal_at s u v = Ok n /\ length n = 3%nat /\
      (forall i, (i < 3)%nat -> derivable_pt_lim (fun x => snurbs s i x v) u (a i) /\
                            derivable_pt_lim (fun y => snurbs s i u y) v (b i)) /\
      rc 0 n = a 1%nat * b 2%nat - a 2%nat * b 1%nat /\
      rc 1 n = a 2%nat * b 0%nat - a 0%nat * b 2%nat /\
      rc 2 n = a 0%nat * b 1%nat - a 1%nat * b 0%nat /\
      rsum 3 (fun i => rc i n * a i) = 0 /\ rsum 3 (fun i => rc i n * b i) = 0.
  Proof.
    intros H He Hw HD Hsu Hsv Hu Hv.
    destruct (normal_piece s u v su sv) as (a & b & E & La & Lb & V); auto.
    { unfold in_span. split; [lra|]. split; [lra|]. left; lra. }
    { unfold in_span. split; [lra|]. split; [lra|]. left; lra. }
    exists (cross3 a b), (fun i => rc i a), (fun i => rc i b). split; [exact E|]. split; [reflexivity|]. split.
    - intros i Hi. destruct (V i Hi) as (-> & ->).
      apply (chain_partials s su sv i u v (rsurf s su sv i)); auto. apply rsurf_chain; auto; lra.
    - unfold cross3. rewrite !coord_rc. unfold rc. cbn [nth rsum]. rs.
      split; [reflexivity|]. split; [reflexivity|]. split; [reflexivity|]. split; ring.
  Qed.
End Real.
