(** * [try_refine_knot] does not change the curve *)
From Coq Require Import Reals Lra Sorted Permutation.
From Verif Require Import Base BaseFacts Scalar RSum BSplineSpec BSpline BSplineInsert KnotModel
  KnotSpec KnotFacts KnotProofs VecFacts CurveModel CurveKnotModel CurveSpec CurveProofs CurveGeom
  CurveGeom2 Boehm.
Open Scope R_scope.

(** ** Lists spliced from a prefix of one list and a suffix of another *)
Lemma firstn_S_snoc {A} (l : list A) i d : (i < length l)%nat ->
  firstn (S i) l = firstn i l ++ [nth i l d].
Proof.
  revert i; induction l as [|h t IH]; intros [|i] H; cbn in *; try lia; auto.
  f_equal. apply IH. lia.
Qed.

Lemma skipn_upd {A} (l : list A) k v : (k < length l)%nat -> skipn k (upd l k v) = v :: skipn (S k) l.
Proof.
  revert k; induction l as [|h t IH]; intros [|k] H; cbn in *; try lia; auto.
  apply IH. lia.
Qed.

Lemma splice_shift {A} (l m : list A) i k d : (i < length l)%nat -> (k < length m)%nat ->
  firstn i l ++ skipn k (upd m k (nth i l d)) = firstn (S i) l ++ skipn (S k) m.
Proof.
  intros Hi Hk. rewrite skipn_upd by auto. rewrite (firstn_S_snoc l i d) by auto.
  now rewrite <- app_assoc.
Qed.

Lemma splice_nth {A} (l m : list A) q q' t d : (q <= length l)%nat ->
  nth t (firstn q l ++ skipn q' m) d
  = if (t <? q)%nat then nth t l d else nth (q' + (t - q))%nat m d.
Proof.
  intros H. assert (L : length (firstn q l) = q) by (rewrite firstn_length; lia).
  destruct (Nat.ltb_spec t q).
  - rewrite app_nth1 by lia. now apply nth_firstn.
  - rewrite app_nth2 by lia. rewrite nth_skipn, L. reflexivity.
Qed.

Lemma splice_length {A} (l m : list A) q q' : (q <= length l)%nat ->
  length (firstn q l ++ skipn q' m) = (q + (length m - q'))%nat.
Proof. intros H. rewrite app_length, firstn_length, skipn_length. lia. Qed.

Lemma Forall_upd {A} (Q : A -> Prop) l i v : Forall Q l -> Q v -> Forall Q (upd l i v).
Proof.
  intros H Hv. revert i; induction H as [|h t Hh Ht IH]; intros [|i]; cbn; auto.
Qed.

Lemma Forall_nth_lt {A} (Q : A -> Prop) l i d : Forall Q l -> (i < length l)%nat -> Q (nth i l d).
Proof. intros H Hi. rewrite Forall_forall in H. apply H. now apply nth_In. Qed.

Lemma nth_len {A} (l : list (list A)) D i :
  Forall (fun q => length q = D) l -> (i < length l)%nat -> length (nth i l []) = D.
Proof. intros H Hi. rewrite Forall_forall in H. apply H. now apply nth_In. Qed.

Lemma Forall_splice {A} (Q : A -> Prop) l m q q' : Forall Q l -> Forall Q m ->
  Forall Q (firstn q l ++ skipn q' m).
Proof.
  intros H1 H2. apply Forall_app. split.
  - rewrite <- (firstn_skipn q l) in H1. apply Forall_app in H1. apply H1.
  - rewrite <- (firstn_skipn q' m) in H2. apply Forall_app in H2. apply H2.
Qed.

Section Real.
  Variables eps maxv : R.
  Local Hint Extern 0 (Scalar R) => exact (ROps eps maxv) : typeclass_instances.

  (** the knots [x] to insert: in the domain and equal to, or at least [eps] away from, every
      other knot *)
  Record refine_ok (c : Curve R) (xs : list R) : Prop := {
    ro_sorted : Sorted Rle xs;
    ro_dom : Forall (fun x => dom0 c <= x <= dom1 c) xs;
    ro_sep : forall x y, In x xs -> In y (cknots c ++ xs) -> y = x \/ eps <= Rabs (y - x)
  }.

  (** a set of homogeneous points closed under interpolation *)
  Definition convex_set (D : nat) (Q : list R -> Prop) : Prop :=
    forall p q t, length p = D -> length q = D -> 0 <= t <= 1 -> Q p -> Q q -> Q (vlerp p q t).

  Lemma vlerp_one p q : length p = length q -> vlerp p q 1 = q.
  Proof.
    intros H. apply (vec_ext _ _ (length q)); [now apply vlerp_length|auto|].
    intros i Hi. rewrite (rc_vlerp eps maxv) by auto. lra.
  Qed.

  Section Loop.
    Variable c : Curve R.
    Variable xs : list R.
    Variable a : nat.
    Hypothesis Hc : curve_ok c.
    Hypothesis Hxs : refine_ok c xs.
    Let K := cknots c.
    Let P := cpts c.
    Let p := cdeg c.
    Let n := clast c.
    Let R' := length xs.
    Hypothesis Ha : (p <= a <= n)%nat.
    Hypothesis Hx0 : forall t, (t < R')%nat -> kf K a <= nth t xs 0.
    Hypothesis Hx1 : nth 0 xs 0 <= kf K (S a).
    Definition inside : Prop := Forall (fun x => dom0 c < x < dom1 c) xs.

    Definition VC (i k : nat) (cp : list (list R)) (kp : list R) : Curve R :=
      MkCurve (cdim c) p (firstn (i - p) P ++ skipn (k - p) cp) (firstn (S i) K ++ skipn (S k) kp).

    Record RI (jj : nat) (st : list (list R) * list R * nat * nat) : Prop := {
      ri_lc : length (fst (fst (fst st))) = (n + 1 + R')%nat;
      ri_lk : length (snd (fst (fst st))) = (n + p + 2 + R')%nat;
      ri_fc : Forall (fun q => length q = cdim c) (fst (fst (fst st)));
      ri_k : snd st = (snd (fst st) + jj)%nat;
      ri_i : (a <= snd (fst st) <= n + p)%nat;
      ri_V : same_curve c (VC (snd (fst st)) (snd st) (fst (fst (fst st))) (snd (fst (fst st))));
      ri_ok : inside ->
        curve_ok (VC (snd (fst st)) (snd st) (fst (fst (fst st))) (snd (fst (fst st))));
      ri_perm : Permutation (firstn (S (snd (fst st))) K ++ skipn (S (snd st)) (snd (fst (fst st))))
                            (K ++ skipn jj xs);
      ri_up : forall t, (t < jj)%nat ->
        nth t xs 0 <= kf (firstn (S (snd (fst st))) K ++ skipn (S (snd st)) (snd (fst (fst st))))
                         (S (snd (fst st)));
      ri_lop : forall t, (t + p < a)%nat -> nth t (fst (fst (fst st))) [] = nth t P [];
      ri_lok : forall t, (t <= a)%nat -> nth t (snd (fst (fst st))) 0 = nth t K 0;
      ri_q : forall Q, convex_set (cdim c) Q -> Forall Q P ->
        forall t, (snd st - p <= t < length (fst (fst (fst st))))%nat -> Q (nth t (fst (fst (fst st))) [])
    }.

    Lemma lenK : length K = (n + p + 2)%nat.
    Proof. unfold K, n, p. rewrite (curve_len c Hc). pose proof (clast_S c Hc). lia. Qed.
    Lemma lenP : length P = S n.
    Proof. unfold P, n. now rewrite (clast_S c Hc). Qed.

    Lemma xs_mono i j : (i <= j < R')%nat -> nth i xs 0 <= nth j xs 0.
    Proof.
      intros H. rewrite <- !(kf_nth xs _ 0) by (unfold R' in H; lia).
      apply mono_le; [|lia]. apply sorted_mono. apply Hxs.
    Qed.

    Lemma xs_in j : (j < R')%nat -> In (nth j xs 0) xs.
    Proof. intros H. now apply nth_In. Qed.

    Lemma refine_shift_spec jj cp kp i k :
      (S jj <= R')%nat -> RI (S jj) (cp, kp, i, k) ->
      exists cp' kp' i' k', refine_shift K P p a (nth jj xs 0) (cp, kp, i, k) = Ok (cp', kp', i', k')
        /\ RI (S jj) (cp', kp', i', k')
        /\ kf K i' <= nth jj xs 0 /\ (i' <= n)%nat /\ (jj = 0%nat -> i' = a).
    Proof.
      intros Hjj HI. unfold refine_shift. set (x := nth jj xs 0).
      pose proof lenK as LK. pose proof lenP as LP.
      pose proof (curve_mono c Hc) as Hm. fold K in Hm.
      match goal with |- context [while_ ?f ?cd ?bd ?s] =>
        destruct (while_rule (RI (S jj))
          (fun st => RI (S jj) st /\ kf K (snd (fst st)) <= x /\ (snd (fst st) <= n)%nat
                     /\ (jj = 0%nat -> snd (fst st) = a))
          (fun st => snd (fst st)) f cd bd s) as (s' & E & Q)
      end; auto.
      { cbn [fst snd]. destruct HI as [_ _ _ _ H _ _ _ _ _ _ _]. cbn [fst snd] in H.
        fold K. rewrite LK. lia. }
      2:{ destruct s' as [[[cp' kp'] i'] k']. exists cp', kp', i', k'.
          split; [exact E|]. exact Q. }
      clear cp kp i k HI. intros [[[cp kp] i] k] HI.
      pose proof HI as [H1 H2 H3 H4 H5 H6 Hok H7 H8 H9 H10 HQ]. cbn [fst snd] in *.
      rewrite (get_kf K i) by lia. cbn [bind]. rs.
      destruct (Rleb_spec x (kf K i)) as [C1|C1]; destruct (Nat.ltb_spec a i) as [C2|C2];
        cbn [andb].
      2,3,4: left; split; [reflexivity|]; split; [exact HI|].
      - (* step *)
        right. split; [reflexivity|].
        rewrite (usub_ok k p) by lia. cbn [bind]. rewrite usub_ok by lia. cbn [bind].
        rewrite (usub_ok i p) by lia. cbn [bind]. rewrite usub_ok by lia. cbn [bind].
        rewrite (get_ok P _ []) by lia. cbn [bind]. rewrite set_ok by lia. cbn [bind].
        rewrite set_ok by lia. cbn [bind].
        rewrite (usub_ok k 1) by lia. cbn [bind]. rewrite (usub_ok i 1) by lia. cbn [bind].
        eexists. split; [reflexivity|]. cbn [fst snd]. split; [|lia].
        assert (E1 : firstn (S (i - 1)) K ++ skipn (S (k - 1)) (upd kp k (kf K i))
                     = firstn (S i) K ++ skipn (S k) kp).
        { replace (S (i - 1)) with i by lia. replace (S (k - 1)) with k by lia.
          rewrite (kf_nth K i 0) by lia. apply splice_shift; lia. }
        assert (E2 : firstn (i - 1 - p) P ++ skipn (k - 1 - p) (upd cp (k - p - 1) (nth (i - p - 1) P []))
                     = firstn (i - p) P ++ skipn (k - p) cp).
        { destruct (Nat.le_gt_cases (length P) (i - p - 1)) as [C|C]; [lia|].
          replace (i - p)%nat with (S (i - 1 - p)) at 2 by lia.
          replace (k - p)%nat with (S (k - 1 - p)) at 2 by lia.
          replace (k - p - 1)%nat with (k - 1 - p)%nat by lia.
          replace (i - p - 1)%nat with (i - 1 - p)%nat by lia.
          apply splice_shift; lia. }
        constructor; cbn [fst snd].
        + now rewrite upd_length.
        + now rewrite upd_length.
        + apply Forall_upd; auto. apply nth_len; [apply Hc|fold P; lia].
        + lia.
        + lia.
        + unfold VC. rewrite E1, E2. exact H6.
        + unfold VC. rewrite E1, E2. exact Hok.
        + rewrite E1. exact H7.
        + intros t Ht. rewrite E1. replace (S (i - 1)) with i by lia.
          rewrite (kf_nth _ _ 0) by (rewrite splice_length; lia).
          rewrite splice_nth by lia. destruct (Nat.ltb_spec i (S i)); [|lia].
          rewrite <- (kf_nth K i 0) by lia.
          apply Rle_trans with x; [|exact C1]. apply xs_mono. lia.
        + intros t Ht. rewrite nth_upd_other by lia. auto.
        + intros t Ht. rewrite nth_upd_other by lia. auto.
        + intros Q Qc Qp t Ht. rewrite upd_length in Ht.
          destruct (Nat.eq_dec t (k - p - 1)) as [->|Hne].
          * rewrite nth_upd_same by lia. apply Forall_nth_lt; auto. lia.
          * rewrite nth_upd_other by lia. apply (HQ Q); auto. lia.
      - assert (i = a) by lia. subst i. repeat split; try lia. apply Hx0. lia.
      - split; [lra|].
        assert (Hi : (i <= n)%nat).
        { destruct (Nat.le_gt_cases i n); auto. exfalso.
          pose proof (mono_le _ (S n) i Hm ltac:(lia)).
          assert (D : dom0 c <= x <= dom1 c).
          { pose proof (ro_dom _ _ Hxs) as F. rewrite Forall_forall in F. apply F, xs_in. lia. }
          unfold dom1 in D. fold K in D. fold P in D. rewrite LP in D. lra. }
        split; [exact Hi|]. intros ->.
        destruct (Nat.eq_dec i a) as [|Hne]; auto. exfalso.
        pose proof (mono_le _ (S a) i Hm ltac:(lia)). subst x. lra.
      - assert (i = a) by lia. subst i. repeat split; try lia. lra.
    Qed.

    Lemma refine_blend_spec (V : Curve R) i k jj cp kp x :
      length cp = (n + 1 + R')%nat -> length kp = (n + p + 2 + R')%nat ->
      Forall (fun q => length q = cdim c) cp ->
      k = (i + S jj)%nat -> (S jj <= R')%nat -> (p <= i <= n)%nat ->
      (forall t, (t <= length K)%nat -> V = VC i k cp kp) ->
      V = VC i k cp kp ->
      (forall y, In y (cknots V) -> y = x \/ eps <= Rabs (y - x)) -> 0 < eps ->
      exists cp', for_incl 1 p (refine_blend K p x kp i k) (upd cp (k - p - 1) (nth (k - p) cp []))
                  = Ok cp' /\
        length cp' = length cp /\ Forall (fun q => length q = cdim c) cp' /\
        (forall t, (t < k - p - 1 \/ k <= t)%nat -> nth t cp' [] = nth t cp []) /\
        nth (k - p - 1) cp' [] = nth (k - p) cp [] /\
        forall l, (1 <= l <= p)%nat ->
          kf (cknots V) (i - p + l) < kf (cknots V) (i + l) ->
          forall q, rc q (nth (k - p - 1 + l) cp' [])
            = (x - kf (cknots V) (i - p + l)) / (kf (cknots V) (i + l) - kf (cknots V) (i - p + l))
                * rc q (nth (k - p + l) cp [])
              + (1 - (x - kf (cknots V) (i - p + l))
                     / (kf (cknots V) (i + l) - kf (cknots V) (i - p + l)))
                * rc q (nth (k - p + (l - 1)) cp []).
    Proof.
      intros Lc Lk Fc Hk Hjj Hi _ HV Hsep He. pose proof lenK as LK. pose proof lenP as LP.
      assert (KV : forall t, (t < length (cknots V))%nat -> kf (cknots V) t
                   = if (t <? S i)%nat then nth t K 0 else nth (S k + (t - S i)) kp 0).
      { intros t Ht. rewrite (kf_nth _ _ 0) by auto. rewrite HV. cbn [cknots VC].
        apply splice_nth. lia. }
      assert (LV : length (cknots V) = (S i + (n + p + 2 + R' - S k))%nat).
      { rewrite HV. cbn [cknots VC]. rewrite splice_length by lia. now rewrite Lk. }
      set (I := fun (l : nat) (cq : list (list R)) =>
        length cq = length cp /\ Forall (fun q => length q = cdim c) cq /\
        (forall t, (t < k - p - 1 \/ k - p - 1 + l <= t)%nat -> nth t cq [] = nth t cp []) /\
        nth (k - p - 1) cq [] = nth (k - p) cp [] /\
        forall l', (1 <= l' < l)%nat ->
          kf (cknots V) (i - p + l') < kf (cknots V) (i + l') ->
          forall q, rc q (nth (k - p - 1 + l') cq [])
            = (x - kf (cknots V) (i - p + l')) / (kf (cknots V) (i + l') - kf (cknots V) (i - p + l'))
                * rc q (nth (k - p + l') cp [])
              + (1 - (x - kf (cknots V) (i - p + l'))
                     / (kf (cknots V) (i + l') - kf (cknots V) (i - p + l')))
                * rc q (nth (k - p + (l' - 1)) cp [])).
      destruct (for_incl_rule I 1 p (refine_blend K p x kp i k)
                  (upd cp (k - p - 1) (nth (k - p) cp []))) as (cp' & E & HI').
      - lia.
      - unfold I. split; [apply upd_length|]. split.
        { apply Forall_upd; auto. apply nth_len; auto. lia. }
        split; [intros t Ht; apply nth_upd_other; lia|].
        split; [apply nth_upd_same; lia|]. intros; lia.
      - intros l cq Hl (J1 & J2 & J3 & J4 & J5).
        unfold refine_blend. rewrite (usub_ok k p) by lia. cbn [bind].
        destruct (Nat.ltb_spec (k - p + l) (length cq)) as [C|C]; [|lia].
        rewrite (get_ok kp _ 0) by lia. cbn [bind].
        rewrite (usub_ok (k - p + l) 1) by lia. cbn [bind].
        assert (EK : nth (k + l) kp 0 = kf (cknots V) (i + l)).
        { rewrite KV by lia. destruct (Nat.ltb_spec (i + l) (S i)); [lia|]. f_equal. lia. }
        assert (EK2 : kf K (i - p + l) = kf (cknots V) (i - p + l)).
        { rewrite KV by lia. destruct (Nat.ltb_spec (i - p + l) (S i)); [|lia].
          apply kf_nth. lia. }
        assert (Hin : In (kf (cknots V) (i + l)) (cknots V)).
        { rewrite (kf_nth _ _ 0) by lia. apply nth_In. lia. }
        rewrite EK. rs.
        rewrite (get_ok cq (k - p + l) []) by lia.
        assert (Eold : nth (k - p + l) cq [] = nth (k - p + l) cp []) by (apply J3; lia).
        assert (Eold1 : nth (k - p + l - 1) cq [] = nth (k - p + l - 1) cp []) by (apply J3; lia).
        assert (Step : forall v, length v = cdim c ->
          (kf (cknots V) (i - p + l) < kf (cknots V) (i + l) -> forall q, rc q v
            = (x - kf (cknots V) (i - p + l)) / (kf (cknots V) (i + l) - kf (cknots V) (i - p + l))
                * rc q (nth (k - p + l) cp [])
              + (1 - (x - kf (cknots V) (i - p + l))
                     / (kf (cknots V) (i + l) - kf (cknots V) (i - p + l)))
                * rc q (nth (k - p + (l - 1)) cp [])) ->
          I (S l) (upd cq (k - p + l - 1) v)).
        { intros v Lv Hv. unfold I. split; [now rewrite upd_length|].
          split; [now apply Forall_upd|].
          split; [intros t Ht; rewrite nth_upd_other by lia; apply J3; lia|].
          split; [rewrite nth_upd_other by lia; exact J4|].
          intros l' Hl' Hne q. destruct (Nat.eq_dec l' l) as [->|Hnl].
          - replace (k - p - 1 + l)%nat with (k - p + l - 1)%nat by lia.
            rewrite nth_upd_same by lia. now apply Hv.
          - rewrite nth_upd_other by lia. apply J5; [lia|auto]. }
        destruct (Rltb_spec (Rabs (kf (cknots V) (i + l) - x)) eps) as [C1|C1].
        + cbn [bind]. rewrite set_ok by lia. eexists. split; [reflexivity|].
          apply Step.
          * apply nth_len; auto.
          * intros Hne q. rewrite Eold.
            destruct (Hsep _ Hin) as [Ex|Ex]; [|lra]. rewrite Ex in *.
            rewrite <- Ex at 1 2. unfold Rdiv at 1.
            rewrite <- Ex. rewrite Rinv_r by lra. rewrite Ex. unfold Rdiv. rewrite Rinv_r by lra. lra.
        + rewrite (usub_ok i p) by lia. cbn [bind]. rewrite (get_kf K) by lia. cbn [bind].
          rewrite EK2. rewrite (get_ok cq (k - p + l - 1) []) by lia. cbn [bind].
          rewrite set_ok by lia. eexists. split; [reflexivity|].
          apply Step.
          * apply vlerp_length; apply nth_len; auto; lia.
          * intros Hne q.
            destruct (Reqb_spec (kf (cknots V) (i + l) - kf (cknots V) (i - p + l)) 0) as [C2|C2];
              [lra|].
            rewrite (rc_vlerp eps maxv).
            2:{ rewrite (nth_len cq _ (k - p + l - 1) J2) by lia.
                now rewrite (nth_len cq _ (k - p + l) J2) by lia. }
            rewrite Eold, Eold1. replace (k - p + (l - 1))%nat with (k - p + l - 1)%nat by lia.
            field. lra.
      - exists cp'. split; [exact E|]. destruct HI' as (J1 & J2 & J3 & J4 & J5).
        split; [auto|]. split; [auto|]. split; [intros t Ht; apply J3; lia|].
        split; [auto|]. intros l Hl. apply J5. lia.
    Qed.

    (** the blended points stay in every convex set that contains the points they are made from *)
    Lemma refine_blend_convex Q (V : Curve R) i k jj cp kp x cp' :
      convex_set (cdim c) Q ->
      length cp = (n + 1 + R')%nat -> length kp = (n + p + 2 + R')%nat ->
      Forall (fun q => length q = cdim c) cp ->
      k = (i + S jj)%nat -> (S jj <= R')%nat -> (p <= i <= n)%nat ->
      V = VC i k cp kp -> mono (kf (cknots V)) ->
      kf (cknots V) i <= x <= kf (cknots V) (S i) ->
      (forall t, (k - p <= t < length cp)%nat -> Q (nth t cp [])) ->
      for_incl 1 p (refine_blend K p x kp i k) (upd cp (k - p - 1) (nth (k - p) cp [])) = Ok cp' ->
      forall t, (k - p - 1 <= t < length cp)%nat -> Q (nth t cp' []).
    Proof.
      intros Qc Lc Lk Fc Hk Hjj Hi HV Hmono Hx HQ E'. pose proof lenK as LK. pose proof lenP as LP.
      assert (KV : forall t, (t < length (cknots V))%nat -> kf (cknots V) t
                   = if (t <? S i)%nat then nth t K 0 else nth (S k + (t - S i)) kp 0).
      { intros t Ht. rewrite (kf_nth _ _ 0) by auto. rewrite HV. cbn [cknots VC].
        apply splice_nth. lia. }
      assert (LV : length (cknots V) = (S i + (n + p + 2 + R' - S k))%nat).
      { rewrite HV. cbn [cknots VC]. rewrite splice_length by lia. now rewrite Lk. }
      set (I := fun (l : nat) (cq : list (list R)) =>
        length cq = length cp /\ Forall (fun q => length q = cdim c) cq /\
        forall t, (k - p - 1 <= t < length cp)%nat -> Q (nth t cq [])).
      destruct (for_incl_rule I 1 p (refine_blend K p x kp i k)
                  (upd cp (k - p - 1) (nth (k - p) cp []))) as (cp'' & E & HI').
      - lia.
      - unfold I. split; [apply upd_length|]. split.
        { apply Forall_upd; auto. apply nth_len; auto. lia. }
        intros t Ht. destruct (Nat.eq_dec t (k - p - 1)) as [->|Hne].
        { rewrite nth_upd_same by lia. apply HQ. lia. }
        rewrite nth_upd_other by lia. apply HQ. lia.
      - intros l cq Hl (J1 & J2 & J3).
        unfold refine_blend. rewrite (usub_ok k p) by lia. cbn [bind].
        destruct (Nat.ltb_spec (k - p + l) (length cq)) as [C|C]; [|lia].
        rewrite (get_ok kp _ 0) by lia. cbn [bind].
        rewrite (usub_ok (k - p + l) 1) by lia. cbn [bind].
        assert (EK : nth (k + l) kp 0 = kf (cknots V) (i + l)).
        { rewrite KV by lia. destruct (Nat.ltb_spec (i + l) (S i)); [lia|]. f_equal. lia. }
        assert (EK2 : kf K (i - p + l) = kf (cknots V) (i - p + l)).
        { rewrite KV by lia. destruct (Nat.ltb_spec (i - p + l) (S i)); [|lia].
          apply kf_nth. lia. }
        rewrite EK. rs.
        rewrite (get_ok cq (k - p + l) []) by lia.
        assert (Step : forall v, length v = cdim c -> Q v -> I (S l) (upd cq (k - p + l - 1) v)).
        { intros v Lv Qv. unfold I. split; [now rewrite upd_length|].
          split; [now apply Forall_upd|]. intros t Ht.
          destruct (Nat.eq_dec t (k - p + l - 1)) as [->|Hne].
          - now rewrite nth_upd_same by lia.
          - rewrite nth_upd_other by lia. now apply J3. }
        destruct (Rltb_spec (Rabs (kf (cknots V) (i + l) - x)) eps) as [C1|C1].
        + cbn [bind]. rewrite set_ok by lia. eexists. split; [reflexivity|].
          apply Step; [apply nth_len; auto|apply J3; lia].
        + rewrite (usub_ok i p) by lia. cbn [bind]. rewrite (get_kf K) by lia. cbn [bind].
          rewrite EK2. rewrite (get_ok cq (k - p + l - 1) []) by lia. cbn [bind].
          rewrite set_ok by lia. eexists. split; [reflexivity|].
          assert (La : length (nth (k - p + l - 1) cq []) = cdim c) by (apply nth_len; auto; lia).
          assert (Lb : length (nth (k - p + l) cq []) = cdim c) by (apply nth_len; auto; lia).
          apply Step; [apply vlerp_length; auto; congruence|].
          apply Qc; auto; try (apply J3; lia).
          pose proof (mono_le _ (i - p + l) i Hmono ltac:(lia)) as M1.
          pose proof (mono_le _ (S i) (i + l) Hmono ltac:(lia)) as M2.
          destruct (Reqb_spec (kf (cknots V) (i + l) - kf (cknots V) (i - p + l)) 0) as [C2|C2]; [lra|].
          assert (H0 : 0 < kf (cknots V) (i + l) - kf (cknots V) (i - p + l)) by lra.
          assert (W0 : 0 <= (kf (cknots V) (i + l) - x) / (kf (cknots V) (i + l) - kf (cknots V) (i - p + l))).
          { apply Rmult_le_pos; [lra|]. left. now apply Rinv_0_lt_compat. }
          assert (W1 : (kf (cknots V) (i + l) - x) / (kf (cknots V) (i + l) - kf (cknots V) (i - p + l)) <= 1).
          { apply Rmult_le_reg_r with (1 := H0). unfold Rdiv. rewrite Rmult_assoc, Rinv_l by lra. lra. }
          lra.
      - rewrite E in E'. injection E' as <-. apply HI'.
    Qed.

    Lemma refine_step_spec jj st : 0 < eps ->
      (S jj <= R')%nat -> RI (S jj) st ->
      exists st', refine_step K P p a xs jj st = Ok st' /\ RI jj st'
                  /\ (jj = 0%nat -> snd (fst st') = a).
    Proof.
      intros He Hjj HI. destruct st as [[[cp0 kp0] i0] k0].
      unfold refine_step. rewrite (get_ok xs jj 0) by (unfold R' in Hjj; lia). cbn [bind].
      destruct (refine_shift_spec jj cp0 kp0 i0 k0 Hjj HI)
        as (cp & kp & i & k & E & HI' & Kx & Hin & Hend).
      rewrite E. cbn [bind]. clear E HI cp0 kp0 i0 k0.
      destruct HI' as [H1 H2 H3 H4 H5 H6 Hok H7 H8 H9 H10 HQ]. cbn [fst snd] in *.
      pose proof lenK as LK. pose proof lenP as LP.
      set (x := nth jj xs 0) in *.
      rewrite (usub_ok k p) by lia. cbn [bind]. rewrite (usub_ok (k - p) 1) by lia. cbn [bind].
      rewrite (get_ok cp (k - p) []) by lia. cbn [bind]. rewrite set_ok by lia. cbn [bind].
      set (V := VC i k cp kp) in *.
      assert (Hxin : In x xs) by (apply xs_in; lia).
      assert (HinV : forall y, In y (cknots V) -> In y (K ++ xs)).
      { intros y Hy. assert (Hy' : In y (K ++ skipn (S jj) xs)).
        { eapply Permutation_in; [exact H7|exact Hy]. }
        apply in_app_or in Hy'. apply in_or_app. destruct Hy' as [Hy'|Hy']; auto.
        right. rewrite <- (firstn_skipn (S jj) xs). apply in_or_app. auto. }
      destruct (refine_blend_spec V i k jj cp kp x H1 H2 H3 H4 Hjj ltac:(lia) (fun _ _ => eq_refl)
                  eq_refl) as (cp' & E & L1 & L2 & L3 & L4 & L5); auto.
      { intros y Hy. apply (ro_sep _ _ Hxs); auto. }
      rewrite E. cbn [bind]. rewrite set_ok by lia. cbn [bind].
      rewrite (usub_ok k 1) by lia. cbn [bind].
      eexists. split; [reflexivity|]. split; [|exact Hend].
      assert (LV : length (cknots V) = (S i + (n + p + 2 + R' - S k))%nat).
      { unfold V. cbn [cknots VC]. rewrite splice_length by lia. now rewrite H2. }
      assert (LVp : length (cpts V) = (i - p + (n + 1 + R' - (k - p)))%nat).
      { unfold V. cbn [cpts VC]. rewrite splice_length by lia. now rewrite H1. }
      assert (EK : firstn (S i) K ++ skipn (S (k - 1)) (upd kp k x)
                   = ins_knots (cknots V) i x).
      { replace (S (k - 1)) with k by lia. rewrite skipn_upd by lia.
        unfold ins_knots, V. cbn [cknots VC].
        assert (Lf : length (firstn (S i) K) = S i) by (rewrite firstn_length; lia).
        rewrite firstn_app, skipn_app, Lf, Nat.sub_diag. rewrite firstn_O, skipn_O, app_nil_r. rewrite (firstn_all2 (firstn (S i) K)) by lia.
        rewrite (skipn_all2 (firstn (S i) K)) by lia. reflexivity. }
      set (V' := VC i (k - 1) cp' (upd kp k x)).
      assert (Hins : is_insert V i x V').
      { assert (NV : forall t, nth t (cpts V) []
                   = if (t <? i - p)%nat then nth t P [] else nth (k - p + (t - (i - p))) cp []).
        { intros t. unfold V. cbn [cpts VC]. apply splice_nth. lia. }
        assert (NV' : forall t, nth t (cpts V') []
                   = if (t <? i - p)%nat then nth t P [] else nth (k - 1 - p + (t - (i - p))) cp' []).
        { intros t. unfold V'. cbn [cpts VC]. apply splice_nth. lia. }
        constructor; try reflexivity.
        - exact EK.
        - unfold V'. cbn [cpts VC]. rewrite splice_length by lia. rewrite LVp, L1, H1. lia.
        - unfold V'. cbn [cpts VC]. apply Forall_splice; [apply Hc|exact L2].
        - intros q t Ht. cbn [cdeg V VC] in Ht. unfold cpc. rewrite NV, NV'.
          destruct (Nat.ltb_spec t (i - p)) as [C|C]; [reflexivity|].
          assert (t = (i - p)%nat) by lia. subst t. rewrite Nat.sub_diag, !Nat.add_0_r.
          replace (k - 1 - p)%nat with (k - p - 1)%nat by lia. now rewrite L4.
        - intros q t Ht1 Ht2 Hne. cbn [cdeg V VC] in Ht1, Hne |- *. fold p in Ht1, Hne |- *.
          unfold cpc. rewrite !NV, NV'.
          destruct (Nat.ltb_spec t (i - p)) as [C|C]; [lia|].
          destruct (Nat.ltb_spec (t - 1) (i - p)) as [C'|C']; [lia|].
          set (l := (t - (i - p))%nat).
          pose proof (L5 l ltac:(unfold l; lia)) as L5'.
          replace (i - p + l)%nat with t in L5' by (unfold l; lia).
          replace (i + l)%nat with (t + p)%nat in L5' by (unfold l; lia).
          specialize (L5' Hne q).
          replace (k - 1 - p + l)%nat with (k - p - 1 + l)%nat by lia.
          rewrite L5'. replace (t - 1 - (i - p))%nat with (l - 1)%nat by (unfold l; lia).
          reflexivity.
        - intros q t Ht. unfold cpc. rewrite NV, NV'.
          destruct (Nat.ltb_spec t (i - p)) as [C|C]; [lia|].
          destruct (Nat.ltb_spec (t - 1) (i - p)) as [C'|C']; [lia|].
          rewrite L3 by lia. f_equal. f_equal. lia. }
      assert (Vwf : curve_wf V) by apply H6.
      assert (Vlast : clast V = (n + (R' - S jj))%nat).
      { unfold clast. rewrite LVp. lia. }
      assert (KVi : kf (cknots V) i = kf K i).
      { rewrite !(kf_nth _ i 0) by lia. unfold V. cbn [cknots VC]. rewrite splice_nth by lia.
        destruct (Nat.ltb_spec i (S i)); [reflexivity|lia]. }
      destruct (insert_same V i x V' Vwf) as (Same & Ins); auto.
      { rewrite Vlast. cbn [cdeg V VC]. lia. }
      { rewrite KVi. split; [exact Kx|]. apply (H8 jj). lia. }
      constructor; cbn [fst snd].
      - lia.
      - now rewrite upd_length.
      - exact L2.
      - lia.
      - lia.
      - fold V'. apply (same_curve_trans _ V); auto.
      - intros Hi. fold V'. apply Ins; [apply Hok; exact Hi|].
        rewrite (sc_dom0 _ _ H6), (sc_dom1 _ _ H6).
        unfold inside in Hi. rewrite Forall_forall in Hi. now apply Hi.
      - rewrite EK. eapply Permutation_trans; [apply ins_knots_perm|].
        assert (Ex : skipn jj xs = x :: skipn (S jj) xs).
        { unfold x. clear - Hjj. unfold R' in Hjj. revert jj Hjj.
          induction xs as [|h t IH]; intros [|jj] Hjj; cbn in *; try lia; auto. apply IH. lia. }
        rewrite Ex. apply Permutation_cons_app. exact H7.
      - intros t Ht. rewrite EK.
        rewrite ins_knots_kf by lia.
        rewrite kins_at by lia. apply xs_mono. lia.
      - intros t Ht. rewrite L3 by lia. auto.
      - intros t Ht. rewrite nth_upd_other by lia. auto.
      - intros Q Qc Qp t Ht. apply (refine_blend_convex Q V i k jj cp kp x cp'); auto; try lia.
        + apply wf_mono, Vwf.
        + rewrite KVi. split; [exact Kx|]. apply (H8 jj). lia.
        + intros t0 Ht0. apply (HQ Q Qc Qp). exact Ht0.
    Qed.
  End Loop.

  (** the separated refinement keeps the end spans at least [eps] long *)
  Lemma refine_eps c c' xs : curve_ok c -> curve_eps eps c -> refine_ok c xs -> same_curve c c' ->
    curve_ok c' -> Permutation (cknots c') (cknots c ++ xs) -> curve_eps eps c'.
  Proof.
    intros Hc (He & He1 & He2) Hxs Hs Hc' Hp.
    pose proof (curve_len c Hc) as Hl.
    pose proof (curve_len c' Hc') as Hl'. pose proof (clast_S c Hc) as Hn.
    pose proof (clast_S c' Hc') as Hn'. pose proof (co_knots c' Hc') as [_ _ _ Kf Kl].
    pose proof (curve_mono c Hc) as Hm. pose proof (curve_mono c' Hc') as Hm'.
    pose proof (sc_dom0 _ _ Hs) as D0. pose proof (sc_dom1 _ _ Hs) as D1.
    unfold dom0 in D0. unfold dom1 in D1. rewrite <- Hn, <- Hn' in D1.
    pose proof (sc_deg _ _ Hs) as Ed. rewrite Nat.add_1_r in *.
    pose proof (co_len c Hc) as Hcl.
    assert (Old : forall m, (m < length (cknots c))%nat -> In (kf (cknots c) m) (cknots c)).
    { intros m H. rewrite (kf_nth _ _ 0) by auto. now apply nth_In. }
    assert (Src : forall m, (m < length (cknots c'))%nat ->
              (exists t, (t < length (cknots c))%nat /\ kf (cknots c') m = kf (cknots c) t)
              \/ In (kf (cknots c') m) xs).
    { intros m H. assert (Hin : In (kf (cknots c') m) (cknots c ++ xs)).
      { eapply Permutation_in; [exact Hp|]. rewrite (kf_nth _ _ 0) by auto. now apply nth_In. }
      apply in_app_or in Hin. destruct Hin as [Hin|Hin]; [left|right; auto].
      apply (In_nth _ _ 0) in Hin. destruct Hin as (t & Ht & Et). exists t. split; auto.
      now rewrite (kf_nth _ t 0). }
    unfold curve_eps, eps_ok. rewrite !Nat.add_1_r. split; [exact He|]. split.
    - destruct (Src (S (cdeg c'))) as [(t & Ht & Et)|Hin]; [lia| |].
      + rewrite Et in *. rewrite D0 in *.
        destruct (Nat.le_gt_cases t (cdeg c)) as [C|C].
        * pose proof (mono_le _ t (cdeg c) Hm C). lra.
        * pose proof (mono_le _ (S (cdeg c)) t Hm C). lra.
      + destruct (ro_sep _ _ Hxs _ (kf (cknots c) (cdeg c)) Hin) as [E|E].
        { apply in_or_app. left. apply Old. lia. }
        * rewrite <- D0 in E. lra.
        * rewrite <- D0 in E. rewrite Rabs_left in E by lra. lra.
    - destruct (Src (clast c')) as [(t & Ht & Et)|Hin]; [lia| |].
      + rewrite Et in *. rewrite D1 in *.
        destruct (Nat.le_gt_cases t (clast c)) as [C|C].
        * pose proof (mono_le _ t (clast c) Hm C). lra.
        * pose proof (mono_le _ (S (clast c)) t Hm C). lra.
      + destruct (ro_sep _ _ Hxs _ (kf (cknots c) (S (clast c))) Hin) as [E|E].
        { apply in_or_app. left. apply Old. lia. }
        * rewrite <- D1 in E. lra.
        * rewrite <- D1 in E. rewrite Rabs_right in E by lra. lra.
  Qed.

  (** the state in which the insertion loop of [try_refine_knot] starts *)
  Lemma refine_start c x0 xt : let xs := x0 :: xt in let n := clast c in let p := cdeg c in let r := length xt in
    curve_ok c -> curve_eps eps c -> refine_ok c xs ->
    exists a b cp kp0 kp,
      find_span (cknots c) n p (nth 0 xs 0) = Ok a /\ find_span (cknots c) n p (nth r xs 0) = Ok b /\ (p <= a)%nat /\ (a <= b <= n)%nat /\
      for_incl b n (fun i cp => q <- get (cpts c) i ;; set_ cp (i + r + 1) q)
        (firstn (a - p + 1) (cpts c) ++ skipn (a - p + 1) (repeat (vzero (cdim c)) (n + r + 2))) = Ok cp /\
      for_incl 0 a (fun i kp => k <- get (cknots c) i ;; set_ kp i k) (repeat szero (n + p + 1 + 1 + r + 1)) = Ok kp0 /\
      for_incl (b + 1 + p) (n + p + 1) (fun i kp => k <- get (cknots c) i ;; set_ kp (i + r + 1) k) kp0 = Ok kp /\
      (forall t, (t < length xs)%nat -> kf (cknots c) a <= nth t xs 0) /\ nth 0 xs 0 <= kf (cknots c) (S a) /\
      RI c xs a (r + 1) (cp, kp, (b + p)%nat, (b + 1 + p + r)%nat).
  Proof.
    intros xs n p r Hc He Hxs.
    pose proof (clast_S c Hc) as Hn. pose proof (curve_len c Hc) as Hl.
    pose proof (co_len c Hc) as Hcl. pose proof (curve_mono c Hc) as Hm.
    fold n in Hn. fold p in Hl, Hcl.
    assert (LX : length xs = S r) by reflexivity.
    pose proof (ro_dom _ _ Hxs) as HD. rewrite Forall_forall in HD.
    assert (HDn : forall t, (t < S r)%nat -> dom0 c <= nth t xs 0 <= dom1 c).
    { intros t Ht. apply HD, nth_In. lia. }
    assert (Span : forall t, (t < S r)%nat -> exists s, find_span (cknots c) n p (nth t xs 0) = Ok s /\
              (p <= s <= n)%nat /\ kf (cknots c) s < kf (cknots c) (S s) /\
              kf (cknots c) s <= nth t xs 0 <= kf (cknots c) (S s) /\
              (nth t xs 0 < kf (cknots c) (S s) \/ s = n)).
    { intros t Ht. pose proof (HDn t Ht) as Hd.
      destruct (span_of eps maxv c (nth t xs 0) Hc He) as (s & S1 & (N & Lo & Hi) & S3); [lra|].
      exists s. split; [exact S3|]. split; [exact S1|]. split; [exact N|]. 
      destruct Hi as [Hi|[Es Hi]]; split; try (left; exact Hi); try (right; exact Es); lra. }
    destruct (Span 0%nat ltac:(lia)) as (a & Ea & Ha & Hna & Hxa & Hea).
    destruct (Span r ltac:(lia)) as (b & Eb & Hb & Hnb & Hxb & Heb).
    assert (Hxm : forall t, (t < S r)%nat -> nth 0 xs 0 <= nth t xs 0 <= nth r xs 0).
    { intros t Ht. rewrite <- !(kf_nth xs _ 0) by lia.
      split; (apply mono_le; [|lia]); apply sorted_mono, Hxs. }
    assert (Hab : (a <= b)%nat).
    { destruct (Nat.le_gt_cases a b) as [C|C]; auto. exfalso.
      pose proof (mono_le _ (S b) a Hm C). pose proof (Hxm r ltac:(lia)).
      destruct Heb; [lra|lia]. }
    set (cp0 := firstn (a - p + 1) (cpts c)
                ++ skipn (a - p + 1) (repeat (vzero (cdim c)) (n + r + 2))).
    assert (L0 : length cp0 = (n + r + 2)%nat).
    { unfold cp0. rewrite splice_length by lia. rewrite repeat_length. lia. }
    assert (F0 : Forall (fun q => length q = cdim c) cp0).
    { unfold cp0. apply Forall_splice; [apply Hc|]. apply Forall_forall. intros q Hq.
      apply repeat_spec in Hq. subst q. apply vzero_length. }
    (* copy the tail of the control points *)
    match goal with |- _ => pose (f := fun (i : nat) (cp : list (list R)) => q <- get (cpts c) i ;; set_ cp (i + r + 1) q);
      destruct (for_incl_rule (fun i cq => length cq = (n + r + 2)%nat /\
          Forall (fun q => length q = cdim c) cq /\
          (forall t, (t < b + r + 1)%nat -> nth t cq [] = nth t cp0 []) /\
          forall t, (b <= t < i)%nat -> nth (t + r + 1) cq [] = nth t (cpts c) []) b n f cp0)
        as (cp & Ecp & (C1 & C2 & C3 & C4))
    end.
    { lia. }
    { repeat split; auto. intros; lia. }
    { intros i cq Hi (Q1 & Q2 & Q3 & Q4). unfold f. rewrite (get_ok _ i []) by lia. cbn [bind].
      rewrite set_ok by lia. eexists. split; [reflexivity|]. rewrite upd_length.
      split; [exact Q1|]. split; [apply Forall_upd; auto; apply nth_len; [apply Hc|lia]|].
      split; [intros t Ht; rewrite nth_upd_other by lia; auto|].
      intros t Ht. destruct (Nat.eq_dec t i) as [->|Hne].
      - now rewrite nth_upd_same by lia.
      - rewrite nth_upd_other by lia. apply Q4. lia. }
    subst f.
    (* copy the head of the knots *)
    match goal with |- _ => pose (f := fun (i : nat) (kp : list R) => k <- get (cknots c) i ;; set_ kp i k); pose (k0 := repeat 0 (n + p + 1 + 1 + r + 1));
      destruct (for_incl_rule (fun i kq => length kq = (n + p + 1 + 1 + r + 1)%nat /\
          forall t, (t < i)%nat -> nth t kq 0 = nth t (cknots c) 0) 0 a f k0)
        as (kp0 & Ek0 & (D1 & D2))
    end.
    { lia. }
    { split; [unfold k0; apply repeat_length|]. intros; lia. }
    { intros i kq Hi (Q1 & Q2). unfold f. rewrite (get_ok _ i 0) by lia. cbn [bind].
      rewrite set_ok by lia. eexists. split; [reflexivity|]. rewrite upd_length.
      split; [exact Q1|]. intros t Ht. destruct (Nat.eq_dec t i) as [->|Hne].
      - now rewrite nth_upd_same by lia.
      - rewrite nth_upd_other by lia. apply Q2. lia. }
    subst f k0.
    match goal with |- _ => pose (f := fun (i : nat) (kp : list R) => k <- get (cknots c) i ;; set_ kp (i + r + 1) k); pose (hi := (n + p + 1)%nat);
      destruct (for_incl_rule (fun i kq => length kq = (n + p + 1 + 1 + r + 1)%nat /\
          (forall t, (t <= a)%nat -> nth t kq 0 = nth t (cknots c) 0) /\
          forall t, (b + 1 + p <= t < i)%nat -> nth (t + r + 1) kq 0 = nth t (cknots c) 0)
          (b + 1 + p)%nat hi f kp0)
        as (kp & Ekp & (G1 & G2 & G3))
    end.
    { unfold hi; lia. }
    { repeat split; auto. intros; apply D2; lia. intros; lia. }
    { intros i kq Hi (Q1 & Q2 & Q3). unfold hi in Hi. unfold f. rewrite (get_ok _ i 0) by lia. cbn [bind].
      rewrite set_ok by lia. eexists. split; [reflexivity|]. rewrite upd_length.
      split; [exact Q1|]. split.
      - intros t Ht. rewrite nth_upd_other; [auto|].
        lia.
      - intros t Ht. destruct (Nat.eq_dec t i) as [->|Hne].
        + now rewrite nth_upd_same by lia.
        + rewrite nth_upd_other by lia. apply Q3. lia. }
    subst f hi.
    assert (VK : firstn (S (b + p)) (cknots c) ++ skipn (S (b + 1 + p + r)) kp = cknots c).
    { apply (list_ext 0). { rewrite splice_length by lia. lia. }
      intros t Ht. rewrite splice_length in Ht by lia. rewrite splice_nth by lia.
      destruct (Nat.ltb_spec t (S (b + p))); [reflexivity|].
      replace (S (b + 1 + p + r) + (t - S (b + p)))%nat with (t + r + 1)%nat by lia.
      apply G3. lia. }
    assert (VP : firstn (b + p - p) (cpts c) ++ skipn (b + 1 + p + r - p) cp = cpts c).
    { apply (list_ext []). { rewrite splice_length by lia. lia. }
      intros t Ht. rewrite splice_length in Ht by lia. rewrite splice_nth by lia.
      destruct (Nat.ltb_spec t (b + p - p)); [reflexivity|].
      replace (b + 1 + p + r - p + (t - (b + p - p)))%nat with (t + r + 1)%nat by lia.
      apply C4. lia. }
    exists a, b, cp, kp0, kp. split; [exact Ea|]. split; [exact Eb|]. split; [lia|]. split; [lia|]. split; [exact Ecp|]. split; [exact Ek0|]. split; [exact Ekp|].
    split; [intros t Ht; pose proof (Hxm t ltac:(lia)); lra|]. split; [lra|].
    constructor; cbn [fst snd]; fold n p; rewrite ?LX.
    - lia.
    - lia.
    - exact C2.
    - lia.
    - lia.
    - unfold VC. fold p. rewrite VK, VP.
      replace (MkCurve (cdim c) p (cpts c) (cknots c)) with c by (destruct c; reflexivity).
      now apply same_curve_refl, ok_wf.
    - intros _. unfold VC. fold p. rewrite VK, VP. destruct c; exact Hc.
    - rewrite VK. rewrite skipn_all2 by lia. now rewrite app_nil_r.
    - intros t Ht. rewrite VK. pose proof (Hxm t ltac:(lia)).
      pose proof (mono_le _ (S b) (S (b + p)) Hm ltac:(lia)). lra.
    - intros t Ht. rewrite C3 by lia. unfold cp0. rewrite splice_nth by lia.
      destruct (Nat.ltb_spec t (a - p + 1)); [reflexivity|lia].
    - exact G2.
    - intros Q _ Qp t Ht. replace t with (t - r - 1 + r + 1)%nat by lia.
      rewrite C4 by lia. apply Forall_nth_lt; auto. lia.
  Qed.

  Lemma refine_spec_full c xs :
    curve_ok c -> curve_eps eps c -> refine_ok c xs ->
    exists c', try_refine_knot c xs = Ok c' /\ same_curve c c' /\
      (inside c xs -> curve_ok c' /\ curve_eps eps c') /\
      Permutation (cknots c') (cknots c ++ xs) /\
      length (cpts c') = (length (cpts c) + length xs)%nat /\
      forall Q, convex_set (cdim c) Q -> Forall Q (cpts c) -> Forall Q (cpts c').
  Proof.
    intros Hc He Hxs. destruct xs as [|x0 xt].
    { exists c. split; [reflexivity|]. rewrite app_nil_r, Nat.add_0_r.
      split; [now apply same_curve_refl, ok_wf|]. auto 10. }
    set (xs := x0 :: xt) in *.
    destruct (refine_start c x0 xt Hc He Hxs) as (a & b & cp & kp0 & kp & Ea & Eb & Ha & Hab & Ecp & Ek0 & Ekp & Hx0 & Hx1 & HI0). fold xs in Ea, Eb, Hx0, Hx1, HI0.
    unfold try_refine_knot. unfold xs at 1.
    pose proof (clast_S c Hc) as Hn. pose proof (curve_len c Hc) as Hl.
    pose proof (co_len c Hc) as Hcl.
    set (n := clast c) in *. set (p := cdeg c) in *.
    rewrite usub_ok by lia. cbn [bind]. replace (length (cpts c) - 1)%nat with n by lia.
    assert (LX : length xs = S (length xt)) by reflexivity.
    rewrite usub_ok by lia. cbn [bind]. replace (length xs - 1)%nat with (length xt) by lia.
    set (r := length xt) in *.
    rewrite (get_ok xs 0 0) by lia. cbn [bind]. rewrite Ea. cbn [bind].
    rewrite (get_ok xs r 0) by lia. cbn [bind]. rewrite Eb. cbn [bind].
    rewrite (usub_ok a p) by lia. cbn [bind].
    unfold slice. rewrite repeat_length.
    destruct (Nat.leb_spec 0 (a - p + 1)); [|lia].
    destruct (Nat.leb_spec (a - p + 1) (length (cpts c))); [|lia].
    destruct (Nat.leb_spec (a - p + 1) (n + r + 2)); [|lia]. cbn [andb bind].
    rewrite Nat.sub_0_r. cbn [skipn].
    replace (b + 1 - 1)%nat with b by lia. rewrite Ecp. cbn [bind]. rewrite Ek0. cbn [bind]. rewrite Ekp. cbn [bind].
    replace (b + 1 + p - 1)%nat with (b + p)%nat by lia.
    assert (He0 : 0 < eps) by apply He.
    destruct (for_rev_rule (fun jj st => RI c xs a jj st /\ (jj = 0%nat -> snd (fst st) = a))
                (r + 1) 0 (refine_step (cknots c) (cpts c) p a xs)
                (cp, kp, (b + p)%nat, (b + 1 + p + r)%nat)) as (st & E & HI & Hend).
    { split; [exact HI0|lia]. }
    { intros jj st Hjj (HI & _). cbn [Nat.add].
      destruct (refine_step_spec c xs a Hc Hxs) with (jj := jj) (st := st)
        as (st' & E & HI' & Hend); auto; try lia.
      eexists. split; [exact E|]. split; auto. }
    rewrite E. cbn [bind]. destruct st as [[[cpf kpf] i] k]. cbn [fst snd] in Hend.
    specialize (Hend eq_refl). subst i.
    clear H H0 H1.
    destruct HI as [H1 H2 H3 H4 H5 H6 Hok H7 H8 H9 H10 HQ]. cbn [fst snd] in *. fold n p in H1, H2, H5, H9.
    rewrite Nat.add_0_r in H4. subst k.
    assert (EK : firstn (S a) (cknots c) ++ skipn (S a) kpf = kpf).
    { apply (list_ext 0). { rewrite splice_length by lia. lia. }
      intros t Ht. rewrite splice_length in Ht by lia. rewrite splice_nth by lia.
      destruct (Nat.ltb_spec t (S a)); [symmetry; apply H10; lia|]. f_equal. lia. }
    assert (EP : firstn (a - p) (cpts c) ++ skipn (a - p) cpf = cpf).
    { apply (list_ext []). { rewrite splice_length by lia. lia. }
      intros t Ht. rewrite splice_length in Ht by lia. rewrite splice_nth by lia.
      destruct (Nat.ltb_spec t (a - p)); [symmetry; apply H9; lia|]. f_equal. lia. }
    unfold VC in H6, Hok. fold p in H6, Hok. rewrite EK, EP in H6, Hok. rewrite EK in H7. cbn [skipn] in H7.
    eexists. split; [reflexivity|]. split; [exact H6|].
    split; [intros Hi; split; [auto|eapply refine_eps; eauto]|]. split; [exact H7|]. cbn [cpts].
    split; [lia|]. intros Q Qc Qp. rewrite <- EP. apply Forall_app. split.
    - rewrite <- (firstn_skipn (a - p) (cpts c)) in Qp. apply Forall_app in Qp. apply Qp.
    - apply Forall_forall. intros q Hq. apply (In_nth _ _ []) in Hq. destruct Hq as (t & Ht & <-).
      rewrite skipn_length in Ht. rewrite nth_skipn. apply (HQ Q); auto. lia.
  Qed.

  Theorem refine_spec c xs :
    curve_ok c -> curve_eps eps c -> refine_ok c xs ->
    exists c', try_refine_knot c xs = Ok c' /\ same_curve c c' /\
      (inside c xs -> curve_ok c' /\ curve_eps eps c') /\
      Permutation (cknots c') (cknots c ++ xs) /\
      length (cpts c') = (length (cpts c) + length xs)%nat.
  Proof.
    intros Hc He Hx. destruct (refine_spec_full c xs Hc He Hx) as (c' & A & B & C & D & E & _).
    exists c'. auto.
  Qed.

  (** Refining never leaves a convex set that contains the control points. *)
  Theorem refine_convex c xs c' Q :
    curve_ok c -> curve_eps eps c -> refine_ok c xs -> try_refine_knot c xs = Ok c' ->
    convex_set (cdim c) Q -> Forall Q (cpts c) -> Forall Q (cpts c').
  Proof.
    intros Hc He Hx E. destruct (refine_spec_full c xs Hc He Hx) as (c'' & A & _ & _ & _ & _ & B).
    rewrite E in A. injection A as ->. apply B.
  Qed.

  (** same function, same evaluation results *)
  Lemma same_point_at c c' u : curve_ok c -> curve_eps eps c -> same_curve c c' ->
    curve_ok c' -> curve_eps eps c' -> dom0 c <= u <= dom1 c -> point_at c' u = point_at c u.
  Proof.
    intros Hc He Hs Hc' He' Hu.
    destruct (point_spec eps maxv c u Hc He Hu) as (q & E1 & L1 & Q1).
    destruct (point_spec eps maxv c' u Hc' He') as (q' & E2 & L2 & Q2).
    { rewrite (sc_dom0 _ _ Hs), (sc_dom1 _ _ Hs). exact Hu. }
    assert (q' = q).
    { apply (vec_ext q' q (cdim c)); auto. { rewrite L2. apply Hs. }
      intros i Hi. rewrite Q1, Q2. now apply same_hcoord. }
    subst q'. unfold point_at. rewrite E1, E2. cbn [bind]. now rewrite (sc_dim _ _ Hs).
  Qed.

  Theorem refine_knot_preserves c xs :
    curve_ok c -> curve_eps eps c -> refine_ok c xs -> inside c xs ->
    exists c', try_refine_knot c xs = Ok c' /\
      Permutation (cknots c') (cknots c ++ xs) /\ Sorted Rle (cknots c') /\
      length (cpts c') = (length (cpts c) + length xs)%nat /\ cdeg c' = cdeg c /\
      dom0 c' = dom0 c /\ dom1 c' = dom1 c /\
      forall u, dom0 c <= u <= dom1 c -> point_at c' u = point_at c u.
  Proof.
    intros Hc He Hxs Hi. destruct (refine_spec c xs Hc He Hxs) as (c' & E & Hs & He' & Hp & Hlen).
    destruct (He' Hi) as (Hc' & He'').
    exists c'. split; [exact E|]. split; [exact Hp|]. split; [apply (sc_wf _ _ Hs)|].
    split; [exact Hlen|]. split; [apply Hs|]. split; [apply Hs|]. split; [apply Hs|].
    intros u Hu. now apply same_point_at.
  Qed.
End Real.
