(** * Proofs about the knot vector model: span search and basis functions *)
From Coq Require Import Reals Lra ZArith Sorted.
From Verif Require Import Base BaseFacts Scalar RSum BSplineSpec BSpline KnotModel KnotSpec KnotFacts.
Open Scope R_scope.

(** ** Span search: any scalar type, any comparison outcome (NaN included) *)
Section AnyScalar.
  Context {T : Type} {SO : Scalar T}.

  Definition span_inv (degree n : nat) (st : nat * nat * nat) : Prop :=
    let '(low, high, mid) := st in
    (degree <= low <= n /\ low <= high <= n + 1 /\ mid = (low + high) / 2 /\ mid <= n)%nat.

  Lemma half_bounds a b : (a <= b)%nat -> (a <= (a + b) / 2 <= b)%nat.
  Proof.
    intros H. split.
    - apply Nat.div_le_lower_bound; lia.
    - apply Nat.div_le_upper_bound; lia.
  Qed.

  Lemma half_lt a b : (a < b)%nat -> ((a + b) / 2 < b)%nat.
  Proof. intros H. apply Nat.div_lt_upper_bound; lia. Qed.

  Theorem find_span_total (k : list T) n degree u :
    (degree <= n)%nat -> (n + 1 < length k)%nat ->
    exists s, find_span k n degree u = Ok s /\ (degree <= s <= n)%nat.
  Proof.
    intros Hd Hl. unfold find_span.
    destruct (nth_error k 0) as [d0|] eqn:E0.
    2:{ apply nth_error_None in E0. lia. }
    rewrite (get_ok k (n + 1) d0) by lia. cbn [bind].
    destruct (sltb _ u); [exists n; split; [reflexivity|lia]|].
    rewrite (get_ok k degree d0) by lia. cbn [bind].
    destruct (sltb u _); [exists degree; split; [reflexivity|lia]|].
    apply (loop_rule (span_inv degree n) (fun s => degree <= s <= n)%nat
             (fun st => let '(low, high, mid) := st in high - low)%nat).
    - unfold span_inv. pose proof (half_bounds degree (n + 1) ltac:(lia)).
      pose proof (half_lt degree (n + 1) ltac:(lia)). repeat split; lia.
    - lia.
    - intros [[low high] mid] (H1 & H2 & H3 & H4). unfold span_step.
      pose proof (half_bounds low high ltac:(lia)) as Hb.
      rewrite (get_ok k mid d0) by lia. cbn [bind].
      destruct (sltb u (nth mid k d0)) eqn:Eu.
      + cbn [bind].
        destruct (Nat.eqb_spec mid ((low + mid) / 2)) as [Ee|Ee].
        * exists (inr mid). split; [reflexivity|]. lia.
        * eexists; split; [reflexivity|]. unfold span_inv.
          pose proof (half_bounds low mid ltac:(lia)).
          assert (low <> mid).
          { intros ->. apply Ee. pose proof (half_bounds mid mid (le_n _)). lia. }
          assert (mid < high)%nat. { pose proof (half_lt low high ltac:(lia)). lia. }
          repeat split; lia.
      + rewrite (get_ok k (mid + 1) d0) by lia. cbn [bind].
        destruct (sleb _ u).
        * destruct (Nat.eqb_spec mid ((mid + high) / 2)) as [Ee|Ee].
          -- exists (inr mid). split; [reflexivity|]. lia.
          -- eexists; split; [reflexivity|]. unfold span_inv.
             pose proof (half_bounds mid high ltac:(lia)).
             assert (low <> mid) by (intros ->; congruence).
             assert (mid <> high).
             { intros ->. apply Ee. pose proof (half_bounds high high (le_n _)). lia. }
             pose proof (half_lt mid high ltac:(lia)).
             repeat split; lia.
        * exists (inr mid). split; [reflexivity|]. lia.
  Qed.
End AnyScalar.

Lemma bs_step k s j i u : (1 <= j)%nat ->
  bs k s j i u = wl k j i u * bs k s (j - 1) i u + wr k j i u * bs k s (j - 1) (i + 1) u.
Proof.
  intros H. destruct j as [|j]; [lia|]. rewrite bs_S. now rewrite Nat.sub_succ, Nat.sub_0_r.
Qed.

(** ** Span search over R *)
Section Real.
  Variables eps maxv : R.
  Local Hint Extern 0 (Scalar R) => exact (ROps eps maxv) : typeclass_instances.
  Ltac rr := rs.

  Theorem find_span_real k p n u :
    knots_ok p n k -> 0 < eps ->
    exists s, find_span k n p u = Ok s /\ (p <= s <= n)%nat /\ kf k s < kf k (S s) /\
      ((kf k (n + 1) - eps < u /\ s = n) \/ (u < kf k p + eps /\ s = p)
       \/ (kf k s <= u < kf k (S s))).
  Proof.
    intros [Hl Hpn Hso Hf Hla] He. unfold find_span.
    rewrite get_kf by lia. cbn [bind]. rr.
    destruct (Rltb_spec (kf k (n + 1) - eps) u) as [H1|H1].
    { exists n. split; [reflexivity|]. split; [lia|].
      rewrite Nat.add_1_r in Hla. split; [exact Hla|]. left; auto. }
    rewrite get_kf by lia. cbn [bind].
    destruct (Rltb_spec u (kf k p + eps)) as [H2|H2].
    { exists p. split; [reflexivity|]. split; [lia|].
      rewrite Nat.add_1_r in Hf. split; [exact Hf|]. right; left; auto. }
    destruct (loop_rule
                (fun st => let '(low, high, mid) := st in
                   span_inv p n st /\ kf k low <= u < kf k high)
                (fun s => (p <= s <= n)%nat /\ kf k s <= u < kf k (S s))
                (fun st => let '(low, high, mid) := st in (high - low)%nat)
                (n + 3) (@span_step R (ROps eps maxv) k u)
                (p, (n + 1)%nat, ((p + (n + 1)) / 2)%nat)) as (s & Es & Hs).
    - split; [|lra]. unfold span_inv. pose proof (half_bounds p (n + 1) ltac:(lia)).
      pose proof (half_lt p (n + 1) ltac:(lia)). repeat split; lia.
    - lia.
    - intros [[low high] mid] [(I1 & I2 & I3 & I4) [K1 K2]].
      pose proof (half_bounds low high ltac:(lia)) as Hb.
      assert (Hlh : (low < high)%nat).
      { destruct (Nat.eq_dec low high) as [->|]; [lra|lia]. }
      pose proof (half_lt low high Hlh).
      unfold span_step. rewrite get_kf by lia. cbn [bind]. rs.
      destruct (Rltb_spec u (kf k mid)) as [C|C].
      + cbn [bind]. destruct (Nat.eqb_spec mid ((low + mid) / 2)) as [Ee|Ee].
        * exfalso. pose proof (half_bounds low mid ltac:(lia)).
          destruct (Nat.eq_dec low mid) as [->|Hne]; [lra|].
          pose proof (half_lt low mid ltac:(lia)). lia.
        * eexists; split; [reflexivity|]. unfold span_inv.
          pose proof (half_bounds low mid ltac:(lia)).
          repeat split; try lia; lra.
      + rewrite get_kf by lia. cbn [bind].
        destruct (Rleb_spec (kf k (mid + 1)) u) as [C1|C1].
        * assert (Hmh : (mid + 1 < high)%nat).
          { destruct (Nat.eq_dec (mid + 1) high) as [<-|]; [lra|lia]. }
          assert (Hge : (mid + 1 <= (mid + high) / 2)%nat)
            by (apply Nat.div_le_lower_bound; lia).
          pose proof (half_lt mid high ltac:(lia)).
          destruct (Nat.eqb_spec mid ((mid + high) / 2)) as [Ee|Ee]; [lia|].
          assert (low <> mid).
          { intros Eq. rewrite Eq in *. lia. }
          eexists; split; [reflexivity|]. unfold span_inv. repeat split; try lia; lra.
        * exists (inr mid). split; [reflexivity|]. rewrite Nat.add_1_r in C1.
          split; [lia|lra].
    - exists s. split; [exact Es|]. destruct Hs as [Hs1 Hs2].
      split; [exact Hs1|]. split; [lra|]. right; right; exact Hs2.
  Qed.

  (** inside the domain the returned span contains the parameter *)
  Theorem find_span_brackets k p n u :
    knots_ok p n k -> eps_ok eps p n k ->
    kf k p <= u <= kf k (n + 1) ->
    exists s, find_span k n p u = Ok s /\ (p <= s <= n)%nat /\ in_span k n s u.
  Proof.
    intros Hk (He & He1 & He2) Hu.
    destruct (find_span_real k p n u Hk He) as (s & E & Hs & Hne & H).
    exists s. split; [exact E|]. split; [exact Hs|]. unfold in_span. split; [exact Hne|].
    destruct H as [[H ->]|[[H ->]|H]].
    - rewrite Nat.add_1_r in *. split; [lra|].
      destruct (Rle_lt_or_eq_dec u (kf k (S n))) as [G|G]; [lra|left; exact G|right; auto].
    - rewrite (Nat.add_1_r p) in *. split; [lra|]. left; lra.
    - split; [lra|left; lra].
  Qed.

  (** ** Basis functions *)
  Theorem basis_functions_real k s p u :
    mono (kf k) -> kf k s < kf k (S s) -> (p <= s)%nat -> (s + p < length k)%nat ->
    exists b, basis_functions k s u p = Ok b /\ length b = S p /\
      forall r, (r <= p)%nat -> nth r b 0 = bs (kf k) s p (s - p + r) u.
  Proof.
    intros Hm Hs Hp Hl. unfold basis_functions. rr.
    set (z := repeat 0 (p + 1)).
    assert (Hz : length z = S p) by (unfold z; rewrite repeat_length; lia).
    rewrite set_ok by lia. cbn [bind].
    set (I := fun j (st : list R * list R * list R) =>
       let '(b, lft, rgt) := st in
       length b = S p /\ length lft = S p /\ length rgt = S p /\
       (forall r, (r < j)%nat -> nth r b 0 = bs (kf k) s (j - 1) (s - (j - 1) + r) u) /\
       (forall m, (1 <= m < j)%nat -> nth m lft 0 = u - kf k (s + 1 - m)) /\
       (forall m, (1 <= m < j)%nat -> nth m rgt 0 = kf k (s + m) - u)).
    destruct (for_incl_rule I 1 p (@basis_outer R (ROps eps maxv) k s u)
                (upd z 0 1, z, z)) as ([[b lft] rgt] & E & HI).
    - lia.
    - cbn. rewrite !upd_length. repeat split; auto; try (intros; lia).
      intros r Hr. replace r with 0%nat by lia. rewrite nth_upd_same by lia.
      rewrite (proj2 (Nat.eqb_eq _ _)); [reflexivity|lia].
    - intros j [[b lft] rgt] Hj (L1 & L2 & L3 & Hb & Hlf & Hrg).
      unfold basis_outer. rewrite usub_ok by lia. cbn [bind].
      rewrite get_kf by lia. cbn [bind]. rewrite set_ok by lia. cbn [bind].
      rewrite get_kf by lia. cbn [bind]. rewrite set_ok by lia. cbn [bind]. rs.
      set (lft' := upd lft j (u - kf k (s + 1 - j))).
      set (rgt' := upd rgt j (kf k (s + j) - u)).
      assert (Hlf' : forall m, (1 <= m <= j)%nat -> nth m lft' 0 = u - kf k (s + 1 - m)).
      { intros m Hm1. unfold lft'. destruct (Nat.eq_dec m j) as [->|].
        - rewrite nth_upd_same by lia. reflexivity.
        - rewrite nth_upd_other by lia. apply Hlf. lia. }
      assert (Hrg' : forall m, (1 <= m <= j)%nat -> nth m rgt' 0 = kf k (s + m) - u).
      { intros m Hm1. unfold rgt'. destruct (Nat.eq_dec m j) as [->|].
        - rewrite nth_upd_same by lia. reflexivity.
        - rewrite nth_upd_other by lia. apply Hrg. lia. }
      assert (Ll : length lft' = S p) by (unfold lft'; rewrite upd_length; lia).
      assert (Lr : length rgt' = S p) by (unfold rgt'; rewrite upd_length; lia).
      set (J := fun r (st : list R * R) =>
         let '(b', saved) := st in
         length b' = S p /\
         (forall m, (m < r)%nat -> nth m b' 0 = bs (kf k) s j (s - j + m) u) /\
         (forall m, (r <= m < j)%nat -> nth m b' 0 = bs (kf k) s (j - 1) (s - (j - 1) + m) u) /\
         saved = wl (kf k) j (s - j + r) u * bs (kf k) s (j - 1) (s - j + r) u).
      destruct (for_range_rule J 0 j (@basis_inner R (ROps eps maxv) lft' rgt' j) (b, 0))
        as ([b' saved] & E' & (J1 & J2 & J3 & J4)).
      + lia.
      + cbn. repeat split; auto; try (intros; lia).
        * intros m Hm1. apply Hb. lia.
        * rewrite (bs_support _ s (j - 1)) by lia. lra.
      + intros r [b1 saved] Hr (G1 & G2 & G3 & G4).
        unfold basis_inner. rewrite (get_ok b1 r 0) by lia. cbn [bind].
        rewrite (get_ok rgt' (r + 1) 0) by lia. cbn [bind].
        rewrite usub_ok by lia. cbn [bind].
        rewrite (get_ok lft' (j - r) 0) by lia. cbn [bind].
        rewrite set_ok by lia. cbn [bind]. rs.
        rewrite Hrg', Hlf' by lia. rewrite (G3 r) by lia.
        replace (s - (j - 1) + r)%nat with (s - j + r + 1)%nat by lia.
        replace (s + (r + 1))%nat with (s - j + r + j + 1)%nat by lia.
        replace (s + 1 - (j - r))%nat with (s - j + r + 1)%nat by lia.
        set (i := (s - j + r)%nat) in *.
        assert (D : 0 < kf k (i + j + 1) - kf k (i + 1))
          by (apply (den_pos (kf k) s Hm Hs); unfold i; lia).
        eexists. split; [reflexivity|]. cbn.
        rewrite upd_length. split; [exact G1|]. split; [|split].
        * intros m Hm1. destruct (Nat.eq_dec m r) as [->|Hne].
          -- rewrite nth_upd_same by lia. rewrite G4. fold i.
             rewrite (bs_step _ _ j) by lia. f_equal.
             unfold wr. rewrite quot0_nz by lra. field. lra.
          -- rewrite nth_upd_other by lia. apply G2. lia.
        * intros m Hm1. rewrite nth_upd_other by lia. apply G3. lia.
        * replace (s - j + S r)%nat with (i + 1)%nat by (unfold i; lia).
          unfold wl. replace (i + 1 + j)%nat with (i + j + 1)%nat by lia.
          rewrite quot0_nz by lra. field. lra.
      + match goal with |- context [for_range 0 j ?f ?a] =>
          change (for_range 0 j f a) with
            (for_range 0 j (@basis_inner R (ROps eps maxv) lft' rgt' j) (b, 0)) end.
        rewrite E'. cbn [bind]. rewrite set_ok by lia. cbn [bind].
        eexists. split; [reflexivity|]. cbn [I].
        rewrite upd_length. repeat split; auto.
        * intros r Hr. replace (S j - 1)%nat with j by lia.
          destruct (Nat.eq_dec r j) as [->|Hne].
          -- rewrite nth_upd_same by lia. rewrite J4.
             replace (s - j + j)%nat with s by lia.
             rewrite (bs_step _ _ j) by lia.
             rewrite (bs_support _ s (j - 1) (s + 1)) by lia. lra.
          -- rewrite nth_upd_other by lia. apply J2. lia.
        * intros m Hm1. apply Hlf'. lia.
        * intros m Hm1. apply Hrg'. lia.
    - match goal with |- context [for_incl 1 p ?f ?a] =>
        change (for_incl 1 p f a) with
          (for_incl 1 p (@basis_outer R (ROps eps maxv) k s u) (upd z 0 1, z, z)) end.
      rewrite E. cbn [bind]. destruct HI as (L1 & L2 & L3 & Hb & _).
      exists b. split; [reflexivity|]. split; [exact L1|].
      intros r Hr. rewrite Hb by lia. f_equal; lia.
  Qed.

  (** the values returned for the span of [u] are the non-zero Cox-de Boor functions, in order;
      they are non-negative and sum to one *)
  Theorem basis_functions_cox k p n u :
    knots_ok p n k -> eps_ok eps p n k -> kf k p <= u < kf k (n + 1) ->
    exists s b, find_span k n p u = Ok s /\ basis_functions k s u p = Ok b /\ length b = S p /\
      (p <= s <= n)%nat /\
      (forall r, (r <= p)%nat -> nth r b 0 = cox_de_boor (kf k) p (s - p + r) u /\ 0 <= nth r b 0) /\
      (forall i, (i < s - p \/ s < i)%nat -> cox_de_boor (kf k) p i u = 0) /\
      rsum (S p) (fun r => nth r b 0) = 1.
  Proof.
    intros Hk He Hu. destruct (find_span_brackets k p n u Hk He ltac:(lra)) as (s & E & Hs & Hin).
    pose proof Hk as [Hl Hpn Hso _ _]. pose proof (sorted_mono _ Hso) as Hm.
    destruct Hin as (Hne & H1 & H2).
    assert (H3 : u < kf k (S s)).
    { destruct H2 as [H2|[-> H2]]; [exact H2|]. rewrite Nat.add_1_r in Hu. lra. }
    destruct (basis_functions_real k s p u Hm Hne ltac:(lia) ltac:(lia)) as (b & Eb & Lb & Hb).
    exists s, b. split; [exact E|]. split; [exact Eb|]. split; [exact Lb|]. split; [exact Hs|].
    split; [|split].
    - intros r Hr. rewrite Hb by auto. split; [now rewrite (cox_bs _ s) by (auto; lra)|].
      apply bs_nonneg; auto. lra.
    - intros i Hi. rewrite (cox_bs _ s) by (auto; lra). apply bs_support. lia.
    - rewrite (rsum_ext (S p) _ (fun r => bs (kf k) s p (s - p + r) u * 1)).
      2:{ intros r Hr. rewrite Hb by lia. ring. }
      rewrite <- (piece_window (kf k) p (S s) (fun _ => 1) s u) by lia. unfold piece.
      rewrite (rsum_ext _ _ (fun i => bs (kf k) s p i u)) by (intros; ring).
      apply bs_sum; auto; lia.
  Qed.
End Real.
