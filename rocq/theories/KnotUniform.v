(** * Uniform clamped knot vectors *)
From Coq Require Import Reals Lra Sorted.
From Verif Require Import Base BaseFacts Scalar RSum KnotModel KnotSpec KnotFacts KnotMisc CurveShapes.
Open Scope R_scope.

(** the linear search over any scalar: the last index in range whose knots up to it are all below [u] *)
Theorem find_span_linear_any {T} {SO : Scalar T} (k : list T) n p u : (n <= length k)%nat ->
  exists s, find_span_linear k n p u = Ok s /\ (p <= s)%nat /\ (s = p \/ s < n)%nat /\
    (forall i d, (p < i <= s)%nat -> sleb (nth i k d) u = true) /\
    ((n <= S s)%nat \/ (forall d, sleb (nth (S s) k d) u = false)).
Proof.
  intros Hn. unfold find_span_linear.
  match goal with |- context [while_ _ ?c ?b _] =>
    destruct (while_rule
      (fun sp => (p + 1 <= sp)%nat /\ (sp = (p + 1)%nat \/ (sp <= n)%nat) /\ forall i d, (p < i < sp)%nat -> sleb (nth i k d) u = true)
      (fun sp => (p + 1 <= sp)%nat /\ (sp = (p + 1)%nat \/ (sp <= n)%nat) /\ (forall i d, (p < i < sp)%nat -> sleb (nth i k d) u = true) /\
                 ((n <= sp)%nat \/ forall d, sleb (nth sp k d) u = false))
      (fun sp => (n + 1 - sp)%nat) (n + 2) c b (p + 1)%nat) as (sp & E & H1 & H2 & H3 & H4) end.
  - split; [lia|]. split; [auto|]. intros i d Hi. lia.
  - lia.
  - intros sp (H1 & H2 & H3). destruct (Nat.ltb_spec sp n) as [C|C].
    + destruct (get k sp) as [x| | |] eqn:Eg; try (exfalso; unfold get in Eg; destruct (nth_error k sp) eqn:En; try discriminate;
        apply nth_error_None in En; lia).
      apply get_inv in Eg. destruct Eg as (_ & Eg). cbn [bind]. destruct (sleb x u) eqn:Ex.
      * right. split; [reflexivity|]. eexists. split; [reflexivity|]. split; [|lia]. split; [lia|]. split; [lia|].
        intros i d Hi. destruct (Nat.eq_dec i sp) as [->|G]; [rewrite <- (Eg d); exact Ex|]. apply H3. lia.
      * left. split; [reflexivity|]. split; [exact H1|]. split; [exact H2|]. split; [exact H3|]. right.
        intros d. rewrite <- (Eg d). exact Ex.
    + left. split; [reflexivity|]. split; [exact H1|]. split; [exact H2|]. split; [exact H3|]. left. exact C.
  - rewrite E. cbn [bind]. rewrite usub_ok by lia. eexists. split; [reflexivity|]. split; [lia|]. split; [lia|].
    split; [intros i d Hi; apply H3; lia|]. replace (S (sp - 1)) with sp by lia. exact H4.
Qed.

Section Real.
  Variables eps maxv : R.
  Local Hint Extern 0 (Scalar R) => exact (ROps eps maxv) : typeclass_instances.

  (** knot_vector.rs:26-35: integers [0 .. n-1], the first and last repeated [degree] more times *)
  Theorem uniform_real n p : (2 <= n)%nat ->
    exists k, uniform n p = Ok k /\ length k = (n + 2 * p)%nat /\
      (forall i, (i < n + 2 * p)%nat -> nth i k 0 = INR (Nat.min (i - p) (n - 1))) /\
      knots_ok p (n + p - 2) k /\ domain k p = Ok (0, INR (n - 1)).
  Proof.
    intros Hn. unfold uniform. rewrite usub_ok by lia. cbn [bind]. eexists. split; [reflexivity|].
    set (k := repeat szero p ++ map sofnat (seq 0 n) ++ repeat (sofnat (n - 1)) p).
    assert (Lk : length k = (n + 2 * p)%nat)
      by (unfold k; rewrite !app_length, !repeat_length, map_length, seq_length; lia).
    assert (Nk : forall i, (i < n + 2 * p)%nat -> nth i k 0 = INR (Nat.min (i - p) (n - 1))).
    { intros i Hi. unfold k. destruct (Nat.lt_ge_cases i p) as [C|C].
      - rewrite app_nth1 by (rewrite repeat_length; lia). rewrite nth_repeat_lt by lia.
        replace (i - p)%nat with 0%nat by lia. reflexivity.
      - rewrite app_nth2 by (rewrite repeat_length; lia). rewrite repeat_length.
        destruct (Nat.lt_ge_cases (i - p) n) as [C2|C2].
        + rewrite app_nth1 by (rewrite map_length, seq_length; lia).
          rewrite (nth_map_lt _ _ _ 0%nat) by (rewrite seq_length; lia). rewrite seq_nth by lia.
          rewrite (sofnat_INR eps maxv). f_equal. lia.
        + rewrite app_nth2 by (rewrite map_length, seq_length; lia). rewrite map_length, seq_length.
          rewrite nth_repeat_lt by lia. rewrite (sofnat_INR eps maxv). f_equal. lia. }
    split; [exact Lk|]. split; [exact Nk|]. split.
    - constructor.
      + lia.
      + lia.
      + apply mono_sorted. intros i Hi. rewrite !Nk by lia. apply le_INR. lia.
      + rewrite !(kf_nth _ _ 0) by lia. rewrite !Nk by lia. apply lt_INR. lia.
      + rewrite !(kf_nth _ _ 0) by lia. rewrite !Nk by lia. apply lt_INR. lia.
    - unfold domain. rewrite (get_ok k p 0) by lia. cbn [bind]. rewrite !usub_ok by lia. cbn [bind].
      rewrite usub_ok by lia. cbn [bind]. rewrite (get_ok k _ 0) by lia. cbn [bind]. rewrite !Nk by lia.
      f_equal. f_equal; [rewrite Nat.sub_diag; reflexivity|]. f_equal. lia.
  Qed.

  (** no knots at all: the subtraction underflows *)
  Theorem uniform_zero_panics p : panics (uniform (T := R) 0 p).
  Proof. eexists. reflexivity. Qed.

  (** with the number of control points as bound it finds the span that holds the parameter *)
  Theorem find_span_linear_real (k : list R) n p u :
    knots_ok p n k -> kf k p <= u ->
    exists s, find_span_linear k (n + 1) p u = Ok s /\ (p <= s <= n)%nat /\ kf k s <= u /\
      (u < kf k (S s) \/ (s = n /\ kf k (n + 1) <= u) ).
  Proof.
    intros [Hl Hpn Hso Hf Hla] Hu.
    destruct (find_span_linear_any k (n + 1) p u ltac:(lia)) as (s & E & H1 & H2 & H3 & H4).
    exists s. split; [exact E|]. split; [lia|].
    assert (Ks : kf k s <= u).
    { destruct (Nat.eq_dec s p) as [->|C]; [exact Hu|]. rewrite (kf_nth _ _ 0) by lia.
      pose proof (H3 s 0 ltac:(lia)) as B. rs. destruct (Rleb_spec (nth s k 0) u); [assumption|discriminate]. }
    split; [exact Ks|]. destruct H4 as [H4|H4].
    - assert (s = n) as -> by lia. destruct (Rlt_or_le u (kf k (n + 1))) as [C|C]; [left|right; auto].
      now rewrite Nat.add_1_r in C.
    - left. destruct (Nat.lt_ge_cases (S s) (length k)) as [C|C]; [|lia].
      rewrite (kf_nth _ _ 0) by lia. pose proof (H4 0) as B. rs. destruct (Rleb_spec (nth (S s) k 0) u); [discriminate|lra].
  Qed.

  (** called like the binary search, with the last index, it never returns the last span *)
  Theorem find_span_linear_differs_refuted :
    exists (k : list R) n p u s, knots_ok p n k /\ kf k n <= u < kf k (n + 1) /\
      find_span_linear k n p u = Ok s /\ s <> n.
  Proof.
    exists [0; 0; 1; 2; 2], 2%nat, 1%nat, (3 / 2). eexists.
    split; [constructor; cbn; try lia; unfold kf; cbn; try lra; repeat constructor; lra|].
    split; [unfold kf; cbn; lra|]. split; [unfold find_span_linear; cbn; reflexivity|]. lia.
  Qed.
End Real.
