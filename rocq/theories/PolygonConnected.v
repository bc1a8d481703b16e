(** * The winding number does not change along a segment that avoids the polygon *)
From Coq Require Import Reals Lra Lia Psatz ZArith List.
From Verif Require Import Base BaseFacts Scalar RSum KnotFacts VecFacts MiscModel PolygonProofs.
Import ListNotations.
Open Scope R_scope.

(** [x] is a point of the segment from [p] to [q] *)
Definition on_seg (p q x : list R) : Prop :=
  exists s, 0 <= s <= 1 /\ rc 0 x = rc 0 p + s * (rc 0 q - rc 0 p) /\ rc 1 x = rc 1 p + s * (rc 1 q - rc 1 p).

(** a closed polygonal line and a segment have no point in common *)
Definition avoids (vs : list (list R)) (c d : list R) : Prop :=
  forall e x, In e (edges vs) -> on_seg c d x -> ~ on_seg (fst e) (snd e) x.

Section Real.
  Variables eps maxv : R.
  Local Hint Extern 0 (Scalar R) => exact (ROps eps maxv) : typeclass_instances.
  Local Notation step := (step eps maxv).
  Local Notation path := (path eps maxv).

  (** negative to the right of the line from [c] to [d] *)
  Definition side (c d : list R) (x y : R) : R := (rc 0 d - rc 0 c) * (y - rc 1 c) - (rc 1 d - rc 1 c) * (x - rc 0 c).
  Definition seg_x (p q : list R) (s : R) : R := rc 0 p + s * (rc 0 q - rc 0 p).
  Definition seg_y (p q : list R) (s : R) : R := rc 1 p + s * (rc 1 q - rc 1 p).

  Definition apart (c d p q : list R) : Prop := forall x, on_seg c d x -> ~ on_seg p q x.

  Lemma rc0 x y : rc 0 [x; y] = x. Proof. reflexivity. Qed.
  Lemma rc1 x y : rc 1 [x; y] = y. Proof. reflexivity. Qed.

  (** two points of the edge at heights between those of [c] and [d] lie on the same side *)
  Lemma same_side c d p q s t : apart c d p q -> rc 1 c < rc 1 d -> 0 <= s <= 1 -> 0 <= t <= 1 ->
    rc 1 c <= seg_y p q s <= rc 1 d -> rc 1 c <= seg_y p q t <= rc 1 d ->
    side c d (seg_x p q s) (seg_y p q s) < 0 -> side c d (seg_x p q t) (seg_y p q t) < 0.
  Proof.
    intros A Hcd Hs Ht Ys Yt Gs. apply Rnot_le_lt. intros Gt.
    set (g := fun s => side c d (seg_x p q s) (seg_y p q s)).
    change (g s < 0) in Gs. change (0 <= g t) in Gt.
    set (l := g t / (g t - g s)).
    assert (Hl : 0 <= l <= 1).
    { unfold l. split; [apply Rmult_le_pos; [lra|apply Rlt_le, Rinv_0_lt_compat; lra]|].
      apply (Rmult_le_reg_r (g t - g s)); [lra|]. unfold Rdiv. rewrite Rmult_assoc, Rinv_l by lra. lra. }
    assert (El : l * (g t - g s) = g t) by (unfold l; field; lra). clearbody l.
    set (r := t + l * (s - t)).
    assert (Hr : 0 <= r <= 1) by (unfold r; nra).
    assert (Yr : rc 1 c <= seg_y p q r <= rc 1 d).
    { replace (seg_y p q r) with ((1 - l) * seg_y p q t + l * seg_y p q s) by (unfold r, seg_y; ring). nra. }
    assert (Gr : g r = 0).
    { replace (g r) with (g t - l * (g t - g s)) by (unfold g, r, side, seg_x, seg_y; ring). lra. }
    unfold g, side in Gr.
    set (k := (seg_y p q r - rc 1 c) / (rc 1 d - rc 1 c)).
    assert (Ek : k * (rc 1 d - rc 1 c) = seg_y p q r - rc 1 c) by (unfold k; field; lra).
    apply (A [seg_x p q r; seg_y p q r]).
    - exists k. rewrite rc0, rc1. split; [split; nra|]. split; [|lra].
      apply (Rmult_eq_reg_r (rc 1 d - rc 1 c)); [|lra].
      replace ((rc 0 c + k * (rc 0 d - rc 0 c)) * (rc 1 d - rc 1 c)) with (rc 0 c * (rc 1 d - rc 1 c) + (k * (rc 1 d - rc 1 c)) * (rc 0 d - rc 0 c)) by ring.
      rewrite Ek. lra.
    - exists r. rewrite rc0, rc1. split; [exact Hr|]. split; reflexivity.
  Qed.

  (** the height of [y] is reached on an edge that crosses it *)
  Lemma reach p q y : rc 1 p <= y <= rc 1 q -> rc 1 p < rc 1 q -> exists s, 0 <= s <= 1 /\ seg_y p q s = y /\ s * (rc 1 q - rc 1 p) = y - rc 1 p.
  Proof.
    intros H1 H2. exists ((y - rc 1 p) / (rc 1 q - rc 1 p)).
    assert (E : (y - rc 1 p) / (rc 1 q - rc 1 p) * (rc 1 q - rc 1 p) = y - rc 1 p) by (field; lra).
    split; [split; nra|]. split; [unfold seg_y; lra|exact E].
  Qed.

  (** the crossing with the height of [c] lies to the right of [c] when [c] lies to the left of the edge *)
  Lemma cross_side c p q s : rc 1 p < rc 1 q -> seg_y p q s = rc 1 c -> (0 < turn c p q <-> rc 0 c < seg_x p q s).
  Proof.
    intros H E. unfold seg_x, seg_y, turn in *.
    assert (E' : (rc 0 p - rc 0 c) * (rc 1 q - rc 1 c) - (rc 1 p - rc 1 c) * (rc 0 q - rc 0 c) = (rc 0 p + s * (rc 0 q - rc 0 p) - rc 0 c) * (rc 1 q - rc 1 p)).
    { rewrite <- E. ring. }
    rewrite E'. split; intros K; nra.
  Qed.

  Definition ind (c d v : list R) : Z :=
    if Rlt_dec (rc 1 c) (rc 1 v) then if Rle_dec (rc 1 v) (rc 1 d) then if Rlt_dec (side c d (rc 0 v) (rc 1 v)) 0 then 1%Z else 0%Z else 0%Z else 0%Z.

  Lemma step_up c p q : rc 1 p < rc 1 q -> step c p q = if Rle_dec (rc 1 p) (rc 1 c) then if Rlt_dec (rc 1 c) (rc 1 q) then if Rlt_dec 0 (turn c p q) then 1%Z else 0%Z else 0%Z else 0%Z.
  Proof.
    intros H. destruct (step_cases eps maxv c p q) as [(E & H1 & H2)|[(E & H1 & H2)|(E & H1 & H2)]]; rewrite E;
      destruct (Rle_dec (rc 1 p) (rc 1 c)), (Rlt_dec (rc 1 c) (rc 1 q)), (Rlt_dec 0 (turn c p q)); try reflexivity; exfalso; try lra.
  Qed.

  Lemma step_level c p q : rc 1 p = rc 1 q -> step c p q = 0%Z.
  Proof. intros H. destruct (step_cases eps maxv c p q) as [(E & H1 & H2)|[(E & H1 & H2)|(E & H1 & H2)]]; [lra|lra|exact E]. Qed.

  Lemma apart_swap c d p q : apart c d p q -> apart c d q p.
  Proof. intros A x H (s & Hs & E0 & E1). apply (A x H). exists (1 - s). split; [lra|]. split; lra. Qed.
  Lemma apart_rev c d p q : apart c d p q -> apart d c p q.
  Proof. intros A x (s & Hs & E0 & E1). apply (A x). exists (1 - s). split; [lra|]. split; lra. Qed.

  Lemma seg_0 p q : seg_x p q 0 = rc 0 p /\ seg_y p q 0 = rc 1 p.
  Proof. unfold seg_x, seg_y. split; ring. Qed.
  Lemma seg_1 p q : seg_x p q 1 = rc 0 q /\ seg_y p q 1 = rc 1 q.
  Proof. unfold seg_x, seg_y. split; ring. Qed.

  (** an edge crosses the two rays as often as it enters and leaves the strip between them *)
  Lemma flux_up c d p q : apart c d p q -> rc 1 c <= rc 1 d -> rc 1 p < rc 1 q -> (step c p q - step d p q = ind c d q - ind c d p)%Z.
  Proof.
    intros A Hcd Hpq. rewrite !step_up by assumption. destruct (seg_0 p q) as (X0 & Y0). destruct (seg_1 p q) as (X1 & Y1).
    destruct (Rle_lt_or_eq_dec _ _ Hcd) as [Hlt|Heq].
    - (* the crossing at the height of c, in terms of the side *)
      assert (Lc : rc 1 p <= rc 1 c < rc 1 q -> exists s, 0 <= s <= 1 /\ seg_y p q s = rc 1 c /\ (0 < turn c p q <-> side c d (seg_x p q s) (seg_y p q s) < 0)).
      { intros H. destruct (reach p q (rc 1 c)) as (s & Hs & Ey & _); [lra|lra|]. exists s. split; [exact Hs|]. split; [exact Ey|].
        rewrite (cross_side c p q s Hpq Ey). unfold side. rewrite Ey. split; intros; nra. }
      assert (Ld : rc 1 p <= rc 1 d < rc 1 q -> exists s, 0 <= s <= 1 /\ seg_y p q s = rc 1 d /\ (0 < turn d p q <-> side c d (seg_x p q s) (seg_y p q s) < 0)).
      { intros H. destruct (reach p q (rc 1 d)) as (s & Hs & Ey & _); [lra|lra|]. exists s. split; [exact Hs|]. split; [exact Ey|].
        rewrite (cross_side d p q s Hpq Ey). unfold side. rewrite Ey. split; intros; nra. }
      unfold ind. rewrite <- X1, <- Y1, <- X0, <- Y0. rewrite <- Y0, <- Y1 in Lc, Ld, Hpq.
      assert (SS : forall s t, 0 <= s <= 1 -> 0 <= t <= 1 -> rc 1 c <= seg_y p q s <= rc 1 d -> rc 1 c <= seg_y p q t <= rc 1 d ->
        side c d (seg_x p q s) (seg_y p q s) < 0 -> side c d (seg_x p q t) (seg_y p q t) < 0) by exact (fun s t Hs Ht Z1 Z2 => same_side c d p q s t A Hlt Hs Ht Z1 Z2).
      assert (I0 : 0 <= 0 <= 1) by lra. assert (I1 : 0 <= 1 <= 1) by lra.
      destruct (Rle_dec (seg_y p q 0) (rc 1 c)) as [P1|P1].
      + destruct (Rlt_dec (rc 1 c) (seg_y p q 0)); [lra|].
        destruct (Rlt_dec (rc 1 c) (seg_y p q 1)) as [Q1|Q1].
        * destruct (Lc (conj P1 Q1)) as (s & Hs & Ey & Es).
          destruct (Rle_dec (seg_y p q 0) (rc 1 d)); [|lra].
          destruct (Rle_dec (seg_y p q 1) (rc 1 d)) as [Q2|Q2]; destruct (Rlt_dec (rc 1 d) (seg_y p q 1)); try lra.
          -- assert (B : side c d (seg_x p q s) (seg_y p q s) < 0 <-> side c d (seg_x p q 1) (seg_y p q 1) < 0) by (split; apply SS; auto; lra).
             destruct (Rlt_dec 0 (turn c p q)), (Rlt_dec (side c d (seg_x p q 1) (seg_y p q 1)) 0); try reflexivity; exfalso; tauto.
          -- destruct (Ld ltac:(lra)) as (t & Ht & Ey' & Et).
             assert (B : side c d (seg_x p q s) (seg_y p q s) < 0 <-> side c d (seg_x p q t) (seg_y p q t) < 0) by (split; apply SS; auto; lra).
             destruct (Rlt_dec 0 (turn c p q)), (Rlt_dec 0 (turn d p q)); try reflexivity; exfalso; tauto.
        * destruct (Rlt_dec (rc 1 d) (seg_y p q 1)); [lra|]. destruct (Rle_dec (seg_y p q 0) (rc 1 d)); reflexivity.
      + destruct (Rlt_dec (rc 1 c) (seg_y p q 0)); [|lra]. destruct (Rlt_dec (rc 1 c) (seg_y p q 1)); [|lra].
        destruct (Rle_dec (seg_y p q 0) (rc 1 d)) as [P2|P2].
        * destruct (Rle_dec (seg_y p q 1) (rc 1 d)) as [Q2|Q2]; destruct (Rlt_dec (rc 1 d) (seg_y p q 1)); try lra.
          -- assert (B : side c d (seg_x p q 0) (seg_y p q 0) < 0 <-> side c d (seg_x p q 1) (seg_y p q 1) < 0) by (split; apply SS; auto; lra).
             destruct (Rlt_dec (side c d (seg_x p q 0) (seg_y p q 0)) 0), (Rlt_dec (side c d (seg_x p q 1) (seg_y p q 1)) 0); try reflexivity; exfalso; tauto.
          -- destruct (Ld ltac:(lra)) as (t & Ht & Ey' & Et).
             assert (B : side c d (seg_x p q 0) (seg_y p q 0) < 0 <-> side c d (seg_x p q t) (seg_y p q t) < 0) by (split; apply SS; auto; lra).
             destruct (Rlt_dec (side c d (seg_x p q 0) (seg_y p q 0)) 0), (Rlt_dec 0 (turn d p q)); try reflexivity; exfalso; tauto.
        * destruct (Rle_dec (seg_y p q 1) (rc 1 d)); [lra|reflexivity].
    - assert (Ei : forall v, ind c d v = 0%Z).
      { intros v. unfold ind. destruct (Rlt_dec (rc 1 c) (rc 1 v)); [|reflexivity]. destruct (Rle_dec (rc 1 v) (rc 1 d)); [lra|reflexivity]. }
      rewrite !Ei. rewrite <- Heq.
      destruct (Rle_dec (rc 1 p) (rc 1 c)) as [P1|P1]; [|reflexivity]. destruct (Rlt_dec (rc 1 c) (rc 1 q)) as [Q1|Q1]; [|reflexivity].
      destruct (reach p q (rc 1 c)) as (s & Hs & Ey & _); [lra|lra|].
      pose proof (cross_side c p q s Hpq Ey) as Kc. pose proof (cross_side d p q s Hpq (eq_trans Ey Heq)) as Kd.
      assert (B : rc 0 c < seg_x p q s <-> rc 0 d < seg_x p q s).
      { assert (N : forall a b, rc 1 a = rc 1 b -> rc 1 a = rc 1 c -> apart a b p q -> rc 0 a < seg_x p q s -> rc 0 b < seg_x p q s).
        { intros a b E1 E2 Ab H. apply Rnot_le_lt. intros N.
          apply (Ab [seg_x p q s; seg_y p q s]).
          - set (k := (seg_x p q s - rc 0 a) / (rc 0 b - rc 0 a)).
            assert (Ek : k * (rc 0 b - rc 0 a) = seg_x p q s - rc 0 a) by (unfold k; field; lra).
            exists k. rewrite rc0, rc1. split; [split; nra|]. split; [lra|]. rewrite Ey, <- E1, <- E2. ring.
          - exists s. rewrite rc0, rc1. split; [exact Hs|]. split; reflexivity. }
        split; apply N; auto; try lra. apply apart_rev, A. }
      destruct (Rlt_dec 0 (turn c p q)), (Rlt_dec 0 (turn d p q)); try reflexivity; exfalso; tauto.
  Qed.

  Lemma ind_level c d p q : apart c d p q -> rc 1 c <= rc 1 d -> rc 1 p = rc 1 q -> ind c d p = ind c d q.
  Proof.
    intros A Hcd E. unfold ind. rewrite <- E.
    destruct (Rlt_dec (rc 1 c) (rc 1 p)) as [P1|]; [|reflexivity]. destruct (Rle_dec (rc 1 p) (rc 1 d)) as [P2|]; [|reflexivity].
    assert (SS : forall s t, 0 <= s <= 1 -> 0 <= t <= 1 -> side c d (seg_x p q s) (seg_y p q s) < 0 -> side c d (seg_x p q t) (seg_y p q t) < 0).
    { intros s t Hs Ht. assert (Y : forall s, seg_y p q s = rc 1 p) by (intros r; unfold seg_y; rewrite <- E; ring).
      apply same_side; auto; rewrite ?Y; lra. }
    destruct (seg_0 p q) as (X0 & Y0). destruct (seg_1 p q) as (X1 & Y1).
    pose proof (SS 0 1 ltac:(lra) ltac:(lra)) as S1. pose proof (SS 1 0 ltac:(lra) ltac:(lra)) as S2.
    rewrite X0, Y0, X1, Y1, <- E in S1, S2.
    destruct (Rlt_dec (side c d (rc 0 p) (rc 1 p)) 0), (Rlt_dec (side c d (rc 0 q) (rc 1 p)) 0); try reflexivity; exfalso; tauto.
  Qed.

  Lemma flux c d p q : apart c d p q -> rc 1 c <= rc 1 d -> (step c p q - step d p q = ind c d q - ind c d p)%Z.
  Proof.
    intros A Hcd. destruct (Rtotal_order (rc 1 p) (rc 1 q)) as [H|[H|H]].
    - now apply flux_up.
    - rewrite !step_level by assumption. rewrite (ind_level c d p q A Hcd H). lia.
    - pose proof (flux_up c d q p (apart_swap _ _ _ _ A) Hcd H) as F. rewrite (step_anti eps maxv c p q), (step_anti eps maxv d p q) in F. lia.
  Qed.

  Lemma ind_same c d p q : rc 0 p = rc 0 q -> rc 1 p = rc 1 q -> ind c d p = ind c d q.
  Proof. intros E0 E1. unfold ind. now rewrite E0, E1. Qed.

  (** an edge without length does not count *)
  Definition stays (p q : list R) : Prop := rc 0 p = rc 0 q /\ rc 1 p = rc 1 q.
  Lemma path_flux c d l a : rc 1 c <= rc 1 d -> (forall l1 p q l2, a :: l = l1 ++ p :: q :: l2 -> stays p q \/ apart c d p q) ->
    (path c (a :: l) - path d (a :: l) = ind c d (last l a) - ind c d a)%Z.
  Proof.
    intros Hcd. revert a. induction l as [|b l IH]; intros a H; [cbn; lia|].
    change (path c (a :: b :: l)) with (step c a b + path c (b :: l))%Z. change (path d (a :: b :: l)) with (step d a b + path d (b :: l))%Z.
    assert (I := IH b).
    specialize (I (fun l1 p q l2 E => H (a :: l1) p q l2 (f_equal (cons a) E))).
    assert (F : (step c a b - step d a b = ind c d b - ind c d a)%Z).
    { destruct (H [] a b l eq_refl) as [(E0 & E1)|A].
      - rewrite !step_level by assumption. rewrite (ind_same c d a b E0 E1). lia.
      - exact (flux c d a b A Hcd). }
    assert (EL : last (b :: l) a = last l b). { clear. revert b. induction l as [|x l IH]; intros b; [reflexivity|]. cbn [last] in *. destruct l; [reflexivity|]. apply IH. }
    rewrite EL. lia.
  Qed.

  Lemma winding_avoids (vs : list (list R)) c d : (forall e, In e (edges vs) -> stays (fst e) (snd e) \/ apart c d (fst e) (snd e)) -> winding vs c = winding vs d.
  Proof.
    assert (G : forall c d, (forall e, In e (edges vs) -> stays (fst e) (snd e) \/ apart c d (fst e) (snd e)) -> rc 1 c <= rc 1 d -> winding vs c = winding vs d).
    { clear c d. intros c d A Hcd. destruct vs as [|h t]; [reflexivity|]. rewrite !(winding_path eps maxv).
      assert (P : forall l1 p q l2, h :: t ++ [h] = l1 ++ p :: q :: l2 -> stays p q \/ apart c d p q).
      { apply (proj1 (edges_In_path (fun p q => stays p q \/ apart c d p q) h t)). intros e He. apply (A e He). }
      pose proof (path_flux c d (t ++ [h]) h Hcd P) as F. rewrite last_last in F. lia. }
    intros A. destruct (Rle_lt_dec (rc 1 c) (rc 1 d)) as [H|H]; [now apply G|]. symmetry. apply G; [|lra].
    intros e He. destruct (A e He) as [S|S]; [now left|right; now apply apart_rev].
  Qed.

  Theorem winding_connected (vs : list (list R)) c d : avoids vs c d -> winding vs c = winding vs d.
  Proof. intros A. apply winding_avoids. intros e He. right. intros x. apply (A e x He). Qed.

  Theorem contains_connected (vs : list (list R)) c d : avoids vs c d -> polygon_contains vs c = polygon_contains vs d.
  Proof. intros A. unfold polygon_contains. now rewrite (winding_connected vs c d A). Qed.
End Real.
