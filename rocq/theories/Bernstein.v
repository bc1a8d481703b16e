(** * A single knot span: the basis functions are the Bernstein polynomials *)
From Coq Require Import Reals Lra Lia List ZArith Sorted.
From Verif Require Import Base BaseFacts Scalar RSum BSplineSpec BSpline KnotModel KnotFacts KnotSpec VecFacts MiscModel MiscProofs CurveModel CurveSpec CurveProofs CurveGeom CurveGeom2 NewtonProofs.
Import ListNotations.
Open Scope R_scope.

(** the Bernstein polynomial of degree [p] *)
Definition bernstein (p j : nat) (t : R) : R := INR (pascal p j) * t ^ j * (1 - t) ^ (p - j).
(** knots of a single span *)
Definition bezier_knots (p : nat) (a b : R) : list R := repeat a (S p) ++ repeat b (S p).

Lemma bernstein_S q i t : (i <= q)%nat -> bernstein (S q) (S i) t = t * bernstein q i t + (1 - t) * bernstein q (S i) t.
Proof.
  intros Hi. unfold bernstein. cbn [pascal]. rewrite plus_INR. destruct (Nat.eq_dec i q) as [->|Hn].
  - rewrite (pascal_big q (S q)) by lia. replace (S q - S q)%nat with 0%nat by lia. replace (q - q)%nat with 0%nat by lia. cbn [pow INR]. ring.
  - replace (S q - S i)%nat with (q - i)%nat by lia. replace (q - i)%nat with (S (q - S i)) by lia. cbn [pow]. ring.
Qed.
Lemma bernstein_S0 q t : bernstein (S q) 0 t = (1 - t) * bernstein q 0 t.
Proof. unfold bernstein. rewrite !pascal_0, !Nat.sub_0_r. cbn [pow]. ring. Qed.

(** raising the degree of a Bernstein polynomial *)
Lemma bernstein_up p j t : (j <= p)%nat ->
  INR (S p) * bernstein p j t = INR (S j) * bernstein (S p) (S j) t + INR (S p - j) * bernstein (S p) j t.
Proof.
  intros Hj. unfold bernstein.
  assert (A : (S j * pascal (S p) (S j) = S p * pascal p j)%nat).
  { cbn [pascal]. pose proof (pascal_step p j) as H. rewrite Nat.mul_add_distr_l, H. nia. }
  assert (B : ((S p - j) * pascal (S p) j = S p * pascal p j)%nat).
  { destruct j as [|j]; [rewrite !pascal_0; lia|]. cbn [pascal]. pose proof (pascal_step p j) as H.
    replace (S p - S j)%nat with (p - j)%nat by lia. rewrite Nat.mul_add_distr_l, <- H. nia. }
  rewrite <- !Rmult_assoc. rewrite <- !mult_INR. rewrite A, B. replace (S p - S j)%nat with (p - j)%nat by lia.
  replace (S p - j)%nat with (S (p - j)) by lia. cbn [pow]. ring.
Qed.

(** ** The basis functions of a span between two full knots *)
Section Span.
  Variables (k : nat -> R) (s p : nat) (a b : R).
  Hypothesis Hab : a < b.
  Hypothesis Hl : forall j, (s - p < j <= s)%nat -> k j = a.
  Hypothesis Hr : forall j, (s < j <= s + p)%nat -> k j = b.

  Lemma bs_bernstein q u : (q <= p)%nat -> (q <= s)%nat -> forall i, (i <= q)%nat -> bs k s q (s - q + i) u = bernstein q i ((u - a) / (b - a)).
  Proof.
    set (t := (u - a) / (b - a)). assert (Et : (b - u) / (b - a) = 1 - t) by (unfold t; field; lra).
    induction q as [|q IH]; intros Hp Hs i Hi.
    - assert (i = 0)%nat as -> by lia. rewrite bs_0. replace (s - 0 + 0)%nat with s by lia. rewrite Nat.eqb_refl. unfold bernstein. cbn. ring.
    - rewrite bs_S. specialize (IH ltac:(lia) ltac:(lia)).
      assert (WL : (1 <= i)%nat -> wl k (S q) (s - S q + i) u = t).
      { intros H1. unfold wl, quot0. rewrite (Hl (s - S q + i)) by lia. rewrite (Hr (s - S q + i + S q)) by lia. destruct (Req_EM_T (b - a) 0); [lra|reflexivity]. }
      assert (WR : (i <= q)%nat -> wr k (S q) (s - S q + i) u = 1 - t).
      { intros H1. unfold wr, quot0. rewrite (Hl (s - S q + i + 1)) by lia. rewrite (Hr (s - S q + i + S q + 1)) by lia. destruct (Req_EM_T (b - a) 0); [lra|exact Et]. }
      destruct i as [|i].
      + rewrite (bs_support k s q (s - S q + 0)) by lia. rewrite WR by lia. replace (s - S q + 0 + 1)%nat with (s - q + 0)%nat by lia. rewrite IH by lia.
        rewrite bernstein_S0. ring.
      + rewrite WL by lia. replace (s - S q + S i)%nat with (s - q + i)%nat by lia. rewrite IH by lia. rewrite bernstein_S by lia.
        destruct (Nat.eq_dec i q) as [->|Hn].
        * rewrite (bs_support k s q (s - q + q + 1)) by lia. assert (Z : bernstein q (S q) t = 0) by (unfold bernstein; rewrite pascal_big by lia; cbn [INR]; ring). rewrite Z. ring.
        * replace (s - q + i)%nat with (s - S q + S i)%nat by lia. rewrite WR by lia. replace (s - S q + S i + 1)%nat with (s - q + S i)%nat by lia. rewrite IH by lia. reflexivity.
  Qed.
End Span.

Lemma bezier_kf p a b j : kf (bezier_knots p a b) j = if (j <=? p)%nat then a else b.
Proof.
  unfold kf, bezier_knots. assert (N : forall n (x : R) d m, (m < n)%nat -> nth m (repeat x n) d = x).
  { induction n as [|n IH]; intros x d m Hm; [lia|]. destruct m as [|m]; [reflexivity|]. cbn [repeat nth]. apply IH. lia. }
  destruct (Nat.leb_spec j p) as [H|H].
  - destruct (Nat.lt_ge_cases j (length (repeat a (S p) ++ repeat b (S p)))) as [H1|H1]; [|rewrite app_length, !repeat_length in H1; lia].
    rewrite app_nth1 by (rewrite repeat_length; lia). apply N. lia.
  - assert (L : last (repeat a (S p) ++ repeat b (S p)) 0 = b).
    { change (repeat b (S p)) with (b :: repeat b p). rewrite repeat_cons, app_assoc, last_last. reflexivity. }
    rewrite app_nth2 by (rewrite repeat_length; lia). rewrite repeat_length.
    destruct (Nat.lt_ge_cases (j - S p) (S p)) as [H1|H1]; [apply N; lia|]. rewrite nth_overflow by (rewrite repeat_length; lia). exact L.
Qed.
Lemma bezier_mono p a b : a <= b -> mono (kf (bezier_knots p a b)).
Proof. intros H i. rewrite !bezier_kf. destruct (Nat.leb_spec i p), (Nat.leb_spec (S i) p); try lra; lia. Qed.

Lemma cox_bezier p a b j u : a < b -> a <= u <= b -> (j <= p)%nat -> cox_closed (kf (bezier_knots p a b)) b p j u = bernstein p j ((u - a) / (b - a)).
Proof.
  intros Hab Hu Hj. rewrite (cox_closed_bs _ _ p p).
  - rewrite <- (bs_bernstein (kf (bezier_knots p a b)) p p a b Hab) with (u := u); try lia.
    + f_equal. lia.
    + intros i Hi. rewrite bezier_kf. destruct (Nat.leb_spec i p); [reflexivity|lia].
    + intros i Hi. rewrite bezier_kf. destruct (Nat.leb_spec i p); [lia|reflexivity].
  - apply bezier_mono. lra.
  - rewrite !bezier_kf. destruct (Nat.leb_spec p p), (Nat.leb_spec (S p) p); try lia; lra.
  - rewrite bezier_kf. destruct (Nat.leb_spec p p); [lra|lia].
  - rewrite bezier_kf. destruct (Nat.leb_spec (S p) p); [lia|reflexivity].
  - lia.
  - rewrite bezier_kf. destruct (Nat.leb_spec (S p) p); [lia|]. destruct (Rlt_le_dec u b); [left; lra|right; split; [reflexivity|lra]].
Qed.
