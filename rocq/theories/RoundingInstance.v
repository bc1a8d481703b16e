(** * Round-to-nearest with 53 (24) bits is a rounding function in the sense of [Rounding] *)
From Coq Require Import Reals Lra Lia ZArith.
From Flocq Require Import Core Relative.
From Verif Require Import Rounding.
Open Scope R_scope.

(** round to nearest, ties to even, [prec] bits, unbounded exponent *)
Definition nearest (prec : Z) : R -> R := round radix2 (FLX_exp prec) ZnearestE.
Definition unit_roundoff (prec : Z) : R := / 2 * bpow radix2 (- prec + 1).

Theorem nearest_rounding prec : (1 < prec)%Z -> rounding (unit_roundoff prec) (nearest prec).
Proof.
  intros H. assert (P : Prec_gt_0 prec) by (red; lia).
  constructor.
  - unfold unit_roundoff. pose proof (bpow_gt_0 radix2 (- prec + 1)).
    assert (bpow radix2 (- prec + 1) < bpow radix2 0) by (apply bpow_lt; lia). change (bpow radix2 0) with 1 in *. lra.
  - intros x. unfold nearest, unit_roundoff. apply (relative_error_N_FLX radix2 prec P).
  - intros x y Hxy. unfold nearest. now apply round_le; [apply FLX_exp_valid|apply valid_rnd_N|].
Qed.

Theorem double_rounding : rounding (/ 2 * bpow radix2 (-52)) (nearest 53).
Proof. apply (nearest_rounding 53). lia. Qed.
Theorem single_rounding : rounding (/ 2 * bpow radix2 (-23)) (nearest 24).
Proof. apply (nearest_rounding 24). lia. Qed.
