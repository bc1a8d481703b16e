(** * Compound curves: claims that fail, with witnesses in binary64 *)
From Coq Require Import Floats.
From Verif Require Import Base Scalar KnotModel CurveModel CurveKnotModel SplitModel CompoundModel.

Section Float.
  Local Existing Instance FOps.
  Local Open Scope float_scope.

  (** the straight span from [a] to [b] over [0, 1] *)
  Definition seg (a b : float * float) : Curve float :=
    MkCurve 3 1 [[fst a; snd a; 1]; [fst b; snd b; 1]] [0; 0; 1; 1].
  Definition cseg0 := seg (0, 0) (1, 0).
  Definition cseg1 := seg (1, 0) (2, 1).
  Definition cseg2 := seg (2, 1) (4, 1).

  (** a connected chain given last span first: the first span of the chain is silently lost *)
  Theorem compound_new_drops_refuted :
    exists (a b c : Curve float) (r r' : list (Curve float)),
      span_ends a = Ok ([0; 0], [1; 0]) /\ span_ends b = Ok ([1; 0], [2; 1]) /\ span_ends c = Ok ([2; 1], [4; 1]) /\
      compound_new [a; b; c] = Ok r /\ length r = 3%nat /\
      compound_new [c; b; a] = Ok r' /\ length r' = 2%nat.
  Proof. exists cseg0, cseg1, cseg2. do 2 eexists. vm_compute. repeat split. Qed.

  (** a span ending where the last stored span starts is put between the last two: the stored
      spans are no longer connected *)
  Definition cseg3 := seg (1, 1) (1, 0).
  Theorem compound_new_disconnects_refuted :
    exists (a b c x y z : Curve float) (p q : list float),
      compound_new [a; b; c] = Ok [x; y; z] /\
      span_ends x = Ok ([0; 0], p) /\ span_ends y = Ok (q, [1; 0]) /\ p = [1; 0] /\ q = [1; 1].
  Proof. exists cseg0, cseg1, cseg3. do 5 eexists. vm_compute. repeat split. Qed.

  (** spans with unclamped knots: the domains leave a gap where the compound curve has no value *)
  Definition unclamped0 : Curve float := MkCurve 3 1 [[0; 0; 1]; [1; 0; 1]] [0; 1; 2; 3].
  Definition unclamped1 : Curve float := MkCurve 3 1 [[1; 0; 1]; [2; 1; 1]] [0; 1; 2; 3].
  Theorem compound_gap_refuted :
    exists (a b x y : Curve float),
      compound_new [a; b] = Ok [x; y] /\ knots_domain x = Ok (1, 2) /\ knots_domain y = Ok (4, 5) /\
      span_ends x = Ok ([0; 0], [1; 0]) /\ span_ends y = Ok ([1; 0], [2; 1]) /\
      compound_point_at [x; y] 3 = Ok None.
  Proof. exists unclamped0, unclamped1. do 2 eexists. vm_compute. repeat split. Qed.

  (** reversing does not lay the spans end to end again: the start of the domain is not the old end *)
  Theorem compound_invert_refuted :
    exists (a b x y : Curve float) (r : list (Curve float)),
      compound_new [a; b] = Ok [x; y] /\ compound_point_at [x; y] 2 = Ok (Some [2; 1]) /\
      compound_invert [x; y] = Ok r /\ compound_point_at r 0 = Ok (Some [1; 0]).
  Proof. exists cseg0, cseg1. do 3 eexists. vm_compute. repeat split. Qed.

  (** trimming up to a junction keeps the whole next span *)
  Theorem compound_trim_junction_refuted :
    exists (a b x y p q : Curve float),
      compound_new [a; b] = Ok [x; y] /\ knots_domain x = Ok (0, 1) /\ knots_domain y = Ok (1, 2) /\
      compound_trim [x; y] 0.5 1 = Ok [p; q] /\
      knots_domain p = Ok (0.5, 1) /\ knots_domain q = Ok (1, 2).
  Proof. exists cseg0, cseg1. do 4 eexists. vm_compute. repeat split. Qed.
End Float.
