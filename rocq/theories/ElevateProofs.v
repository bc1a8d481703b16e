(** * Degree elevation (C25): the no-op case, and how the function fails *)
From Coq Require Import Reals Lra Lia ZArith Floats Bool Sorted.
From Verif Require Import Base BaseFacts Scalar KnotModel MiscModel CurveModel ElevateModel.

Section Any.
  Context {T : Type} {SO : Scalar T}.

  (** asking for a degree that is not larger returns the curve unchanged *)
  Theorem elevate_noop (c : Curve T) t : t <= cdeg c -> try_elevate_degree c t = Ok c.
  Proof. intros H. unfold try_elevate_degree. now destruct (Nat.leb_spec t (cdeg c)); [|lia]. Qed.

  (** raising the degree by two or more panics, whatever the curve: [i - degree_inc] with [i = 1]
      underflows *)
  Lemma bezalfs_panics degree inc : 2 <= inc -> exists m, @bezalfs T SO degree inc = Panic m.
  Proof.
    intros Hi. unfold bezalfs.
    assert (A : exists bz, @set2e T (repeat (repeat szero (degree + 1)) (degree + inc + 1)) 0 0 sone = Ok bz
                /\ length bz = degree + inc + 1 /\ forall i, i < degree + inc + 1 -> length (nth i bz []) = degree + 1).
    { unfold set2e. rewrite (get_ok _ 0 []) by (rewrite repeat_length; lia). cbn [bind].
      rewrite nth_repeat_lt by lia. rewrite set_ok by (rewrite repeat_length; lia). cbn [bind].
      rewrite set_ok by (rewrite repeat_length; lia). eexists. split; [reflexivity|].
      split; [now rewrite upd_length, repeat_length|]. intros i Hl. destruct (Nat.eq_dec i 0) as [->|].
      - rewrite nth_upd_same by (rewrite repeat_length; lia). now rewrite upd_length, repeat_length.
      - rewrite nth_upd_other by lia. rewrite nth_repeat_lt by lia. apply repeat_length. }
    destruct A as (bz & -> & L & W). cbn [bind].
    assert (B : exists bz', @set2e T bz (degree + inc) degree sone = Ok bz').
    { unfold set2e. rewrite (get_ok _ _ []) by lia. cbn [bind]. rewrite set_ok by (rewrite W; lia). cbn [bind].
      rewrite set_ok by lia. eauto. }
    destruct B as (bz' & ->). cbn [bind]. unfold for_incl.
    assert (P : exists k, S ((degree + inc) / 2) - 1 = S k).
    { exists ((degree + inc) / 2 - 1). assert (1 <= (degree + inc) / 2) by (apply Nat.div_le_lower_bound; lia). lia. }
    destruct P as (k & ->). cbn [for_]. unfold bez_row1 at 1.
    destruct (bin_get (degree + inc) 1 []) as [b m]. unfold usub. destruct (Nat.leb_spec inc 1); [lia|].
    cbn [bind]. eauto.
  Qed.

  Theorem elevate_by_two_panics (c : Curve T) t : cdeg c + 2 <= t -> panics (try_elevate_degree c t).
  Proof.
    intros H. unfold try_elevate_degree. destruct (Nat.leb_spec t (cdeg c)); [lia|].
    unfold usub at 1. destruct (cdeg c <=? length (cknots c)); [|eexists; reflexivity]. cbn [bind].
    unfold usub at 1. destruct (2 <=? length (cknots c) - cdeg c); [|eexists; reflexivity]. cbn [bind].
    destruct (bezalfs_panics (cdeg c) (t - cdeg c) ltac:(lia)) as (m & ->). cbn [bind]. eexists. reflexivity.
  Qed.
End Any.

(** A line raised to degree two: three surplus control points of weight zero, three surplus zero
    knots, so the knot vector is not sorted and the domain has collapsed; evaluation inside the
    old domain fails. *)
Definition el_line : Curve float := MkCurve 3 1 [[0; 0; 1]; [2; 4; 1]]%float [0; 0; 1; 1]%float.
Local Existing Instance FOps.
Theorem elevate_degree_refuted :
  exists c c', c = el_line /\ point_at c 1%float = Ok [2; 4]%float /\
    try_elevate_degree c 2 = Ok c' /\
    cknots c' = [0; 0; 0; 1; 1; 1; 0; 0; 0]%float /\
    length (cpts c') = 6 /\ nth 5 (cpts c') [] = [0; 0; 0]%float /\
    knots_domain c = Ok (0, 1)%float /\ knots_domain c' = Ok (0, 0)%float /\
    point_at c' 1%float <> point_at c 1%float.
Proof.
  exists el_line. eexists. repeat apply conj; try reflexivity. vm_compute. discriminate.
Qed.

(** Five spans: the result array is too small. *)
Theorem elevate_degree_spans_refuted :
  exists c : Curve float, length (cpts c) = 7 /\
    is_ok (try_new 3 2 (cpts c) (cknots c)) /\ panics (try_elevate_degree c 3).
Proof.
  exists (MkCurve 3 2 [[0;0;1];[2;4;1];[3;1;1];[4;3;1];[6;2;1];[7;0;1];[9;0;1]] [0;0;0;1;2;3;4;5;5;5])%float.
  split; [reflexivity|]. split; [vm_compute; eexists; reflexivity|]. vm_compute. eexists. reflexivity.
Qed.

(** Even where the array sizes happen to fit (four spans), a cubic changes shape: the point at the
    middle of the domain moves from about (4.17, 2.5) to (6.5, 0.875). *)
Definition el_cubic : Curve float :=
  MkCurve 3 3 [[0;0;1];[2;4;1];[3;1;1];[4;3;1];[6;2;1];[7;0;1];[9;0;1]]%float [0;0;0;0;1;2;3;4;4;4;4]%float.
Theorem elevate_degree_shape_refuted :
  exists c', try_elevate_degree el_cubic 4 = Ok c' /\
    cknots c' = [0; 0; 0; 0; 0; 1; 1; 2; 2; 3; 3; 4; 4; 4; 4; 4]%float /\
    cpts c' = [[0; 0; 1]; [1.5; 3; 1]; [2.25; 3.25; 1]; [3.5; 1.9999999999999998; 1]; [5; 2.5; 1]; [6.75; 0.5; 1]; [7.5; 0; 1]; [9; 0; 1];
      [0; 0; 0]; [0; 0; 0]; [0; 0; 0]]%float /\
    point_at c' 2%float = Ok [6.5; 0.875]%float /\
    exists p, point_at el_cubic 2%float = Ok p /\ (coord 0 p <? 4.25)%float = true.
Proof.
  eexists. repeat apply conj; try (vm_compute; reflexivity). eexists. split; vm_compute; reflexivity.
Qed.
