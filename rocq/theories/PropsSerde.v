(** * Properties of serialised documents

    Only statements: each theorem is proved elsewhere; its statement is repeated here, followed by
    a concrete case that meets its hypotheses. *)
From Coq Require Import String Permutation Lia List.
From Coq Require Import Floats.
From Verif Require Import Base BaseFacts Scalar CurveModel SurfaceModel ClipModel SerdeModel SerdeProofs SerdeMain.
Local Open Scope string_scope. Local Open Scope list_scope.

(** the demonstration values *)
Definition serde_curve (d : nat) : Curve float := MkCurve 3 d [[0; 0; 1]; [1; 2; 1]; [3; 1; 1]]%float [0; 0; 0; 1; 1; 1]%float.
Definition serde_surface : Surf float := MkSurf 4 1 1 [0; 0; 1; 1]%float [0; 0; 1; 1]%float
  [[[0; 0; 0; 1]; [0; 1; 0; 1]]; [[1; 0; 0; 1]; [1; 1; 0; 1]]]%float.


Section C53_curve_round_trip_statement.
  Context {T : Type} {SO : Scalar T}.
  Local Notation V := (Val T).
  Theorem C53_curve_round_trip : forall D c,
    curve_typed D c -> dec_curve D (enc_curve c) = Ok c.
  Proof. exact curve_round_trip. Qed.
End C53_curve_round_trip_statement.
Section C53_case_curve_section.
  Local Existing Instance FOps.
  Example C53_case_curve : curve_typed 3 (serde_curve 2).
  Proof. repeat split; repeat (apply Forall_cons || apply Forall_nil || split || reflexivity). Qed.
End C53_case_curve_section.
Print Assumptions C53_curve_round_trip.

Section C53_surface_round_trip_statement.
  Context {T : Type} {SO : Scalar T}.
  Local Notation V := (Val T).
  Theorem C53_surface_round_trip : forall D s,
    surface_typed D s -> dec_surface D (enc_surface s) = Ok s.
  Proof. exact surface_round_trip. Qed.
End C53_surface_round_trip_statement.
Section C53_case_surface_section.
  Local Existing Instance FOps.
  Example C53_case_surface : surface_typed 4 serde_surface.
  Proof. repeat split; repeat (apply Forall_cons || apply Forall_nil || split || reflexivity). Qed.
End C53_case_surface_section.
Print Assumptions C53_surface_round_trip.

Section C53_compound_round_trip_statement.
  Context {T : Type} {SO : Scalar T}.
  Local Notation V := (Val T).
  Theorem C53_compound_round_trip : forall D l,
    Forall (curve_typed D) l -> dec_compound D (enc_compound l) = Ok l.
  Proof. exact compound_round_trip. Qed.
End C53_compound_round_trip_statement.
Section C53_case_compound_section.
  Local Existing Instance FOps.
  Example C53_case_compound : Forall (curve_typed 3) [serde_curve 2; serde_curve 2].
  Proof. repeat split; repeat (apply Forall_cons || apply Forall_nil || split || reflexivity). Qed.
End C53_case_compound_section.
Print Assumptions C53_compound_round_trip.

Section C53_region_round_trip_statement.
  Context {T : Type} {SO : Scalar T}.
  Local Notation V := (Val T).
  Theorem C53_region_round_trip : forall r,
    Forall (curve_typed 3) (rexterior r) -> Forall (Forall (curve_typed 3)) (rinteriors r) ->
    dec_region (enc_region r) = Ok r.
  Proof. exact region_round_trip. Qed.
End C53_region_round_trip_statement.
Section C53_case_region_section.
  Local Existing Instance FOps.
  Example C53_case_region : Forall (curve_typed 3) [serde_curve 2] /\ Forall (Forall (curve_typed 3)) [[serde_curve 2]; []].
  Proof. repeat split; repeat (apply Forall_cons || apply Forall_nil || split || reflexivity). Qed.
End C53_case_region_section.
Print Assumptions C53_region_round_trip.

Section C53_trimmed_round_trip_statement.
  Context {T : Type} {SO : Scalar T}.
  Local Notation V := (Val T).
  Theorem C53_trimmed_round_trip : forall t,
    surface_typed 4 (tr_surface t) -> (forall c, tr_exterior t = Some c -> curve_typed 3 c) -> Forall (curve_typed 3) (tr_interiors t) ->
    dec_trimmed (enc_trimmed t) = Ok t.
  Proof. exact trimmed_round_trip. Qed.
End C53_trimmed_round_trip_statement.
Section C53_case_trimmed_section.
  Local Existing Instance FOps.
  Example C53_case_trimmed : surface_typed 4 serde_surface /\ (forall c, Some (serde_curve 2) = Some c -> curve_typed 3 c) /\ Forall (curve_typed 3) [serde_curve 2].
  Proof. split; [|split; [intros c H; injection H as <-|]]; repeat split; repeat (apply Forall_cons || apply Forall_nil || split || reflexivity). Qed.
End C53_case_trimmed_section.
Print Assumptions C53_trimmed_round_trip.

Section C53_curve_read_iff_statement.
  Context {T : Type} {SO : Scalar T}.
  Local Notation V := (Val T).
  Theorem C53_curve_read_iff : forall D v c,
    dec_curve D v = Ok c <-> curve_doc D v c.
  Proof. exact curve_read_iff. Qed.
End C53_curve_read_iff_statement.
Section C53_case_curve_doc_section.
  Local Existing Instance FOps.
  Example C53_case_curve_doc : dec_curve 3 (VObj [("knots", VArr [VInt 0; VNum 1%float]); ("control_points", VArr []); ("degree", VInt 1)]) = Ok (MkCurve 3 1 [] [0; 1]%float).
  Proof. vm_compute; reflexivity. Qed.
End C53_case_curve_doc_section.
Print Assumptions C53_curve_read_iff.

Section C53_surface_read_iff_statement.
  Context {T : Type} {SO : Scalar T}.
  Local Notation V := (Val T).
  Theorem C53_surface_read_iff : forall D v s,
    dec_surface D v = Ok s <-> surface_doc D v s.
  Proof. exact surface_read_iff. Qed.
End C53_surface_read_iff_statement.
Section C53_case_surface_doc_section.
  Local Existing Instance FOps.
  Example C53_case_surface_doc : dec_surface 4 (enc_surface serde_surface) = Ok serde_surface.
  Proof. vm_compute; reflexivity. Qed.
End C53_case_surface_doc_section.
Print Assumptions C53_surface_read_iff.

Section C53_compound_read_iff_statement.
  Context {T : Type} {SO : Scalar T}.
  Local Notation V := (Val T).
  Theorem C53_compound_read_iff : forall D v spans,
    dec_compound D v = Ok spans <-> compound_doc D v spans.
  Proof. exact compound_read_iff. Qed.
End C53_compound_read_iff_statement.
Section C53_case_compound_doc_section.
  Local Existing Instance FOps.
  Example C53_case_compound_doc : dec_compound 3 (enc_compound [serde_curve 2]) = Ok [serde_curve 2].
  Proof. vm_compute; reflexivity. Qed.
End C53_case_compound_doc_section.
Print Assumptions C53_compound_read_iff.

Section C53_region_read_iff_statement.
  Context {T : Type} {SO : Scalar T}.
  Local Notation V := (Val T).
  Theorem C53_region_read_iff : forall v r,
    dec_region v = Ok r <-> region_doc v r.
  Proof. exact region_read_iff. Qed.
End C53_region_read_iff_statement.
Section C53_case_region_doc_section.
  Local Existing Instance FOps.
  Example C53_case_region_doc : dec_region (VObj [("note", VNull); ("interiors", VArr []); ("exterior", enc_compound [serde_curve 2])]) = Ok (MkRegion [serde_curve 2] []).
  Proof. vm_compute; reflexivity. Qed.
End C53_case_region_doc_section.
Print Assumptions C53_region_read_iff.

Section C53_trimmed_read_iff_statement.
  Context {T : Type} {SO : Scalar T}.
  Local Notation V := (Val T).
  Theorem C53_trimmed_read_iff : forall (v : V) t,
    dec_trimmed v = Ok t <-> trimmed_doc v t.
  Proof. exact trimmed_read_iff. Qed.
End C53_trimmed_read_iff_statement.
Section C53_case_trimmed_doc_section.
  Local Existing Instance FOps.
  Example C53_case_trimmed_doc : dec_trimmed (VObj [("exterior", VNull); ("interiors", VArr []); ("surface", enc_surface serde_surface); ("exterior", enc_curve (serde_curve 2))]) = Ok (MkTrimmed serde_surface (Some (serde_curve 2)) []).
  Proof. vm_compute; reflexivity. Qed.
End C53_case_trimmed_doc_section.
Print Assumptions C53_trimmed_read_iff.

Section C53_curve_field_order_statement.
  Context {T : Type} {SO : Scalar T}.
  Local Notation V := (Val T).
  Theorem C53_curve_field_order : forall D (kv kv' : list (string * V)),
    Permutation kv kv' ->
    forall c, dec_curve D (VObj kv) = Ok c -> dec_curve D (VObj kv') = Ok c.
  Proof. exact curve_field_order. Qed.
End C53_curve_field_order_statement.
Example C53_case_order : Permutation [("degree", 1); ("knots", 2); ("control_points", 3)] [("control_points", 3); ("degree", 1); ("knots", 2)].
Proof. apply Permutation_sym, (Permutation_cons_app [("degree", 1); ("knots", 2)] [] ("control_points", 3)), Permutation_refl. Qed.
Print Assumptions C53_curve_field_order.

Section C53_surface_field_order_statement.
  Context {T : Type} {SO : Scalar T}.
  Local Notation V := (Val T).
  Theorem C53_surface_field_order : forall D (kv kv' : list (string * V)),
    Permutation kv kv' ->
    forall s, dec_surface D (VObj kv) = Ok s -> dec_surface D (VObj kv') = Ok s.
  Proof. exact surface_field_order. Qed.
End C53_surface_field_order_statement.
Print Assumptions C53_surface_field_order.

Section C53_trimmed_field_order_statement.
  Context {T : Type} {SO : Scalar T}.
  Local Notation V := (Val T).
  Theorem C53_trimmed_field_order : forall (kv kv' : list (string * V)),
    Permutation kv kv' ->
    (length (filter (fun p => String.eqb (fst p) "exterior") kv) <= 1)%nat ->
    forall t, dec_trimmed (VObj kv) = Ok t -> dec_trimmed (VObj kv') = Ok t.
  Proof. exact trimmed_field_order. Qed.
End C53_trimmed_field_order_statement.
Print Assumptions C53_trimmed_field_order.

Section C53_reading_total_statement.
  Context {T : Type} {SO : Scalar T}.
  Local Notation V := (Val T).
  Theorem C53_reading_total : forall D (v : V),
    plain (dec_curve D v) /\ plain (dec_surface D v) /\ plain (dec_compound D v) /\ plain (dec_region v) /\ plain (dec_trimmed v).
  Proof. exact reading_total. Qed.
End C53_reading_total_statement.
Print Assumptions C53_reading_total.

Section C53_curve_not_validated_refuted_statement.
  Local Existing Instance FOps.
  Local Open Scope float_scope.
  Theorem C53_curve_not_validated_refuted : exists (v : Val float) c, dec_curve 3 v = Ok c /\ errs (try_new 3 (cdeg c) (cpts c) (cknots c)) /\ panics (point_at c 0).
  Proof. exact curve_not_validated_refuted. Qed.
End C53_curve_not_validated_refuted_statement.
Print Assumptions C53_curve_not_validated_refuted.

Section C53_curve_knots_not_sorted_refuted_statement.
  Local Existing Instance FOps.
  Local Open Scope float_scope.
  Theorem C53_curve_knots_not_sorted_refuted : exists (v : Val float) c c', dec_curve 2 v = Ok c /\ try_new 2 (cdeg c) (cpts c) (cknots c) = Ok c' /\ cknots c' <> cknots c.
  Proof. exact curve_knots_not_sorted_refuted. Qed.
End C53_curve_knots_not_sorted_refuted_statement.
Print Assumptions C53_curve_knots_not_sorted_refuted.

Section C53_trimmed_bad_exterior_refuted_statement.
  Local Existing Instance FOps.
  Local Open Scope float_scope.
  Theorem C53_trimmed_bad_exterior_refuted : exists (vs ve : Val float) t, (forall c, dec_curve 3 ve <> Ok c) /\ ve <> VNull /\
    dec_trimmed (VObj [("surface", vs); ("exterior", ve); ("interiors", VArr [])]) = Ok t /\ tr_exterior t = None.
  Proof. exact trimmed_bad_exterior_refuted. Qed.
End C53_trimmed_bad_exterior_refuted_statement.
Print Assumptions C53_trimmed_bad_exterior_refuted.
