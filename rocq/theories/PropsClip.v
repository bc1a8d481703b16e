(** * Properties of the boolean operations

    Only statements: each theorem is proved elsewhere; its statement is repeated here, followed by
    a concrete case that meets its hypotheses. *)
From Coq Require Import Floats.
From Coq Require Import Reals Lra Lia ZArith Permutation.
From Verif Require Import Base BaseFacts Scalar KnotFacts ClipModel ClipSpec ClipProofs ClipBuild RegionModel RegionProofs
  ClipMain ClipReal ClipRefuted RegionUnion.
Import Disc.
Local Open Scope nat_scope.

Section C42_clip_no_crossing_statement.
  Context {T : Type} {SO : Scalar T}.
  Context {C CC : Type}.
  Variable trim : bool -> T -> T -> Res (list C).
  Variable mk_compound : list C -> Res CC.
  Variable P : Type.
  Variable inside : CC -> P -> Prop.
  Theorem C42_clip_no_crossing : forall subject clip_ op ca cb fs fc (l : list ((T * T) * Degeneracy T)),
    clip_select l = Ok [] ->
    (ca = true <-> inside clip_ fs) -> (cb = true <-> inside subject fc) ->
    (inside subject fc /\ ~ inside clip_ fs /\ subset inside clip_ subject \/
    ~ inside subject fc /\ inside clip_ fs /\ subset inside subject clip_ \/
    ~ inside subject fc /\ ~ inside clip_ fs /\ curves_disjoint inside subject clip_) ->
    exists rs, clip trim mk_compound subject clip_ op (Ok ca) (Ok cb) l = Ok rs /\
    forall p, covers inside rs p <-> set_op op (inside subject p) (inside clip_ p).
  Proof. exact (clip_no_crossing trim mk_compound P inside). Qed.
End C42_clip_no_crossing_statement.
Example C42_case : (clip_select (SO := FOps) (@nil ((float * float) * Degeneracy float)) = Ok []) /\ containsb (MkDisc 0 0 10) (first_point (MkDisc 1 0 2)) = true /\ containsb (MkDisc 1 0 2) (first_point (MkDisc 0 0 10)) = false.
Proof. now vm_compute. Qed.
Print Assumptions C42_clip_no_crossing.

Theorem C42_clip_identical_refuted : forall op d, (0 <= dr d)%Z -> errs (cbool op d d).
Proof. exact (@clip_identical_refuted). Qed.
Print Assumptions C42_clip_identical_refuted.

Section C43_clip_select_spec_statement.
  Context {T : Type} {SO : Scalar T}.
  Theorem C43_clip_select_spec : forall {X} (l : list (X * Degeneracy T)) sel,
    clip_select l = Ok sel ->
    Nat.even (length sel) = true /\
    exists extra, sel = map fst (filter is_regular l) ++ extra /\
    (extra = [] \/ exists m d, extra = [m] /\ In (m, d) l /\ d <> DNone /\
    Nat.even (length (filter is_regular l)) = false).
  Proof. exact (@clip_select_spec T SO). Qed.
End C43_clip_select_spec_statement.
Example C43_case_select : clip_select (SO := FOps) [(0%nat, DNone); (1%nat, DAngle 0.75%float); (2%nat, DAngle 0.875%float); (3%nat, DLine)] = Ok [0%nat; 3%nat].
Proof. vm_compute; reflexivity. Qed.
Print Assumptions C43_clip_select_spec.

Section C43_clip_select_fails_statement.
  Context {T : Type} {SO : Scalar T}.
  Theorem C43_clip_select_fails : forall {X} (l : list (X * Degeneracy T)),
    errs (clip_select l) ->
    Nat.odd (length l) = true /\ forall x d, In (x, d) l -> d = DNone.
  Proof. exact (@clip_select_fails T SO). Qed.
End C43_clip_select_fails_statement.
Print Assumptions C43_clip_select_fails.

Section C43_clip_walk_statement.
  Context {T : Type} {SO : Scalar T}.
  Context {C CC : Type}.
  Variable trim : bool -> T -> T -> Res (list C).
  Variable mk_compound : list C -> Res CC.
  Theorem C43_clip_walk : forall subject clip_ op ca cb (l : list ((T * T) * Degeneracy T)) sel d,
    clip_select l = Ok sel -> sel <> [] -> comparable sel ->
    exists oa ob loops,
    Permutation oa (seq 0 (length sel)) /\ Permutation ob (seq 0 (length sel)) /\
    Forall (closed_loop (length sel) oa ob) loops /\
    Permutation (map (fun s => (sgside s, sgpos s)) (concat loops))
    (kept_segments (length sel) op true ca ++ kept_segments (length sel) op false cb) /\
    clip trim mk_compound subject clip_ op (Ok ca) (Ok cb) l
    = assemble (length sel) (fun s k => crossing_param sel d s (crossing oa ob s k))
    trim mk_compound loops [].
  Proof. exact (clip_walk trim mk_compound). Qed.
End C43_clip_walk_statement.
Example C43_case : (clip_select (SO := FOps) Ring.crossings = Ok (map fst Ring.crossings) /\ comparable (SO := FOps) (map fst Ring.crossings))%type.
Proof. split; [vm_compute; reflexivity|]; intros x Hx; cbn in Hx; intuition; subst; vm_compute; reflexivity. Qed.
Print Assumptions C43_clip_walk.

Section C43_clip_total_statement.
  Context {T : Type} {SO : Scalar T}.
  Context {C CC : Type}.
  Variable trim : bool -> T -> T -> Res (list C).
  Variable mk_compound : list C -> Res CC.
  Theorem C43_clip_total : forall subject clip_ op ca cb (l : list ((T * T) * Degeneracy T)) sel,
    clip_select l = Ok sel -> sel <> [] -> comparable sel ->
    (forall s a b, exists l, trim s a b = Ok l /\ l <> []) ->
    (forall l, exists c, mk_compound l = Ok c) ->
    exists rs, clip trim mk_compound subject clip_ op (Ok ca) (Ok cb) l = Ok rs /\ rs <> [] /\
    forall r, In r rs -> rinteriors r = [].
  Proof. exact (clip_total trim mk_compound). Qed.
End C43_clip_total_statement.
Example C43_case_total : is_ok (Ring.run Intersection) /\ is_ok (Ring.run Difference).
Proof. split; vm_compute; eexists; reflexivity. Qed.
Print Assumptions C43_clip_total.

Section C43_clip_walk_ordered_statement.
  Open Scope R_scope.
  Variables eps maxv : R.
  Local Hint Extern 0 (Scalar R) => exact (ROps eps maxv) : typeclass_instances.
  Context {C CC : Type}.
  Variable trim : bool -> R -> R -> Res (list C).
  Variable mk_compound : list C -> Res CC.
  Theorem C43_clip_walk_ordered : forall subject clip_ op ca cb (l : list ((R * R) * Degeneracy R)) sel,
    clip_select l = Ok sel -> sel <> [] ->
    exists oa ob loops,
    let par := fun s k => crossing_param sel (0, 0) s (crossing oa ob s k) in
    Permutation oa (seq 0 (length sel)) /\ Permutation ob (seq 0 (length sel)) /\
    (forall s i j, (i < j < length sel)%nat -> par s i <= par s j) /\
    Forall (closed_loop (length sel) oa ob) loops /\
    Permutation (map (fun s => (sgside s, sgpos s)) (concat loops))
    (kept_segments (length sel) op true ca ++ kept_segments (length sel) op false cb) /\
    clip trim mk_compound subject clip_ op (Ok ca) (Ok cb) l
    = assemble (length sel) par trim mk_compound loops [].
  Proof. exact (clip_walk_ordered eps maxv trim mk_compound). Qed.
End C43_clip_walk_ordered_statement.
Print Assumptions C43_clip_walk_ordered.

(** a region of intervals with two holes, and another one *)
Definition iv_r : Region Ival.Ival := MkRegion (0, 100)%Z [(10, 20)%Z; (30, 40)%Z].
Definition iv_s : Region Ival.Ival := MkRegion (15, 60)%Z [(18, 33)%Z].
Lemma iv_r_ok : RegionProofs.region_ok Ival.inside Ival.F iv_r.
Proof.
  constructor; unfold Ival.F, subset, curves_disjoint, Ival.inside; cbn; [lia| |].
  - intros h [<-|[<-|[]]]; cbn; split; intros; lia.
  - intros h h' [<-|[<-|[]]] [<-|[<-|[]]]; cbn; auto; right; intros p Hp; lia.
Qed.
Lemma iv_s_ok : RegionProofs.region_ok Ival.inside Ival.F iv_s.
Proof.
  constructor; unfold Ival.F, subset, curves_disjoint, Ival.inside; cbn; [lia| |].
  - intros h [<-|[]]; cbn; split; intros; lia.
  - intros h h' [<-|[]] [<-|[]]; now left.
Qed.


Section C44_region_difference_correct_statement.
  Context {CC P : Type}.
  Variable cbool : BooleanOperation -> CC -> CC -> Res (list (Region CC)).
  Variable contains : CC -> P -> Res bool.
  Variable first_point : CC -> P.
  Variable inside : CC -> P -> Prop.
  Variable F : CC -> Prop.
  Variable cb : CC -> CC -> bool.
  Hypothesis HA : curve_algebra cbool contains first_point inside F cb.
  Local Notation in_region := (in_region inside).
  Local Notation covers := (covers inside).
  Local Notation disjoint := (curves_disjoint inside).
  Local Notation subset := (subset inside).
  Local Notation region_ok := (region_ok inside F).
  Theorem C44_region_difference_correct : forall self other,
    region_ok self -> F other ->
    exists rs, region_difference cbool contains first_point self other = Ok rs /\
    forall p, covers rs p <-> set_op Difference (in_region self p) (inside other p).
  Proof. exact (region_difference_correct cbool contains first_point inside F cb HA). Qed.
End C44_region_difference_correct_statement.
Example C44_case : curve_algebra Ival.cbool Ival.contains fst Ival.inside Ival.F Ival.cb /\ RegionProofs.region_ok Ival.inside Ival.F iv_r /\ Ival.F (15, 35)%Z.
Proof. split; [exact Ival.algebra|]; split; [exact iv_r_ok|unfold Ival.F; cbn; lia]. Qed.
Print Assumptions C44_region_difference_correct.

Section C44_region_union_correct_statement.
  Context {CC P : Type}.
  Variable cbool : BooleanOperation -> CC -> CC -> Res (list (Region CC)).
  Variable contains : CC -> P -> Res bool.
  Variable first_point : CC -> P.
  Variable inside : CC -> P -> Prop.
  Variable F : CC -> Prop.
  Variable cb : CC -> CC -> bool.
  Hypothesis HA : curve_algebra cbool contains first_point inside F cb.
  Local Notation in_region := (in_region inside).
  Local Notation covers := (covers inside).
  Local Notation disjoint := (curves_disjoint inside).
  Local Notation subset := (subset inside).
  Local Notation region_ok := (region_ok inside F).
  Theorem C44_region_union_correct : forall self other,
    region_ok self -> F other ->
    (forall p, inside other p \/ ~ inside other p) ->
    ~ disjoint (rexterior self) other ->
    (forall h, In h (rinteriors self) -> ~ subset other h) ->
    exists rs, region_union cbool self other = Ok rs /\
    forall p, covers rs p <-> set_op Union (in_region self p) (inside other p).
  Proof. exact (region_union_correct cbool contains first_point inside F cb HA). Qed.
End C44_region_union_correct_statement.
Example C44_case_union : ~ curves_disjoint Ival.inside (0, 100)%Z (15, 120)%Z /\ (forall h, In h (rinteriors iv_r) -> ~ subset Ival.inside (15, 120)%Z h).
Proof. split; [intros H; apply (H 50%Z); unfold Ival.inside; cbn; lia|]; intros h Hh H; pose proof (H 120%Z); unfold Ival.inside in *; cbn in *; destruct Hh as [<-|[<-|[]]]; cbn in *; lia. Qed.
Print Assumptions C44_region_union_correct.

Section C44_region_intersection_correct_statement.
  Context {CC P : Type}.
  Variable cbool : BooleanOperation -> CC -> CC -> Res (list (Region CC)).
  Variable contains : CC -> P -> Res bool.
  Variable first_point : CC -> P.
  Variable inside : CC -> P -> Prop.
  Variable F : CC -> Prop.
  Variable cb : CC -> CC -> bool.
  Hypothesis HA : curve_algebra cbool contains first_point inside F cb.
  Local Notation in_region := (in_region inside).
  Local Notation covers := (covers inside).
  Local Notation disjoint := (curves_disjoint inside).
  Local Notation subset := (subset inside).
  Local Notation region_ok := (region_ok inside F).
  Theorem C44_region_intersection_correct : forall self other,
    region_ok self -> F other ->
    NoDup (rinteriors self) ->
    exists rs, region_intersection cbool contains first_point self other = Ok rs /\
    forall p, covers rs p <-> set_op Intersection (in_region self p) (inside other p).
  Proof. exact (region_intersection_correct cbool contains first_point inside F cb HA). Qed.
End C44_region_intersection_correct_statement.
Example C44_case_inter : NoDup (rinteriors iv_r).
Proof. repeat constructor; cbn; intuition discriminate. Qed.
Print Assumptions C44_region_intersection_correct.

Section C44_region_region_intersection_correct_statement.
  Context {CC P : Type}.
  Variable cbool : BooleanOperation -> CC -> CC -> Res (list (Region CC)).
  Variable contains : CC -> P -> Res bool.
  Variable first_point : CC -> P.
  Variable inside : CC -> P -> Prop.
  Variable F : CC -> Prop.
  Variable cb : CC -> CC -> bool.
  Hypothesis HA : curve_algebra cbool contains first_point inside F cb.
  Local Notation in_region := (in_region inside).
  Local Notation covers := (covers inside).
  Local Notation disjoint := (curves_disjoint inside).
  Local Notation subset := (subset inside).
  Local Notation region_ok := (region_ok inside F).
  Theorem C44_region_region_intersection_correct : forall self other,
    region_ok self -> region_ok other ->
    NoDup (rinteriors self) ->
    exists rs, region_boolean cbool contains first_point Intersection self other = Ok rs /\
    forall p, covers rs p <-> set_op Intersection (in_region self p) (in_region other p).
  Proof. exact (region_region_intersection_correct cbool contains first_point inside F cb HA). Qed.
End C44_region_region_intersection_correct_statement.
Example C44_case_regions : RegionProofs.region_ok Ival.inside Ival.F iv_s.
Proof. exact iv_s_ok. Qed.
Print Assumptions C44_region_region_intersection_correct.

Section C44_region_region_difference_spec_statement.
  Context {CC P : Type}.
  Variable cbool : BooleanOperation -> CC -> CC -> Res (list (Region CC)).
  Variable contains : CC -> P -> Res bool.
  Variable first_point : CC -> P.
  Variable inside : CC -> P -> Prop.
  Variable F : CC -> Prop.
  Variable cb : CC -> CC -> bool.
  Hypothesis HA : curve_algebra cbool contains first_point inside F cb.
  Local Notation in_region := (in_region inside).
  Local Notation covers := (covers inside).
  Local Notation disjoint := (curves_disjoint inside).
  Local Notation subset := (subset inside).
  Local Notation region_ok := (region_ok inside F).
  Theorem C44_region_region_difference_spec : forall self other,
    region_ok self -> region_ok other ->
    exists rs, region_boolean cbool contains first_point Difference self other = Ok rs /\
    forall p, covers rs p <-> in_region self p /\ ~ inside (rexterior other) p.
  Proof. exact (region_region_difference_spec cbool contains first_point inside F cb HA). Qed.
End C44_region_region_difference_spec_statement.
Print Assumptions C44_region_region_difference_spec.

Section C44_region_region_union_spec_statement.
  Context {CC P : Type}.
  Variable cbool : BooleanOperation -> CC -> CC -> Res (list (Region CC)).
  Variable contains : CC -> P -> Res bool.
  Variable first_point : CC -> P.
  Variable inside : CC -> P -> Prop.
  Variable F : CC -> Prop.
  Variable cb : CC -> CC -> bool.
  Hypothesis HA : curve_algebra cbool contains first_point inside F cb.
  Local Notation in_region := (in_region inside).
  Local Notation covers := (covers inside).
  Local Notation disjoint := (curves_disjoint inside).
  Local Notation subset := (subset inside).
  Local Notation region_ok := (region_ok inside F).
  Local Notation separate_pieces := (separate_pieces cbool inside F).
  Theorem C44_region_region_union_spec : forall self other,
    separate_pieces -> region_ok self -> region_ok other ->
    (forall p, inside (rexterior other) p \/ ~ inside (rexterior other) p) ->
    ~ disjoint (rexterior self) (rexterior other) ->
    (forall h, In h (rinteriors self) -> ~ subset (rexterior other) h) ->
    exists rs, region_boolean cbool contains first_point Union self other = Ok rs /\
    forall p, covers rs p <-> (in_region self p \/ inside (rexterior other) p) /\
    forall h, In h (rinteriors other) -> ~ inside h p.
  Proof. exact (region_region_union_spec cbool contains first_point inside F cb HA). Qed.
End C44_region_region_union_spec_statement.
Example C44_case_union_regions : separate_pieces Ival.cbool Ival.inside Ival.F /\ RegionProofs.region_ok Ival.inside Ival.F iv_s /\ ~ curves_disjoint Ival.inside (rexterior iv_r) (rexterior iv_s) /\ (forall h, In h (rinteriors iv_r) -> ~ subset Ival.inside (rexterior iv_s) h).
Proof. split; [|split; [exact iv_s_ok|split; [intros H; apply (H 50%Z); unfold Ival.inside; cbn; lia|intros h Hh H; pose proof (H 50%Z); unfold Ival.inside in *; cbn in *; destruct Hh as [<-|[<-|[]]]; cbn in *; lia]]]; intros x y rs _ _ E r r' Hr Hr'; left; unfold Ival.cbool in E; injection E as <-; destruct (Ival.disjb x y), (Z.ltb (fst x) (fst y)), (Z.ltb (snd y) (snd x)); cbn in Hr, Hr'; intuition; now subst. Qed.
Print Assumptions C44_region_region_union_spec.

Section C44_region_region_union_correct_statement.
  Context {CC P : Type}.
  Variable cbool : BooleanOperation -> CC -> CC -> Res (list (Region CC)).
  Variable contains : CC -> P -> Res bool.
  Variable first_point : CC -> P.
  Variable inside : CC -> P -> Prop.
  Variable F : CC -> Prop.
  Variable cb : CC -> CC -> bool.
  Hypothesis HA : curve_algebra cbool contains first_point inside F cb.
  Local Notation in_region := (in_region inside).
  Local Notation covers := (covers inside).
  Local Notation disjoint := (curves_disjoint inside).
  Local Notation subset := (subset inside).
  Local Notation region_ok := (region_ok inside F).
  Local Notation separate_pieces := (separate_pieces cbool inside F).
  Theorem C44_region_region_union_correct : forall self other,
    separate_pieces -> region_ok self -> region_ok other ->
    (forall p, inside (rexterior other) p \/ ~ inside (rexterior other) p) ->
    ~ disjoint (rexterior self) (rexterior other) ->
    (forall h, In h (rinteriors self) -> ~ subset (rexterior other) h) ->
    (forall h p, In h (rinteriors other) -> inside h p -> ~ in_region self p) ->
    exists rs, region_boolean cbool contains first_point Union self other = Ok rs /\
    forall p, covers rs p <-> set_op Union (in_region self p) (in_region other p).
  Proof. exact (region_region_union_correct cbool contains first_point inside F cb HA). Qed.
End C44_region_region_union_correct_statement.
Print Assumptions C44_region_region_union_correct.

Section C44_region_union_disjoint_spec_statement.
  Context {CC P : Type}.
  Variable cbool : BooleanOperation -> CC -> CC -> Res (list (Region CC)).
  Variable contains : CC -> P -> Res bool.
  Variable first_point : CC -> P.
  Variable inside : CC -> P -> Prop.
  Variable F : CC -> Prop.
  Variable cb : CC -> CC -> bool.
  Hypothesis HA : curve_algebra cbool contains first_point inside F cb.
  Local Notation in_region := (in_region inside).
  Local Notation covers := (covers inside).
  Local Notation disjoint := (curves_disjoint inside).
  Local Notation subset := (subset inside).
  Local Notation region_ok := (region_ok inside F).
  Local Notation separate_pieces := (separate_pieces cbool inside F).
  Theorem C44_region_union_disjoint_spec : forall self other,
    region_ok self -> F other -> disjoint (rexterior self) other ->
    exists rs, region_union cbool self other = Ok rs /\ forall p, covers rs p <-> in_region self p.
  Proof. exact (region_union_disjoint_spec cbool contains first_point inside F cb HA). Qed.
End C44_region_union_disjoint_spec_statement.
Example C44_case_disjoint : curves_disjoint Ival.inside (rexterior iv_r) (200, 300)%Z.
Proof. intros p; unfold Ival.inside; cbn; lia. Qed.
Print Assumptions C44_region_union_disjoint_spec.

Theorem C44_region_union_disjoint_refuted : exists self other rs p,
    apart (rexterior self) other /\
    region_union cbool self other = Ok rs /\
    inside other p /\ ~ covers inside rs p.
Proof. exact (@region_union_disjoint_refuted). Qed.
Print Assumptions C44_region_union_disjoint_refuted.

Theorem C44_region_union_in_hole_refuted : exists self other rs p,
    (forall h, In h (rinteriors self) -> apart h other /\ apart (rexterior self) h) /\
    region_union cbool self other = Ok rs /\
    inside other p /\ ~ covers inside rs p.
Proof. exact (@region_union_in_hole_refuted). Qed.
Print Assumptions C44_region_union_in_hole_refuted.

Theorem C44_region_difference_holes_refuted : exists self other rs p,
    region_boolean cbool contains first_point Difference self other = Ok rs /\
    in_region inside self p /\ ~ in_region inside other p /\ ~ covers inside rs p.
Proof. exact (@region_difference_holes_refuted). Qed.
Print Assumptions C44_region_difference_holes_refuted.

Theorem C44_region_union_punches_refuted : exists self other rs p,
    region_boolean cbool contains first_point Union self other = Ok rs /\
    in_region inside self p /\ ~ covers inside rs p.
Proof. exact (@region_union_punches_refuted). Qed.
Print Assumptions C44_region_union_punches_refuted.

Theorem C44_region_intersection_duplicates_refuted : exists self other rs,
    length (rinteriors self) = 4 /\
    region_intersection cbool contains first_point self other = Ok rs /\
    map (fun r => length (rinteriors r)) rs = [15].
Proof. exact (@region_intersection_duplicates_refuted). Qed.
Print Assumptions C44_region_intersection_duplicates_refuted.

Theorem C44_clip_union_ring_refuted : exists rs p,
    (* the parameters are common points of the two curves *)
    forallb (fun x => let a := Ring.at_ Ring.subject (fst (fst x)) in
    let b := Ring.at_ Ring.clip_ (snd (fst x)) in
    PrimFloat.eqb (fst a) (fst b) && PrimFloat.eqb (snd a) (snd b))
    Ring.crossings = true /\
    Ring.run Union = Ok rs /\
    ~ Ring.inside Ring.subject p /\ ~ Ring.inside Ring.clip_ p /\ covers Ring.inside rs p.
Proof. exact (@clip_union_ring_refuted). Qed.
Print Assumptions C44_clip_union_ring_refuted.
