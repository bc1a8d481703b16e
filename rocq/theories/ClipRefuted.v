(** * Boolean operations: instances and wrong results *)
From Coq Require Import ZArith Floats Permutation.
From Verif Require Import Base BaseFacts Scalar ClipModel ClipSpec ClipProofs ClipBuild RegionModel
  RegionProofs ClipMain.

(** ** Intervals of integers form a family on which the region operations are right *)
Module Ival.
  Local Open Scope Z_scope.
  Definition Ival : Type := (Z * Z)%type.
  Definition inside (c : Ival) (p : Z) : Prop := fst c <= p <= snd c.
  Definition F (c : Ival) : Prop := fst c <= snd c.
  Definition containsb (c : Ival) (p : Z) : bool := (fst c <=? p) && (p <=? snd c).
  Definition contains (c : Ival) (p : Z) : Res bool := Ok (containsb c p).
  Definition cb (c h : Ival) : bool := containsb c (fst h).
  Definition disjb (a b : Ival) : bool := (snd a <? fst b) || (snd b <? fst a).
  Definition reg (c : Ival) : Region Ival := MkRegion c [].
  Definition cbool (op : BooleanOperation) (a b : Ival) : Res (list (Region Ival)) :=
    Ok match op with
       | Union => if disjb a b then [reg a; reg b]
                  else [reg (Z.min (fst a) (fst b), Z.max (snd a) (snd b))]
       | Intersection => if disjb a b then []
                         else [reg (Z.max (fst a) (fst b), Z.min (snd a) (snd b))]
       | Difference =>
           if disjb a b then [reg a]
           else if fst a <? fst b then
             if snd b <? snd a then [MkRegion a [b]] else [reg (fst a, fst b - 1)]
           else if snd b <? snd a then [reg (snd b + 1, snd a)] else []
       end.

  Lemma disjb_spec a b : F a -> F b -> disjb a b = true <-> curves_disjoint inside a b.
  Proof.
    unfold F, disjb, curves_disjoint, inside. intros Ha Hb. rewrite orb_true_iff, !Z.ltb_lt. split.
    - intros H p Hp. lia.
    - intros H. destruct (Z.lt_ge_cases (snd a) (fst b)); [now left|].
      destruct (Z.lt_ge_cases (snd b) (fst a)); [now right|]. exfalso.
      apply (H (Z.max (fst a) (fst b))). lia.
  Qed.

  Ltac breg := unfold covers, in_region, inside, subset, reg in *; cbn [fst snd rexterior rinteriors] in *.
  Lemma covers_one r p : covers inside [r] p <-> in_region inside r p.
  Proof.
    unfold covers. split; [intros (x & [<-|[]] & H); exact H|intros H; exists r; split; [now left|exact H]].
  Qed.
  Lemma in_reg c p : in_region inside (reg c) p <-> inside c p.
  Proof. unfold in_region, reg; cbn. split; [tauto|]. intros H; split; [exact H|intros ? []]. Qed.

  Lemma placed_one r h : (cb (rexterior r) h = true -> subset inside h (rexterior r)) ->
    (cb (rexterior r) h = false -> forall p, inside h p -> ~ in_region inside r p) ->
    placed inside cb [r] h.
  Proof.
    intros H1 H2. split; [|split].
    - intros x [<-|[]]. exact H1.
    - intros x [<-|[]]. exact H2.
    - repeat constructor.
  Qed.

  Lemma algebra : curve_algebra cbool contains fst inside F cb.
  Proof.
    constructor.
    - reflexivity.
    - intros a b Ha Hb. unfold cbool. eexists. split; [reflexivity|].
      pose proof (disjb_spec a b Ha Hb) as HD. destruct (disjb a b) eqn:E.
      + left. split; [reflexivity|]. now apply HD.
      + right. eexists. split; [reflexivity|]. split; [unfold F in *; cbn; lia|]. split.
        * intros K. apply HD in K. discriminate.
        * intros p. unfold disjb in E. apply orb_false_iff in E. rewrite !Z.ltb_ge in E.
          unfold inside, F in *; cbn. lia.
    - intros a b Ha Hb. unfold cbool. eexists. split; [reflexivity|].
      pose proof (disjb_spec a b Ha Hb) as HD. destruct (disjb a b) eqn:E.
      + pose proof (proj1 HD eq_refl) as HD'. split; [|split].
        * intros r [<-|[]]. cbn. split; [assumption|]. split; [intros p H; exact H|now left].
        * intros p. rewrite covers_one, in_reg. specialize (HD' p). tauto.
        * intros h Fh Hs _. apply placed_one; cbn; [auto|].
          intros Hc. exfalso. unfold cb, containsb in Hc.
          pose proof (Hs (fst h)) as K. unfold inside, F in *.
          apply andb_false_iff in Hc. rewrite !Z.leb_gt in Hc. lia.
      + assert (Hov : fst b <= snd a /\ fst a <= snd b).
        { unfold disjb in E. apply orb_false_iff in E. rewrite !Z.ltb_ge in E. lia. }
        clear E HD. unfold F in *.
        destruct (Z.ltb_spec (fst a) (fst b)) as [L|L], (Z.ltb_spec (snd b) (snd a)) as [M|M].
        * split; [|split].
          -- intros r [<-|[]]. cbn. split; [assumption|]. split; [intros p H; exact H|right].
             split; [reflexivity|]. intros p. unfold inside. lia.
          -- intros p. rewrite covers_one. unfold in_region; cbn. split.
             ++ intros [H1 H2]. split; [assumption|]. apply H2. now left.
             ++ intros [H1 H2]. split; [assumption|]. intros c [<-|[]]. assumption.
          -- intros h Fh Hs _. apply placed_one; cbn; [auto|].
             intros Hc. exfalso. unfold cb, containsb in Hc.
             pose proof (Hs (fst h)) as K. unfold inside, F in *.
             apply andb_false_iff in Hc. rewrite !Z.leb_gt in Hc. lia.
        * split; [|split].
          -- intros r [<-|[]]. cbn. split; [lia|]. split; [intros p; unfold inside; cbn; lia|now left].
          -- intros p. rewrite covers_one, in_reg. unfold inside; cbn. lia.
          -- intros h Fh Hs Hd. apply placed_one; cbn.
             ++ intros Hc p Hp. unfold cb, containsb in Hc. cbn in Hc.
                apply andb_true_iff in Hc. rewrite !Z.leb_le in Hc.
                pose proof (Hs p Hp). unfold inside in *. cbn. split; [lia|].
                destruct (Z.le_gt_cases p (fst b - 1)); [assumption|]. exfalso.
                apply (Hd (fst b)). unfold inside. lia.
             ++ intros Hc p Hp [Hr _]. unfold cb, containsb in Hc. cbn in Hc, Hr.
                pose proof (Hs (fst h)) as K. unfold inside in *. cbn in Hr.
                apply andb_false_iff in Hc. rewrite !Z.leb_gt in Hc. unfold F in Fh. lia.
        * split; [|split].
          -- intros r [<-|[]]. cbn. split; [lia|]. split; [intros p; unfold inside; cbn; lia|now left].
          -- intros p. rewrite covers_one, in_reg. unfold inside; cbn. lia.
          -- intros h Fh Hs Hd. apply placed_one; cbn.
             ++ intros Hc p Hp. unfold cb, containsb in Hc. cbn in Hc.
                apply andb_true_iff in Hc. rewrite !Z.leb_le in Hc.
                pose proof (Hs p Hp). unfold inside in *. cbn. lia.
             ++ intros Hc p Hp [Hr _]. unfold cb, containsb in Hc. cbn in Hc, Hr.
                pose proof (Hs (fst h)) as K. unfold inside in *. cbn in Hr.
                apply andb_false_iff in Hc. rewrite !Z.leb_gt in Hc. unfold F in Fh.
                apply (Hd (Z.max (fst h) (fst b))). unfold inside. lia.
        * split; [|split].
          -- intros r [].
          -- intros p. split; [intros (r & [] & _)|]. unfold inside. lia.
          -- intros h Fh Hs Hd. split; [intros r []|]. split; [intros r []|constructor].
    - intros a b Ha Hb. unfold cbool. eexists. split; [reflexivity|].
      pose proof (disjb_spec a b Ha Hb) as HD. destruct (disjb a b) eqn:E.
      + pose proof (proj1 HD eq_refl) as HD'. split; [intros r []|]. split.
        * intros p. split; [intros (r & [] & _)|]. intros K. destruct (HD' p K).
        * intros h Fh Hs Hd. split; [intros r []|]. split; [intros r []|constructor].
      + assert (Hov : fst b <= snd a /\ fst a <= snd b).
        { unfold disjb in E. apply orb_false_iff in E. rewrite !Z.ltb_ge in E. lia. }
        clear E HD. unfold F in *. split; [|split].
        * intros r [<-|[]]. cbn. split; [lia|reflexivity].
        * intros p. rewrite covers_one, in_reg. unfold inside; cbn. lia.
        * intros h Fh Hs Ht. apply placed_one; cbn.
          -- intros _ p Hp. pose proof (Hs p Hp). pose proof (Ht p Hp). unfold inside in *. cbn. lia.
          -- intros Hc. exfalso. unfold cb, containsb in Hc. cbn in Hc.
             pose proof (Hs (fst h)) as K. pose proof (Ht (fst h)) as K'. unfold inside, F in *.
             apply andb_false_iff in Hc. rewrite !Z.leb_gt in Hc. lia.
  Qed.
End Ival.

(** ** Circles that do not cross, through the modelled [clip] *)
Module Disc.
  Local Open Scope Z_scope.
  Record Disc := MkDisc { dx : Z; dy : Z; dr : Z }.
  Definition containsb (d : Disc) (p : Z * Z) : bool :=
    (fst p - dx d) * (fst p - dx d) + (snd p - dy d) * (snd p - dy d) <=? dr d * dr d.
  Definition inside (d : Disc) (p : Z * Z) : Prop := containsb d p = true.
  Definition contains (d : Disc) (p : Z * Z) : Res bool := Ok (containsb d p).
  Definition first_point (d : Disc) : Z * Z := (dx d + dr d, dy d).
  (** the circles are nested or apart *)
  Definition apart (a b : Disc) : Prop :=
    let d2 := (dx a - dx b) * (dx a - dx b) + (dy a - dy b) * (dy a - dy b) in
    d2 > (dr a + dr b) * (dr a + dr b) \/ d2 < (dr a - dr b) * (dr a - dr b).
  Local Existing Instance FOps.
  Definition cbool (op : BooleanOperation) (a b : Disc) : Res (list (Region Disc)) :=
    clip (C := Disc) (fun _ _ _ => Ok []) (fun _ => Err "no span") a b op
      (contains b (first_point a)) (contains a (first_point b)) [].
End Disc.

Import Disc.
Local Ltac disc := unfold covers, in_region, inside; cbn.

(** the union of a region with a circle outside of it loses the circle *)
Lemma region_union_disjoint_refuted :
  exists self other rs p,
    apart (rexterior self) other /\
    region_union cbool self other = Ok rs /\
    inside other p /\ ~ covers inside rs p.
Proof.
  exists (MkRegion (MkDisc 0 0 10) []), (MkDisc 30 0 5), [MkRegion (MkDisc 0 0 10) []], (30, 0)%Z.
  split; [left; reflexivity|]. split; [reflexivity|]. split; [reflexivity|].
  intros (r & [<-|[]] & [H _]). discriminate H.
Qed.

(** the union with a circle inside a hole loses the circle *)
Lemma region_union_in_hole_refuted :
  exists self other rs p,
    (forall h, In h (rinteriors self) -> apart h other /\ apart (rexterior self) h) /\
    region_union cbool self other = Ok rs /\
    inside other p /\ ~ covers inside rs p.
Proof.
  exists (MkRegion (MkDisc 0 0 10) [MkDisc 0 0 6]), (MkDisc 0 0 2),
    [MkRegion (MkDisc 0 0 10) [MkDisc 0 0 6]], (0, 0)%Z.
  split; [intros h [<-|[]]; split; right; reflexivity|]. split; [reflexivity|]. split; [reflexivity|].
  intros (r & [<-|[]] & [_ H]). apply (H (MkDisc 0 0 6)); [now left|reflexivity].
Qed.

(** subtracting a region with a hole also removes what lies in the hole *)
Lemma region_difference_holes_refuted :
  exists self other rs p,
    region_boolean cbool contains first_point Difference self other = Ok rs /\
    in_region inside self p /\ ~ in_region inside other p /\ ~ covers inside rs p.
Proof.
  exists (MkRegion (MkDisc 0 0 20) []), (MkRegion (MkDisc 0 0 10) [MkDisc 0 0 5]),
    [MkRegion (MkDisc 0 0 20) [MkDisc 0 0 10]], (0, 0)%Z.
  split; [reflexivity|]. split; [split; [reflexivity|intros ? []]|]. split.
  - intros [_ H]. apply (H (MkDisc 0 0 5)); [now left|reflexivity].
  - intros (r & [<-|[]] & [_ H]). apply (H (MkDisc 0 0 10)); [now left|reflexivity].
Qed.

(** the union of two regions punches the holes of the second through the first *)
Lemma region_union_punches_refuted :
  exists self other rs p,
    region_boolean cbool contains first_point Union self other = Ok rs /\
    in_region inside self p /\ ~ covers inside rs p.
Proof.
  exists (MkRegion (MkDisc 0 0 20) []), (MkRegion (MkDisc 0 0 10) [MkDisc 0 0 5]),
    [MkRegion (MkDisc 0 0 20) [MkDisc 0 0 5]], (0, 0)%Z.
  split; [reflexivity|]. split; [split; [reflexivity|intros ? []]|].
  intros (r & [<-|[]] & [_ H]). apply (H (MkDisc 0 0 5)); [now left|reflexivity].
Qed.

(** intersecting a region with an enclosing circle repeats its holes: 4 holes give 15 *)
Lemma region_intersection_duplicates_refuted :
  exists self other rs,
    length (rinteriors self) = 4 /\
    region_intersection cbool contains first_point self other = Ok rs /\
    map (fun r => length (rinteriors r)) rs = [15].
Proof.
  exists (MkRegion (MkDisc 0 0 100)
    [MkDisc 10 0 2; MkDisc 20 0 2; MkDisc 30 0 2; MkDisc 40 0 2]), (MkDisc 0 0 90).
  eexists. split; [reflexivity|]. split; [vm_compute; reflexivity|reflexivity].
Qed.

(** a curve with itself: every operation fails *)
Lemma clip_identical_refuted : forall op d, (0 <= dr d)%Z -> errs (cbool op d d).
Proof.
  intros op d H. exists "Invalid case"%string. unfold cbool, clip, contains. cbn [clip_select filter map length Nat.even ensure bind].
  assert (E : containsb d (first_point d) = true).
  { unfold containsb, first_point. cbn [fst snd]. apply Z.leb_le. nia. }
  rewrite E. reflexivity.
Qed.

(** ** Two brackets that together enclose a gap: the union fills the gap *)
Module Ring.
  Local Open Scope float_scope.
  Local Existing Instance FOps.
  Definition pt : Type := (float * float)%type.
  Definition edge : Type := (pt * pt)%type.
  Definition lerp (a b : pt) (t : float) : pt :=
    (fst a + (fst b - fst a) * t, snd a + (snd b - snd a) * t).
  Fixpoint edges_from (p0 : pt) (l : list pt) : list edge :=
    match l with
    | [] => []
    | [q] => [(q, p0)]
    | p :: ((q :: _) as t) => (p, q) :: edges_from p0 t
    end.
  Definition edges (l : list pt) : list edge := match l with [] => [] | p :: _ => edges_from p l end.
  (** even-odd rule with a ray to the right *)
  Definition crosses (p : pt) (e : edge) : bool :=
    let '((ax, ay), (bx, by_)) := e in
    xorb (PrimFloat.ltb (snd p) ay) (PrimFloat.ltb (snd p) by_) &&
    PrimFloat.ltb (fst p) (ax + (bx - ax) * ((snd p - ay) / (by_ - ay))).
  Definition insideb (l : list edge) (p : pt) : bool := Nat.odd (length (filter (crosses p) l)).
  Definition inside (l : list edge) (p : pt) : Prop := insideb l p = true.

  (** a curve parameter [k + t] is the point at fraction [t] of edge [k] *)
  Fixpoint at_ (l : list edge) (t : float) : pt :=
    match l with
    | [] => (0, 0)
    | e :: r => if PrimFloat.ltb t 1 then lerp (fst e) (snd e) t else at_ r (t - 1)
    end.
  (** the part of the boundary between two parameters *)
  Fixpoint between (l : list edge) (t0 t1 : float) : list edge :=
    match l with
    | [] => []
    | e :: r =>
        let s0 := if PrimFloat.ltb t0 0 then 0 else t0 in
        let s1 := if PrimFloat.ltb 1 t1 then 1 else t1 in
        (if PrimFloat.ltb s0 s1 then [(lerp (fst e) (snd e) s0, lerp (fst e) (snd e) s1)] else [])
        ++ between r (t0 - 1) (t1 - 1)
    end.
  Definition trim_range (l : list edge) (t0 t1 : float) : list edge :=
    if PrimFloat.ltb t1 t0
    then between l t0 (1000) ++ between l 0 t1
    else between l t0 t1.

  Definition subject : list edge :=
    edges [(0, 0); (6, 0); (6, 2); (2, 2); (2, 6); (6, 6); (6, 8); (0, 8)].
  Definition clip_ : list edge :=
    edges [(4, 0.5); (12, 0.5); (12, 7.5); (4, 7.5); (4, 6.5); (8, 6.5); (8, 1.5); (4, 1.5)].
  Definition crossings : list ((float * float) * Degeneracy float) :=
    [((1.25, 0.25), DNone); ((1.75, 6.5), DNone); ((5.25, 4.5), DNone); ((5.75, 2.75), DNone)].
  Definition run (op : BooleanOperation) : Res (list (Region (list edge))) :=
    clip (fun s a b => Ok (trim_range (if s then subject else clip_) a b)) (fun l => Ok l)
      subject clip_ op (Ok (insideb clip_ (0, 0))) (Ok (insideb subject (4, 0.5))) crossings.
End Ring.

Lemma clip_union_ring_refuted :
  exists rs p,
    (* the parameters are common points of the two curves *)
    forallb (fun x => let a := Ring.at_ Ring.subject (fst (fst x)) in
                      let b := Ring.at_ Ring.clip_ (snd (fst x)) in
                      PrimFloat.eqb (fst a) (fst b) && PrimFloat.eqb (snd a) (snd b))
      Ring.crossings = true /\
    Ring.run Union = Ok rs /\
    ~ Ring.inside Ring.subject p /\ ~ Ring.inside Ring.clip_ p /\ covers Ring.inside rs p.
Proof.
  eexists. exists (5, 4)%float. split; [vm_compute; reflexivity|].
  split; [vm_compute; reflexivity|]. split; [vm_compute; discriminate|].
  split; [vm_compute; discriminate|].
  eexists. split; [now left|]. split; [vm_compute; reflexivity|intros ? []].
Qed.
