(** * Containment by ray casting: the theorems *)
From Coq Require Import Reals Lra Lia ZArith List Sorted Permutation.
From Verif Require Import Base BaseFacts Scalar RSum BSpline KnotModel KnotSpec KnotFacts KnotProofs
     VecFacts CurveModel CurveKnotModel CurveSpec CurveProofs CurveGeom CurveGeom2 Boehm Refine
     SplitModel SplitProofs BBoxModel BBoxProofs TraversalModel TraversalProofs TraversalCurve CurveShapes
     CompoundModel IntersectModel IntersectProofs ClosestModel ContainsModel CrossingSpec CrossingProofs ContainsProofs ContainsMain.
Import ListNotations.
Local Open Scope R_scope.

(** ** For every scalar type *)
Section Any.
  Context {T : Type} {SO : Scalar T}.
  Open Scope scalar_scope.

  (** an open curve is refused *)
  Theorem contains_open rng fuel (c : Curve T) p opt : is_closed c = Ok false -> errs (curve_contains rng fuel c p opt).
  Proof. intros E. unfold curve_contains. rewrite E. cbn [bind negb]. eexists. reflexivity. Qed.

  Lemma search_some (c : Curve T) py md forward n : forall mn mx q u, level_search n c py md forward mn mx = Ok (Some (q, u)) ->
    point_at c u = Ok q /\ sabs (coord 1 q - py) <? md = true.
  Proof.
    induction n as [|n IH]; intros mn mx q u; cbn [level_search]; [discriminate|].
    intros E. apply bind_ok in E. destruct E as (r & Er & E).
    destruct (sabs (coord 1 r - py) <? md) eqn:C; [injection E as <- <-; auto|].
    destruct (if forward then _ else _); eauto.
  Qed.

  (** every crossing reported is a point of a part of the curve, level with the point up to the tolerance and not to its left *)
  Theorem crossings_sound rng fuel (c : Curve T) p len opt its q :
    x_ray_intersection rng fuel c p len opt = Ok its -> In q its ->
    exists ta leaf u, ct_curve ta = c /\ descends ct_ops rng ta leaf /\ point_at (ct_curve leaf) u = Ok q /\
      sabs (coord 1 q - coord 1 p) <? op_min (options_or_default opt) = true /\ coord 0 p <=? coord 0 q = true.
  Proof.
    unfold x_ray_intersection. intros E Hq. do 5 (apply bind_ok in E; destruct E as (? & ? & E)).
    apply bind_ok in E. destruct E as (pairs & Ep & E).
    apply bind_ok in E. destruct E as (found & Ef & E). injection E as <-.
    apply in_map_iff in Hq. destruct Hq as ([q' u] & <- & Hq). cbn [fst].
    apply merge_close_in in Hq. apply (Permutation_in _ (sort_by_perm snd _)) in Hq. apply filter_In in Hq. destruct Hq as (Hq & Kq).
    apply somes_in in Hq. cbn [fst] in Kq.
    pose proof (traverse_sound _ _ _ _ _ _ _ _ Ep) as Snd. apply mapM_inv in Ef.
    match goal with H : ct_new c _ = Ok ?t |- _ => rename H into Hta; set (ta := t) in * end.
    assert (Hr : exists pr, In pr pairs /\ leaf_crossing (ct_curve (fst pr)) p (options_or_default opt) = Ok (Some (q', u))).
    { clear - Ef Hq. induction Ef as [|x y ? ? O F IH]; [destruct Hq|].
      destruct Hq as [->|Hq]; [exists x; split; [now left|exact O]|]. destruct (IH Hq) as (pr & Hi & E). exists pr. split; [now right|exact E]. }
    destruct Hr as (pr & Hi & El). rewrite Forall_forall in Snd. destruct (Snd pr Hi) as (De & _).
    exists ta, (fst pr), u. split; [cbn in Hta; injection Hta as <-; reflexivity|]. split; [exact De|].
    unfold leaf_crossing in El. apply bind_ok in El. destruct El as ([s e] & _ & El). apply bind_ok in El. destruct El as (ps & _ & El).
    apply bind_ok in El. destruct El as (pe & _ & El). destruct (_ && _)%bool; [discriminate|].
    destruct (coord 1 p <? coord 1 ps), (coord 1 p <? coord 1 pe); try discriminate; apply search_some in El; destruct El; auto.
  Qed.
End Any.

(** ** Over the reals *)
(** the size of the smallest pieces *)
Definition piece_size (c : Curve R) (o : @Options R) : R := (dom1 c - dom0 c) / INR (op_div o).

(** what is asked of a span *)
Record clear_of (eps maxv : R) (rng : nat -> R) (c : Curve R) (px py : R) (o : @Options R) : Prop := {
  cl_box : box_curve eps maxv c;
  cl_dim : cdim c = 3%nat;
  (** coordinates at most a fifth of the largest number, so that the end of the ray can be represented *)
  cl_size : forall i j, (i < 2)%nat -> (j < length (cpts c))%nat -> Rabs (cpc c i j / cpc c 2 j) <= maxv / 5;
  (** the bisection is given enough steps *)
  cl_rate : exists M, height_lipschitz c M /\ M * piece_size c o / 2 ^ op_iters o < op_min o;
  cl_side : one_sided c px py (piece_size c o);
  cl_apart : crossings_apart c px py (op_min o) (piece_size c o);
  cl_off : divisions_off_knots eps maxv rng c (piece_size c o)
}.

(** between the smallest and the largest coordinate of the control points *)
Definition in_control_box (spans : list (Curve R)) (p : list R) : Prop :=
  forall i, (i < 2)%nat ->
    (exists c j, In c spans /\ (j < length (cpts c))%nat /\ cpc c i j / cpc c 2 j <= rc i p) /\
    (exists c j, In c spans /\ (j < length (cpts c))%nat /\ rc i p <= cpc c i j / cpc c 2 j).

(** not a vertical line *)
Definition has_width (spans : list (Curve R)) : Prop :=
  exists c c' u v, In c spans /\ In c' spans /\ dom0 c <= u <= dom1 c /\ dom0 c' <= v <= dom1 c' /\ nurbs c 0 u <> nurbs c' 0 v.

Section Real.
  Variables eps maxv : R.
  Local Hint Extern 0 (Scalar R) => exact (ROps eps maxv) : typeclass_instances.
  Local Notation clear_of := (clear_of eps maxv).
  Local Notation box_curve := (box_curve eps maxv).

  Definition affine_pts (c : Curve R) : list (list R) := map (fun q => vdivs (firstn 2 q) (rc 2 q)) (cpts c).

  Lemma affine_ok c : box_curve c -> cdim c = 3%nat -> dehomogenized_control_points c = Ok (affine_pts c).
  Proof.
    intros Hb Hd. unfold dehomogenized_control_points. apply mapM_ok. intros q Hq.
    pose proof (bc_pos _ _ _ Hb) as Hw. apply (In_nth _ _ []) in Hq. destruct Hq as (j & Hj & <-). specialize (Hw j Hj). unfold cpc in Hw.
    unfold dehomogenize. rewrite Hd in *. change (3 - 1)%nat with 2%nat in *. rewrite (coord_rc eps maxv). rs.
    destruct (Reqb_spec (rc 2 (nth j (cpts c) [])) 0); [lra|reflexivity].
  Qed.
  Lemma affine_rc c i j : (i < 2)%nat -> (j < length (cpts c))%nat -> rc i (nth j (affine_pts c) []) = cpc c i j / cpc c 2 j.
  Proof. intros Hi Hj. unfold affine_pts. rewrite (nth_map_lt _ _ j [] []) by auto. rewrite rc_vdivs, rc_firstn by auto. reflexivity. Qed.

  Lemma bb_points_len D (pts : list (list R)) : length (bmin (bb_points D pts)) = D /\ length (bmax (bb_points D pts)) = D.
  Proof.
    unfold bb_points. assert (G : forall b : BBox R, length (bmin b) = D /\ length (bmax b) = D ->
      length (bmin (fold_left (bb_add D) pts b)) = D /\ length (bmax (fold_left (bb_add D) pts b)) = D).
    { induction pts as [|p pts IH]; intros b H; [exact H|]. cbn [fold_left]. apply IH. unfold bb_add. cbn [bmin bmax].
      rewrite !map_length, seq_length. auto. }
    apply G. cbn [bmin bmax]. rewrite !repeat_length. auto.
  Qed.

  (** the box of the spans *)
  Lemma spans_box B spans : B <= maxv -> spans <> [] -> Forall box_curve spans -> Forall (fun c => cdim c = 3%nat) spans ->
    (forall c i j, In c spans -> (i < 2)%nat -> (j < length (cpts c))%nat -> Rabs (cpc c i j / cpc c 2 j) <= B) ->
    exists b, bb_of_compound 2 spans = Ok b /\
      rc 0 (bb_size b) = rc 0 (bmax b) - rc 0 (bmin b) /\
      (forall i, (i < 2)%nat -> - B <= rc i (bmin b) /\ rc i (bmax b) <= B /\
         forall c u, In c spans -> dom0 c <= u <= dom1 c -> rc i (bmin b) <= nurbs c i u <= rc i (bmax b)) /\
      forall p, bb_contains 2 b p = true <-> in_control_box spans p.
  Proof.
    intros HB Hne Hbox Hdim Hbd. rewrite Forall_forall in Hbox, Hdim.
    assert (E : mapM dehomogenized_control_points spans = Ok (map affine_pts spans)).
    { apply mapM_ok. intros c Hc. apply affine_ok; auto. }
    unfold bb_of_compound. rewrite E. cbn [bind]. eexists. split; [reflexivity|].
    set (pts := concat (map affine_pts spans)).
    assert (In1 : forall c j, In c spans -> (j < length (cpts c))%nat -> In (nth j (affine_pts c) []) pts).
    { intros c j Hc Hj. apply in_concat. exists (affine_pts c). split; [now apply in_map|]. apply nth_In. unfold affine_pts. now rewrite map_length. }
    assert (In2 : forall q, In q pts -> exists c j, In c spans /\ (j < length (cpts c))%nat /\ q = nth j (affine_pts c) []).
    { intros q Hq. apply in_concat in Hq. destruct Hq as (l & Hl & Hq). apply in_map_iff in Hl. destruct Hl as (c & <- & Hc).
      apply (In_nth _ _ []) in Hq. destruct Hq as (j & Hj & <-). unfold affine_pts in Hj. rewrite map_length in Hj. eauto. }
    assert (Hp : pts <> []).
    { destruct spans as [|c l]; [congruence|]. pose proof (co_len c (bc_ok _ _ _ (Hbox c (or_introl eq_refl)))).
      specialize (In1 c 0%nat (or_introl eq_refl) ltac:(lia)). intros Z. rewrite Z in In1. destruct In1. }
    assert (Bp : Forall (bounded maxv 2) pts).
    { apply Forall_forall. intros q Hq. destruct (In2 q Hq) as (c & j & Hc & Hj & ->). intros i Hi. rewrite affine_rc by auto.
      pose proof (Hbd c i j Hc Hi Hj) as K. unfold Rabs in K. destruct (Rcase_abs _); lra. }
    destruct (bb_points_tight eps maxv 2 pts Hp Bp) as (T1 & T2). set (b := bb_points 2 pts) in *.
    destruct (bb_points_len 2 pts) as (L1 & L2). fold b in L1, L2.
    split; [unfold bb_size; rewrite (rc_vsub eps maxv) by congruence; reflexivity|].
    rewrite Forall_forall in T1. split.
    - intros i Hi. destruct (T2 i Hi) as ((q & Hq & Eq) & (q' & Hq' & Eq')).
      destruct (In2 q Hq) as (c & j & Hc & Hj & ->). destruct (In2 q' Hq') as (c' & j' & Hc' & Hj' & ->).
      rewrite affine_rc in Eq, Eq' by auto. pose proof (Hbd c i j Hc Hi Hj) as K. pose proof (Hbd c' i j' Hc' Hi Hj') as K'.
      rewrite Eq in K. rewrite Eq' in K'. split; [|split].
      + unfold Rabs in K; destruct (Rcase_abs _); lra.
      + unfold Rabs in K'; destruct (Rcase_abs _); lra.
      + intros e u He Hu. pose proof (Hbox e He) as Hb. pose proof (Hdim e He) as Hd. cbv beta in Hd.
        destruct (control_box eps maxv e u i (rc i (bmin b)) (rc i (bmax b))) as (p' & Ep' & Hb'); try apply Hb; auto; try (rewrite Hd; lia).
        * intros k Hk. rewrite Hd. change (3 - 1)%nat with 2%nat. rewrite <- affine_rc by auto.
          apply (T1 (nth k (affine_pts e) [])); auto.
        * destruct (point_at_spec eps maxv e u) as (p & Ep & _ & G); try apply Hb; auto.
          { apply Rgt_not_eq, (wfun_pos eps maxv); auto; apply Hb. }
          rewrite Ep in Ep'. injection Ep' as <-. rewrite <- G by (rewrite Hd; lia). exact Hb'.
    - intros p. rewrite (bb_contains_iff eps maxv). unfold in_box, in_control_box. split; intros H i Hi.
      + destruct (T2 i Hi) as ((q & Hq & Eq) & (q' & Hq' & Eq')).
        destruct (In2 q Hq) as (c & j & Hc & Hj & ->). destruct (In2 q' Hq') as (c' & j' & Hc' & Hj' & ->).
        rewrite affine_rc in Eq, Eq' by auto. specialize (H i Hi). split; [exists c, j|exists c', j']; repeat split; auto; lra.
      + destruct (H i Hi) as ((c & j & Hc & Hj & K) & (c' & j' & Hc' & Hj' & K')).
        pose proof (T1 _ (In1 c j Hc Hj) i Hi) as A. pose proof (T1 _ (In1 c' j' Hc' Hj') i Hi) as A'.
        rewrite affine_rc in A, A' by auto. lra.
  Qed.

  Lemma single_box c : box_curve c -> cdim c = 3%nat -> bb_of_compound 2 [c] = bb_of_curve c.
  Proof.
    intros Hb Hd. unfold bb_of_compound, bb_of_curve. cbn [mapM]. rewrite affine_ok by auto. cbn [bind concat].
    now rewrite app_nil_r, Hd.
  Qed.

  (** a point outside the box of the control points is not contained *)
  Theorem contains_outside rng fuel c p opt : box_curve c -> cdim c = 3%nat -> is_closed c = Ok true ->
    ~ in_control_box [c] p -> curve_contains rng fuel c p opt = Ok false.
  Proof.
    intros Hb Hd Hcl Hp. unfold curve_contains. rewrite Hcl. cbn [bind negb].
    destruct (spans_box maxv [c] (Rle_refl _) ltac:(discriminate)) as (b & Eb & _ & _ & Hc).
    - constructor; auto.
    - constructor; auto.
    - intros e i j [<-|[]] Hi Hj. pose proof (bc_max _ _ _ Hb i j) as K. rewrite Hd in K. apply K; auto.
    - rewrite single_box in Eb by auto. rewrite Eb. cbn [bind].
      destruct (bb_contains 2 b p) eqn:C; [exfalso; apply Hp; now apply Hc|reflexivity].
  Qed.

  (** the setting of the parity theorem for one span of several *)
  Lemma span_parity rng c px py L opt : (0 < op_div (options_or_default opt))%nat -> (0 < op_iters (options_or_default opt))%nat ->
    clear_of rng c px py (options_or_default opt) -> (forall k, 0 <= rng k <= 1) -> 0 < L ->
    (forall u, dom0 c <= u <= dom1 c -> nurbs c 0 u <= px + L) -> Rabs px <= maxv -> Rabs py <= maxv -> Rabs (px + L) <= maxv ->
    exists fuel0 its,
      (forall fuel, (fuel0 <= fuel)%nat -> x_ray_intersection rng fuel c [px; py] L opt = Ok its) /\
      crossing_parity (nurbs c 0) (nurbs c 1) px py (dom0 c) (dom1 c) (Nat.odd (length its)).
  Proof.
    intros Hdiv Hit [Cb Cd Cs (M & HM & Cr) Csd Ca Co] Hr HL Hre B1 B2 B3.
    destruct (ray_parity eps maxv c Cb Cd px py (options_or_default opt) M HM Hdiv Hit Cr Csd Ca L HL Hre B1 B2 B3 rng Hr Co opt eq_refl)
      as (fuel0 & its & E & P & _). eauto.
  Qed.

  Lemma box_reach spans px py b : spans <> [] -> has_width spans -> in_control_box spans [px; py] ->
    0 <= maxv ->
    bb_contains 2 b [px; py] = true ->
    rc 0 (bb_size b) = rc 0 (bmax b) - rc 0 (bmin b) ->
    (forall i, (i < 2)%nat -> - (maxv / 5) <= rc i (bmin b) /\ rc i (bmax b) <= maxv / 5 /\
         forall c u, In c spans -> dom0 c <= u <= dom1 c -> rc i (bmin b) <= nurbs c i u <= rc i (bmax b)) ->
    0 < rc 0 (bb_size b) * 2 /\ Rabs px <= maxv /\ Rabs py <= maxv /\ Rabs (px + rc 0 (bb_size b) * 2) <= maxv /\
    forall c u, In c spans -> dom0 c <= u <= dom1 c -> nurbs c 0 u <= px + rc 0 (bb_size b) * 2.
  Proof.
    intros Hne (c & c' & u & v & Hc & Hc' & Hu & Hv & Hn) _ Hm Hb Es Hb5. rewrite Es.
    apply (bb_contains_iff eps maxv) in Hb. pose proof (Hb 0%nat ltac:(lia)) as P0. pose proof (Hb 1%nat ltac:(lia)) as P1.
    change (rc 0 [px; py]) with px in P0. change (rc 1 [px; py]) with py in P1.
    destruct (Hb5 0%nat ltac:(lia)) as (X1 & X2 & X3). destruct (Hb5 1%nat ltac:(lia)) as (Y1 & Y2 & _).
    pose proof (X3 c u Hc Hu). pose proof (X3 c' v Hc' Hv).
    assert (rc 0 (bmin b) < rc 0 (bmax b)) by lra.
    repeat split; try (apply Rabs_le; lra); try lra.
    intros e w He Hw. pose proof (X3 e w He Hw). lra.
  Qed.

  (** the answer from the result of the search for the closest point and the parity [b] of the crossings:
      a point closer than the tolerance counts as inside, a search that fails is ignored *)
  Definition near_or (closest : Res (list R)) (p : list R) (opt : option (@Options R)) (b : bool) : Res bool :=
    match closest with
    | Ok q => Ok (if Rlt_dec (vnorm (vsub q p)) (match opt with Some o => op_min o | None => 1 / 1000000 end) then true else b)
    | Err _ => Ok b
    | Panic m => Panic m
    | OutOfFuel => OutOfFuel
    end.
  Lemma on_boundary_near closest p opt b (k : Res bool) : k = Ok b -> bind (on_boundary closest p opt) (fun ob : bool => if ob then Ok true else k) = near_or closest p opt b.
  Proof.
    intros ->. destruct closest as [q|e|e|]; cbn [on_boundary bind near_or]; auto. cbn [sltb ROps]. unfold near_or.
    change (sone / sofz 1000000)%S with (1 / 1000000).
    match goal with |- context [Rltb ?x ?y] => destruct (Rltb_spec x y) as [L|L]; destruct (Rlt_dec x y); try reflexivity; lra end.
  Qed.

  Theorem curve_contains_parity rng c px py opt :
    (0 < op_div (options_or_default opt))%nat -> (0 < op_iters (options_or_default opt))%nat ->
    clear_of rng c px py (options_or_default opt) -> (forall k, 0 <= rng k <= 1) ->
    is_closed c = Ok true -> has_width [c] -> in_control_box [c] [px; py] ->
    exists fuel0 b, crossing_parity (nurbs c 0) (nurbs c 1) px py (dom0 c) (dom1 c) b /\
      forall fuel, (fuel0 <= fuel)%nat ->
        curve_contains rng fuel c [px; py] opt =
          near_or (find_closest_point c [px; py]) [px; py] opt b.
  Proof.
    intros Hdiv Hit Hcl Hr Hclosed Hw Hin. pose proof Hcl as [Cb Cd Cs _ _ _ _].
    assert (Hm : 0 <= maxv).
    { pose proof (co_len c (bc_ok _ _ _ Cb)). pose proof (Cs 0%nat 0%nat ltac:(lia) ltac:(lia)) as K. pose proof (Rabs_pos (cpc c 0 0 / cpc c 2 0)). lra. }
    destruct (spans_box (maxv / 5) [c] ltac:(lra) ltac:(discriminate)) as (b & Eb & Es & Hb & Hc).
    - constructor; auto.
    - constructor; auto.
    - intros e i j [<-|[]]. apply Cs.
    - rewrite single_box in Eb by auto. apply Hc in Hin as Hcon.
      destruct (box_reach [c] px py b ltac:(discriminate) Hw Hin Hm Hcon Es Hb) as (R1 & R2 & R3 & R4 & R5).
      destruct (span_parity rng c px py (rc 0 (bb_size b) * 2) opt Hdiv Hit Hcl Hr R1 (fun u => R5 c u (or_introl eq_refl)) R2 R3 R4)
        as (fuel0 & its & E & P).
      exists fuel0, (Nat.odd (length its)). split; [exact P|]. intros fuel Hf.
      unfold curve_contains. rewrite Hclosed. cbn [bind negb]. rewrite Eb. cbn [bind]. rewrite Hcon. cbn [negb].
      apply on_boundary_near. rewrite (coord_rc eps maxv 0 (bb_size b)). unfold stwo. rs. rewrite E by exact Hf. reflexivity.
  Qed.

  Lemma odd_sum ns : Nat.odd (fold_right Nat.add 0%nat ns) = fold_right xorb false (map Nat.odd ns).
  Proof. induction ns as [|n ns IH]; [reflexivity|]. cbn [fold_right map]. now rewrite Nat.odd_add, IH. Qed.

  Theorem compound_contains_parity rng spans px py opt :
    (0 < op_div (options_or_default opt))%nat -> (0 < op_iters (options_or_default opt))%nat -> spans <> [] ->
    (forall i, (i < length spans)%nat -> clear_of (rng i) (nth i spans (MkCurve 0 0 [] [])) px py (options_or_default opt)) ->
    (forall i k, 0 <= rng i k <= 1) -> has_width spans -> in_control_box spans [px; py] ->
    exists fuel0 bs, Forall2 (fun c b => crossing_parity (nurbs c 0) (nurbs c 1) px py (dom0 c) (dom1 c) b) spans bs /\
      forall fuel, (fuel0 <= fuel)%nat ->
        compound_contains rng fuel spans [px; py] opt =
          near_or (compound_closest_point find_closest_point spans [px; py]) [px; py] opt (fold_right xorb false bs).
  Proof.
    intros Hdiv Hit Hne Hcl Hr Hw Hin.
    assert (Hall : forall c, In c spans -> exists rg, clear_of rg c px py (options_or_default opt)).
    { intros c Hc. apply (In_nth _ _ (MkCurve 0 0 [] [])) in Hc. destruct Hc as (i & Hi & <-). eauto. }
    assert (Hm : 0 <= maxv).
    { destruct spans as [|c l]; [congruence|]. destruct (Hall c (or_introl eq_refl)) as (rg & [Cb Cd Cs _ _ _ _]).
      pose proof (co_len c (bc_ok _ _ _ Cb)). pose proof (Cs 0%nat 0%nat ltac:(lia) ltac:(lia)) as K. pose proof (Rabs_pos (cpc c 0 0 / cpc c 2 0)). lra. }
    destruct (spans_box (maxv / 5) spans ltac:(lra) Hne) as (b & Eb & Es & Hb & Hc).
    - apply Forall_forall. intros c Hi. destruct (Hall c Hi) as (rg & []); auto.
    - apply Forall_forall. intros c Hi. destruct (Hall c Hi) as (rg & []); auto.
    - intros e i j Hi. destruct (Hall e Hi) as (rg & []); auto.
    - apply Hc in Hin as Hcon.
      destruct (box_reach spans px py b Hne Hw Hin Hm Hcon Es Hb) as (R1 & R2 & R3 & R4 & R5).
      set (L := rc 0 (bb_size b) * 2) in *.
      assert (G : forall l k, (forall i, (i < length l)%nat -> clear_of (rng (k + i)%nat) (nth i l (MkCurve 0 0 [] [])) px py (options_or_default opt)) ->
        (forall c u, In c l -> dom0 c <= u <= dom1 c -> nurbs c 0 u <= px + L) ->
        exists fuel0 itss, (forall fuel, (fuel0 <= fuel)%nat ->
            mapM (fun ic => x_ray_intersection (rng (fst ic)) fuel (snd ic) [px; py] L opt) (combine (seq k (length l)) l) = Ok itss) /\
          Forall2 (fun c b => crossing_parity (nurbs c 0) (nurbs c 1) px py (dom0 c) (dom1 c) b) l (map (fun its => Nat.odd (length its)) itss)).
      { induction l as [|c l IH]; intros k Hk HR.
        - exists 0%nat, []. split; [reflexivity|constructor].
        - destruct (IH (S k)) as (f1 & itss & E1 & P1).
          + intros i Hi. specialize (Hk (S i) ltac:(cbn [length]; lia)). cbn [nth] in Hk. now rewrite Nat.add_succ_r in Hk.
          + intros e u He. apply HR. now right.
          + specialize (Hk 0%nat ltac:(cbn [length]; lia)). cbn [nth] in Hk. rewrite Nat.add_0_r in Hk.
            destruct (span_parity (rng k) c px py L opt Hdiv Hit Hk (Hr k) R1 (fun u => HR c u (or_introl eq_refl)) R2 R3 R4)
              as (f2 & its & E2 & P2).
            exists (max f1 f2), (its :: itss). split.
            * intros fuel Hf. cbn [length seq combine mapM fst snd]. rewrite E2 by lia. cbn [bind]. rewrite E1 by lia. reflexivity.
            * cbn [map]. constructor; auto. }
      destruct (G spans 0%nat Hcl R5) as (fuel0 & itss & E & P).
      exists fuel0, (map (fun its => Nat.odd (length its)) itss). split; [exact P|]. intros fuel Hf.
      unfold compound_contains. rewrite Eb. cbn [bind]. rewrite Hcon. cbn [negb].
      apply on_boundary_near. rewrite (coord_rc eps maxv 0 (bb_size b)). unfold stwo. rs. fold L. rewrite E by exact Hf. cbn [bind].
      rewrite odd_sum, map_map. reflexivity.
  Qed.

  (** the answer does not depend on the random numbers: the parity is determined by the curve *)
  Theorem parity_unique c px py M b b' : height_lipschitz c M ->
    crossing_parity (nurbs c 0) (nurbs c 1) px py (dom0 c) (dom1 c) b ->
    crossing_parity (nurbs c 0) (nurbs c 1) px py (dom0 c) (dom1 c) b' -> b = b'.
  Proof.
    intros HM. apply crossing_parity_unique. intros s t H1 H2 H3 Hc.
    exact (lipschitz_ivt (nurbs c 1) M (dom0 c) (dom1 c) py HM s t H1 H2 H3 Hc).
  Qed.
End Real.
