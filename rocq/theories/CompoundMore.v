(** * Compound curves: closedness, length, bounding box and tessellation *)
From Coq Require Import Reals Lra Lia List Sorted.
From Verif Require Import Base BaseFacts Scalar RSum BSpline KnotModel KnotSpec KnotFacts VecFacts
  CurveModel CurveKnotModel CurveSpec CurveProofs CurveGeom CurveGeom2 BBoxModel BBoxProofs MiscProofs
  CompoundModel CompoundProofs TessCurveModel ClosestModel NewtonProofs NewtonMain CurveMore.
Import ListNotations.

(** ** Tessellation, for any scalar type *)
Section Any.
  Context {T : Type} {SO : Scalar T}.
  Variable rng : nat -> T.

  (** the spans are tessellated one after the other, drawing random numbers from the same stream *)
  Fixpoint in_turn (fuel : nat) (tol : option T) (cs : list (Curve T)) (k : nat) (tess : list (list (list T))) (k' : nat) : Prop :=
    match cs, tess with
    | [], [] => k' = k
    | c :: cs, t :: tess => exists k1, tessellate rng fuel c tol k = Ok (t, k1) /\ in_turn fuel tol cs k1 tess k'
    | _, _ => False
    end.
  Lemma spans_in_turn fuel tol : forall cs k tess k', tessellate_spans rng fuel cs tol k = Ok (tess, k') -> in_turn fuel tol cs k tess k'.
  Proof.
    induction cs as [|c cs IH]; intros k tess k' E; cbn [tessellate_spans] in E; [injection E as <- <-; reflexivity|].
    apply bind_ok in E. destruct E as ((t, k1) & E1 & E). apply bind_ok in E. destruct E as ((rest, k2) & E2 & E). injection E as <- <-.
    exists k1. split; [exact E1|]. now apply IH.
  Qed.
  (** every vertex but the last of each span, in order *)
  Fixpoint inits {A} (tess : list (list A)) : list A :=
    match tess with [] => [] | t :: rest => firstn (length t - 1) t ++ inits rest end.
  Lemma inits_flat {A} (tess : list (list A)) : inits tess = flat_map (@removelast A) tess.
  Proof.
    assert (R : forall l : list A, firstn (length l - 1) l = removelast l).
    { induction l as [|x [|y l] IH]; [reflexivity|reflexivity|]. cbn [length] in *. replace (S (S (length l)) - 1)%nat with (S (S (length l) - 1)) by lia.
      cbn [firstn]. rewrite IH. reflexivity. }
    induction tess as [|t tess IH]; [reflexivity|]. cbn. now rewrite R, IH.
  Qed.
  Lemma join_open_inits {A} d : forall tess : list (list A), tess <> [] -> Forall (fun t => t <> []) tess ->
    join_open tess = inits tess ++ [last (last tess []) d].
  Proof.
    induction tess as [|t tess IH]; intros N F; [congruence|]. inversion F as [|? ? Ht Ft]; subst. destruct tess as [|r tess].
    - rewrite inits_flat. cbn. rewrite app_nil_r. now apply app_removelast_last.
    - change (join_open (t :: r :: tess)) with (removelast t ++ join_open (r :: tess)). rewrite IH by (auto; congruence).
      rewrite !inits_flat. cbn [flat_map]. rewrite <- !app_assoc. reflexivity.
  Qed.

  Theorem tessellate_compound_join fuel cs tol k pts k' d : tessellate_compound rng fuel cs tol k = Ok (pts, k') ->
    exists b tess, compound_is_closed cs = Ok b /\ in_turn fuel tol cs k tess k' /\
      (b = true -> pts = inits tess ++ match inits tess with [] => [] | p :: _ => [p] end /\ hd d pts = last pts d) /\
      (b = false -> tess <> [] -> Forall (fun t => t <> []) tess -> pts = inits tess ++ [last (last tess []) d]).
  Proof.
    unfold tessellate_compound. intros E. apply bind_ok in E. destruct E as (b & Eb & E). apply bind_ok in E. destruct E as ((tess & k1) & Et & E).
    injection E as <- <-. exists b, tess. split; [exact Eb|]. split; [now apply spans_in_turn|]. split.
    - intros ->. unfold join_closed. rewrite <- inits_flat. destruct (inits tess) as [|p l]; [split; reflexivity|]. split; [reflexivity|].
      cbn [hd]. now rewrite last_last.
    - intros -> N F. now apply join_open_inits.
  Qed.
End Any.

Open Scope R_scope.
Section Real.
  Variables eps maxv : R.
  Local Hint Extern 0 (Scalar R) => exact (ROps eps maxv) : typeclass_instances.
  Local Notation span_good := (span_good eps).

  (** ** Closedness *)
  Theorem compound_is_closed_spec c l : Forall span_good (c :: l) -> Forall (fun x => cdim x = cdim c) l ->
    exists b p q, compound_is_closed (c :: l) = Ok b /\ point_at c (dom0 c) = Ok p /\
      point_at (last (c :: l) c) (dom1 (last (c :: l) c)) = Ok q /\
      (b = true <-> sqrt (dist2 p q) < 10 * eps).
  Proof.
    intros F D. inversion F as [|? ? Gc Gl]; subst.
    assert (Le : span_good (last (c :: l) c) /\ cdim (last (c :: l) c) = cdim c).
    { destruct l as [|x l]; [auto|]. change (last (c :: x :: l) c) with (last (x :: l) c).
      assert (I : In (last (x :: l) c) (x :: l)).
      { rewrite (app_removelast_last c (l := x :: l)) at 2 by congruence. apply in_or_app. right. now left. }
      rewrite Forall_forall in Gl, D. auto. }
    destruct Le as (Ge & De). set (e := last (c :: l) c) in *.
    pose proof (dom_le c (proj1 Gc)). pose proof (dom_le e (proj1 Ge)).
    destruct (good_point eps maxv c (dom0 c) Gc) as (p & Ep & Lp); [lra|]. destruct (good_point eps maxv e (dom1 e) Ge) as (q & Eq & Lq); [lra|].
    unfold compound_is_closed. fold e. rewrite !knots_domain_ok by (apply Gc || apply Ge). cbn [bind]. rewrite Ep. cbn [bind]. rewrite Eq. cbn [bind].
    eexists _, p, q. split; [reflexivity|]. split; [reflexivity|]. split; [reflexivity|].
    rewrite (vnorm_dist2 eps maxv) by congruence. rs. change (sofz 10) with 10.
    destruct (Rltb_spec (sqrt (dist2 p q)) (eps * 10)); split; intros; try discriminate; try reflexivity; lra.
  Qed.

  (** ** Length *)
  Fixpoint sum (l : list R) : R := match l with [] => 0 | x :: l => x + sum l end.
  Theorem compound_length_spec (len : Curve R -> Res R) spans t : compound_length len spans = Ok t <->
    exists ls, Forall2 (fun c x => len c = Ok x) spans ls /\ t = sum ls.
  Proof.
    assert (S : forall ls a, fold_left sadd ls a = a + sum ls).
    { induction ls as [|x ls IH]; intros a; cbn [fold_left sum]; [ring|]. rewrite IH. rs. ring. }
    unfold compound_length. split.
    - intros E. apply bind_ok in E. destruct E as (ls & El & E). injection E as <-. exists ls. split; [now apply mapM_inv|]. rewrite S. rs. ring.
    - intros (ls & F & ->). assert (El : mapM len spans = Ok ls).
      { clear S. induction F as [|c x spans ls Hc F IH]; [reflexivity|]. cbn [mapM]. rewrite Hc. cbn [bind]. rewrite IH. reflexivity. }
      rewrite El. cbn [bind]. f_equal. rewrite S. rs. ring.
  Qed.

  (** ** Bounding box *)
  Theorem compound_box D spans : Forall span_good spans -> Forall (fun c => cdim c = S D) spans ->
    Forall (fun c => Forall (fun q => bounded maxv D (map (fun x => x / rc D q) q)) (cpts c)) spans ->
    exists b, bb_of_compound D spans = Ok b /\
      forall c u, In c spans -> dom0 c <= u <= dom1 c -> exists p, point_at c u = Ok p /\ in_box D b p.
  Proof.
    intros G Dm B.
    set (aff := fun c : Curve R => map (fun q => vdivs (firstn D q) (rc D q)) (cpts c)).
    assert (E : mapM dehomogenized_control_points spans = Ok (map aff spans)).
    { apply mapM_ok. intros c Hc. rewrite Forall_forall in G, Dm. specialize (G c Hc). specialize (Dm c Hc). destruct G as (_ & _ & Hw).
      unfold dehomogenized_control_points. apply (mapM_ok _ (fun q => vdivs (firstn D q) (rc D q))).
      intros q Hq. apply (In_nth _ _ []) in Hq. destruct Hq as (j & Hj & <-). specialize (Hw j Hj). unfold cpc in Hw.
      unfold dehomogenize. replace (cdim c - 1)%nat with D in * by lia. rewrite coord_rc. rs. destruct (Reqb_spec (rc D (nth j (cpts c) [])) 0); [lra|reflexivity]. }
    unfold bb_of_compound. rewrite E. cbn [bind]. eexists. split; [reflexivity|]. intros c u Hc Hu.
    pose proof (proj1 (Forall_forall _ _) G c Hc) as (H1 & H2 & H3). pose proof (proj1 (Forall_forall _ _) Dm c Hc) as Dc. cbv beta in Dc.
    assert (D1 : (cdim c - 1)%nat = D) by lia. pose proof (co_len c H1) as Hl.
    set (pts := concat (map aff spans)).
    assert (Nn : forall c, In c spans -> forall i j, (i < D)%nat -> (j < length (cpts c))%nat -> rc i (nth j (aff c) []) = cpc c i j / cpc c D j).
    { intros e _ i j Hi Hj. unfold aff. rewrite (nth_map_lt _ _ j [] []) by auto. rewrite rc_vdivs, rc_firstn by auto. reflexivity. }
    assert (Bp : Forall (bounded maxv D) pts).
    { apply Forall_forall. intros q Hq. apply in_concat in Hq. destruct Hq as (l & Hl0 & Hq). apply in_map_iff in Hl0. destruct Hl0 as (e & <- & He).
      apply (In_nth _ _ []) in Hq. destruct Hq as (j & Hj & <-). unfold aff in Hj. rewrite map_length in Hj. intros i Hi. rewrite Nn by auto.
      rewrite Forall_forall in B, Dm, G. specialize (B e He). specialize (Dm e He). pose proof (co_pts e (proj1 (G e He))) as Hpt.
      rewrite Forall_forall in B, Hpt. specialize (B (nth j (cpts e) []) ltac:(now apply nth_In) i Hi). specialize (Hpt (nth j (cpts e) []) ltac:(now apply nth_In)). cbv beta in Hpt.
      unfold rc at 1 3 in B. rewrite !(nth_map_lt _ (nth j (cpts e) []) i 0 0) in B by lia. exact B. }
    assert (I : forall j, (j < length (cpts c))%nat -> In (nth j (aff c) []) pts).
    { intros j Hj. apply in_concat. exists (aff c). split; [now apply in_map|]. apply nth_In. unfold aff. now rewrite map_length. }
    destruct (bb_points_tight eps maxv D pts) as (T1 & _); auto.
    { intros Z. specialize (I 0%nat ltac:(lia)). rewrite Z in I. destruct I. }
    destruct (good_point eps maxv c u) as (p & Ep & _); [split; auto|exact Hu|]. exists p. split; [exact Ep|]. intros i Hi.
    destruct (control_box eps maxv c u i (rc i (bmin (bb_points D pts))) (rc i (bmax (bb_points D pts))) H1 H2 H3 Hu ltac:(lia)) as (p' & Ep' & Hb).
    - intros j Hj. rewrite D1, <- Nn by auto. rewrite Forall_forall in T1. apply (T1 _ (I j Hj)). exact Hi.
    - rewrite Ep in Ep'. injection Ep' as <-. exact Hb.
  Qed.

  (** ** The closest point of an open curve is a point of the curve *)
  Theorem find_closest_point_on c p : 0 < eps -> curve_ok c -> curve_eps eps c -> pos_weights c -> (1 <= cdeg c)%nat ->
    length p = (cdim c - 1)%nat -> is_closed c = Ok false ->
    exists t q, find_closest_parameter c p = Ok t /\ dom0 c <= t <= dom1 c /\ find_closest_point c p = Ok q /\
      length q = (cdim c - 1)%nat /\ forall i, (i < cdim c - 1)%nat -> rc i q = nurbs c i t.
  Proof.
    intros He Hc Hce Hw Hd Lp Hcl. destruct (closest_parameter_total eps maxv c p) as (t & Et & Ht); auto.
    destruct (guess_points eps maxv c t) as (q & Eq & Lq & Vq); auto. exists t, q. split; [exact Et|]. split; [exact Ht|].
    unfold find_closest_point. rewrite Et. cbn [bind]. auto.
  Qed.
End Real.
