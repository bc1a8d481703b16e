(** * Splitting surfaces (C48) *)
From Coq Require Import Reals Lra Lia ZArith Bool Sorted Permutation.
From Verif Require Import Base BaseFacts Scalar RSum BSplineSpec BSpline KnotModel KnotSpec KnotFacts KnotMisc
  KnotProofs VecFacts MiscModel MiscProofs CurveModel CurveKnotModel CurveSpec CurveProofs CurveGeom CurveGeom2 Boehm Refine
  SplitModel SplitProofs SurfaceModel SurfaceSpec SurfaceProofs SurfaceSample SurfaceDeriv SurfaceRefine.
Open Scope R_scope.

Lemma last_map_Some {A} (l : list A) (d : A) : l <> [] -> last (map Some l) None = Some (nth (length l - 1) l d).
Proof.
  intros H. destruct (exists_last H) as (l' & x & ->). rewrite map_app. cbn [map]. rewrite last_last, app_length. cbn [length].
  rewrite Nat.add_sub, app_nth2, Nat.sub_diag by lia. reflexivity.
Qed.

Section Real.
  Variables eps maxv : R.
  Local Hint Extern 0 (Scalar R) => exact (ROps eps maxv) : typeclass_instances.
  Local Notation dc := (lcurve 0 0 [] []).

  Lemma try_new_keep D p (pts : list (list R)) (k : list R) c : Sorted Rle k -> try_new D p pts k = Ok c -> c = MkCurve D p pts k.
  Proof.
    intros Hs E. pose proof E as E2. unfold try_new, ensure in E2.
    destruct (Nat.ltb_spec p (length pts)); [|discriminate]. cbn [bind] in E2.
    destruct (Nat.eqb_spec (length k) (length pts + p + 1)); [|discriminate].
    rewrite (try_new_sorted eps maxv D p pts k) in E by auto. now injection E.
  Qed.

  Lemma split_line D p k t line : curve_ok (lcurve D p k line) -> curve_eps eps (lcurve D p k line) ->
    dom0 (lcurve D p k line) < t < dom1 (lcurve D p k line) -> off_knots eps (lcurve D p k line) t ->
    exists c' l r sp, refine_row D p k (repeat t (p + 1)) line = Ok c' /\
      find_span k (length line - 1) p t = Ok sp /\
      slice (cpts c') 0 (sp + 1) = Ok (cpts l) /\ slice (cpts c') (sp + 1) (length (cpts c')) = Ok (cpts r) /\
      slice (cknots c') 0 (sp + p + 1 + 1) = Ok (cknots l) /\
      slice (cknots c') (sp + 1) (length (cknots c')) = Ok (cknots r) /\
      cdim l = D /\ cdeg l = p /\ cknots l = firstn (S sp) k ++ repeat t (p + 1) /\ curve_ok l /\ curve_eps eps l /\
      cdim r = D /\ cdeg r = p /\ cknots r = repeat t (p + 1) ++ skipn (S sp) k /\ curve_ok r /\ curve_eps eps r /\
      dom0 l = dom0 (lcurve D p k line) /\ dom1 l = t /\ dom0 r = t /\ dom1 r = dom1 (lcurve D p k line) /\
      (forall i v, dom0 (lcurve D p k line) <= v <= t -> hcoord l i v = hcoord (lcurve D p k line) i v) /\
      (forall i v, t <= v <= dom1 (lcurve D p k line) -> hcoord r i v = hcoord (lcurve D p k line) i v).
  Proof.
    intros Hc He Ht Ho. set (c := lcurve D p k line) in *. pose proof (off_sep eps c t Ho) as Hs.
    destruct (split_parts eps maxv c t Hc He ltac:(lra) Hs) as (l & r & s & E & S1 & S2 & Pl & Pr & Kl & Kr).
    destruct (split_left_ok eps c l t s Hc He Hs S1 S2 Pl Kl) as (Ol & El).
    { apply (off_lt eps); auto; [apply He|lia|apply S2]. }
    destruct (split_right_ok eps c r t s Hc He Hs S1 S2 Pr Kr ltac:(lra)) as (Or & Er).
    destruct (refine_spec eps maxv c (repeat t (p + 1)) Hc He) as (c' & Ec & Sc & _ & _ & Lc).
    { apply sep_refine; auto; [apply He|lra]. }
    unfold try_split in E. change (cdeg c) with p in E at 1. change (cknots c) with k in E at 1.
    pose proof (kclamp_id eps maxv c t Hc ltac:(lra)) as Ek. change (cknots c) with k in Ek. change (cdeg c) with p in Ek.
    rewrite Ek in E. cbn [bind] in E. change (cdeg c) with p in E. rewrite Ec in E. cbn [bind] in E.
    rewrite (last_index_ok c Hc) in E. cbn [bind] in E. change (cknots c) with k in E.
    assert (Esp : find_span k (clast c) p t = Ok s) by (apply (find_span_in eps maxv); auto; apply Hc).
    rewrite Esp in E. cbn [bind] in E.
    destruct (slice (cknots c') 0 (s + p + 1 + 1)) as [k0| | |] eqn:F1; try discriminate. cbn [bind] in E.
    destruct (slice (cknots c') (s + 1) (length (cknots c'))) as [k1| | |] eqn:F2; try discriminate. cbn [bind] in E.
    destruct (slice (cpts c') 0 (s + 1)) as [p0| | |] eqn:F3; try discriminate. cbn [bind] in E.
    destruct (slice (cpts c') (s + 1) (length (cpts c'))) as [p1| | |] eqn:F4; try discriminate. cbn [bind] in E.
    destruct (try_new (cdim c) p p0 k0) as [l'| | |] eqn:F5; try discriminate. cbn [bind] in E.
    destruct (try_new (cdim c) p p1 k1) as [r'| | |] eqn:F6; try discriminate. cbn [bind] in E.
    injection E as <- <-. pose proof (wf_sorted _ (sc_wf _ _ Sc)) as So.
    apply try_new_keep in F5. 2:{ apply slice_inv in F1 as (_ & _ & ->). apply sorted_firstn. exact So. }
    apply try_new_keep in F6. 2:{ apply slice_inv in F2 as (_ & _ & ->). apply sorted_firstn, sorted_skipn. exact So. }
    exists c', l', r', s. split.
    { unfold refine_row. rewrite try_new_sorted; [|apply (co_len c Hc)|apply (curve_len c Hc)|apply (ko_sorted _ _ _ (co_knots c Hc))].
      cbn [bind]. exact Ec. }
    split; [exact Esp|]. rewrite F5, F6 in *. cbn [cpts cknots cdim cdeg] in *.
    split; [exact F3|]. split; [exact F4|]. split; [exact F1|]. split; [exact F2|].
    split; [reflexivity|]. split; [reflexivity|]. split; [exact Kl|]. split; [exact Ol|]. split; [exact El|].
    split; [reflexivity|]. split; [reflexivity|]. split; [exact Kr|]. split; [exact Or|]. split; [exact Er|].
    split; [apply Pl|]. split; [apply Pl|]. split; [apply Pr|]. split; [apply Pr|].
    split; intros i v Hv.
    - apply (part_hcoord c _ (dom0 c) t); auto. apply (off_good eps); auto. apply He.
    - apply (part_hcoord c _ t (dom1 c)); auto. right; left; reflexivity.
  Qed.

  (** the surface over part of the domain *)
  Definition same_on (s s' : Surf R) (a b c d : R) : Prop :=
    u0 s' = a /\ u1 s' = b /\ v0 s' = c /\ v1 s' = d /\
    forall u v, a <= u <= b -> c <= v <= d -> surf_point_at s' u v = surf_point_at s u v.

  (** the same with homogeneous coordinates *)
  Definition same_hom (s s' : Surf R) (a b c d : R) : Prop :=
    u0 s' = a /\ u1 s' = b /\ v0 s' = c /\ v1 s' = d /\
    forall i u v, a <= u <= b -> c <= v <= d -> shcoord s' i u v = shcoord s i u v.

  Lemma same_hom_on s s' a b c d : surf_ok s -> surf_eps eps s -> surf_ok s' -> surf_eps eps s' -> sdim s' = sdim s ->
    u0 s <= a -> b <= u1 s -> v0 s <= c -> d <= v1 s -> same_hom s s' a b c d -> same_on s s' a b c d.
  Proof.
    intros H He H' He' Ed A B C D (E1 & E2 & E3 & E4 & F). do 4 (split; [assumption|]). intros u v Bu Bv.
    apply surf_same_point with (eps := eps); auto; split; lra.
  Qed.

  Lemma split_lines D p k m t (lines : list (list (list R))) : lines <> [] ->
    (forall a, (a < length lines)%nat -> length (nth a lines []) = m /\
       curve_ok (lcurve D p k (nth a lines [])) /\ curve_eps eps (lcurve D p k (nth a lines []))) ->
    dom0 (lcurve D p k (nth 0 lines [])) < t < dom1 (lcurve D p k (nth 0 lines [])) ->
    (forall y, In y k -> eps <= Rabs (y - t)) ->
    exists cs parts ls rs sp k0 k1 m0 m1, find_span k (m - 1) p t = Ok sp /\
      k0 = firstn (S sp) k ++ repeat t (p + 1) /\ k1 = repeat t (p + 1) ++ skipn (S sp) k /\
      mapM (refine_row D p k (repeat t (p + 1))) lines = Ok cs /\
      mapM (fun c => p0 <- slice (cpts c) 0 (sp + 1) ;; p1 <- slice (cpts c) (sp + 1) (length (cpts c)) ;; Ok (p0, p1)) cs
        = Ok parts /\
      map fst parts = map cpts ls /\ map snd parts = map cpts rs /\ length ls = length lines /\ length rs = length lines /\
      (exists lc, last (map Some cs) None = Some lc /\ slice (cknots lc) 0 (sp + p + 1 + 1) = Ok k0 /\
         slice (cknots lc) (sp + 1) (length (cknots lc)) = Ok k1) /\
      (forall a, (a < length lines)%nat ->
        (cdim (nth a ls dc) = D /\ cdeg (nth a ls dc) = p /\ cknots (nth a ls dc) = k0 /\ length (cpts (nth a ls dc)) = m0 /\
           curve_ok (nth a ls dc) /\ curve_eps eps (nth a ls dc)) /\
        (cdim (nth a rs dc) = D /\ cdeg (nth a rs dc) = p /\ cknots (nth a rs dc) = k1 /\ length (cpts (nth a rs dc)) = m1 /\
           curve_ok (nth a rs dc) /\ curve_eps eps (nth a rs dc)) /\
        dom0 (nth a ls dc) = dom0 (lcurve D p k (nth 0 lines [])) /\ dom1 (nth a ls dc) = t /\
        dom0 (nth a rs dc) = t /\ dom1 (nth a rs dc) = dom1 (lcurve D p k (nth 0 lines [])) /\
        (forall i v, dom0 (lcurve D p k (nth 0 lines [])) <= v <= t ->
           hcoord (nth a ls dc) i v = hcoord (lcurve D p k (nth a lines [])) i v) /\
        (forall i v, t <= v <= dom1 (lcurve D p k (nth 0 lines [])) ->
           hcoord (nth a rs dc) i v = hcoord (lcurve D p k (nth a lines [])) i v)).
  Proof.
    intros Hne Hl Ht Ho. assert (L0 : (0 < length lines)%nat) by (destruct lines; [contradiction|cbn; lia]).
    destruct (Hl 0%nat L0) as (M0 & O0 & E0).
    assert (Dm : forall a, (a < length lines)%nat ->
      dom0 (lcurve D p k (nth a lines [])) = dom0 (lcurve D p k (nth 0 lines [])) /\
      dom1 (lcurve D p k (nth a lines [])) = dom1 (lcurve D p k (nth 0 lines []))).
    { intros a Ha. destruct (Hl a Ha) as (Ma & _). unfold dom0, dom1. cbn [lcurve cknots cdeg cpts]. now rewrite Ma, M0. }
    destruct (split_line D p k t (nth 0 lines []) O0 E0 Ht Ho) as (_ & l0 & r0 & sp & _ & Esp & _).
    rewrite M0 in Esp.
    set (k0 := firstn (S sp) k ++ repeat t (p + 1)). set (k1 := repeat t (p + 1) ++ skipn (S sp) k).
    assert (W : forall a, (a < length lines)%nat -> exists q : Curve R * (Curve R * Curve R),
      refine_row D p k (repeat t (p + 1)) (nth a lines []) = Ok (fst q) /\
      (slice (cpts (fst q)) 0 (sp + 1) = Ok (cpts (fst (snd q))) /\
       slice (cpts (fst q)) (sp + 1) (length (cpts (fst q))) = Ok (cpts (snd (snd q))) /\
       slice (cknots (fst q)) 0 (sp + p + 1 + 1) = Ok k0 /\ slice (cknots (fst q)) (sp + 1) (length (cknots (fst q))) = Ok k1) /\
      ((cdim (fst (snd q)) = D /\ cdeg (fst (snd q)) = p /\ cknots (fst (snd q)) = k0 /\
           length (cpts (fst (snd q))) = (length k0 - p - 1)%nat /\
           curve_ok (fst (snd q)) /\ curve_eps eps (fst (snd q))) /\
        (cdim (snd (snd q)) = D /\ cdeg (snd (snd q)) = p /\ cknots (snd (snd q)) = k1 /\
           length (cpts (snd (snd q))) = (length k1 - p - 1)%nat /\
           curve_ok (snd (snd q)) /\ curve_eps eps (snd (snd q))) /\
        dom0 (fst (snd q)) = dom0 (lcurve D p k (nth 0 lines [])) /\ dom1 (fst (snd q)) = t /\
        dom0 (snd (snd q)) = t /\ dom1 (snd (snd q)) = dom1 (lcurve D p k (nth 0 lines [])) /\
        (forall i v, dom0 (lcurve D p k (nth 0 lines [])) <= v <= t ->
           hcoord (fst (snd q)) i v = hcoord (lcurve D p k (nth a lines [])) i v) /\
        (forall i v, t <= v <= dom1 (lcurve D p k (nth 0 lines [])) ->
           hcoord (snd (snd q)) i v = hcoord (lcurve D p k (nth a lines [])) i v))).
    { intros a Ha. destruct (Hl a Ha) as (Ma & Oa & Ea). destruct (Dm a Ha) as (D1 & D2).
      destruct (split_line D p k t (nth a lines []) Oa Ea) as
        (c' & l & r & sp' & A1 & A2 & A3 & A4 & A5 & A6 & A7 & A8 & A9 & A10 & A11 & A12 & A13 & A14 & A15 & A16 & A17 & A18 & A19 & A20 & A21 & A22).
      { rewrite D1, D2. exact Ht. } { exact Ho. }
      rewrite Ma, Esp in A2. injection A2 as <-. fold k0 in A9. fold k1 in A14. rewrite D1 in A17, A21. rewrite D2 in A20, A22.
      exists (c', (l, r)). cbn [fst snd]. split; [exact A1|].
      split. { rewrite A9 in A5. rewrite A14 in A6. auto. }
      split. { do 3 (split; [assumption|]). split; [|auto].
        pose proof (curve_len l A10) as Z. rewrite A8, A9 in Z. lia. }
      split. { do 3 (split; [assumption|]). split; [|auto].
        pose proof (curve_len r A15) as Z. rewrite A13, A14 in Z. lia. }
      do 5 (split; [assumption|]). assumption. }
    assert (Q : exists qs, length qs = length lines /\ forall a, (a < length lines)%nat ->
       (fun a q => 
      refine_row D p k (repeat t (p + 1)) (nth a lines []) = Ok (fst q) /\
      (slice (cpts (fst q)) 0 (sp + 1) = Ok (cpts (fst (snd q))) /\
       slice (cpts (fst q)) (sp + 1) (length (cpts (fst q))) = Ok (cpts (snd (snd q))) /\
       slice (cknots (fst q)) 0 (sp + p + 1 + 1) = Ok k0 /\ slice (cknots (fst q)) (sp + 1) (length (cknots (fst q))) = Ok k1) /\
      ((cdim (fst (snd q)) = D /\ cdeg (fst (snd q)) = p /\ cknots (fst (snd q)) = k0 /\
           length (cpts (fst (snd q))) = (length k0 - p - 1)%nat /\
           curve_ok (fst (snd q)) /\ curve_eps eps (fst (snd q))) /\
        (cdim (snd (snd q)) = D /\ cdeg (snd (snd q)) = p /\ cknots (snd (snd q)) = k1 /\
           length (cpts (snd (snd q))) = (length k1 - p - 1)%nat /\
           curve_ok (snd (snd q)) /\ curve_eps eps (snd (snd q))) /\
        dom0 (fst (snd q)) = dom0 (lcurve D p k (nth 0 lines [])) /\ dom1 (fst (snd q)) = t /\
        dom0 (snd (snd q)) = t /\ dom1 (snd (snd q)) = dom1 (lcurve D p k (nth 0 lines [])) /\
        (forall i v, dom0 (lcurve D p k (nth 0 lines [])) <= v <= t ->
           hcoord (fst (snd q)) i v = hcoord (lcurve D p k (nth a lines [])) i v) /\
        (forall i v, t <= v <= dom1 (lcurve D p k (nth 0 lines [])) ->
           hcoord (snd (snd q)) i v = hcoord (lcurve D p k (nth a lines [])) i v))) a (nth a qs (dc, (dc, dc)))).
    { clearbody k0 k1. revert W. clear. generalize (dom0 (lcurve D p k (nth 0 lines []))) (dom1 (lcurve D p k (nth 0 lines []))).
      intros A B W.
      match type of W with forall a, _ -> exists q, @?P a q => pose (PP := P) end.
      assert (W' : forall a, (a < length lines)%nat -> exists q, PP a q) by exact W.
      change (exists qs, length qs = length lines /\ forall a, (a < length lines)%nat -> PP a (nth a qs (dc, (dc, dc)))).
      clearbody PP. clear W. revert PP W'. generalize (length lines). intros n. induction n as [|n IH]; intros PP W.
      - exists []. split; [reflexivity|]. intros; lia.
      - destruct (IH (fun a => PP (S a))) as (qs & Lq & Vq). { intros a Ha. apply W. lia. }
        destruct (W 0%nat ltac:(lia)) as (q & Hq). exists (q :: qs). split; [cbn; lia|].
        intros [|a] Ha; [exact Hq|]. apply Vq. lia. }
    destruct Q as (qs & Lq & Vq). cbv beta in Vq.
    exists (map fst qs), (map (fun q => (cpts (fst (snd q)), cpts (snd (snd q)))) qs),
      (map (fun q => fst (snd q)) qs), (map (fun q => snd (snd q)) qs), sp, k0, k1, (length k0 - p - 1)%nat, (length k1 - p - 1)%nat.
    split; [exact Esp|]. split; [reflexivity|]. split; [reflexivity|].
    assert (N1 : forall a, (a < length lines)%nat -> nth a (map (fun q : Curve R * (Curve R * Curve R) => fst (snd q)) qs) dc = fst (snd (nth a qs (dc, (dc, dc))))).
    { intros a Ha. now rewrite (nth_map_lt (fun q : Curve R * (Curve R * Curve R) => fst (snd q)) qs a (dc, (dc, dc)) dc) by lia. }
    assert (N2 : forall a, (a < length lines)%nat -> nth a (map (fun q : Curve R * (Curve R * Curve R) => snd (snd q)) qs) dc = snd (snd (nth a qs (dc, (dc, dc))))).
    { intros a Ha. now rewrite (nth_map_lt (fun q : Curve R * (Curve R * Curve R) => snd (snd q)) qs a (dc, (dc, dc)) dc) by lia. }
    assert (N0 : forall a, (a < length lines)%nat -> nth a (map fst qs) dc = fst (nth a qs (dc, (dc, dc)))).
    { intros a Ha. now rewrite (nth_map_lt fst qs a (dc, (dc, dc)) dc) by lia. }
    split.
    { destruct (mapM_nth (refine_row D p k (repeat t (p + 1))) lines [] dc (fun a y => y = fst (nth a qs (dc, (dc, dc))))) as (r & Er & Lr & Vr).
      { intros a Ha. exists (fst (nth a qs (dc, (dc, dc)))). split; [apply (Vq a Ha)|reflexivity]. }
      rewrite Er. f_equal. apply (list_ext dc); [rewrite map_length; lia|]. intros i Hi. rewrite Vr, N0 by lia. reflexivity. }
    split.
    { match goal with |- mapM ?f _ = _ => destruct (mapM_nth f (map fst qs) dc ([], [])
        (fun a y => y = (cpts (fst (snd (nth a qs (dc, (dc, dc))))), cpts (snd (snd (nth a qs (dc, (dc, dc)))))))) as (r & Er & Lr & Vr) end.
      { intros a Ha. rewrite map_length in Ha. rewrite N0 by lia. destruct (Vq a ltac:(lia)) as (_ & (V1 & V2 & _) & _).
        rewrite V1. cbn [bind]. rewrite V2. cbn [bind]. eauto. }
      rewrite Er. f_equal. rewrite map_length in Lr, Vr. apply (list_ext ([], [])); [rewrite map_length; lia|]. intros i Hi. rewrite Vr by lia.
      now rewrite (nth_map_lt (fun q : Curve R * (Curve R * Curve R) => (cpts (fst (snd q)), cpts (snd (snd q)))) qs i (dc, (dc, dc)) ([], [])) by lia. }
    split; [now rewrite !map_map|]. split; [now rewrite !map_map|].
    split; [now rewrite map_length|]. split; [now rewrite map_length|].
    split.
    { exists (fst (nth (length qs - 1) qs (dc, (dc, dc)))). split.
      - rewrite (last_map_Some _ dc) by (destruct qs; [cbn in Lq; lia|discriminate]). rewrite map_length, N0 by lia. reflexivity.
      - destruct (Vq (length qs - 1)%nat ltac:(lia)) as (_ & (_ & _ & V3 & V4) & _). auto. }
    intros a Ha. rewrite N1, N2 by auto. apply (Vq a Ha).
  Qed.

  Lemma surf_split_v_full s t : surf_ok s -> surf_eps eps s -> v0 s < t < v1 s ->
    (forall y, In y (svk s) -> eps <= Rabs (y - t)) ->
    exists s0 s1 sp, surf_split s t DirV = Ok (s0, s1) /\
      surf_ok s0 /\ surf_eps eps s0 /\ surf_ok s1 /\ surf_eps eps s1 /\
      sdim s0 = sdim s /\ sdu s0 = sdu s /\ sdv s0 = sdv s /\ sdim s1 = sdim s /\ sdu s1 = sdu s /\ sdv s1 = sdv s /\
      suk s0 = suk s /\ suk s1 = suk s /\
      find_span (svk s) (ncol s - 1) (sdv s) t = Ok sp /\
      svk s0 = firstn (S sp) (svk s) ++ repeat t (sdv s + 1) /\ svk s1 = repeat t (sdv s + 1) ++ skipn (S sp) (svk s) /\
      same_hom s s0 (u0 s) (u1 s) (v0 s) t /\ same_hom s s1 (u0 s) (u1 s) t (v1 s).
  Proof.
    intros H He Ht Ho. pose proof (so_u s H) as Hu. pose proof (so_v s H) as Hv.
    destruct (vrow_dom s 0 H ltac:(lia)) as (D1 & D2).
    destruct (split_lines (sdim s) (sdv s) (svk s) (ncol s) t (snet s)) as
      (cs & parts & ls & rs & sp & k0 & k1 & m0 & m1 & Esp & Q0 & Q1 & Ec & Ep & P0 & P1 & L0 & L1 & (lc & El & K0 & K1) & V).
    { now apply net_ne. }
    { intros a Ha. split; [now apply row_len|]. split; [now apply vrow_ok|now apply vrow_eps]. }
    { change (lcurve (sdim s) (sdv s) (svk s) (nth 0 (snet s) [])) with (vrow s 0). rewrite D1, D2. exact Ht. }
    { exact Ho. }
    change (lcurve (sdim s) (sdv s) (svk s) (nth 0 (snet s) [])) with (vrow s 0) in V. rewrite D1, D2 in V.
    fold (nrow s) in L0, L1, V.
    unfold surf_split. cbn [bind]. rewrite (klast_index_ok _ _ _ (so_vk s H)). cbn [bind]. rewrite Esp. cbn [bind].
    rewrite Ec. cbn [bind]. rewrite Ep. cbn [bind]. rewrite El. cbn [ok_or bind]. rewrite K0. cbn [bind]. rewrite K1. cbn [bind].
    rewrite P0, P1.
    destruct (surf_of_rows eps (sdim s) (sdv s) k0 m0 ls) with (du := sdu s) (uk := suk s) as (O & Oe & On & Oc & Or).
    { intros ->. cbn in L0. lia. } { intros a Ha c ->. apply V. lia. } { lia. } { rewrite L0. apply H. } { rewrite L0. apply He. }
    destruct (surf_of_rows eps (sdim s) (sdv s) k1 m1 rs) with (du := sdu s) (uk := suk s) as (O' & Oe' & On' & Oc' & Or').
    { intros ->. cbn in L1. lia. } { intros a Ha c ->. apply V. lia. } { lia. } { rewrite L1. apply H. } { rewrite L1. apply He. }
    set (s0 := MkSurf (sdim s) (sdu s) (sdv s) (suk s) k0 (map cpts ls)) in *.
    set (s1 := MkSurf (sdim s) (sdu s) (sdv s) (suk s) k1 (map cpts rs)) in *.
    exists s0, s1, sp. split; [reflexivity|]. do 4 (split; [assumption|]). do 8 (split; [reflexivity|]). split; [first [exact Esp|reflexivity]|]. split; [exact Q0|]. split; [exact Q1|].
    destruct (V 0%nat ltac:(lia)) as (_ & _ & W1 & W2 & W3 & W4 & _). rewrite <- Or in W1, W2 by lia. rewrite <- Or' in W3, W4 by lia.
    destruct (vrow_dom s0 0 O ltac:(lia)) as (X1 & X2). destruct (vrow_dom s1 0 O' ltac:(lia)) as (X3 & X4).
    rewrite X1 in W1. rewrite X2 in W2. rewrite X3 in W3. rewrite X4 in W4.
    assert (U : u0 s0 = u0 s /\ u1 s0 = u1 s /\ u0 s1 = u0 s /\ u1 s1 = u1 s).
    { unfold u0, u1. rewrite On, On', L0, L1. auto. }
    destruct U as (U1 & U2 & U3 & U4).
    split; (split; [assumption|]; split; [assumption|]; split; [assumption|]; split; [assumption|]); intros i u v Bu Bv; apply rows_same; auto; try lia; intros a Ha.
    - rewrite Or by lia. apply V; auto.
    - rewrite Or' by lia. apply V; auto.
  Qed.

  Theorem surf_split_v s t : surf_ok s -> surf_eps eps s -> v0 s < t < v1 s ->
    (forall y, In y (svk s) -> eps <= Rabs (y - t)) ->
    exists s0 s1, surf_split s t DirV = Ok (s0, s1) /\
      surf_ok s0 /\ surf_eps eps s0 /\ surf_ok s1 /\ surf_eps eps s1 /\
      sdu s0 = sdu s /\ sdv s0 = sdv s /\ sdu s1 = sdu s /\ sdv s1 = sdv s /\
      same_on s s0 (u0 s) (u1 s) (v0 s) t /\ same_on s s1 (u0 s) (u1 s) t (v1 s).
  Proof.
    intros H He Ht Ho. destruct (surf_split_v_full s t H He Ht Ho) as (s0 & s1 & sp & E & O0 & P0 & O1 & P1 & A1 & A2 & A3 & A4 & A5 & A6 & _ & _ & _ & _ & _ & S0 & S1).
    exists s0, s1. split; [exact E|]. do 4 (split; [assumption|]). do 4 (split; [assumption|]).
    split; apply same_hom_on; auto; lra.
  Qed.

  Lemma surf_split_u_full s t : surf_ok s -> surf_eps eps s -> u0 s < t < u1 s ->
    (forall y, In y (suk s) -> eps <= Rabs (y - t)) ->
    exists s0 s1 sp, surf_split s t DirU = Ok (s0, s1) /\
      surf_ok s0 /\ surf_eps eps s0 /\ surf_ok s1 /\ surf_eps eps s1 /\
      sdim s0 = sdim s /\ sdu s0 = sdu s /\ sdv s0 = sdv s /\ sdim s1 = sdim s /\ sdu s1 = sdu s /\ sdv s1 = sdv s /\
      svk s0 = svk s /\ svk s1 = svk s /\
      find_span (suk s) (nrow s - 1) (sdu s) t = Ok sp /\
      suk s0 = firstn (S sp) (suk s) ++ repeat t (sdu s + 1) /\ suk s1 = repeat t (sdu s + 1) ++ skipn (S sp) (suk s) /\
      same_hom s s0 (u0 s) t (v0 s) (v1 s) /\ same_hom s s1 t (u1 s) (v0 s) (v1 s).
  Proof.
    intros H He Ht Ho. pose proof (so_u s H) as Hu. pose proof (so_v s H) as Hv.
    destruct (ucol_dom s 0) as (D1 & D2). destruct (net_cols s H) as (cols & Ecols & Lc & Vc).
    destruct (Vc 0%nat ltac:(lia)) as (_ & Z0).
    destruct (split_lines (sdim s) (sdu s) (suk s) (nrow s) t cols) as
      (cs & parts & ls & rs & sp & k0 & k1 & m0 & m1 & Esp & Q0 & Q1 & Ec & Ep & P0 & P1 & L0 & L1 & (lc & El & K0 & K1) & V).
    { intros ->. cbn in Lc. lia. }
    { intros b Hb. destruct (Vc b ltac:(lia)) as (Q1 & ->). split; [exact Q1|]. split; [apply ucol_ok; auto; lia|now apply ucol_eps]. }
    { rewrite Z0, D1, D2. exact Ht. }
    { exact Ho. }
    rewrite Z0, D1, D2 in V. rewrite Lc in L0, L1, V.
    unfold surf_split. rewrite Ecols. cbn [bind]. rewrite (klast_index_ok _ _ _ (so_uk s H)). cbn [bind]. rewrite Esp. cbn [bind].
    rewrite Ec. cbn [bind]. rewrite Ep. cbn [bind]. rewrite El. cbn [ok_or bind]. rewrite K0. cbn [bind]. rewrite K1. cbn [bind].
    rewrite P0, P1.
    destruct (surf_of_cols eps (sdim s) (sdu s) k0 m0 ls) with (dv := sdv s) (vk := svk s) as (n0 & N0 & O & Oe & On & Oc & Or).
    { intros ->. cbn in L0. lia. } { intros a Ha c ->. apply V. lia. } { lia. } { rewrite L0. apply H. } { rewrite L0. apply He. }
    destruct (surf_of_cols eps (sdim s) (sdu s) k1 m1 rs) with (dv := sdv s) (vk := svk s) as (n1 & N1 & O' & Oe' & On' & Oc' & Or').
    { intros ->. cbn in L1. lia. } { intros a Ha c ->. apply V. lia. } { lia. } { rewrite L1. apply H. } { rewrite L1. apply He. }
    rewrite N0. cbn [bind]. rewrite N1. cbn [bind].
    set (s0 := MkSurf (sdim s) (sdu s) (sdv s) k0 (svk s) n0) in *.
    set (s1 := MkSurf (sdim s) (sdu s) (sdv s) k1 (svk s) n1) in *.
    exists s0, s1, sp. split; [reflexivity|]. do 4 (split; [assumption|]). do 8 (split; [reflexivity|]). split; [first [exact Esp|reflexivity]|]. split; [exact Q0|]. split; [exact Q1|].
    destruct (V 0%nat ltac:(lia)) as (_ & _ & W1 & W2 & W3 & W4 & _). rewrite <- Or in W1, W2 by lia. rewrite <- Or' in W3, W4 by lia.
    destruct (ucol_dom s0 0) as (X1 & X2). destruct (ucol_dom s1 0) as (X3 & X4).
    rewrite X1 in W1. rewrite X2 in W2. rewrite X3 in W3. rewrite X4 in W4.
    assert (U : v0 s0 = v0 s /\ v1 s0 = v1 s /\ v0 s1 = v0 s /\ v1 s1 = v1 s).
    { unfold v0, v1. rewrite Oc, Oc', L0, L1. auto. }
    destruct U as (U1 & U2 & U3 & U4).
    split; (split; [assumption|]; split; [assumption|]; split; [assumption|]; split; [assumption|]); intros i u v Bu Bv; apply cols_same; auto; try lia; intros b Hb.
    - rewrite Or by lia. destruct (Vc b Hb) as (_ & <-). apply V; auto.
    - rewrite Or' by lia. destruct (Vc b Hb) as (_ & <-). apply V; auto.
  Qed.

  Theorem surf_split_u s t : surf_ok s -> surf_eps eps s -> u0 s < t < u1 s ->
    (forall y, In y (suk s) -> eps <= Rabs (y - t)) ->
    exists s0 s1, surf_split s t DirU = Ok (s0, s1) /\
      surf_ok s0 /\ surf_eps eps s0 /\ surf_ok s1 /\ surf_eps eps s1 /\
      sdu s0 = sdu s /\ sdv s0 = sdv s /\ sdu s1 = sdu s /\ sdv s1 = sdv s /\
      same_on s s0 (u0 s) t (v0 s) (v1 s) /\ same_on s s1 t (u1 s) (v0 s) (v1 s).
  Proof.
    intros H He Ht Ho. destruct (surf_split_u_full s t H He Ht Ho) as (s0 & s1 & sp & E & O0 & P0 & O1 & P1 & A1 & A2 & A3 & A4 & A5 & A6 & _ & _ & _ & _ & _ & S0 & S1).
    exists s0, s1. split; [exact E|]. do 4 (split; [assumption|]). do 4 (split; [assumption|]).
    split; apply same_hom_on; auto; lra.
  Qed.
End Real.
