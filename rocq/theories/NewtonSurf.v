(** * Closest parameter on a surface: the answer stays in the domain and is never worse than any vertex of the tessellation *)
From Coq Require Import Reals Lra Lia.
From Verif Require Import Base BaseFacts Scalar RSum KnotModel KnotSpec KnotFacts VecFacts
  CurveModel CurveSpec CurveShapes MiscModel MiscProofs SurfaceModel SurfaceSpec SurfaceProofs TraversalModel TraversalSurface ClosestModel.
Open Scope R_scope.

Section Real.
  Variables eps maxv : R.
  Local Hint Extern 0 (Scalar R) => exact (ROps eps maxv) : typeclass_instances.

  Lemma surf_point_at_length s u v p : surf_ok s -> surf_point_at s u v = Ok p -> length p = (sdim s - 1)%nat.
  Proof.
    intros H E. unfold surf_point_at in E. destruct (surf_point s u v) as [h| | |] eqn:Eh; cbn [bind] in E; try discriminate.
    assert (Lh : length h = sdim s).
    { unfold surf_point in Eh. do 8 (apply bind_ok in Eh; destruct Eh as (? & _ & Eh)). unfold surf_combine in Eh.
      unfold for_incl in Eh.
      refine (for_partial (fun _ x => length x = sdim s) _ _ _ _ _ _ _ Eh); [apply repeat_length|].
      intros l pos pos' _ Lp Es. apply bind_ok in Es. destruct Es as (temp & Et & Es). apply bind_ok in Es. destruct Es as (b & _ & Es).
      injection Es as <-. apply vadd_length; [exact Lp|]. apply vscale_length.
      unfold for_incl in Et.
      refine (for_partial (fun _ x => length x = sdim s) _ _ _ _ _ _ _ Et); [apply repeat_length|].
      intros k t t' _ Lt Ek. apply bind_ok in Ek. destruct Ek as (row & Er & Ek). apply bind_ok in Ek. destruct Ek as (q & Eq & Ek).
      apply bind_ok in Ek. destruct Ek as (b' & _ & Ek). injection Ek as <-. apply vadd_length; [exact Lt|]. apply vscale_length.
      pose proof (so_pts s H) as Hp. rewrite Forall_forall in Hp. apply get_inv in Er. destruct Er as (Ir & Er). rewrite (Er []) in *.
      specialize (Hp _ (nth_In _ [] Ir)). rewrite Forall_forall in Hp. apply get_inv in Eq. destruct Eq as (Iq & Eq). rewrite (Eq []). apply Hp, nth_In, Iq. }
    unfold dehomogenize in E. destruct (seqb _ _); cbn [unwrap] in E; [discriminate|]. injection E as <-.
    apply vdivs_length. rewrite firstn_length. lia.
  Qed.

  (** distance of the surface at a parameter from [p], as a relation *)
  Definition dist_at (s : Surf R) (p : list R) (x : R * R) (d : R) : Prop :=
    exists q, surf_point_at s (fst x) (snd x) = Ok q /\ d = rdist q p.

  Lemma surf_cost_dist s p x d : surf_ok s -> length p = (sdim s - 1)%nat -> surf_cost s p x = Ok d -> dist_at s p x d.
  Proof.
    intros H Lp E. unfold surf_cost in E. apply bind_ok in E. destruct E as (q & Eq & E). injection E as <-. exists q. split; [exact Eq|].
    apply vnorm_rdist. rewrite (surf_point_at_length _ _ _ _ H Eq). now symmetry.
  Qed.

  (** ** The iteration *)
  Section Iter.
    Variables (du dv : R * R) (closed : bool * bool) (cost : R * R -> Res R) (move : R * R -> Res (option (R * R))).

    Variable c0 : R.

    Definition sn_inv (st : SNState) : Prop :=
      cost (sn_x st) = Ok (sn_cost st) /\
      exists b bc, sn_best st = Some (b, bc) /\ cost b = Ok bc /\ bc <= sn_cost st /\ sn_cost st <= c0.

    Lemma sn_next_inv st st' : sn_inv st -> surf_newton_next du dv closed cost move st = Ok st' -> sn_inv st'.
    Proof.
      intros (H1 & b & bc & H2 & H3 & H4 & H5) E. unfold surf_newton_next in E. apply bind_ok in E. destruct E as (m & _ & E).
      destruct m as [(u, v)|].
      2:{ injection E as <-. split; [exact H1|]. now exists b, bc. }
      apply bind_ok in E. destruct E as (c & Ec & E). revert E. rs. destruct (Rltb_spec (sn_cost st) c) as [C|C]; intros E; injection E as <-.
      - split; [exact H1|]. now exists b, bc.
      - split; [exact Ec|]. cbn [sn_best sn_cost sn_x]. rewrite H2. unfold best_update. rs. destruct (Rltb_spec c bc).
        + eexists _, _. split; [reflexivity|]. split; [exact Ec|]. lra.
        + exists b, bc. split; [reflexivity|]. split; [exact H3|]. lra.
    Qed.

    Lemma sn_run_inv (I : SNState -> Prop) n st st' :
      (forall s s', I s -> surf_newton_next du dv closed cost move s = Ok s' -> I s') ->
      I st -> surf_newton_run n (surf_newton_next du dv closed cost move) st = Ok st' -> I st'.
    Proof.
      intros Step. revert st. induction n as [|n IH]; intros st H E; cbn [surf_newton_run] in E; [injection E as <-; exact H|].
      apply bind_ok in E. destruct E as (s1 & E1 & E). pose proof (Step _ _ H E1) as H1.
      destruct (sltb _ _); [injection E as <-; exact H1|]. now apply (IH s1).
    Qed.
  End Iter.

  Definition in_box (d0 d1 : R * R) (x : R * R) : Prop := fst d0 <= fst x <= snd d0 /\ fst d1 <= snd x <= snd d1.

  Lemma constrain_in d closed x : 0 <= eps -> eps <= snd d - fst d -> closed = false -> fst d <= surf_constrain d closed x <= snd d.
  Proof.
    intros He Hd ->. destruct d as (a, b). cbn [fst snd] in *. unfold surf_constrain. rs.
    destruct (Rltb_spec x a); [lra|]. destruct (Rltb_spec b x); lra.
  Qed.

  (** the parameters and the best parameters stay in the box *)
  Lemma sn_box du dv cost move st st' : 0 <= eps -> eps <= snd du - fst du -> eps <= snd dv - fst dv ->
    (in_box du dv (sn_x st) /\ forall b c, sn_best st = Some (b, c) -> in_box du dv b) ->
    surf_newton_next du dv (false, false) cost move st = Ok st' ->
    in_box du dv (sn_x st') /\ forall b c, sn_best st' = Some (b, c) -> in_box du dv b.
  Proof.
    intros He Hu Hv (B1 & B2) E. unfold surf_newton_next in E. apply bind_ok in E. destruct E as (m & _ & E).
    destruct m as [(u, v)|]; [|injection E as <-; now split].
    apply bind_ok in E. destruct E as (c & Ec & E). destruct (sltb _ _); injection E as <-; [now split|].
    assert (B : in_box du dv (surf_constrain du (fst (false, false)) u, surf_constrain dv (snd (false, false)) v)).
    { split; cbn [fst snd]; apply constrain_in; auto. }
    split; [exact B|]. cbn [sn_best]. unfold best_update. intros b c' Eb.
    destruct (sn_best st) as [(b', bc)|] eqn:Es.
    - destruct (sltb _ _); injection Eb as <- <-; [exact B|]. apply (B2 _ _ eq_refl).
    - destruct (seqb _ _); [|discriminate]. injection Eb as <- <-. exact B.
  Qed.

  (** ** The first guess *)
  Lemma best_vertex_in (p : list R) verts best uv : best_vertex p verts best uv = uv \/ exists x q, In (x, q) verts /\ best_vertex p verts best uv = x.
  Proof.
    revert best uv. induction verts as [|(x, q) l IH]; intros best uv; [now left|]. cbn [best_vertex].
    destruct (match best with None => _ | Some b => _ end).
    - right. destruct (IH (Some (vnorm2 (vsub p q))) x) as [->|(y & r & I & ->)]; [exists x, q|exists y, r]; split; auto; [now left|now right].
    - destruct (IH best uv) as [->|(y & r & I & ->)]; [now left|]. right. exists y, r. split; [now right|auto].
  Qed.

  Lemma best_vertex_min (p : list R) verts best uv : verts <> [] \/ best <> None ->
    exists m, (forall x q, In (x, q) verts -> m <= vnorm2 (vsub p q)) /\ (forall b, best = Some b -> m <= b) /\
      ((best = Some m /\ best_vertex p verts best uv = uv) \/ exists x q, In (x, q) verts /\ m = vnorm2 (vsub p q) /\ best_vertex p verts best uv = x).
  Proof.
    revert best uv. induction verts as [|(x, q) l IH]; intros best uv Hne.
    - destruct best as [b|]; [|destruct Hne; congruence]. exists b. split; [intros ? ? []|]. split; [intros ? [= <-]; lra|]. left. auto.
    - cbn [best_vertex]. set (d := vnorm2 (vsub p q)).
      destruct (match best with None => _ | Some b => _ end) eqn:E.
      + destruct (IH (Some d) x) as (m & M1 & M2 & M3); [right; discriminate|].
        exists m. specialize (M2 d eq_refl). split; [|split].
        * intros y r [[= <- <-]|I]; [exact M2|now apply (M1 y)].
        * intros b ->. revert E. rs. destruct (Rltb_spec d b); [lra|discriminate].
        * right. destruct M3 as [([= Em] & ->)|(y & r & I & Em & ->)]; [exists x, q|exists y, r]; split; auto; [now left|now right].
      + destruct best as [b|]; [|revert E; rs; destruct (Reqb_spec d d); [discriminate|congruence]].
        destruct (IH (Some b) uv) as (m & M1 & M2 & M3); [right; discriminate|].
        exists m. pose proof (M2 b eq_refl). split; [|split].
        * intros y r [[= <- <-]|I]; [|now apply (M1 y)]. fold d. revert E. rs. destruct (Rltb_spec d b); [discriminate|lra].
        * exact M2.
        * destruct M3 as [M3|(y & r & I & Em & ->)]; [now left|]. right. exists y, r. split; [now right|auto].
  Qed.

  (** *** Never farther than the vertices: for every vertex of the tessellation lying on the surface, the answer is at most as far *)
  Theorem surf_closest_no_worse solve2 s verts p t : surf_ok s -> length p = (sdim s - 1)%nat ->
    (forall x q, In (x, q) verts -> surf_point_at s (fst x) (snd x) = Ok q) ->
    surf_find_closest_parameter solve2 s verts p = Ok t ->
    exists d, dist_at s p t d /\ forall x q, In (x, q) verts -> d <= rdist q p.
  Proof.
    intros H Lp Hv E. unfold surf_find_closest_parameter in E. apply bind_ok in E. destruct E as ((du, dv) & Ed & E).
    apply bind_ok in E. destruct E as (pts & _ & E). apply bind_ok in E. destruct E as (closed & _ & E).
    apply bind_ok in E. destruct E as (c0 & Ec & E). apply bind_ok in E. destruct E as (st & Er & E).
    set (uv := best_vertex p verts None (fst du, fst dv)) in *.
    assert (Inv : sn_inv (surf_cost s p) c0 st).
    { apply (sn_run_inv du dv closed (surf_cost s p) (surf_move solve2 s p) (sn_inv (surf_cost s p) c0) 100 _ _ (fun a b => sn_next_inv _ _ _ _ _ _ a b)) in Er; auto.
      split; [exact Ec|]. cbn [sn_best sn_cost sn_x]. exists uv, c0. unfold best_update. rs. destruct (Reqb_spec c0 c0); [|congruence].
      split; [reflexivity|]. split; [exact Ec|]. lra. }
    destruct Inv as (_ & b & bc & Eb & Ecb & L1 & L2). rewrite Eb in E. destruct b as (u, v). destruct (_ && _); [|discriminate]. injection E as <-.
    exists bc. split; [now apply surf_cost_dist|]. intros x q Hx.
    destruct (best_vertex_min p verts None (fst du, fst dv)) as (m & M1 & _ & M3); [left; intros ->; destruct Hx|].
    destruct M3 as [(M3 & _)|(y & r & Iy & Em & Ey)]; [discriminate|]. fold uv in Ey.
    assert (Lq : forall z w, In (z, w) verts -> length w = length p) by (intros z w Hz; rewrite (surf_point_at_length _ _ _ _ H (Hv _ _ Hz)); now symmetry).
    assert (N2 : forall w, length w = length p -> sqrt (vnorm2 (vsub p w)) = rdist w p).
    { intros w Lw. unfold rdist. f_equal. rewrite vnorm2_rsum, (vsub_length p w (length p)) by auto. rewrite Lw. apply rsum_ext. intros i Hi. rewrite rc_vsub by lia. ring. }
    assert (Dc : c0 = rdist r p).
    { rewrite Ey in Ec. destruct (surf_cost_dist s p y c0 H Lp Ec) as (r' & Er' & ->). rewrite (Hv _ _ Iy) in Er'. injection Er' as <-. reflexivity. }
    rewrite <- (N2 q) by eauto. apply Rle_trans with c0; [lra|]. rewrite Dc, <- (N2 r) by eauto. apply sqrt_le_1_alt. rewrite <- Em. eauto.
  Qed.

  (** *** In the domain when the net is open in both directions *)
  Theorem surf_closest_in_domain solve2 s verts p t pts : 0 <= eps -> surf_ok s ->
    eps <= u1 s - u0 s -> eps <= v1 s - v0 s -> (forall x q, In (x, q) verts -> in_dom s (fst x) (snd x)) ->
    mapM (mapM (fun q => unwrap (dehomogenize (sdim s) q))) (snet s) = Ok pts -> close_rows pts = Ok (false, false) ->
    surf_find_closest_parameter solve2 s verts p = Ok t -> in_dom s (fst t) (snd t).
  Proof.
    intros He H Hu Hv Hin Hp Hcl E. unfold surf_find_closest_parameter in E. rewrite surf_domain_ok in E by auto. cbn [bind] in E.
    rewrite Hp in E. cbn [bind] in E. rewrite Hcl in E. cbn [bind] in E.
    apply bind_ok in E. destruct E as (c0 & Ec & E). apply bind_ok in E. destruct E as (st & Er & E). cbn [fst snd] in Er, Ec.
    set (uv := best_vertex p verts None (u0 s, v0 s)) in *.
    assert (Buv : in_box (u0 s, u1 s) (v0 s, v1 s) uv).
    { destruct (best_vertex_in p verts None (u0 s, v0 s)) as [Eb|(x & q & I & Eb)]; fold uv in Eb; rewrite Eb.
      - split; cbn [fst snd]; lra.
      - exact (Hin _ _ I). }
    set (I := fun st : SNState => in_box (u0 s, u1 s) (v0 s, v1 s) (sn_x st) /\ forall b c, sn_best st = Some (b, c) -> in_box (u0 s, u1 s) (v0 s, v1 s) b).
    assert (Inv : I st).
    { apply (sn_run_inv _ _ _ _ _ I _ _ _ (fun a b HI => sn_box (u0 s, u1 s) (v0 s, v1 s) _ _ a b He Hu Hv HI)) in Er; auto.
      split; [exact Buv|]. cbn [sn_best]. unfold best_update. intros b c. destruct (seqb _ _); [intros [= <- <-]; exact Buv|discriminate]. }
    destruct Inv as (_ & Ib). destruct (sn_best st) as [((u, v), c)|]; [|discriminate]. destruct (_ && _); [|discriminate]. injection E as <-.
    exact (Ib _ _ eq_refl).
  Qed.
End Real.
