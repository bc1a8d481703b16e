(** * Tessellation of curves of degree one and of compound curves *)
From Coq Require Import Reals Lra Lia Sorted ZArith.
From Verif Require Import Base BaseFacts Scalar RSum BSplineSpec BSpline KnotModel KnotSpec KnotFacts VecFacts MiscModel
  CurveModel CurveKnotModel CurveSpec CurveProofs CurveGeom CurveGeom2 CurveShapes CompoundModel TessCurveModel TessCurveProofs.
Open Scope R_scope.

Section Real.
  Variables eps maxv : R.
  Local Hint Extern 0 (Scalar R) => exact (ROps eps maxv) : typeclass_instances.

  Lemma degree1_hcoord c s i u : curve_ok c -> curve_cont c -> cdeg c = 1%nat -> (1 <= s <= clast c)%nat ->
    kf (cknots c) s < kf (cknots c) (S s) -> kf (cknots c) s <= u <= kf (cknots c) (S s) ->
    hcoord c i u = ((kf (cknots c) (S s) - u) * cpc c i (s - 1) + (u - kf (cknots c) s) * cpc c i s) / (kf (cknots c) (S s) - kf (cknots c) s).
  Proof.
    intros Hc Hcc Hd Hs Hlt Hu. pose proof (clast_S c Hc) as Hn.
    rewrite (hcoord_any_span c s) by (auto; rewrite Hd; lia).
    rewrite piece_window by lia. rewrite Hd. cbn [rsum]. rewrite Nat.add_0_r. replace (s - 1 + 1)%nat with s by lia.
    rewrite !bs_S, !bs_0.
    rewrite (proj2 (Nat.eqb_neq (s - 1) s)) by lia.
    rewrite (proj2 (Nat.eqb_eq (s - 1 + 1) s)) by lia. rewrite (proj2 (Nat.eqb_eq s s)) by lia.
    rewrite (proj2 (Nat.eqb_neq (s + 1) s)) by lia.
    rewrite !Rmult_0_r, !Rplus_0_l, ?Rplus_0_r, !Rmult_1_r.
    unfold wl, wr. replace (s - 1 + 1 + 1)%nat with (S s) by lia. replace (s - 1 + 1)%nat with s by lia. replace (s + 1)%nat with (S s) by lia.
    rewrite !quot0_nz by lra. field. lra.
  Qed.

  Lemma degree1_vertex c i j : curve_ok c -> curve_cont c -> cdeg c = 1%nat -> (j < length (cpts c))%nat ->
    hcoord c i (kf (cknots c) (S j)) = cpc c i j.
  Proof.
    intros Hc Hcc Hd Hj. pose proof (clast_S c Hc) as Hn. pose proof (co_len c Hc) as Hl.
    assert (St : forall s, (1 <= s <= clast c)%nat -> kf (cknots c) s < kf (cknots c) (S s)).
    { intros s Hs. destruct (Nat.eq_dec s 1) as [->|].
      - pose proof (ko_first _ _ _ (co_knots c Hc)) as K. rewrite Hd in K. exact K.
      - pose proof (Hcc s ltac:(lia) ltac:(lia)) as K. rewrite Hd, Nat.add_1_r in K. exact K. }
    destruct j as [|j].
    - pose proof (St 1%nat ltac:(lia)). rewrite (degree1_hcoord c 1) by (auto; try lia; lra). change (1 - 1)%nat with 0%nat. field. lra.
    - pose proof (St (S j) ltac:(lia)). rewrite (degree1_hcoord c (S j)) by (auto; try lia; lra). field. lra.
  Qed.

  (** *** A curve of degree one is tessellated into its vertices, its points at the knots *)
  Theorem tessellate_degree_one rng fuel c tolerance k : curve_ok c -> curve_eps eps c -> curve_cont c -> cdeg c = 1%nat ->
    (forall j, (j < length (cpts c))%nat -> cpc c (cdim c - 1) j <> 0) ->
    exists pts, tessellate rng fuel c tolerance k = Ok (pts, k) /\ length pts = length (cpts c) /\
      (forall j, (j < length pts)%nat -> point_at c (kf (cknots c) (S j)) = Ok (nth j pts [])) /\
      kf (cknots c) 1 = dom0 c /\ kf (cknots c) (length pts) = dom1 c.
  Proof.
    intros Hc He Hcc Hd Hw. unfold tessellate. rewrite Hd. cbn [Nat.eqb].
    pose proof (clast_S c Hc) as Hn. pose proof (co_len c Hc) as Hl. pose proof (curve_mono c Hc) as Hm.
    assert (E : dehomogenized_control_points c = Ok (map (fun p => vdivs (firstn (cdim c - 1) p) (rc (cdim c - 1) p)) (cpts c))).
    { unfold dehomogenized_control_points. apply mapM_ok. intros p Hp. apply (In_nth _ _ []) in Hp. destruct Hp as (j & Hj & <-).
      unfold dehomogenize. rs. rewrite coord_rc. specialize (Hw j Hj). unfold cpc in Hw.
      destruct (Reqb_spec (rc (cdim c - 1) (nth j (cpts c) [])) 0); [contradiction|]. reflexivity. }
    rewrite E. cbn [bind]. eexists. split; [reflexivity|]. rewrite map_length. split; [reflexivity|].
    split; [|unfold dom0, dom1; rewrite Hd; auto].
    intros j Hj. set (u := kf (cknots c) (S j)).
    assert (Du : dom0 c <= u <= dom1 c).
    { unfold dom0, dom1, u. rewrite Hd. split; apply mono_le; auto; lia. }
    destruct (point_at_spec eps maxv c u Hc He Du) as (p & Ep & Lp & Hp).
    { unfold wfun, u. rewrite degree1_vertex by auto. now apply Hw. }
    rewrite Ep. f_equal. rewrite (nth_map_lt _ _ j []) by auto.
    change (vdivs (firstn (cdim c - 1) (nth j (cpts c) [])) (rc (cdim c - 1) (nth j (cpts c) []))) with (affine_point c j).
    apply (vec_ext p _ (cdim c - 1)); [exact Lp|now apply affine_point_length|].
    intros i Hi. rewrite Hp, (affine_point_rc eps maxv) by auto. unfold nurbs, wfun, u. now rewrite !degree1_vertex.
  Qed.
End Real.

(** ** Compound curves: how the tessellations of the spans are joined *)
Section Join.
  Context {A : Type}.
  Implicit Types tess : list (list A).

  (** consecutive lists share an end point *)
  Fixpoint linked (d : A) tess : Prop :=
    match tess with
    | t :: rest => t <> [] /\ match rest with r :: _ => last t d = hd d r | [] => True end /\ linked d rest
    | [] => True
    end.

  (** the steps of a polyline *)
  Fixpoint steps (l : list A) : list (A * A) :=
    match l with
    | x :: l' => match l' with y :: _ => (x, y) :: steps l' | [] => [] end
    | [] => []
    end.

  Lemma steps_glue l r d : l <> [] -> r <> [] -> last l d = hd d r -> steps (removelast l ++ r) = steps l ++ steps r.
  Proof.
    intros Nl Nr. induction l as [|x l IH]; [contradiction|]. destruct l as [|y l].
    - cbn. destruct r; [contradiction|]. cbn. auto.
    - intros E. specialize (IH ltac:(discriminate) E). change (removelast (x :: y :: l)) with (x :: removelast (y :: l)). cbn [app].
      change (steps (x :: y :: l)) with ((x, y) :: steps (y :: l)). cbn [app]. rewrite <- IH.
      destruct l as [|z l]; [|reflexivity]. cbn [removelast app]. destruct r; [contradiction|]. cbn in E. subst. reflexivity.
  Qed.

  Lemma linked_ne d t rest : linked d (t :: rest) -> join_open (t :: rest) <> [] /\ hd d (join_open (t :: rest)) = hd d t.
  Proof.
    revert t. induction rest as [|r rest IH]; intros t (N & E & L); [cbn; auto|].
    destruct (IH r L) as (N' & H'). change (join_open (t :: r :: rest)) with (removelast t ++ join_open (r :: rest)).
    split; [intros X; apply app_eq_nil in X; destruct X; contradiction|].
    destruct t as [|x [|y t]]; [contradiction| |reflexivity]. cbn [removelast app]. rewrite H'. cbn in *. congruence.
  Qed.

  (** *** the joined polyline walks the steps of every span, once and in order *)
  Theorem join_open_steps d tess : linked d tess -> steps (join_open tess) = flat_map steps tess.
  Proof.
    induction tess as [|t rest IH]; [reflexivity|]. intros (N & E & L). destruct rest as [|r rest]; [cbn; now rewrite app_nil_r|].
    change (join_open (t :: r :: rest)) with (removelast t ++ join_open (r :: rest)).
    destruct (linked_ne d r rest L) as (N' & H').
    rewrite (steps_glue t (join_open (r :: rest)) d) by (auto; congruence). rewrite IH by auto. reflexivity.
  Qed.

  Lemma removelast_cons x l : l <> [] -> removelast (x :: l) = x :: removelast l :> list A.
  Proof. destruct l; [contradiction|reflexivity]. Qed.

  Lemma join_closed_open d tess : linked d tess -> tess <> [] -> flat_map (@removelast A) tess = removelast (join_open tess).
  Proof.
    induction tess as [|t rest IH]; [intros _ X; now contradiction X|]. intros (N & E & L) _. destruct rest as [|r rest]; [cbn; now rewrite app_nil_r|].
    change (join_open (t :: r :: rest)) with (removelast t ++ join_open (r :: rest)). cbn [flat_map].
    destruct (linked_ne d r rest L) as (N' & H').
    rewrite removelast_app by auto. f_equal. apply IH; [exact L|discriminate].
  Qed.

  (** *** a closed compound ends where it starts and walks the same steps; its last point is the first one again *)
  Theorem join_closed_steps d tess : linked d tess -> (exists t, In t tess /\ (2 <= length t)%nat) ->
    hd d (join_open tess) = last (join_open tess) d ->
    join_closed tess = join_open tess /\ steps (join_closed tess) = flat_map steps tess /\
    hd d (join_closed tess) = last (join_closed tess) d.
  Proof.
    intros L (t & Ht & Lt) Hc. assert (N : tess <> []) by (intros ->; contradiction).
    assert (E : join_closed tess = join_open tess).
    { unfold join_closed. rewrite (join_closed_open d tess L N).
      assert (Nj : join_open tess <> []) by (destruct tess as [|t0 rest]; [contradiction|apply (linked_ne d t0 rest L)]).
      pose proof (join_open_steps d tess L) as S.
      destruct (join_open tess) as [|x [|y l]] eqn:Ej; [contradiction| |].
      - exfalso. assert (In (nth 0 t d, nth 1 t d) (flat_map steps tess)) as X; [|rewrite <- S in X; contradiction].
        apply in_flat_map. exists t. split; [exact Ht|]. destruct t as [|a [|b t]]; cbn in Lt; try lia. now left.
      - rewrite removelast_cons by discriminate. cbn [hd] in Hc.
        pose proof (app_removelast_last d (l := x :: y :: l) ltac:(discriminate)) as Q. rewrite <- Hc, removelast_cons in Q by discriminate. now symmetry. }
    rewrite E. split; [reflexivity|]. split; [now apply (join_open_steps d)|exact Hc].
  Qed.

  (** a closed compound always ends at its first point *)
  Theorem join_closed_ends d tess : hd d (join_closed tess) = last (join_closed tess) d.
  Proof.
    unfold join_closed. destruct (flat_map (@removelast A) tess) as [|p l]; [reflexivity|].
    rewrite last_last. reflexivity.
  Qed.
End Join.
