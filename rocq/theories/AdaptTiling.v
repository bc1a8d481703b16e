(** * The whole mesh tiles the parameter rectangle *)
From Coq Require Import Reals Lra Lia List Sorted.
From Verif Require Import Base BaseFacts Scalar RSum KnotFacts KnotModel MiscModel CurveModel SurfaceModel AdaptModel AdaptProofs AdaptForest AdaptReal AdaptEdges AdaptPoly AdaptMesh.
Import ListNotations.
Open Scope R_scope.

(** a point strictly inside a triangle of positive area lies in every half-open rectangle around the triangle *)
Lemma inside_tri_rect r t p : 0 < tri_area2 t -> verts_in r t -> inside_tri t p -> inside r p.
Proof.
  destruct t as [[(a1, a2) (b1, b2)] (c1, c2)], p as (x, y). unfold inside_tri, verts_in, in_rect, inside, tri_area2. cbn [fst snd].
  set (al := area2 (b1, b2) (c1, c2) (x, y)). set (be := area2 (c1, c2) (a1, a2) (x, y)). set (ga := area2 (a1, a2) (b1, b2) (x, y)).
  set (A := area2 (a1, a2) (b1, b2) (c1, c2)). intros HA (Va & Vb & Vc) (H1 & H2 & H3).
  assert (S : al + be + ga = A) by (unfold al, be, ga, A, area2; cbn [fst snd]; ring).
  assert (X : al * a1 + be * b1 + ga * c1 = A * x) by (unfold al, be, ga, A, area2; cbn [fst snd]; ring).
  assert (Y : al * a2 + be * b2 + ga * c2 = A * y) by (unfold al, be, ga, A, area2; cbn [fst snd]; ring).
  assert (G : forall lo a b c z, lo <= a -> lo <= b -> lo <= c -> al * a + be * b + ga * c = A * z -> lo <= z /\ (z = lo -> a = lo /\ b = lo /\ c = lo)).
  { intros lo a b c z Ha Hb Hc E.
    assert (E' : al * (a - lo) + be * (b - lo) + ga * (c - lo) = A * (z - lo)) by (rewrite <- S in *; lra).
    assert (0 <= al * (a - lo)) by (apply Rmult_le_pos; lra). assert (0 <= be * (b - lo)) by (apply Rmult_le_pos; lra). assert (0 <= ga * (c - lo)) by (apply Rmult_le_pos; lra).
    assert (P : forall k w, 0 < k -> k * (w - lo) = 0 -> w = lo) by (intros k w Hk Hw; apply Rmult_integral in Hw; lra).
    split.
    - destruct (Rle_or_lt lo z) as [C|C]; [exact C|]. exfalso. assert (0 < A * (lo - z)) by (apply Rmult_lt_0_compat; lra). lra.
    - intros ->. replace (A * (lo - lo)) with 0 in E' by ring. split; [apply (P al); lra|]. split; [apply (P be); lra|apply (P ga); lra]. }
  assert (B1 := G (rl r) a1 b1 c1 x ltac:(lra) ltac:(lra) ltac:(lra) X). assert (B2 := G (rb r) a2 b2 c2 y ltac:(lra) ltac:(lra) ltac:(lra) Y).
  assert (B3 := G (- rr r) (- a1) (- b1) (- c1) (- x) ltac:(lra) ltac:(lra) ltac:(lra) ltac:(lra)).
  assert (B4 := G (- rt r) (- a2) (- b2) (- c2) (- y) ltac:(lra) ltac:(lra) ltac:(lra) ltac:(lra)).
  assert (N3 : x <> rr r). { intros E. destruct B3 as (_ & B3). destruct (B3 ltac:(lra)) as (E1 & E2 & E3). unfold A, area2 in HA. cbn [fst snd] in HA.
    replace b1 with a1 in HA by lra. replace c1 with a1 in HA by lra. lra. }
  assert (N4 : y <> rt r). { intros E. destruct B4 as (_ & B4). destruct (B4 ltac:(lra)) as (E1 & E2 & E3). unfold A, area2 in HA. cbn [fst snd] in HA.
    replace b2 with a2 in HA by lra. replace c2 with a2 in HA by lra. lra. }
  lra.
Qed.

Lemma in_concat_nth {A} (x : A) : forall ls, In x (concat ls) <-> exists j l, nth_error ls j = Some l /\ In x l.
Proof.
  induction ls as [|l ls IH]; cbn [concat].
  - split; [intros []|intros ([|j] & l & E & _); discriminate].
  - rewrite in_app_iff, IH. split.
    + intros [H|(j & l' & E & H)]; [exists 0%nat, l; auto|exists (S j), l'; auto].
    + intros ([|j] & l' & E & H); [injection E as ->; auto|right; eauto].
Qed.
Lemma pairs_concat : forall tss, (forall j ts, nth_error tss j = Some ts -> ForallOrdPairs apart ts) ->
  (forall j j' ts ts' t t', j <> j' -> nth_error tss j = Some ts -> nth_error tss j' = Some ts' -> In t ts -> In t' ts' -> apart t t') ->
  ForallOrdPairs apart (concat tss).
Proof.
  induction tss as [|ts tss IH]; intros H1 H2; [constructor|]. cbn [concat]. apply pairs_app. split; [apply (H1 0%nat); reflexivity|]. split.
  - apply IH; [intros j l E; apply (H1 (S j)); exact E|]. intros j j' l l' t t' Hj E E'. apply (H2 (S j) (S j')); auto.
  - intros t t' Ht Ht'. apply in_concat_nth in Ht'. destruct Ht' as (j & l & E & Hl). apply (H2 0%nat (S j) ts l); auto.
Qed.
Lemma Forall2_nth_error {A B} (P : A -> B -> Prop) l l' j b : Forall2 P l l' -> nth_error l' j = Some b -> exists a, nth_error l j = Some a /\ P a b.
Proof.
  intros F. revert j. induction F as [|x y l l' H F IH]; intros [|j] E; try discriminate; cbn [nth_error] in *; [injection E as <-; eauto|eauto].
Qed.
Lemma Forall2_nth_error_l {A B} (P : A -> B -> Prop) l l' j a : Forall2 P l l' -> nth_error l j = Some a -> exists b, nth_error l' j = Some b /\ P a b.
Proof.
  intros F. revert j. induction F as [|x y l l' H F IH]; intros [|j] E; try discriminate; cbn [nth_error] in *; [injection E as <-; eauto|eauto].
Qed.

(** area of the leaf at a position of the store *)
Definition larea_node (n : ANode R) : R :=
  match an_children n with
  | Some _ => 0
  | None => (fst (sp_uv (f2 (an_corners n))) - fst (sp_uv (f0 (an_corners n)))) * (snd (sp_uv (f2 (an_corners n))) - snd (sp_uv (f0 (an_corners n))))
  end.
Definition larea (nodes : list (ANode R)) (j : nat) : R := match nth_error nodes j with Some n => larea_node n | None => 0 end.
Lemma larea_shaped n r : shaped (an_corners n) r -> an_children n = None -> larea_node n = rarea r.
Proof. intros (H0 & _ & H2 & _) C. unfold larea_node, rarea. now rewrite C, H0, H2. Qed.
Lemma total_concat : forall nodes tss, Forall2 (fun n ts => total ts = 2 * larea_node n) nodes tss ->
  total (concat tss) = 2 * rsum (length nodes) (larea nodes).
Proof.
  induction 1 as [|n ts nodes tss H F IH]; [cbn; lra|]. cbn [concat length]. rewrite total_app, rsum_S_l, H, IH.
  change (larea (n :: nodes) 0) with (larea_node n). change (fun i => larea (n :: nodes) (S i)) with (larea nodes). lra.
Qed.

Section Real.
  Variables eps maxv : R.
  Local Hint Extern 0 (Scalar R) => exact (ROps eps maxv) : typeclass_instances.
  Local Notation lower := (@lower R (ROps eps maxv)).
  Local Notation upper := (@upper R (ROps eps maxv)).
  Local Notation tree := (@tree R (ROps eps maxv)).

  Lemma tree_area nodes h id lo hi r nb : tree nodes h id lo hi r nb ->
    larea nodes id + rsum (hi - lo) (fun i => larea nodes (lo + i)) = rarea r.
  Proof.
    induction 1 as [h id lo r nb n E1 E2 E3|h id lo m hi r nb n d En Ec Ed Hn T0 IH0 T1 IH1].
    - rewrite Nat.sub_diag. cbn [rsum]. unfold larea. rewrite E1. rewrite (larea_shaped n r); [lra|apply E3|exact E2].
    - pose proof (tree_le _ _ _ _ _ _ _ T0) as L0. pose proof (tree_le _ _ _ _ _ _ _ T1) as L1.
      replace (larea nodes id) with 0 by (unfold larea, larea_node; rewrite En, Ec; reflexivity).
      replace (hi - lo)%nat with (S (S ((m - S (S lo)) + (hi - m)))) by lia. rewrite !rsum_S_l, rsum_split.
      rewrite (rsum_ext (m - S (S lo)) _ (fun i => larea nodes (S (S lo) + i))) by (intros i _; f_equal; lia).
      rewrite (rsum_ext (hi - m) _ (fun i => larea nodes (m + i))) by (intros i _; f_equal; lia).
      replace (lo + 0)%nat with lo by lia. replace (lo + 1)%nat with (S lo) by lia.
      assert (A : rarea (lower d r) + rarea (upper d r) = rarea r).
      { unfold rarea. destruct d; cbn [AdaptProofs.lower AdaptProofs.upper rl rr rb rt]; ring. }
      lra.
  Qed.
  Lemma tree_cover_closed nodes h id lo hi r nb : tree nodes h id lo hi r nb -> rect_ok r -> forall p, in_rect r p ->
    exists j r', (j = id \/ lo <= j < hi)%nat /\ leaf_rect nodes j r' /\ in_rect r' p.
  Proof.
    induction 1 as [h id lo r nb n E1 E2 E3|h id lo m hi r nb n d En Ec Ed Hn T0 IH0 T1 IH1]; intros Hr p Hp.
    - exists id, r. split; [auto|]. split; [|exact Hp]. exists n. destruct E3 as (S & _). auto.
    - pose proof (tree_le _ _ _ _ _ _ _ T0). pose proof (tree_le _ _ _ _ _ _ _ T1).
      assert (C : in_rect (lower d r) p \/ in_rect (upper d r) p).
      { unfold in_rect in *. destruct d; cbn [AdaptProofs.lower AdaptProofs.upper rl rr rb rt]; rewrite ?half_u_R, ?half_v_R.
        - destruct (Rlt_le_dec (snd p) ((rb r + rt r) / 2)); lra.
        - destruct (Rlt_le_dec (fst p) ((rl r + rr r) / 2)); lra. }
      destruct C as [C|C].
      + destruct (IH0 (lower_ok eps maxv d r Hr) p C) as (j & r' & Hj & X). exists j, r'. split; [lia|exact X].
      + destruct (IH1 (upper_ok eps maxv d r Hr) p C) as (j & r' & Hj & X). exists j, r'. split; [lia|exact X].
  Qed.

  Section Grid.
    Variables (us vs : list R) (du dv : nat).
    Hypotheses (Lu : length us = S du) (Lv : length vs = S dv) (Iu : increasing us) (Iv : increasing vs) (Pu : (0 < du)%nat) (Pv : (0 < dv)%nat).
    Local Notation cell := (@cell_rect R (ROps eps maxv) us vs du dv).

    Lemma increasing_find_closed l x : increasing l -> forall n, (length l = S n)%nat -> (0 < n)%nat -> nth 0 l 0 <= x <= nth n l 0 ->
      exists i, (i < n)%nat /\ nth i l 0 <= x <= nth (S i) l 0.
    Proof.
      intros I n L Hn (H1 & H2). destruct (Rle_lt_or_eq_dec _ _ H2) as [C|C].
      - destruct (increasing_find l x I n L (conj H1 C)) as (i & Hi & Xi). exists i. split; [exact Hi|lra].
      - exists (n - 1)%nat. split; [lia|]. replace (S (n - 1)) with n by lia. split; [|lra]. rewrite C. apply increasing_le; [exact I|lia].
    Qed.
    Lemma cell_at a c : (a < du)%nat -> (c < dv)%nat -> cell ((dv - 1 - c) * du + a)%nat = MkRect (nth a us 0) (nth c vs 0) (nth (S a) us 0) (nth (S c) vs 0).
    Proof.
      intros Ha Hc. unfold cell_rect.
      assert (Q : (((dv - 1 - c) * du + a) / du = dv - 1 - c)%nat) by (rewrite Nat.div_add_l by lia; rewrite Nat.div_small by lia; lia).
      assert (M : (((dv - 1 - c) * du + a) mod du = a)%nat) by (rewrite Nat.add_comm, Nat.mod_add by lia; now apply Nat.mod_small).
      rewrite Q, M. f_equal; f_equal; lia.
    Qed.
    Lemma cell_cover_closed p : in_rect (whole us vs du dv) p -> exists i, (i < dv * du)%nat /\ in_rect (cell i) p.
    Proof.
      intros (Hx & Hy). cbn [whole rl rr rb rt] in Hx, Hy.
      destruct (increasing_find_closed us (fst p) Iu du Lu Pu Hx) as (a & Ha & Xa).
      destruct (increasing_find_closed vs (snd p) Iv dv Lv Pv Hy) as (c & Hc & Xc).
      exists ((dv - 1 - c) * du + a)%nat. split; [nia|]. rewrite (cell_at a c Ha Hc). split; assumption.
    Qed.
    Lemma rsum_tele n l : rsum n (fun i => nth (S i) l 0 - nth i l 0) = nth n l 0 - nth 0 l 0.
    Proof. induction n as [|n IH]; [cbn; lra|]. cbn [rsum]. rewrite IH. lra. Qed.
    Lemma rsum_rows f : forall n, rsum (n * du) f = rsum n (fun q => rsum du (fun m => f (q * du + m)%nat)).
    Proof.
      induction n as [|n IH]; [reflexivity|]. replace (S n * du)%nat with (n * du + du)%nat by lia. rewrite rsum_split, IH. reflexivity.
    Qed.
    Lemma cells_area : rsum (dv * du) (fun i => rarea (cell i)) = rarea (whole us vs du dv).
    Proof.
      rewrite rsum_rows, rsum_rev.
      rewrite (rsum_ext dv _ (fun c => (nth du us 0 - nth 0 us 0) * (nth (S c) vs 0 - nth c vs 0))).
      - rewrite rsum_scal, rsum_tele. unfold rarea, whole. cbn [rl rr rb rt]. ring.
      - intros c Hc. rewrite (rsum_ext du _ (fun a => (nth (S a) us 0 - nth a us 0) * (nth (S c) vs 0 - nth c vs 0))).
        + rewrite rsum_scal_r, rsum_tele. reflexivity.
        + intros a Ha. rewrite (cell_at a c Ha Hc). reflexivity.
    Qed.
    Lemma forest_area nodes h nb b : forest nodes h (dv * du) cell nb b -> rsum (length nodes) (larea nodes) = rarea (whole us vs du dv).
    Proof.
      intros F. assert (F' := F). destruct F' as (B0 & BN & B). rewrite <- cells_area.
      assert (G : forall k, (k <= dv * du)%nat -> rsum k (larea nodes) + rsum (b k - dv * du) (fun i => larea nodes (dv * du + i)%nat) = rsum k (fun i => rarea (cell i))).
      { induction k as [|k IH]; intros Hk; [rewrite B0, Nat.sub_diag; cbn; lra|]. specialize (IH ltac:(lia)). destruct (B k ltac:(lia)) as (Bk & Tk).
        pose proof (tree_area _ _ _ _ _ _ _ Tk) as A. cbn [rsum]. pose proof (forest_mono _ _ _ _ _ _ 0 k F ltac:(lia)) as M. rewrite B0 in M.
        replace (b (S k) - dv * du)%nat with ((b k - dv * du) + (b (S k) - b k))%nat by lia. rewrite rsum_split.
        rewrite (rsum_ext (b (S k) - b k) _ (fun i => larea nodes (b k + i)%nat)) by (intros i _; f_equal; lia). lra. }
      specialize (G (dv * du)%nat (le_n _)). pose proof (forest_mono _ _ _ _ _ _ 0 (dv * du) F ltac:(lia)) as M. rewrite B0, BN in M. rewrite BN in G. rewrite <- G.
      replace (length nodes) with (dv * du + (length nodes - dv * du))%nat at 1 by lia. rewrite rsum_split. reflexivity.
    Qed.

    (** ** The tiling *)
    Definition node_tiles (n : ANode R) (ts : list Tri) : Prop :=
      match an_children n with Some _ => ts = [] | None => exists r, shaped (an_corners n) r /\ rect_ok r /\ tiles ts r end.
    Lemma tess_pieces s nodes m : (forall n, In n nodes -> an_children n = None ->
        exists r, shaped (an_corners n) r /\ an_center n = centre r /\ rect_ok r /\ forall e l, get_all_corners nodes n e = Ok l -> side e r (map sp_uv l)) ->
      tess_new s nodes None = Ok m -> exists tss, Forall2 node_tiles nodes tss /\ mesh_tris m = concat tss.
    Proof.
      intros HL E. unfold tess_new in E. cbn [bind] in E.
      assert (G : forall l m0, mesh_ok m0 -> (forall n, In n l -> In n nodes) -> foldM (triangulate s nodes None) l m0 = Ok m ->
        exists tss, Forall2 node_tiles l tss /\ mesh_tris m = mesh_tris m0 ++ concat tss).
      { induction l as [|n l IH]; intros m0 M0 HI E0; cbn [foldM] in E0.
        - injection E0 as <-. exists []. split; [constructor|]. cbn [concat]. now rewrite app_nil_r.
        - apply bind_ok in E0. destruct E0 as (m1 & E1 & E0).
          destruct (IH m1 (triangulate_ok _ _ _ _ _ _ M0 E1) (fun n' H => HI n' (or_intror H)) E0) as (tss & F & EM).
          destruct (an_children n) as [ch|] eqn:Ch.
          + exists ([] :: tss). split; [constructor; [unfold node_tiles; now rewrite Ch|exact F]|]. unfold triangulate in E1. rewrite Ch in E1. injection E1 as <-. exact EM.
          + destruct (HL n (HI n (or_introl eq_refl)) Ch) as (r & Sh & Ce & Hr & HS).
            destruct (triangulate_tiles eps maxv s nodes m0 n m1 r M0 Ch Hr Ce HS E1) as (ts & Et & Tt).
            exists (ts :: tss). split; [constructor; [unfold node_tiles; rewrite Ch; eauto|exact F]|]. cbn [concat]. rewrite EM, Et, app_assoc. reflexivity. }
      destruct (G nodes (MkTess [] [] [] [])) as (tss & F & EM); auto.
      - split; [reflexivity|]. split; [reflexivity|constructor].
      - exists tss. split; [exact F|exact EM].
    Qed.

    Theorem forest_tiles s nodes h b m : 0 < eps -> forest nodes h (dv * du) cell (cell_nb du dv) b -> tess_new s nodes None = Ok m ->
      tiles (mesh_tris m) (whole us vs du dv).
    Proof.
      intros He F E. destruct (tess_pieces s nodes m) as (tss & FT & EM); [|exact E|].
      { intros n Hn Cn. apply In_nth_error in Hn. destruct Hn as (j & Hj). exact (forest_polygons eps maxv us vs du dv Lu Lv Iu Iv nodes h b He F j n Hj Cn). }
      destruct (forest_partition eps maxv us vs du dv Lu Lv Iu Iv nodes h _ b F) as (P1 & _ & P3).
      assert (LP : forall j ts t, nth_error tss j = Some ts -> In t ts -> exists r, leaf_rect nodes j r /\ rect_ok r /\ tiles ts r).
      { intros j ts t Ej Ht. destruct (Forall2_nth_error _ _ _ _ _ FT Ej) as (n & En & Hn). unfold node_tiles in Hn. destruct (an_children n) eqn:Ch; [subst ts; destruct Ht|].
        destruct Hn as (r & Sh & Hr & Tt). exists r. split; [exists n; auto|]. auto. }
      rewrite EM. split; [|split; [|split]].
      - apply Forall_forall. intros t Ht. apply in_concat_nth in Ht. destruct Ht as (j & ts & Ej & Ht). destruct (LP j ts t Ej Ht) as (r & Lr & Hr & Tt).
        destruct Tt as (T1 & _). rewrite Forall_forall in T1. destruct (T1 t Ht) as (A & V). split; [exact A|]. destruct (P1 j r Lr) as (_ & W).
        unfold within in W. destruct t as [[x y] z]. unfold verts_in, in_rect in *. intuition lra.
      - rewrite (total_concat nodes).
        + f_equal. apply (forest_area nodes h _ b F).
        + clear - FT. induction FT as [|n ts nodes tss H FT IH]; constructor; [|exact IH]. unfold node_tiles in H. destruct (an_children n) eqn:Ch.
          * subst. unfold larea_node. rewrite Ch. cbn. lra.
          * destruct H as (r & Sh & _ & (_ & H & _)). rewrite H. now rewrite (larea_shaped n r Sh Ch).
      - intros p Hp. destruct (cell_cover_closed p Hp) as (i & Hi & Hc). assert (F' := F). destruct F' as (_ & _ & B). destruct (B i Hi) as (_ & Ti).
        destruct (tree_cover_closed _ _ _ _ _ _ _ Ti (cell_ok eps maxv us vs du dv Lu Lv Iu Iv i Hi) p Hc) as (j & r & _ & (n & En & Cn & Sh) & Hr).
        destruct (Forall2_nth_error_l _ _ _ _ _ FT En) as (ts & Ej & Hn). unfold node_tiles in Hn. rewrite Cn in Hn. destruct Hn as (r' & Sh' & _ & (_ & _ & T3 & _)).
        assert (r' = r) as -> by (eapply shaped_fun; eauto). destruct (T3 p Hr) as (t & Ht & X). exists t. split; [|exact X]. apply in_concat_nth. eauto.
      - apply pairs_concat.
        + intros j ts Ej. destruct ts as [|t ts]; [constructor|]. destruct (LP j _ t Ej (or_introl eq_refl)) as (r & _ & _ & (_ & _ & _ & T4)). exact T4.
        + intros j j' ts ts' t t' Hj Ej Ej' Ht Ht' p Hp Hp'. apply Hj.
          destruct (LP j ts t Ej Ht) as (r & Lr & _ & (T1 & _)). destruct (LP j' ts' t' Ej' Ht') as (r' & Lr' & _ & (T1' & _)).
          rewrite Forall_forall in T1, T1'. destruct (T1 t Ht) as (A & V). destruct (T1' t' Ht') as (A' & V').
          apply (P3 p j j' r r' Lr Lr'); [now apply (inside_tri_rect r t)|now apply (inside_tri_rect r' t')].
    Qed.
  End Grid.
End Real.
