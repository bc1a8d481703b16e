(** * The polygons of the leaves *)
From Coq Require Import Reals Lra Lia List Sorted.
From Verif Require Import Base BaseFacts Scalar KnotFacts KnotModel MiscModel CurveModel SurfaceModel AdaptModel AdaptProofs AdaptForest AdaptReal.
Open Scope R_scope.

Section Real.
  Variables eps maxv : R.
  Local Hint Extern 0 (Scalar R) => exact (ROps eps maxv) : typeclass_instances.
  Local Notation half_u := (@half_u R (ROps eps maxv)).
  Local Notation half_v := (@half_v R (ROps eps maxv)).
  Local Notation lower := (@lower R (ROps eps maxv)).
  Local Notation upper := (@upper R (ROps eps maxv)).
  Local Notation tree := (@tree R (ROps eps maxv)).
  Local Notation node_ok := (@node_ok R (ROps eps maxv)).

  (** the points found along an edge of a subdivided node *)
  Definition edge_list (e : Edge) (r : Rect R) (l : list (SPoint R)) : Prop :=
    asc (e_hi e r) (e_lo e r) (map (fun p => pos e (sp_uv p)) l) /\ Forall (fun p => off e (sp_uv p) = e_off e r) l.

  Lemma edge_list_app e ra rb r l l' : e_lo e ra = e_lo e r -> e_hi e ra = e_lo e rb -> e_hi e rb = e_hi e r ->
    e_off e ra = e_off e r -> e_off e rb = e_off e r -> edge_list e ra l -> edge_list e rb l' -> edge_list e r (l ++ l').
  Proof.
    intros E1 E2 E3 E4 E5 (A & F) (A' & F'). split.
    - rewrite map_app. apply (asc_app (e_lo e rb)); [rewrite <- E1, <- E2; exact A|rewrite <- E3; exact A'].
    - apply Forall_app. split; [rewrite <- E4; exact F|rewrite <- E5; exact F'].
  Qed.
  Lemma edge_list_same e ra r l : e_lo e ra = e_lo e r -> e_hi e ra = e_hi e r -> e_off e ra = e_off e r -> edge_list e ra l -> edge_list e r l.
  Proof. intros E1 E2 E3 (A & F). unfold edge_list. now rewrite <- E1, <- E2, <- E3. Qed.

  Lemma tree_edge nodes h id lo hi r nb : tree nodes h id lo hi r nb -> rect_ok r -> forall fuel e l,
    get_edge_corners fuel nodes id e = Ok l -> edge_list e r l.
  Proof.
    induction 1 as [h id lo r nb n E1 E2 E3|h id lo m hi r nb n d En Ec Ed Hn T0 IH0 T1 IH1]; intros Hr fuel e l E; (destruct fuel as [|fuel]; [discriminate|]);
      cbn [get_edge_corners] in E.
    - rewrite (proj2 (nth_error_get _ _ _) E1) in E. cbn [bind] in E. rewrite E2 in E. injection E as <-.
      destruct E3 as ((S0 & S1 & S2 & S3) & _).
      assert (C : sp_uv (four (an_corners n) e) = corner_of e r) by (destruct e; assumption).
      split.
      + cbn [map]. rewrite C, pos_corner. apply asc_one. now apply e_lt.
      + constructor; [|constructor]. rewrite C. destruct e; reflexivity.
    - rewrite (proj2 (nth_error_get _ _ _) En) in E. cbn [bind] in E. rewrite Ec, Ed in E.
      specialize (IH0 (lower_ok eps maxv d r Hr)). specialize (IH1 (upper_ok eps maxv d r Hr)).
      destruct d, e; try (apply IH0 in E; revert E; apply edge_list_same; reflexivity);
        try (apply IH1 in E; revert E; apply edge_list_same; reflexivity);
        apply bind_ok in E; destruct E as (la & Ea & E); apply bind_ok in E; destruct E as (lb & Eb & E); injection E as <-.
      + apply IH0 in Ea. apply IH1 in Eb. revert Ea Eb. apply edge_list_app; reflexivity.
      + apply IH1 in Ea. apply IH0 in Eb. revert Ea Eb. apply edge_list_app; reflexivity.
      + apply IH0 in Ea. apply IH1 in Eb. revert Ea Eb. apply edge_list_app; reflexivity.
      + apply IH1 in Ea. apply IH0 in Eb. revert Ea Eb. apply edge_list_app; reflexivity.
  Qed.

  (** ** Neighbours *)
  (** range of an edge in the coordinate that runs along it *)
  Definition a_lo (e : Edge) (r : Rect R) : R := match e with South | North => rl r | East | West => rb r end.
  Definition a_hi (e : Edge) (r : Rect R) : R := match e with South | North => rr r | East | West => rt r end.

  (** [n] faces the whole edge [e] of [r], or lies beside it and is never asked for a point *)
  Definition facing (rn : Rect R) (e : Edge) (r : Rect R) : Prop :=
    e_off (opp_edge e) rn = e_off e r /\ a_lo e rn <= a_lo e r /\ a_hi e r <= a_hi e rn.
  Definition nb_ok (nodes : list (ANode R)) (r : Rect R) (e : Edge) (o : option nat) : Prop :=
    match o with
    | None => True
    | Some n => exists h lo hi rn nbn, tree nodes h n lo hi rn nbn /\ (hi <= length nodes)%nat /\ rect_ok rn /\
        (facing rn e r \/ a_hi e r <= a_lo e rn)
    end.
  Lemma nb_ok_within nodes r r' e o : e_off e r' = e_off e r -> within r' r -> nb_ok nodes r e o -> nb_ok nodes r' e o.
  Proof.
    intros E W H. destruct o as [n|]; [|exact I]. destruct H as (h & lo & hi & rn & nbn & Tn & Hl & Hrn & C).
    exists h, lo, hi, rn, nbn. split; [exact Tn|]. split; [exact Hl|]. split; [exact Hrn|]. unfold within in W.
    destruct C as [(C1 & C2 & C3)|C]; [left; split; [congruence|]; destruct e; cbn [a_lo a_hi] in *; lra|right; destruct e; cbn [a_lo a_hi] in *; lra].
  Qed.

  Lemma tree_leaf_nb nodes h id lo hi r nb : tree nodes h id lo hi r nb -> rect_ok r -> (hi <= length nodes)%nat ->
    (forall e, nb_ok nodes r e (four nb e)) ->
    forall j n, (j = id \/ lo <= j < hi)%nat -> nth_error nodes j = Some n -> an_children n = None ->
      exists r', node_ok n r' (an_nb n) /\ rect_ok r' /\ forall e, nb_ok nodes r' e (four (an_nb n) e).
  Proof.
    induction 1 as [h id lo r nb n E1 E2 E3|h id lo m hi r nb n d En Ec Ed Hn T0 IH0 T1 IH1]; intros Hr Hl HN j nj Hj Enj Cnj.
    - assert (j = id) as -> by lia. rewrite E1 in Enj. injection Enj as <-. exists r. destruct E3 as (S & EN & C). rewrite EN.
      split; [split; [exact S|split; [exact EN|exact C]]|]. auto.
    - pose proof (tree_le _ _ _ _ _ _ _ T0) as L0. pose proof (tree_le _ _ _ _ _ _ _ T1) as L1.
      pose proof (lower_ok eps maxv d r Hr) as H0. pose proof (upper_ok eps maxv d r Hr) as H1.
      assert (C : j = id \/ (j = lo \/ S (S lo) <= j < m)%nat \/ (j = S lo \/ m <= j < hi)%nat) by lia.
      destruct C as [->|[C|C]].
      + rewrite En in Enj. injection Enj as <-. congruence.
      + refine (IH0 H0 _ _ j nj C Enj Cnj); [lia|]. intros e.
        assert (G : e_off e (lower d r) = e_off e r -> nb_ok nodes (lower d r) e (four nb e)).
        { intros E. apply (nb_ok_within nodes r); [exact E|now apply lower_within|apply HN]. }
        assert (K : e_off (opp_edge e) (upper d r) = e_off e (lower d r) -> a_lo e (upper d r) <= a_lo e (lower d r) ->
                    a_hi e (lower d r) <= a_hi e (upper d r) -> nb_ok nodes (lower d r) e (Some (S lo))).
        { intros K1 K2 K3. eexists _, _, _, _, _. split; [exact T1|]. split; [exact Hl|]. split; [exact H1|]. left. split; auto. }
        destruct d, e; try (apply G; reflexivity); cbn [four lower_nb f0 f1 f2 f3]; apply K; cbn; lra.
      + refine (IH1 H1 Hl _ j nj C Enj Cnj). intros e.
        assert (G : e_off e (upper d r) = e_off e r -> nb_ok nodes (upper d r) e (four nb e)).
        { intros E. apply (nb_ok_within nodes r); [exact E|now apply upper_within|apply HN]. }
        assert (K : e_off (opp_edge e) (lower d r) = e_off e (upper d r) -> a_lo e (lower d r) <= a_lo e (upper d r) ->
                    a_hi e (upper d r) <= a_hi e (lower d r) -> nb_ok nodes (upper d r) e (Some lo)).
        { intros K1 K2 K3. eexists _, _, _, _, _. split; [exact T0|]. split; [lia|]. split; [exact H0|]. left. split; auto. }
        destruct d, e; try (apply G; reflexivity); cbn [four upper_nb f0 f1 f2 f3]; apply K; cbn; lra.
  Qed.

  (** ** The vertices along one edge of a leaf *)
  Lemma all_corners_side nodes n r e l : 0 < eps -> node_ok n r (an_nb n) -> rect_ok r -> nb_ok nodes r e (four (an_nb n) e) ->
    get_all_corners nodes n e = Ok l -> side e r (map sp_uv l).
  Proof.
    intros He ((S0 & S1 & S2 & S3) & _ & _) Hr HN E. unfold get_all_corners in E.
    assert (C : sp_uv (four (an_corners n) e) = corner_of e r) by (destruct e; assumption).
    destruct (four (an_nb n) e) as [j|].
    - destruct HN as (h & lo & hi & rn & nbn & Tn & Hl & Hrn & F). apply bind_ok in E. destruct E as (cs & Ecs & E). injection E as <-.
      apply (tree_edge _ _ _ _ _ _ _ Tn Hrn) in Ecs. destruct Ecs as (A & FO).
      set (P := fun c : SPoint R => (_ && _)%bool) in *.
      assert (HP : forall c, P c = true -> a_lo e r + eps < along e c < a_hi e r - eps).
      { intros c Hc. unfold P in Hc. apply andb_prop in Hc. destruct Hc as (P1 & P2). rs.
        change (Rltb (along e (f0 (an_corners n)) + eps) (along e c) = true) in P1. change (Rltb (along e c) (along e (f2 (an_corners n)) - eps) = true) in P2.
        destruct (Rltb_spec (along e (f0 (an_corners n)) + eps) (along e c)) as [Q1|Q1]; [|discriminate].
        destruct (Rltb_spec (along e c) (along e (f2 (an_corners n)) - eps)) as [Q2|Q2]; [|discriminate].
        unfold along in *. destruct e; rewrite ?S0, ?S2 in *; cbn [fst snd a_lo a_hi] in *; lra. }
      exists (map sp_uv (rev (filter P cs))). cbn [map]. rewrite C. split; [reflexivity|]. split.
      + rewrite map_map. apply asc_sorted in A. apply (sorted_filter _ P) in A. apply sorted_rev_opp in A.
        erewrite map_ext; [exact A|]. intros c. cbv beta. rewrite pos_opp. lra.
      + apply Forall_forall. intros p Hp. apply in_map_iff in Hp. destruct Hp as (c & <- & Hc). apply in_rev in Hc. apply filter_In in Hc.
        destruct Hc as (Ic & Pc). apply HP in Pc. rewrite Forall_forall in FO. specialize (FO c Ic). rewrite off_opp in FO.
        pose proof (asc_range _ _ _ A (pos (opp_edge e) (sp_uv c)) (in_map (fun p => pos (opp_edge e) (sp_uv p)) _ _ Ic)) as RA.
        destruct F as [(F1 & F2 & F3)|F].
        * split; [destruct e; cbn [pos along e_lo e_hi a_lo a_hi] in *; lra|congruence].
        * exfalso. destruct e; cbn [pos opp_edge along e_lo e_hi a_lo a_hi] in *; lra.
    - injection E as <-. exists []. cbn [map]. rewrite C. split; [reflexivity|]. split; [constructor|constructor].
  Qed.

  (** ** The neighbours of the cells *)
  Section Grid.
    Variables (us vs : list R) (du dv : nat).
    Hypotheses (Lu : length us = S du) (Lv : length vs = S dv) (Iu : increasing us) (Iv : increasing vs).
    Local Notation cell := (@cell_rect R (ROps eps maxv) us vs du dv).

    Lemma cell_nb_ok nodes h b i e : forest nodes h (dv * du) cell (cell_nb du dv) b -> (i < dv * du)%nat ->
      nb_ok nodes (cell i) e (four (cell_nb du dv i) e).
    Proof.
      intros F Hi. destruct (cell_bounds us vs du dv Lu Lv i Hi) as (H1 & H2 & H3).
      assert (K : forall k, (k < dv * du)%nat -> (facing (cell k) e (cell i) \/ a_hi e (cell i) <= a_lo e (cell k)) -> nb_ok nodes (cell i) e (Some k)).
      { intros k Hk HF. pose proof (forest_mono _ _ _ _ _ _ (S k) (dv * du) F ltac:(lia)) as M. destruct F as (_ & BN & B). destruct (B k Hk) as (_ & Tk).
        eexists _, _, _, _, _. split; [exact Tk|]. split; [lia|]. split; [now apply (cell_ok eps maxv us vs du dv Lu Lv Iu Iv)|exact HF]. }
      assert (D : (i = du * (i / du) + i mod du)%nat) by (apply Nat.div_mod; lia).
      remember (i / du)%nat as q eqn:Eq. remember (i mod du)%nat as m eqn:Em.
      assert (QM : forall k q' m', (m' < du)%nat -> (k = du * q' + m')%nat -> (k / du = q' /\ k mod du = m')%nat).
      { intros k q' m' Hm Hk. split; [symmetry; apply (Nat.div_unique k du q' m')|symmetry; apply (Nat.mod_unique k du q' m')]; auto. }
      assert (CI : forall k q' m', (m' < du)%nat -> (q' < dv)%nat -> (k = du * q' + m')%nat ->
                cell k = MkRect (nth m' us 0) (nth (dv - q' - 1) vs 0) (nth (S m') us 0) (nth (dv - q') vs 0) /\ (k < dv * du)%nat).
      { intros k q' m' Hm Hq Hk. split; [|nia]. destruct (QM k q' m' Hm Hk) as (Q & M). unfold cell_rect. rewrite Q, M. f_equal; f_equal; lia. }
      destruct (CI i q m H2 H1 D) as (Ci & _). rewrite Ci in *.
      assert (CNB : cell_nb du dv i = MkFour (if (q =? dv - 1)%nat then None else Some (i + du)%nat) (if (m =? du - 1)%nat then None else Some (i + 1)%nat)
                 (if (q =? 0)%nat then None else Some (i - du)%nat) (if (q =? 0)%nat then None else Some (i - 1)%nat)) by (unfold cell_nb; rewrite <- Eq, <- Em; reflexivity).
      rewrite CNB. clear CNB Eq Em. destruct e; cbn [four f0 f1 f2 f3].
      - destruct (Nat.eqb_spec q (dv - 1)) as [E|E]; [exact I|].
        destruct (CI (i + du)%nat (S q) m H2 ltac:(lia) ltac:(lia)) as (Ck & Lk). apply K; [exact Lk|]. rewrite Ck.
        left. unfold facing. cbn [opp_edge e_off a_lo a_hi rl rr rb rt]. split; [f_equal; lia|]. lra.
      - destruct (Nat.eqb_spec m (du - 1)) as [E|E]; [exact I|].
        destruct (CI (i + 1)%nat q (S m) ltac:(lia) H1 ltac:(lia)) as (Ck & Lk). apply K; [exact Lk|]. rewrite Ck.
        left. unfold facing. cbn [opp_edge e_off a_lo a_hi rl rr rb rt]. split; [reflexivity|]. lra.
      - destruct (Nat.eqb_spec q 0) as [E|E]; [exact I|]. destruct q as [|q]; [lia|].
        destruct (CI (i - du)%nat q m H2 ltac:(lia) ltac:(lia)) as (Ck & Lk). apply K; [exact Lk|]. rewrite Ck.
        left. unfold facing. cbn [opp_edge e_off a_lo a_hi rl rr rb rt]. split; [f_equal; lia|]. lra.
      - destruct (Nat.eqb_spec q 0) as [E|E]; [exact I|]. destruct q as [|q]; [lia|]. destruct m as [|m].
        + destruct (CI (i - 1)%nat q (du - 1)%nat ltac:(lia) ltac:(lia) ltac:(lia)) as (Ck & Lk). apply K; [exact Lk|]. rewrite Ck.
          right. cbn [a_lo a_hi rb rt]. apply Req_le. f_equal. lia.
        + destruct (CI (i - 1)%nat (S q) m ltac:(lia) H1 ltac:(lia)) as (Ck & Lk). apply K; [exact Lk|]. rewrite Ck.
          left. unfold facing. cbn [opp_edge e_off a_lo a_hi rl rr rb rt]. split; [reflexivity|]. lra.
    Qed.

    (** every leaf: its rectangle and the sides of its polygon *)
    Theorem forest_polygons nodes h b : 0 < eps -> forest nodes h (dv * du) cell (cell_nb du dv) b ->
      forall j n, nth_error nodes j = Some n -> an_children n = None ->
      exists r, shaped (an_corners n) r /\ an_center n = ((rl r + rr r) / 2, (rb r + rt r) / 2) /\ rect_ok r /\
        forall e l, get_all_corners nodes n e = Ok l -> side e r (map sp_uv l).
    Proof.
      intros He F j n En Cn. destruct (forest_locate _ _ _ _ _ _ F j) as (i & Hi & Hj); [apply nth_error_Some; congruence|].
      pose proof (forest_mono _ _ _ _ _ _ (S i) (dv * du) F ltac:(lia)) as M.
      assert (F' := F). destruct F' as (_ & BN & B). destruct (B i Hi) as (_ & Ti).
      destruct (tree_leaf_nb _ _ _ _ _ _ _ Ti (cell_ok eps maxv us vs du dv Lu Lv Iu Iv i Hi) ltac:(lia) (fun e => cell_nb_ok nodes h b i e F Hi) j n Hj En Cn)
        as (r & Hn & Hr & HN).
      exists r. assert (Hn' := Hn). destruct Hn' as (Sh & _ & Ce). rewrite half_u_R, half_v_R in Ce.
      split; [exact Sh|]. split; [exact Ce|]. split; [exact Hr|]. intros e l E. apply (all_corners_side nodes n r e l He Hn Hr (HN e) E).
    Qed.
  End Grid.
End Real.
