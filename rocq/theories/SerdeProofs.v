(** * Reading back what was written, and what is accepted *)
From Coq Require Import String Permutation.
From Verif Require Import Base BaseFacts Scalar CurveModel SurfaceModel ClipModel SerdeModel.
Local Open Scope string_scope. Local Open Scope list_scope.

(** [r] is a value or an error: not a panic, not an endless loop *)
Definition plain {A} (r : Res A) : Prop := is_ok r \/ errs r.

Section Spec.
  Context {T : Type} {SO : Scalar T}.
  Local Notation V := (Val T).

  (** ** Specification: the documents of each type *)
  Definition reads_num (v : V) (x : T) : Prop := v = VNum x \/ exists n, v = VInt n /\ x = sofnat n.
  Definition reads_seq {A} (P : V -> A -> Prop) (v : V) (l : list A) : Prop := exists vs, v = VArr vs /\ Forall2 P vs l.
  Definition reads_point (D : nat) (v : V) (p : list T) : Prop := reads_seq reads_num v p /\ length p = D.

  Definition curve_doc (D : nat) (v : V) (c : Curve T) : Prop :=
    cdim c = D /\ exists kv vp vk, v = VObj kv /\
      Permutation kv [("control_points", vp); ("degree", VInt (cdeg c)); ("knots", vk)] /\
      reads_seq (reads_point D) vp (cpts c) /\ reads_seq reads_num vk (cknots c).
  Definition surface_doc (D : nat) (v : V) (s : Surf T) : Prop :=
    sdim s = D /\ exists kv vp vu vv, v = VObj kv /\
      Permutation kv [("control_points", vp); ("u_degree", VInt (sdu s)); ("v_degree", VInt (sdv s)); ("u_knots", vu); ("v_knots", vv)] /\
      reads_seq (reads_seq (reads_point D)) vp (snet s) /\ reads_seq reads_num vu (suk s) /\ reads_seq reads_num vv (svk s).
  Definition compound_doc (D : nat) (v : V) (spans : list (Curve T)) : Prop :=
    exists vs, v = VObj [("spans", vs)] /\ reads_seq (curve_doc D) vs spans.
  (** the derived reader of regions: an array of the two fields, or an object whose other fields are ignored *)
  Definition region_doc (v : V) (r : Region (list (Curve T))) : Prop :=
    exists ve vi, compound_doc 3 ve (rexterior r) /\ reads_seq (compound_doc 3) vi (rinteriors r) /\
      (v = VArr [ve; vi] \/
       exists kv rest, v = VObj kv /\ Permutation kv (("exterior", ve) :: ("interiors", vi) :: rest) /\
         Forall (fun p => fst p <> "exterior" /\ fst p <> "interiors") rest).
  (** trimmed surfaces: any number of unreadable exteriors (null among them) may precede the last one *)
  Definition exterior_doc (vs : list V) (e : option (Curve T)) : Prop :=
    match e with
    | None => Forall (fun v => forall c, ~ curve_doc 3 v c) vs
    | Some c => exists bad v, vs = bad ++ [v] /\ Forall (fun v => forall c, ~ curve_doc 3 v c) bad /\ curve_doc 3 v c
    end.
  Definition trimmed_doc (v : V) (t : Trimmed T) : Prop :=
    exists kv vsurf vint vext, v = VObj kv /\
      surface_doc 4 vsurf (tr_surface t) /\ reads_seq (curve_doc 3) vint (tr_interiors t) /\ exterior_doc vext (tr_exterior t) /\
      Permutation kv (("surface", vsurf) :: ("interiors", vint) :: map (fun x => ("exterior", x)) vext) /\
      map snd (filter (fun p => fst p =? "exterior") kv) = vext.

  (** ** Elementary readers *)
  Lemma mapM_iff {A B} (f : A -> Res B) : forall l l', mapM f l = Ok l' <-> Forall2 (fun x y => f x = Ok y) l l'.
  Proof.
    intros l l'. split; [apply mapM_inv|]. revert l'. induction l as [|h t IH]; intros l' H; inversion H; subst; [reflexivity|].
    cbn [mapM]. rewrite H2. cbn [bind]. rewrite (IH _ H4). reflexivity.
  Qed.
  Lemma dec_num_iff v x : dec_num v = Ok x <-> reads_num v x.
  Proof.
    unfold reads_num. split.
    - destruct v; cbn; intros H; try discriminate; injection H as <-; eauto.
    - intros [->|(n & -> & ->)]; reflexivity.
  Qed.
  Lemma Forall2_iff {A B} (P Q : A -> B -> Prop) : (forall x y, P x y <-> Q x y) -> forall l l', Forall2 P l l' <-> Forall2 Q l l'.
  Proof.
    intros H l l'. split; intros F; induction F; constructor; auto; now apply H.
  Qed.
  Lemma dec_seq_iff {A} (dec : V -> Res A) (P : V -> A -> Prop) : (forall v x, dec v = Ok x <-> P v x) ->
    forall v l, dec_seq dec v = Ok l <-> reads_seq P v l.
  Proof.
    intros H v l. unfold reads_seq. split.
    - destruct v; cbn [dec_seq]; intros E; try discriminate. apply mapM_iff in E. eexists. split; [reflexivity|].
      exact (proj1 (Forall2_iff _ _ H _ _) E).
    - intros (vs & -> & F). cbn [dec_seq]. apply mapM_iff. exact (proj2 (Forall2_iff _ _ H _ _) F).
  Qed.
  Lemma dec_point_iff D v p : dec_point D v = Ok p <-> reads_point D v p.
  Proof.
    unfold dec_point, reads_point. rewrite <- (dec_seq_iff dec_num reads_num dec_num_iff). split.
    - destruct (dec_seq dec_num v) as [q|e|e|]; cbn [bind]; try discriminate.
      destruct (Nat.eqb_spec (length q) D) as [L|L]; cbn; intros E; try discriminate. injection E as <-. auto.
    - intros (-> & L). cbn [bind]. rewrite L, Nat.eqb_refl. reflexivity.
  Qed.
  Lemma dec_nat_iff (v : V) n : dec_nat v = Ok n <-> v = VInt n.
  Proof. split; [destruct v; cbn; intros H; try discriminate; now injection H as ->|intros ->; reflexivity]. Qed.

  (** ** One field of an object *)
  Definition slot_rel {A} (P : V -> A -> Prop) (o : option A) (l : list V) (o' : option A) : Prop :=
    (l = [] /\ o' = o) \/ (o = None /\ exists v x, l = [v] /\ P v x /\ o' = Some x).
  Definition values (n : string) (kv : list (string * V)) : list V := map snd (filter (fun p => fst p =? n) kv).

  Lemma slot_cons {A} (dec : V -> Res A) (P : V -> A -> Prop) : (forall v x, dec v = Ok x <-> P v x) ->
    forall o v l o', (exists o1, slot dec o v = Ok o1 /\ slot_rel P o1 l o') <-> slot_rel P o (v :: l) o'.
  Proof.
    intros H o v l o'. unfold slot_rel. split.
    - intros (o1 & E & F). destruct o as [x|]; cbn in E; [discriminate|]. destruct (dec v) as [x|e|e|] eqn:Ev; cbn in E; try discriminate.
      injection E as <-. destruct F as [(-> & ->)|(C & _)]; [|discriminate]. right. split; [reflexivity|].
      exists v, x. split; [reflexivity|]. split; [now apply H|reflexivity].
    - intros [(C & _)|(-> & v' & x & E & Hx & ->)]; [discriminate|]. injection E as -> ->.
      exists (Some x). cbn [slot]. rewrite (proj2 (H v' x) Hx). cbn [bind]. split; [reflexivity|]. left. auto.
  Qed.

  Lemma values_hit n k v kv : k = n -> values n ((k, v) :: kv) = v :: values n kv.
  Proof. intros ->. unfold values. cbn [filter fst]. rewrite String.eqb_refl. reflexivity. Qed.
  Lemma values_miss n k v kv : k <> n -> values n ((k, v) :: kv) = values n kv.
  Proof. intros N. unfold values. cbn [filter fst]. rewrite (proj2 (String.eqb_neq k n) N). reflexivity. Qed.
  Lemma values_perm n kv kv' : Permutation kv kv' -> Permutation (values n kv) (values n kv').
  Proof.
    intros P. unfold values. apply Permutation_map. induction P as [|x l l' P IH|x y l|l1 l2 l3 P1 IH1 P2 IH2]; cbn [filter].
    - constructor.
    - destruct (fst x =? n); [now constructor|exact IH].
    - destruct (fst x =? n), (fst y =? n); try reflexivity. constructor.
    - etransitivity; eassumption.
  Qed.
  Lemma values_none n kv : Forall (fun p => fst p <> n) kv -> values n kv = [].
  Proof. induction 1 as [|[k v] l H F IH]; [reflexivity|]. rewrite values_miss by exact H. exact IH. Qed.

  (** all keys known: the object is its fields *)
  Fixpoint by_field (names : list string) (kv : list (string * V)) : list (string * V) :=
    match names with [] => [] | n :: t => map (fun v => (n, v)) (values n kv) ++ by_field t kv end.
  Lemma by_field_miss names k v kv : ~ In k names -> by_field names ((k, v) :: kv) = by_field names kv.
  Proof.
    induction names as [|n t IH]; cbn [by_field In]; intros N; [reflexivity|].
    rewrite values_miss, IH by (intuition congruence). reflexivity.
  Qed.
  Lemma by_field_perm names : NoDup names -> forall kv, (forall k, In k (map fst kv) -> In k names) -> Permutation kv (by_field names kv).
  Proof.
    intros ND. induction kv as [|[k v] kv IH]; intros H.
    - clear H. induction names as [|n t IHn]; [constructor|]. cbn [by_field values filter map app]. apply IHn. now inversion ND.
    - assert (Hk : In k names) by (apply H; now left). specialize (IH (fun k' Hk' => H k' (or_intror Hk'))).
      etransitivity; [apply perm_skip, IH|]. clear IH H. induction names as [|n t IHn]; [destruct Hk|].
      inversion ND as [|? ? N1 N2]; subst. cbn [by_field]. destruct (string_dec k n) as [->|Nk].
      + rewrite values_hit, by_field_miss by (auto). reflexivity.
      + rewrite values_miss by exact Nk. destruct Hk as [Hk|Hk]; [congruence|].
        etransitivity; [apply Permutation_middle|]. apply Permutation_app_head. now apply IHn.
  Qed.

  Lemma eqb_cases k n : (k = n /\ (k =? n) = true) \/ (k <> n /\ (k =? n) = false).
  Proof. destruct (String.eqb_spec k n); auto. Qed.

  Definition curve_fields : list string := ["control_points"; "degree"; "knots"].
  Definition surface_fields : list string := ["control_points"; "u_degree"; "v_degree"; "u_knots"; "v_knots"].

  Ltac key_step k n :=
    let E := fresh "E" in let N := fresh "N" in
    destruct (eqb_cases k n) as [(N & E)|(N & E)]; rewrite E; clear E.

  Lemma curve_fold D : forall kv a b c a' b' c',
    foldM (curve_key D) kv (a, b, c) = Ok (a', b', c') <->
    (forall k, In k (map fst kv) -> In k curve_fields) /\
    slot_rel (reads_seq (reads_point D)) a (values "control_points" kv) a' /\
    slot_rel (fun v n => v = VInt n) b (values "degree" kv) b' /\
    slot_rel (reads_seq reads_num) c (values "knots" kv) c'.
  Proof.
    assert (B : forall {A} P (o o' : option A), slot_rel P o [] o' <-> o' = o).
    { intros A P o o'. unfold slot_rel. split; [intros [(_ & ->)|(_ & v & x & C & _)]; [reflexivity|discriminate]|auto]. }
    induction kv as [|[k v] kv IH]; intros a b c a' b' c'.
    - cbn [foldM values filter map]. rewrite !B. split; [intros H; injection H as <- <- <-; split; [intros k []|]; auto|].
      intros (_ & -> & -> & ->). reflexivity.
    - assert (HK : (forall k0, In k0 (map fst ((k, v) :: kv)) -> In k0 curve_fields) <->
                   In k curve_fields /\ (forall k0, In k0 (map fst kv) -> In k0 curve_fields)).
      { cbn [map fst]. split; [intros H; split; [apply H; now left|intros k0 H0; apply H; now right]|].
        intros (H1 & H2) k0 [<-|H0]; auto. }
      rewrite HK. cbn [foldM]. unfold curve_key at 1.
      key_step k "control_points"; [|key_step k "degree"; [|key_step k "knots"]].
      + subst k. rewrite (values_hit "control_points"), (values_miss "degree"), (values_miss "knots") by (reflexivity || discriminate).
        rewrite <- (slot_cons _ _ (dec_seq_iff _ _ (dec_point_iff D))). split.
        * intros E. destruct (slot _ a v) as [o|e|e|]; cbn [bind] in E; try discriminate. apply IH in E.
          destruct E as (E1 & E2 & E3 & E4). split; [split; [cbn; auto|exact E1]|]. split; [exists o; auto|]. auto.
        * intros ((_ & H1) & (o & E & H2) & H3 & H4). rewrite E. cbn [bind]. apply IH. auto.
      + subst k. rewrite (values_hit "degree"), (values_miss "control_points"), (values_miss "knots") by (reflexivity || discriminate).
        rewrite <- (slot_cons _ _ dec_nat_iff). split.
        * intros E. destruct (slot _ b v) as [o|e|e|]; cbn [bind] in E; try discriminate. apply IH in E.
          destruct E as (E1 & E2 & E3 & E4). split; [split; [cbn; auto|exact E1]|]. split; [exact E2|]. split; [exists o; auto|]. auto.
        * intros ((_ & H1) & H2 & (o & E & H3) & H4). rewrite E. cbn [bind]. apply IH. auto.
      + subst k. rewrite (values_hit "knots"), (values_miss "control_points"), (values_miss "degree") by (reflexivity || discriminate).
        rewrite <- (slot_cons _ _ (dec_seq_iff _ _ dec_num_iff)). split.
        * intros E. unfold dec_knots in E. destruct (slot _ c v) as [o|e|e|]; cbn [bind] in E; try discriminate. apply IH in E.
          destruct E as (E1 & E2 & E3 & E4). split; [split; [cbn; auto|exact E1]|]. split; [exact E2|]. split; [exact E3|]. exists o; auto.
        * intros ((_ & H1) & H2 & H3 & (o & E & H4)). unfold dec_knots. rewrite E. cbn [bind]. apply IH. auto.
      + cbn [bind]. split; [discriminate|]. intros (([H|[H|[H|[]]]] & _) & _); congruence.
  Qed.

  Lemma single_values {A} P (l : list V) (x : A) : slot_rel P None l (Some x) <-> exists v, l = [v] /\ P v x.
  Proof.
    unfold slot_rel. split.
    - intros [(_ & C)|(_ & v & y & -> & H & E)]; [discriminate|]. injection E as ->. eauto.
    - intros (v & -> & H). right. split; [reflexivity|]. exists v, x. auto.
  Qed.
  Lemma perm_single {A} (l : list A) x : Permutation [x] l -> l = [x].
  Proof. apply Permutation_length_1_inv. Qed.

  (** ** Curves *)
  Theorem curve_read_iff D v c : dec_curve D v = Ok c <-> curve_doc D v c.
  Proof.
    unfold curve_doc. split.
    - destruct v as [| | | |kv]; cbn [dec_curve]; intros E; try discriminate.
      destruct (foldM (curve_key D) kv (None, None, None)) as [[[a b] k]|e|e|] eqn:F; cbn [bind] in E; try discriminate.
      apply curve_fold in F. destruct F as (FK & Fa & Fb & Fk).
      destruct a as [a|], b as [b|], k as [k|]; cbn [ok_or bind] in E; try discriminate. injection E as <-. cbn [cdim cdeg cpts cknots].
      split; [reflexivity|]. apply single_values in Fa, Fb, Fk.
      destruct Fa as (va & Ea & Ha), Fb as (vb & Eb & Hb), Fk as (vk & Ek & Hk). subst vb.
      exists kv, va, vk. split; [reflexivity|]. split; [|auto].
      etransitivity; [apply (by_field_perm curve_fields); [|exact FK]|].
      + repeat constructor; cbn; intuition discriminate.
      + cbn [by_field curve_fields]. rewrite Ea, Eb, Ek. reflexivity.
    - intros (HD & kv & vp & vk & -> & P & Hp & Hk). cbn [dec_curve].
      assert (F : foldM (curve_key D) kv (None, None, None) = Ok (Some (cpts c), Some (cdeg c), Some (cknots c))).
      { apply curve_fold. split.
        - intros k Hin. apply (Permutation_in _ (Permutation_map fst P)) in Hin. exact Hin.
        - rewrite !single_values.
          pose proof (values_perm "control_points" _ _ (Permutation_sym P)) as P1.
          pose proof (values_perm "degree" _ _ (Permutation_sym P)) as P2.
          pose proof (values_perm "knots" _ _ (Permutation_sym P)) as P3.
          unfold values in P1 at 1, P2 at 1, P3 at 1. cbn in P1, P2, P3.
          apply perm_single in P1. apply perm_single in P2. apply perm_single in P3.
          split; [eexists; split; [exact P1|exact Hp]|]. split; eexists; (split; [eassumption|auto]). }
      rewrite F. cbn [bind ok_or]. rewrite <- HD. destruct c; reflexivity.
  Qed.

  Lemma surface_fold D : forall kv net du dv ku kw net' du' dv' ku' kw',
    foldM (surface_key D) kv (net, du, dv, ku, kw) = Ok (net', du', dv', ku', kw') <->
    (forall k, In k (map fst kv) -> In k surface_fields) /\
    slot_rel (reads_seq (reads_seq (reads_point D))) net (values "control_points" kv) net' /\
    slot_rel (fun v n => v = VInt n) du (values "u_degree" kv) du' /\
    slot_rel (fun v n => v = VInt n) dv (values "v_degree" kv) dv' /\
    slot_rel (reads_seq reads_num) ku (values "u_knots" kv) ku' /\
    slot_rel (reads_seq reads_num) kw (values "v_knots" kv) kw'.
  Proof.
    assert (B : forall {A} P (o o' : option A), slot_rel P o [] o' <-> o' = o).
    { intros A P o o'. unfold slot_rel. split; [intros [(_ & ->)|(_ & v & x & C & _)]; [reflexivity|discriminate]|auto]. }
    induction kv as [|[k v] kv IH]; intros.
    - cbn [foldM values filter map]. rewrite !B. split.
      + intros H; injection H as <- <- <- <- <-; split; [intros k []|]; auto 10.
      + intros (_ & -> & -> & -> & -> & ->). reflexivity.
    - assert (HK : (forall k0, In k0 (map fst ((k, v) :: kv)) -> In k0 surface_fields) <->
                   In k surface_fields /\ (forall k0, In k0 (map fst kv) -> In k0 surface_fields)).
      { cbn [map fst]. split; [intros H; split; [apply H; now left|intros k0 H0; apply H; now right]|].
        intros (H1 & H2) k0 [<-|H0]; auto. }
      rewrite HK. cbn [foldM]. unfold surface_key at 1.
      key_step k "control_points"; [|key_step k "u_degree"; [|key_step k "v_degree"; [|key_step k "u_knots"; [|key_step k "v_knots"]]]].
      + subst k. rewrite (values_hit "control_points"), (values_miss "u_degree"), (values_miss "v_degree"), (values_miss "u_knots"), (values_miss "v_knots") by (reflexivity || discriminate).
        rewrite <- (slot_cons _ _ (dec_seq_iff _ _ (dec_seq_iff _ _ (dec_point_iff D)))). unfold dec_knots. split.
        * intros E. destruct (slot _ net v) as [o|e|e|]; cbn [bind] in E; try discriminate. apply IH in E.
          destruct E as (E0 & E1 & E2 & E3 & E4 & E5). split; [split; [cbn; auto 10|exact E0]|].
          split; [exists o; auto|].
          split; [exact E2|].
          split; [exact E3|].
          split; [exact E4|].
          exact E5.
        * intros ((_ & H0) & (o & E & H1) & H2 & H3 & H4 & H5). rewrite E. cbn [bind]. apply IH. auto 10.
      + subst k. rewrite (values_hit "u_degree"), (values_miss "control_points"), (values_miss "v_degree"), (values_miss "u_knots"), (values_miss "v_knots") by (reflexivity || discriminate).
        rewrite <- (slot_cons _ _ (dec_nat_iff)). unfold dec_knots. split.
        * intros E. destruct (slot _ du v) as [o|e|e|]; cbn [bind] in E; try discriminate. apply IH in E.
          destruct E as (E0 & E1 & E2 & E3 & E4 & E5). split; [split; [cbn; auto 10|exact E0]|].
          split; [exact E1|].
          split; [exists o; auto|].
          split; [exact E3|].
          split; [exact E4|].
          exact E5.
        * intros ((_ & H0) & H1 & (o & E & H2) & H3 & H4 & H5). rewrite E. cbn [bind]. apply IH. auto 10.
      + subst k. rewrite (values_hit "v_degree"), (values_miss "control_points"), (values_miss "u_degree"), (values_miss "u_knots"), (values_miss "v_knots") by (reflexivity || discriminate).
        rewrite <- (slot_cons _ _ (dec_nat_iff)). unfold dec_knots. split.
        * intros E. destruct (slot _ dv v) as [o|e|e|]; cbn [bind] in E; try discriminate. apply IH in E.
          destruct E as (E0 & E1 & E2 & E3 & E4 & E5). split; [split; [cbn; auto 10|exact E0]|].
          split; [exact E1|].
          split; [exact E2|].
          split; [exists o; auto|].
          split; [exact E4|].
          exact E5.
        * intros ((_ & H0) & H1 & H2 & (o & E & H3) & H4 & H5). rewrite E. cbn [bind]. apply IH. auto 10.
      + subst k. rewrite (values_hit "u_knots"), (values_miss "control_points"), (values_miss "u_degree"), (values_miss "v_degree"), (values_miss "v_knots") by (reflexivity || discriminate).
        rewrite <- (slot_cons _ _ (dec_seq_iff _ _ dec_num_iff)). unfold dec_knots. split.
        * intros E. destruct (slot _ ku v) as [o|e|e|]; cbn [bind] in E; try discriminate. apply IH in E.
          destruct E as (E0 & E1 & E2 & E3 & E4 & E5). split; [split; [cbn; auto 10|exact E0]|].
          split; [exact E1|].
          split; [exact E2|].
          split; [exact E3|].
          split; [exists o; auto|].
          exact E5.
        * intros ((_ & H0) & H1 & H2 & H3 & (o & E & H4) & H5). rewrite E. cbn [bind]. apply IH. auto 10.
      + subst k. rewrite (values_hit "v_knots"), (values_miss "control_points"), (values_miss "u_degree"), (values_miss "v_degree"), (values_miss "u_knots") by (reflexivity || discriminate).
        rewrite <- (slot_cons _ _ (dec_seq_iff _ _ dec_num_iff)). unfold dec_knots. split.
        * intros E. destruct (slot _ kw v) as [o|e|e|]; cbn [bind] in E; try discriminate. apply IH in E.
          destruct E as (E0 & E1 & E2 & E3 & E4 & E5). split; [split; [cbn; auto 10|exact E0]|].
          split; [exact E1|].
          split; [exact E2|].
          split; [exact E3|].
          split; [exact E4|].
          exists o; auto.
        * intros ((_ & H0) & H1 & H2 & H3 & H4 & (o & E & H5)). rewrite E. cbn [bind]. apply IH. auto 10.
      + cbn [bind]. split; [discriminate|]. intros (([H|[H|[H|[H|[H|[]]]]]] & _) & _); congruence.
  Qed.

  Theorem surface_read_iff D v s : dec_surface D v = Ok s <-> surface_doc D v s.
  Proof.
    unfold surface_doc. split.
    - destruct v as [| | | |kv]; cbn [dec_surface]; intros E; try discriminate.
      destruct (foldM (surface_key D) kv (None, None, None, None, None)) as [[[[[a b] b2] k] k2]|e|e|] eqn:F; cbn [bind] in E; try discriminate.
      apply surface_fold in F. destruct F as (FK & Fa & Fb & Fb2 & Fk & Fk2).
      destruct a as [a|], b as [b|], b2 as [b2|], k as [k|], k2 as [k2|]; cbn [ok_or bind] in E; try discriminate.
      injection E as <-. cbn [sdim sdu sdv suk svk snet].
      split; [reflexivity|]. apply single_values in Fa, Fb, Fb2, Fk, Fk2.
      destruct Fa as (va & Ea & Ha), Fb as (vb & Eb & Hb), Fb2 as (vb2 & Eb2 & Hb2), Fk as (vk & Ek & Hk), Fk2 as (vk2 & Ek2 & Hk2). subst vb vb2.
      exists kv, va, vk, vk2. split; [reflexivity|]. split; [|auto].
      etransitivity; [apply (by_field_perm surface_fields); [|exact FK]|].
      + repeat constructor; cbn; intuition discriminate.
      + cbn [by_field surface_fields]. rewrite Ea, Eb, Eb2, Ek, Ek2. reflexivity.
    - intros (HD & kv & vp & vu & vv & -> & P & Hp & Hu & Hv). cbn [dec_surface].
      assert (F : foldM (surface_key D) kv (None, None, None, None, None) = Ok (Some (snet s), Some (sdu s), Some (sdv s), Some (suk s), Some (svk s))).
      { apply surface_fold. split.
        - intros k Hin. apply (Permutation_in _ (Permutation_map fst P)) in Hin. exact Hin.
        - rewrite !single_values.
          pose proof (values_perm "control_points" _ _ (Permutation_sym P)) as P1.
          pose proof (values_perm "u_degree" _ _ (Permutation_sym P)) as P2.
          pose proof (values_perm "v_degree" _ _ (Permutation_sym P)) as P3.
          pose proof (values_perm "u_knots" _ _ (Permutation_sym P)) as P4.
          pose proof (values_perm "v_knots" _ _ (Permutation_sym P)) as P5.
          unfold values in P1 at 1, P2 at 1, P3 at 1, P4 at 1, P5 at 1. cbn in P1, P2, P3, P4, P5.
          apply perm_single in P1. apply perm_single in P2. apply perm_single in P3. apply perm_single in P4. apply perm_single in P5.
          split; [eexists; split; [exact P1|exact Hp]|]. split; [eexists; split; [exact P2|reflexivity]|].
          split; [eexists; split; [exact P3|reflexivity]|]. split; [eexists; split; [exact P4|exact Hu]|]. eexists; split; [exact P5|exact Hv]. }
      rewrite F. cbn [bind ok_or]. rewrite <- HD. destruct s; reflexivity.
  Qed.

  (** ** Compound curves *)
  Theorem compound_read_iff D v spans : dec_compound D v = Ok spans <-> compound_doc D v spans.
  Proof.
    unfold compound_doc. split.
    - destruct v as [| | | |kv]; cbn [dec_compound]; intros E; try discriminate.
      destruct kv as [|[k1 v1] kv]; [discriminate|]. cbn [foldM] in E. unfold compound_key at 1 in E.
      destruct (eqb_cases k1 "spans") as [(-> & E1)|(N & E1)]; rewrite E1 in E; [|discriminate].
      cbn [slot] in E. destruct (dec_seq (dec_curve D) v1) as [l|e|e|] eqn:El; cbn [bind] in E; try discriminate.
      destruct kv as [|[k2 v2] kv].
      + cbn in E. injection E as <-. exists v1. split; [reflexivity|]. now apply (dec_seq_iff _ _ (curve_read_iff D)).
      + exfalso. cbn [foldM] in E. unfold compound_key at 1 in E. destruct (k2 =? "spans"); discriminate.
    - intros (vs & -> & H). apply (dec_seq_iff _ _ (curve_read_iff D)) in H. cbn [dec_compound foldM compound_key].
      rewrite String.eqb_refl. cbn [slot]. rewrite H. reflexivity.
  Qed.

  (** ** Regions (derived) *)
  Lemma region_fold : forall kv e i e' i',
    foldM region_key kv (e, i) = Ok (e', i') <->
    slot_rel (compound_doc 3) e (values "exterior" kv) e' /\ slot_rel (reads_seq (compound_doc 3)) i (values "interiors" kv) i'.
  Proof.
    assert (B : forall {A} P (o o' : option A), slot_rel P o [] o' <-> o' = o).
    { intros A P o o'. unfold slot_rel. split; [intros [(_ & ->)|(_ & v & x & C & _)]; [reflexivity|discriminate]|auto]. }
    induction kv as [|[k v] kv IH]; intros.
    - cbn [foldM values filter map]. rewrite !B. split; [intros H; injection H as <- <-; auto|intros (-> & ->); reflexivity].
    - cbn [foldM]. unfold region_key at 1. key_step k "exterior"; [|key_step k "interiors"].
      + subst k. rewrite (values_hit "exterior"), (values_miss "interiors") by (reflexivity || discriminate).
        rewrite <- (slot_cons _ _ (compound_read_iff 3)). split.
        * intros E. destruct (slot _ e v) as [o|m|m|]; cbn [bind] in E; try discriminate. apply IH in E. destruct E. split; [exists o|]; auto.
        * intros ((o & E & H1) & H2). rewrite E. cbn [bind]. apply IH. auto.
      + subst k. rewrite (values_hit "interiors"), (values_miss "exterior") by (reflexivity || discriminate).
        rewrite <- (slot_cons _ _ (dec_seq_iff _ _ (compound_read_iff 3))). split.
        * intros E. destruct (slot _ i v) as [o|m|m|]; cbn [bind] in E; try discriminate. apply IH in E. destruct E. split; [|exists o]; auto.
        * intros (H1 & (o & E & H2)). rewrite E. cbn [bind]. apply IH. auto.
      + cbn [bind]. rewrite (values_miss "interiors"), (values_miss "exterior") by assumption. apply IH.
  Qed.

  Lemma split_two n1 n2 kv v1 v2 : n1 <> n2 -> values n1 kv = [v1] -> values n2 kv = [v2] ->
    exists rest, Permutation kv ((n1, v1) :: (n2, v2) :: rest) /\ Forall (fun p => fst p <> n1 /\ fst p <> n2) rest.
  Proof.
    intros N. assert (One : forall n kv v, values n kv = [v] -> exists r, Permutation kv ((n, v) :: r) /\ Forall (fun p => fst p <> n) r /\
        forall n', n' <> n -> values n' r = values n' kv).
    { intros n. induction kv0 as [|[k w] kv0 IH]; intros v E; [discriminate|].
      destruct (string_dec k n) as [->|Nk].
      - rewrite values_hit in E by reflexivity. injection E as -> E. exists kv0. split; [reflexivity|]. split.
        + apply Forall_forall. intros [k' w'] Hin Hk. cbn in Hk. subst k'.
          assert (In w' (values n kv0)). { unfold values. apply in_map_iff. exists (n, w'). split; [reflexivity|]. apply filter_In. split; [exact Hin|]. cbn. apply String.eqb_refl. }
          rewrite E in H. exact H.
        + intros n' Hn'. now rewrite values_miss by congruence.
      - rewrite values_miss in E by exact Nk. destruct (IH v E) as (r & P & F & G). exists ((k, w) :: r). split.
        + etransitivity; [apply perm_skip, P|]. apply perm_swap.
        + split; [now constructor|]. intros n' Hn'. destruct (string_dec k n') as [->|Nk'].
          * rewrite !values_hit by reflexivity. f_equal. auto.
          * rewrite !values_miss by assumption. auto. }
    intros E1 E2. destruct (One n1 kv v1 E1) as (r1 & P1 & F1 & G1).
    destruct (One n2 r1 v2) as (r2 & P2 & F2 & _); [rewrite G1; auto|].
    exists r2. split; [etransitivity; [exact P1|]; now apply perm_skip|].
    assert (F1' : Forall (fun p : string * V => fst p <> n1) ((n2, v2) :: r2)).
    { apply (Permutation_Forall P2). exact F1. }
    inversion F1' as [|? ? _ F1'']; subst. rewrite Forall_forall in *. intros p Hp. auto.
  Qed.

  Theorem region_read_iff v r : dec_region v = Ok r <-> region_doc v r.
  Proof.
    unfold region_doc. split.
    - destruct v as [| | |l|kv]; cbn [dec_region]; intros E; try discriminate.
      + destruct l as [|ve [|vi [|x l]]]; try discriminate.
        destruct (dec_compound 3 ve) as [e|m|m|] eqn:Ee; cbn [bind] in E; try discriminate.
        destruct (dec_seq (dec_compound 3) vi) as [i|m|m|] eqn:Ei; cbn [bind] in E; try discriminate. injection E as <-.
        exists ve, vi. cbn [rexterior rinteriors]. split; [now apply compound_read_iff|].
        split; [now apply (dec_seq_iff _ _ (compound_read_iff 3))|]. now left.
      + destruct (foldM region_key kv (None, None)) as [[e i]|m|m|] eqn:F; cbn [bind] in E; try discriminate.
        apply region_fold in F. destruct F as (Fe & Fi).
        destruct e as [e|], i as [i|]; cbn [ok_or bind] in E; try discriminate. injection E as <-.
        apply single_values in Fe, Fi. destruct Fe as (ve & Ee & He), Fi as (vi & Ei & Hi).
        exists ve, vi. cbn [rexterior rinteriors]. split; [exact He|]. split; [exact Hi|]. right.
        destruct (split_two "exterior" "interiors" kv ve vi ltac:(discriminate) Ee Ei) as (rest & P & F). exists kv, rest. auto.
    - intros (ve & vi & He & Hi & [->|(kv & rest & -> & P & F)]).
      + cbn [dec_region]. rewrite (proj2 (compound_read_iff 3 _ _) He). cbn [bind].
        rewrite (proj2 (dec_seq_iff _ _ (compound_read_iff 3) _ _) Hi). cbn [bind]. destruct r; reflexivity.
      + cbn [dec_region].
        assert (G : foldM region_key kv (None, None) = Ok (Some (rexterior r), Some (rinteriors r))).
        { apply region_fold. rewrite !single_values.
          assert (N1 : values "exterior" rest = []) by (apply values_none; apply Forall_forall; intros p Hp; rewrite Forall_forall in F; now apply F).
          assert (N2 : values "interiors" rest = []) by (apply values_none; apply Forall_forall; intros p Hp; rewrite Forall_forall in F; now apply F).
          pose proof (values_perm "exterior" _ _ (Permutation_sym P)) as P1.
          pose proof (values_perm "interiors" _ _ (Permutation_sym P)) as P2.
          rewrite (values_hit "exterior"), (values_miss "exterior"), N1 in P1 by (reflexivity || discriminate).
          rewrite (values_miss "interiors"), (values_hit "interiors"), N2 in P2 by (reflexivity || discriminate).
          apply perm_single in P1. apply perm_single in P2. split; eexists; (split; [eassumption|auto]). }
        rewrite G. cbn [bind ok_or]. destruct r; reflexivity.
  Qed.

  (** ** Nothing panics *)
  Lemma plain_bind {A B} (x : Res A) (f : A -> Res B) : plain x -> (forall a, plain (f a)) -> plain (bind x f).
  Proof. intros [(a & ->)|(m & ->)] Hf; cbn [bind]; [apply Hf|right; now exists m]. Qed.
  Lemma plain_ok {A} (a : A) : plain (Ok a). Proof. left. now exists a. Qed.
  Lemma plain_err {A} m : plain (@Err A m). Proof. right. now exists m. Qed.
  Lemma plain_mapM {A B} (f : A -> Res B) : (forall a, plain (f a)) -> forall l, plain (mapM f l).
  Proof.
    intros Hf. induction l as [|a l IH]; cbn [mapM]; [apply plain_ok|]. apply plain_bind; [apply Hf|]. intros b. apply plain_bind; [exact IH|].
    intros. apply plain_ok.
  Qed.
  Lemma plain_foldM {A St} (f : St -> A -> Res St) : (forall s a, plain (f s a)) -> forall l s, plain (foldM f l s).
  Proof.
    intros Hf. induction l as [|a l IH]; intros s; cbn [foldM]; [apply plain_ok|]. apply plain_bind; [apply Hf|]. intros s'. apply IH.
  Qed.
  Lemma plain_okor {A} (o : option A) m : plain (ok_or o m).
  Proof. destruct o; [apply plain_ok|apply plain_err]. Qed.
  Lemma plain_seq {A} (dec : V -> Res A) : (forall v, plain (dec v)) -> forall v, plain (dec_seq dec v).
  Proof. intros H [| | |l|]; cbn [dec_seq]; try apply plain_err. now apply plain_mapM. Qed.
  Lemma plain_num (v : V) : plain (dec_num v).
  Proof. destruct v; cbn; (apply plain_ok || apply plain_err). Qed.
  Lemma plain_nat (v : V) : plain (dec_nat v).
  Proof. destruct v; cbn; (apply plain_ok || apply plain_err). Qed.
  Lemma plain_point D (v : V) : plain (dec_point D v).
  Proof.
    unfold dec_point. apply plain_bind; [apply plain_seq, plain_num|]. intros p. apply plain_bind.
    - unfold ensure. destruct (_ =? _)%nat; [apply plain_ok|apply plain_err].
    - intros. apply plain_ok.
  Qed.
  Lemma plain_slot {A} (dec : V -> Res A) o v : (forall v, plain (dec v)) -> plain (slot dec o v).
  Proof. intros H. destruct o; cbn [slot]; [apply plain_err|]. apply plain_bind; [apply H|]. intros. apply plain_ok. Qed.

  Ltac plain_keys :=
    repeat match goal with
    | |- plain (if ?c then _ else _) => destruct c
    | |- plain (bind _ _) => apply plain_bind; [|intros]
    | |- plain (slot _ _ _) => apply plain_slot; intros
    | |- plain (dec_seq _ _) => apply plain_seq; intros
    | |- plain (dec_num _) => apply plain_num
    | |- plain (dec_nat _) => apply plain_nat
    | |- plain (dec_knots _) => apply plain_seq; intros; apply plain_num
    | |- plain (dec_point _ _) => apply plain_point
    | |- plain (ok_or _ _) => apply plain_okor
    | |- plain (Ok _) => apply plain_ok
    | |- plain (Err _) => apply plain_err
    | |- plain (foldM _ _ _) => apply plain_foldM; intros
    | |- plain (let '(_, _) := ?p in _) => destruct p
    end.

  Lemma plain_curve D (v : V) : plain (dec_curve D v).
  Proof.
    destruct v; cbn [dec_curve]; try apply plain_err. plain_keys. unfold curve_key. plain_keys.
  Qed.
  Lemma plain_surface D (v : V) : plain (dec_surface D v).
  Proof.
    destruct v; cbn [dec_surface]; try apply plain_err. plain_keys. unfold surface_key. plain_keys.
  Qed.
  Lemma plain_compound D (v : V) : plain (dec_compound D v).
  Proof.
    destruct v; cbn [dec_compound]; try apply plain_err. plain_keys. unfold compound_key. plain_keys. apply plain_curve.
  Qed.
  Lemma plain_region (v : V) : plain (dec_region v).
  Proof.
    destruct v as [| | |l|]; cbn [dec_region]; try apply plain_err.
    - destruct l as [|ve [|vi [|x l]]]; try apply plain_err. plain_keys; apply plain_compound.
    - plain_keys. unfold region_key. plain_keys; apply plain_compound.
  Qed.
  Lemma plain_trimmed (v : V) : plain (dec_trimmed v).
  Proof.
    destruct v as [| | |l|kv]; cbn [dec_trimmed]; try apply plain_err. plain_keys. unfold trimmed_key. plain_keys; try apply plain_surface; try apply plain_curve.
    all: repeat match goal with
      | |- context [dec_curve 3 ?w] => destruct (plain_curve 3 w) as [(? & ->)|(? & ->)]
      | |- plain (match ?o with Some _ => _ | None => _ end) => destruct o
      end; (apply plain_ok || apply plain_err).
  Qed.
  Theorem reading_total D (v : V) :
    plain (dec_curve D v) /\ plain (dec_surface D v) /\ plain (dec_compound D v) /\ plain (dec_region v) /\ plain (dec_trimmed v).
  Proof.
    split; [apply plain_curve|]. split; [apply plain_surface|]. split; [apply plain_compound|]. split; [apply plain_region|apply plain_trimmed].
  Qed.
End Spec.
