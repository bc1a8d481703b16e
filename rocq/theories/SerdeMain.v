(** * Trimmed surfaces, round trips and field order *)
From Coq Require Import String Permutation.
From Coq Require Import Floats.
From Verif Require Import Base BaseFacts Scalar CurveModel SurfaceModel ClipModel SerdeModel SerdeProofs.
Local Open Scope string_scope. Local Open Scope list_scope.

Section Main.
  Context {T : Type} {SO : Scalar T}.
  Local Notation V := (Val T).

  Lemma curve_doc_fun D (v : V) c c' : curve_doc D v c -> curve_doc D v c' -> c = c'.
  Proof. intros H1 H2. apply curve_read_iff in H1, H2. rewrite H1 in H2. now injection H2. Qed.

  Definition ext_rel (e : option (Curve T)) (vs : list V) (e' : option (Curve T)) : Prop :=
    match e with Some c => vs = [] /\ e' = Some c | None => exterior_doc vs e' end.

  Lemma ext_good v c vs e' : curve_doc 3 v c -> (ext_rel (Some c) vs e' <-> exterior_doc (v :: vs) e').
  Proof.
    intros H. cbn [ext_rel]. split.
    - intros (-> & ->). exists [], v. auto.
    - destruct e' as [c'|]; cbn [exterior_doc].
      + intros (bad & v' & E & F & H'). destruct bad as [|b bad]; cbn [app] in E; injection E as -> ->.
        * split; [reflexivity|]. f_equal. eapply curve_doc_fun; eauto.
        * inversion F as [|? ? F1 _]; subst. destruct (F1 c H).
      + intros F. inversion F as [|? ? F1 _]; subst. destruct (F1 c H).
  Qed.
  Lemma ext_bad v vs e' : (forall c, ~ curve_doc 3 v c) -> (exterior_doc vs e' <-> exterior_doc (v :: vs) e').
  Proof.
    intros H. destruct e' as [c'|]; cbn [exterior_doc].
    - split.
      + intros (bad & v' & -> & F & H'). exists (v :: bad), v'. split; [reflexivity|]. split; [now constructor|exact H'].
      + intros (bad & v' & E & F & H'). destruct bad as [|b bad]; cbn [app] in E; injection E as -> ->; [destruct (H c' H')|].
        exists bad, v'. inversion F; subst. auto.
    - split; intros F; [now constructor|now inversion F].
  Qed.

  Definition trimmed_fields : list string := ["surface"; "interiors"; "exterior"].

  Lemma trimmed_fold : forall (kv : list (string * V)) s e i s' e' i',
    foldM trimmed_key kv (s, e, i) = Ok (s', e', i') <->
    (forall k, In k (map fst kv) -> In k trimmed_fields) /\
    slot_rel (surface_doc 4) s (values "surface" kv) s' /\
    ext_rel e (values "exterior" kv) e' /\
    slot_rel (reads_seq (curve_doc 3)) i (values "interiors" kv) i'.
  Proof.
    assert (B : forall {A} (P : V -> A -> Prop) (o o' : option A), slot_rel P o [] o' <-> o' = o).
    { intros A P o o'. unfold slot_rel. split; [intros [(_ & ->)|(_ & v & x & C & _)]; [reflexivity|discriminate]|auto]. }
    assert (B2 : forall o o', ext_rel o [] o' <-> o' = o).
    { intros [c|] o'; cbn [ext_rel]; [split; [intros (_ & ->); auto|auto]|]. destruct o' as [c'|]; cbn [exterior_doc].
      - split; [intros ([|b bad] & v & C & _); discriminate|discriminate].
      - split; [reflexivity|constructor]. }
    induction kv as [|[k v] kv IH]; intros.
    - cbn [foldM values filter map]. rewrite !B, B2. split.
      + intros H; injection H as <- <- <-; split; [intros k []|]; auto.
      + intros (_ & -> & -> & ->). reflexivity.
    - assert (HK : (forall k0, In k0 (map fst ((k, v) :: kv)) -> In k0 trimmed_fields) <->
                   In k trimmed_fields /\ (forall k0, In k0 (map fst kv) -> In k0 trimmed_fields)).
      { cbn [map fst]. split; [intros H; split; [apply H; now left|intros k0 H0; apply H; now right]|].
        intros (H1 & H2) k0 [<-|H0]; auto. }
      rewrite HK. cbn [foldM]. unfold trimmed_key at 1.
      destruct (eqb_cases k "surface") as [(-> & E0)|(N1 & E0)]; rewrite E0; clear E0;
        [|destruct (eqb_cases k "exterior") as [(-> & E0)|(N2 & E0)]; rewrite E0; clear E0;
          [|destruct (eqb_cases k "interiors") as [(-> & E0)|(N3 & E0)]; rewrite E0; clear E0]].
      + rewrite (values_hit "surface"), (values_miss "exterior"), (values_miss "interiors") by (reflexivity || discriminate).
        rewrite <- (slot_cons _ _ (surface_read_iff 4)). split.
        * intros E. destruct (slot _ s v) as [o|m|m|]; cbn [bind] in E; try discriminate. apply IH in E.
          destruct E as (E0 & E1 & E2 & E3). split; [split; [cbn; auto|exact E0]|]. split; [exists o; auto|]. auto.
        * intros ((_ & H0) & (o & E & H1) & H2 & H3). rewrite E. cbn [bind]. apply IH. auto.
      + rewrite (values_hit "exterior"), (values_miss "surface"), (values_miss "interiors") by (reflexivity || discriminate).
        destruct e as [c0|].
        * cbn [bind]. split; [discriminate|]. intros (_ & _ & (C & _) & _). discriminate.
        * change (ext_rel None (v :: values "exterior" kv) e') with (exterior_doc (v :: values "exterior" kv) e').
          destruct (plain_curve 3 v) as [(c & Ec)|(m & Ec)]; rewrite Ec; cbn [bind]; rewrite IH.
          -- apply curve_read_iff in Ec. rewrite (ext_good v c _ e' Ec). cbn. intuition.
          -- rewrite <- (ext_bad v).
             ++ cbn. intuition.
             ++ intros c C. apply curve_read_iff in C. congruence.
      + rewrite (values_hit "interiors"), (values_miss "exterior"), (values_miss "surface") by (reflexivity || discriminate).
        rewrite <- (slot_cons _ _ (dec_seq_iff _ _ (curve_read_iff 3))). split.
        * intros E. destruct (slot _ i v) as [o|m|m|]; cbn [bind] in E; try discriminate. apply IH in E.
          destruct E as (E0 & E1 & E2 & E3). split; [split; [cbn; auto|exact E0]|]. split; [exact E1|]. split; [exact E2|]. exists o; auto.
        * intros ((_ & H0) & H1 & H2 & (o & E & H3)). rewrite E. cbn [bind]. apply IH. auto.
      + cbn [bind]. split; [discriminate|]. intros (([H|[H|[H|[]]]] & _) & _); congruence.
  Qed.

  Lemma values_map_ext (vs : list V) n : values n (map (fun x => ("exterior", x)) vs) = if n =? "exterior" then vs else [].
  Proof.
    destruct (eqb_cases n "exterior") as [(E & E0)|(N & E0)]; rewrite E0; induction vs as [|x vs IH]; try reflexivity; cbn [map].
    - rewrite values_hit by congruence. now rewrite IH.
    - rewrite values_miss by congruence. exact IH.
  Qed.

  Theorem trimmed_read_iff (v : V) t : dec_trimmed v = Ok t <-> trimmed_doc v t.
  Proof.
    unfold trimmed_doc. split.
    - destruct v as [| | | |kv]; cbn [dec_trimmed]; intros E; try discriminate.
      destruct (foldM trimmed_key kv (None, None, None)) as [[[s e] i]|m|m|] eqn:F; cbn [bind] in E; try discriminate.
      apply trimmed_fold in F. destruct F as (FK & Fs & Fe & Fi).
      destruct s as [s|], i as [i|]; cbn [ok_or bind] in E; try discriminate. injection E as <-. cbn [tr_surface tr_exterior tr_interiors].
      apply single_values in Fs, Fi. destruct Fs as (vs & Es & Hs), Fi as (vi & Ei & Hi). cbn [ext_rel] in Fe.
      exists kv, vs, vi, (values "exterior" kv). split; [reflexivity|]. split; [exact Hs|]. split; [exact Hi|]. split; [exact Fe|].
      split; [|reflexivity].
      etransitivity; [apply (by_field_perm trimmed_fields); [|exact FK]|].
      + repeat constructor; cbn; intuition discriminate.
      + cbn [by_field trimmed_fields]. rewrite Es, Ei, app_nil_r. reflexivity.
    - intros (kv & vs & vi & ve & -> & Hs & Hi & He & P & Ev). cbn [dec_trimmed].
      assert (F : foldM trimmed_key kv (None, None, None) = Ok (Some (tr_surface t), tr_exterior t, Some (tr_interiors t))).
      { apply trimmed_fold. split.
        - intros k Hin. apply (Permutation_in _ (Permutation_map fst P)) in Hin. cbn [map fst] in Hin.
          destruct Hin as [<-|[<-|Hin]]; [cbn; auto|cbn; auto|]. rewrite map_map in Hin. apply in_map_iff in Hin.
          destruct Hin as (x & <- & _). cbn. auto.
        - rewrite !single_values. pose proof (values_perm "surface" _ _ (Permutation_sym P)) as P1.
          pose proof (values_perm "interiors" _ _ (Permutation_sym P)) as P2.
          rewrite (values_hit "surface"), (values_miss "surface"), values_map_ext in P1 by (reflexivity || discriminate). cbn in P1.
          rewrite (values_miss "interiors"), (values_hit "interiors"), values_map_ext in P2 by (reflexivity || discriminate). cbn in P2.
          apply perm_single in P1. apply perm_single in P2.
          split; [eexists; split; [exact P1|exact Hs]|]. split; [|eexists; split; [exact P2|exact Hi]].
          cbn [ext_rel]. change (values "exterior" kv) with (map snd (filter (fun p => fst p =? "exterior") kv)). rewrite Ev. exact He. }
      rewrite F. cbn [bind ok_or]. destruct t; reflexivity.
  Qed.

  (** ** Round trips: values of the type's dimension *)
  Definition curve_typed (D : nat) (c : Curve T) : Prop := cdim c = D /\ Forall (fun p => length p = D) (cpts c).
  Definition surface_typed (D : nat) (s : Surf T) : Prop := sdim s = D /\ Forall (Forall (fun p => length p = D)) (snet s).

  Lemma enc_seq_reads {A} (enc : A -> V) (P : V -> A -> Prop) l : Forall (fun x => P (enc x) x) l -> reads_seq P (enc_seq enc l) l.
  Proof. intros F. eexists. split; [reflexivity|]. induction F; cbn [map]; constructor; auto. Qed.
  Lemma enc_nums_reads (l : list T) : reads_seq reads_num (enc_seq VNum l) l.
  Proof. apply enc_seq_reads, Forall_forall. intros x _. now left. Qed.
  Lemma enc_points_reads D l : Forall (fun p => length p = D) l -> reads_seq (reads_point D) (enc_seq enc_point l) l.
  Proof.
    intros F. apply enc_seq_reads. eapply Forall_impl; [|exact F]. intros p L. split; [apply enc_nums_reads|exact L].
  Qed.
  Lemma enc_curve_doc D c : curve_typed D c -> curve_doc D (enc_curve c) c.
  Proof.
    intros (HD & F). split; [exact HD|]. eexists _, _, _. split; [reflexivity|]. split; [reflexivity|].
    split; [now apply enc_points_reads|apply enc_nums_reads].
  Qed.
  Lemma enc_surface_doc D s : surface_typed D s -> surface_doc D (enc_surface s) s.
  Proof.
    intros (HD & F). split; [exact HD|]. eexists _, _, _, _. split; [reflexivity|]. split; [reflexivity|].
    split; [|split; apply enc_nums_reads]. apply enc_seq_reads. eapply Forall_impl; [|exact F]. intros row. apply enc_points_reads.
  Qed.
  Lemma enc_compound_doc D l : Forall (curve_typed D) l -> compound_doc D (enc_compound l) l.
  Proof.
    intros F. eexists. split; [reflexivity|]. apply enc_seq_reads. eapply Forall_impl; [|exact F]. intros c. apply enc_curve_doc.
  Qed.

  Theorem curve_round_trip D c : curve_typed D c -> dec_curve D (enc_curve c) = Ok c.
  Proof. intros H. now apply curve_read_iff, enc_curve_doc. Qed.
  Theorem surface_round_trip D s : surface_typed D s -> dec_surface D (enc_surface s) = Ok s.
  Proof. intros H. now apply surface_read_iff, enc_surface_doc. Qed.
  Theorem compound_round_trip D l : Forall (curve_typed D) l -> dec_compound D (enc_compound l) = Ok l.
  Proof. intros H. now apply compound_read_iff, enc_compound_doc. Qed.
  Theorem region_round_trip r : Forall (curve_typed 3) (rexterior r) -> Forall (Forall (curve_typed 3)) (rinteriors r) ->
    dec_region (enc_region r) = Ok r.
  Proof.
    intros H1 H2. apply region_read_iff. eexists _, _. split; [now apply enc_compound_doc|]. split.
    - apply enc_seq_reads. eapply Forall_impl; [|exact H2]. intros l. apply enc_compound_doc.
    - right. eexists _, []. split; [reflexivity|]. split; [reflexivity|constructor].
  Qed.
  Theorem trimmed_round_trip t :
    surface_typed 4 (tr_surface t) -> (forall c, tr_exterior t = Some c -> curve_typed 3 c) -> Forall (curve_typed 3) (tr_interiors t) ->
    dec_trimmed (enc_trimmed t) = Ok t.
  Proof.
    intros H1 H2 H3. apply trimmed_read_iff. eexists _, _, _, [enc_option enc_curve (tr_exterior t)].
    split; [reflexivity|]. split; [now apply enc_surface_doc|].
    split; [apply enc_seq_reads; eapply Forall_impl; [|exact H3]; intros c; apply enc_curve_doc|].
    split; [|split; [|reflexivity]].
    - destruct (tr_exterior t) as [c|]; cbn [exterior_doc enc_option].
      + exists [], (enc_curve c). split; [reflexivity|]. split; [constructor|]. apply enc_curve_doc. now apply H2.
      + constructor; [|constructor]. intros c (_ & kv & vp & vk & C & _). discriminate.
    - cbn [map]. apply perm_skip. apply perm_swap.
  Qed.

  (** ** Field order *)
  Theorem curve_field_order D (kv kv' : list (string * V)) : Permutation kv kv' ->
    forall c, dec_curve D (VObj kv) = Ok c -> dec_curve D (VObj kv') = Ok c.
  Proof.
    intros P c H. apply curve_read_iff in H. apply curve_read_iff. destruct H as (HD & kv0 & vp & vk & E & Q & H).
    injection E as <-. split; [exact HD|]. exists kv', vp, vk. split; [reflexivity|]. split; [|exact H].
    etransitivity; [symmetry; exact P|exact Q].
  Qed.
  Theorem surface_field_order D (kv kv' : list (string * V)) : Permutation kv kv' ->
    forall s, dec_surface D (VObj kv) = Ok s -> dec_surface D (VObj kv') = Ok s.
  Proof.
    intros P c H. apply surface_read_iff in H. apply surface_read_iff. destruct H as (HD & kv0 & vp & vu & vv & E & Q & H).
    injection E as <-. split; [exact HD|]. exists kv', vp, vu, vv. split; [reflexivity|]. split; [|exact H].
    etransitivity; [symmetry; exact P|exact Q].
  Qed.
  (** with at most one exterior *)
  Theorem trimmed_field_order (kv kv' : list (string * V)) : Permutation kv kv' ->
    (length (filter (fun p => String.eqb (fst p) "exterior") kv) <= 1)%nat ->
    forall t, dec_trimmed (VObj kv) = Ok t -> dec_trimmed (VObj kv') = Ok t.
  Proof.
    intros P L t H. apply trimmed_read_iff in H. apply trimmed_read_iff.
    destruct H as (kv0 & vs & vi & ve & E & Hs & Hi & He & Q & Ev). injection E as <-.
    exists kv', vs, vi, ve. split; [reflexivity|]. split; [exact Hs|]. split; [exact Hi|]. split; [exact He|].
    split; [etransitivity; [symmetry; exact P|exact Q]|].
    pose proof (values_perm "exterior" _ _ P) as PV. unfold values in PV. rewrite Ev in PV.
    assert (Lv : (length ve <= 1)%nat) by (rewrite <- Ev, map_length; exact L).
    destruct ve as [|x [|y ve]]; cbn [length] in Lv; [|now apply perm_single in PV|lia].
    now apply Permutation_nil in PV.
  Qed.
End Main.

(** ** What is not checked *)
Section Floats.
  Local Existing Instance FOps.
  Local Open Scope float_scope.

  (** a curve that the constructor refuses, and that panics when evaluated, is read without complaint *)
  Theorem curve_not_validated_refuted :
    exists (v : Val float) c, dec_curve 3 v = Ok c /\ errs (try_new 3 (cdeg c) (cpts c) (cknots c)) /\ panics (point_at c 0).
  Proof.
    exists (VObj [("control_points", VArr []); ("degree", VInt 1); ("knots", VArr [])]), (MkCurve 3 1 [] []).
    split; [reflexivity|]. split; eexists; vm_compute; reflexivity.
  Qed.

  (** decreasing knots, which the constructor would sort *)
  Theorem curve_knots_not_sorted_refuted :
    exists (v : Val float) c c', dec_curve 2 v = Ok c /\ try_new 2 (cdeg c) (cpts c) (cknots c) = Ok c' /\ cknots c' <> cknots c.
  Proof.
    exists (VObj [("control_points", VArr [VArr [VNum 0; VNum 1]; VArr [VNum 1; VNum 1]]); ("degree", VInt 1);
                  ("knots", VArr [VNum 1; VNum 1; VNum 0; VNum 0])]).
    exists (MkCurve 2 1 [[0; 1]; [1; 1]] [1; 1; 0; 0]), (MkCurve 2 1 [[0; 1]; [1; 1]] [0; 0; 1; 1]).
    split; [reflexivity|]. split; [vm_compute; reflexivity|].
    intros H. apply (f_equal (fun l => nth 0 l 7 =? 0)%float) in H. vm_compute in H. discriminate.
  Qed.

  (** an unreadable exterior is dropped: the surface comes back untrimmed *)
  Theorem trimmed_bad_exterior_refuted :
    exists (vs ve : Val float) t, (forall c, dec_curve 3 ve <> Ok c) /\ ve <> VNull /\
      dec_trimmed (VObj [("surface", vs); ("exterior", ve); ("interiors", VArr [])]) = Ok t /\ tr_exterior t = None.
  Proof.
    exists (enc_surface (MkSurf 4 1 1 [0; 0; 1; 1] [0; 0; 1; 1]
      [[[0; 0; 0; 1]; [0; 1; 0; 1]]; [[1; 0; 0; 1]; [1; 1; 0; 1]]])).
    exists (VObj [("control_points", VArr []); ("degree", VInt 1)]). eexists.
    split; [intros c H; discriminate|]. split; [discriminate|]. split; [vm_compute; reflexivity|reflexivity].
  Qed.
End Floats.
