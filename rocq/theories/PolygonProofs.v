(** * Polygon containment (C32) *)
From Coq Require Import Reals Lra Lia Psatz ZArith.
From Verif Require Import Base BaseFacts Scalar RSum KnotFacts VecFacts MiscModel.
Open Scope R_scope.

Section Real.
  Variables eps maxv : R.
  Local Hint Extern 0 (Scalar R) => exact (ROps eps maxv) : typeclass_instances.

  (** ** Specification *)
  (** twice the signed area of the triangle [c p q]: positive when [c] lies to the left of [p -> q] *)
  Definition turn (c p q : list R) : R :=
    (rc 0 p - rc 0 c) * (rc 1 q - rc 1 c) - (rc 1 p - rc 1 c) * (rc 0 q - rc 0 c).

  (** all edges of the closed polygon *)
  Definition edges (vs : list (list R)) : list (list R * list R) :=
    match vs with [] => [] | h :: t => combine vs (t ++ [h]) end.

  (** the edge meets the half line from [c] in the direction +x (half-open in y at its upper end) *)
  Definition on_ray (c p q : list R) : Prop :=
    exists s, 0 <= s <= 1 /\ rc 1 p + s * (rc 1 q - rc 1 p) = rc 1 c
                          /\ rc 0 c < rc 0 p + s * (rc 0 q - rc 0 p).
  Definition crosses_up (c p q : list R) : Prop := rc 1 p <= rc 1 c < rc 1 q /\ on_ray c p q.
  Definition crosses_down (c p q : list R) : Prop := rc 1 q <= rc 1 c < rc 1 p /\ on_ray c p q.

  (** ** One edge *)
  Definition step (c p q : list R) : Z := wind_step c 0 (p, q).

  Lemma wind_step_add c w (e : list R * list R) : wind_step c w e = (w + step c (fst e) (snd e))%Z.
  Proof.
    destruct e as [p q]. unfold step, wind_step. cbn [fst snd].
    repeat match goal with |- context [if ?b then _ else _] => destruct b end; lia.
  Qed.

  Lemma step_cases (c p q : list R) :
    (step c p q = 1%Z /\ rc 1 p <= rc 1 c < rc 1 q /\ 0 < turn c p q) \/
    (step c p q = (-1)%Z /\ rc 1 q <= rc 1 c < rc 1 p /\ turn c p q < 0) \/
    (step c p q = 0%Z /\ ~ (rc 1 p <= rc 1 c < rc 1 q /\ 0 < turn c p q) /\
                         ~ (rc 1 q <= rc 1 c < rc 1 p /\ turn c p q < 0)).
  Proof.
    unfold step, wind_step, orientation, orient2d, orient_eqb. rewrite !coord_rc. rs.
    set (o := (rc 0 p - rc 0 c) * (rc 1 q - rc 1 c) - (rc 1 p - rc 1 c) * (rc 0 q - rc 0 c)).
    change (turn c p q) with o.
    destruct (Rleb_spec (rc 1 p) (rc 1 c)); destruct (Rleb_spec (rc 1 c) (rc 1 q));
      destruct (Rleb_spec (rc 1 q) (rc 1 c)); destruct (Rltb_spec o 0); destruct (Rltb_spec 0 o);
      destruct (Reqb_spec (rc 1 q) (rc 1 c)); cbn [andb negb];
      first [left; repeat split; lra | right; left; repeat split; lra
            | right; right; repeat split; intros (? & ?); lra].
  Qed.

  (** crossing of the ray in terms of the side *)
  Lemma on_ray_up c p q : rc 1 p <= rc 1 c < rc 1 q -> (on_ray c p q <-> 0 < turn c p q).
  Proof.
    intros (H1 & H2). unfold on_ray, turn. split.
    - intros (s & Hs & E1 & E2).
      assert (P : 0 < (rc 0 p + s * (rc 0 q - rc 0 p) - rc 0 c) * (rc 1 q - rc 1 p)) by (apply Rmult_lt_0_compat; lra).
      assert (E : s * (rc 1 q - rc 1 p) = rc 1 c - rc 1 p) by lra.
      assert (E3 : (rc 0 p + s * (rc 0 q - rc 0 p) - rc 0 c) * (rc 1 q - rc 1 p)
        = (rc 0 p - rc 0 c) * (rc 1 q - rc 1 p) + (s * (rc 1 q - rc 1 p)) * (rc 0 q - rc 0 p)) by ring.
      rewrite E3, E in P. nra.
    - intros H. set (h := rc 1 q - rc 1 p) in *. assert (Hh : 0 < h) by (unfold h; lra).
      exists ((rc 1 c - rc 1 p) / h).
      assert (Es : (rc 1 c - rc 1 p) / h * h = rc 1 c - rc 1 p) by (field; lra).
      set (s := (rc 1 c - rc 1 p) / h) in *. clearbody s. repeat split.
      + nra. + unfold h in *; nra. + unfold h in *; lra.
      + assert (0 < (rc 0 p + s * (rc 0 q - rc 0 p) - rc 0 c) * h); [|nra].
        assert (E3 : (rc 0 p + s * (rc 0 q - rc 0 p) - rc 0 c) * h
          = (rc 0 p - rc 0 c) * h + (s * h) * (rc 0 q - rc 0 p)) by ring.
        rewrite E3, Es. unfold h. nra.
  Qed.

  Lemma on_ray_swap c p q : on_ray c p q -> on_ray c q p.
  Proof. intros (s & H1 & H2 & H3). exists (1 - s). repeat split; lra. Qed.

  Lemma turn_swap c p q : turn c q p = - turn c p q.
  Proof. unfold turn. ring. Qed.

  Lemma step_spec c p q :
    (step c p q = 1%Z <-> crosses_up c p q) /\ (step c p q = (-1)%Z <-> crosses_down c p q).
  Proof.
    assert (D : rc 1 q <= rc 1 c < rc 1 p -> (on_ray c p q <-> turn c p q < 0)).
    { intros H. assert (turn c p q < 0 <-> 0 < turn c q p) by (rewrite (turn_swap c p q); lra).
      rewrite H0, <- on_ray_up by auto. split; apply on_ray_swap. }
    unfold crosses_up, crosses_down.
    destruct (step_cases c p q) as [(E & H1 & H2)|[(E & H1 & H2)|(E & H1 & H2)]]; rewrite E.
    - split; split; intros H; try lia.
      + split; [auto|]. now apply on_ray_up.
      + lra.
    - split; split; intros H; try lia.
      + lra.
      + split; [auto|]. now apply D.
    - split; split; intros H; try lia; exfalso; destruct H as (G1 & G2).
      + apply H1. split; [auto|]. now apply on_ray_up.
      + apply H2. split; [auto|]. now apply D.
  Qed.

  Lemma step_anti c p q : step c q p = (- step c p q)%Z.
  Proof.
    destruct (step_cases c p q) as [(E & H1 & H2)|[(E & H1 & H2)|(E & H1 & H2)]];
    destruct (step_cases c q p) as [(E' & H1' & H2')|[(E' & H1' & H2')|(E' & H1' & H2')]];
      rewrite E, E'; try reflexivity; exfalso; rewrite (turn_swap c p q) in *; try lra;
      first [apply H1; split; lra | apply H2; split; lra | apply H1'; split; lra | apply H2'; split; lra].
  Qed.

  (** ** Paths *)
  Fixpoint path (c : list R) (l : list (list R)) : Z :=
    match l with
    | p :: ((q :: _) as t) => (step c p q + path c t)%Z
    | _ => 0%Z
    end.

  Lemma fold_combine c t h w : forall p,
    fold_left (wind_step c) (combine (p :: t) (t ++ [h])) w = (w + path c (p :: t ++ [h]))%Z.
  Proof.
    revert w. induction t as [|q t IH]; intros w p.
    - cbn [app combine fold_left path]. rewrite wind_step_add. cbn [fst snd]. lia.
    - cbn [app combine fold_left]. cbn [app combine] in IH. rewrite IH.
      rewrite wind_step_add. cbn [fst snd].
      change (path c (p :: q :: t ++ [h])) with (step c p q + path c (q :: t ++ [h]))%Z. lia.
  Qed.

  Lemma winding_path (c : list R) h t : winding (h :: t) c = path c (h :: t ++ [h]).
  Proof. unfold winding, circular_pairs. rewrite fold_combine. lia. Qed.

  Lemma path_app c l1 x l2 : path c (l1 ++ x :: l2) = (path c (l1 ++ [x]) + path c (x :: l2))%Z.
  Proof.
    induction l1 as [|y l1 IH]; [cbn [app]; cbn [path]; lia|].
    destruct l1 as [|z l1]; cbn [app] in *; [cbn [path]; destruct l2; lia|].
    change (path c (y :: z :: l1 ++ x :: l2)) with (step c y z + path c (z :: l1 ++ x :: l2))%Z.
    change (path c (y :: z :: l1 ++ [x])) with (step c y z + path c (z :: l1 ++ [x]))%Z. lia.
  Qed.

  Lemma path_rev c l : path c (rev l) = (- path c l)%Z.
  Proof.
    induction l as [|x l IH]; [reflexivity|]. destruct l as [|y l]; [reflexivity|].
    cbn [rev] in *. rewrite <- app_assoc. cbn [app]. rewrite path_app, IH. clear IH.
    change (path c (x :: y :: l)) with (step c x y + path c (y :: l))%Z. cbn [path]. rewrite (step_anti c x y). lia.
  Qed.

  (** ** The starting vertex does not matter *)
  Theorem winding_rotate (c : list R) l1 l2 : winding (l1 ++ l2) c = winding (l2 ++ l1) c.
  Proof.
    destruct l1 as [|a l1]; [now rewrite app_nil_r|]. destruct l2 as [|b l2]; [now rewrite app_nil_r|].
    cbn [app]. rewrite !winding_path. rewrite <- !app_assoc. cbn [app].
    pose proof (path_app c (a :: l1) b (l2 ++ [a])) as P1.
    pose proof (path_app c (b :: l2) a (l1 ++ [b])) as P2.
    cbn [app] in P1, P2. rewrite P1, P2. lia.
  Qed.

  Theorem contains_rotate (c : list R) l1 l2 : polygon_contains (l1 ++ l2) c = polygon_contains (l2 ++ l1) c.
  Proof. unfold polygon_contains. now rewrite winding_rotate. Qed.

  (** ** Nor does the direction *)
  Theorem winding_rev (vs : list (list R)) c : winding (rev vs) c = (- winding vs c)%Z.
  Proof.
    destruct vs as [|h t]; [reflexivity|]. cbn [rev]. rewrite winding_rotate. cbn [app].
    rewrite !winding_path, <- path_rev. f_equal. cbn [rev]. rewrite rev_app_distr. reflexivity.
  Qed.

  Theorem contains_rev (vs : list (list R)) c : polygon_contains (rev vs) c = polygon_contains vs c.
  Proof.
    unfold polygon_contains. rewrite winding_rev. f_equal.
    destruct (Z.eqb_spec (- winding vs c) 0), (Z.eqb_spec (winding vs c) 0); auto; lia.
  Qed.

  (** ** Cutting a polygon along a chord *)
  Theorem winding_chord (c a b : list R) l1 l2 :
    winding (a :: l1 ++ b :: l2) c = (winding (a :: l1 ++ [b]) c + winding (b :: l2 ++ [a]) c)%Z.
  Proof.
    rewrite !winding_path. rewrite <- !app_assoc. cbn [app].
    pose proof (path_app c (a :: l1) b (l2 ++ [a])) as P1.
    pose proof (path_app c (a :: l1) b [a]) as P2.
    pose proof (path_app c (b :: l2) a [b]) as P3.
    cbn [app] in P1, P2, P3. rewrite P1, P2, P3.
    change (path c [b; a]) with (step c b a + 0)%Z. change (path c [a; b]) with (step c a b + 0)%Z.
    rewrite (step_anti c a b). lia.
  Qed.

  (** ** Counting crossings *)
  Theorem winding_crossings (vs : list (list R)) c :
    exists f, (forall e, (f e = 1%Z <-> crosses_up c (fst e) (snd e)) /\
                         (f e = (-1)%Z <-> crosses_down c (fst e) (snd e)) /\
                         (f e = 1%Z \/ f e = (-1)%Z \/ f e = 0%Z)) /\
      winding vs c = fold_right (fun e s => (f e + s)%Z) 0%Z (edges vs).
  Proof.
    exists (fun e => step c (fst e) (snd e)). split.
    - intros e. pose proof (step_spec c (fst e) (snd e)) as (H1 & H2).
      split; [exact H1|]. split; [exact H2|].
      destruct (step_cases c (fst e) (snd e)) as [(-> & _)|[(-> & _)|(-> & _)]]; auto.
    - unfold winding. change (circular_pairs vs) with (edges vs).
      assert (G : forall l w, fold_left (wind_step c) l w =
        (w + fold_right (fun e s => (step c (fst e) (snd e) + s)%Z) 0%Z l)%Z).
      { induction l as [|e l IH]; intros w; cbn [fold_left fold_right]; [lia|]. rewrite IH, wind_step_add. lia. }
      rewrite G. lia.
  Qed.

  (** ** Inside a polygon that turns around the point *)
  Lemma edges_In_path (P : list R -> list R -> Prop) h t :
    (forall e, In e (edges (h :: t)) -> P (fst e) (snd e)) <->
    (forall l1 p q l2, h :: t ++ [h] = l1 ++ p :: q :: l2 -> P p q).
  Proof.
    unfold edges. assert (G : forall t x, (forall e, In e (combine (x :: t) (t ++ [h])) -> P (fst e) (snd e)) <->
      (forall l1 p q l2, x :: t ++ [h] = l1 ++ p :: q :: l2 -> P p q)); [|apply G].
    clear t. induction t as [|y t IH]; intros x; cbn [app combine].
    - split.
      + intros H l1 p q l2 E. destruct l1 as [|a [|b l1]]; cbn in E; inversion E; subst.
        * apply (H (p, q)). now left.
        * destruct l1; discriminate.
      + intros H e [<-|[]]. apply (H [] x h []). reflexivity.
    - specialize (IH y). cbn [combine] in IH. split.
      + intros H l1 p q l2 E. destruct l1 as [|a l1]; cbn in E.
        * injection E as <- <- _. apply (H (x, y)). now left.
        * injection E as _ E. apply (proj1 IH) with (l1 := l1) (l2 := l2); [|exact E].
          intros e He. apply H. now right.
      + intros H e [<-|He].
        * apply (H [] x y (t ++ [h])). reflexivity.
        * revert e He. apply (proj2 IH). intros l1 p q l2 E. apply (H (x :: l1) p q l2). cbn. now rewrite E.
  Qed.

  Lemma path_edges c f h t :
    (forall e, In e (edges (h :: t)) -> step c (fst e) (snd e) = f (fst e) (snd e)) ->
    winding (h :: t) c = fold_right (fun e s => (f (fst e) (snd e) + s)%Z) 0%Z (edges (h :: t)).
  Proof.
    intros H. unfold winding. change (circular_pairs (h :: t)) with (edges (h :: t)).
    assert (G : forall l w, (forall e, In e l -> step c (fst e) (snd e) = f (fst e) (snd e)) ->
      fold_left (wind_step c) l w = (w + fold_right (fun e s => (f (fst e) (snd e) + s)%Z) 0%Z l)%Z).
    { induction l as [|e l IH]; intros w Hl; cbn [fold_left fold_right]; [lia|].
      rewrite IH by (intros e' He'; apply Hl; now right).
      rewrite wind_step_add, (Hl e) by (now left). lia. }
    rewrite G by auto. lia.
  Qed.

  (** telescoping around the cycle *)
  Lemma cycle_telescope (g : list R -> Z) h t :
    fold_right (fun e s => (g (snd e) - g (fst e) + s)%Z) 0%Z (edges (h :: t)) = 0%Z.
  Proof.
    unfold edges. assert (G : forall t x, fold_right (fun e s => (g (snd e) - g (fst e) + s)%Z) 0%Z (combine (x :: t) (t ++ [h]))
      = (g h - g x)%Z); [|rewrite G; lia].
    clear t. induction t as [|y t IH]; intros x; cbn [app combine fold_right fst snd]; [lia|].
    cbn [combine] in IH. rewrite IH. lia.
  Qed.

  (** a real function cannot strictly decrease along every edge of a cycle *)
  Lemma cycle_no_decrease (g : list R -> R) h t :
    ~ (forall e, In e (edges (h :: t)) -> g (snd e) < g (fst e)).
  Proof.
    unfold edges. intros H.
    assert (G : forall t x, (forall e, In e (combine (x :: t) (t ++ [h])) -> g (snd e) < g (fst e)) -> g h < g x).
    { clear. induction t as [|y t IH]; intros x H; cbn [app combine] in H.
      - apply (H (x, h)). now left.
      - pose proof (H (x, y) (or_introl eq_refl)) as A. cbn in A.
        specialize (IH y). cbn [combine] in IH. assert (g h < g y) by (apply IH; intros; apply H; now right). lra. }
    specialize (G _ _ H). lra.
  Qed.

  (** a predicate preserved along every edge of a cycle holds everywhere or nowhere *)
  Lemma cycle_const (P : list R -> Prop) h t :
    (forall e, In e (edges (h :: t)) -> P (fst e) -> P (snd e)) ->
    forall x y, In x (h :: t) -> In y (h :: t) -> P x -> P y.
  Proof.
    unfold edges. intros H.
    assert (G : forall t x, (forall e, In e (combine (x :: t) (t ++ [h])) -> P (fst e) -> P (snd e)) ->
      (P x -> Forall P (x :: t)) /\ (forall y, In y (x :: t) -> P y -> P h)).
    { clear. induction t as [|y t IH]; intros x H; cbn [app combine] in H.
      - split; [intros Hx; constructor; auto|]. intros y [<-|[]] Hy. apply (H (x, h)); [now left|exact Hy].
      - destruct (IH y) as (I1 & I2). { cbn [combine]. intros; apply H; [now right|auto]. }
        pose proof (H (x, y) (or_introl eq_refl)) as A. cbn in A. split.
        + intros Hx. constructor; auto.
        + intros z [<-|Hz] Pz; [apply (I2 y); [now left|auto]|apply (I2 z); auto]. }
    destruct (G _ _ H) as (G1 & G2). intros x y Hx Hy Px.
    pose proof (G1 (G2 x Hx Px)) as F. rewrite Forall_forall in F. now apply F.
  Qed.

  Lemma edge_In (h : list R) t e : In e (edges (h :: t)) -> In (fst e) (h :: t) /\ In (snd e) (h :: t).
  Proof.
    unfold edges. destruct e as [p q]. intros H. split.
    - apply in_combine_l in H. exact H.
    - apply in_combine_r in H. apply in_app_or in H. destruct H as [H|[<-|[]]]; [now right|now left].
  Qed.
  Lemma edge_out (h : list R) t x : In x (h :: t) -> exists e, In e (edges (h :: t)) /\ fst e = x.
  Proof.
    unfold edges. assert (G : forall t z, In x (z :: t) -> exists e, In e (combine (z :: t) (t ++ [h])) /\ fst e = x); [|apply G].
    clear t. induction t as [|y t IH]; intros z [<-|H].
    - exists (z, h). cbn. auto.
    - destruct H.
    - exists (z, y). cbn. auto.
    - destruct (IH y H) as (e & He & E). exists e. split; [right; exact He|exact E].
  Qed.
  Lemma edge_into (h : list R) t x : In x (h :: t) -> exists e, In e (edges (h :: t)) /\ snd e = x.
  Proof.
    unfold edges. intros Hx.
    assert (Hx' : In x (t ++ [h])) by (apply in_or_app; destruct Hx as [<-|H]; [right; now left|now left]).
    clear Hx. assert (G : forall t z, In x (t ++ [h]) -> exists e, In e (combine (z :: t) (t ++ [h])) /\ snd e = x); [|apply G; exact Hx'].
    clear. induction t as [|y t IH]; intros z H; cbn [app] in *.
    - destruct H as [<-|[]]. exists (z, h). cbn. auto.
    - destruct H as [<-|H]; [exists (z, y); cbn; auto|].
      destruct (IH y H) as (e & He & E). exists e. split; [right; exact He|exact E].
  Qed.

  Lemma winding_left (vs : list (list R)) c : vs <> [] ->
    (forall e, In e (edges vs) -> 0 < turn c (fst e) (snd e)) -> (0 < winding vs c)%Z.
  Proof.
    intros Hne H. destruct vs as [|h t]; [congruence|]. clear Hne.
    set (up := fun p q => if Rleb (rc 1 p) (rc 1 c) && Rltb (rc 1 c) (rc 1 q) then 1%Z else 0%Z).
    rewrite (path_edges c up).
    2:{ intros e He. specialize (H e He). unfold up.
        destruct (step_cases c (fst e) (snd e)) as [(E & H1 & H2)|[(E & H1 & H2)|(E & H1 & H2)]]; rewrite E.
        - destruct (Rleb_spec (rc 1 (fst e)) (rc 1 c)), (Rltb_spec (rc 1 c) (rc 1 (snd e))); cbn; auto; lra.
        - lra.
        - destruct (Rleb_spec (rc 1 (fst e)) (rc 1 c)), (Rltb_spec (rc 1 c) (rc 1 (snd e))); cbn; auto.
          exfalso. apply H1. split; lra. }
    assert (Hup : forall p q, (0 <= up p q)%Z) by (intros; unfold up; destruct (_ && _); lia).
    assert (Pos : forall l, (0 <= fold_right (fun e s => (up (fst e) (snd e) + s)%Z) 0%Z l)%Z).
    { induction l as [|e l IH]; cbn; [lia|]. specialize (Hup (fst e) (snd e)). lia. }
    (* some edge goes up *)
    assert (Ex : exists e, In e (edges (h :: t)) /\ up (fst e) (snd e) = 1%Z).
    { destruct (existsb (fun e => Z.eqb (up (fst e) (snd e)) 1) (edges (h :: t))) eqn:Ee.
      { apply existsb_exists in Ee. destruct Ee as (e & He & E). exists e. split; [exact He|]. now apply Z.eqb_eq in E. }
      exfalso.
      assert (N : forall e, In e (edges (h :: t)) -> rc 1 (fst e) <= rc 1 c -> rc 1 (snd e) <= rc 1 c).
      { intros e He Hl. assert (Z.eqb (up (fst e) (snd e)) 1 = false).
        { destruct (Z.eqb (up (fst e) (snd e)) 1) eqn:E1; [|reflexivity].
          assert (existsb (fun e => Z.eqb (up (fst e) (snd e)) 1) (edges (h :: t)) = true); [|congruence].
          apply existsb_exists. now exists e. }
        unfold up in H0. destruct (Rleb_spec (rc 1 (fst e)) (rc 1 c)); [|lra].
        destruct (Rltb_spec (rc 1 c) (rc 1 (snd e))); [cbn in H0; discriminate|lra]. }
      pose proof (cycle_const (fun p => rc 1 p <= rc 1 c) h t N) as Const.
      destruct (Rle_lt_dec (rc 1 h) (rc 1 c)) as [C|C].
      - (* everything is at or below *)
        assert (B : forall x, In x (h :: t) -> rc 1 x < rc 1 c).
        { intros x Hx. assert (Bx : rc 1 x <= rc 1 c) by (apply (Const h x); cbn; auto).
          destruct (Req_dec (rc 1 x) (rc 1 c)) as [Ez|]; [exfalso|lra].
          destruct (edge_out h t x Hx) as (e1 & He1 & E1). destruct (edge_into h t x Hx) as (e2 & He2 & E2).
          pose proof (H _ He1) as T1. pose proof (H _ He2) as T2. unfold turn in T1, T2.
          destruct (edge_In h t e1 He1) as (_ & Q1). destruct (edge_In h t e2 He2) as (Q2 & _).
          assert (rc 1 (snd e1) <= rc 1 c) by (apply (Const h _); cbn; auto).
          assert (rc 1 (fst e2) <= rc 1 c) by (apply (Const h _); cbn; auto).
          rewrite E1 in T1. rewrite E2 in T2. rewrite Ez in T1, T2.
          replace (rc 1 c - rc 1 c) with 0 in T1, T2 by lra.
          destruct (Rle_lt_dec (rc 0 x) (rc 0 c)); nra. }
        apply (cycle_no_decrease (fun p => (rc 0 p - rc 0 c) / (rc 1 p - rc 1 c)) h t).
        intros e He. destruct (edge_In h t e He) as (Q1 & Q2). apply B in Q1. apply B in Q2.
        specialize (H e He). unfold turn in H.
        set (a := rc 0 (fst e) - rc 0 c) in *. set (b := rc 1 (fst e) - rc 1 c) in *.
        set (a' := rc 0 (snd e) - rc 0 c) in *. set (b' := rc 1 (snd e) - rc 1 c) in *.
        assert (Hb : b < 0) by (unfold b; lra). assert (Hb' : b' < 0) by (unfold b'; lra).
        assert (0 < (a / b - a' / b') * (b * b')).
        { replace ((a / b - a' / b') * (b * b')) with (a * b' - b * a') by (field; lra). lra. }
        assert (0 < b * b') by nra. nra.
      - assert (B : forall x, In x (h :: t) -> rc 1 c < rc 1 x).
        { intros x Hx. destruct (Rle_lt_dec (rc 1 x) (rc 1 c)) as [Cx|]; [|assumption]. exfalso.
          assert (rc 1 h <= rc 1 c) by (apply (Const x h); cbn; auto). lra. }
        apply (cycle_no_decrease (fun p => (rc 0 p - rc 0 c) / (rc 1 p - rc 1 c)) h t).
        intros e He. destruct (edge_In h t e He) as (Q1 & Q2). apply B in Q1. apply B in Q2.
        specialize (H e He). unfold turn in H.
        set (a := rc 0 (fst e) - rc 0 c) in *. set (b := rc 1 (fst e) - rc 1 c) in *.
        set (a' := rc 0 (snd e) - rc 0 c) in *. set (b' := rc 1 (snd e) - rc 1 c) in *.
        assert (Hb : 0 < b) by (unfold b; lra). assert (Hb' : 0 < b') by (unfold b'; lra).
        assert (0 < (a / b - a' / b') * (b * b')).
        { replace ((a / b - a' / b') * (b * b')) with (a * b' - b * a') by (field; lra). lra. }
        assert (0 < b * b') by nra. nra. }
    destruct Ex as (e & He & E).
    clear - He E Hup Pos. induction (edges (h :: t)) as [|x l IH]; [destruct He|].
    cbn [fold_right]. destruct He as [->|He].
    - rewrite E. specialize (Pos l). lia.
    - specialize (IH He). specialize (Hup (fst x) (snd x)). lia.
  Qed.

  (** a point strictly on one side of all the edges is inside *)
  Theorem contains_inside (vs : list (list R)) c : vs <> [] ->
    (forall e, In e (edges vs) -> 0 < turn c (fst e) (snd e)) \/
    (forall e, In e (edges vs) -> turn c (fst e) (snd e) < 0) ->
    polygon_contains vs c = true.
  Proof.
    intros Hne [H|H].
    - pose proof (winding_left vs c Hne H). unfold polygon_contains.
      destruct (Z.eqb_spec (winding vs c) 0); [lia|reflexivity].
    - rewrite <- contains_rev. unfold polygon_contains.
      assert (0 < winding (rev vs) c)%Z; [|destruct (Z.eqb_spec (winding (rev vs) c) 0); [lia|reflexivity]].
      apply winding_left.
      { intros E. apply Hne. rewrite <- (rev_involutive vs), E. reflexivity. }
      intros [p q] He. cbn [fst snd].
      (* the edges of the reversed polygon are the reversed edges *)
      assert (In (q, p) (edges vs)).
      { destruct vs as [|h t]; [congruence|]. clear - He. cbn [rev] in He.
        destruct (rev t) as [|y r] eqn:Er.
        - assert (t = []) by (rewrite <- (rev_involutive t), Er; reflexivity). subst t.
          cbn in *. destruct He as [E|[]]. injection E as <- <-. auto.
        - cbn [app] in He.
          assert (L : forall (l1 : list (list R)) p q l2 h t, h :: t ++ [h] = l1 ++ p :: q :: l2 -> In (p, q) (edges (h :: t))).
          { clear. intros l1 p q l2 h t E. pose proof (proj1 (edges_In_path (fun p q => In (p, q) (edges (h :: t))) h t)) as G.
            apply (G) with (l1 := l1) (l2 := l2); [|exact E]. intros [a b] H. exact H. }
          assert (L' : forall h t p q, In (p, q) (edges (h :: t)) -> exists (l1 l2 : list (list R)), h :: t ++ [h] = l1 ++ p :: q :: l2).
          { clear. intros h t p q H.
            pose proof (proj2 (edges_In_path (fun p q => exists (l1 l2 : list (list R)), h :: t ++ [h] = l1 ++ p :: q :: l2) h t)) as G.
            apply (G) with (e := (p, q)); [|exact H]. intros l1 p' q' l2 E. now exists l1, l2. }
          destruct (L' _ _ _ _ He) as (l1 & l2 & E).
          (* y :: (r ++ [h]) ++ [y] *)
          assert (Ht : t = rev r ++ [y]) by (rewrite <- (rev_involutive t), Er; reflexivity).
          (* rotate: use the path h :: t ++ [h] = h :: rev r ++ [y; h]; the reversed closed path starts at y *)
          assert (Er2 : y :: rev (r ++ [h]) ++ [y] = rev l2 ++ q :: p :: rev l1).
          { transitivity (rev (y :: (r ++ [h]) ++ [y])).
            - cbn [rev]. rewrite !rev_app_distr. cbn [rev app]. reflexivity.
            - rewrite E. rewrite rev_app_distr. cbn [rev]. rewrite <- !app_assoc. reflexivity. }
          apply L in Er2. rewrite rev_app_distr in Er2. cbn [rev app] in Er2. rewrite Ht.
          (* edges of a rotation *)
          clear - Er2. set (u := rev r) in *. clearbody u.
          unfold edges in Er2. cbn [combine app] in Er2. unfold edges.
          assert (Cmb : forall (a b : list (list R)) x y, length a = length b -> combine (a ++ [x]) (b ++ [y]) = combine a b ++ [(x, y)]).
          { clear. induction a as [|m a IH]; intros [|n b] x y Hl; cbn in *; try lia; [reflexivity|]. now rewrite IH by lia. }
          change (h :: u ++ [y]) with ((h :: u) ++ [y]). rewrite Cmb by (rewrite app_length; cbn; lia).
          apply in_or_app. destruct Er2 as [E|He]; [right; left; exact E|left]. exact He. }
      pose proof (H _ H0) as Hq. cbn [fst snd] in Hq. rewrite (turn_swap c q p). lra.
  Qed.

  (** a point separated from all the vertices by a line is outside *)
  Theorem contains_outside (vs : list (list R)) c nx ny :
    (forall p, In p vs -> 0 < nx * (rc 0 p - rc 0 c) + ny * (rc 1 p - rc 1 c)) ->
    polygon_contains vs c = false.
  Proof.
    intros H. destruct vs as [|h t]; [reflexivity|]. unfold polygon_contains.
    set (above := fun p => if Rltb (rc 1 c) (rc 1 p) then 1%Z else 0%Z).
    assert (W : winding (h :: t) c = 0%Z); [|now rewrite W].
    assert (K : forall p q, In p (h :: t) -> In q (h :: t) ->
      step c p q = (if Rltb 0 nx then above q - above p else 0)%Z).
    { intros p q Hp Hq. apply H in Hp. apply H in Hq.
      set (a := rc 0 p - rc 0 c) in *. set (b := rc 1 p - rc 1 c) in *.
      set (a' := rc 0 q - rc 0 c) in *. set (b' := rc 1 q - rc 1 c) in *.
      assert (Tn : turn c p q = a * b' - b * a') by reflexivity.
      (* nx * turn has the sign of b' - b when the edge crosses the level *)
      assert (Hup : b <= 0 -> 0 < b' -> 0 < nx * turn c p q).
      { intros B1 B2. rewrite Tn. assert (0 < nx * a * b' + ny * b * b') by nra.
        assert (0 <= - b * (nx * a' + ny * b')) by nra. nra. }
      assert (Hdn : b' <= 0 -> 0 < b -> nx * turn c p q < 0).
      { intros B1 B2. rewrite Tn. assert (0 < (nx * a' + ny * b') * b) by nra.
        assert (0 <= - b' * (nx * a + ny * b)) by nra. nra. }
      unfold above.
      destruct (step_cases c p q) as [(E & H1 & H2)|[(E & H1 & H2)|(E & H1 & H2)]]; rewrite E.
      - assert (0 < nx * turn c p q) by (apply Hup; unfold b, b'; lra).
        destruct (Rltb_spec 0 nx); [|nra].
        destruct (Rltb_spec (rc 1 c) (rc 1 q)), (Rltb_spec (rc 1 c) (rc 1 p)); try lra; reflexivity.
      - assert (nx * turn c p q < 0) by (apply Hdn; unfold b, b'; lra).
        destruct (Rltb_spec 0 nx); [|nra].
        destruct (Rltb_spec (rc 1 c) (rc 1 q)), (Rltb_spec (rc 1 c) (rc 1 p)); try lra; reflexivity.
      - destruct (Rltb_spec 0 nx) as [C|C]; [|reflexivity].
        destruct (Rltb_spec (rc 1 c) (rc 1 q)) as [C1|C1], (Rltb_spec (rc 1 c) (rc 1 p)) as [C2|C2]; try reflexivity.
        + exfalso. apply H1. split; [lra|]. assert (0 < nx * turn c p q) by (apply Hup; unfold b, b'; lra). nra.
        + exfalso. apply H2. split; [lra|]. assert (nx * turn c p q < 0) by (apply Hdn; unfold b, b'; lra). nra. }
    rewrite (path_edges c (fun p q => if Rltb 0 nx then above q - above p else 0)%Z).
    2:{ intros e He. destruct (edge_In h t e He). now apply K. }
    destruct (Rltb 0 nx).
    - apply (cycle_telescope above).
    - induction (edges (h :: t)) as [|e l IH]; cbn [fold_right]; [reflexivity|]. lia.
  Qed.

  (** for a polygon whose vertices all lie on or to the left of each edge line, a point strictly
      to the right of one edge is outside *)
  Theorem contains_convex (vs : list (list R)) c : vs <> [] ->
    (forall e p, In e (edges vs) -> In p vs -> 0 <= turn p (fst e) (snd e)) ->
    ((forall e, In e (edges vs) -> 0 < turn c (fst e) (snd e)) -> polygon_contains vs c = true) /\
    ((exists e, In e (edges vs) /\ turn c (fst e) (snd e) < 0) -> polygon_contains vs c = false).
  Proof.
    intros Hne Hc. split.
    - intros H. apply contains_inside; auto.
    - intros (e & He & Ht). set (p := fst e) in *. set (q := snd e) in *.
      apply (contains_outside vs c (rc 1 p - rc 1 q) (rc 0 q - rc 0 p)).
      intros v Hv. specialize (Hc e v He Hv). fold p q in Hc. unfold turn in Hc, Ht. nra.
  Qed.

  (** moving polygon and point together changes nothing *)
  Theorem contains_translate (vs : list (list R)) c v :
    (forall p, In p (c :: vs) -> length p = length v) -> (2 <= length v)%nat ->
    polygon_contains (map (fun p => vadd p v) vs) (vadd c v) = polygon_contains vs c.
  Proof.
    intros HL Hv. unfold polygon_contains. f_equal. f_equal.
    assert (S0 : forall p q, length p = length v -> length q = length v ->
      step (vadd c v) (vadd p v) (vadd q v) = step c p q).
    { intros p q Lp Lq. assert (Lc : length c = length v) by (apply HL; now left).
      assert (T : turn (vadd c v) (vadd p v) (vadd q v) = turn c p q) by (unfold turn; rewrite !rc_vadd by auto; ring).
      assert (Y : forall x, length x = length v -> rc 1 (vadd x v) = rc 1 x + rc 1 v) by (intros; now apply rc_vadd).
      destruct (step_cases c p q) as [(E & H1 & H2)|[(E & H1 & H2)|(E & H1 & H2)]];
      destruct (step_cases (vadd c v) (vadd p v) (vadd q v)) as [(E' & H1' & H2')|[(E' & H1' & H2')|(E' & H1' & H2')]];
        rewrite E, E'; try reflexivity; exfalso; rewrite T, !Y in * by auto; try lra;
        first [apply H1; split; lra | apply H2; split; lra | apply H1'; split; lra | apply H2'; split; lra]. }
    destruct vs as [|h t]; [reflexivity|]. cbn [map]. rewrite !winding_path.
    assert (P : forall l, (forall p, In p l -> length p = length v) ->
      path (vadd c v) (map (fun p => vadd p v) l) = path c l).
    { induction l as [|p l IH]; intros Hl; [reflexivity|]. destruct l as [|q l]; [reflexivity|].
      cbn [map] in *. change (step (vadd c v) (vadd p v) (vadd q v) + path (vadd c v) (vadd q v :: map (fun p => vadd p v) l)
        = step c p q + path c (q :: l))%Z.
      rewrite IH by (intros; apply Hl; now right). rewrite S0 by (apply Hl; cbn; auto). reflexivity. }
    specialize (P (h :: t ++ [h])). cbn [map] in P. rewrite map_app in P. cbn [map] in P. apply P.
    intros p [<-|Hp]; [apply HL; cbn; auto|]. apply HL. apply in_app_or in Hp.
    destruct Hp as [Hp|[<-|[]]]; cbn; auto.
  Qed.
End Real.
