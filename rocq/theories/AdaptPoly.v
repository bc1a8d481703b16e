(** * Triangulating the polygon of a leaf *)
From Coq Require Import Reals Lra Lia List Sorted.
From Verif Require Import Base BaseFacts Scalar AdaptModel AdaptProofs AdaptReal.
Import ListNotations.
Open Scope R_scope.

(** ** Specification: tilings by triangles *)
Definition Tri : Type := (Pt * Pt * Pt)%type.
(** twice the signed area of a triangle *)
Definition area2 (a b c : Pt) : R := (fst b - fst a) * (snd c - snd a) - (snd b - snd a) * (fst c - fst a).
Definition tri_area2 (t : Tri) : R := let '(a, b, c) := t in area2 a b c.
(** a point lies on the left of every edge *)
Definition in_tri (t : Tri) (p : Pt) : Prop := let '(a, b, c) := t in 0 <= area2 a b p /\ 0 <= area2 b c p /\ 0 <= area2 c a p.
Definition inside_tri (t : Tri) (p : Pt) : Prop := let '(a, b, c) := t in 0 < area2 a b p /\ 0 < area2 b c p /\ 0 < area2 c a p.
Definition in_rect (r : Rect R) (p : Pt) : Prop := rl r <= fst p <= rr r /\ rb r <= snd p <= rt r.
Definition rarea (r : Rect R) : R := (rr r - rl r) * (rt r - rb r).
Fixpoint total (ts : list Tri) : R := match ts with [] => 0 | t :: ts => tri_area2 t + total ts end.
(** the triangles are positively oriented, lie in the rectangle, cover it, do not overlap and have its area *)
Definition verts_in (r : Rect R) (t : Tri) : Prop := let '(a, b, c) := t in in_rect r a /\ in_rect r b /\ in_rect r c.
Definition apart (t t' : Tri) : Prop := forall p, inside_tri t p -> inside_tri t' p -> False.
Definition tiles (ts : list Tri) (r : Rect R) : Prop :=
  Forall (fun t => 0 < tri_area2 t /\ verts_in r t) ts /\
  total ts = 2 * rarea r /\
  (forall p, in_rect r p -> exists t, In t ts /\ in_tri t p) /\
  ForallOrdPairs apart ts.

Lemma total_app ts ts' : total (ts ++ ts') = total ts + total ts'.
Proof. induction ts as [|t ts IH]; cbn [total app]; [lra|]. rewrite IH. lra. Qed.

(** ** One side seen from inside *)
(** distance to the line of an edge, positive inside *)
Definition dep (e : Edge) (r : Rect R) (p : Pt) : R :=
  match e with South => snd p - rb r | East => rr r - fst p | North => rt r - snd p | West => fst p - rl r end.
Definition next_edge (e : Edge) : Edge := match e with South => East | East => North | North => West | West => South end.
Lemma dep_off e r p : off e p = e_off e r <-> dep e r p = 0.
Proof. destruct e; cbn; split; lra. Qed.
Lemma area2_side e r a b p : dep e r a = 0 -> dep e r b = 0 -> area2 a b p = (pos e b - pos e a) * dep e r p.
Proof.
  destruct a as (a1, a2), b as (b1, b2), p as (p1, p2). unfold area2. destruct e; cbn; intros H1 H2.
  - replace b2 with a2 by lra. replace (rb r) with a2 by lra. ring.
  - replace b1 with a1 by lra. replace (rr r) with a1 by lra. ring.
  - replace b2 with a2 by lra. replace (rt r) with a2 by lra. ring.
  - replace b1 with a1 by lra. replace (rl r) with a1 by lra. ring.
Qed.
Lemma area2_rot a b c : area2 b c a = area2 a b c.
Proof. unfold area2. ring. Qed.
Lemma in_rect_dep r p : in_rect r p <-> forall e, 0 <= dep e r p.
Proof.
  unfold in_rect. split.
  - intros H e. destruct e; cbn; lra.
  - intros H. pose proof (H South). pose proof (H East). pose proof (H North). pose proof (H West). cbn in *. lra.
Qed.
(** area from an apex, in coordinates along the edge *)
Lemma area2_apex e r c a p : dep e r a = 0 ->
  area2 c a p = (pos e a - pos e c) * (dep e r p - dep e r c) + dep e r c * (pos e p - pos e c).
Proof.
  destruct a as (a1, a2), c as (c1, c2), p as (p1, p2). unfold area2. destruct e; cbn; intros H1.
  - replace (rb r) with a2 by lra. ring.
  - replace (rr r) with a1 by lra. ring.
  - replace (rt r) with a2 by lra. ring.
  - replace (rl r) with a1 by lra. ring.
Qed.

(** the triangles between an apex and consecutive points *)
Fixpoint fans (c q : Pt) (l : list Pt) : list Tri := match l with [] => [] | x :: l => (c, q, x) :: fans c x l end.
Lemma last_cons {A} (x : A) : forall l q, last (x :: l) q = last l x.
Proof.
  intros l. revert x. induction l as [|y l IH]; intros x q; [reflexivity|]. transitivity (last (y :: l) q); [reflexivity|]. rewrite IH. now rewrite <- (IH y x).
Qed.
Lemma fans_app c l' : forall l q, fans c q (l ++ l') = fans c q l ++ fans c (last l q) l'.
Proof. induction l as [|x l IH]; intros q; [reflexivity|]. rewrite last_cons. cbn [app fans]. now rewrite IH. Qed.

(** a chain along an edge: strictly increasing positions, all on its line *)
Definition chain (e : Edge) (r : Rect R) (q : Pt) (l : list Pt) : Prop :=
  StronglySorted Rlt (map (pos e) (q :: l)) /\ Forall (fun p => dep e r p = 0) (q :: l).
Lemma chain_tail e r q x l : chain e r q (x :: l) -> chain e r x l /\ pos e q < pos e x /\ dep e r q = 0 /\ dep e r x = 0.
Proof.
  intros (S & F). cbn [map] in S. inversion S as [|? ? S' F1]; subst. inversion F as [|? ? F2 F3]; subst. inversion F1; subst. inversion F3; subst.
  split; [split; assumption|]. auto.
Qed.
Lemma chain_last e r q l : chain e r q l -> pos e q <= pos e (last l q) /\ dep e r (last l q) = 0 /\ forall x, In x (q :: l) -> pos e q <= pos e x <= pos e (last l q).
Proof.
  revert q. induction l as [|x l IH]; intros q C.
  - destruct C as (_ & F). inversion F; subst. cbn [last]. split; [lra|]. split; [auto|]. intros y [<-|[]]. lra.
  - apply chain_tail in C. destruct C as (C & H1 & H2 & H3). destruct (IH x C) as (I1 & I2 & I3).
    rewrite last_cons. split; [lra|]. split; [exact I2|]. intros y [<-|Hy]; [lra|]. apply I3 in Hy. lra.
Qed.

Lemma chain_fan e r c q l : chain e r q l -> 0 < dep e r c ->
  Forall (fun t => 0 < tri_area2 t) (fans c q l) /\
  total (fans c q l) = (pos e (last l q) - pos e q) * dep e r c /\
  (forall p, 0 <= area2 c q p -> area2 c (last l q) p <= 0 -> 0 <= dep e r p -> l <> [] -> exists t, In t (fans c q l) /\ in_tri t p) /\
  (forall t p, In t (fans c q l) -> inside_tri t p -> 0 < area2 c q p /\ area2 c (last l q) p < 0 /\ 0 < dep e r p) /\
  ForallOrdPairs apart (fans c q l).
Proof.
  intros C Hc. revert q C. induction l as [|x l IH]; intros q C; cbn [fans].
  - cbn [total last]. split; [constructor|]. split; [lra|]. split; [congruence|]. split; [intros t p []|constructor].
  - destruct (chain_tail _ _ _ _ _ C) as (C' & H1 & H2 & H3). destruct (IH x C') as (I1 & I2 & I3 & I4 & I5).
    rewrite last_cons. destruct (chain_last _ _ _ _ C') as (L1 & L2 & _).
    assert (A : area2 c q x = (pos e x - pos e q) * dep e r c) by (rewrite <- area2_rot; now apply area2_side).
    assert (D : forall a b p, dep e r a = 0 -> dep e r b = 0 -> area2 c b p - area2 c a p = (pos e b - pos e a) * (dep e r p - dep e r c)).
    { intros a b p Ha Hb. rewrite (area2_apex e r c a p Ha), (area2_apex e r c b p Hb). ring. }
    split; [constructor; [cbn [tri_area2]; rewrite A; apply Rmult_lt_0_compat; lra|exact I1]|].
    split; [cbn [total tri_area2]; rewrite A, I2; ring|]. split; [|split].
    + intros p P1 P2 P3 _. destruct (Rle_or_lt (area2 c x p) 0) as [Q|Q].
      * exists (c, q, x). split; [now left|]. cbn [in_tri]. split; [exact P1|]. split.
        -- rewrite (area2_side e r q x p H2 H3). apply Rmult_le_pos; lra.
        -- assert (area2 x c p = - area2 c x p) by (unfold area2; ring). lra.
      * destruct l as [|y l].
        -- exfalso. cbn [last] in P2. lra.
        -- destruct (I3 p ltac:(lra) P2 P3 ltac:(discriminate)) as (t & T1 & T2). exists t. split; [now right|exact T2].
    + intros t p Ht Hp. destruct Ht as [<-|Ht].
      * cbn [inside_tri] in Hp. destruct Hp as (P1 & P2 & P3). rewrite (area2_side e r q x p H2 H3) in P2.
        assert (G : area2 x c p = - area2 c x p) by (unfold area2; ring).
        pose proof (D q x p H2 H3) as D1. pose proof (D x (last l x) p H3 L2) as D2.
        split; [exact P1|]. assert (dep e r p < dep e r c) by nra. split; [nra|]. nra.
      * destruct (I4 t p Ht Hp) as (P1 & P2 & P3). pose proof (D q x p H2 H3) as D1. pose proof (D x (last l x) p H3 L2) as D2.
        assert (dep e r p < dep e r c) by nra. split; [nra|]. split; [exact P2|exact P3].
    + constructor; [|exact I5]. apply Forall_forall. intros t Ht p Hp Hp'. cbn [inside_tri] in Hp. destruct Hp as (_ & _ & P3).
      destruct (I4 t p Ht Hp') as (P1 & _ & _). assert (G : area2 x c p = - area2 c x p) by (unfold area2; ring). lra.
Qed.

(** ** The fan around the centre *)
Definition centre (r : Rect R) : Pt := ((rl r + rr r) / 2, (rb r + rt r) / 2).
Lemma side_chain e r l : rect_ok r -> side e r l ->
  chain e r (corner_of e r) (tl l ++ [corner_of (next_edge e) r]).
Proof.
  intros Hr (xs & -> & S & F). cbn [tl]. pose proof (e_lt e r Hr) as Hlt.
  assert (N : pos e (corner_of (next_edge e) r) = e_hi e r) by (destruct e; reflexivity).
  split.
  - cbn [map]. rewrite map_app. cbn [map]. rewrite N, pos_corner. constructor.
    + apply sorted_app; [exact S|repeat constructor|]. intros x y Hx [<-|[]]. apply in_map_iff in Hx. destruct Hx as (p & <- & Hp).
      rewrite Forall_forall in F. apply F in Hp. lra.
    + apply Forall_app. split; [|constructor; [lra|constructor]]. apply Forall_forall. intros x Hx. apply in_map_iff in Hx. destruct Hx as (p & <- & Hp).
      rewrite Forall_forall in F. apply F in Hp. lra.
  - constructor; [apply dep_off; destruct e; reflexivity|]. apply Forall_app. split; [|constructor; [apply dep_off; destruct e; reflexivity|constructor]].
    eapply Forall_impl; [|exact F]. intros p (_ & Hp). now apply dep_off.
Qed.

Lemma last_snoc {A} (l : list A) x q : last (l ++ [x]) q = x.
Proof. induction l as [|y l IH]; [reflexivity|]. cbn [app]. rewrite last_cons. destruct l; [reflexivity|]. cbn [app]. rewrite last_cons. cbn [app] in IH. now rewrite last_cons in IH. Qed.

Lemma fans_in c : forall l q t, In t (fans c q l) -> exists a b, t = (c, a, b) /\ In a (q :: l) /\ In b (q :: l).
Proof.
  induction l as [|x l IH]; intros q t H; [destruct H|]. cbn [fans] in H. destruct H as [<-|H].
  - exists q, x. split; [reflexivity|]. split; [now left|right; now left].
  - destruct (IH x t H) as (a & b & -> & Ha & Hb). exists a, b. split; [reflexivity|]. split; now right.
Qed.

Lemma apart_sym t t' : apart t t' -> apart t' t.
Proof. intros H p H1 H2. now apply (H p). Qed.
Lemma pairs_app (ts ts' : list Tri) : ForallOrdPairs apart (ts ++ ts') <->
  ForallOrdPairs apart ts /\ ForallOrdPairs apart ts' /\ (forall t t', In t ts -> In t' ts' -> apart t t').
Proof.
  induction ts as [|t ts IH]; cbn [app].
  - split; [intros H; split; [constructor|]; split; [exact H|]; intros ? ? []|tauto].
  - split.
    + intros H. inversion H as [|? ? H1 H2]; subst. apply Forall_app in H1. destruct H1 as (H1 & H1'). apply IH in H2. destruct H2 as (H2 & H3 & H4).
      split; [now constructor|]. split; [exact H3|]. intros a b [<-|Ha] Hb; [rewrite Forall_forall in H1'; auto|auto].
    + intros (H1 & H2 & H3). inversion H1 as [|? ? H4 H5]; subst. constructor.
      * apply Forall_app. split; [exact H4|]. apply Forall_forall. intros b Hb. apply H3; [now left|exact Hb].
      * apply IH. split; [exact H5|]. split; [exact H2|]. intros a b Ha Hb. apply H3; [now right|exact Hb].
Qed.
Lemma tiles_rotate t ts r : tiles (ts ++ [t]) r -> tiles (t :: ts) r.
Proof.
  intros (H1 & H2 & H3 & H4). apply Forall_app in H1. destruct H1 as (H1 & H1'). inversion H1' as [|? ? H5 _]; subst. rewrite total_app in H2. cbn [total] in *.
  split; [now constructor|]. split; [cbn [total]; lra|]. split.
  - intros p Hp. destruct (H3 p Hp) as (t' & Ht' & H). exists t'. split; [|exact H]. apply in_app_iff in Ht'. cbn in *. tauto.
  - apply pairs_app in H4. destruct H4 as (H4 & _ & H6). constructor; [|exact H4]. apply Forall_forall. intros t' Ht'. apply apart_sym. apply H6; [exact Ht'|now left].
Qed.

Section Fan.
  Variables (r : Rect R) (xs : Edge -> list Pt).
  Hypotheses (Hr : rect_ok r) (Hx : forall e, side e r (corner_of e r :: xs e)).
  Let c := centre r.
  Definition side_fan (e : Edge) : list Tri := fans c (corner_of e r) (xs e ++ [corner_of (next_edge e) r]).

  Lemma centre_dep e : 0 < dep e r c.
  Proof. destruct Hr as (H1 & H2). unfold c, centre. destruct e; cbn; lra. Qed.
  Lemma side_fan_spec e : Forall (fun t => 0 < tri_area2 t) (side_fan e) /\
    total (side_fan e) = (e_hi e r - e_lo e r) * dep e r c /\
    (forall p, 0 <= area2 c (corner_of e r) p -> area2 c (corner_of (next_edge e) r) p <= 0 -> 0 <= dep e r p -> exists t, In t (side_fan e) /\ in_tri t p) /\
    (forall t p, In t (side_fan e) -> inside_tri t p -> 0 < area2 c (corner_of e r) p /\ area2 c (corner_of (next_edge e) r) p < 0 /\ 0 < dep e r p) /\
    ForallOrdPairs apart (side_fan e).
  Proof.
    pose proof (chain_fan e r c _ _ (side_chain e r _ Hr (Hx e)) (centre_dep e)) as (H1 & H2 & H3 & H4 & H5). cbn [tl] in *.
    rewrite last_snoc in *. split; [exact H1|]. split.
    - unfold side_fan. rewrite H2, pos_corner. f_equal. destruct e; cbn; lra.
    - split; [|split; [exact H4|exact H5]]. intros p P1 P2 P3. apply H3; auto. intros E. apply app_eq_nil in E. destruct E; discriminate.
  Qed.
  Lemma side_fan_verts e t : In t (side_fan e) -> verts_in r t.
  Proof.
    intros Ht. apply fans_in in Ht. destruct Ht as (a & b & -> & Ha & Hb). destruct Hr as (H1 & H2).
    assert (G : forall x, In x (corner_of e r :: xs e ++ [corner_of (next_edge e) r]) -> in_rect r x).
    { intros x Hin. destruct (Hx e) as (ys & E & _ & F). injection E as <-. destruct Hin as [<-|Hin]; [destruct e; unfold in_rect; cbn; lra|].
      apply in_app_iff in Hin. destruct Hin as [Hin|[<-|[]]]; [|destruct e; unfold in_rect; cbn; lra].
      rewrite Forall_forall in F. apply F in Hin. destruct Hin as (P1 & P2). unfold in_rect. destruct e; cbn in *; lra. }
    split; [unfold in_rect, c, centre; cbn; lra|]. split; apply G; assumption.
  Qed.

  Theorem fan_tiles : tiles (side_fan South ++ side_fan East ++ side_fan North ++ side_fan West) r.
  Proof.
    pose proof (side_fan_spec South) as (S1 & S2 & S3 & S4 & S5). pose proof (side_fan_spec East) as (E1 & E2 & E3 & E4 & E5).
    pose proof (side_fan_spec North) as (N1 & N2 & N3 & N4 & N5). pose proof (side_fan_spec West) as (W1 & W2 & W3 & W4 & W5).
    assert (O1 : forall p, area2 c (corner_of North r) p = - area2 c (corner_of South r) p) by (intros p; unfold area2, c, centre; cbn; field).
    assert (O2 : forall p, area2 c (corner_of West r) p = - area2 c (corner_of East r) p) by (intros p; unfold area2, c, centre; cbn; field).
    cbn [next_edge] in *. split; [|split; [|split]].
    - assert (G : forall e, Forall (fun t => 0 < tri_area2 t /\ verts_in r t) (side_fan e)).
      { intros e. apply Forall_forall. intros t Ht. split; [|now apply (side_fan_verts e)]. destruct (side_fan_spec e) as (H & _). rewrite Forall_forall in H. auto. }
      repeat (apply Forall_app; split); apply G.
    - rewrite !total_app, S2, E2, N2, W2. unfold c, centre, rarea. cbn. field.
    - intros p Hp. rewrite in_rect_dep in Hp. specialize (O1 p). specialize (O2 p).
      assert (G : forall e, (exists t, In t (side_fan e) /\ in_tri t p) -> exists t, In t (side_fan South ++ side_fan East ++ side_fan North ++ side_fan West) /\ in_tri t p).
      { intros e (t & Ht & H). exists t. split; [|exact H]. rewrite !in_app_iff. destruct e; tauto. }
      destruct (Rle_or_lt 0 (area2 c (corner_of South r) p)) as [P|P], (Rle_or_lt 0 (area2 c (corner_of East r) p)) as [Q|Q].
      + apply (G East). apply E3; auto; lra.
      + apply (G South). apply S3; auto; lra.
      + apply (G North). apply N3; auto; lra.
      + apply (G West). apply W3; auto; lra.
    - assert (G : forall e e', e <> e' -> forall t t', In t (side_fan e) -> In t' (side_fan e') -> apart t t').
      { intros e e' He t t' Ht Ht' p Hp Hp'. specialize (O1 p). specialize (O2 p).
        destruct (side_fan_spec e) as (_ & _ & _ & A & _). destruct (side_fan_spec e') as (_ & _ & _ & A' & _). specialize (A t p Ht Hp). specialize (A' t' p Ht' Hp').
        destruct e, e'; cbn [next_edge] in *; try congruence; lra. }
      apply pairs_app. split; [exact S5|]. split.
      + apply pairs_app. split; [exact E5|]. split; [apply pairs_app; split; [exact N5|split; [exact W5|]]|].
        * intros t t'. apply G. discriminate.
        * intros t t' Ht Ht'. apply in_app_iff in Ht'. destruct Ht' as [Ht'|Ht']; revert t t' Ht Ht'; apply G; discriminate.
      + intros t t' Ht Ht'. rewrite !in_app_iff in Ht'. destruct Ht' as [Ht'|[Ht'|Ht']]; revert t t' Ht Ht'; apply G; discriminate.
  Qed.

  (** the polygon: the four sides one after the other *)
  Definition poly : list Pt := (corner_of South r :: xs South) ++ (corner_of East r :: xs East) ++ (corner_of North r :: xs North) ++ (corner_of West r :: xs West).
  Theorem centre_fan_tiles : tiles (fans c (last poly (corner_of South r)) poly) r.
  Proof.
    change (tiles ((c, last poly (corner_of South r), corner_of South r) :: fans c (corner_of South r)
      (xs South ++ corner_of East r :: xs East ++ corner_of North r :: xs North ++ corner_of West r :: xs West)) r). apply tiles_rotate.
    assert (E : fans c (corner_of South r) (xs South ++ corner_of East r :: xs East ++ corner_of North r :: xs North ++ corner_of West r :: xs West) ++
                [(c, last poly (corner_of South r), corner_of South r)] = side_fan South ++ side_fan East ++ side_fan North ++ side_fan West).
    { unfold side_fan. cbn [next_edge]. unfold poly. cbn [app]. rewrite last_cons.
      set (l := xs South ++ _). assert (E0 : fans c (corner_of South r) l ++ [(c, last l (corner_of South r), corner_of South r)] = fans c (corner_of South r) (l ++ [corner_of South r])).
      { rewrite fans_app. reflexivity. }
      rewrite E0. unfold l. clear.
      replace ((xs South ++ corner_of East r :: xs East ++ corner_of North r :: xs North ++ corner_of West r :: xs West) ++ [corner_of South r])
        with ((xs South ++ [corner_of East r]) ++ (xs East ++ [corner_of North r]) ++ (xs North ++ [corner_of West r]) ++ (xs West ++ [corner_of South r])).
      2:{ rewrite <- !app_assoc. cbn [app]. do 2 (rewrite <- ?app_assoc; cbn [app]). reflexivity. }
      rewrite (fans_app c _ (xs South ++ _)), last_snoc, (fans_app c _ (xs East ++ _)), last_snoc, (fans_app c _ (xs North ++ _)), last_snoc. reflexivity. }
    exact (eq_ind _ (fun l => tiles l r) fan_tiles _ (eq_sym E)).
  Qed.
End Fan.

(** ** Four and five vertices *)
Ltac tile_tac := unfold in_rect, rect_ok, rarea, inside_tri, in_tri, verts_in, in_rect, tri_area2, area2 in *; cbn [fst snd rl rr rb rt] in *.

Lemma quad_tiles l b r t : l < r -> b < t ->
  tiles [((l, b), (r, b), (l, t)); ((l, t), (r, b), (r, t))] (MkRect l b r t).
Proof.
  intros H1 H2. assert (0 < (r - l) * (t - b)) by (apply Rmult_lt_0_compat; lra). split; [|split; [|split]].
  - constructor; [|constructor; [|constructor]]; tile_tac; (split; [nra|lra]).
  - cbn [total tri_area2]. tile_tac. ring.
  - intros (x, y) Hp. destruct (Rle_or_lt 0 (area2 (r, b) (l, t) (x, y))) as [P|P].
    + eexists. split; [left; reflexivity|]. tile_tac. nra.
    + eexists. split; [right; left; reflexivity|]. tile_tac. nra.
  - constructor; [|constructor; [constructor|constructor]]. constructor; [|constructor]. intros (x, y) P Q. tile_tac. lra.
Qed.

(** a fan of three triangles from a point [a] strictly inside an edge; [q1 .. q4] are the corners that follow *)
Definition five (e : Edge) (r : Rect R) (a : Pt) : list Tri :=
  let q1 := corner_of (next_edge e) r in
  let q2 := corner_of (next_edge (next_edge e)) r in
  let q3 := corner_of (next_edge (next_edge (next_edge e))) r in
  let q4 := corner_of e r in
  [(a, q1, q2); (a, q3, q4); (a, q2, q3)].
Lemma five_tiles e r a : rect_ok r -> e_lo e r < pos e a < e_hi e r -> off e a = e_off e r -> tiles (five e r a) r.
Proof.
  destruct r as (l, b, r, t), a as (x, y). intros (H1 & H2) H3 H4. cbn [rl rr rb rt] in H1, H2.
  set (a := (x, y)). set (R0 := MkRect l b r t) in *.
  set (q1 := corner_of (next_edge e) R0). set (q2 := corner_of (next_edge (next_edge e)) R0).
  set (q3 := corner_of (next_edge (next_edge (next_edge e))) R0). set (q4 := corner_of e R0).
  assert (B : forall p, in_rect R0 p -> 0 <= area2 a q1 p /\ 0 <= area2 q1 q2 p /\ 0 <= area2 q2 q3 p /\ 0 <= area2 q3 q4 p /\ 0 <= area2 q4 a p).
  { intros p Hp. rewrite in_rect_dep in Hp.
    assert (G : forall e' a' b', dep e' R0 a' = 0 -> dep e' R0 b' = 0 -> pos e' a' <= pos e' b' -> 0 <= area2 a' b' p).
    { intros e' a' b' Ha Hb Hab. rewrite (area2_side e' R0 a' b' p Ha Hb). apply Rmult_le_pos; [lra|apply Hp]. }
    split; [apply (G e)|split; [apply (G (next_edge e))|split; [apply (G (next_edge (next_edge e)))|split; [apply (G (next_edge (next_edge (next_edge e))))|apply (G e)]]]];
      unfold q1, q2, q3, q4, a; destruct e; cbn in H3, H4 |- *; lra. }
  assert (A : 0 < area2 a q1 q2 /\ 0 < area2 a q2 q3 /\ 0 < area2 a q3 q4 /\ area2 a q1 q2 + area2 a q2 q3 + area2 a q3 q4 = 2 * rarea R0).
  { unfold q1, q2, q3, q4, a. destruct e; cbn in H3, H4; subst; tile_tac; cbn; repeat split; nra. }
  assert (V : in_rect R0 a /\ in_rect R0 q1 /\ in_rect R0 q2 /\ in_rect R0 q3 /\ in_rect R0 q4).
  { unfold q1, q2, q3, q4, a. destruct e; cbn in H3, H4; subst; unfold in_rect; cbn; lra. }
  assert (X : forall p, area2 q3 a p = - area2 a q3 p /\ area2 q2 a p = - area2 a q2 p) by (intros p; unfold area2; split; ring).
  unfold five. fold q1 q2 q3 q4. destruct A as (A1 & A2 & A3 & A4). destruct V as (V0 & V1 & V2 & V3 & V4). split; [|split; [|split]].
  - repeat (apply Forall_cons || apply Forall_nil); cbn [tri_area2 verts_in]; auto.
  - cbn [total tri_area2]. lra.
  - intros p Hp. destruct (B p Hp) as (B1 & B2 & B3 & B4 & B5). destruct (X p) as (X1 & X2).
    destruct (Rle_or_lt (area2 a q2 p) 0) as [P|P]; [exists (a, q1, q2); split; [now left|]; cbn; lra|].
    destruct (Rle_or_lt 0 (area2 a q3 p)) as [Q|Q]; [exists (a, q3, q4); split; [right; now left|]; cbn; lra|].
    exists (a, q2, q3). split; [right; right; now left|]. cbn. lra.
  - assert (K : forall p, 0 < area2 a q1 p -> area2 a q2 p < 0 -> 0 < area2 a q3 p -> False).
    { intros p. unfold q1, q2, q3, a. clear - H1 H2 H3 H4. destruct p as (px, py), e; cbn in H3, H4; subst; tile_tac; cbn; intros; nra. }
    repeat (apply FOP_cons || apply FOP_nil || apply Forall_cons || apply Forall_nil); intros p; cbn [inside_tri]; destruct (X p) as (X1 & X2); intros; try lra.
    apply (K p); lra.
Qed.
