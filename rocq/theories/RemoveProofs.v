(** * Knot removal (C26) *)
From Coq Require Import Reals Lra Lia Psatz ZArith Floats Bool Sorted Permutation.
From Verif Require Import Base BaseFacts Scalar RSum BSplineSpec BSpline BSplineInsert KnotModel KnotSpec KnotFacts
  KnotProofs VecFacts MiscModel CurveModel CurveKnotModel CurveSpec CurveProofs CurveGeom KnotMisc Boehm.

Local Open Scope nat_scope.

(** ** For every scalar type *)
Section Any.
  Context {T : Type} {SO : Scalar T}.

  (** a knot that is not in the vector *)
  Theorem remove_absent (c : Curve T) x tol :
    cpts c <> [] -> (forall k, In k (cknots c) -> seqb k x = false) -> errs (try_remove_knot c x tol).
  Proof.
    intros Hp H. unfold try_remove_knot. destruct (cpts c) as [|p0 l] eqn:E; [contradiction|].
    cbn [length]. rewrite usub_ok by lia. cbn [bind].
    destruct (position (fun k => seqb k x) (cknots c)) as [r|] eqn:P.
    - exfalso. destruct (position_some _ _ _ x P) as (A & B & _). rewrite H in B; [discriminate|]. now apply nth_In.
    - eexists. reflexivity.
  Qed.

  Lemma shift_lengths (ks : list T) (ps : list (list T)) n m r s p t ks' ps' :
    length ks = m + 1 -> length ps = n + 1 -> remove_shift ks ps n m r s p t = Ok (ks', ps') ->
    length ks' = length ks - t /\ length ps' = length ps - t /\ t <= n + 1 /\
    (forall D, Forall (fun q => length q = D) ps -> Forall (fun q => length q = D) ps').
  Proof.
    intros Lk Lp H. unfold remove_shift in H.
    destruct (for_incl (r + 1) m _ ks) as [ks1| | |] eqn:E1; try discriminate. cbn [bind] in H.
    assert (L1 : length ks1 = length ks).
    { unfold for_incl in E1. revert E1. apply (for_partial (fun _ k => length k = length ks)); [reflexivity|].
      intros k l l' _ Hl E. destruct (usub k t) as [kt| | |]; try discriminate. cbn [bind] in E.
      destruct (get l k) as [x| | |]; try discriminate. cbn [bind] in E.
      apply set_inv in E. destruct E as (_ & ->). now rewrite upd_length. }
    unfold usub at 1 in H. destruct (Nat.leb_spec t (m + 1)) as [Ht|]; [|discriminate]. cbn [bind] in H.
    destruct (usub (2 * r) s) as [x1| | |]; try discriminate. cbn [bind] in H.
    destruct (usub x1 p) as [x2| | |]; try discriminate. cbn [bind] in H.
    destruct (fold_left _ _ _) as [i0 j0].
    destruct (for_incl (i0 + 1) n _ (ps, j0)) as [[ps1 j1]| | |] eqn:E2; try discriminate. cbn [bind] in H.
    assert (L2 : length ps1 = length ps /\ forall D, Forall (fun q => length q = D) ps -> Forall (fun q => length q = D) ps1).
    { unfold for_incl in E2.
      apply (for_partial (fun _ st => length (fst st) = length ps /\
         forall D, Forall (fun q => length q = D) ps -> Forall (fun q => length q = D) (fst st))) in E2; [exact E2|auto|].
      clear E2. intros k [l j] [l' j'] _ (Hl & HF) E. cbn [fst] in *. destruct (get l k) as [x| | |] eqn:G; try discriminate. cbn [bind] in E.
      apply get_inv in G. destruct G as (G1 & G2). specialize (G2 []).
      destruct (set_ l j x) as [l2| | |] eqn:S2; try discriminate. cbn [bind] in E. injection E as <- <-.
      apply set_inv in S2. destruct S2 as (S3 & ->). split; [now rewrite upd_length|].
      intros D HD. specialize (HF D HD). rewrite Forall_forall in *. intros q Hq.
      apply In_nth with (d := []) in Hq. destruct Hq as (a & Ha & <-). rewrite upd_length in Ha.
      destruct (Nat.eq_dec a j) as [->|].
      - rewrite nth_upd_same by auto. rewrite G2. apply HF, nth_In. lia.
      - rewrite nth_upd_other by auto. apply HF, nth_In. lia. }
    unfold usub at 1 in H. destruct (Nat.leb_spec t (n + 1)) as [Ht2|]; [|discriminate]. cbn [bind] in H.
    injection H as <- <-. rewrite !firstn_length. destruct L2 as (L2 & F2). split; [lia|]. split; [lia|]. split; [lia|].
    intros D HD. specialize (F2 D HD). rewrite <- (firstn_skipn (n + 1 - t) ps1) in F2. apply Forall_app in F2. apply F2.
  Qed.

  (** control points keep their dimension *)
  Definition dimD (D : nat) (ps : list (list T)) := Forall (fun q => length q = D) ps.
  Lemma dimD_upd D ps i q : dimD D ps -> length q = D -> dimD D (upd ps i q).
  Proof.
    unfold dimD. rewrite !Forall_forall. intros H L x Hx. apply In_nth with (d := []) in Hx. destruct Hx as (a & Ha & <-).
    rewrite upd_length in Ha. destruct (Nat.eq_dec a i) as [->|].
    - now rewrite nth_upd_same by auto.
    - rewrite nth_upd_other by auto. now apply H, nth_In.
  Qed.
  Lemma dimD_nth D ps i : dimD D ps -> i < length ps -> length (nth i ps []) = D.
  Proof. unfold dimD. rewrite Forall_forall. intros H L. now apply H, nth_In. Qed.

  Lemma while_partial {St} (I : St -> Prop) fuel (cond : St -> Res bool) (body : St -> Res St) s s' :
    I s -> (forall s s', I s -> body s = Ok s' -> I s') -> while_ fuel cond body s = Ok s' -> I s'.
  Proof.
    intros H0 Hb. revert s H0. induction fuel as [|f IH]; intros s H0 H; unfold while_ in *; cbn [loop_] in H; [discriminate|].
    destruct (cond s) as [[|]| | |]; cbn [bind] in H; try discriminate.
    - destruct (body s) as [s1| | |] eqn:Eb; cbn [bind] in H; try discriminate. apply (IH s1); eauto.
    - now injection H as <-.
  Qed.

  Ltac inv_res H :=
    match type of H with
    | (bind ?e _) = Ok _ => let x := fresh "v" in let E := fresh "E" in
        destruct e as [x| | |] eqn:E; cbn [bind] in H; [|discriminate H..]
    | (if ?b then _ else _) = Ok _ => let E := fresh "B" in destruct b eqn:E
    | (let '(_, _) := ?p in _) = Ok _ => destruct p
    end.

  Lemma inner_dims D knot ks ps ord t temp i j ii jj temp' i' j' ii' jj' :
    dimD D ps -> dimD D temp -> remove_inner knot ks ps ord t (temp, i, j, ii, jj) = Ok (temp', i', j', ii', jj') ->
    dimD D temp' /\ length temp' = length temp.
  Proof.
    intros Hp Ht H. unfold remove_inner in H.
    apply (while_partial (fun '(te, _, _, _, _) => dimD D te /\ length te = length temp)) in H.
    - exact H.
    - auto.
    - clear H. intros [[[[te i1] j1] ii1] jj1] [[[[te2 i2] j2] ii2] jj2] (Hd & Hl) E. repeat inv_res E.
      injection E as <- _ _ _ _.
      repeat match goal with G : get _ _ = Ok _ |- _ => apply get_inv in G; destruct G as (? & G) end.
      repeat match goal with G : set_ _ _ _ = Ok _ |- _ => apply set_inv in G; destruct G as (? & ->) end.
      assert (LE : forall l n v, (forall d : list T, v = nth n l d) -> n < length l -> dimD D l -> length v = D).
      { intros l n w Hv Hn Hdl. rewrite (Hv []). now apply dimD_nth. }
      split; [|now rewrite !upd_length]. apply dimD_upd; [apply dimD_upd; [exact Hd|]|];
        apply vdivs_length, vsub_length; try apply vscale_length; eapply LE; eassumption.
  Qed.

  Lemma writeback_dims D temp off t ps i j ps' i' j' :
    dimD D ps -> dimD D temp -> remove_writeback temp off t (ps, i, j) = Ok (ps', i', j') ->
    dimD D ps' /\ length ps' = length ps.
  Proof.
    intros Hp Ht H. unfold remove_writeback in H.
    apply (while_partial (fun '(te, _, _) => dimD D te /\ length te = length ps)) in H.
    - exact H.
    - auto.
    - clear H. intros [[te i1] j1] [[te2 i2] j2] (Hd & Hl) E. repeat inv_res E.
      injection E as <- _ _.
      repeat match goal with G : get _ _ = Ok _ |- _ => apply get_inv in G; destruct G as (? & G) end.
      repeat match goal with G : set_ _ _ _ = Ok _ |- _ => apply set_inv in G; destruct G as (? & ->) end.
      assert (LE : forall l n v, (forall d : list T, v = nth n l d) -> n < length l -> dimD D l -> length v = D).
      { intros l n w Hv Hn Hdl. rewrite (Hv []). now apply dimD_nth. }
      split; [|now rewrite !upd_length]. apply dimD_upd; [apply dimD_upd; [exact Hd|]|]; eapply LE; eassumption.
  Qed.

  Definition rem_inv D (n s : nat) (st : nat * (list (list T) * list (list T) * nat * nat * nat)) : Prop :=
    let '(todo, (ps, temp, _, _, t)) := st in dimD D ps /\ dimD D temp /\ length ps = n /\ todo + t = s.
  Lemma step_dims D n s knot tol ks ord st r : rem_inv D n s st -> remove_step knot tol ks ord st = Ok r ->
    match r with inl st' => rem_inv D n s st' | inr (ps, t) => dimD D ps /\ length ps = n /\ t <= s end.
  Proof.
    destruct st as [todo [[[[ps temp] first] last] t]]. intros (Hp & Ht & Hl & Hs) H. unfold remove_step in H.
    destruct todo as [|todo]; [injection H as <-; repeat split; auto; lia|].
    inv_res H. inv_res H. inv_res H. inv_res H. inv_res H. inv_res H. inv_res H. inv_res H.
    destruct v6 as [[[[te i] j] ii] jj]. cbv beta iota in H.
    match type of H with bind ?e _ = Ok _ => destruct e as [rm| | |]; cbn [bind] in H; [|discriminate H..] end. apply get_inv in E0; destruct E0 as (? & E0). apply get_inv in E3; destruct E3 as (? & E3).
    apply set_inv in E1; destruct E1 as (? & ->). apply set_inv in E4; destruct E4 as (? & ->).
    assert (D1 : dimD D (upd (upd temp 0 v0) v2 v3)).
    { apply dimD_upd; [apply dimD_upd; auto|]; [rewrite (E0 [])|rewrite (E3 [])]; now apply dimD_nth. }
    destruct (inner_dims D _ _ _ _ _ _ _ _ _ _ _ _ _ _ _ Hp D1 E6) as (D2 & _).
    destruct (negb rm); [injection H as <-; repeat split; auto; lia|].
    destruct (remove_writeback te v t (ps, first, last)) as [[[ps' i2] j2]| | |] eqn:Ew; try discriminate. cbn [bind] in H.
    destruct (writeback_dims D _ _ _ _ _ _ _ _ _ Hp D2 Ew) as (D3 & L3).
    injection H as <-. cbn [rem_inv]. repeat split; auto; lia.
  Qed.

  (** success with count [t]: exactly [t] knots and [t] control points disappear; nothing changes
      when [t = 0]; degree and dimensions are kept; no more knots go than the multiplicity found *)
  Theorem remove_counts (c c' : Curve T) x tol t :
    length (cknots c) = length (cpts c) + cdeg c + 1 -> dimD (cdim c) (cpts c) ->
    try_remove_knot c x tol = Ok (c', t) ->
    cdim c' = cdim c /\ cdeg c' = cdeg c /\ dimD (cdim c) (cpts c') /\
    length (cknots c') + t = length (cknots c) /\ length (cpts c') + t = length (cpts c) /\
    (t = 0 -> c' = c) /\
    exists m s, multiplicity (cknots c) = Ok m /\ knot_count m x = Some s /\ t <= s.
  Proof.
    intros Hl Hd H. unfold try_remove_knot in H.
    unfold usub at 1 in H. destruct (Nat.leb_spec 1 (length (cpts c))) as [Hn|]; [|discriminate]. cbn [bind] in H.
    destruct (position (fun k => seqb k x) (cknots c)) as [r|]; [|discriminate]. cbn [ok_or bind] in H.
    destruct (multiplicity (cknots c)) as [m| | |] eqn:Em; try discriminate. cbn [bind] in H.
    destruct (knot_count m x) as [s|] eqn:Es; [|discriminate]. cbn [ok_or bind] in H.
    destruct (r <=? cdeg c); [discriminate|]. destruct (usub r (cdeg c)) as [first| | |]; try discriminate. cbn [bind] in H.
    destruct (r <=? s); [discriminate|]. destruct (usub r s) as [last| | |]; try discriminate. cbn [bind] in H.
    set (tl := match tol with Some t => t | None => slit 1 1000000 end) in H.
    set (n := length (cpts c) - 1) in H.
    set (temp := repeat (vzero (cdim c)) _) in H.
    destruct (loop_ (s + 1) _ _) as [[ps t']| | |] eqn:El; try discriminate. cbn [bind] in H.
    assert (G : dimD (cdim c) ps /\ length ps = length (cpts c) /\ t' <= s).
    { assert (Dt : dimD (cdim c) temp).
      { apply Forall_forall. intros q Hq. apply repeat_spec in Hq. subst q. apply vzero_length. }
      assert (I0 : rem_inv (cdim c) (length (cpts c)) s (s, (cpts c, temp, first, last, 0))) by (cbn; repeat split; auto).
      revert I0 El. generalize (s, (cpts c, temp, first, last, 0)). generalize (s + 1) as fuel.
      induction fuel as [|f IH]; intros st I0 El; cbn [loop_] in El; [discriminate|].
      destruct (remove_step x tl (cknots c) (cdeg c + 1) st) as [[st'|[ps0 t0]]| | |] eqn:E; try discriminate; cbn [bind] in El.
      - apply (IH st'); auto. exact (step_dims _ _ _ _ _ _ _ _ _ I0 E).
      - injection El as <- <-. exact (step_dims _ _ _ _ _ _ _ _ _ I0 E). }
    destruct G as (G1 & G2 & G3). destruct (Nat.ltb_spec 0 t') as [Ht|Ht].
    - destruct (remove_shift _ _ _ _ _ _ _ _) as [[ks' ps']| | |] eqn:Er; try discriminate. cbn [bind] in H.
      injection H as <- <-. cbn [cdim cdeg cpts cknots].
      apply shift_lengths in Er; [|unfold n; lia|unfold n; lia]. destruct Er as (S1 & S2 & S3 & S4).
      repeat split; auto; try lia. { now apply S4. } exists m, s. auto.
    - injection H as <- <-. repeat split; auto; try lia. exists m, s. repeat split; auto; lia.
  Qed.
End Any.

(** ** Removal of a simple knot, in exact arithmetic *)
Open Scope R_scope.

(** the knots without entry [r] *)
Definition drop_at {A} (r : nat) (l : list A) : list A := firstn r l ++ skipn (S r) l.

Lemma drop_at_nth {A} r (l : list A) i d : (r < length l)%nat ->
  nth i (drop_at r l) d = if (i <? r)%nat then nth i l d else nth (S i) l d.
Proof.
  intros H. unfold drop_at. assert (Lf : length (firstn r l) = r) by (rewrite firstn_length; lia).
  destruct (Nat.ltb_spec i r).
  - rewrite app_nth1 by lia. now apply nth_firstn.
  - rewrite app_nth2 by lia. rewrite nth_skipn, Lf. f_equal. lia.
Qed.
Lemma drop_at_length {A} r (l : list A) : (r < length l)%nat -> length (drop_at r l) = (length l - 1)%nat.
Proof. intros H. unfold drop_at. rewrite app_length, firstn_length, skipn_length. lia. Qed.

Lemma count_single (k : list R) r : (r < length k)%nat ->
  (forall i, (i < length k)%nat -> i <> r -> nth i k 0 <> nth r k 0) ->
  count_occ Req_EM_T k (nth r k 0) = 1%nat.
Proof.
  intros Hr H. pose proof (firstn_skipn r k) as E. assert (Lf : length (firstn r k) = r) by (rewrite firstn_length; lia).
  set (x := nth r k 0) in *.
  assert (E2 : k = firstn r k ++ x :: skipn (S r) k).
  { unfold x. clear - Hr. revert r Hr. induction k as [|a k IH]; intros [|r] Hr; cbn in *; try lia; auto.
    f_equal. apply IH. lia. }
  rewrite E2, count_occ_app. cbn [count_occ]. destruct (Req_EM_T x x); [|congruence].
  rewrite (proj1 (count_occ_not_In Req_EM_T (firstn r k) x)), (proj1 (count_occ_not_In Req_EM_T (skipn (S r) k) x)); [reflexivity| |].
  - intros Hi. apply In_nth with (d := 0) in Hi. destruct Hi as (i & Hi & Ei). rewrite skipn_length in Hi. rewrite nth_skipn in Ei.
    apply (H (S r + i)%nat); [lia|lia|exact Ei].
  - intros Hi. apply In_nth with (d := 0) in Hi. destruct Hi as (i & Hi & Ei). rewrite Lf in Hi. rewrite nth_firstn in Ei by lia.
    apply (H i); [lia|lia|exact Ei].
Qed.

Section Real.
  Variables eps maxv : R.
  Local Hint Extern 0 (Scalar R) => exact (ROps eps maxv) : typeclass_instances.

  Lemma count_repeat (x y : R) n : count_occ Req_EM_T (repeat x n) y = if Req_EM_T x y then n else 0%nat.
  Proof.
    induction n as [|n IH]; cbn; [now destruct (Req_EM_T x y)|]. destruct (Req_EM_T x y); now rewrite IH.
  Qed.

  Lemma knot_count_spec k m x : 0 <= eps -> Sorted Rle k -> separated eps k -> multiplicity k = Ok m -> In x k ->
    knot_count m x = Some (count_occ Req_EM_T k x).
  Proof.
    intros He Hs Hsep Em Hx. destruct (multiplicity_exact eps maxv k m He Hs Hsep Em) as (X & SS & P).
    rewrite <- X in Hx |- *. clear - SS P Hx. unfold knot_count, expand, run_keys in *.
    induction m as [|[y c] m IH]; [contradiction|]. cbn [find map fst snd] in *. rs. cbn [concat] in *.
    inversion SS as [|? ? SS' All]; subst. inversion P as [|? ? P1 P']; subst. rewrite count_occ_app, count_repeat.
    unfold Reqb. destruct (Req_EM_T y x) as [->|Hne].
    - cbn. f_equal. rewrite (proj1 (count_occ_not_In Req_EM_T _ x)); [lia|]. intros Hi.
      apply (in_expand x m) in Hi. rewrite Forall_forall in All. specialize (All _ Hi). lra.
    - cbn. apply IH; auto. apply in_app_or in Hx. destruct Hx as [Hx|Hx]; auto. apply repeat_spec in Hx. congruence.
  Qed.

  Section One.
    Variable c : Curve R.
    Variable r : nat.
    Hypothesis Hc : curve_ok c.
    Let K := kf (cknots c).
    Let p := cdeg c.
    Let x := K r.
    Let D := cdim c.
    Let Q i j := cpc c i j.
    Hypothesis Hr : (p < r <= clast c)%nat.
    Hypothesis Hlt : K (r - 1) < x.
    Hypothesis Hgt : x < K (S r).
    Let off := (r - p - 1)%nat.

    (** blending coefficient of the control point [off + a] *)
    Definition ralf (a : nat) : R := (x - K (off + a)) / (K (off + a + p + 1) - K (off + a)).

    Lemma r_bounds a : (1 <= a <= p)%nat -> K (off + a) < x < K (off + a + p + 1).
    Proof.
      intros Ha. pose proof (curve_mono c Hc) as Hm. unfold off, K in *.
      pose proof (mono_le _ (r - p - 1 + a) (r - 1) Hm ltac:(lia)).
      pose proof (mono_le _ (S r) (r - p - 1 + a + p + 1) Hm ltac:(lia)). lra.
    Qed.
    Lemma ralf_01 a : (1 <= a <= p)%nat -> 0 < ralf a < 1.
    Proof.
      intros Ha. pose proof (r_bounds a Ha) as B. unfold ralf. split.
      - apply Rdiv_lt_0_compat; lra.
      - apply (Rmult_lt_reg_r (K (off + a + p + 1) - K (off + a))); [lra|]. unfold Rdiv.
        rewrite Rmult_assoc, Rinv_l by lra. lra.
    Qed.

    (** facts about the temporary array after [q] rounds *)
    Record Tinv (q : nat) (temp : list (list R)) : Prop := {
      t_len : length temp = (2 * (clast c + p + 2))%nat;
      t_dim : forall a, (a < length temp)%nat -> length (nth a temp []) = D;
      t_0 : forall i, rc i (nth 0 temp []) = Q i off;
      t_1 : forall i, rc i (nth (p + 1) temp []) = Q i r;
      t_l : forall i a, (1 <= a <= q)%nat ->
        Q i (off + a)%nat = ralf a * rc i (nth a temp []) + (1 - ralf a) * rc i (nth (a - 1) temp []);
      t_r : forall i b, (p - q < b <= p)%nat ->
        Q i (off + b)%nat = ralf b * rc i (nth (b + 1) temp []) + (1 - ralf b) * rc i (nth b temp [])
    }.

    Lemma pts_len : length (cpts c) = S (clast c).
    Proof. symmetry. now apply clast_S. Qed.
    Lemma kn_len : length (cknots c) = (clast c + p + 2)%nat.
    Proof. rewrite (curve_len c Hc), pts_len. unfold p. lia. Qed.
    Lemma cp_dim j : (j <= clast c)%nat -> length (nth j (cpts c) []) = D.
    Proof. intros H. apply cpts_len; [exact Hc|]. rewrite pts_len. lia. Qed.

    Lemma inner_spec temp : Tinv 0 temp ->
      exists temp', remove_inner x (cknots c) (cpts c) (p + 1) 0 (temp, (r - p)%nat, (r - 1)%nat, 1%nat, p)
        = Ok (temp', (r - p + p / 2)%nat, (r - 1 - p / 2)%nat, (1 + p / 2)%nat, (p - p / 2)%nat) /\ Tinv (p / 2) temp'.
    Proof.
      intros T0. unfold remove_inner. pose proof pts_len as Lp. pose proof kn_len as Lk.
      assert (Hhalf : (2 * (p / 2) <= p /\ p <= 2 * (p / 2) + 1)%nat).
      { pose proof (Nat.div_mod p 2 ltac:(lia)). pose proof (Nat.mod_upper_bound p 2 ltac:(lia)). lia. }
      set (h := (p / 2)%nat) in *. clearbody h.
      set (I := fun st : list (list R) * nat * nat * nat * nat => let '(te, i, j, ii, jj) := st in
        exists q, (q <= h)%nat /\ Tinv q te /\ i = (r - p + q)%nat /\ j = (r - 1 - q)%nat /\ ii = (1 + q)%nat /\ jj = (p - q)%nat).
      match goal with |- context [while_ ?f ?cd ?bd ?s] =>
        destruct (while_rule I (fun st => let '(te, i, j, ii, jj) := st in Tinv h te /\ i = (r - p + h)%nat /\ j = (r - 1 - h)%nat /\ ii = (1 + h)%nat /\ jj = (p - h)%nat)
           (fun '(_, i, _, _, _) => (r - i)%nat) f cd bd s) as ([[[[te i] j] ii] jj] & E & T1 & -> & -> & -> & ->) end.
      - exists 0%nat. repeat split; auto; try apply T0; try lia.
      - lia.
      - intros [[[[te i] j] ii] jj] (q & Hq & Tq & -> & -> & -> & ->).
        destruct (Nat.eq_dec q h) as [->|Hne].
        + left. split; [|auto]. f_equal. apply andb_false_iff.
          destruct (Nat.leb_spec (r - p + h) (r - 1 - h)); [right|left; reflexivity]. apply Nat.ltb_ge. lia.
        + right. split.
          { f_equal. apply andb_true_iff. split; [apply Nat.leb_le|apply Nat.ltb_lt]; lia. }
          destruct Tq as [L Dm Z0 Z1 Tl Tr].
          rewrite !get_kf by lia. cbn [bind]. rewrite usub_ok by lia. cbn [bind]. rewrite !get_kf by lia. cbn [bind].
          rewrite usub_ok by lia. cbn [bind]. rewrite !(get_ok te _ []) by lia. cbn [bind].
          rewrite !(get_ok (cpts c) _ []) by lia. cbn [bind].
          rewrite set_ok by lia. cbn [bind]. rewrite set_ok by (rewrite upd_length; lia). cbn [bind].
          rewrite !usub_ok by lia. cbn [bind]. eexists. split; [reflexivity|]. split; [|lia].
          exists (S q). split; [lia|]. split; [|repeat split; lia].
          fold K. rs.
          replace (r - p + q)%nat with (off + (1 + q))%nat by (unfold off; lia).
          replace (off + (1 + q) + (p + 1) + 0)%nat with (off + (1 + q) + p + 1)%nat by lia.
          fold (ralf (1 + q)).
          replace (r - 1 - q - 0)%nat with (off + (p - q))%nat by (unfold off; lia).
          replace (r - 1 - q)%nat with (off + (p - q))%nat by (unfold off; lia).
          replace (off + (p - q) + (p + 1))%nat with (off + (p - q) + p + 1)%nat by lia.
          fold (ralf (p - q)).
          pose proof (ralf_01 (1 + q) ltac:(lia)) as A1. pose proof (ralf_01 (p - q) ltac:(lia)) as A2.
          set (vl := vdivs (vsub (nth (off + (1 + q)) (cpts c) []) (vscale (nth (1 + q - 1) te []) (1 - ralf (1 + q)))) (ralf (1 + q))).
          set (vr := vdivs (vsub (nth (off + (p - q)) (cpts c) []) (vscale (nth (p - q + 1) te []) (ralf (p - q)))) (1 - ralf (p - q))).
          assert (Lc1 : length (nth (off + (1 + q)) (cpts c) []) = D) by (apply cp_dim; unfold off; lia).
          assert (Lc2 : length (nth (off + (p - q)) (cpts c) []) = D) by (apply cp_dim; unfold off; lia).
          assert (Lt1 : length (nth (1 + q - 1) te []) = D) by (apply Dm; lia).
          assert (Lt2 : length (nth (p - q + 1) te []) = D) by (apply Dm; lia).
          assert (Lvl : length vl = D) by (apply vdivs_length, vsub_length; [exact Lc1|now apply vscale_length]).
          assert (Lvr : length vr = D) by (apply vdivs_length, vsub_length; [exact Lc2|now apply vscale_length]).
          assert (N1 : forall a, a <> (1 + q)%nat -> a <> (p - q)%nat -> nth a (upd (upd te (1 + q) vl) (p - q) vr) [] = nth a te []).
          { intros a B1 B2. rewrite nth_upd_other by auto. now rewrite nth_upd_other by auto. }
          assert (N2 : nth (1 + q) (upd (upd te (1 + q) vl) (p - q) vr) [] = vl).
          { rewrite nth_upd_other by lia. apply nth_upd_same. lia. }
          assert (N3 : nth (p - q) (upd (upd te (1 + q) vl) (p - q) vr) [] = vr).
          { apply nth_upd_same. rewrite upd_length. lia. }
          constructor.
          * now rewrite !upd_length.
          * rewrite !upd_length. intros a Ha. destruct (Nat.eq_dec a (1 + q)) as [->|B1]; [now rewrite N2|].
            destruct (Nat.eq_dec a (p - q)) as [->|B2]; [now rewrite N3|]. rewrite N1 by auto. now apply Dm.
          * intros i. rewrite N1 by lia. apply Z0.
          * intros i. rewrite N1 by lia. apply Z1.
          * intros i a Ha. destruct (Nat.eq_dec a (1 + q)) as [->|B1].
            { rewrite N2. rewrite (N1 (1 + q - 1)%nat) by lia. unfold vl. rewrite rc_vdivs, rc_vsub, rc_vscale by (rewrite (vscale_length _ _ D); lia).
              unfold Q, cpc. field. lra. }
            rewrite !N1 by lia. apply Tl. lia.
          * intros i b Hb. destruct (Nat.eq_dec b (p - q)) as [->|B1].
            { rewrite N3. rewrite (N1 (p - q + 1)%nat) by lia. unfold vr. rewrite rc_vdivs, rc_vsub, rc_vscale by (rewrite (vscale_length _ _ D); lia).
              unfold Q, cpc. field. lra. }
            rewrite !N1 by lia. apply Tr. lia.
      - exists te. auto.
    Qed.

    Lemma writeback_spec temp : length temp = (2 * (clast c + p + 2))%nat ->
      exists ps i j, remove_writeback temp off 0 (cpts c, (r - p)%nat, (r - 1)%nat) = Ok (ps, i, j) /\
        length ps = length (cpts c) /\
        (forall a, (1 <= a <= p / 2)%nat -> nth (off + a) ps [] = nth a temp []) /\
        (forall b, (p - p / 2 < b <= p)%nat -> nth (off + b) ps [] = nth b temp []) /\
        (forall j, (j <= off \/ off + p < j)%nat -> nth j ps [] = nth j (cpts c) []).
    Proof.
      intros Lt. unfold remove_writeback. pose proof pts_len as Lp.
      assert (Hhalf : (2 * (p / 2) <= p /\ p <= 2 * (p / 2) + 1)%nat).
      { pose proof (Nat.div_mod p 2 ltac:(lia)). pose proof (Nat.mod_upper_bound p 2 ltac:(lia)). lia. }
      set (h := (p / 2)%nat) in *. clearbody h.
      set (P := fun q (ps : list (list R)) => length ps = length (cpts c) /\
        (forall a, (1 <= a <= q)%nat -> nth (off + a) ps [] = nth a temp []) /\
        (forall b, (p - q < b <= p)%nat -> nth (off + b) ps [] = nth b temp []) /\
        (forall j, (j <= off \/ off + p < j)%nat -> nth j ps [] = nth j (cpts c) [])).
      match goal with |- context [while_ ?f ?cd ?bd ?s] =>
        destruct (while_rule (fun st => let '(ps, i, j) := st in exists q, (q <= h)%nat /\ P q ps /\ i = (r - p + q)%nat /\ j = (r - 1 - q)%nat)
          (fun st => P h (fst (fst st))) (fun '(_, i, _) => (r - i)%nat) f cd bd s) as ([[ps i] j] & E & HP) end.
      - exists 0%nat. repeat split; auto; try lia; intros; lia.
      - lia.
      - intros [[ps i] j] (q & Hq & Pq & -> & ->). destruct (Nat.eq_dec q h) as [->|Hne].
        + left. split; [|exact Pq]. f_equal. apply andb_false_iff.
          destruct (Nat.leb_spec (r - p + h) (r - 1 - h)); [right|left; reflexivity]. apply Nat.ltb_ge. lia.
        + right. split.
          { f_equal. apply andb_true_iff. split; [apply Nat.leb_le|apply Nat.ltb_lt]; lia. }
          destruct Pq as (L & Pl & Pr & Po).
          rewrite !usub_ok by (unfold off; lia). cbn [bind]. rewrite (get_ok temp _ []) by (unfold off; lia). cbn [bind].
          rewrite set_ok by lia. cbn [bind]. rewrite (get_ok temp _ []) by (unfold off; lia). cbn [bind].
          rewrite set_ok by (rewrite upd_length; lia). cbn [bind].
          eexists. split; [reflexivity|]. split; [|lia]. exists (S q). split; [lia|]. split; [|lia].
          replace (r - p + q - off)%nat with (S q) by (unfold off; lia).
          replace (r - 1 - q - off)%nat with (p - q)%nat by (unfold off; lia).
          replace (r - p + q)%nat with (off + S q)%nat by (unfold off; lia).
          replace (r - 1 - q)%nat with (off + (p - q))%nat by (unfold off; lia).
          assert (Lo : (off + p < length ps)%nat) by (unfold off; lia).
          split; [now rewrite !upd_length|]. split; [|split].
          * intros a Ha. rewrite nth_upd_other by lia. destruct (Nat.eq_dec a (S q)) as [->|].
            { apply nth_upd_same. lia. } rewrite nth_upd_other by lia. apply Pl. lia.
          * intros b Hb. destruct (Nat.eq_dec b (p - q)) as [->|].
            { apply nth_upd_same. rewrite upd_length. lia. } rewrite !nth_upd_other by lia. apply Pr. lia.
          * intros j Hj. rewrite !nth_upd_other by lia. now apply Po.
      - exists ps, i, j. split; [exact E|]. exact HP.
    Qed.

    Lemma shift_spec ps : length ps = length (cpts c) ->
      remove_shift (cknots c) ps (clast c) (clast c + p + 1) r 1 p 1
      = Ok (drop_at r (cknots c), drop_at (off + (p + 1) / 2) ps).
    Proof.
      intros L. unfold remove_shift. pose proof pts_len as Lp. pose proof kn_len as Lk.
      assert (Hfo : ((2 * r - 1 - p) / 2 = off + (p + 1) / 2)%nat).
      { replace (2 * r - 1 - p)%nat with (p + 1 + off * 2)%nat by (unfold off; lia). rewrite Nat.div_add by lia. lia. }
      assert (Hp2 : ((p + 1) / 2 <= p)%nat).
      { destruct p as [|p']; [cbn; lia|]. apply Nat.div_le_upper_bound; lia. }
      match goal with |- context [for_incl (r + 1) ?m ?g ?s0] =>
        destruct (for_incl_rule (fun k l => length l = length (cknots c) /\
          forall i, nth i l 0 = if (r <=? i)%nat && (i <? k - 1)%nat then nth (S i) (cknots c) 0 else nth i (cknots c) 0)
          (r + 1) m g s0) as (ks & -> & Lks & Nks) end.
      - lia.
      - split; [reflexivity|]. intros i. destruct (Nat.leb_spec r i), (Nat.ltb_spec i (r + 1 - 1)); cbn [andb]; auto; lia.
      - intros k l Hk (Ll & Nl). rewrite usub_ok by lia. cbn [bind]. rewrite (get_ok l k 0) by lia. cbn [bind].
        rewrite set_ok by lia. eexists. split; [reflexivity|]. split; [now rewrite upd_length|]. intros i.
        destruct (Nat.eq_dec i (k - 1)) as [->|].
        + rewrite nth_upd_same by lia. rewrite Nl. destruct (Nat.leb_spec r k), (Nat.ltb_spec k (k - 1)); cbn [andb]; try lia.
          destruct (Nat.leb_spec r (k - 1)), (Nat.ltb_spec (k - 1) (S k - 1)); cbn [andb]; try lia. f_equal. lia.
        + rewrite nth_upd_other by lia. rewrite Nl.
          destruct (Nat.leb_spec r i), (Nat.ltb_spec i (k - 1)), (Nat.ltb_spec i (S k - 1)); cbn [andb]; auto; lia.
      - cbn [bind]. repeat (rewrite usub_ok by lia; cbn [bind]).
        rewrite Hfo. cbn [seq Nat.sub fold_left]. set (fo := (off + (p + 1) / 2)%nat) in *.
        assert (Hfo2 : (fo <= clast c)%nat) by (unfold fo, off; lia). clearbody fo.
        match goal with |- context [for_incl (fo + 1) ?m ?g ?s] =>
          destruct (for_incl_rule (fun k st => snd st = (k - 1)%nat /\ length (fst st) = length ps /\
            forall i, nth i (fst st) [] = if (fo <=? i)%nat && (i <? k - 1)%nat then nth (S i) ps [] else nth i ps [])
            (fo + 1) m g s) as ([ps2 j2] & -> & Hj & Lps & Nps) end.
        + lia.
        + cbn [fst snd]. split; [lia|]. split; [reflexivity|]. intros i.
          destruct (Nat.leb_spec fo i), (Nat.ltb_spec i (fo + 1 - 1)); cbn [andb]; auto; lia.
        + intros k [l j] Hk (Hj & Ll & Nl). cbn [fst snd] in *. subst j.
          rewrite (get_ok l k []) by lia. cbn [bind]. rewrite set_ok by lia. cbn [bind].
          eexists. split; [reflexivity|]. cbn [fst snd]. split; [lia|]. split; [now rewrite upd_length|]. intros i.
          destruct (Nat.eq_dec i (k - 1)) as [->|].
          * rewrite nth_upd_same by lia. rewrite Nl. destruct (Nat.leb_spec fo k), (Nat.ltb_spec k (k - 1)); cbn [andb]; try lia.
            destruct (Nat.leb_spec fo (k - 1)), (Nat.ltb_spec (k - 1) (S k - 1)); cbn [andb]; try lia. f_equal. lia.
          * rewrite nth_upd_other by lia. rewrite Nl.
            destruct (Nat.leb_spec fo i), (Nat.ltb_spec i (k - 1)), (Nat.ltb_spec i (S k - 1)); cbn [andb]; auto; lia.
        + cbn [bind fst snd] in *. do 2 f_equal.
          * apply (list_ext 0); [rewrite drop_at_length, firstn_length by lia; lia|].
            intros i Hi. rewrite firstn_length in Hi. rewrite nth_firstn by lia. rewrite drop_at_nth by lia. rewrite Nks.
            destruct (Nat.leb_spec r i), (Nat.ltb_spec i r), (Nat.ltb_spec i (S (clast c + p + 1) - 1)); cbn [andb]; auto; lia.
          * apply (list_ext []); [rewrite drop_at_length, firstn_length by lia; lia|].
            intros i Hi. rewrite firstn_length in Hi. rewrite nth_firstn by lia. rewrite drop_at_nth by lia. rewrite Nps.
            destruct (Nat.leb_spec fo i), (Nat.ltb_spec i fo), (Nat.ltb_spec i (S (clast c) - 1)); cbn [andb]; auto; lia.
    Qed.

    (** the error of the re-inserted control point is at most [tol] times this factor *)
    Definition ramp : R := if Nat.odd p then 1 else ralf (p / 2) / (1 - ralf (p / 2 + 1)).
    Let g := ((p + 1) / 2)%nat.
    (** the curve with the control point [off + g] dropped and the temporaries written back *)
    Hypothesis Hp : (1 <= p)%nat.

    Lemma vnorm_coord (v : list R) i : Rabs (rc i v) <= vnorm v.
    Proof.
      unfold vnorm. rs. rewrite <- sqrt_Rsqr_abs. destruct (Nat.lt_ge_cases i (length v)) as [H|H].
      - apply sqrt_le_1_alt. unfold vnorm2. rewrite vdot_rsum by auto.
        replace (length v) with (i + S (length v - i - 1))%nat by lia. rewrite rsum_split.
        rewrite rsum_S_l. rewrite Nat.add_0_r. unfold Rsqr.
        assert (0 <= rsum i (fun j => rc j v * rc j v)) by (apply rsum_nonneg; intros; nra).
        assert (0 <= rsum (length v - i - 1) (fun j => rc (i + S j) v * rc (i + S j) v)) by (apply rsum_nonneg; intros; nra).
        lra.
      - unfold rc at 1. rewrite nth_overflow by lia. rewrite Rsqr_0, sqrt_0. apply sqrt_pos.
    Qed.

    Lemma half_facts : (2 * (p / 2) <= p <= 2 * (p / 2) + 1)%nat /\
      (g = if Nat.odd p then p / 2 + 1 else p / 2)%nat /\ (Nat.odd p = true -> p = 2 * (p / 2) + 1)%nat /\
      (Nat.odd p = false -> p = 2 * (p / 2))%nat /\ (1 <= g <= p)%nat.
    Proof.
      unfold g. pose proof (Nat.div_mod p 2 ltac:(lia)) as E. destruct (Nat.odd p) eqn:O.
      - apply Nat.odd_spec in O. destruct O as (q & ->). replace (2 * q + 1)%nat with (1 + q * 2)%nat by lia.
        replace (1 + q * 2 + 1)%nat with (0 + (S q) * 2)%nat by lia. rewrite !Nat.div_add by lia. cbn [Nat.div Nat.divmod fst].
        change (1 / 2)%nat with 0%nat. change (0 / 2)%nat with 0%nat. repeat split; try lia; intros; try discriminate; lia.
      - rewrite <- Nat.negb_even, negb_false_iff in O. apply Nat.even_spec in O. destruct O as (q & ->).
        replace (2 * q)%nat with (0 + q * 2)%nat in * by lia.
        replace (0 + q * 2 + 1)%nat with (1 + q * 2)%nat by lia. rewrite !Nat.div_add in * by lia.
        change (1 / 2)%nat with 0%nat in *. change (0 / 2)%nat with 0%nat in *. repeat split; try lia; intros; try discriminate; lia.
    Qed.

    Definition residual (temp : list (list R)) (i : nat) : R :=
      Q i (off + (1 + p / 2))%nat
      - (rc i (nth (1 + p / 2 + 1) temp []) * ralf (1 + p / 2) + rc i (nth (p / 2) temp []) * (1 - ralf (1 + p / 2))).

    (** the written-back points and the relations of the re-insertion *)
    Lemma result_spec temp ps : Tinv (p / 2) temp -> length ps = length (cpts c) ->
      (forall a, (1 <= a <= p / 2)%nat -> nth (off + a) ps [] = nth a temp []) ->
      (forall b, (p - p / 2 < b <= p)%nat -> nth (off + b) ps [] = nth b temp []) ->
      (forall j, (j <= off \/ off + p < j)%nat -> nth j ps [] = nth j (cpts c) []) ->
      let c' := MkCurve D p (drop_at (off + g) ps) (drop_at r (cknots c)) in
      curve_ok c' /\
      (forall i a, (a < g)%nat -> cpc c' i (off + a) = rc i (nth a temp [])) /\
      (forall i a, (g <= a <= p)%nat -> cpc c' i (off + a) = rc i (nth (a + 1) temp [])) /\
      (forall i j, (j <= off)%nat -> cpc c' i j = Q i j) /\
      (forall i j, (off + p < j <= clast c)%nat -> cpc c' i (j - 1) = Q i j).
    Proof.
      intros [L Dm Z0 Z1 Tl Tr] Lps W1 W2 W3 c'. destruct half_facts as (Hh & Eg & Ho & He' & Hg).
      pose proof pts_len as Lp. pose proof kn_len as Lk. pose proof (curve_mono c Hc) as Hm.
      assert (No : (off + g < length ps)%nat) by (unfold off; lia).
      assert (C1 : forall i a, (a < g)%nat -> cpc c' i (off + a) = rc i (nth a temp [])).
      { intros i a Ha. unfold cpc, c'. cbn [cpts]. rewrite drop_at_nth by lia.
        destruct (Nat.ltb_spec (off + a) (off + g)); [|lia]. destruct a as [|a].
        - rewrite Nat.add_0_r, W3 by lia. rewrite Z0. reflexivity.
        - rewrite W1; [reflexivity|]. destruct (Nat.odd p); lia. }
      assert (C2 : forall i a, (g <= a <= p)%nat -> cpc c' i (off + a) = rc i (nth (a + 1) temp [])).
      { intros i a Ha. unfold cpc, c'. cbn [cpts]. rewrite drop_at_nth by lia.
        destruct (Nat.ltb_spec (off + a) (off + g)); [lia|]. replace (S (off + a)) with (off + (a + 1))%nat by lia.
        destruct (Nat.eq_dec a p) as [->|].
        - rewrite W3 by lia. rewrite Z1. unfold Q, cpc. do 2 f_equal. unfold off; lia.
        - rewrite W2; [reflexivity|]. destruct (Nat.odd p); lia. }
      assert (C3 : forall i j, (j <= off)%nat -> cpc c' i j = Q i j).
      { intros i j Hj. unfold cpc, c'. cbn [cpts]. rewrite drop_at_nth by lia.
        destruct (Nat.ltb_spec j (off + g)); [|lia]. now rewrite W3 by lia. }
      assert (C4 : forall i j, (off + p < j <= clast c)%nat -> cpc c' i (j - 1) = Q i j).
      { intros i j Hj. unfold cpc, c'. cbn [cpts]. rewrite drop_at_nth by lia.
        destruct (Nat.ltb_spec (j - 1) (off + g)); [lia|]. replace (S (j - 1)) with j by lia. now rewrite W3 by lia. }
      split; [|auto].
      assert (Ck : forall m, kf (drop_at r (cknots c)) m = if (m <? r)%nat then K m else K (S m)).
      { intros m. destruct (Nat.lt_ge_cases m (length (cknots c) - 1)) as [Hlt1|Hge].
        - rewrite (kf_nth _ _ 0) by (rewrite drop_at_length; lia). rewrite drop_at_nth by lia. unfold K.
          destruct (Nat.ltb_spec m r); rewrite (kf_nth _ _ 0) by lia; reflexivity.
        - rewrite kf_ge by (rewrite drop_at_length; lia). destruct (Nat.ltb_spec m r); [lia|].
          unfold K. rewrite (kf_ge _ (S m)) by lia. unfold drop_at.
          assert (Es : skipn (S r) (cknots c) <> []) by (intros E; apply (f_equal (@length R)) in E; rewrite skipn_length in E; cbn in E; lia).
          rewrite !last_nth.
          + rewrite app_length, firstn_length, skipn_length. rewrite app_nth2 by (rewrite firstn_length; lia).
            rewrite firstn_length, nth_skipn. f_equal. lia.
          + intros E. rewrite E in Lk. cbn in Lk. lia.
          + intros E. apply app_eq_nil in E. tauto. }
      assert (Lc' : length (cpts c') = clast c) by (unfold c'; cbn [cpts]; rewrite drop_at_length by lia; lia).
      constructor.
      - apply Hc.
      - unfold c'. cbn [cpts cdim]. apply Forall_forall. intros q Hq. apply In_nth with (d := []) in Hq.
        destruct Hq as (j & Hj & <-). rewrite drop_at_length in Hj by lia.
        assert (W : forall j, (j < length ps)%nat -> (j <> off + g \/ Nat.odd p = false)%nat -> length (nth j ps []) = D).
        { intros k Hk Hor. destruct (Nat.le_gt_cases k off); [rewrite W3 by lia; apply cp_dim; lia|].
          destruct (Nat.lt_ge_cases (off + p) k); [rewrite W3 by lia; apply cp_dim; lia|].
          destruct (Nat.le_gt_cases (k - off) (p / 2)) as [G|G].
          - replace k with (off + (k - off))%nat by lia. rewrite W1 by lia. apply Dm. lia.
          - replace k with (off + (k - off))%nat by lia. rewrite W2.
            + apply Dm. lia.
            + destruct (Nat.odd p); [|lia]. specialize (Ho eq_refl). destruct Hor; [lia|discriminate]. }
        rewrite drop_at_nth by lia. destruct (Nat.ltb_spec j (off + g)); apply W; lia.
      - unfold c' at 1. cbn [cdeg]. rewrite Lc'. lia.
      - unfold c', clast. cbn [cdeg cknots]. change (length (cpts (MkCurve D p (drop_at (off + g) ps) (drop_at r (cknots c))))) with (length (cpts c')).
        rewrite Lc'. destruct (co_knots c Hc) as [K1 K2 K3 K4 K5]. constructor.
        + rewrite drop_at_length by lia. lia.
        + lia.
        + apply mono_sorted. intros j Hj. rewrite drop_at_length in Hj by lia.
          rewrite <- !(kf_nth (drop_at r (cknots c))) by (rewrite drop_at_length; lia). rewrite !Ck.
          destruct (Nat.ltb_spec j r), (Nat.ltb_spec (S j) r); try lia; apply mono_le; auto; lia.
        + rewrite !Ck. fold p in K4. fold K in K4. destruct (Nat.ltb_spec p r); [|lia].
          destruct (Nat.ltb_spec (p + 1) r); [exact K4|]. pose proof (mono_le _ (p + 1) (S (p + 1)) Hm ltac:(lia)). unfold K in *; lra.
        + rewrite !Ck. fold K in K5. destruct (Nat.ltb_spec (clast c - 1) r), (Nat.ltb_spec (clast c - 1 + 1) r); try lia.
          * replace (S (clast c - 1 + 1)) with (clast c + 1)%nat by lia. pose proof (mono_le _ (clast c - 1) (clast c) Hm ltac:(lia)). unfold K in *; lra.
          * replace (S (clast c - 1 + 1)) with (clast c + 1)%nat by lia. replace (S (clast c - 1)) with (clast c) by lia. exact K5.
    Qed.

    (** the written-back curve, with [x] inserted again, is [c] except for one control point *)
    Lemma reinsert_spec temp c' : Tinv (p / 2) temp -> curve_ok c' -> cdim c' = D -> cdeg c' = p ->
      cknots c' = drop_at r (cknots c) -> length (cpts c') = clast c ->
      (forall i a, (a < g)%nat -> cpc c' i (off + a) = rc i (nth a temp [])) ->
      (forall i a, (g <= a <= p)%nat -> cpc c' i (off + a) = rc i (nth (a + 1) temp [])) ->
      (forall i j, (j <= off)%nat -> cpc c' i j = Q i j) ->
      (forall i j, (off + p < j <= clast c)%nat -> cpc c' i (j - 1) = Q i j) ->
      exists c1, is_insert c' (r - 1) x c1 /\ cknots c1 = cknots c /\
        (forall i j, (j < length (cpts c))%nat -> j <> (off + g)%nat -> cpc c1 i j = cpc c i j) /\
        (forall i, Rabs (cpc c1 i (off + g) - cpc c i (off + g)) <= Rabs (residual temp i) * ramp).
    Proof.
      intros [L Dm Z0 Z1 Tl Tr] Hc' Ed Eg' Ek Ln C1 C2 C3 C4. destruct half_facts as (Hh & Eg & Ho & He' & Hg).
      pose proof pts_len as Lp. pose proof kn_len as Lk.
      set (qv := vadd (vscale (nth (off + g) (cpts c') []) (ralf g)) (vscale (nth (off + g - 1) (cpts c') []) (1 - ralf g))).
      assert (Lc : forall j, (j < clast c)%nat -> length (nth j (cpts c') []) = D).
      { intros j Hj. rewrite (cpts_len c' j Hc') by lia. exact Ed. }
      assert (N1 : (off + g < clast c)%nat) by (unfold off; lia).
      assert (Lq : length qv = D) by (apply vadd_length; apply vscale_length, Lc; lia).
      assert (Rq : forall i, rc i qv = ralf g * cpc c' i (off + g) + (1 - ralf g) * cpc c' i (off + g - 1)).
      { intros i. unfold qv. rewrite rc_vadd by (rewrite !(vscale_length _ _ D) by (apply Lc; lia); reflexivity).
        rewrite !rc_vscale. unfold cpc. ring. }
      set (c1 := MkCurve D p (upd (cpts c) (off + g) qv) (cknots c)).
      assert (E1 : forall i j, j <> (off + g)%nat -> cpc c1 i j = cpc c i j).
      { intros i j Hj. unfold cpc, c1. cbn [cpts]. now rewrite nth_upd_other by auto. }
      assert (E2 : forall i, cpc c1 i (off + g) = rc i qv).
      { intros i. unfold cpc, c1. cbn [cpts]. now rewrite nth_upd_same by lia. }
      assert (Ck : forall m, (m < clast c + p + 1)%nat -> kf (drop_at r (cknots c)) m = if (m <? r)%nat then K m else K (S m)).
      { intros m Hm. rewrite (kf_nth _ _ 0) by (rewrite drop_at_length; lia). rewrite drop_at_nth by lia. unfold K.
        destruct (Nat.ltb_spec m r); rewrite (kf_nth _ _ 0) by lia; reflexivity. }
      exists c1. split; [constructor|].
      - now rewrite Ed.
      - now rewrite Eg'.
      - rewrite Ek. unfold c1. cbn [cknots]. unfold ins_knots, x, K. replace (S (r - 1)) with r by lia.
        unfold drop_at. rewrite firstn_app, skipn_app. rewrite !firstn_length. replace (r - Nat.min r (length (cknots c)))%nat with 0%nat by lia.
        cbn [firstn skipn]. rewrite app_nil_r. rewrite firstn_firstn, Nat.min_id. rewrite (skipn_all2 (firstn r (cknots c))) by (rewrite firstn_length; lia).
        cbn [app]. rewrite (kf_nth _ _ 0) by lia.
        assert (Hrl : (r < length (cknots c))%nat) by lia. clear - Hrl. revert Hrl. generalize (cknots c) as k. revert r.
        induction r as [|r' IH]; intros [|a k] H; cbn in *; try lia; auto. f_equal. apply IH. lia.
      - unfold c1. cbn [cpts]. rewrite upd_length. lia.
      - rewrite Ed. unfold c1. cbn [cpts]. apply (dimD_upd D); [|exact Lq]. apply Hc.
      - rewrite Eg'. intros i t Ht. rewrite C3 by (unfold off; lia). rewrite E1 by (unfold off; lia). reflexivity.
      - rewrite Eg', Ek. intros i t Ht1 Ht2 _. rewrite !Ck by lia.
        destruct (Nat.ltb_spec t r); [|lia]. destruct (Nat.ltb_spec (t + p) r); [lia|].
        assert (Ha : exists a, (t = off + a)%nat /\ (1 <= a <= p)%nat) by (exists (t - off)%nat; unfold off; lia).
        destruct Ha as (a & -> & Ha). replace (S (off + a + p)) with (off + a + p + 1)%nat by lia.
        fold (ralf a). destruct (Nat.lt_trichotomy a g) as [Lt|[->|Gt]].
        + rewrite E1 by lia. change (cpc c i (off + a)) with (Q i (off + a)%nat).
          replace (off + a - 1)%nat with (off + (a - 1))%nat by lia. rewrite !C1 by lia. apply Tl. destruct (Nat.odd p); lia.
        + rewrite E2, Rq. reflexivity.
        + rewrite E1 by lia. change (cpc c i (off + a)) with (Q i (off + a)%nat).
          replace (off + a - 1)%nat with (off + (a - 1))%nat by lia. rewrite !C2 by lia. replace (a - 1 + 1)%nat with a by lia.
          apply Tr. destruct (Nat.odd p); lia.
      - rewrite Ln. intros i t Ht. rewrite E1 by (unfold off; lia). rewrite C4 by (unfold off; lia). reflexivity.
      - split; [reflexivity|]. split; [intros i j _ Hj; now apply E1|].
        intros i. rewrite E2, Rq. rewrite C2 by lia. replace (off + g - 1)%nat with (off + (g - 1))%nat by lia. rewrite C1 by lia.
        change (cpc c i (off + g)) with (Q i (off + g)%nat). unfold residual, ramp. pose proof half_facts as _.
        destruct (Nat.odd p).
        + specialize (Ho eq_refl). rewrite Rmult_1_r. replace (1 + p / 2)%nat with g by lia. replace (p / 2)%nat with (g - 1)%nat by lia.
          rewrite <- Rabs_Ropp. right. f_equal. ring.
        + specialize (He' eq_refl). replace (1 + p / 2)%nat with (g + 1)%nat by lia. replace (p / 2)%nat with g in * by lia.
          rewrite (Tl i g) by lia. rewrite (Tr i (g + 1)%nat) by lia. replace (g + 1 + 1)%nat with (g + 2)%nat by lia.
          pose proof (ralf_01 g ltac:(lia)) as A1. pose proof (ralf_01 (g + 1) ltac:(lia)) as A2.
          set (w := rc i (nth (g + 1) temp []) - rc i (nth g temp [])).
          match goal with |- Rabs ?a <= Rabs ?b * _ => replace a with (ralf g * w) by (unfold w; ring); replace b with ((1 - ralf (g + 1)) * w) by (unfold w; ring) end.
          rewrite !Rabs_mult. rewrite (Rabs_pos_eq (ralf g)), (Rabs_pos_eq (1 - ralf (g + 1))) by lra. right. field. lra.
    Qed.

    Lemma Tinv_init temp : length temp = (2 * (clast c + p + 2))%nat -> (forall a, (a < length temp)%nat -> length (nth a temp []) = D) ->
      Tinv 0 (upd (upd temp 0 (nth off (cpts c) [])) (p + 1) (nth r (cpts c) [])).
    Proof.
      intros L Dm. pose proof pts_len as Lp. constructor.
      - now rewrite !upd_length.
      - rewrite !upd_length. intros a Ha. destruct (Nat.eq_dec a (p + 1)) as [->|].
        + rewrite nth_upd_same by (rewrite upd_length; lia). apply cp_dim. lia.
        + rewrite nth_upd_other by auto. destruct (Nat.eq_dec a 0) as [->|].
          * rewrite nth_upd_same by lia. apply cp_dim. unfold off; lia.
          * rewrite nth_upd_other by auto. now apply Dm.
      - intros i. rewrite nth_upd_other by lia. rewrite nth_upd_same by lia. reflexivity.
      - intros i. rewrite nth_upd_same by (rewrite upd_length; lia). reflexivity.
      - intros; lia.
      - intros; lia.
    Qed.

    Hypothesis Heps : 0 <= eps.
    Hypothesis Hsep : separated eps (cknots c).
    (** what the whole call does *)
    Lemma remove_run tol : exists temp, Tinv (p / 2) temp /\
      ((exists i, tol < vnorm i /\ (forall k, rc k i = residual temp k)) /\ try_remove_knot c x (Some tol) = Ok (c, 0%nat) \/
       (exists v, vnorm v <= tol /\ (forall k, rc k v = residual temp k)) /\
       exists ps, length ps = length (cpts c) /\
        (forall a, (1 <= a <= p / 2)%nat -> nth (off + a) ps [] = nth a temp []) /\
        (forall b, (p - p / 2 < b <= p)%nat -> nth (off + b) ps [] = nth b temp []) /\
        (forall j, (j <= off \/ off + p < j)%nat -> nth j ps [] = nth j (cpts c) []) /\
        try_remove_knot c x (Some tol) = Ok (MkCurve D p (drop_at (off + g) ps) (drop_at r (cknots c)), 1%nat)).
    Proof.
      pose proof pts_len as Lp. pose proof kn_len as Lk. pose proof (curve_mono c Hc) as Hm.
      destruct half_facts as (Hh & Eg & Ho & He' & Hg).
      assert (Uniq : forall i, (i < length (cknots c))%nat -> i <> r -> nth i (cknots c) 0 <> nth r (cknots c) 0).
      { intros i Hi Hne. rewrite <- !(kf_nth (cknots c)) by lia. fold K. fold x. destruct (Nat.lt_ge_cases i r).
        - pose proof (mono_le _ i (r - 1) Hm ltac:(lia)). unfold K in *. lra.
        - pose proof (mono_le _ (S r) i Hm ltac:(lia)). unfold K in *. lra. }
      assert (Ex : nth r (cknots c) 0 = x) by (rewrite <- (kf_nth (cknots c)) by lia; reflexivity).
      set (P := fun (temp : list (list R)) (res : Res (Curve R * nat)) =>
        (exists i, tol < vnorm i /\ (forall k, rc k i = residual temp k)) /\ res = Ok (c, 0%nat) \/
        (exists v, vnorm v <= tol /\ (forall k, rc k v = residual temp k)) /\
        exists ps, length ps = length (cpts c) /\
          (forall a, (1 <= a <= p / 2)%nat -> nth (off + a) ps [] = nth a temp []) /\
          (forall b, (p - p / 2 < b <= p)%nat -> nth (off + b) ps [] = nth b temp []) /\
          (forall j, (j <= off \/ off + p < j)%nat -> nth j ps [] = nth j (cpts c) []) /\
          res = Ok (MkCurve D p (drop_at (off + g) ps) (drop_at r (cknots c)), 1%nat)).
      change (exists temp, Tinv (p / 2) temp /\ P temp (try_remove_knot c x (Some tol))).
      assert (HP : forall temp res, P temp res = (
        (exists i, tol < vnorm i /\ (forall k, rc k i = residual temp k)) /\ res = Ok (c, 0%nat) \/
        (exists v, vnorm v <= tol /\ (forall k, rc k v = residual temp k)) /\
        exists ps, length ps = length (cpts c) /\
          (forall a, (1 <= a <= p / 2)%nat -> nth (off + a) ps [] = nth a temp []) /\
          (forall b, (p - p / 2 < b <= p)%nat -> nth (off + b) ps [] = nth b temp []) /\
          (forall j, (j <= off \/ off + p < j)%nat -> nth j ps [] = nth j (cpts c) []) /\
          res = Ok (MkCurve D p (drop_at (off + g) ps) (drop_at r (cknots c)), 1%nat))) by reflexivity.
      clearbody P.
      unfold try_remove_knot. rewrite usub_ok by lia. cbn [bind]. replace (length (cpts c) - 1)%nat with (clast c) by lia. fold p.
      assert (Ep : position (fun k => seqb k x) (cknots c) = Some r).
      { destruct (position (fun k => seqb k x) (cknots c)) as [r'|] eqn:E.
        - destruct (position_some _ _ _ 0 E) as (P1 & P2 & _). f_equal. destruct (Nat.eq_dec r' r) as [|Hn]; auto. exfalso.
          apply (Uniq r' P1 Hn). rewrite Ex. rs. now apply Reqb_true.
        - exfalso. pose proof (position_none _ _ E x) as F. rs. rewrite <- Ex in F. rewrite (proj2 (Reqb_true _ _) eq_refl) in F.
          assert (true = false); [|discriminate]. apply F. apply nth_In. lia. }
      rewrite Ep. cbn [ok_or bind].
      assert (Hne : cknots c <> []) by (intros E; rewrite E in Lk; cbn in Lk; lia).
      destruct (@multiplicity_total R (ROps eps maxv) (cknots c) Hne) as (m & Em & _ & _). rewrite Em. cbn [bind].
      rewrite (knot_count_spec (cknots c) m x Heps (ko_sorted _ _ _ (co_knots c Hc)) Hsep Em); [|rewrite <- Ex; apply nth_In; lia].
      replace (count_occ Req_EM_T (cknots c) x) with 1%nat by (rewrite <- Ex; symmetry; apply count_single; auto; lia).
      cbn [ok_or bind].
      destruct (Nat.leb_spec r p); [lia|]. rewrite usub_ok by lia. cbn [bind].
      destruct (Nat.leb_spec r 1); [lia|]. rewrite usub_ok by lia. cbn [bind].
      set (t0 := repeat (vzero (cdim c)) (2 * (clast c + p + 1 + 1))).
      assert (L0 : length t0 = (2 * (clast c + p + 2))%nat) by (unfold t0; rewrite repeat_length; lia).
      assert (D0 : forall a, (a < length t0)%nat -> length (nth a t0 []) = D).
      { intros a Ha. unfold t0 in *. rewrite repeat_length in Ha. rewrite nth_repeat_lt by lia. apply vzero_length. }
      clearbody t0. cbn [loop_ Nat.add]. unfold remove_step at 1. rewrite usub_ok by lia. cbn [bind].
      change (r - p - 1)%nat with off.
      rewrite (get_ok (cpts c) off []) by (unfold off; lia). cbn [bind]. rewrite set_ok by lia. cbn [bind].
      rewrite usub_ok by (unfold off; lia). cbn [bind]. replace (r - 1 + 1)%nat with r by lia.
      rewrite (get_ok (cpts c) r []) by lia. cbn [bind]. replace (r - off)%nat with (p + 1)%nat by (unfold off; lia).
      rewrite set_ok by (rewrite upd_length; lia). cbn [bind]. rewrite usub_ok by lia. cbn [bind].
      replace (p + 1 - 1)%nat with p by lia.
      destruct (inner_spec _ (Tinv_init t0 L0 D0)) as (temp & -> & TI). cbn [bind].
      exists temp. split; [exact TI|]. destruct TI as [L Dm Z0 Z1 Tl Tr].
      assert (B : (r - p + p / 2 <=? r - 1 - p / 2)%nat && (r - 1 - p / 2 - (r - p + p / 2) <? 0)%nat = false).
      { apply andb_false_iff. right. apply Nat.ltb_ge. lia. }
      rewrite B. rewrite !get_kf by lia. cbn [bind]. fold K.
      rewrite (get_ok (cpts c) _ []) by lia. cbn [bind]. rewrite usub_ok by lia. cbn [bind].
      rewrite !(get_ok temp _ []) by lia. cbn [bind].
      replace (1 + p / 2 - 1)%nat with (p / 2)%nat by lia. replace (1 + p / 2 + 0 + 1)%nat with (1 + p / 2 + 1)%nat by lia.
      replace (r - p + p / 2)%nat with (off + (1 + p / 2))%nat by (unfold off; lia).
      replace (off + (1 + p / 2) + (p + 1) + 0)%nat with (off + (1 + p / 2) + p + 1)%nat by lia.
      rs. fold (ralf (1 + p / 2)).
      match goal with |- context [Rleb (vnorm ?v) tol] => set (vv := v) end.
      assert (Rv : forall k, rc k vv = residual temp k).
      { intros k. unfold vv, residual. assert (A1 : length (nth (1 + p / 2 + 1) temp []) = D) by (apply Dm; lia).
        assert (A2 : length (nth (p / 2) temp []) = D) by (apply Dm; lia).
        assert (A3 : length (nth (off + (1 + p / 2)) (cpts c) []) = D) by (apply cp_dim; unfold off; lia).
        rewrite rc_vsub. 2:{ rewrite (vadd_length _ _ D); [exact A3| |]; now apply vscale_length. }
        rewrite rc_vadd by (rewrite !(vscale_length _ _ D); auto). rewrite !rc_vscale. reflexivity. }
      clearbody vv. destruct (Rleb_spec (vnorm vv) tol) as [Hle|Hgt2]; cbn [negb].
      - destruct (writeback_spec temp L) as (ps & i & j & -> & Lps & W1 & W2 & W3). cbn [bind].
        cbn [bind remove_step Nat.add]. destruct (Nat.ltb_spec 0 1); [|lia].
        rewrite shift_spec by exact Lps. cbn [bind]. rewrite HP. right. split; [exists vv; auto|].
        exists ps. repeat split; auto.
      - cbn [bind]. destruct (Nat.ltb_spec 0 0); [lia|]. rewrite HP. left. split; [exists vv; auto|]. reflexivity.
    Qed.

    Lemma rsum_term_le n (f : nat -> R) j : (j < n)%nat -> (forall k, (k < n)%nat -> 0 <= f k) -> f j <= rsum n f.
    Proof.
      intros Hj H0. replace n with (j + S (n - j - 1))%nat by lia. rewrite rsum_split, rsum_S_l, Nat.add_0_r.
      assert (0 <= rsum j f) by (apply rsum_nonneg; intros; apply H0; lia).
      assert (0 <= rsum (n - j - 1) (fun i => f (j + S i)%nat)) by (apply rsum_nonneg; intros; apply H0; lia). lra.
    Qed.

    (** the call on a simple interior knot: either nothing changes, or the knot is gone and the curve
        moved by at most [tol * ramp] in every homogeneous coordinate, everywhere *)
    Theorem remove_simple_spec tol : exists c' t, try_remove_knot c x (Some tol) = Ok (c', t) /\
      ((t = 0%nat /\ c' = c) \/
       (t = 1%nat /\ curve_ok c' /\ cdim c' = cdim c /\ cdeg c' = cdeg c /\ cknots c' = drop_at r (cknots c) /\
        forall i u, dom0 c <= u <= dom1 c -> Rabs (hcoord c' i u - hcoord c i u) <= tol * ramp)).
    Proof.
      destruct (remove_run tol) as (temp & TI & [(_ & E)|((v & Hv & Rv) & ps & Lps & W1 & W2 & W3 & E)]).
      - exists c, 0%nat. auto.
      - eexists _, _. split; [exact E|]. right. split; [reflexivity|].
        destruct (result_spec temp ps TI Lps W1 W2 W3) as (Hc' & C1 & C2 & C3 & C4).
        set (c' := MkCurve D p (drop_at (off + g) ps) (drop_at r (cknots c))) in *.
        split; [exact Hc'|]. do 3 (split; [reflexivity|]). intros i u Hu.
        destruct (reinsert_spec temp c' TI Hc' eq_refl eq_refl eq_refl) as (c1 & I1 & Ek & Eo & Eb); auto.
        { unfold c'. cbn [cpts]. rewrite drop_at_length; pose proof pts_len; destruct half_facts; unfold off; lia. }
        pose proof pts_len as Lp. pose proof (curve_mono c Hc) as Hm. pose proof (curve_mono c' Hc') as Hm'.
        destruct half_facts as (_ & _ & _ & _ & Hg).
        assert (Lc' : length (cpts c') = clast c).
        { unfold c'. cbn [cpts]. rewrite drop_at_length; unfold off; lia. }
        assert (Ln : length (cpts c1) = length (cpts c)) by (rewrite (ii_len _ _ _ _ I1); lia).
        assert (Dg : cdeg c1 = cdeg c) by apply I1.
        assert (Ck : forall m, (m < clast c + p + 1)%nat -> kf (cknots c') m = if (m <? r)%nat then K m else K (S m)).
        { intros m Hm2. pose proof kn_len. unfold c'. cbn [cknots]. rewrite (kf_nth _ _ 0) by (rewrite drop_at_length; lia).
          rewrite drop_at_nth by lia. unfold K. destruct (Nat.ltb_spec m r); rewrite (kf_nth _ _ 0) by lia; reflexivity. }
        assert (Hcl : clast c' = (clast c - 1)%nat) by (unfold clast at 1; rewrite Lc'; reflexivity).
        destruct (insert_same c' (r - 1) x c1 (ok_wf c' Hc')) as (Sm & _).
        { rewrite Hcl. change (cdeg c') with p. lia. }
        { rewrite !Ck by lia. destruct (Nat.ltb_spec (r - 1) r), (Nat.ltb_spec (S (r - 1)) r); try lia.
          replace (S (S (r - 1))) with (S r) by lia. lra. }
        { exact I1. }
        assert (Hc1 : curve_ok c1).
        { constructor.
          - rewrite (ii_dim _ _ _ _ I1). apply Hc'.
          - rewrite (ii_dim _ _ _ _ I1). apply I1.
          - rewrite Ln, Dg. apply Hc.
          - unfold clast. rewrite Ln, Dg, Ek. apply Hc. }
        assert (D0 : dom0 c1 = dom0 c) by (unfold dom0; now rewrite Ek, Dg).
        assert (D1 : dom1 c1 = dom1 c) by (unfold dom1; now rewrite Ek, Ln).
        rewrite <- (same_hcoord c' c1 i u Hc' Hc1 Sm) by (rewrite <- (sc_dom0 _ _ Sm), <- (sc_dom1 _ _ Sm), D0, D1; exact Hu).
        destruct (domain_span c u Hc Hu) as (s & Hs & Hin). pose proof Hin as (Hne & _).
        assert (Hin1 : in_span (cknots c1) (clast c1) s u) by (unfold clast; rewrite Ek, Ln; exact Hin).
        rewrite <- (piece_hcoord c s i u Hc Hin) by lia.
        rewrite <- (piece_hcoord c1 s i u Hc1 Hin1) by (unfold clast in *; rewrite Ln; lia).
        rewrite Ek, Dg, Ln. unfold piece. rewrite <- rsum_minus.
        assert (Ng : (off + g < length (cpts c))%nat) by (unfold off; lia).
        rewrite (rsum_single _ (off + g)%nat); [|exact Ng|intros j Hj Hn; rewrite Eo by auto; ring].
        pose proof (in_span_le _ _ _ _ Hin) as Hul.
        pose proof (bs_nonneg (kf (cknots c)) s Hm (cdeg c) (off + g) u ltac:(lra)) as B0.
        assert (B1 : bs (kf (cknots c)) s (cdeg c) (off + g) u <= 1).
        { rewrite <- (bs_sum (kf (cknots c)) s Hm Hne (cdeg c) (length (cpts c)) u) by lia.
          apply (rsum_term_le (length (cpts c)) (fun j => bs (kf (cknots c)) s (cdeg c) j u)); [exact Ng|].
          intros j Hj. apply bs_nonneg; auto; lra. }
        specialize (Eb i). set (b := bs _ _ _ _ _) in *.
        replace (b * cpc c1 i (off + g) - b * cpc c i (off + g)) with (b * (cpc c1 i (off + g) - cpc c i (off + g))) by ring.
        rewrite Rabs_mult, (Rabs_pos_eq b B0).
        assert (Rr : Rabs (residual temp i) <= tol) by (rewrite <- Rv; eapply Rle_trans; [apply vnorm_coord|exact Hv]).
        assert (Ra : 0 < ramp).
        { unfold ramp. destruct (Nat.odd p) eqn:O; [lra|]. destruct half_facts as (Hh & _ & _ & He' & _). specialize (He' O).
          pose proof (ralf_01 (p / 2) ltac:(lia)). pose proof (ralf_01 (p / 2 + 1) ltac:(lia)). apply Rdiv_lt_0_compat; lra. }
        pose proof (Rabs_pos (cpc c1 i (off + g) - cpc c i (off + g))). nra.
    Qed.

    (** with tolerance 0 a removal never changes the curve *)
    Corollary remove_exact : exists c' t, try_remove_knot c x (Some 0) = Ok (c', t) /\ curve_ok c' /\
      forall i u, dom0 c <= u <= dom1 c -> hcoord c' i u = hcoord c i u.
    Proof.
      destruct (remove_simple_spec 0) as (c' & t & E & [(-> & ->)|(-> & Ok' & _ & _ & _ & H)]).
      - exists c, 0%nat. auto.
      - exists c', 1%nat. split; [exact E|]. split; [exact Ok'|]. intros i u Hu. specialize (H i u Hu).
        rewrite Rmult_0_l in H. pose proof (Rabs_pos (hcoord c' i u - hcoord c i u)) as H0.
        destruct (Req_dec (hcoord c' i u - hcoord c i u) 0) as [|Hn]; [lra|]. apply Rabs_no_R0 in Hn. lra.
    Qed.

    (** an inserted knot is always removed again, giving back the original curve *)
    Theorem remove_insert tol c0 : 0 <= tol -> curve_ok c0 -> is_insert c0 (r - 1) x c ->
      try_remove_knot c x (Some tol) = Ok (c0, 1%nat).
    Proof.
      intros Ht Hc0 [I1 I2 I3 I4 I5 I6 I7 I8]. pose proof pts_len as Lp. pose proof kn_len as Lk.
      pose proof (curve_len c0 Hc0) as Lk0. destruct half_facts as (Hh & Eg & Ho & He' & Hg).
      assert (L0 : length (cpts c0) = clast c) by lia.
      assert (Hp0 : cdeg c0 = p) by (symmetry; exact I2).
      assert (Lkk : length (cknots c) = S (length (cknots c0))) by (rewrite I3; apply ins_knots_length).
      assert (K1 : forall m, (m < r)%nat -> kf (cknots c0) m = K m).
      { intros m Hm. unfold K. rewrite I3, ins_knots_kf by lia. rewrite kins_lo by lia. reflexivity. }
      assert (K2 : forall m, (r <= m)%nat -> kf (cknots c0) m = K (S m)).
      { intros m Hm. unfold K. rewrite I3, ins_knots_kf by lia. rewrite (kins_hi _ _ _ (S m) m) by lia. reflexivity. }
      assert (Mid : forall i a, (1 <= a <= p)%nat -> Q i (off + a)%nat = ralf a * cpc c0 i (off + a) + (1 - ralf a) * cpc c0 i (off + (a - 1))).
      { intros i a Ha. pose proof (r_bounds a Ha) as B. unfold Q. rewrite I7; rewrite ?Hp0 in *; try (unfold off; lia).
        - rewrite K1 by (unfold off; lia). rewrite K2 by (unfold off; lia). replace (S (off + a + p)) with (off + a + p + 1)%nat by lia.
          fold (ralf a). replace (off + a - 1)%nat with (off + (a - 1))%nat by lia. reflexivity.
        - rewrite K1 by (unfold off; lia). rewrite K2 by (unfold off; lia). replace (S (off + a + p)) with (off + a + p + 1)%nat by lia. lra. }
      destruct (remove_run tol) as (temp & TI & Alt). pose proof TI as [Lt Dm Z0 Z1 Tl Tr].
      assert (Left : forall a, (a <= p / 2)%nat -> forall i, rc i (nth a temp []) = cpc c0 i (off + a)).
      { induction a as [|a IH]; intros Ha i.
        - rewrite Z0, Nat.add_0_r. unfold Q. apply I6. rewrite Hp0. unfold off. lia.
        - pose proof (Tl i (S a) ltac:(lia)) as E1. pose proof (Mid i (S a) ltac:(lia)) as E2.
          pose proof (ralf_01 (S a) ltac:(lia)) as A. replace (S a - 1)%nat with a in * by lia.
          rewrite IH in E1 by lia. rewrite E1 in E2. apply (Rmult_eq_reg_l (ralf (S a))); lra. }
      assert (Right : forall b, (b <= p / 2)%nat -> forall i, rc i (nth (p + 1 - b) temp []) = cpc c0 i (off + (p - b))).
      { induction b as [|b IH]; intros Hb i.
        - rewrite !Nat.sub_0_r, Z1. unfold Q. rewrite I8 by lia. f_equal. unfold off. lia.
        - pose proof (Tr i (p - b)%nat ltac:(lia)) as E1. pose proof (Mid i (p - b)%nat ltac:(lia)) as E2.
          pose proof (ralf_01 (p - b) ltac:(lia)) as A. replace (p - b + 1)%nat with (p + 1 - b)%nat in E1 by lia.
          rewrite IH in E1 by lia. rewrite E1 in E2. replace (p + 1 - S b)%nat with (p - b)%nat by lia.
          replace (p - b - 1)%nat with (p - S b)%nat in E2 by lia. apply (Rmult_eq_reg_l (1 - ralf (p - b))); lra. }
      assert (Res0 : forall i, residual temp i = 0).
      { intros i. unfold residual. rewrite (Left (p / 2)%nat) by lia.
        replace (rc i (nth (1 + p / 2 + 1) temp [])) with (cpc c0 i (off + (1 + p / 2))).
        - destruct (Nat.eq_dec p 1) as [E|E].
          + rewrite (Mid i (1 + p / 2)%nat). { replace (1 + p / 2 - 1)%nat with (p / 2)%nat by lia. ring. } split; [lia|]. lia.
          + rewrite (Mid i (1 + p / 2)%nat) by lia. replace (1 + p / 2 - 1)%nat with (p / 2)%nat by lia. ring.
        - destruct (Nat.odd p) eqn:O.
          + specialize (Ho eq_refl). replace (1 + p / 2 + 1)%nat with (p + 1 - (p / 2))%nat by lia.
            rewrite Right by lia. f_equal. lia.
          + specialize (He' eq_refl). replace (1 + p / 2 + 1)%nat with (p + 1 - (p / 2 - 1))%nat by lia.
            rewrite Right by lia. f_equal. lia. }
      destruct Alt as [((v & Hv & Rv) & _)|(_ & ps & Lps & W1 & W2 & W3 & E)].
      - exfalso. assert (Z : vnorm v = 0).
        { unfold vnorm, vnorm2. rs. rewrite vdot_rsum by auto. rewrite rsum_0; [apply sqrt_0|]. intros j Hj. rewrite Rv, Res0. ring. }
        lra.
      - rewrite E. f_equal. f_equal. destruct (result_spec temp ps TI Lps W1 W2 W3) as (Hc' & C1 & C2 & C3 & C4).
        set (c' := MkCurve D p (drop_at (off + g) ps) (drop_at r (cknots c))) in *.
        assert (N : (off + g < length ps)%nat) by (unfold off; lia).
        assert (Lc' : length (cpts c') = clast c) by (unfold c'; cbn [cpts]; rewrite drop_at_length; lia).
        assert (EP : forall i j, (j < clast c)%nat -> cpc c' i j = cpc c0 i j).
        { intros i j Hj. destruct (Nat.le_gt_cases j off) as [G1|G1].
          { rewrite C3 by lia. unfold Q. apply I6. rewrite Hp0. unfold off in *. lia. }
          destruct (Nat.lt_ge_cases (off + p) j) as [G2|G2].
          { replace j with (j + 1 - 1)%nat by lia. rewrite C4 by lia. unfold Q. rewrite I8 by (unfold off in *; lia). reflexivity. }
          replace j with (off + (j - off))%nat by lia. set (a := (j - off)%nat) in *. assert (Ha : (1 <= a <= p)%nat) by lia. clearbody a.
          destruct (Nat.lt_ge_cases a g) as [G3|G3].
          - rewrite C1 by lia. apply Left. destruct (Nat.odd p); lia.
          - rewrite C2 by lia. replace (a + 1)%nat with (p + 1 - (p - a))%nat by lia. rewrite Right.
            + f_equal. lia.
            + destruct (Nat.odd p); [specialize (Ho eq_refl)|specialize (He' eq_refl)]; lia. }
        assert (EPl : cpts c' = cpts c0).
        { apply (list_ext []); [lia|]. intros j Hj. apply (vec_ext _ _ D).
          - rewrite (cpts_len c' j Hc') by lia. reflexivity.
          - rewrite (cpts_len c0 j Hc0) by lia. symmetry. exact I1.
          - intros i _. apply (EP i j). lia. }
        assert (EK : cknots c' = cknots c0).
        { apply (list_ext 0); [unfold c'; cbn [cknots]; rewrite drop_at_length; lia|]. intros j Hj.
          rewrite <- (kf_nth (cknots c0)) by (unfold c' in Hj; cbn [cknots] in Hj; rewrite drop_at_length in Hj; lia).
          unfold c' in *. cbn [cknots] in *. rewrite drop_at_length in Hj by lia. rewrite drop_at_nth by lia.
          destruct (Nat.ltb_spec j r); rewrite <- (kf_nth (cknots c)) by lia.
          - symmetry. apply K1. lia.
          - symmetry. apply K2. lia. }
        destruct c0 as [d0 p0 q0 k0]. unfold c' in EPl, EK. cbn [cpts cknots cdim cdeg] in *. unfold c'. rewrite EPl, EK.
        f_equal; auto.
    Qed.
  End One.

  (** [x] is a simple interior knot with index [r] *)
  Definition simple_knot (c : Curve R) (r : nat) (x : R) : Prop :=
    (cdeg c < r <= clast c)%nat /\ x = kf (cknots c) r /\
    kf (cknots c) (r - 1) < x < kf (cknots c) (S r).

  Theorem remove_simple_knot c r x tol : curve_ok c -> 0 <= eps -> separated eps (cknots c) ->
    (1 <= cdeg c)%nat -> simple_knot c r x ->
    exists c' t, try_remove_knot c x (Some tol) = Ok (c', t) /\
      ((t = 0%nat /\ c' = c) \/
       (t = 1%nat /\ curve_ok c' /\ cdim c' = cdim c /\ cdeg c' = cdeg c /\
        cknots c' = firstn r (cknots c) ++ skipn (S r) (cknots c) /\
        forall i u, dom0 c <= u <= dom1 c -> Rabs (hcoord c' i u - hcoord c i u) <= tol * ramp c r)).
  Proof.
    intros Hc He Hs Hp (Hr & -> & H1 & H2). exact (remove_simple_spec c r Hc Hr H1 H2 Hp He Hs tol).
  Qed.

  Theorem remove_odd_degree c r x tol : curve_ok c -> 0 <= eps -> separated eps (cknots c) ->
    Nat.odd (cdeg c) = true -> simple_knot c r x ->
    exists c' t, try_remove_knot c x (Some tol) = Ok (c', t) /\ curve_ok c' /\
      (t <= 1)%nat /\ (0 <= tol -> forall i u, dom0 c <= u <= dom1 c -> Rabs (hcoord c' i u - hcoord c i u) <= tol).
  Proof.
    intros Hc He Hs Ho Hk. assert (Hp : (1 <= cdeg c)%nat) by (destruct (cdeg c); [discriminate|lia]).
    destruct (remove_simple_knot c r x tol Hc He Hs Hp Hk) as (c' & t & E & [(-> & ->)|(-> & A & _ & _ & _ & B)]);
      eexists _, _; (split; [exact E|]).
    - split; [exact Hc|]. split; [lia|]. intros Ht i u Hu. rewrite Rminus_diag_eq by reflexivity. now rewrite Rabs_R0.
    - split; [exact A|]. split; [lia|]. intros Ht i u Hu. specialize (B i u Hu). unfold ramp in B. rewrite Ho in B. lra.
  Qed.

  Theorem remove_zero_tolerance c r x : curve_ok c -> 0 <= eps -> separated eps (cknots c) ->
    (1 <= cdeg c)%nat -> simple_knot c r x ->
    exists c' t, try_remove_knot c x (Some 0) = Ok (c', t) /\ curve_ok c' /\
      forall i u, dom0 c <= u <= dom1 c -> hcoord c' i u = hcoord c i u.
  Proof.
    intros Hc He Hs Hp (Hr & -> & H1 & H2). exact (remove_exact c r Hc Hr H1 H2 Hp He Hs).
  Qed.

  Theorem remove_inserted_knot c r x tol c0 : curve_ok c -> 0 <= eps -> separated eps (cknots c) ->
    (1 <= cdeg c)%nat -> simple_knot c r x -> 0 <= tol -> curve_ok c0 -> is_insert c0 (r - 1) x c ->
    try_remove_knot c x (Some tol) = Ok (c0, 1%nat).
  Proof.
    intros Hc He Hs Hp (Hr & -> & H1 & H2). exact (remove_insert c r Hc Hr H1 H2 Hp He Hs tol c0).
  Qed.
End Real.

(** ** Witnesses of wrong behaviour (binary64) *)
Section Float.
  Local Open Scope float_scope.
  Local Existing Instance FOps.

  (** even degree: the tolerance is checked before an amplification; with tolerance 1 the curve moves by more than 511 *)
  Definition rm_amp : Curve float :=
    MkCurve 3 2 [[0;0;1];[1023;0;1];[2047;1;1];[2048;0;1]] [0;0;0;1023;1024;1024;1024].
  Theorem remove_tolerance_refuted : exists (c' : Curve float) (p p' : list float),
    try_remove_knot rm_amp 1023 (Some 1) = Ok (c', 1%nat) /\
    point_at rm_amp 512 = Ok p /\ point_at c' 512 = Ok p' /\ (511 <? coord 1 p' - coord 1 p) = true.
  Proof. do 3 eexists. repeat apply conj; vm_compute; reflexivity. Qed.

  (** a knot inserted twice is removable, but is not removed *)
  Definition rm_quad : Curve float := MkCurve 3 2 [[0;0;1];[1;2;1];[2;0;1]] [0;0;0;1;1;1].
  Theorem remove_double_refuted : exists c : Curve float,
    try_refine_knot rm_quad [0.5; 0.5] = Ok c /\ try_remove_knot c 0.5 None = Ok (c, 0%nat).
  Proof. eexists. split; vm_compute; reflexivity. Qed.

  (** a double knot next to the start of the domain: the offset underflows *)
  Theorem remove_double_panic_refuted : exists c : Curve float,
    is_ok (try_new 3 2 (cpts c) (cknots c)) /\ panics (try_remove_knot c 1 (Some 100)).
  Proof.
    exists (MkCurve 3 2 [[0;0;1];[1;0;1];[2;0;1];[3;0;1];[4;0;1]] [0;0;0;1;1;2;2;2]).
    split; vm_compute; eexists; reflexivity.
  Qed.

  (** removing the double knot 1 removes the knot 0.5 instead, keeps one copy of 1 and moves the curve *)
  Theorem remove_wrong_knot_refuted : exists c c' : Curve float,
    cknots c = [0;0;0;0.5;1;1;2;2;2] /\ is_ok (try_new 3 2 (cpts c) (cknots c)) /\
    try_remove_knot c 1 (Some 100) = Ok (c', 2%nat) /\ cknots c' = [0;0;0;1;2;2;2] /\
    point_at c 1 = Ok [3; 0] /\ point_at c' 1 = Ok [2.5; 0].
  Proof.
    exists (MkCurve 3 2 [[0;0;1];[1;0;1];[2;0;1];[3;0;1];[4;0;1];[5;0;1]] [0;0;0;0.5;1;1;2;2;2]).
    eexists. repeat apply conj; try (vm_compute; reflexivity). vm_compute; eexists; reflexivity.
  Qed.
End Float.
