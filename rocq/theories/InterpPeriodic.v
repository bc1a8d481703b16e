(** * Periodic interpolation: the closed curve passes through the points, in order, and closes *)
From Coq Require Import Reals Lra Sorted.
From Verif Require Import Base BaseFacts Scalar RSum BSplineSpec BSpline KnotModel KnotSpec KnotMisc
  KnotFacts KnotProofs VecFacts MiscModel CurveModel CurveSpec CurveProofs CurveGeom CurveGeom2 CurveShapes
  InterpModel InterpProofs.
Open Scope R_scope.

(** ** Specification *)
(** parameter distance from point [i] to the next one, the last point being followed by the first *)
Definition pstep (st : KnotStyle) (pts : list (list R)) (i : nat) : R :=
  let n := length pts in
  let d := rdist (nth (i mod n) pts []) (nth (S i mod n) pts []) in
  match st with
  | Uniform => 1 / INR (n - 1)
  | Chordal => d
  | Centripetal => sqrt d
  end.

(** consecutive points are distinct, around the loop *)
Definition distinct_loop (pts : list (list R)) : Prop :=
  forall i, (i < length pts)%nat -> 0 < rdist (nth i pts []) (nth (S i mod length pts) pts []).

(** basis functions on a span depend on the [2p] knots around it only *)
Lemma bs_window k k' d s p : forall i u,
  (forall j, (s < j + p)%nat -> (j <= s + p)%nat -> k' (j + d)%nat = k j) ->
  bs k' (s + d) p (i + d) u = bs k s p i u.
Proof.
  induction p as [|q IH]; intros i u He.
  - cbn. destruct (Nat.eqb_spec i s), (Nat.eqb_spec (i + d) (s + d)); auto; lia.
  - rewrite !bs_S. replace (i + d + 1)%nat with (i + 1 + d)%nat by lia.
    assert (He' : forall j, (s < j + q)%nat -> (j <= s + q)%nat -> k' (j + d)%nat = k j)
      by (intros j H1 H2; apply He; lia).
    rewrite (IH i u He'), (IH (i + 1)%nat u He').
    f_equal.
    + destruct (Nat.le_gt_cases i s) as [C1|C1]; [destruct (Nat.le_gt_cases s (i + q)) as [C2|C2]|];
        [|rewrite (bs_support k s q i) by lia; ring|rewrite (bs_support k s q i) by lia; ring].
      f_equal. unfold wl. replace (i + d + S q)%nat with (i + S q + d)%nat by lia. rewrite !He by lia. reflexivity.
    + destruct (Nat.le_gt_cases (i + 1) s) as [C1|C1]; [destruct (Nat.le_gt_cases s (i + 1 + q)) as [C2|C2]|];
        [|rewrite (bs_support k s q (i + 1)) by lia; ring|rewrite (bs_support k s q (i + 1)) by lia; ring].
      f_equal. unfold wr. replace (i + d + S q + 1)%nat with (i + S q + 1 + d)%nat by lia.
      replace (i + d + 1)%nat with (i + 1 + d)%nat by lia. rewrite !He by lia. reflexivity.
Qed.

Section Real.
  Variables eps maxv : R.
  Local Hint Extern 0 (Scalar R) => exact (ROps eps maxv) : typeclass_instances.

  Lemma rdist_sym a b : length a = length b -> rdist a b = rdist b a.
  Proof. intros H. unfold rdist. rewrite H. f_equal. apply rsum_ext. intros l Hl. ring. Qed.

  Lemma parameterize_eq d st pts :
    (2 <= length pts)%nat -> Forall (fun p => length p = d) pts ->
    parameterize st pts true = Ok (map (pstep st pts) (seq 0 (length pts))).
  Proof.
    intros Hn Hd.
    assert (L : forall j, (j < length pts)%nat -> length (nth j pts []) = d)
      by (intros j Hj; rewrite Forall_forall in Hd; apply Hd, nth_In, Hj).
    assert (G : forall f : list R -> list R -> R,
      map (fun ab => f (fst ab) (snd ab)) (combine pts (skipn 1 pts ++ firstn 1 pts)) =
      map (fun i => f (nth i pts []) (nth (S i mod length pts) pts [])) (seq 0 (length pts))).
    { intros f.
      assert (Lc : length (skipn 1 pts ++ firstn 1 pts) = length pts)
        by (rewrite app_length, skipn_length, firstn_length; lia).
      apply (list_ext 0); [rewrite !map_length, combine_length, seq_length; lia|].
      rewrite map_length, combine_length, Lc, Nat.min_id. intros i Hi.
      rewrite (nth_map_lt _ _ i ([], [])) by (rewrite combine_length; lia).
      rewrite (nth_map_lt _ _ i 0%nat) by (rewrite seq_length; lia).
      rewrite combine_nth by (symmetry; exact Lc). rewrite seq_nth by exact Hi. cbn [fst snd Nat.add]. f_equal.
      destruct (Nat.eq_dec (S i) (length pts)) as [E|E].
      - rewrite E, Nat.mod_same by lia. rewrite app_nth2 by (rewrite skipn_length; lia). rewrite skipn_length.
        replace (i - (length pts - 1))%nat with 0%nat by lia. apply nth_firstn. lia.
      - rewrite Nat.mod_small by lia. rewrite app_nth1 by (rewrite skipn_length; lia). apply nth_skipn. }
    assert (V : forall i, (i < length pts)%nat ->
      vnorm (vsub (nth (S i mod length pts) pts []) (nth i pts [])) =
      rdist (nth (i mod length pts) pts []) (nth (S i mod length pts) pts [])).
    { intros i Hi. rewrite (Nat.mod_small i) by exact Hi.
      assert ((S i mod length pts < length pts)%nat) by (apply Nat.mod_upper_bound; clear - Hn; lia).
      rewrite vnorm_rdist by (rewrite !L by assumption; reflexivity).
      apply rdist_sym. rewrite !L by assumption. reflexivity. }
    unfold parameterize. destruct st.
    - cbn [bind]. rewrite usub_ok by lia. cbn [bind]. f_equal. apply (list_ext 0).
      + rewrite repeat_length, map_length, seq_length. reflexivity.
      + rewrite repeat_length. intros i Hi. rewrite nth_repeat_lt by exact Hi.
        rewrite (nth_map_lt _ _ i 0%nat) by (rewrite seq_length; lia). unfold pstep.
        rewrite (sofnat_INR eps maxv). reflexivity.
    - f_equal. rewrite (G (style_step Chordal)). apply map_ext_in. intros i Hi. apply in_seq in Hi.
      unfold style_step, pstep. apply V. lia.
    - f_equal. rewrite (G (style_step Centripetal)). apply map_ext_in. intros i Hi. apply in_seq in Hi.
      unfold style_step, pstep. rewrite <- V by lia. reflexivity.
  Qed.

  Lemma pstep_pos st pts i : (2 <= length pts)%nat -> distinct_loop pts -> 0 < pstep st pts i.
  Proof.
    intros Hn Hd. unfold pstep.
    assert (D : 0 < rdist (nth (i mod length pts) pts []) (nth (S i mod length pts) pts [])).
    { pose proof (Hd (i mod length pts)%nat (Nat.mod_upper_bound i (length pts) ltac:(lia))) as H.
      replace (S i mod length pts)%nat with (S (i mod length pts) mod length pts)%nat; [exact H|].
      rewrite <- (Nat.add_1_r (i mod length pts)), <- (Nat.add_1_r i). apply Nat.add_mod_idemp_l. lia. }
    destruct st; [|exact D|now apply sqrt_lt_R0].
    assert (0 < INR (length pts - 1)) by (apply lt_0_INR; lia).
    unfold Rdiv. rewrite Rmult_1_l. now apply Rinv_0_lt_compat.
  Qed.

  Lemma pstep_mod st pts i : (1 <= length pts)%nat -> pstep st pts (i + length pts) = pstep st pts i.
  Proof.
    intros Hn. unfold pstep. replace (S (i + length pts)) with (S i + 1 * length pts)%nat by lia.
    replace (i + length pts)%nat with (i + 1 * length pts)%nat by lia. rewrite !Nat.mod_add by lia. reflexivity.
  Qed.

  Lemma scan_sum_nth (l : list R) : forall acc i, (i < length l)%nat ->
    nth i (scan_sum acc l) 0 = acc + rsum (S i) (fun j => nth j l 0).
  Proof.
    induction l as [|x l IH]; intros acc i Hi; [cbn in Hi; lia|]. cbn [scan_sum].
    destruct i as [|i].
    - cbn. ring.
    - rewrite rsum_S_l. cbn [nth length] in *. rewrite IH by lia. rs. ring.
  Qed.
  Lemma scan_sum_len (l : list R) : forall acc, length (scan_sum acc l) = length l.
  Proof. induction l as [|x l IH]; intros acc; cbn [scan_sum length]; [reflexivity|]. now rewrite IH. Qed.

  (** the knots of the loop, extended for ever *)
  Definition loopk st pts (p j : nat) : R :=
    rsum (j - 1) (fun i => pstep st pts (i + (length pts - p + 1))).

  Lemma periodic_knots_eq st pts p :
    (1 <= p)%nat -> (p + 1 <= length pts)%nat -> distinct_loop pts ->
    exists K, periodic_knots (map (pstep st pts) (seq 0 (length pts))) (length pts) p = Ok K /\
      length K = (length pts + 2 * p + 1)%nat /\
      (forall j, (1 <= j < length pts + 2 * p)%nat -> kf K j = loopk st pts p j) /\
      kf K 0 <= kf K 1 /\ kf K (length pts + 2 * p - 1) <= kf K (length pts + 2 * p).
  Proof.
    intros Hp Hn Hd. set (n := length pts) in *. set (prm := map (pstep st pts) (seq 0 n)).
    assert (Lp : length prm = n) by (unfold prm; rewrite map_length, seq_length; reflexivity).
    assert (Np : forall i, (i < n)%nat -> nth i prm 0 = pstep st pts i).
    { intros i Hi. unfold prm. rewrite (nth_map_lt _ _ i 0%nat) by (rewrite seq_length; lia). now rewrite seq_nth by lia. }
    unfold periodic_knots. rewrite usub_ok by lia. cbn [bind]. rewrite slice_ok by lia. cbn [bind].
    rewrite usub_ok by lia. cbn [bind]. rewrite slice_ok by lia. cbn [bind].
    set (head := firstn (p - 1 - 0) (skipn 0 prm)).
    set (tail := firstn (length prm - (length prm - p + 1)) (skipn (length prm - p + 1) prm)).
    assert (Lh : length head = (p - 1)%nat) by (unfold head; rewrite slice_length by lia; lia).
    assert (Lt : length tail = (p - 1)%nat) by (unfold tail; rewrite slice_length by lia; lia).
    set (all := tail ++ prm ++ head).
    assert (La : length all = (n + 2 * p - 2)%nat) by (unfold all; rewrite !app_length; lia).
    assert (Na : forall i, (i < n + 2 * p - 2)%nat -> nth i all 0 = pstep st pts (i + (n - p + 1))).
    { intros i Hi. unfold all. destruct (Nat.lt_ge_cases i (p - 1)) as [C|C].
      - rewrite app_nth1 by lia. unfold tail. rewrite nth_slice by lia. rewrite Np by lia. f_equal. lia.
      - rewrite app_nth2 by lia. rewrite Lt. destruct (Nat.lt_ge_cases i (p - 1 + n)) as [C2|C2].
        + rewrite app_nth1 by lia. rewrite Np by lia.
          replace (i + (n - p + 1))%nat with (i - (p - 1) + n)%nat by lia. symmetry. apply pstep_mod. fold n. lia.
        + rewrite app_nth2 by lia. rewrite Lp. unfold head. rewrite nth_slice by lia. rewrite Np by lia.
          replace (i + (n - p + 1))%nat with (0 + (i - (p - 1) - n) + length pts + length pts)%nat by (fold n; lia).
          rewrite !pstep_mod by (fold n; lia). reflexivity. }
    set (inner := 0 :: scan_sum 0 all).
    change (szero :: scan_sum szero all) with inner.
    assert (Li : length inner = (n + 2 * p - 1)%nat) by (unfold inner; cbn [length]; rewrite scan_sum_len; lia).
    assert (Ni : forall j, (j < n + 2 * p - 1)%nat -> nth j inner 0 = loopk st pts p (S j)).
    { intros j Hj. unfold inner, loopk. fold n. destruct j as [|j]; [reflexivity|]. cbn [nth].
      replace (S (S j) - 1)%nat with (S j) by lia.
      rewrite scan_sum_nth by lia. rewrite Rplus_0_l. apply rsum_ext. intros i Hi. apply Na. lia. }
    assert (Mono : forall j, loopk st pts p (S j) <= loopk st pts p (S (S j))).
    { intros j. unfold loopk. replace (S (S j) - 1)%nat with (S j) by lia. replace (S j - 1)%nat with j by lia. cbn [rsum].
      pose proof (pstep_pos st pts (j + (length pts - p + 1)) ltac:(fold n; lia) Hd). lra. }
    rewrite !(get_ok inner _ 0) by lia. cbn [bind]. rewrite usub_ok by lia. cbn [bind].
    rewrite !(get_ok inner (length inner - 1) 0) by lia. cbn [bind].
    assert (Z : exists k0 k1, k0 <= nth 0 inner 0 /\ nth (length inner - 1) inner 0 <= k1 /\
      (k2 <- (if (2 <? p)%nat then y <- get inner (n + p + 1) ;; z <- get inner (n + p) ;; Ok (nth 0 inner 0 - (y - z))
              else Ok (nth 0 inner 0)) ;;
       k3 <- (if (2 <? p)%nat then y <- get inner (p + 1) ;; z <- get inner p ;; Ok (nth (length inner - 1) inner 0 + (y - z))
              else Ok (nth (length inner - 1) inner 0)) ;; Ok (k2 :: inner ++ [k3])) = Ok (k0 :: inner ++ [k1])).
    { destruct (Nat.ltb_spec 2 p) as [C|C].
      - rewrite (get_ok inner (n + p + 1) 0), (get_ok inner (n + p) 0), (get_ok inner (p + 1) 0), (get_ok inner p 0) by lia.
        cbn [bind]. do 2 eexists. split; [|split; [|reflexivity]].
        + rewrite (Ni (n + p + 1)%nat), (Ni (n + p)%nat) by lia. replace (n + p + 1)%nat with (S (n + p)) by lia.
          pose proof (Mono (n + p)%nat). lra.
        + rewrite (Ni (p + 1)%nat), (Ni p) by lia. replace (p + 1)%nat with (S p) by lia. pose proof (Mono p). lra.
      - cbn [bind]. do 2 eexists. split; [|split; [|reflexivity]]; lra. }
    destruct Z as (k0 & k1 & B0 & B1 & EZ).
    exists (k0 :: inner ++ [k1]). split; [exact EZ|].
    assert (LK : length (k0 :: inner ++ [k1]) = (n + 2 * p + 1)%nat) by (cbn [length]; rewrite app_length; cbn [length]; lia).
    split; [exact LK|].
    assert (NK : forall j, (1 <= j < n + 2 * p)%nat -> kf (k0 :: inner ++ [k1]) j = nth (j - 1) inner 0).
    { intros j Hj. rewrite (kf_nth _ _ 0) by lia. destruct j as [|j]; [lia|]. cbn [nth].
      rewrite app_nth1 by lia. f_equal. lia. }
    split; [intros j Hj; rewrite NK by exact Hj; rewrite Ni by lia; f_equal; lia|]. split.
    - rewrite (NK 1%nat) by lia. rewrite (kf_nth _ _ 0) by lia. exact B0.
    - rewrite (NK (n + 2 * p - 1)%nat) by lia. rewrite (kf_nth _ _ 0) by lia.
      replace (n + 2 * p)%nat with (S (n + 2 * p - 1)) by lia. cbn [nth]. rewrite app_nth2 by lia.
      rewrite Li. replace (n + 2 * p - 1 - (n + 2 * p - 1))%nat with 0%nat by lia. cbn [nth].
      match goal with |- nth ?a _ _ <= _ => replace a with (length inner - 1)%nat by lia end. exact B1.
  Qed.

  Lemma loopk_S st pts p j : (1 <= j)%nat ->
    loopk st pts p (S j) = loopk st pts p j + pstep st pts (j - 1 + (length pts - p + 1)).
  Proof. intros Hj. unfold loopk. replace (S j - 1)%nat with (S (j - 1)) by lia. reflexivity. Qed.

  Lemma loopk_lt st pts p j : (2 <= length pts)%nat -> distinct_loop pts -> (1 <= j)%nat ->
    loopk st pts p j < loopk st pts p (S j).
  Proof.
    intros Hn Hd Hj. rewrite loopk_S by exact Hj. pose proof (pstep_pos st pts (j - 1 + (length pts - p + 1)) Hn Hd). lra.
  Qed.

  Lemma loopk_mono st pts p : (2 <= length pts)%nat -> distinct_loop pts -> mono (loopk st pts p).
  Proof.
    intros Hn Hd j. destruct j as [|j]; [unfold loopk; cbn; lra|]. apply Rlt_le, loopk_lt; auto; lia.
  Qed.

  Lemma rsum_shift n m f : (forall i, f (i + n)%nat = f i) -> rsum n (fun i => f (i + m)%nat) = rsum n f.
  Proof.
    intros H. induction m as [|m IH]; [apply rsum_ext; intros; f_equal; lia|].
    rewrite <- IH. destruct n as [|n]; [reflexivity|].
    rewrite (rsum_S_l n (fun i => f (i + m)%nat)). cbn [rsum].
    replace (f (n + S m)%nat) with (f m) by (rewrite <- (H m); f_equal; lia).
    rewrite (rsum_ext n _ (fun i => f (S i + m)%nat)) by (intros; f_equal; lia).
    cbn [Nat.add]. ring.
  Qed.

  (** one turn around the loop adds the total *)
  Lemma loopk_turn st pts p j : (1 <= length pts)%nat -> (1 <= j)%nat ->
    loopk st pts p (j + length pts) = loopk st pts p j + rsum (length pts) (pstep st pts).
  Proof.
    intros Hn Hj. unfold loopk. replace (j + length pts - 1)%nat with (j - 1 + length pts)%nat by lia.
    rewrite rsum_split. f_equal.
    rewrite (rsum_ext _ _ (fun i => pstep st pts (i + (j - 1 + (length pts - p + 1))))) by (intros; f_equal; lia).
    apply rsum_shift. intros i. now apply pstep_mod.
  Qed.

  Lemma loopk_at st pts p i : (1 <= p)%nat -> (p + 1 <= length pts)%nat ->
    loopk st pts p (p + i) = loopk st pts p p + rsum i (pstep st pts).
  Proof.
    intros Hp Hn. unfold loopk. replace (p + i - 1)%nat with (p - 1 + i)%nat by lia. rewrite rsum_split. f_equal.
    apply rsum_ext. intros j Hj. replace (p - 1 + j + (length pts - p + 1))%nat with (j + length pts)%nat by lia.
    apply pstep_mod. lia.
  Qed.

  (** one row of the looped matrix: entry [j] collects the basis functions of the copies of point [j] *)
  Lemma periodic_row_real K p N i s :
    knots_ok p (N + p - 1) K -> (p + 1 <= N)%nat -> (i < N)%nat ->
    find_span K (N + p - 1) p (kf K (i + p)) = Ok s -> (p <= s <= N + p - 1)%nat -> kf K s < kf K (S s) ->
    exists row, periodic_row K (N + p - 1) p (N - (p + 1)) i = Ok row /\ length row = N /\
      forall x, rsum N (fun j => nth j row 0 * x j) =
                rsum (N + p) (fun j => bs (kf K) s p j (kf K (i + p)) * x (j mod N)%nat).
  Proof.
    intros Hk HN Hi Es Hs Hne. destruct Hk as [Hl Hpn Hso Hf Hla].
    set (u := kf K (i + p)) in *.
    destruct (basis_functions_real eps maxv K s p u (sorted_mono _ Hso) Hne ltac:(lia) ltac:(lia)) as (b & Eb & Lb & Hb).
    unfold periodic_row. rewrite get_kf by lia. fold u. cbn [bind]. rewrite Es. cbn [bind]. rewrite Eb. cbn [bind].
    rewrite usub_ok by lia. cbn [bind].
    set (pad := b ++ repeat szero (N - (p + 1))).
    assert (Lpad : length pad = N) by (unfold pad; rewrite app_length, repeat_length; lia).
    rewrite Lpad, usub_ok by lia. cbn [bind]. rewrite !slice_ok by lia. cbn [bind].
    set (ls := (s - p)%nat) in *.
    set (X := firstn (N - (N - ls)) (skipn (N - ls) pad)). set (Y := firstn (N - ls - 0) (skipn 0 pad)).
    assert (LX : length X = ls) by (unfold X; rewrite slice_length by lia; lia).
    assert (LY : length Y = (N - ls)%nat) by (unfold Y; rewrite slice_length by lia; lia).
    assert (NX : forall j, (j < ls)%nat -> nth j X 0 = nth (N - ls + j) pad 0)
      by (intros j Hj; unfold X; rewrite nth_slice by lia; reflexivity).
    assert (NY : forall j, (j < N - ls)%nat -> nth j Y 0 = nth j pad 0)
      by (intros j Hj; unfold Y; rewrite nth_slice by lia; reflexivity).
    exists (X ++ Y). split; [reflexivity|]. split.
    { rewrite app_length. lia. }
    intros x.
    assert (Npad : forall r, (r < N)%nat -> nth r pad 0 = if (r <=? p)%nat then bs (kf K) s p (ls + r) u else 0).
    { intros r Hr. unfold pad. rs. destruct (Nat.leb_spec r p) as [C|C].
      - rewrite app_nth1 by lia. rewrite Hb by lia. reflexivity.
      - rewrite app_nth2 by lia. apply nth_repeat. }
    set (g := fun r => nth r pad 0 * x ((ls + r) mod N)%nat).
    transitivity (rsum N g).
    - assert (SP : forall a f, (a <= N)%nat -> rsum N f = rsum a f + rsum (N - a) (fun i => f (a + i)%nat))
        by (intros a f Ha; rewrite <- rsum_split; f_equal; lia).
      rewrite (SP ls) by lia. rewrite (SP (N - ls)%nat g) by lia. rewrite Rplus_comm.
      replace (N - (N - ls))%nat with ls by lia. f_equal.
      + apply rsum_ext. intros j Hj. unfold g. rewrite app_nth2 by lia.
        rewrite LX. replace (ls + j - ls)%nat with j by lia.
        rewrite NY by lia. rewrite Nat.mod_small by lia. reflexivity.
      + apply rsum_ext. intros j Hj. unfold g. rewrite app_nth1 by lia.
        rewrite NX by lia. f_equal. f_equal. replace (ls + (N - ls + j))%nat with (j + 1 * N)%nat by lia.
        rewrite Nat.mod_add by lia. rewrite Nat.mod_small by lia. reflexivity.
    - rewrite (rsum_window (N + p) ls (S p)); [|lia|].
      + replace (rsum N g) with (rsum (S p + (N - S p)) g) by (f_equal; lia). rewrite rsum_split.
        rewrite (rsum_0 (N - S p)).
        * rewrite Rplus_0_r. apply rsum_ext. intros r Hr. unfold g. rewrite Npad by lia.
          destruct (Nat.leb_spec r p); [reflexivity|lia].
        * intros r Hr. unfold g. rewrite Npad by lia. destruct (Nat.leb_spec (S p + r) p); [lia|]. ring.
      + intros j Hj Ho. rewrite bs_support by lia. ring.
  Qed.

  (** nurbs_curve.rs:772-798: whatever an exact solver returns, the closed curve visits the points in
      order, at the accumulated steps, and is back at the first one at the end of its domain *)
  Theorem periodic_interpolate_passes solve D pts p st :
    exact_solver solve -> 0 < eps -> (1 <= D)%nat -> (1 <= p)%nat -> (p + 1 <= length pts)%nat ->
    Forall (fun q => length q = (D - 1)%nat) pts -> distinct_loop pts ->
    forall c, try_periodic_interpolate solve D pts p st = Ok c ->
      curve_ok c /\ cdim c = D /\ cdeg c = p /\ length (cpts c) = (length pts + p)%nat /\
      dom1 c = dom0 c + rsum (length pts) (pstep st pts) /\
      (forall i, (i < length pts)%nat -> point_at c (dom0 c + rsum i (pstep st pts)) = Ok (nth i pts [])) /\
      (eps <= rsum (length pts) (pstep st pts) ->
         first_point c = Ok (nth 0 pts []) /\ end_point c = Ok (nth 0 pts [])).
  Proof.
    intros Hs He HD Hp Hn Hl Hd c E. unfold try_periodic_interpolate in E. apply bind_ok in E. destruct E as ((q & k) & E & Ec).
    unfold try_periodic_interpolate_control_points in E. destruct (Nat.ltb_spec (length pts) (p + 1)); [lia|].
    rewrite (parameterize_eq (D - 1)) in E by (auto; lia). cbn [bind] in E.
    destruct (periodic_knots_eq st pts p Hp Hn Hd) as (K & EK & LK & HK & HK0 & HK1). rewrite EK in E. cbn [bind] in E.
    set (n := length pts) in *.
    rewrite usub_ok in E by lia. cbn [bind] in E. rewrite usub_ok in E by lia. cbn [bind] in E.
    rewrite usub_ok in E by lia. cbn [bind] in E. replace (length K - p - 2)%nat with (n + p - 1)%nat in E by lia.
    apply bind_ok in E. destruct E as (rows & Er & E). apply bind_ok in E. destruct E as (cp & Es & E).
    apply bind_ok in E. destruct E as (ex & Ex & E). injection E as <- <-.
    assert (Hmono : forall i, (i < n + 2 * p)%nat -> kf K i <= kf K (S i)).
    { intros i Hi. destruct i as [|i]; [exact HK0|]. destruct (Nat.eq_dec (S (S i)) (n + 2 * p)) as [G|G].
      - rewrite G. replace (S i) with (n + 2 * p - 1)%nat by lia. exact HK1.
      - rewrite !HK by lia. apply loopk_mono; auto. fold n. lia. }
    assert (Hsort : Sorted Rle K).
    { apply mono_sorted. intros i Hi. rewrite <- !(kf_nth _ _ 0) by lia. apply Hmono. lia. }
    assert (Hk : knots_ok p (n + p - 1) K).
    { constructor; auto; try lia.
      - rewrite !HK by lia. rewrite (Nat.add_1_r p). apply loopk_lt; auto; fold n; lia.
      - rewrite !HK by lia. rewrite (Nat.add_1_r (n + p - 1)). apply loopk_lt; auto; fold n; lia. }
    pose proof (mapM_length _ _ _ Er) as Lr. rewrite seq_length in Lr.
    assert (Row : forall i, (i < n)%nat -> exists s, find_span K (n + p - 1) p (kf K (i + p)) = Ok s /\
      length (nth i rows []) = n /\
      forall x, rsum n (fun j => nth j (nth i rows []) 0 * x j) =
                rsum (n + p) (fun j => bs (kf K) s p j (kf K (i + p)) * x (j mod n)%nat)).
    { intros i Hi. destruct (find_span_real eps maxv K p (n + p - 1) (kf K (i + p)) Hk He) as (s & Ef & Hsr & Hne & _).
      destruct (periodic_row_real K p n i s Hk Hn Hi Ef Hsr Hne) as (row & Erow & Lrow & Hrow).
      pose proof (mapM_at _ _ _ i 0%nat [] Er ltac:(rewrite seq_length; lia)) as F.
      rewrite seq_nth in F by lia. cbn [Nat.add] in F. rewrite Erow in F. injection F as F.
      exists s. rewrite <- F. auto. }
    destruct (solve_rows eps maxv solve rows pts cp (D - 1) Hs ltac:(fold n; lia) Hl ltac:(fold n; lia)) as (Lcp & Hcp & Hsys);
      [|exact Es|].
    { intros r Hr. destruct (In_nth _ _ [] Hr) as (i & Hi & <-). destruct (Row i ltac:(lia)) as (s & _ & L & _). lia. }
    fold n in Lcp, Hcp, Hsys.
    pose proof (mapM_length _ _ _ Ex) as Lex. rewrite seq_length in Lex.
    assert (Ncp : forall j, (j < n + p)%nat -> nth j (cp ++ ex) [] = nth (j mod n) cp []).
    { intros j Hj. destruct (Nat.lt_ge_cases j n) as [C|C].
      - rewrite app_nth1 by lia. now rewrite Nat.mod_small by lia.
      - rewrite app_nth2 by lia. rewrite Lcp.
        pose proof (mapM_at _ _ _ (j - n) 0%nat [] Ex ltac:(rewrite seq_length; lia)) as F.
        rewrite seq_nth in F by lia. cbn [Nat.add] in F. apply get_inv in F. destruct F as (_ & F). rewrite (F []).
        replace (j mod n)%nat with (j - n)%nat; [reflexivity|].
        replace j with (j - n + 1 * n)%nat at 2 by lia. rewrite Nat.mod_add by lia. now rewrite Nat.mod_small by lia. }
    rewrite (try_new_sorted eps maxv D p (cp ++ ex) K) in Ec;
      [|rewrite app_length; lia|rewrite app_length; lia|exact Hsort].
    injection Ec as <-.
    assert (Mod : forall j, (j mod n < n)%nat) by (intros j; apply Nat.mod_upper_bound; lia).
    set (c := MkCurve D p (cp ++ ex) K).
    assert (Lc : length (cpts c) = (n + p)%nat) by (cbn [c cpts]; rewrite app_length; lia).
    assert (Hc : curve_ok c).
    { constructor.
      - exact HD.
      - cbn [c cdim cpts]. apply Forall_forall. intros x Hx. destruct (In_nth _ _ [] Hx) as (j & Hj & <-).
        rewrite app_length in Hj. rewrite Ncp by lia. destruct (Hcp (j mod n)%nat (Mod j)) as (L & _). clear - L HD. lia.
      - rewrite Lc. cbn [c cdeg]. lia.
      - unfold clast. rewrite Lc. cbn [c cknots cdeg]. exact Hk. }
    assert (Ccp : forall l j, (j < n + p)%nat -> cpc c l j = rc l (nth (j mod n) cp [])).
    { intros l j Hj. unfold cpc. cbn [c cpts]. now rewrite Ncp. }
    assert (Hw : forall j, (j < length (cpts c))%nat -> cpc c (cdim c - 1) j = 1).
    { intros j Hj. rewrite Lc in Hj. rewrite Ccp by exact Hj. cbn [c cdim]. apply (Hcp (j mod n)%nat (Mod j)). }
    assert (D0 : dom0 c = loopk st pts p p) by (unfold dom0; cbn [c cknots cdeg]; apply HK; lia).
    assert (Dk : forall i, (i <= n)%nat -> dom0 c + rsum i (pstep st pts) = kf K (i + p)).
    { intros i Hi. rewrite HK by lia. rewrite (Nat.add_comm i p), loopk_at by (fold n; lia). now rewrite D0. }
    assert (D1 : dom1 c = dom0 c + rsum n (pstep st pts)).
    { rewrite Dk by lia. unfold dom1. rewrite Lc. reflexivity. }
    assert (P : forall i, (i < n)%nat -> point_at c (dom0 c + rsum i (pstep st pts)) = Ok (nth i pts [])).
    { intros i Hi. rewrite Dk by lia. destruct (Row i Hi) as (s & Ef & _ & Hrow).
      destruct (unit_point_at eps maxv c (kf K (i + p)) Hc He Hw) as (s' & x & Ef' & Hs' & Hne & Epx & Lx & Hx).
      rewrite Epx. f_equal. unfold clast in Ef'. rewrite Lc in Ef', Hx. cbn [c cknots cdeg cdim] in Ef', Lx, Hx.
      rewrite Ef in Ef'. injection Ef' as <-.
      apply (vec_ext _ _ (D - 1)); [exact Lx|rewrite Forall_forall in Hl; apply Hl, nth_In; exact Hi|].
      intros l Hll. rewrite Hx by exact Hll. rewrite <- (Hsys i l Hi Hll), Hrow. unfold piece. apply rsum_ext.
      intros j Hj. rewrite Ccp by exact Hj. reflexivity. }
    split; [exact Hc|]. split; [reflexivity|]. split; [reflexivity|]. split; [exact Lc|]. split; [exact D1|].
    split; [exact P|]. intros He2.
    unfold first_point, end_point. rewrite knots_domain_ok by exact Hc. cbn [bind].
    assert (P0 : point_at c (dom0 c) = Ok (nth 0 pts [])).
    { pose proof (P 0%nat ltac:(lia)) as F. cbn [rsum] in F. now rewrite Rplus_0_r in F. }
    split; [exact P0|]. rewrite <- P0.
    (* the two ends evaluate the same *)
    destruct (unit_point_at eps maxv c (dom0 c) Hc He Hw) as (s0 & x0 & Ef0 & Hs0 & Hne0 & Ep0 & Lx0 & Hx0).
    destruct (unit_point_at eps maxv c (dom1 c) Hc He Hw) as (s1 & x1 & Ef1 & Hs1 & Hne1 & Ep1 & Lx1 & Hx1).
    rewrite Ep0, Ep1. f_equal. apply (vec_ext _ _ (cdim c - 1)); [exact Lx1|exact Lx0|]. intros l Hll.
    rewrite Hx0, Hx1 by exact Hll.
    assert (Cl : clast c = (n + p - 1)%nat) by (unfold clast; now rewrite Lc).
    assert (K0 : dom0 c = kf K p) by reflexivity.
    assert (K1 : dom1 c = kf K (n + p)) by (unfold dom1; now rewrite Lc).
    assert (S0 : s0 = p).
    { destruct (find_span_real eps maxv K p (n + p - 1) (dom0 c) Hk He) as (s & Ef & Hsr & Hne & G).
      rewrite Cl in Ef0. cbn [c cknots cdeg] in Ef0. fold c in Ef0. rewrite Ef in Ef0. injection Ef0 as <-.
      destruct G as [(G & ->)|[(_ & G)|G]]; [|exact G|].
      - replace (n + p - 1 + 1)%nat with (n + p)%nat in G by lia. rewrite <- K1 in G. lra.
      - destruct (Nat.eq_dec s p) as [->|C]; [reflexivity|]. exfalso.
        pose proof (mono_le (kf K) (S p) s (sorted_mono _ Hsort) ltac:(lia)) as M.
        pose proof (ko_first _ _ _ Hk) as F. rewrite Nat.add_1_r in F. lra. }
    assert (S1 : s1 = (n + p - 1)%nat).
    { destruct (find_span_real eps maxv K p (n + p - 1) (dom1 c) Hk He) as (s & Ef & Hsr & Hne & G).
      rewrite Cl in Ef1. cbn [c cknots cdeg] in Ef1. fold c in Ef1. rewrite Ef in Ef1. injection Ef1 as <-.
      destruct G as [(_ & G)|[(G & ->)|G]]; [exact G| |].
      - lra.
      - exfalso. pose proof (mono_le (kf K) (S s) (n + p) (sorted_mono _ Hsort) ltac:(lia)) as M. lra. }
    subst s0 s1. change (cknots c) with K. change (cdeg c) with p. rewrite Lc.
    rewrite !piece_window by lia. replace (n + p - 1 - p)%nat with (n - 1)%nat by lia. rewrite Nat.sub_diag.
    set (L := loopk st pts p).
    assert (LM : mono L) by (apply loopk_mono; auto; fold n; lia).
    assert (W0 : forall i u, bs (kf K) p p i u = bs L p p i u).
    { intros i u. pose proof (bs_window L (kf K) 0 p p i u) as W. rewrite !Nat.add_0_r in W. apply W.
      intros j H1 H2. rewrite Nat.add_0_r. apply HK. lia. }
    assert (W1 : forall i u, bs (kf K) (n + p - 1) p i u = bs L (n + p - 1) p i u).
    { intros i u. pose proof (bs_window L (kf K) 0 (n + p - 1) p i u) as W. rewrite !Nat.add_0_r in W. apply W.
      intros j H1 H2. rewrite Nat.add_0_r. apply HK. lia. }
    assert (EL0 : dom0 c = L p) by exact D0.
    assert (EL1 : dom1 c = L (n + p)%nat) by (rewrite K1; apply HK; lia).
    rewrite rsum_S_l. rewrite (rsum_ext p _ (fun r => bs L p p r (dom0 c) * cpc c l r)).
    2:{ intros r Hr. rewrite W1. f_equal.
        - rewrite EL1. replace (n + p)%nat with (S (n + p - 1)) at 2 by lia.
          rewrite (bs_continuous L (n + p - 1) 1 p).
          + replace (n + p - 1 + 1)%nat with (p + n)%nat by lia.
            replace (n - 1 + S r)%nat with (r + n)%nat by lia. replace (S (n + p - 1)) with (p + n)%nat by lia.
            unfold L at 2. rewrite loopk_turn by (fold n; lia). fold n. fold L. rewrite EL0.
            replace (L p + rsum n (pstep st pts)) with (1 * L p + rsum n (pstep st pts)) by ring.
            rewrite (bs_window (fun j => 1 * L j + rsum n (pstep st pts)) L n p p r).
            * apply bs_affine; [lra|reflexivity].
            * intros j H1 H2. unfold L. rewrite loopk_turn by (fold n; lia). fold n. ring.
          + exact LM.
          + lia.
          + apply loopk_lt; auto; fold n; lia.
          + replace (n + p - 1 + 1)%nat with (n + p)%nat by lia. apply loopk_lt; auto; fold n; lia.
          + intros j Hj. f_equal. lia.
        - rewrite !Ccp by lia. f_equal. f_equal. replace (n - 1 + S r)%nat with (r + 1 * n)%nat by lia. apply Nat.mod_add. lia. }
    rewrite W1, EL1. replace (n + p)%nat with (S (n + p - 1)) at 2 by lia.
    rewrite (bs_continuous L (n + p - 1) 1 p).
    - rewrite bs_support by lia. rewrite Rmult_0_l, Rplus_0_l. cbn [rsum]. rewrite W0.
      assert (Z : bs L p p (0 + p) (dom0 c) = 0).
      { cbn [Nat.add]. rewrite EL0. destruct p as [|p']; [lia|]. rewrite bs_S.
        rewrite (bs_support L (S p') p' (S p' + 1)) by lia.
        unfold wl, quot0. destruct (Req_EM_T _ 0); unfold Rdiv;
          rewrite ?(Rminus_diag_eq (L (S p')) (L (S p'))) by reflexivity; lra. }
      rewrite Z, Rmult_0_l, Rplus_0_r. apply rsum_ext. intros r Hr. rewrite W0. reflexivity.
    - exact LM.
    - lia.
    - apply loopk_lt; auto; fold n; lia.
    - replace (n + p - 1 + 1)%nat with (n + p)%nat by lia. apply loopk_lt; auto; fold n; lia.
    - intros j Hj. f_equal. lia.
  Qed.

  Theorem periodic_interpolate_too_few solve D (pts : list (list R)) p st :
    (length pts < p + 1)%nat -> errs (try_periodic_interpolate solve D pts p st).
  Proof.
    intros H. unfold try_periodic_interpolate, try_periodic_interpolate_control_points.
    rewrite (proj2 (Nat.ltb_lt _ _) H). eexists. reflexivity.
  Qed.

  (** degree 0 panics: [degree - 1] underflows *)
  Theorem periodic_interpolate_degree_zero solve D (pts : list (list R)) st :
    (2 <= length pts)%nat -> panics (try_periodic_interpolate solve D pts 0 st).
  Proof.
    intros H. unfold try_periodic_interpolate, try_periodic_interpolate_control_points.
    destruct (Nat.ltb_spec (length pts) (0 + 1)); [lia|].
    assert (E : exists prm, parameterize st pts true = Ok prm).
    { unfold parameterize. destruct st; [|eexists; reflexivity|eexists; reflexivity]. cbn [bind]. rewrite usub_ok by lia. cbn [bind]. eexists. reflexivity. }
    destruct E as (prm & ->). eexists. reflexivity.
  Qed.
End Real.
