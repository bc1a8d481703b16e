(** * Regular sampling and regular tessellation of surfaces (C50), derivatives and normals (C48) *)
From Coq Require Import Reals Lra Lia ZArith Bool.
From Verif Require Import Base BaseFacts Scalar RSum BSplineSpec BSpline BSplineDeriv KnotModel KnotSpec KnotFacts
  KnotProofs VecFacts MiscModel CurveModel CurveSpec CurveProofs CurveGeom CurveShapes DerivKnot CurveDeriv
  SurfaceModel SurfaceSpec SurfaceProofs.
Open Scope R_scope.

Lemma mapM_ex {A B} (f : A -> Res B) (Q : A -> B -> Prop) l :
  (forall x, In x l -> exists y, f x = Ok y /\ Q x y) ->
  exists ys, mapM f l = Ok ys /\ Forall2 Q l ys.
Proof.
  induction l as [|x l IH]; intros H; cbn [mapM].
  - exists []. split; [reflexivity|constructor].
  - destruct (H x (or_introl eq_refl)) as (y & E & Hq).
    destruct IH as (ys & E' & F); [intros z Hz; apply H; now right|].
    exists (y :: ys). unfold mapM in *. cbn. rewrite E. cbn [bind]. rewrite E'. cbn [bind].
    split; [reflexivity|now constructor].
Qed.

Lemma Forall2_seq_nth {B} (Q : nat -> B -> Prop) n m ys d : Forall2 Q (seq n m) ys ->
  length ys = m /\ forall i, (i < m)%nat -> Q (n + i)%nat (nth i ys d).
Proof.
  revert n ys. induction m as [|m IH]; intros n ys H; cbn [seq] in H; inversion H; subst.
  - split; [reflexivity|intros; lia].
  - destruct (IH (S n) _ H4) as (L & V). split; [cbn [length]; lia|].
    intros [|i] Hi; cbn [nth]; [now rewrite Nat.add_0_r|].
    replace (n + S i)%nat with (S n + i)%nat by lia. apply V. lia.
Qed.

Section Real.
  Variables eps maxv : R.
  Local Hint Extern 0 (Scalar R) => exact (ROps eps maxv) : typeclass_instances.

  Lemma domain_ok k p n : knots_ok p n k -> domain k p = Ok (kf k p, kf k (S n)).
  Proof.
    intros H. pose proof (ko_len _ _ _ H) as Hl. unfold domain.
    rewrite get_kf by lia. cbn [bind]. rewrite usub_ok by lia. cbn [bind].
    rewrite usub_ok by lia. cbn [bind]. rewrite get_kf by lia. cbn [bind].
    do 3 f_equal. lia.
  Qed.

  Lemma advance_span_ok k p n u idx : knots_ok p n k -> (idx <= n)%nat -> kf k idx <= u ->
    exists j, advance_span k n u idx = Ok j /\ (idx <= j <= n)%nat /\ kf k j <= u /\
      (u < kf k (S j) \/ j = n).
  Proof.
    intros Hk Hi Hu. pose proof (ko_len _ _ _ Hk) as Hl. unfold advance_span.
    apply (while_rule (fun j => (idx <= j <= n)%nat /\ kf k j <= u) _ (fun j => (n - j)%nat)).
    - split; [lia|exact Hu].
    - lia.
    - intros j (Hj & Hlo). rewrite get_kf by lia. cbn [bind]. rs. rewrite Nat.add_1_r.
      destruct (Rleb_spec (kf k (S j)) u) as [C|C]; cbn [andb].
      + destruct (Nat.ltb_spec j n) as [D|D].
        * right. split; [reflexivity|]. eexists. split; [reflexivity|]. repeat split; auto; lia.
        * left. split; [reflexivity|]. repeat split; auto; try lia; right; lia.
      + left. split; [reflexivity|]. repeat split; auto; try lia; left; lra.
  Qed.

  (** parameter number [j] of a regular division *)
  Definition reg (a b : R) (divs j : nat) : R := a + INR j * ((b - a) / INR divs).

  Lemma reg_le a b divs j : a <= b -> (j <= divs)%nat -> a <= reg a b divs j <= b.
  Proof.
    intros Hab Hj. unfold reg. destruct (Nat.eq_dec divs 0) as [->|Hd].
    - replace j with 0%nat by lia. cbn [INR]. split; lra.
    - assert (Hp : 0 < INR divs) by (apply lt_0_INR; lia).
      pose proof (le_INR j divs Hj) as Hle. pose proof (pos_INR j) as H0.
      replace (INR j * ((b - a) / INR divs)) with (INR j / INR divs * (b - a)) by (field; lra).
      assert (Hq : 0 <= INR j / INR divs <= 1).
      { split.
        - apply Rmult_le_pos; [exact H0|]. left. now apply Rinv_0_lt_compat.
        - apply (Rmult_le_reg_r (INR divs)); [exact Hp|]. unfold Rdiv.
          rewrite Rmult_assoc, Rinv_l by lra. lra. }
      split; nra.
  Qed.
  Lemma reg_mono a b divs j : a <= b -> reg a b divs j <= reg a b divs (S j) \/ divs = 0%nat.
  Proof.
    intros Hab. destruct (Nat.eq_dec divs 0) as [|Hd]; [now right|left]. unfold reg.
    assert (Hp : 0 < INR divs) by (apply lt_0_INR; lia). rewrite S_INR.
    assert (0 <= (b - a) / INR divs).
    { apply Rmult_le_pos; [lra|]. left. now apply Rinv_0_lt_compat. }
    nra.
  Qed.

  (** the loop shared by the two regularly spaced evaluations *)
  Lemma regular_loop {B} (d : B) k p n divs (F : nat -> R -> Res B) (Q : nat -> R -> B -> Prop) :
    knots_ok p n k -> eps_ok eps p n k ->
    (forall sp u, (p <= sp <= n)%nat -> in_span k n sp u -> exists b, F sp u = Ok b /\ Q sp u b) ->
    exists spans bases idx' u',
      (idx <- find_span k n p (kf k p) ;;
       for_incl 0 divs (fun _ '(spans, bases, idx, u) =>
        idx <- advance_span k n u idx ;;
        b <- F idx u ;;
        Ok (spans ++ [idx], bases ++ [b], idx, sadd u (sdiv (ssub (kf k (S n)) (kf k p)) (sofnat divs))))
        ([], [], idx, kf k p)) = Ok (spans, bases, idx', u') /\
      length spans = S divs /\ length bases = S divs /\
      forall j, (j <= divs)%nat ->
        (p <= nth j spans 0%nat <= n)%nat /\
        in_span k n (nth j spans 0%nat) (reg (kf k p) (kf k (S n)) divs j) /\
        Q (nth j spans 0%nat) (reg (kf k p) (kf k (S n)) divs j) (nth j bases d).
  Proof.
    intros Hk He HF. pose proof (ko_len _ _ _ Hk) as Hl. pose proof (ko_pn _ _ _ Hk) as Hpn.
    assert (Hm : mono (kf k)) by (apply sorted_mono, Hk).
    assert (Hab : kf k p <= kf k (S n)) by (apply mono_le; auto; lia).
    destruct (find_span_brackets eps maxv k p n (kf k p) Hk He) as (s0 & E0 & Hs0 & I0).
    { rewrite Nat.add_1_r. lra. }
    rewrite E0. cbn [bind].
    set (J := fun j (st : list nat * list B * nat * R) => let '(spans, bases, idx, u) := st in
      length spans = j /\ length bases = j /\ u = reg (kf k p) (kf k (S n)) divs j /\
      (p <= idx <= n)%nat /\ ((j <= divs)%nat -> kf k idx <= u) /\
      forall j', (j' < j)%nat ->
        (p <= nth j' spans 0%nat <= n)%nat /\
        in_span k n (nth j' spans 0%nat) (reg (kf k p) (kf k (S n)) divs j') /\
        Q (nth j' spans 0%nat) (reg (kf k p) (kf k (S n)) divs j') (nth j' bases d)).
    match goal with |- context [for_incl 0 divs ?g ?x] =>
      destruct (for_incl_rule J 0 divs g x) as ([[[spans bases] idx'] u'] & E & L1 & L2 & _ & _ & _ & V) end.
    - lia.
    - cbn [J]. split; [reflexivity|]. split; [reflexivity|]. split; [unfold reg; cbn [INR]; ring|].
      split; [lia|]. split; [intros _; apply I0|intros; lia].
    - intros j [[[spans bases] idx] u] Hj (L1 & L2 & Eu & Hidx & Hlo & V).
      pose proof (reg_le _ _ divs j Hab ltac:(lia)) as Hr. rewrite <- Eu in Hr.
      destruct (advance_span_ok k p n u idx Hk ltac:(lia) (Hlo ltac:(lia))) as (i' & Ei & Hi & Hlo' & Hor).
      rewrite Ei. cbn [bind].
      assert (Hin : in_span k n i' u).
      { unfold in_span. destruct Hor as [G|G].
        - split; [lra|]. split; [exact Hlo'|now left].
        - subst i'. pose proof (ko_last _ _ _ Hk) as Kl. rewrite Nat.add_1_r in Kl.
          split; [exact Kl|]. split; [exact Hlo'|]. destruct (Rlt_dec u (kf k (S n))); [now left|right].
          split; [reflexivity|lra]. }
      destruct (HF i' u ltac:(lia) Hin) as (b & Eb & Qb). rewrite Eb. cbn [bind].
      eexists. split; [reflexivity|]. cbn [J].
      split; [rewrite app_length; cbn [length]; lia|]. split; [rewrite app_length; cbn [length]; lia|].
      rs. rewrite sofnat_INR.
      assert (Eu' : u + (kf k (S n) - kf k p) / INR divs = reg (kf k p) (kf k (S n)) divs (S j)).
      { rewrite Eu. unfold reg. rewrite S_INR. ring. }
      split; [exact Eu'|]. split; [lia|]. split.
      + intros Hd. rewrite Eu'. destruct (reg_mono (kf k p) (kf k (S n)) divs j Hab) as [G|G]; [|lia].
        rewrite <- Eu in G. lra.
      + intros j' Hj'. destruct (Nat.eq_dec j' j) as [->|].
        * rewrite !app_nth2 by lia. rewrite L1, L2, Nat.sub_diag. cbn [nth]. rewrite <- Eu.
          split; [lia|]. split; auto.
        * rewrite !app_nth1 by lia. apply V. lia.
    - exists spans, bases, idx', u'. split; [exact E|]. split; [exact L1|]. split; [exact L2|].
      intros j Hj. apply V. lia.
  Qed.

  Lemma regularly_spaced_span_ok k p n divs : knots_ok p n k ->
    regularly_spaced_span k p divs =
      Ok (kf k p, kf k (S n), sdiv (ssub (kf k (S n)) (kf k p)) (sofnat divs), n).
  Proof.
    intros Hk. pose proof (ko_len _ _ _ Hk) as Hl. unfold regularly_spaced_span.
    rewrite usub_ok by lia. cbn [bind]. rewrite usub_ok by lia. cbn [bind].
    rewrite (domain_ok k p n Hk). cbn [bind]. do 2 f_equal. lia.
  Qed.

  Theorem regular_basis_spec k p n divs : knots_ok p n k -> eps_ok eps p n k ->
    exists spans bases, regularly_spaced_basis_functions k p divs = Ok (spans, bases) /\
      length spans = S divs /\ length bases = S divs /\
      forall j, (j <= divs)%nat ->
        (p <= nth j spans 0%nat <= n)%nat /\
        in_span k n (nth j spans 0%nat) (reg (kf k p) (kf k (S n)) divs j) /\
        length (nth j bases []) = S p /\
        forall r, (r <= p)%nat -> nth r (nth j bases []) 0 =
          bs (kf k) (nth j spans 0%nat) p (nth j spans 0%nat - p + r) (reg (kf k p) (kf k (S n)) divs j).
  Proof.
    intros Hk He. unfold regularly_spaced_basis_functions.
    rewrite (regularly_spaced_span_ok k p n divs Hk). cbn [bind].
    destruct (regular_loop [] k p n divs (fun idx u => basis_functions k idx u p)
      (fun sp u b => length b = S p /\ forall r, (r <= p)%nat -> nth r b 0 = bs (kf k) sp p (sp - p + r) u)
      Hk He) as (spans & bases & i' & u' & E & L1 & L2 & V).
    { intros sp u Hsp Hin. destruct (basis_functions_real eps maxv k sp p u) as (b & Eb & Lb & Vb).
      - apply sorted_mono, Hk.
      - apply Hin.
      - lia.
      - pose proof (ko_len _ _ _ Hk). lia.
      - exists b. auto. }
    destruct (find_span k n p (kf k p)) as [idx|e|e|] eqn:Ef; cbn [bind] in E |- *; try discriminate.
    rewrite E. cbn [bind]. exists spans, bases. auto.
  Qed.

  Theorem regular_derivative_basis_spec k p n divs : knots_ok p n k -> eps_ok eps p n k ->
    exists spans bases, regularly_spaced_derivative_basis_functions k p divs = Ok (spans, bases) /\
      length spans = S divs /\ length bases = S divs /\
      forall j, (j <= divs)%nat ->
        (p <= nth j spans 0%nat <= n)%nat /\
        in_span k n (nth j spans 0%nat) (reg (kf k p) (kf k (S n)) divs j) /\
        shape (S n) (S p) (nth j bases []) /\
        forall m r, (m <= n)%nat -> (r <= p)%nat -> at2 (nth j bases []) m r =
          dbs (kf k) (nth j spans 0%nat) p m (nth j spans 0%nat - p + r) (reg (kf k p) (kf k (S n)) divs j).
  Proof.
    intros Hk He. unfold regularly_spaced_derivative_basis_functions.
    rewrite (regularly_spaced_span_ok k p n divs Hk). cbn [bind].
    destruct (regular_loop [] k p n divs (fun idx u => derivative_basis_functions k idx u p n)
      (fun sp u b => shape (S n) (S p) b /\
         forall m r, (m <= n)%nat -> (r <= p)%nat -> at2 b m r = dbs (kf k) sp p m (sp - p + r) u)
      Hk He) as (spans & bases & i' & u' & E & L1 & L2 & V).
    { intros sp u Hsp Hin. apply (derivative_basis_spec eps maxv k sp p n u).
      - apply sorted_mono, Hk.
      - apply Hin.
      - lia.
      - pose proof (ko_len _ _ _ Hk). lia. }
    destruct (find_span k n p (kf k p)) as [idx|e|e|] eqn:Ef; cbn [bind] in E |- *; try discriminate.
    rewrite E. cbn [bind]. exists spans, bases. auto.
  Qed.

  (** ** Sampled points: entry (i, j) is the surface at the (i, j)-th parameters *)
  Definition gridu (s : Surf R) (divs i : nat) : R := reg (u0 s) (u1 s) divs i.
  Definition gridv (s : Surf R) (divs j : nat) : R := reg (v0 s) (v1 s) divs j.

  Lemma u01 s : surf_ok s -> u0 s <= u1 s.
  Proof.
    intros H. pose proof (so_u s H). unfold u0, u1. apply mono_le; [apply sorted_mono, (so_uk s H)|lia].
  Qed.
  Lemma v01 s : surf_ok s -> v0 s <= v1 s.
  Proof.
    intros H. pose proof (so_v s H). unfold v0, v1. apply mono_le; [apply sorted_mono, (so_vk s H)|lia].
  Qed.
  Lemma grid_dom s du dv i j : surf_ok s -> (i <= du)%nat -> (j <= dv)%nat ->
    in_dom s (gridu s du i) (gridv s dv j).
  Proof.
    intros H Hi Hj. split; apply reg_le; auto; [now apply u01|now apply v01].
  Qed.

  Theorem regular_sample_points_spec s du dv : surf_ok s -> surf_eps eps s ->
    (forall i j, (i <= du)%nat -> (j <= dv)%nat -> swfun s (gridu s du i) (gridv s dv j) <> 0) ->
    exists g, regular_sample_points s du dv = Ok g /\ length g = S du /\
      forall i, (i <= du)%nat -> length (nth i g []) = S dv /\
        forall j, (j <= dv)%nat ->
          surf_point_at s (gridu s du i) (gridv s dv j) = Ok (nth j (nth i g []) []).
  Proof.
    intros H (Eu & Ev) Hw. pose proof (so_u s H) as Hu. pose proof (so_v s H) as Hv.
    assert (S1 : S (nrow s - 1) = nrow s) by lia. assert (S2 : S (ncol s - 1) = ncol s) by lia.
    unfold regular_sample_points.
    destruct (regular_basis_spec (suk s) (sdu s) (nrow s - 1) du (so_uk s H) Eu)
      as (spu & bu & E1 & L1 & L1' & V1). rewrite S1 in V1.
    destruct (regular_basis_spec (svk s) (sdv s) (ncol s - 1) dv (so_vk s H) Ev)
      as (spv & bv & E2 & L2 & L2' & V2). rewrite S2 in V2.
    rewrite E1. cbn [bind]. rewrite E2. cbn [bind].
    match goal with |- exists g, mapM ?f _ = _ /\ _ =>
      destruct (mapM_ex f (fun i row => length row = S dv /\
        forall j, (j <= dv)%nat -> surf_point_at s (gridu s du i) (gridv s dv j) = Ok (nth j row []))
        (seq 0 (du + 1))) as (g & E & F) end.
    - intros i Hi. apply in_seq in Hi.
      match goal with |- exists g, mapM ?f _ = _ /\ _ =>
        destruct (mapM_ex f (fun j p => surf_point_at s (gridu s du i) (gridv s dv j) = Ok p)
          (seq 0 (dv + 1))) as (row & E & F) end.
      + intros j Hj. apply in_seq in Hj.
        rewrite (get_ok spu i 0%nat) by lia. cbn [bind]. rewrite (get_ok spv j 0%nat) by lia. cbn [bind].
        rewrite (get_ok bu i []) by lia. cbn [bind]. rewrite (get_ok bv j []) by lia. cbn [bind].
        destruct (V1 i ltac:(lia)) as (A1 & A2 & A3 & A4). destruct (V2 j ltac:(lia)) as (B1 & B2 & B3 & B4).
        unfold surf_point_given. rewrite usub_ok by lia. cbn [bind]. rewrite usub_ok by lia. cbn [bind].
        destruct (surf_combine_spec eps maxv s (nth i spu 0%nat - sdu s) (nth j spv 0%nat - sdv s)
          (nth i bu []) (nth j bv []) H) as (p & Ep & Lp & Hp); auto; try lia.
        rewrite Ep. cbn [bind].
        assert (Hp' : forall c, rc c p = shcoord s c (gridu s du i) (gridv s dv j)).
        { intros c. rewrite Hp. rewrite <- (win2_full s c (nth i spu 0%nat) (nth j spv 0%nat)) by auto.
          apply win2_ext; intros; [apply A4|apply B4]; lia. }
        destruct (surf_point_spec eps maxv s (gridu s du i) (gridv s dv j) H (conj Eu Ev)) as (q & Eq & Lq & Hq).
        { apply grid_dom; auto; lia. }
        assert (p = q) as ->.
        { apply (vec_ext p q (sdim s)); auto. intros c Hc. now rewrite Hp', Hq. }
        assert (Ew : coord (sdim s - 1) q = swfun s (gridu s du i) (gridv s dv j))
          by (rewrite coord_rc; apply Hq).
        unfold surf_point_at. rewrite Eq. cbn [bind]. unfold dehomogenize. rewrite Ew. rs.
        destruct (Reqb_spec (swfun s (gridu s du i) (gridv s dv j)) 0) as [C|_].
        { exfalso. revert C. apply Hw; lia. }
        cbn [unwrap]. eauto.
      + exists row. split; [exact E|]. destruct (Forall2_seq_nth _ _ _ _ [] F) as (L & V).
        split; [lia|]. intros j Hj. apply (V j). lia.
    - exists g. split; [exact E|]. destruct (Forall2_seq_nth _ _ _ _ [] F) as (L & V).
      split; [lia|]. intros i Hi. apply (V i). lia.
  Qed.
End Real.
