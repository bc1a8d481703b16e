(** * Interpolation succeeds, and the interpolating curve is the only one: the linear system is never singular *)
From Coq Require Import Reals Lra Lia Psatz Sorted String List.
From Verif Require Import Base BaseFacts Scalar RSum BSplineSpec BSpline KnotModel KnotSpec KnotFacts KnotProofs VecFacts MiscModel
  CurveModel CurveSpec CurveProofs CurveGeom CurveGeom2 CurveShapes InterpProofs SchoenbergWhitney.
Import ListNotations.
Open Scope list_scope. Open Scope R_scope.

(** the second half of the contract of the linear solver: it gives up on singular systems only *)
Definition complete_solver (solve : list (list R) -> list R -> option (list R)) : Prop :=
  forall m b, (forall r, In r m -> length r = length m) -> length b = length m ->
    (forall x : nat -> R, (forall i, (i < length m)%nat -> rsum (length m) (fun j => nth j (nth i m []) 0 * x j) = 0) ->
       forall j, (j < length m)%nat -> x j = 0) ->
    exists x, solve m b = Some x.

(** ** Such a solver exists: elimination with a search for a nonzero pivot *)
Section Gauss.
  (** the first row whose leading entry is not zero, and the other rows *)
  Fixpoint gpick (rows : list (list R)) : option (list R * list (list R)) :=
    match rows with
    | [] => None
    | r :: rest => if Req_EM_T (hd 0 r) 0 then match gpick rest with Some (q, o) => Some (q, r :: o) | None => None end else Some (r, rest)
    end.
  (** [n] unknowns; a row holds [n] coefficients and the right-hand side *)
  Fixpoint gelim (n : nat) (rows : list (list R)) : option (list R) :=
    match n with
    | O => Some []
    | S n' =>
        match gpick rows with
        | None => None
        | Some (r, rest) =>
            match gelim n' (map (fun q => map (fun j => nth (S j) q 0 - hd 0 q / hd 0 r * nth (S j) r 0) (seq 0 (S n'))) rest) with
            | None => None
            | Some x => Some ((nth (S n') r 0 - rsum n' (fun j => nth (S j) r 0 * nth j x 0)) / hd 0 r :: x)
            end
        end
    end.
  Definition gsolve (m : list (list R)) (b : list R) : option (list R) :=
    gelim (length m) (map (fun i => nth i m [] ++ [nth i b 0]) (seq 0 (length m))).

  Lemma gpick_none rows : gpick rows = None -> forall r, In r rows -> hd 0 r = 0.
  Proof.
    induction rows as [|a rows IH]; intros E r Hr; [contradiction|]. cbn [gpick] in E. destruct (Req_EM_T (hd 0 a) 0) as [Z|Z]; [|discriminate].
    destruct (gpick rows) as [[q o]|] eqn:G; [discriminate|]. destruct Hr as [<-|Hr]; [exact Z|]. apply IH; [reflexivity|exact Hr].
  Qed.
  Lemma gpick_some rows : forall q o, gpick rows = Some (q, o) -> hd 0 q <> 0 /\ length rows = S (length o) /\ forall r, In r rows <-> r = q \/ In r o.
  Proof.
    induction rows as [|a rows IH]; intros q o E; [discriminate|]. cbn [gpick] in E. destruct (Req_EM_T (hd 0 a) 0) as [Z|Z].
    - destruct (gpick rows) as [[q' o']|] eqn:G; [|discriminate]. injection E as <- <-. destruct (IH q' o' eq_refl) as (A & B & C).
      split; [exact A|]. split; [cbn [length]; lia|]. intros r. cbn [In]. rewrite C. intuition.
    - injection E as <- <-. split; [exact Z|]. split; [reflexivity|]. intros r. cbn [In]. intuition.
  Qed.

  Lemma hd_nth (r : list R) : hd 0 r = nth 0 r 0.
  Proof. destruct r; reflexivity. Qed.

  Lemma gelim_exact : forall n rows x, gelim n rows = Some x -> length rows = n ->
    length x = n /\ forall r, In r rows -> rsum n (fun j => nth j r 0 * nth j x 0) = nth n r 0.
  Proof.
    induction n as [|n IH]; intros rows x E L.
    - injection E as <-. split; [reflexivity|]. intros r Hr. destruct rows; [contradiction|discriminate].
    - cbn [gelim] in E. destruct (gpick rows) as [[q o]|] eqn:G; [|discriminate].
      set (red := fun q0 => map (fun j => nth (S j) q0 0 - hd 0 q0 / hd 0 q * nth (S j) q 0) (seq 0 (S n))) in E.
      change (match gelim n (map red o) with None => None | Some x0 => Some ((nth (S n) q 0 - rsum n (fun j => nth (S j) q 0 * nth j x0 0)) / hd 0 q :: x0) end = Some x) in E.
      destruct (gelim n (map red o)) as [y|] eqn:Gy; [|discriminate]. injection E as <-.
      destruct (gpick_some rows q o G) as (Hq & Hl & Hin).
      destruct (IH (map red o) y Gy ltac:(rewrite map_length; lia)) as (Ly & Hy). split; [cbn [length]; lia|].
      assert (Q : rsum (S n) (fun j => nth j q 0 * nth j ((nth (S n) q 0 - rsum n (fun j => nth (S j) q 0 * nth j y 0)) / hd 0 q :: y) 0) = nth (S n) q 0).
      { rewrite rsum_S_l. cbn [nth]. rewrite <- hd_nth. field. exact Hq. }
      intros r Hr. apply Hin in Hr. destruct Hr as [->|Hr]; [exact Q|].
      specialize (Hy (red r) (in_map red o r Hr)).
      assert (N : forall j, (j <= n)%nat -> nth j (red r) 0 = nth (S j) r 0 - hd 0 r / hd 0 q * nth (S j) q 0).
      { intros j Hj. unfold red. rewrite (nth_map_lt _ _ j 0%nat) by (rewrite seq_length; lia). rewrite seq_nth by lia. reflexivity. }
      rewrite N in Hy by lia.
      rewrite (rsum_ext n _ (fun j => nth (S j) r 0 * nth j y 0 - hd 0 r / hd 0 q * (nth (S j) q 0 * nth j y 0))) in Hy by (intros j Hj; rewrite N by lia; ring).
      rewrite rsum_minus, rsum_scal in Hy. rewrite rsum_S_l. cbn [nth]. rewrite <- hd_nth.
      match goal with |- ?A + ?B = ?C => assert (HB : B = nth (S n) r 0 - hd 0 r / hd 0 q * nth (S n) q 0 + hd 0 r / hd 0 q * rsum n (fun j => nth (S j) q 0 * nth j y 0)) by lra; rewrite HB end.
      field. exact Hq.
  Qed.

  Lemma gelim_complete : forall n rows, length rows = n ->
    (forall x : nat -> R, (forall r, In r rows -> rsum n (fun j => nth j r 0 * x j) = 0) -> forall j, (j < n)%nat -> x j = 0) ->
    exists x, gelim n rows = Some x.
  Proof.
    induction n as [|n IH]; intros rows L K; [exists []; reflexivity|]. cbn [gelim]. destruct (gpick rows) as [[q o]|] eqn:G.
    - set (red := fun q0 => map (fun j => nth (S j) q0 0 - hd 0 q0 / hd 0 q * nth (S j) q 0) (seq 0 (S n))).
      destruct (gpick_some rows q o G) as (Hq & Hl & Hin).
      destruct (IH (map red o)) as (x & Ex); [rewrite map_length; lia| |].
      + intros y Hy. set (z := fun j => match j with O => - (rsum n (fun j => nth (S j) q 0 * y j)) / hd 0 q | S j => y j end).
        assert (Z : forall j, (j < S n)%nat -> z j = 0).
        { apply K. intros r Hr. apply Hin in Hr. rewrite rsum_S_l. cbn [z]. rewrite <- hd_nth. destruct Hr as [->|Hr]; [field; exact Hq|].
          specialize (Hy (red r) (in_map red o r Hr)).
          assert (N : forall j, (j <= n)%nat -> nth j (red r) 0 = nth (S j) r 0 - hd 0 r / hd 0 q * nth (S j) q 0).
          { intros j Hj. unfold red. rewrite (nth_map_lt _ _ j 0%nat) by (rewrite seq_length; lia). rewrite seq_nth by lia. reflexivity. }
          rewrite (rsum_ext n _ (fun j => nth (S j) r 0 * y j - hd 0 r / hd 0 q * (nth (S j) q 0 * y j))) in Hy by (intros j Hj; rewrite N by lia; ring).
          rewrite rsum_minus, rsum_scal in Hy.
          match goal with |- ?A + ?B = 0 => assert (HB : B = hd 0 r / hd 0 q * rsum n (fun j => nth (S j) q 0 * y j)) by lra; rewrite HB end. field. exact Hq. }
        intros j Hj. apply (Z (S j)). lia.
      + exists ((nth (S n) q 0 - rsum n (fun j => nth (S j) q 0 * nth j x 0)) / hd 0 q :: x).
        change (match gelim n (map red o) with None => None | Some x0 => Some ((nth (S n) q 0 - rsum n (fun j => nth (S j) q 0 * nth j x0 0)) / hd 0 q :: x0) end = Some ((nth (S n) q 0 - rsum n (fun j => nth (S j) q 0 * nth j x 0)) / hd 0 q :: x)).
        rewrite Ex. reflexivity.
    - exfalso. pose proof (K (fun j => match j with O => 1 | _ => 0 end)) as C.
      assert (1 = 0); [|lra]. apply (C) with (j := 0%nat); [|lia]. intros r Hr. rewrite rsum_S_l. rewrite <- hd_nth. rewrite (gpick_none rows G r Hr).
      rewrite rsum_0; [ring|]. intros i _. ring.
  Qed.

  Lemma gsolve_rows m b i : (i < length m)%nat -> length (nth i m []) = length m ->
    In (nth i m [] ++ [nth i b 0]) (map (fun i => nth i m [] ++ [nth i b 0]) (seq 0 (length m))) /\
    nth (length m) (nth i m [] ++ [nth i b 0]) 0 = nth i b 0 /\ forall j, (j < length m)%nat -> nth j (nth i m [] ++ [nth i b 0]) 0 = nth j (nth i m []) 0.
  Proof.
    intros Hi L. split; [apply (in_map (fun i => nth i m [] ++ [nth i b 0])); apply in_seq; lia|]. split.
    - rewrite app_nth2 by lia. rewrite L, Nat.sub_diag. reflexivity.
    - intros j Hj. apply app_nth1. lia.
  Qed.

  Theorem gsolve_exact : exact_solver gsolve.
  Proof.
    intros m b x Hr Hb E. destruct (gelim_exact _ _ _ E) as (Lx & H); [rewrite map_length, seq_length; reflexivity|]. split; [exact Lx|].
    intros i Hi. destruct (gsolve_rows m b i Hi) as (I & N & J); [apply Hr, nth_In, Hi|]. rewrite <- N. rewrite <- (H _ I). apply rsum_ext. intros j Hj. rewrite J by exact Hj. reflexivity.
  Qed.

  Theorem gsolve_complete : complete_solver gsolve.
  Proof.
    intros m b Hr Hb K. apply gelim_complete; [rewrite map_length, seq_length; reflexivity|]. intros x H. apply K. intros i Hi.
    destruct (gsolve_rows m b i Hi) as (I & N & J); [apply Hr, nth_In, Hi|]. eapply eq_trans; [|exact (H _ I)]. apply rsum_ext. intros j Hj. rewrite J by exact Hj. reflexivity.
  Qed.
End Gauss.

Section Real.
  Variables eps maxv : R.
  Local Hint Extern 0 (Scalar R) => exact (ROps eps maxv) : typeclass_instances.

  Section Data.
    Variables (pts : list (list R)) (p : nat).
    Hypothesis Hd : distinct_steps pts.
    Hypothesis Hp : (1 <= p)%nat.
    Hypothesis Hn : (p + 1 <= length pts)%nat.
    Notation k := (iknots pts p).
    Notation n := (length pts - 1)%nat.

    Lemma iparam_le i j : (i <= j < length pts)%nat -> iparam pts i <= iparam pts j.
    Proof. intros H. destruct (Nat.eq_dec i j) as [->|N]; [lra|]. apply Rlt_le, iparam_lt; [exact Hd|lia]. Qed.

    Lemma iparam_range i : (i < length pts)%nat -> 0 <= iparam pts i <= 1.
    Proof.
      intros H. rewrite <- (iparam_0 pts), <- (iparam_1 pts Hd) by lia. split; apply iparam_le; lia.
    Qed.

    (** an averaged knot lies between the parameters it averages *)
    Lemma iknot_between i lo hi : (i + p <= length pts)%nat -> (forall j, (j < p)%nat -> lo <= iparam pts (i + j) <= hi) -> lo <= iknot pts p i <= hi.
    Proof.
      intros Hi H. unfold iknot. assert (P : 0 < INR p) by (apply lt_0_INR; lia). split.
      - apply (Rmult_le_reg_r (INR p)); [exact P|]. unfold Rdiv. rewrite Rmult_assoc, Rinv_l, Rmult_1_r by lra.
        rewrite Rmult_comm, <- rsum_const. apply rsum_le. intros j Hj. apply H. exact Hj.
      - apply (Rmult_le_reg_r (INR p)); [exact P|]. unfold Rdiv. rewrite Rmult_assoc, Rinv_l, Rmult_1_r by lra.
        rewrite (Rmult_comm hi), <- rsum_const. apply rsum_le. intros j Hj. apply H. exact Hj.
    Qed.

    (** the data parameters are well placed among the averaged knots *)
    Lemma iparam_placed j : (1 <= j <= n - 1)%nat -> kf k j < iparam pts j < kf k (j + p + 1).
    Proof.
      intros Hj. rewrite !iknots_kf by exact Hn. split.
      - destruct (Nat.leb_spec j p) as [C|C]; [rewrite <- (iparam_0 pts); apply iparam_lt; [exact Hd|lia]|].
        destruct (Nat.ltb_spec j (length pts)); [|lia].
        apply Rle_lt_trans with (iparam pts (j - 1)); [|apply iparam_lt; [exact Hd|lia]].
        apply (iknot_between (j - p) (iparam pts (j - p)) (iparam pts (j - 1))); [lia|]. intros i Hi. split; apply iparam_le; lia.
      - destruct (Nat.leb_spec (j + p + 1) p); [lia|]. destruct (Nat.ltb_spec (j + p + 1) (length pts)) as [C|C].
        + replace (j + p + 1 - p)%nat with (j + 1)%nat by lia.
          apply Rlt_le_trans with (iparam pts (j + 1)); [apply iparam_lt; [exact Hd|lia]|].
          apply (iknot_between (j + 1) (iparam pts (j + 1)) (iparam pts (j + p))); [lia|]. intros i Hi. split; apply iparam_le; lia.
        + rewrite <- (iparam_1 pts Hd) by lia. apply iparam_lt; [exact Hd|lia].
    Qed.

    Lemma iknots_interior : interior_cont p n (kf k).
    Proof.
      intros j H1 H2. apply Rlt_le_trans with (kf k (S j)); [apply iknots_step; try assumption; lia|].
      apply mono_le; [|lia]. apply sorted_mono. apply (ko_sorted _ _ _ (iknots_ok pts p Hd Hp Hn)).
    Qed.
    Lemma iknots_start j : (j <= p)%nat -> kf k j = kf k 0.
    Proof. intros H. rewrite !iknots_kf by exact Hn. rewrite (proj2 (Nat.leb_le j p) H). reflexivity. Qed.
    Lemma iknots_end j : (n + 1 <= j <= n + p + 1)%nat -> kf k j = kf k (S n).
    Proof.
      intros H. rewrite !iknots_kf by exact Hn. destruct (Nat.leb_spec j p), (Nat.leb_spec (S n) p); try lia.
      destruct (Nat.ltb_spec j (length pts)), (Nat.ltb_spec (S n) (length pts)); try lia. reflexivity.
    Qed.
    Lemma iknots_0 : kf k p = 0.
    Proof. rewrite iknots_kf by exact Hn. rewrite Nat.leb_refl. reflexivity. Qed.
    Lemma iknots_1 : kf k (S n) = 1.
    Proof. rewrite iknots_kf by exact Hn. destruct (Nat.leb_spec (S n) p); [lia|]. destruct (Nat.ltb_spec (S n) (length pts)); [lia|]. reflexivity. Qed.

    (** a spline on these knots is determined by its values at the data parameters *)
    Lemma data_unisolvent P : (forall i, (i < length pts)%nat -> sf k p n P (iparam pts i) = 0) -> forall j, (j < length pts)%nat -> P j = 0.
    Proof.
      intros Z j Hj. pose proof (iknots_ok pts p Hd Hp Hn) as Hk.
      assert (P0 : P 0%nat = 0).
      { pose proof (Z 0%nat ltac:(lia)) as E. replace (iparam pts 0) with (kf k p) in E by (rewrite iparam_0; exact iknots_0). unfold sf in E. change (kf k p) with (dom0 (spl k p n P)) in E.
        rewrite hcoord_start in E; [|apply spl_ok; [exact Hk|exact Hp]|exact iknots_start]. rewrite spl_cpc in E by lia. exact E. }
      assert (P1 : P n = 0).
      { pose proof (Z n ltac:(lia)) as E. replace (iparam pts n) with (kf k (S n)) in E by (rewrite iparam_1 by (try assumption; lia); exact iknots_1). unfold sf in E. rewrite <- (spl_dom1 k p n P) in E.
        rewrite hcoord_end in E; [rewrite spl_clast, spl_cpc in E by lia; exact E|apply spl_ok; [exact Hk|exact Hp]|].
        intros i Hi. rewrite spl_len in *. cbn [spl cdeg cknots] in *. apply iknots_end. lia. }
      destruct (le_lt_dec (length pts) 2) as [S2|S2].
      { destruct (Nat.eq_dec j 0) as [->|N]; [exact P0|]. replace j with n by lia. exact P1. }
      apply (schoenberg_whitney k p n Hk Hp iknots_interior iknots_start iknots_end (iparam pts)) with (w := n) (a := 1%nat) (b := (n - 1)%nat); try lia.
      - intros i Hi. apply iparam_placed. exact Hi.
      - intros i H1 H2. apply iparam_lt; [exact Hd|lia].
      - intros i Hi. replace i with 0%nat by lia. exact P0.
      - intros i Hi. replace i with n by lia. exact P1.
      - intros i Hi. apply Z. lia.
    Qed.

    (** the tolerance does not swallow the first or the last step *)
    Definition steps_above_eps : Prop := 0 < eps /\ eps <= iparam pts 1 /\ eps <= 1 - iparam pts (n - 1).

    Lemma data_eps : steps_above_eps -> eps_ok eps p n k.
    Proof.
      intros (E0 & E1 & E2). split; [exact E0|]. rewrite (Nat.add_1_r n), iknots_0, iknots_1, !iknots_kf by exact Hn. split.
      - destruct (Nat.leb_spec (p + 1) p); [lia|]. destruct (Nat.ltb_spec (p + 1) (length pts)) as [C|C].
        + replace (p + 1 - p)%nat with 1%nat by lia.
          pose proof (iknot_between 1 (iparam pts 1) 1 ltac:(lia)) as B. assert (iparam pts 1 <= iknot pts p 1 <= 1); [|lra]. apply B.
          intros j Hj. split; [apply iparam_le; lia|apply iparam_range; lia].
        + pose proof (iparam_range 1 ltac:(lia)). lra.
      - destruct (Nat.leb_spec n p) as [C|C].
        + pose proof (iparam_range 1 ltac:(lia)). lra.
        + destruct (Nat.ltb_spec n (length pts)) as [C2|C2]; [|lia].
          pose proof (iknot_between (n - p) 0 (iparam pts (n - 1)) ltac:(lia)) as B. assert (0 <= iknot pts p (n - p) <= iparam pts (n - 1)); [|lra]. apply B.
          intros j Hj. split; [apply iparam_range; lia|apply iparam_le; lia].
    Qed.

    (** a row of the matrix applied to coefficients is the value of the spline *)
    Lemma row_value i : steps_above_eps -> (i < length pts)%nat ->
      exists row, interp_row k n p (n - p) (iparam pts i) = Ok row /\ length row = length pts /\
        forall P, rsum (length pts) (fun j => nth j row 0 * P j) = sf k p n P (iparam pts i).
    Proof.
      intros He Hi. pose proof (iknots_ok pts p Hd Hp Hn) as Hk. pose proof (data_eps He) as He'.
      destruct (find_span_brackets eps maxv k p n (iparam pts i) Hk He') as (s & Ef & Hs & Hin).
      { rewrite (Nat.add_1_r n), iknots_0, iknots_1. apply iparam_range. exact Hi. }
      destruct (interp_row_real eps maxv k p n (iparam pts i) s Hk Ef Hs (proj1 Hin)) as (row & Er & Lr & Hr).
      exists row. split; [exact Er|]. split; [lia|]. intros P. unfold sf. rewrite <- (piece_hcoord (spl k p n P) s 0 (iparam pts i)).
      - unfold piece. rewrite spl_len. cbn [spl cknots cdeg]. replace (S n) with (length pts) by lia. apply rsum_ext. intros j Hj. rewrite Hr by lia. rewrite spl_cpc by lia. reflexivity.
      - apply spl_ok; [exact Hk|exact Hp].
      - rewrite spl_clast by exact Hp. exact Hin.
      - rewrite spl_clast by exact Hp. lia.
    Qed.
  End Data.

  (** *** Interpolation of distinct points succeeds, whatever the degree *)
  Theorem interpolate_succeeds solve D pts p :
    exact_solver solve -> complete_solver solve -> (1 <= D)%nat -> (1 <= p)%nat -> (p + 1 <= length pts)%nat ->
    Forall (fun q => length q = (D - 1)%nat) pts -> distinct_steps pts -> steps_above_eps pts ->
    exists c, try_interpolate solve D pts p = Ok c /\
      curve_ok c /\ cdim c = D /\ cdeg c = p /\ dom0 c = 0 /\ dom1 c = 1 /\
      forall i, (i < length pts)%nat -> point_at c (iparam pts i) = Ok (nth i pts []).
  Proof.
    intros Hs Hcs HD Hp Hn Hl Hd He.
    assert (G : exists c, try_interpolate solve D pts p = Ok c).
    { unfold try_interpolate, try_interpolate_control_points.
      destruct (Nat.ltb_spec (length pts) (p + 1)); [lia|].
      rewrite (chord_params_eq eps maxv (D - 1)) by (auto; lia). cbn [bind].
      rewrite averaged_knots_eq by (auto; lia). cbn [bind]. rewrite !usub_ok by lia. cbn [bind].
      replace (length pts - (p + 1))%nat with (length pts - 1 - p)%nat by lia.
      assert (R : exists rows, mapM (interp_row (iknots pts p) (length pts - 1) p (length pts - 1 - p)) (map (iparam pts) (seq 0 (length pts))) = Ok rows /\ length rows = length pts).
      { assert (Q : forall l, (forall i, In i l -> (i < length pts)%nat) -> exists rows, mapM (interp_row (iknots pts p) (length pts - 1) p (length pts - 1 - p)) (map (iparam pts) l) = Ok rows /\ length rows = length l).
        { induction l as [|i l IH]; intros B; [exists []; split; reflexivity|].
          destruct (row_value pts p Hd Hp Hn i He (B i (or_introl eq_refl))) as (row & Er & _). destruct IH as (rows & E & L); [intros x Hx; apply B; right; exact Hx|].
          exists (row :: rows). cbn [map mapM]. rewrite Er. cbn [bind]. rewrite E. split; [reflexivity|cbn [length]; lia]. }
        destruct (Q (seq 0 (length pts))) as (rows & E & L); [intros i Hi; apply in_seq in Hi; lia|]. rewrite seq_length in L. eauto. }
      destruct R as (rows & Er & Lr). rewrite Er. cbn [bind].
      assert (Row : forall i, (i < length pts)%nat -> length (nth i rows []) = length pts /\
        forall P, rsum (length pts) (fun j => nth j (nth i rows []) 0 * P j) = sf (iknots pts p) p (length pts - 1) P (iparam pts i)).
      { intros i Hi. pose proof (mapM_at _ _ _ i 0 [] Er ltac:(rewrite map_length, seq_length; lia)) as F.
        rewrite (nth_map_lt _ _ _ 0%nat) in F by (rewrite seq_length; lia). rewrite seq_nth in F by lia. cbn [Nat.add] in F.
        destruct (row_value pts p Hd Hp Hn i He Hi) as (row & Erow & L & V). rewrite Erow in F. injection F as F. rewrite <- F. split; [exact L|exact V]. }
      assert (Sq : forall r, In r rows -> length r = length rows).
      { intros r Hr. destruct (In_nth _ _ [] Hr) as (i & Hi & <-). destruct (Row i ltac:(lia)) as (L & _). lia. }
      destruct (solve_outcome eps maxv solve rows pts (D - 1)) as [(cp & E)|(E & l & Hll & El)].
      - intros b x C Hb. destruct (Hs rows b x Sq) as (L & _); [lia|exact Hb|lia].
      - lia.
      - exact Hl.
      - rewrite E. eexists. reflexivity.
      - exfalso. destruct (Hcs rows (map (coord l) pts) Sq) as (x & Ex); [rewrite map_length; lia| |rewrite El in Ex; discriminate].
        intros x Hx j Hj. rewrite Lr in *. apply (data_unisolvent pts p Hd Hp Hn x); [|exact Hj]. intros i Hi. destruct (Row i Hi) as (_ & V). rewrite <- V. apply Hx. exact Hi. }
    destruct G as (c & E). exists c. split; [exact E|]. apply (interpolate_passes eps maxv solve D pts p Hs (proj1 He) HD Hp Hn Hl Hd c E).
  Qed.

  (** *** and the answer does not depend on the solver: no other curve of this degree on these knots passes through the points *)
  Theorem interpolate_unique solve D pts p :
    exact_solver solve -> (1 <= D)%nat -> (1 <= p)%nat -> (p + 1 <= length pts)%nat ->
    Forall (fun q => length q = (D - 1)%nat) pts -> distinct_steps pts -> steps_above_eps pts ->
    forall c, try_interpolate solve D pts p = Ok c ->
    forall c', curve_ok c' -> cdim c' = D -> cdeg c' = p -> cknots c' = cknots c -> length (cpts c') = length pts ->
      (forall j, (j < length pts)%nat -> cpc c' (D - 1) j = 1) ->
      (forall i, (i < length pts)%nat -> point_at c' (iparam pts i) = Ok (nth i pts [])) -> c' = c.
  Proof.
    intros Hs HD Hp Hn Hl Hd He c E c' Hok HDim Hdeg Hkn Hlen Hw Hpass.
    pose proof (iknots_ok pts p Hd Hp Hn) as Hk.
    pose proof (interpolate_passes eps maxv solve D pts p Hs (proj1 He) HD Hp Hn Hl Hd c E) as (Ok1 & D1 & G1 & _ & _ & P1).
    assert (F : cknots c = iknots pts p /\ length (cpts c) = length pts /\ forall j, (j < length pts)%nat -> cpc c (D - 1) j = 1).
    { unfold try_interpolate in E. apply bind_ok in E. destruct E as ((q & kk) & E & Ec). injection Ec as <-. unfold try_interpolate_control_points in E.
      destruct (Nat.ltb_spec (length pts) (p + 1)); [lia|].
      rewrite (chord_params_eq eps maxv (D - 1)) in E by (auto; lia). cbn [bind] in E.
      rewrite averaged_knots_eq in E by (auto; lia). cbn [bind] in E. rewrite !usub_ok in E by lia. cbn [bind] in E.
      replace (length pts - (p + 1))%nat with (length pts - 1 - p)%nat in E by lia.
      apply bind_ok in E. destruct E as (rows & Er & E). apply bind_ok in E. destruct E as (cp & Es & E). injection E as <- <-.
      pose proof (mapM_length _ _ _ Er) as Lr. rewrite map_length, seq_length in Lr. cbn [cknots cpts].
      destruct (solve_rows eps maxv solve rows pts cp (D - 1) Hs ltac:(lia) Hl ltac:(lia)) as (Lcp & Hcp & _); [|exact Es|].
      { intros r Hr. destruct (In_nth _ _ [] Hr) as (i & Hi & <-).
        pose proof (mapM_at _ _ _ i 0 [] Er ltac:(rewrite map_length, seq_length; lia)) as F.
        rewrite (nth_map_lt _ _ _ 0%nat) in F by (rewrite seq_length; lia). rewrite seq_nth in F by lia. cbn [Nat.add] in F.
        destruct (row_value pts p Hd Hp Hn i He ltac:(lia)) as (row & Erow & L & _). rewrite Erow in F. injection F as F. rewrite <- F. lia. }
      split; [reflexivity|]. split; [exact Lcp|]. intros j Hj. unfold cpc. cbn [cpts]. apply Hcp. exact Hj. }
    destruct F as (K1 & L1 & W1).
    assert (V : forall d i l, curve_ok d -> cdim d = D -> cdeg d = p -> cknots d = iknots pts p -> length (cpts d) = length pts ->
      (forall j, (j < length pts)%nat -> cpc d (D - 1) j = 1) -> point_at d (iparam pts i) = Ok (nth i pts []) -> (i < length pts)%nat -> (l < D - 1)%nat ->
      sf (iknots pts p) p (length pts - 1) (cpc d l) (iparam pts i) = rc l (nth i pts [])).
    { intros d i l O1 O2 O3 O4 O5 O6 O7 Hi Hl'.
      destruct (unit_point_at eps maxv d (iparam pts i) O1 (proj1 He)) as (s & x & Ef & Hs' & Hne & Ex & Lx & Hx).
      { intros j Hj. rewrite O2. apply O6. lia. }
      rewrite O7 in Ex. injection Ex as <-. rewrite O2 in Hx. rewrite Hx by exact Hl'.
      destruct (row_value pts p Hd Hp Hn i He Hi) as (row & Er & Lr & VR). rewrite <- VR.
      unfold clast in Ef, Hs'. rewrite O3, O4, O5 in *.
      destruct (interp_row_real eps maxv (iknots pts p) p (length pts - 1) (iparam pts i) s Hk Ef Hs' Hne) as (row' & Er' & Lr' & Hr').
      rewrite Er in Er'. injection Er' as <-. unfold piece. apply rsum_ext. intros j Hj. rewrite Hr' by lia. reflexivity. }
    assert (Q : forall l j, (l < D - 1)%nat -> (j < length pts)%nat -> cpc c' l j = cpc c l j).
    { intros l j Hl' Hj. assert (cpc c' l j + - cpc c l j = 0); [|lra].
      apply (data_unisolvent pts p Hd Hp Hn (fun j => cpc c' l j + - cpc c l j)); [|exact Hj]. intros i Hi.
      rewrite sf_add by exact Hp. rewrite (V c' i l) by (try assumption; try (now rewrite Hkn); apply Hpass; exact Hi).
      assert (NG : forall P u, sf (iknots pts p) p (length pts - 1) (fun j => - P j) u = - sf (iknots pts p) p (length pts - 1) P u).
      { intros P u. assert (Z : sf (iknots pts p) p (length pts - 1) (fun j => P j + - P j) u = 0) by (apply sf_zero; [exact Hp|intros; lra]). rewrite sf_add in Z by exact Hp. lra. }
      rewrite NG. rewrite (V c i l) by (try assumption; apply P1; exact Hi). lra. }
    destruct c' as [D' p' P' k'], c as [D0 p0 P0 k0]. cbn [cdim cdeg cknots cpts] in *. subst D' D0 p' p0 k'. f_equal.
    apply (list_ext []); [lia|]. intros j Hj. rewrite Hlen in Hj.
    pose proof (co_pts _ Hok) as A1. pose proof (co_pts _ Ok1) as A2. cbn [cpts cdim] in A1, A2. rewrite Forall_forall in A1, A2.
    apply (vec_ext _ _ D); [apply A1, nth_In; lia|apply A2, nth_In; lia|]. intros l Hl'.
    destruct (Nat.eq_dec l (D - 1)) as [->|N]; [exact (eq_trans (Hw j Hj) (eq_sym (W1 j Hj)))|]. exact (Q l j ltac:(lia) Hj).
  Qed.
End Real.
