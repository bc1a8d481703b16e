(** * Trimming by curves in space, moving and turning trimmed surfaces *)
From Coq Require Import Reals Lra Lia List ZArith Bool Sorted.
From Verif Require Import Base BaseFacts Scalar RSum BSplineSpec BSpline KnotModel KnotFacts KnotSpec KnotProofs KnotMisc VecFacts MiscModel CurveModel CurveSpec CurveProofs CurveGeom CurveGeom2 CurveShapes
  NewtonProofs SurfaceModel SurfaceSpec SurfaceProofs SurfaceShapes BBoxModel SurfaceBoxModel SerdeModel IntersectModel RevolveTheorems TrimModel.
Import ListNotations.
Open Scope R_scope.

(** finite choice *)
Lemma choice_list {A} n (P : nat -> A -> Prop) (d : A) : (forall j, (j < n)%nat -> exists x, P j x) -> exists F, forall j, (j < n)%nat -> P j (F j).
Proof.
  induction n as [|n IH]; intros H; [exists (fun _ => d); lia|].
  destruct IH as (F & HF); [intros j Hj; apply H; lia|]. destruct (H n ltac:(lia)) as (x & Hx).
  exists (fun j => if (j =? n)%nat then x else F j). intros j Hj. destruct (Nat.eqb_spec j n) as [->|N]; [exact Hx|apply HF; lia].
Qed.

Section Real.
  Variables eps maxv : R.
  Local Hint Extern 0 (Scalar R) => exact (ROps eps maxv) : typeclass_instances.

  (** the surface is a flat patch parametrised without distortion: affine in its parameters *)
  Definition flat (s : Surf R) (o a b : list R) : Prop :=
    forall u v i, in_dom s u v -> (i < 3)%nat -> snurbs s i u v = rc i o + u * rc i a + v * rc i b.

  (** *** The mapped curve *)
  Lemma map_curve_ok (closest : list R -> Res (R * R)) c (uv : nat -> R * R) : curve_ok c -> pos_weights c -> cdim c = 4%nat ->
    (forall j, (j < length (cpts c))%nat -> closest (ctrl c j) = Ok (uv j)) ->
    exists c2, map_curve closest c = Ok c2 /\ cdim c2 = 3%nat /\ cdeg c2 = cdeg c /\ cknots c2 = cknots c /\ length (cpts c2) = length (cpts c) /\
      (forall j, (j < length (cpts c))%nat -> cpc c2 0 j = fst (uv j) * cpc c 3 j /\ cpc c2 1 j = snd (uv j) * cpc c 3 j /\ cpc c2 2 j = cpc c 3 j) /\
      curve_ok c2.
  Proof.
    intros Hc Hw Hd Hcl. set (n := length (cpts c)) in *.
    set (pts := map (fun j => uv_point (uv j) (cpc c 3 j)) (seq 0 n)).
    assert (Lp : length pts = n) by (unfold pts; now rewrite map_length, seq_length).
    exists (MkCurve 3 (cdeg c) pts (cknots c)). pose proof (curve_len c Hc) as Hl. pose proof (co_len c Hc) as Hn. fold n in Hl, Hn.
    assert (E : map_curve closest c = Ok (MkCurve 3 (cdeg c) pts (cknots c))).
    { unfold map_curve. destruct (dehom_points eps maxv c Hc Hw Hd) as (-> & Ew). cbn [bind]. rewrite Ew. fold n. rewrite combine_map.
      assert (G : forall l, (forall j, In j l -> (j < n)%nat) ->
        mapM (fun '(p, w) => uv <- closest p ;; Ok (uv_point uv w)) (map (fun x => (ctrl c x, cpc c 3 x)) l) = Ok (map (fun j => uv_point (uv j) (cpc c 3 j)) l)).
      { induction l as [|j l IH]; intros Hj; [reflexivity|]. set (f := fun '(p, w) => uv <- closest p ;; Ok (uv_point uv w)) in *.
        assert (Ef : f (ctrl c j, cpc c 3 j) = Ok (uv_point (uv j) (cpc c 3 j))) by (unfold f; rewrite Hcl by (apply Hj; now left); reflexivity).
        cbn [map mapM]. rewrite Ef. cbn [bind]. rewrite IH by (intros; apply Hj; now right). reflexivity. }
      rewrite G by (intros j Hj; apply in_seq in Hj; lia). cbn [bind]. fold pts.
      apply (try_new_sorted eps maxv); [lia|lia|apply (ko_sorted _ _ _ (co_knots c Hc))]. }
    split; [exact E|]. cbn [cdim cdeg cknots cpts]. split; [reflexivity|]. split; [reflexivity|]. split; [reflexivity|]. split; [exact Lp|].
    assert (P : forall j, (j < n)%nat -> nth j pts [] = uv_point (uv j) (cpc c 3 j)).
    { intros j Hj. unfold pts. rewrite (nth_map_lt _ _ _ 0%nat []) by (now rewrite seq_length). now rewrite seq_nth by exact Hj. }
    split.
    - intros j Hj. unfold cpc at 1 3 5. cbn [cpts]. rewrite (P j Hj). split; [reflexivity|]. split; reflexivity.
    - constructor; cbn [cdim cpts cdeg cknots]; [lia| |lia|].
      + apply Forall_forall. intros q Hq. unfold pts in Hq. apply in_map_iff in Hq. destruct Hq as (j & <- & _). reflexivity.
      + unfold clast. cbn [cpts]. rewrite Lp. exact (co_knots c Hc).
  Qed.

  (** a weighted mean stays between bounds *)
  Lemma mean_between n (N w x : nat -> R) a b : (forall j, (j < n)%nat -> 0 <= N j) -> (forall j, (j < n)%nat -> 0 < w j) ->
    (forall j, (j < n)%nat -> a <= x j <= b) -> 0 < rsum n (fun j => N j * w j) ->
    a <= rsum n (fun j => N j * (x j * w j)) / rsum n (fun j => N j * w j) <= b.
  Proof.
    intros HN Hw Hx Hp.
    assert (A : a * rsum n (fun j => N j * w j) <= rsum n (fun j => N j * (x j * w j))).
    { rewrite <- rsum_scal. apply rsum_le. intros j Hj. replace (a * (N j * w j)) with ((N j * w j) * a) by ring. replace (N j * (x j * w j)) with ((N j * w j) * x j) by ring.
      apply Rmult_le_compat_l; [apply Rmult_le_pos; [auto|left; auto]|apply (Hx j Hj)]. }
    assert (B : rsum n (fun j => N j * (x j * w j)) <= b * rsum n (fun j => N j * w j)).
    { rewrite <- rsum_scal. apply rsum_le. intros j Hj. replace (b * (N j * w j)) with ((N j * w j) * b) by ring. replace (N j * (x j * w j)) with ((N j * w j) * x j) by ring.
      apply Rmult_le_compat_l; [apply Rmult_le_pos; [auto|left; auto]|apply (Hx j Hj)]. }
    split; apply (Rmult_le_reg_r _ _ _ Hp); unfold Rdiv; rewrite ?Rmult_assoc, ?Rinv_l; lra.
  Qed.

  Theorem flat_trim (closest : list R -> Res (R * R)) c s o a b d : surf_ok s -> surf_eps eps s -> spos s -> sdim s = 4%nat -> flat s o a b ->
    curve_ok c -> curve_eps eps c -> pos_weights c -> cdim c = 4%nat ->
    (forall j, (j < length (cpts c))%nat -> exists u v r, closest (ctrl c j) = Ok (u, v) /\ in_dom s u v /\
       forall i, (i < 3)%nat -> snurbs s i u v = rc i (ctrl c j) + r * rc i d) ->
    exists c2, map_curve closest c = Ok c2 /\ curve_ok c2 /\ knots_domain c2 = knots_domain c /\
      forall t, dom0 c <= t <= dom1 c -> exists p q x r, point_at c t = Ok p /\ point_at c2 t = Ok q /\ length q = 2%nat /\
        in_dom s (rc 0 q) (rc 1 q) /\ surf_point_at s (rc 0 q) (rc 1 q) = Ok x /\ forall i, (i < 3)%nat -> rc i x = rc i p + r * rc i d.
  Proof.
    intros Hs Hse Hsp Hsd Hf Hc He Hw Hd Hcl. set (n := length (cpts c)) in *.
    destruct (choice_list n (fun j '(u, v, r) => closest (ctrl c j) = Ok (u, v) /\ in_dom s u v /\ forall i, (i < 3)%nat -> snurbs s i u v = rc i (ctrl c j) + r * rc i d) (0, 0, 0)) as (F & HF).
    { intros j Hj. destruct (Hcl j Hj) as (u & v & r & H). exists (u, v, r). exact H. }
    set (U := fun j => fst (fst (F j))). set (V := fun j => snd (fst (F j))). set (Q := fun j => snd (F j)).
    assert (HF' : forall j, (j < n)%nat -> closest (ctrl c j) = Ok (U j, V j) /\ in_dom s (U j) (V j) /\ forall i, (i < 3)%nat -> snurbs s i (U j) (V j) = rc i (ctrl c j) + Q j * rc i d).
    { intros j Hj. specialize (HF j Hj). unfold U, V, Q. destruct (F j) as [[u v] r]. exact HF. }
    clear HF Hcl. destruct (map_curve_ok closest c (fun j => (U j, V j)) Hc Hw Hd (fun j Hj => proj1 (HF' j Hj))) as (c2 & E & D2 & G2 & K2 & L2 & P2 & O2).
    exists c2. fold n in L2, P2. split; [exact E|]. split; [exact O2|].
    assert (D0 : dom0 c2 = dom0 c) by (unfold dom0; now rewrite G2, K2). assert (D1 : dom1 c2 = dom1 c) by (unfold dom1; now rewrite L2, K2).
    split; [rewrite !knots_domain_ok by auto; now rewrite D0, D1|].
    assert (He2 : curve_eps eps c2) by (unfold curve_eps, clast in *; rewrite G2, K2, L2; exact He).
    assert (Hw2 : pos_weights c2). { intros j Hj. rewrite D2. rewrite L2 in Hj. destruct (P2 j Hj) as (_ & _ & X). cbn [Nat.sub]. rewrite X. pose proof (Hw j Hj) as W. rewrite Hd in W. exact W. }
    intros t Ht. destruct (guess_points eps maxv c t Hc He Hw Ht) as (p & Ep & Lp & Vp).
    destruct (guess_points eps maxv c2 t O2 He2 Hw2 ltac:(rewrite D0, D1; exact Ht)) as (q & Eq & Lq & Vq). rewrite D2 in *. rewrite Hd in *.
    set (N := fun j => cox_closed (kf (cknots c)) (dom1 c) (cdeg c) j t). set (w := fun j => cpc c 3 j).
    assert (HN : forall j, (j < n)%nat -> 0 <= N j) by (intros j Hj; apply (cox_nonneg c j t Hc Ht)).
    assert (Hww : forall j, (j < n)%nat -> 0 < w j) by (intros j Hj; pose proof (Hw j Hj) as W; rewrite Hd in W; exact W).
    pose proof (wfun_pos eps maxv c t Hc He Hw Ht) as Wp. assert (EW : wfun c t = rsum n (fun j => N j * w j)) by (unfold wfun, hcoord; now rewrite Hd).
    set (W := rsum n (fun j => N j * w j)) in *. rewrite EW in Wp.
    assert (W2 : wfun c2 t = W).
    { unfold wfun, hcoord. rewrite D2, L2, K2, D1, G2. apply rsum_ext. intros j Hj. cbn [Nat.sub]. destruct (P2 j Hj) as (_ & _ & ->). reflexivity. }
    assert (Q0 : rc 0 q = rsum n (fun j => N j * (U j * w j)) / W).
    { rewrite (Vq 0%nat ltac:(lia)). unfold nurbs. rewrite W2. f_equal. unfold hcoord. rewrite L2, K2, D1, G2. apply rsum_ext. intros j Hj. destruct (P2 j Hj) as (-> & _). reflexivity. }
    assert (Q1 : rc 1 q = rsum n (fun j => N j * (V j * w j)) / W).
    { rewrite (Vq 1%nat ltac:(lia)). unfold nurbs. rewrite W2. f_equal. unfold hcoord. rewrite L2, K2, D1, G2. apply rsum_ext. intros j Hj. destruct (P2 j Hj) as (_ & -> & _). reflexivity. }
    assert (Di : in_dom s (rc 0 q) (rc 1 q)).
    { rewrite Q0, Q1. split; apply mean_between; auto; intros j Hj; apply (HF' j Hj). }
    destruct (surf_point_at_spec eps maxv s (rc 0 q) (rc 1 q) Hs Hse Di) as (x & Ex & Lx & Vx).
    { apply Rgt_not_eq. now apply (swfun_pos eps maxv s). }
    exists p, q, x, (rsum n (fun j => N j * (Q j * w j)) / W). split; [exact Ep|]. split; [exact Eq|]. split; [exact Lq|]. split; [exact Di|]. split; [exact Ex|].
    intros i Hi. rewrite Hsd in Vx. rewrite (Vx i Hi), (Hf _ _ i Di Hi), Q0, Q1. rewrite (Vp i ltac:(lia)). unfold nurbs. rewrite EW.
    assert (EH : hcoord c i t = rsum n (fun j => N j * (rc i (ctrl c j) * w j))).
    { unfold hcoord. apply rsum_ext. intros j Hj. fold (N j). unfold ctrl. rewrite rc_map_seq by exact Hi. unfold w. field. pose proof (Hww j Hj). unfold w in *. lra. }
    rewrite EH.
    assert (K : rc i o * W + rsum n (fun j => N j * (U j * w j)) * rc i a + rsum n (fun j => N j * (V j * w j)) * rc i b =
                rsum n (fun j => N j * (rc i (ctrl c j) * w j)) + rsum n (fun j => N j * (Q j * w j)) * rc i d).
    { unfold W. rewrite <- rsum_scal, <- !rsum_scal_r, <- !rsum_plus. apply rsum_ext. intros j Hj. destruct (HF' j Hj) as (_ & Dj & Sj).
      specialize (Sj i Hi). rewrite (Hf _ _ i Dj Hi) in Sj.
      replace (rc i (ctrl c j)) with (rc i o + U j * rc i a + V j * rc i b - Q j * rc i d) by lra. ring. }
    apply (Rmult_eq_reg_r W); [|lra]. field_simplify; [|lra|lra]. lra.
  Qed.

  (** the curve [c2] of the parameter plane traces, on the surface, the curve [c] shifted along [d] *)
  Definition traces (s : Surf R) (c c2 : Curve R) (d : list R) : Prop :=
    knots_domain c2 = knots_domain c /\
    forall t, dom0 c <= t <= dom1 c -> exists p q x r, point_at c t = Ok p /\ point_at c2 t = Ok q /\ length q = 2%nat /\
      in_dom s (rc 0 q) (rc 1 q) /\ surf_point_at s (rc 0 q) (rc 1 q) = Ok x /\ forall i, (i < 3)%nat -> rc i x = rc i p + r * rc i d.
  (** the curve [c2] traces [c] itself *)
  Definition traces_exactly (s : Surf R) (c c2 : Curve R) : Prop :=
    knots_domain c2 = knots_domain c /\
    forall t, dom0 c <= t <= dom1 c -> exists p q x, point_at c t = Ok p /\ point_at c2 t = Ok q /\ length q = 2%nat /\
      in_dom s (rc 0 q) (rc 1 q) /\ surf_point_at s (rc 0 q) (rc 1 q) = Ok x /\ forall i, (i < 3)%nat -> rc i x = rc i p.
  Definition space_curve (c : Curve R) : Prop := curve_ok c /\ curve_eps eps c /\ pos_weights c /\ cdim c = 4%nat.
  Definition patch (s : Surf R) : Prop := surf_ok s /\ surf_eps eps s /\ spos s /\ sdim s = 4%nat.

  Lemma trim_with_all (f : Curve R -> Res (Curve R)) (Q : Curve R -> Curve R -> Prop) s exterior interiors :
    (exterior <> None \/ interiors <> []) ->
    (forall c, exterior = Some c \/ In c interiors -> exists c2, f c = Ok c2 /\ Q c c2) ->
    exists t, trim_with f s exterior interiors = Ok t /\ tr_surface t = s /\
      match exterior, tr_exterior t with Some c, Some c2 => Q c c2 | None, None => True | _, _ => False end /\
      Forall2 Q interiors (tr_interiors t).
  Proof.
    intros Hne H. destruct (mapM_exists f Q interiors) as (is & Ei & Fi); [intros c Hc; apply H; now right|].
    assert (K : exists e, match exterior with Some c => c <- f c ;; Ok (Some c) | None => Ok None end = Ok e /\
      match exterior, e with Some c, Some c2 => Q c c2 | None, None => True | _, _ => False end).
    { destruct exterior as [c|]; [|exists None; auto]. destruct (H c (or_introl eq_refl)) as (c2 & E & q). rewrite E. exists (Some c2). auto. }
    destruct K as (e & Ee & Qe). exists (MkTrimmed s e is). split; [|split; [reflexivity|split; [exact Qe|exact Fi]]].
    unfold trim_with. destruct exterior as [c|]; [|destruct interiors as [|c l]; [destruct Hne as [X|X]; now elim X|]];
      rewrite Ee; cbn [bind]; rewrite Ei; reflexivity.
  Qed.

  (** *** Trimming a flat surface by the closest points: the trimming curves trace the given curves *)
  Theorem map_closest_flat solve2 s exterior interiors o a b : patch s -> flat s o a b ->
    (exterior <> None \/ interiors <> []) ->
    (forall c, exterior = Some c \/ In c interiors -> space_curve c /\
       forall j, (j < length (cpts c))%nat -> exists u v, surf_closest solve2 s (ctrl c j) = Ok (u, v) /\ in_dom s u v /\
         forall i, (i < 3)%nat -> snurbs s i u v = rc i (ctrl c j)) ->
    exists t, try_map_closest_point solve2 s exterior interiors = Ok t /\ tr_surface t = s /\
      match exterior, tr_exterior t with Some c, Some c2 => traces_exactly s c c2 | None, None => True | _, _ => False end /\
      Forall2 (traces_exactly s) interiors (tr_interiors t).
  Proof.
    intros (Hs & Hse & Hsp & Hsd) Hf Hne H. apply (trim_with_all (map_curve (surf_closest solve2 s)) (traces_exactly s)); [exact Hne|].
    intros c Hc. destruct (H c Hc) as ((Hk & Hke & Hkw & Hkd) & Hcl).
    destruct (flat_trim (surf_closest solve2 s) c s o a b [0; 0; 0] Hs Hse Hsp Hsd Hf Hk Hke Hkw Hkd) as (c2 & E & _ & D & T).
    { intros j Hj. destruct (Hcl j Hj) as (u & v & E & Di & V). exists u, v, 0. split; [exact E|]. split; [exact Di|]. intros i Hi. rewrite (V i Hi). ring. }
    exists c2. split; [exact E|]. split; [exact D|]. intros t Ht. destruct (T t Ht) as (p & q & x & r & E1 & E2 & E3 & E4 & E5 & E6).
    exists p, q, x. do 5 (split; [assumption|]). intros i Hi. rewrite (E6 i Hi). replace (rc i [0; 0; 0]) with 0; [ring|].
    unfold rc. destruct i as [|[|[|]]]; [reflexivity..|lia].
  Qed.

  (** *** Projection *)
  Lemma nearest_hit_spec (p : list R) (l : list SHit) : l <> [] -> exists h, nearest_hit p l = Some h /\ In h l /\
    forall h', In h' l -> vnorm2 (vsub p (sh_p h)) <= vnorm2 (vsub p (sh_p h')).
  Proof.
    intros N. unfold nearest_hit. set (g := fun h => (vnorm2 (vsub p (sh_p h)), h)). destruct l as [|h0 l]; [contradiction|]. cbn [map].
    set (st := fun a b : R * SHit => if sltb (fst b) (fst a) then b else a).
    assert (G : forall l x, exists h, (snd (fold_left st (map g l) (g x)) = h /\ fold_left st (map g l) (g x) = g h) /\ (h = x \/ In h l) /\
      forall h', (h' = x \/ In h' l) -> fst (g h) <= fst (g h')).
    { clear. induction l as [|y l IH]; intros x; cbn [map fold_left].
      - exists x. split; [split; reflexivity|]. split; [now left|]. intros h' [->|[]]. lra.
      - set (z := if sltb (fst (g y)) (fst (g x)) then y else x).
        assert (Ez : st (g x) (g y) = g z) by (unfold st, z; destruct (sltb (fst (g y)) (fst (g x))); reflexivity).
        rewrite Ez. destruct (IH z) as (h & Eh & Ih & Mh). exists h. split; [exact Eh|].
        assert (Hz : (z = x \/ z = y) /\ fst (g z) <= fst (g x) /\ fst (g z) <= fst (g y)).
        { unfold z. change (sltb (fst (g y)) (fst (g x))) with (Rltb (fst (g y)) (fst (g x))).
          destruct (Rltb_spec (fst (g y)) (fst (g x))); split; auto; lra. }
        destruct Hz as (Z & Zx & Zy). split.
        + destruct Ih as [->|Ih]; [destruct Z as [->| ->]; [now left|right; now left]|right; now right].
        + pose proof (Mh z (or_introl eq_refl)). intros h' [->|[->|Hh]]; [lra|lra|]. apply Mh. now right. }
    destruct (G l h0) as (h & (E & _) & I & M). exists h. change (fun a b : R * SHit => if sltb (fst b) (fst a) then b else a) with st.
    split; [now rewrite E|]. split; [destruct I as [->|I]; [now left|now right]|]. intros h' [->|Hh]; [apply (M h'); now left|apply (M h'); now right].
  Qed.

  Lemma ray_line (p d : list R) len : length p = 3%nat -> length d = 3%nat -> (exists i, (i < 3)%nat /\ rc i d <> 0) -> 0 <= len ->
    exists ray, polyline 4 [vsub p (vscale d sone); vadd (vadd p (vscale d sone)) (vscale d len)] true = Ok ray /\ curve_ok ray /\
      knots_domain ray = Ok (0, 1) /\ forall t i, 0 <= t <= 1 -> (i < 3)%nat -> nurbs ray i t = rc i p + (t * (2 + len) - 1) * rc i d.
  Proof.
    intros Lp Ld Hd Hl. set (A := vsub p (vscale d sone)). set (B := vadd (vadd p (vscale d sone)) (vscale d len)).
    assert (Ls : forall k, length (vscale d k) = 3%nat) by (intros k; unfold vscale; now rewrite map_length).
    assert (La : length A = 3%nat) by (unfold A; apply vsub_length; auto).
    assert (Lpd : length (vadd p (vscale d sone)) = 3%nat) by (apply vadd_length; auto).
    assert (Lb : length B = 3%nat) by (unfold B; apply vadd_length; auto).
    assert (RA : forall i, rc i A = rc i p - rc i d).
    { intros i. unfold A. rewrite rc_vsub by (now rewrite Ls). rewrite rc_vscale. rs. ring. }
    assert (RB : forall i, rc i B = rc i p + (1 + len) * rc i d).
    { intros i. unfold B. rewrite rc_vadd by (now rewrite Ls, Lpd). rewrite rc_vadd by (now rewrite Ls). rewrite !rc_vscale. rs. ring. }
    assert (Hpos : 0 < rdist A B).
    { unfold rdist. apply sqrt_lt_R0. rewrite La. destruct Hd as (i & Hi & Hn). apply (rsum_pos 3 _ i); [|exact Hi|].
      - intros j _. apply Rle_0_sqr.
      - rewrite RA, RB. replace (rc i p - rc i d - (rc i p + (1 + len) * rc i d)) with (- ((2 + len) * rc i d)) by ring.
        replace (- ((2 + len) * rc i d) * - ((2 + len) * rc i d)) with (Rsqr ((2 + len) * rc i d)) by (unfold Rsqr; ring).
        apply Rsqr_pos_lt. apply Rmult_integral_contrapositive_currified; [lra|exact Hn]. }
    set (ray := MkCurve 4 1 [to_homogeneous A; to_homogeneous B] [0; 0; 1; 1]).
    exists ray. assert (E : polyline 4 [A; B] true = Ok ray).
    { rewrite (polyline_eq eps maxv 4 [A; B] true ltac:(cbn [length]; lia) (Forall_cons A La (Forall_cons B Lb (Forall_nil _)))). unfold poly_knots. cbn [length]. change (2 - 1)%nat with 1%nat. cbn [seq map app].
      assert (E0 : chord [A; B] 0 = 0) by reflexivity. assert (E1 : chord [A; B] 1 = rdist A B) by (unfold chord; cbn [rsum nth]; ring).
      rewrite E0, E1. unfold ray. replace (0 / rdist A B) with 0 by (field; lra). replace (rdist A B / rdist A B) with 1 by (field; lra). reflexivity. }
    split; [exact E|].
    assert (Ok : curve_ok ray).
    { constructor; cbn [ray cdim cpts cdeg cknots length]; [lia| |lia|].
      - repeat (apply Forall_cons; [unfold to_homogeneous; rewrite app_length; cbn [length]; lia|]). apply Forall_nil.
      - unfold clast. cbn [cpts length]. constructor; cbn; try lia; try lra. repeat constructor; lra. }
    split; [exact Ok|]. split; [rewrite knots_domain_ok by exact Ok; reflexivity|].
    intros t i Ht Hi. destruct (bern1 t Ht) as (B0 & B1). unfold nurbs, wfun, hcoord. cbn [ray cdim cpts cdeg cknots length rsum Nat.sub].
    change (dom1 ray) with 1. rewrite B0, B1. unfold cpc. cbn [ray cpts nth].
    rewrite (hom_rc_last eps maxv A 3), (hom_rc_last eps maxv B 3), (hom_rc_lt eps maxv A i), (hom_rc_lt eps maxv B i) by lia. rewrite RA, RB. field. lra.
  Qed.

  (** the intersections found are points of the surface and of the ray *)
  Definition sound_hits (hits : Curve R -> Res (list (@SHit R))) (s : Surf R) : Prop :=
    forall ray l h, hits ray = Ok l -> In h l ->
      in_dom s (fst (sh_uv h)) (snd (sh_uv h)) /\
      exists t, dom0 ray <= t <= dom1 ray /\ forall i, (i < 3)%nat -> snurbs s i (fst (sh_uv h)) (snd (sh_uv h)) = nurbs ray i t.

  (** *** Trimming a flat surface by projection: the trimming curves trace the given curves shifted along the direction *)
  Theorem projection_flat hits s d exterior interiors o a b : patch s -> flat s o a b -> sound_hits (hits s) s ->
    length d = 3%nat -> (exists i, (i < 3)%nat /\ rc i d <> 0) -> (exterior <> None \/ interiors <> []) ->
    (forall c, exterior = Some c \/ In c interiors -> space_curve c /\ exists len, ray_length s c d = Ok len /\ 0 <= len /\
       forall j ray, (j < length (cpts c))%nat -> polyline 4 [vsub (ctrl c j) (vscale d sone); vadd (vadd (ctrl c j) (vscale d sone)) (vscale d len)] true = Ok ray ->
         exists l, hits s ray = Ok l /\ l <> []) ->
    exists t, try_projection hits s d exterior interiors = Ok t /\ tr_surface t = s /\
      match exterior, tr_exterior t with Some c, Some c2 => traces s c c2 d | None, None => True | _, _ => False end /\
      Forall2 (fun c c2 => traces s c c2 d) interiors (tr_interiors t).
  Proof.
    intros (Hs & Hse & Hsp & Hsd) Hf Hh Ld Hd Hne H. apply (trim_with_all (project_curve (hits s) s d) (fun c c2 => traces s c c2 d)); [exact Hne|].
    intros c Hc. destruct (H c Hc) as ((Hk & Hke & Hkw & Hkd) & len & El & Hlen & Hr).
    destruct (flat_trim (project_point (hits s) d len) c s o a b d Hs Hse Hsp Hsd Hf Hk Hke Hkw Hkd) as (c2 & E & _ & D & T).
    { intros j Hj. destruct (ray_line (ctrl c j) d len) as (ray & Er & Ork & Dr & Lr); auto.
      destruct (Hr j ray Hj Er) as (l & Ehl & Nl). destruct (nearest_hit_spec (ctrl c j) l Nl) as (h & En & Ih & _).
      destruct (Hh ray l h Ehl Ih) as (Di & t & Ht & V). exists (fst (sh_uv h)), (snd (sh_uv h)), (t * (2 + len) - 1).
      split; [|split; [exact Di|]].
      - unfold project_point. cbv zeta. rewrite Er. cbn [bind]. rewrite Ehl. cbn [bind]. rewrite En. cbn [ok_or bind]. now destruct (sh_uv h).
      - intros i Hi. rewrite (V i Hi). apply Lr; [|exact Hi]. rewrite knots_domain_ok in Dr by exact Ork. injection Dr as D0 D1. rewrite D0, D1 in Ht. exact Ht. }
    exists c2. split; [unfold project_curve; rewrite El; cbn [bind]; exact E|]. split; [exact D|exact T].
  Qed.

  (** without trimming curves nothing is trimmed: an error *)
  Theorem no_trimming_curves solve2 hits (s : Surf R) d : errs (try_map_closest_point solve2 s None []) /\ errs (try_projection hits s d None []).
  Proof. split; [exists "No trimming curves provided"%string|exists "No trimming curves provided"%string]; reflexivity. Qed.

  (** *** An affine transformation moves the trimmed boundary with the surface *)
  Theorem transform_boundary (ts : Trimmed R) m c t q p :
    let s := tr_surface ts in
    surf_ok s -> surf_eps eps s -> affine_matrix (sdim s) m ->
    (forall a b, (a < nrow s)%nat -> (b < ncol s)%nat -> spc s (sdim s - 1) a b <> 0) ->
    (tr_exterior ts = Some c \/ In c (tr_interiors ts)) ->
    point_at c t = Ok q -> in_dom s (rc 0 q) (rc 1 q) -> surf_point_at s (rc 0 q) (rc 1 q) = Ok p ->
    let ts' := trimmed_transform m ts in
    (tr_exterior ts' = Some c \/ In c (tr_interiors ts')) /\ length (tr_interiors ts') = length (tr_interiors ts) /\
    surf_point_at (tr_surface ts') (rc 0 q) (rc 1 q) = Ok (apply_affine (sdim s) m p).
  Proof.
    intros s Hs He Hm Hw Hc Hq Hd Hp ts'. split; [exact Hc|]. split; [reflexivity|].
    exact (surf_transform_affine eps maxv s m _ _ p Hs He Hm Hw Hd Hp).
  Qed.

  (** *** Inversion: the trimming curves are run backwards, but not mirrored with the parameters of the surface *)
  Theorem invert_boundary (ts : Trimmed R) c t q :
    let s := tr_surface ts in
    surf_ok s -> surf_eps eps s -> ucont s -> vcont s ->
    (forall c, tr_exterior ts = Some c \/ In c (tr_interiors ts) -> curve_ok c /\ curve_eps eps c /\ curve_cont c) ->
    tr_exterior ts = Some c -> dom0 c <= t <= dom1 c -> point_at c t = Ok q ->
    exists ts' c', trimmed_invert ts = Ok ts' /\ tr_exterior ts' = Some c' /\ length (tr_interiors ts') = length (tr_interiors ts) /\
      point_at c' (mirror_c c - t) = Ok q /\
      (in_dom s (umirror s - rc 0 q) (vmirror s - rc 1 q) ->
       surf_point_at (tr_surface ts') (rc 0 q) (rc 1 q) = surf_point_at s (umirror s - rc 0 q) (vmirror s - rc 1 q)).
  Proof.
    intros s Hs He Hu Hv Hc Ex Ht Hq. destruct (flip_uv_spec eps maxv s Hs He Hu Hv) as (s' & _ & Ei & _ & _ & _ & _ & _ & _ & Es).
    destruct (Hc c (or_introl Ex)) as (C1 & C2 & C3). destruct (invert_spec eps maxv c C1 C2 C3) as (c' & Ec & _ & _ & Pc).
    destruct (mapM_exists (@invert R _) (fun _ _ => True) (tr_interiors ts)) as (is & Em & Fm).
    { intros k Hk. destruct (Hc k (or_intror Hk)) as (K1 & K2 & K3). destruct (invert_spec eps maxv k K1 K2 K3) as (k' & Ek & _). eauto. }
    exists (MkTrimmed s' (Some c') is), c'. split.
    { unfold trimmed_invert. fold s. rewrite Ei. cbn [bind]. rewrite Ex, Ec. cbn [bind]. rewrite Em. reflexivity. }
    split; [reflexivity|]. split; [symmetry; exact (Forall2_len _ _ _ Fm)|]. split; [now rewrite Pc|].
    intros Hd. cbn [tr_surface]. rewrite <- (Es _ _ Hd). f_equal; ring.
  Qed.
End Real.
