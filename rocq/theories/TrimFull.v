(** * The tessellation of a trimmed surface as a whole *)
From Coq Require Import Reals Lra Lia List ZArith Bool Sorted.
From Verif Require Import Base BaseFacts Scalar RSum KnotModel KnotFacts KnotSpec VecFacts MiscModel CurveModel CurveSpec
  SurfaceModel SurfaceSpec MergeModel ClipModel AdaptModel AdaptProofs
  AdaptPoly AdaptTotal AdaptMain SerdeModel PolygonProofs PolygonConnected TrimModel TrimSpec TrimProofs TrimTheorems TrimUV.
Import ListNotations.
Open Scope R_scope.

Section Real.
  Variables eps maxv : R.
  Local Hint Extern 0 (Scalar R) => exact (ROps eps maxv) : typeclass_instances.
  Local Notation Vx := (@Vertex R).

  (** the loop [vs] follows the trimming curve [c]: points of the curve, at the given parameters or in increasing order, with their points on the surface *)
  Definition follows (s : Surf R) (c : Curve R) (k : option (list R)) (vs : list Vx) : Prop :=
    exists us, samples c us (map vx_uv vs) /\ Forall (fun v => length (vx_point v) = 3%nat /\ on_surface s v) vs /\
      match k with
      | Some ts => us = ts
      | None => us <> [] /\ StronglySorted Rlt us /\ (forall u, In u us -> dom0 c <= u <= dom1 c)
      end.
  Definition params_in (c : Curve R) (k : option (list R)) : Prop :=
    forall ts, k = Some ts -> Forall (fun t => dom0 c <= t <= dom1 c) ts.
  Definition ext_params (k : option (@TrimCons R)) : option (list R) := match k with Some k => tc_exterior k | None => None end.
  Definition int_params (ts : Trimmed R) (k : option (@TrimCons R)) : list (option (list R)) :=
    match k with Some k => tc_interiors k | None => repeat None (length (tr_interiors ts)) end.

  Lemma loops_total s tol cs : forall ks, length ks = length cs -> (forall c, In c cs -> trims eps c s) -> Forall2 params_in cs ks ->
    exists fuel0, forall fuel, (fuel0 <= fuel)%nat -> exists ls, mapM (fun '(c, k) => trim_loop fuel s tol c k) (combine cs ks) = Ok ls /\
      length ls = length cs /\ forall i c k l, nth_error cs i = Some c -> nth_error ks i = Some k -> nth_error ls i = Some l -> follows s c k l.
  Proof.
    induction cs as [|c cs IH]; intros ks L H F.
    - exists 0%nat. intros fuel _. exists []. repeat split. intros [|i] ? ? ? E; discriminate E.
    - destruct ks as [|k ks]; [discriminate L|]. injection L as L. inversion F as [|? ? ? ? F1 F2]; subst.
      destruct (IH ks L (fun c' Hc => H c' (or_intror Hc)) F2) as (f1 & K1).
      destruct (trim_loop_spec eps maxv c s tol k (H c (or_introl eq_refl)) F1) as (f2 & K2).
      exists (Nat.max f1 f2). intros fuel Hf. destruct (K1 fuel ltac:(lia)) as (ls & E1 & L1 & W1). destruct (K2 fuel ltac:(lia)) as (vs & us & E2 & W2).
      exists (vs :: ls). cbn [combine mapM]. rewrite E2. cbn [bind]. rewrite E1. cbn [bind length]. split; [reflexivity|]. split; [now rewrite L1|].
      intros [|i] c' k' l'; cbn [nth_error]; [|apply W1]. intros X Y Z. injection X as <-. injection Y as <-. injection Z as <-. exists us. exact W2.
  Qed.

  Lemma follows_dims s c k l : follows s c k l -> forall v, In v l -> on_surface s v /\ length (vx_uv v) = 2%nat /\ length (vx_point v) = 3%nat.
  Proof. intros (us & _ & F & _) v Hv. rewrite Forall_forall in F. destruct (F v Hv) as (A & B). split; [exact B|]. split; [apply B|exact A]. Qed.

  (** *** Boundary loops: their computation ends and they follow the trimming curves *)
  Theorem trim_loops_total (ts : Trimmed R) (cons : option (@TrimCons R)) tol :
    (forall c, tr_exterior ts = Some c \/ In c (tr_interiors ts) -> trims eps c (tr_surface ts)) ->
    (forall c, tr_exterior ts = Some c -> params_in c (ext_params cons)) -> Forall2 params_in (tr_interiors ts) (int_params ts cons) ->
    exists fuel0, forall fuel, (fuel0 <= fuel)%nat -> exists ext ints, trim_loops fuel ts cons tol = Ok (ext, ints) /\
      match tr_exterior ts, ext with
      | Some c, Some l => follows (tr_surface ts) c (ext_params cons) l
      | None, None => True
      | _, _ => False
      end /\
      length ints = length (tr_interiors ts) /\
      (forall i c k l, nth_error (tr_interiors ts) i = Some c -> nth_error (int_params ts cons) i = Some k -> nth_error ints i = Some l -> follows (tr_surface ts) c k l).
  Proof.
    intros H He Hi. pose proof (Forall2_len _ _ _ Hi) as Hn. unfold trim_loops. fold (ext_params cons).
    assert (K : exists ks, match cons with
             | Some k => if (length (tc_interiors k) =? length (tr_interiors ts))%nat then Ok (tc_interiors k) else Err "The number of interiors must match the number of trimming curves"
             | None => Ok (repeat None (length (tr_interiors ts)))
             end = Ok ks /\ ks = int_params ts cons).
    { destruct cons as [k|]; cbn [int_params] in *; [|eauto]. rewrite <- Hn, Nat.eqb_refl. eauto. }
    destruct K as (ks & -> & ->). cbn [bind].
    destruct (loops_total (tr_surface ts) tol (tr_interiors ts) (int_params ts cons) (eq_sym Hn) (fun c Hc => H c (or_intror Hc)) Hi) as (f1 & K1).
    destruct (tr_exterior ts) as [c|] eqn:Ex.
    - destruct (trim_loop_spec eps maxv c (tr_surface ts) tol (ext_params cons) (H c (or_introl eq_refl)) (He c eq_refl)) as (f2 & K2).
      exists (Nat.max f1 f2). intros fuel Hf. destruct (K1 fuel ltac:(lia)) as (ls & E1 & L1 & W1). destruct (K2 fuel ltac:(lia)) as (vs & us & E2 & W2).
      exists (Some vs), ls. rewrite E2. cbn [bind]. rewrite E1. cbn [bind]. split; [reflexivity|]. split; [exists us; exact W2|]. auto.
    - exists f1. intros fuel Hf. destruct (K1 fuel ltac:(lia)) as (ls & E1 & L1 & W1). exists None, ls. cbn [bind]. rewrite E1. cbn [bind]. auto.
  Qed.

  (** *** The mesh of a trimmed surface *)
  Theorem trimmed_tessellate_spec (D : Delaunay Vx) wall (ts : Trimmed R) (cons : option (@TrimCons R)) opts :
    let s := tr_surface ts in
    lawful D vx_uv wall ->
    surf_ok s -> surf_eps eps s -> sdim s = 4%nat -> (1 <= sdu s)%nat -> (1 <= sdv s)%nat ->
    simple1 (sdu s) (nrow s - 1) (suk s) -> simple1 (sdv s) (ncol s - 1) (svk s) ->
    (forall c, tr_exterior ts = Some c \/ In c (tr_interiors ts) -> trims eps c s) ->
    (forall c, tr_exterior ts = Some c -> params_in c (ext_params cons)) -> Forall2 params_in (tr_interiors ts) (int_params ts cons) ->
    exists fuel0, forall fuel, (fuel0 <= fuel)%nat -> exists exterior interiors grid,
      trim_loops fuel ts cons (match opts with Some o => ao_tol o | None => 1 / 100 end) = Ok (exterior, interiors) /\
      let loops := match exterior with Some e => e :: interiors | None => interiors end in
      let ext := option_map (map vx_uv) exterior in
      let ints := map (map vx_uv) interiors in
      Forall (on_surface s) grid /\
      ((forall l, In l loops -> closes l) ->
       exists m t, trimmed_tessellate D fuel ts cons opts = Ok m /\
         Forall (on_surface s) (mverts m) /\ chosen eps maxv vx_uv ext ints (dt_faces D t) m /\
         (0 < eps -> loops_accepted D (fst (insert_all D (dt_empty D) grid)) (map loop_vertices loops) ->
          (forall l v, In l loops -> In v l -> (2 <= length l)%nat -> exists w, In w (mverts m) /\ vx_uv w = vx_uv v) /\
          fills eps maxv vx_uv ext ints (dt_faces D t) m)).
  Proof.
    intros s LD Hs He HD Hu Hv Su Sv Ht Hk Hi.
    set (tol := match opts with Some o => ao_tol o | None => 1 / 100 end).
    destruct (trim_loops_total ts cons tol Ht Hk Hi) as (f0 & K). exists f0. intros fuel Hf.
    destruct (K fuel Hf) as (exterior & interiors & E & Fe & Li & Fi).
    destruct (adaptive_mesh eps maxv s opts Hs He HD Hu Hv Su Sv) as (g & Eg & _ & Fg).
    exists exterior, interiors, (grid_vertices g). split; [exact E|]. cbv zeta.
    set (loops := match exterior with Some e => e :: interiors | None => interiors end).
    pose proof (grid_on_surface s g Fg) as Og. split; [exact Og|]. intros Hc.
    assert (Dm : forall l v, In l loops -> In v l -> on_surface s v /\ length (vx_uv v) = 2%nat /\ length (vx_point v) = 3%nat).
    { assert (Di : forall l v, In l interiors -> In v l -> on_surface s v /\ length (vx_uv v) = 2%nat /\ length (vx_point v) = 3%nat).
      { intros l v Hl. apply In_nth_error in Hl. destruct Hl as (i & Hl). assert (i < length interiors)%nat by (apply nth_error_Some; congruence).
        pose proof (Forall2_len _ _ _ Hi) as Hn.
        destruct (nth_error (tr_interiors ts) i) as [c|] eqn:E1; [|apply nth_error_None in E1; lia].
        destruct (nth_error (int_params ts cons) i) as [k|] eqn:E2; [|apply nth_error_None in E2; lia].
        exact (follows_dims s c k l (Fi i c k l E1 E2 Hl) v). }
      unfold loops. destruct exterior as [e|]; [|exact Di]. intros l v [<-|Hl]; [|exact (Di l v Hl)].
      destruct (tr_exterior ts) as [c|]; [|contradiction]. exact (follows_dims s c _ e Fe v). }
    rewrite Forall_forall in Og.
    destruct (trim_mesh_spec eps maxv D wall (grid_vertices g) exterior interiors LD) as (m & t & Em & Ev & Hin & Hch & Hf').
    - intros v Hv'. apply (Og v Hv').
    - intros l v Hl Hv'. apply (Dm l v Hl Hv').
    - exact Hc.
    - exists m, t. split; [|split; [|split; [exact Hch|exact Hf']]].
      + unfold trimmed_tessellate. change (match opts with Some o => ao_tol o | None => slit 1 100 end) with tol. rewrite E. cbn [bind]. fold s. rewrite Eg. cbn [bind]. exact Em.
      + apply Forall_forall. intros v Hv'. destruct (Hin v Hv') as [K'|(l & K1 & K2)]; [exact (Og v K')|exact (proj1 (Dm l v K1 K2))].
  Qed.
End Real.
