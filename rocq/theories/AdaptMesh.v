(** * The triangles of an adaptive mesh tile the parameter rectangle *)
From Coq Require Import Reals Lra Lia List Sorted.
From Verif Require Import Base BaseFacts Scalar KnotFacts KnotModel MiscModel CurveModel SurfaceModel AdaptModel AdaptProofs AdaptForest AdaptReal AdaptEdges AdaptPoly.
Import ListNotations.
Open Scope R_scope.

(** the triangles of a mesh, in parameter space *)
Definition face_tri (uvs : list Pt) (f : list nat) : Tri :=
  match f with [i; j; k] => (nth i uvs (0, 0), nth j uvs (0, 0), nth k uvs (0, 0)) | _ => ((0, 0), (0, 0), (0, 0)) end.
Definition mesh_tris (m : Tess R) : list Tri := map (face_tri (tuvs m)) (tfaces m).

Lemma face_tri_app us vs fs : Forall (fun f => length f = 3%nat /\ Forall (fun i => (i < length us)%nat) f) fs ->
  map (face_tri (us ++ vs)) fs = map (face_tri us) fs.
Proof.
  intros F. apply map_ext_in. intros f Hf. rewrite Forall_forall in F. destruct (F f Hf) as (L & G).
  destruct f as [|i [|j [|k [|]]]]; try discriminate. inversion G as [|? ? G1 G2]; subst. inversion G2 as [|? ? G3 G4]; subst. inversion G4; subst.
  unfold face_tri. rewrite !app_nth1 by assumption. reflexivity.
Qed.
Lemma fan_tris uvs c : forall ids j, map (face_tri uvs) (fan c j ids) = fans (nth c uvs (0, 0)) (nth j uvs (0, 0)) (map (fun i => nth i uvs (0, 0)) ids).
Proof. induction ids as [|i ids IH]; intros j; [reflexivity|]. cbn [fan map fans]. now rewrite IH. Qed.
Lemma nth_base {A} (d : A) us ps ws : forall i, (i < length ps)%nat -> nth (length us + i) (us ++ ps ++ ws) d = nth i ps d.
Proof. intros i Hi. rewrite app_nth2_plus. now rewrite app_nth1. Qed.
Lemma map_nth_seq {A} (d : A) (ps : list A) : map (fun i => nth i ps d) (seq 0 (length ps)) = ps.
Proof.
  apply (list_ext d); [now rewrite map_length, seq_length|]. intros i Hi. rewrite map_length, seq_length in Hi.
  rewrite (nth_map_lt _ _ _ 0%nat) by (now rewrite seq_length). now rewrite seq_nth.
Qed.
Lemma last_nth {A} (d : A) : forall l, last l d = nth (length l - 1) l d.
Proof.
  induction l as [|x l IH]; [reflexivity|]. destruct l as [|y l]; [reflexivity|]. transitivity (last (y :: l) d); [reflexivity|]. rewrite IH.
  cbn [length]. rewrite !Nat.sub_succ, !Nat.sub_0_r. reflexivity.
Qed.

Section Real.
  Variables eps maxv : R.
  Local Hint Extern 0 (Scalar R) => exact (ROps eps maxv) : typeclass_instances.

  Lemma triangulate_tiles s nodes m n m' r : mesh_ok m -> an_children n = None -> rect_ok r -> an_center n = centre r ->
    (forall e l, get_all_corners nodes n e = Ok l -> side e r (map sp_uv l)) ->
    triangulate s nodes None m n = Ok m' -> exists ts, mesh_tris m' = mesh_tris m ++ ts /\ tiles ts r.
  Proof.
    intros (_ & HU & HF) Hc Hr Hce HS E. unfold triangulate in E. rewrite Hc in E. apply bind_ok in E. destruct E as ([sid pts] & EL & E).
    unfold leaf_polygon in EL. apply bind_ok in EL. destruct EL as (cs & Ecs & EL). cbn [bind] in EL. injection EL as EI EP.
    unfold edges in Ecs. cbn [mapM] in Ecs.
    apply bind_ok in Ecs. destruct Ecs as (cS & ES & Ecs). apply bind_ok in Ecs. destruct Ecs as (l1 & Ecs & El1). injection El1 as <-.
    apply bind_ok in Ecs. destruct Ecs as (cE & EE & Ecs). apply bind_ok in Ecs. destruct Ecs as (l2 & Ecs & El2). injection El2 as <-.
    apply bind_ok in Ecs. destruct Ecs as (cN & EN & Ecs). apply bind_ok in Ecs. destruct Ecs as (l3 & Ecs & El3). injection El3 as <-.
    apply bind_ok in Ecs. destruct Ecs as (cW & EW & Ecs). injection Ecs as <-.
    apply HS in ES, EE, EN, EW. clear HS.
    assert (XS := ES). assert (XE := EE). assert (XN := EN). assert (XW := EW).
    destruct XS as (xS & XS & _ & FS), XE as (xE & XE & _ & FE), XN as (xN & XN & _ & FN), XW as (xW & XW & _ & FW).
    set (xs := fun e => match e with South => xS | East => xE | North => xN | West => xW end).
    assert (Hx : forall e, side e r (corner_of e r :: xs e)) by (intros []; cbn [xs]; [rewrite <- XS|rewrite <- XE|rewrite <- XN|rewrite <- XW]; assumption).
    assert (PU : map sp_uv pts = poly r xs).
    { rewrite <- EP. cbn [concat]. rewrite app_nil_r, !map_app, XS, XE, XN, XW. reflexivity. }
    assert (LE : length pts = (4 + (length xS + length xE + length xN + length xW))%nat).
    { rewrite <- (map_length sp_uv pts), PU. unfold poly. rewrite !app_length. cbn [length xs]. lia. }
    assert (Lb : length (tpts m) = length (tuvs m)) by auto. rewrite <- Lb in HF || idtac.
    assert (OLD : forall vs, map (face_tri (tuvs m ++ vs)) (tfaces m) = mesh_tris m).
    { intros vs. apply face_tri_app. eapply Forall_impl; [|exact HF]. intros f. cbv beta. now rewrite Lb. }
    assert (Lu : @length Pt (map sp_uv pts) = length pts) by apply map_length.
    set (U := map sp_uv pts) in *.
    assert (LS : length cS = S (length xS)) by (rewrite <- (map_length sp_uv cS), XS; reflexivity).
    assert (LEE : length cE = S (length xE)) by (rewrite <- (map_length sp_uv cE), XE; reflexivity).
    assert (LN : length cN = S (length xN)) by (rewrite <- (map_length sp_uv cN), XN; reflexivity).
    assert (LW : length cW = S (length xW)) by (rewrite <- (map_length sp_uv cW), XW; reflexivity).
    destruct (Nat.eqb_spec (length pts) 4) as [K4|K4]; [|destruct (Nat.eqb_spec (length pts) 5) as [K5|K5]].
    - injection E as <-. unfold mesh_tris at 1. cbn [tuvs tfaces]. rewrite map_app, OLD. eexists. split; [reflexivity|].
      destruct xS; [|cbn [length] in LE; lia]. destruct xE; [|cbn [length] in LE; lia]. destruct xN; [|cbn [length] in LE; lia]. destruct xW; [|cbn [length] in LE; lia].
      cbn [map face_tri]. rewrite Lb. rewrite <- (app_nil_r U). rewrite !nth_base by lia. rewrite PU. destruct r as (l, b, r, t). cbn. destruct Hr as (H1 & H2). cbn in H1, H2.
      now apply quad_tiles.
    - apply bind_ok in E. destruct E as (a & Ea & E). injection E as <-. unfold mesh_tris at 1. cbn [tuvs tfaces]. rewrite map_app, OLD. eexists. split; [reflexivity|].
      apply get_inv in Ea. destruct Ea as (La & Ea). specialize (Ea 0%nat). rewrite map_length, seq_length in La.
      rewrite (nth_map_lt _ _ _ 0%nat) in Ea by (now rewrite seq_length). rewrite seq_nth in Ea by exact La. subst a.
      cbn [map]. unfold face_tri. rewrite Lb. rewrite <- (app_nil_r U).
      assert (M : forall i, ((sid + i) mod 5 < @length Pt U)%nat) by (intros i; rewrite Lu, K5; apply Nat.mod_upper_bound; lia).
      rewrite !nth_base by first [apply M|change (sid < @length Pt U)%nat; lia]. clear M. cbn [Nat.add]. rewrite PU.
      assert (G : forall e q, side e r [corner_of e r; q] -> tiles (five e r q) r).
      { intros e q (ys & Ey & _ & Fy). injection Ey as <-. inversion Fy as [|? ? (F1 & F2) _]; subst. apply five_tiles; [exact Hr|exact F1|exact F2]. }
      destruct xS as [|q [|]]; [|destruct xE; [|cbn [length] in LE; lia]; destruct xN; [|cbn [length] in LE; lia]; destruct xW; [|cbn [length] in LE; lia]|cbn [length] in LE; lia].
      2:{ cbn [position] in EI. rewrite LS in EI. cbn in EI. subst sid. specialize (G South q ltac:(now rewrite <- XS)). cbn. exact G. }
      destruct xE as [|q [|]]; [|destruct xN; [|cbn [length] in LE; lia]; destruct xW; [|cbn [length] in LE; lia]|cbn [length] in LE; lia].
      2:{ cbn [position] in EI. rewrite LS, LEE in EI. cbn in EI. subst sid. specialize (G East q ltac:(now rewrite <- XE)). cbn. exact G. }
      destruct xN as [|q [|]]; [|destruct xW; [|cbn [length] in LE; lia]|cbn [length] in LE; lia].
      2:{ cbn [position] in EI. rewrite LS, LEE, LN in EI. cbn in EI. subst sid. specialize (G North q ltac:(now rewrite <- XN)). cbn. exact G. }
      destruct xW as [|q [|]]; [cbn [length] in LE; lia| |cbn [length] in LE; lia].
      cbn [position] in EI. rewrite LS, LEE, LN, LW in EI. cbn in EI. subst sid. specialize (G West q ltac:(now rewrite <- XW)). cbn. exact G.
    - apply bind_ok in E. destruct E as (c & Ec & E). apply bind_ok in E. destruct E as (k & Ek & E). injection E as <-. apply usub_inv in Ek. destruct Ek as (Ek & ->).
      apply evaluate_uv in Ec. unfold mesh_tris at 1. cbn [tuvs tfaces]. rewrite <- app_assoc, map_app, OLD. eexists. split; [reflexivity|].
      rewrite fan_tris. fold U. rewrite Lb. rewrite Ec, Hce.
      rewrite (nth_base _ _ _ _ (length pts - 1)) by (change (length pts - 1 < @length Pt U)%nat; lia). rewrite map_map.
      rewrite (map_ext_in _ (fun i => nth i U (0, 0))) by (intros i Hi; apply in_seq in Hi; apply nth_base; change (i < @length Pt U)%nat; lia).
      rewrite <- Lu. rewrite map_nth_seq, <- last_nth.
      rewrite app_nth2_plus. rewrite app_nth2 by (apply Nat.le_refl). rewrite Nat.sub_diag. cbn [nth]. rewrite PU.
      pose proof (centre_fan_tiles r xs Hr Hx) as G. replace (last (poly r xs) (0, 0)) with (last (poly r xs) (corner_of South r)); [exact G|].
      unfold poly. cbn [app]. rewrite !last_cons. reflexivity.
  Qed.
End Real.
