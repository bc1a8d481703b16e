(** * Tessellation of regions and trimmed surfaces *)
From Coq Require Import Reals Lra Lia List ZArith Bool.
From Verif Require Import Base BaseFacts Scalar RSum KnotModel KnotFacts VecFacts MiscModel CurveModel CurveSpec SurfaceModel SurfaceSpec SurfaceProofs MergeModel ClipModel AdaptModel
  AdaptPoly AdaptTotal AdaptMain SerdeModel TessCurveModel PolygonProofs PolygonConnected TrimModel TrimSpec TrimProofs.
Import ListNotations.
Open Scope R_scope.

Section Real.
  Variables eps maxv : R.
  Local Hint Extern 0 (Scalar R) => exact (ROps eps maxv) : typeclass_instances.
  Local Notation inside := (inside eps maxv).

  (** [p], [q], [r] are the positions of the corners of a face *)
  Definition corners {V} (pos : V -> list R) (verts : list V) (f : nat * nat * nat) (p q r : list R) : Prop :=
    let '(a, b, c) := f in
    nth_error (map pos verts) a = Some p /\ nth_error (map pos verts) b = Some q /\ nth_error (map pos verts) c = Some r.

  (** what a mesh chosen from the faces of a triangulation has to satisfy: its faces are faces of the triangulation, not
      degenerate, and the centroid of each lies in the trimmed domain *)
  Definition chosen {V} (pos : V -> list R) ext ints (all : list (nat * nat * nat)) (m : Mesh V) : Prop :=
    forall f, In f (mfaces m) -> In f all /\ exists p q r, corners pos (mverts m) f p q r /\ eps <= Rabs (turn p q r) /\ inside ext ints (centroid eps maxv p q r).
  (** each of its triangles lies entirely in the trimmed domain, and no triangle with a point of the domain is left out *)
  Definition fills {V} (pos : V -> list R) ext ints (all : list (nat * nat * nat)) (m : Mesh V) : Prop :=
    (forall f p q r x, In f (mfaces m) -> corners pos (mverts m) f p q r -> in_triangle p q r x -> inside ext ints x) /\
    (forall f p q r x, In f all -> corners pos (mverts m) f p q r -> eps <= Rabs (turn p q r) -> in_triangle p q r x -> inside ext ints x -> In f (mfaces m)).

  Lemma nth_map {A B} (g : A -> B) l i y : nth_error (map g l) i = Some y <-> exists x, nth_error l i = Some x /\ g x = y.
  Proof.
    rewrite nth_error_map. destruct (nth_error l i) as [x|]; cbn; split.
    - intros E. injection E as <-. eauto.
    - intros (x' & E & <-). now injection E as ->.
    - discriminate.
    - intros (x & E & _). discriminate.
  Qed.

  Lemma mesh_of {V} (D : Delaunay V) (pos : V -> list R) wall ext ints t :
    lawful D pos wall -> (forall v, In v (dt_vertices D t) -> length (pos v) = 2%nat) ->
    exists faces, keep_faces pos ext ints (dt_vertices D t) (dt_faces D t) = Ok faces /\
      chosen pos ext ints (dt_faces D t) (MkMesh (dt_vertices D t) faces) /\
      (0 < eps -> (forall l, (ext = Some l \/ In l ints) -> forall e x, In e (edges l) -> on_seg (fst e) (snd e) x -> fst e = snd e \/ wall t x) ->
       fills pos ext ints (dt_faces D t) (MkMesh (dt_vertices D t) faces)).
  Proof.
    intros L Hl. destruct (keep_faces_total eps maxv pos ext ints (dt_vertices D t) (dt_faces D t) (lw_range _ _ _ L t)) as (faces & E).
    exists faces. split; [exact E|]. pose proof (keep_faces_spec eps maxv pos ext ints _ _ _ E) as K.
    assert (Len : forall i v, nth_error (dt_vertices D t) i = Some v -> length (pos v) = 2%nat) by (intros i v Hv; apply Hl; eapply nth_error_In; eauto).
    split.
    - intros [[a b] c] Hf. apply K in Hf. destruct Hf as (Hf & va & vb & vc & Ea & Eb & Ec & Ek). split; [exact Hf|].
      apply (keep_triangle_spec eps maxv) in Ek; eauto. exists (pos va), (pos vb), (pos vc). split; [|exact Ek].
      cbn [corners mverts]. rewrite !nth_map. split; [eauto|]. split; eauto.
    - intros He Hw.
      assert (Cl : forall va vb vc a b c, In (a, b, c) (dt_faces D t) -> nth_error (dt_vertices D t) a = Some va -> nth_error (dt_vertices D t) b = Some vb ->
        nth_error (dt_vertices D t) c = Some vc -> eps <= Rabs (turn (pos va) (pos vb) (pos vc)) -> forall x, in_triangle (pos va) (pos vb) (pos vc) x -> ~ wall t x).
      { intros va vb vc a b c Hf Ea Eb Ec Ht x Hx. apply (lw_clear _ _ _ L t a b c va vb vc x Hf Ea Eb Ec); [|exact Hx]. intros Z. rewrite Z, Rabs_R0 in Ht. lra. }
      split.
      + intros [[a b] c] p q r x Hf Hc Hx. cbn [corners mverts mfaces] in *. rewrite !nth_map in Hc. destruct Hc as ((va & Ea & <-) & (vb & Eb & <-) & (vc & Ec & <-)).
        apply K in Hf. destruct Hf as (Hf & va' & vb' & vc' & Ea' & Eb' & Ec' & Ek). rewrite Ea in Ea'. rewrite Eb in Eb'. rewrite Ec in Ec'. injection Ea' as <-. injection Eb' as <-. injection Ec' as <-.
        apply (keep_triangle_spec eps maxv) in Ek; eauto. destruct Ek as (Ht & Hi).
        apply (triangle_uniform eps maxv (wall t) ext ints _ _ _ Hw (Cl va vb vc a b c Hf Ea Eb Ec Ht) _ x (centroid_in eps maxv _ _ _ (Len _ _ Ea) (Len _ _ Eb) (Len _ _ Ec)) Hx Hi).
      + intros [[a b] c] p q r x Hf Hc Ht Hx Hi. cbn [corners mverts mfaces] in *. rewrite !nth_map in Hc. destruct Hc as ((va & Ea & <-) & (vb & Eb & <-) & (vc & Ec & <-)).
        apply K. split; [exact Hf|]. exists va, vb, vc. split; [exact Ea|]. split; [exact Eb|]. split; [exact Ec|].
        apply (keep_triangle_spec eps maxv); eauto. split; [exact Ht|].
        apply (triangle_uniform eps maxv (wall t) ext ints _ _ _ Hw (Cl va vb vc a b c Hf Ea Eb Ec Ht) x _ Hx (centroid_in eps maxv _ _ _ (Len _ _ Ea) (Len _ _ Eb) (Len _ _ Ec)) Hi).
  Qed.

  (** ** Regions *)
  Theorem region_tessellate_spec (D : Delaunay (list R)) wall rng fuel r tol ext ints k k' :
    lawful D (fun p => p) wall ->
    tessellate_compound rng fuel (rexterior r) tol 0 = Ok (ext, k) -> tessellate_loops rng fuel (rinteriors r) tol k = Ok (ints, k') ->
    (forall l v, In l (ext :: ints) -> In v l -> length v = 2%nat) ->
    exists m t, region_tessellate D rng fuel r tol = Ok m /\ mverts m = dt_vertices D t /\
      (forall v, In v (mverts m) -> exists l, In l (ext :: ints) /\ In v l) /\
      chosen (fun p => p) (Some ext) ints (dt_faces D t) m /\
      (0 < eps -> loops_accepted D (dt_empty D) (ext :: ints) ->
       (forall l v, In l (ext :: ints) -> In v l -> In v (mverts m)) /\ fills (fun p => p) (Some ext) ints (dt_faces D t) m).
  Proof.
    intros L E1 E2 Hl. set (t := fold_left (insert_loop D) (ext :: ints) (dt_empty D)).
    assert (Hin : forall v, In v (dt_vertices D t) -> exists l, In l (ext :: ints) /\ In v l).
    { intros v Hv. destruct (loops_in D _ _ L _ _ _ Hv) as [H|H]; [|exact H]. rewrite (lw_empty _ _ _ L) in H. destruct H. }
    destruct (mesh_of D (fun p => p) wall (Some ext) ints t L) as (faces & Ek & Hc & Hf).
    { intros v Hv. destruct (Hin v Hv) as (l & H1 & H2). exact (Hl l v H1 H2). }
    exists (MkMesh (dt_vertices D t) faces), t. split; [|split; [reflexivity|split; [exact Hin|split; [exact Hc|]]]].
    - unfold region_tessellate. rewrite E1. cbn [bind]. rewrite E2. cbn [bind]. unfold region_mesh. fold t. rewrite Ek. reflexivity.
    - intros He Ha. pose proof (fun l => loops_spec D (fun p => p) wall L (ext :: ints) (dt_empty D) Ha l) as W. split.
      + intros l v H1 H2. destruct (W l H1) as (_ & N). destruct (N v H2) as (h & Nh). unfold named in Nh. rewrite map_id in Nh. exact (nth_error_In _ _ Nh).
      + apply Hf; [exact He|]. intros l H. assert (H' : In l (ext :: ints)) by (destruct H as [H|H]; [injection H as <-; now left|now right]).
        destruct (W l H') as (W' & _). rewrite map_id in W'. exact W'.
  Qed.

  (** ** Trimmed surfaces *)
  (** the polygon without its first vertex has the same edges when it is closed *)
  Lemma edges_tail (v : list R) t : last (v :: t) v = v -> forall e, In e (edges (v :: t)) -> fst e = snd e \/ In e (edges t).
  Proof.
    intros Hl e He. destruct t as [|w t].
    - cbn in He. destruct He as [<-|[]]. now left.
    - destruct (exists_last (l := w :: t)) as (t' & z & Et); [discriminate|].
      assert (z = v) as ->. { rewrite <- Hl. change (v :: w :: t) with ([v] ++ w :: t). rewrite Et, app_assoc, last_last. reflexivity. }
      change (edges (v :: w :: t)) with ((v, w) :: combine (w :: t) (t ++ [v])) in He. change (edges (w :: t)) with (combine (w :: t) (t ++ [w])).
      destruct He as [<-|He].
      + right. (* the last edge of the tail *)
        assert (G : forall (l l' : list (list R)) (a b : list R), length l = length l' -> In (a, b) (combine (l ++ [a]) (l' ++ [b]))).
        { induction l as [|x l IH]; intros [|y l'] a b E; try discriminate E; [now left|]. right. apply IH. now injection E. }
        rewrite Et. apply G. apply (f_equal (@length (list R))) in Et. rewrite app_length in Et. cbn in Et. lia.
      + assert (G : forall (l l' : list (list R)) (a b c : list R) e, length l = length l' -> In e (combine (l ++ [a]) (l' ++ [b])) -> In e (combine (l ++ [a]) (l' ++ [c])) \/ e = (a, b)).
        { induction l as [|x l IH]; intros [|y l'] a b c e' E H; try discriminate E.
          - cbn in H. destruct H as [<-|[]]. now right.
          - cbn [app combine In] in *. destruct H as [H|H]; [left; now left|]. injection E as E. destruct (IH l' a b c e' E H) as [K|K]; [left; now right|now right]. }
        rewrite Et in He. destruct (G t' t v v w e) as [K|K]; [apply (f_equal (@length (list R))) in Et; rewrite app_length in Et; cbn in Et; lia|exact He| |].
        * right. rewrite Et. exact K.
        * left. now subst e.
  Qed.

  Local Notation Vx := (@Vertex R).
  (** a loop that closes in space closes in the parameter plane *)
  Definition closes (l : list Vx) : Prop :=
    forall v t, l = v :: t -> (forall i, rc i (vx_point v) = rc i (vx_point (last l v))) -> vx_uv (last l v) = vx_uv v.

  Lemma veqb_spec (a b : list R) : length a = length b -> (veqb a b = true <-> forall i, rc i a = rc i b).
  Proof.
    unfold veqb. revert b. induction a as [|x a IH]; intros [|y b] E; try discriminate E; [cbn; split; auto|].
    injection E as E. specialize (IH b E). cbn [combine forallb]. rewrite andb_true_iff, IH. rs. rewrite Reqb_true. split.
    - intros (-> & H) [|i]; [reflexivity|]. apply (H i).
    - intros H. split; [exact (H 0%nat)|intros i; exact (H (S i))].
  Qed.

  Lemma last_map {A B} (g : A -> B) l d : last (map g l) (g d) = g (last l d).
  Proof. induction l as [|x l IH]; [reflexivity|]. destruct l; [reflexivity|exact IH]. Qed.

  Lemma loop_vertices_spec (l : list Vx) : closes l -> (forall v, In v l -> length (vx_point v) = 3%nat) ->
    (forall v, In v (loop_vertices l) -> In v l) /\
    (forall e, In e (edges (map vx_uv l)) -> fst e = snd e \/ In e (edges (map vx_uv (loop_vertices l)))) /\
    (forall v, In v l -> (2 <= length l)%nat -> In (vx_uv v) (map vx_uv (loop_vertices l))).
  Proof.
    intros Hc Hd. destruct l as [|v t]; [cbn; repeat split; auto; intros ? []|].
    unfold loop_vertices. destruct (veqb (vx_point v) (vx_point (last (v :: t) v))) eqn:Ev.
    - assert (Lv : last (v :: t) v = v \/ In (last (v :: t) v) t).
      { clear. induction t as [|w t IH] using rev_ind; [now left|]. right. change (v :: t ++ [w]) with ((v :: t) ++ [w]). rewrite last_last. apply in_or_app. right. now left. }
      assert (In (last (v :: t) v) (v :: t)) as Li by (destruct Lv as [->|H]; [now left|now right]).
      assert (E : vx_uv (last (v :: t) v) = vx_uv v).
      { apply (Hc v t eq_refl). apply (proj1 (veqb_spec _ _ (eq_trans (Hd v (or_introl eq_refl)) (eq_sym (Hd _ Li))))). exact Ev. }
      split; [intros x Hx; right; exact Hx|]. split.
      + cbn [map]. apply edges_tail. change (vx_uv v :: map vx_uv t) with (map vx_uv (v :: t)). now rewrite last_map.
      + intros x [<-|Hx] H2; [|now apply in_map]. destruct t as [|w t] using rev_ind; [cbn in H2; lia|].
        rewrite <- E. apply in_map. change (v :: t ++ [w]) with ((v :: t) ++ [w]). rewrite last_last. apply in_or_app. right. now left.
    - split; [auto|]. split; [auto|]. intros x Hx _. now apply in_map.
  Qed.

  (** the mesh of a trimmed domain *)
  Theorem trim_mesh_spec (D : Delaunay Vx) wall (grid : list Vx) (exterior : option (list Vx)) (interiors : list (list Vx)) :
    lawful D vx_uv wall ->
    let loops := match exterior with Some e => e :: interiors | None => interiors end in
    (forall v, In v grid -> length (vx_uv v) = 2%nat) ->
    (forall l v, In l loops -> In v l -> length (vx_uv v) = 2%nat /\ length (vx_point v) = 3%nat) -> (forall l, In l loops -> closes l) ->
    let ext := option_map (map vx_uv) exterior in
    let ints := map (map vx_uv) interiors in
    exists m t, trim_mesh D grid exterior interiors = Ok m /\ mverts m = dt_vertices D t /\
      (forall v, In v (mverts m) -> In v grid \/ exists l, In l loops /\ In v l) /\
      chosen vx_uv ext ints (dt_faces D t) m /\
      (0 < eps -> loops_accepted D (fst (insert_all D (dt_empty D) grid)) (map loop_vertices loops) ->
       (forall l v, In l loops -> In v l -> (2 <= length l)%nat -> exists w, In w (mverts m) /\ vx_uv w = vx_uv v) /\
       fills vx_uv ext ints (dt_faces D t) m).
  Proof.
    intros L loops Hg Hd Hc ext ints. set (t0 := fst (insert_all D (dt_empty D) grid)).
    set (t := fold_left (insert_loop D) (map loop_vertices loops) t0).
    assert (Et : fold_left (fun t l => insert_loop D t (loop_vertices l)) interiors
                   (match exterior with Some e => insert_loop D t0 (loop_vertices e) | None => t0 end) = t).
    { unfold t, loops. destruct exterior as [e|]; cbn [map fold_left].
      - generalize (insert_loop D t0 (loop_vertices e)). generalize interiors. clear. induction interiors as [|i l IH]; intros s; [reflexivity|]. apply IH.
      - generalize t0. generalize interiors. clear. induction interiors as [|i l IH]; intros s; [reflexivity|]. apply IH. }
    assert (LV : forall l, In l loops -> _) by (intros l Hl; exact (loop_vertices_spec l (Hc l Hl) (fun v Hv => proj2 (Hd l v Hl Hv)))).
    assert (Hin : forall v, In v (dt_vertices D t) -> In v grid \/ exists l, In l loops /\ In v l).
    { intros v Hv. destruct (loops_in D _ _ L _ _ _ Hv) as [H|(l & H1 & H2)].
      - left. unfold t0 in H. destruct (insert_all D (dt_empty D) grid) as [t1 hs] eqn:E. destruct (insert_all_spec D _ _ L grid _ _ _ E) as (_ & _ & _ & I).
        destruct (I v H) as [K|K]; [|exact K]. rewrite (lw_empty _ _ _ L) in K. destruct K.
      - right. apply in_map_iff in H1. destruct H1 as (l' & <- & H1). exists l'. split; [exact H1|]. exact (proj1 (LV l' H1) v H2). }
    destruct (mesh_of D vx_uv wall ext ints t L) as (faces & Ek & Hch & Hf).
    { intros v Hv. destruct (Hin v Hv) as [H|(l & H1 & H2)]; [exact (Hg v H)|exact (proj1 (Hd l v H1 H2))]. }
    exists (MkMesh (dt_vertices D t) faces), t. split; [|split; [reflexivity|split; [exact Hin|split; [exact Hch|]]]].
    - unfold trim_mesh. fold t0. rewrite Et. fold ext. fold ints. rewrite Ek. reflexivity.
    - intros He Ha. pose proof (fun l => loops_spec D vx_uv wall L _ _ Ha l) as W. split.
      + intros l v H1 H2 H3. destruct (W (loop_vertices l) (in_map _ _ _ H1)) as (_ & N).
        destruct (proj1 (in_map_iff _ _ _) (proj2 (proj2 (LV l H1)) v H2 H3)) as (w & Ew & Hw). destruct (N w Hw) as (h & Nh).
        unfold named in Nh. apply nth_map in Nh. destruct Nh as (z & Ez & Eu). exists z. split; [exact (nth_error_In _ _ Ez)|congruence].
      + apply Hf; [exact He|]. intros p H.
        assert (H' : exists l, In l loops /\ p = map vx_uv l).
        { unfold ext, ints, loops in *. destruct H as [H|H].
          - destruct exterior as [e|]; [|discriminate H]. cbn in H. injection H as <-. exists e. split; [now left|reflexivity].
          - apply in_map_iff in H. destruct H as (l & <- & H). exists l. split; [|reflexivity]. destruct exterior; [now right|exact H]. }
        destruct H' as (l & H1 & ->). intros e x He' Hx. destruct (proj1 (proj2 (LV l H1)) e He') as [E|K]; [now left|].
        exact (proj1 (W (loop_vertices l) (in_map _ _ _ H1)) e x K Hx).
  Qed.
End Real.
