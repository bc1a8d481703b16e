(** * Model of src/boolean/boolean_curve.rs, boolean_compound_curve.rs and mod.rs: the whole boolean operation

    Crossings are found, classified and handed to [clip].  The intersection of two curves and the containment test of a point are
    arguments; [cc_intersections] (IntersectModel), [curve_contains] and [compound_contains] (ContainsModel) are their models. *)
From Coq Require Import ZArith String.
From Verif Require Import Base Scalar KnotModel MiscModel CurveModel CurveKnotModel SplitModel CompoundModel BBoxModel IntersectModel ClipModel.

(** the two types that boolean operations accept: NurbsCurve and CompoundCurve *)
Inductive Opd (T : Type) := OpCurve (c : Curve T) | OpCompound (spans : list (Curve T)).
Arguments OpCurve {T} c.
Arguments OpCompound {T} spans.

Section BooleanOps.
  Context {T : Type} {SO : Scalar T}.

  (** region/compound_curve.rs:246-255 [From<NurbsCurve>]: a curve is a compound curve of one span ([CompoundCurve::new] leaves one span as it is) *)
  Definition opd_spans (o : Opd T) : list (Curve T) := match o with OpCurve c => [c] | OpCompound ss => ss end.

  (** trim/mod.rs: the trimming of either type *)
  Definition opd_trim (o : Opd T) (a b : T) : Res (list (Curve T)) :=
    match o with OpCurve c => try_trim_range c a b | OpCompound ss => compound_trim ss a b end.

  (** misc/end_points.rs:26-28 and 42-44 [first_point] *)
  Definition opd_first (o : Opd T) : Res (list T) :=
    match o with
    | OpCurve c => first_point c
    | OpCompound [] => Panic "called unwrap() on a None value"
    | OpCompound (c :: _) => first_point c
    end.

  (** compound_curve_intersection.rs:55-57 [swap] *)
  Definition hit_swap (h : Hit) : @Hit T := MkHit (hb_p h) (hb_t h) (ha_p h) (ha_t h).
  Definition chit_swap (x : CHit) : @CHit T := let '(a, b, h) := x in (b, a, hit_swap h).
  Definition chit_b (x : @CHit T) : T := hb_t (snd x).

  Variable inter : Curve T -> Curve T -> Res (list (@Hit T)).
  Variable contains : Opd T -> list T -> Res bool.

  (** boolean_curve.rs:25-30 and 47-55, boolean_compound_curve.rs:25 and 43: the crossings; a curve with a compound curve goes through the
      intersection of the compound curve with the curve, sorts by the parameter on the curve (stable) and swaps the roles *)
  Definition boolean_hits (a b : Opd T) : Res (list (@CHit T)) :=
    match a, b with
    | OpCurve a, OpCurve b => its <- inter a b ;; Ok (map (fun it => (a, b, it)) its)
    | OpCurve a, OpCompound bs => its <- compound_x_curve inter bs a ;; Ok (map chit_swap (sort_by chit_b its))
    | OpCompound ss, OpCurve b => compound_x_curve inter ss b
    | OpCompound ss, OpCompound bs => compound_x_compound inter ss bs
    end.

  (** clip.rs:107-113: the classification of the crossings, with the spans they lie on *)
  Definition classify (hits : list (@CHit T)) : Res (list ((T * T) * Degeneracy T)) :=
    mapM (fun '(sa, sb, h) => d <- degeneracy sa sb (ha_t h) (hb_t h) ;; Ok ((ha_t h, hb_t h), d)) hits.

  (** boolean_curve.rs:19-32 and 41-57, boolean_compound_curve.rs:19-27 and 37-45 [boolean]; the containment tests are clip.rs:140-141 *)
  Definition boolean (op : BooleanOperation) (a b : Opd T) : Res (list (Region (list (Curve T)))) :=
    hits <- boolean_hits a b ;;
    xs <- classify hits ;;
    clip (fun side => opd_trim (if side then a else b)) compound_new (opd_spans a) (opd_spans b) op
      (p <- opd_first a ;; contains b p) (p <- opd_first b ;; contains a p) xs.

  (** boolean/mod.rs:21-31 [union], [intersection], [difference] *)
  Definition op_union := boolean Union.
  Definition op_intersection := boolean Intersection.
  Definition op_difference := boolean Difference.
End BooleanOps.
