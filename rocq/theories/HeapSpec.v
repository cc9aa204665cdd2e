(** What a caller can observe of objects, and which calls say they assign something: vocabulary of the
    object-level properties. *)
From Coq Require Import ZArith List Bool.
From Verif Require Import Num Numpy AxisModel RelModel HeapModel.
Import ListNotations.

Section HeapSpec.
Context (A : Arith) (V : Vals A) (F : vfun A V).
Notation heap := (heap A V).

(** start, end, sample of an axis object *)
Definition ax_view (h : heap) (a : loc) : option (axis A) := option_map ao_p (nth_error (h_ax h) a).
(** the axis object a relation holds, and its class *)
Definition axis_of (h : heap) (r : loc) : option loc := option_map ro_x (nth_error (h_rel h) r).
Definition cls_of (h : heap) (r : loc) : option cls := option_map ro_cls (nth_error (h_rel h) r).
(** a relation's axis parameters and samples *)
Definition rel_view (h : heap) (r : loc) : option (rel A V) :=
  match nth_error (h_rel h) r with
  | None => None
  | Some o => match nth_error (h_ax h) (ro_x o), nth_error (h_yarr h) (ro_y o) with
              | Some ax, Some y => Some (mkRel (ao_p ax) y) | _, _ => None end
  end.
(** the methods a relation captured, the laws of a sweep, the time axis of a generator, the object a
    signal or spectrum remembers as its conversion *)
Definition cfg_of (h : heap) (r : loc) : option (hconfig A V) := option_map ro_cfg (nth_error (h_rel h) r).
Definition laws_of (h : heap) (r : loc) : option (option loc * option loc) :=
  option_map (fun o => (ro_ft o, ro_at o)) (nth_error (h_rel h) r).
Definition gen_axis (h : heap) (g : loc) : option (option loc) := option_map g_time (nth_error (h_gen h) g).
(** what reading .array, .size, .actual_sample reports *)
Definition read_array (h : heap) (a : loc) : result (list (num A)) := fst (ax_array A V a h).
Definition read_size (h : heap) (a : loc) : result nat := fst (ax_size A V a h).
Definition read_actual (h : heap) (a : loc) : result (num A) := fst (ax_actual A V a h).

(** [axis.array[i] = v] (not an [op]: a history contains no such write) *)
Definition write_array (a : loc) (i : nat) (v : num A) (h : heap) : heap :=
  snd (bindM A V (ax_array_loc A V a) (fun l => bindM A V (get_f A V l) (fun f => put_f A V l (upd f i v))) h).

(** classes and contents of the objects a call returns, or the exception it raises *)
Definition outcome (o : op A V) (h : heap) : result (list (option cls * option (rel A V))) :=
  match exec A V F o h with
  | (Ok rs, h') => Ok (map (fun r => (cls_of h' r, rel_view h' r)) rs)
  | (Err e, _) => Err e
  end.

(** assignments: axis [a] is the one assigned by the call, relation [r] the one whose y is written,
    relation [r] the one asked for a conversion with an explicit domain *)
Definition ax_target (h : heap) (o : op A V) (a : loc) : Prop :=
  match o with
  | OSet _ a' _ => a' = a
  | ORelSet _ r _ => axis_of h r = Some a
  | _ => False
  end.
Definition y_target (o : op A V) (r : loc) : Prop :=
  match o with OWriteY r' _ _ => r' = r | _ => False end.
Definition link_target (o : op A V) (r : loc) : Prop :=
  match o with
  | OGetSpectrum r' d _ | OGetSignal r' d _ | OSigAmp r' d _ | OSigPhase r' d _ =>
      r' = r /\ dom_true d = true
  | _ => False
  end.
(** calls that assign to an axis or write samples in place *)
Definition assigns (o : op A V) : Prop :=
  match o with OSet _ _ _ | ORelSet _ _ _ | OWriteY _ _ _ => True | _ => False end.
Definition sets_config (o : op A V) : Prop :=
  match o with OConfig _ | OSweepConfig _ => True | _ => False end.
(** [P] holds of every call of the history, in the state where it happens *)
Fixpoint along (P : heap -> op A V -> Prop) (h : heap) (ops : list (op A V)) : Prop :=
  match ops with [] => True | o :: t => P h o /\ along P (step A V F h o) t end.

(** calls whose results are new objects (see C10): everything that returns relations, except a
    constructor given an axis object, the conversions and the generator call without normalisation *)
Definition independent_result (o : op A V) : Prop :=
  match o with
  | ONew _ (XaAxis _) _ | OGetSpectrum _ _ _ | OGetSignal _ _ _ | OCall _ _ _ => False
  | OApCall _ _ _ _ _ normalize => normalize = true
  | _ => True
  end.

(** the classes of the objects a call returns: arithmetic, shifting, differentiation, ... keep the class of
    their receiver; conversions change it *)
Definition same_class (h : heap) (r : loc) (k : cls) : Prop := cls_of h r = Some k.
Definition result_classes (h : heap) (o : op A V) : list (cls -> Prop) :=
  match o with
  | ONew k _ _ => [eq k]
  | OOperator _ r _ | OShift r _ | ODiff r | OIntegrate r | OExp r | OSelect r _ _ | OInterp r _
  | OReverseSignal r _ _ _ _ | ODeepcopy r => [same_class h r]
  | OEqualize r1 r2 => [same_class h r1; same_class h r2]
  | OLagged _ k _ _ => [eq k]
  | OGetSpectrum _ _ _ => [eq KSpec]
  | OGetSignal _ _ _ => [fun k => k = KSig \/ k = KSweep]
  | OAmp _ | OPhase _ | OSigAmp _ _ _ | OSigPhase _ _ _ => [eq KRel]
  | OFromAmpPhase _ _ | OReverseFilter _ _ _ _ _ => [eq KSpec]
  | OAddPhase r _ | OSubPhase r _ =>
      [fun k => (same_class h r k /\ (k = KSig \/ k = KSweep)) \/ (k = KSpec /\ same_class h r KSpec)]
  | OCall _ _ _ | OApCall _ _ _ _ _ _ => [eq KSweep]
  | _ => []
  end.
(** a relation object that did not exist before, on an axis object and a sample array that did not exist
    before, hence no earlier object refers to them *)
Definition new_object (h h' : heap) (r : loc) : Prop :=
  exists o, nth_error (h_rel h') r = Some o /\ nth_error (h_rel h) r = None /\
    nth_error (h_ax h) (ro_x o) = None /\ nth_error (h_yarr h) (ro_y o) = None.
(** the call assigns only to axes and writes samples only of relations that are new ([new = true]), or only
    that are old, with respect to state [h0] *)
Definition only_through (h0 : heap) (new : bool) (h : heap) (o : op A V) : Prop :=
  (forall a, ax_target h o a -> if new then nth_error (h_ax h0) a = None else nth_error (h_ax h0) a <> None) /\
  (forall r, y_target o r -> if new then nth_error (h_rel h0) r = None else nth_error (h_rel h0) r <> None).
(** calls that use the methods captured by the relation *)
Definition uses_captured (o : op A V) : Prop :=
  match o with
  | ODiff _ | OIntegrate _ | OInterp _ _ | OOperator _ _ (HVal _) | OSelect _ _ _ | OExp _ => True
  | _ => False
  end.
End HeapSpec.
