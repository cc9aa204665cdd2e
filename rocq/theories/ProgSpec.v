(** Vocabulary for programs over names: what it means that names bound to objects stand for values. *)
From Coq Require Import ZArith List Bool.
From Verif Require Import Num Numpy AxisModel RelModel HeapModel HeapSpec ProgModel.
Import ListNotations.

Section ProgSpec.
Context (A : Arith) (V : Vals A).
Notation heap := (heap A V).
Notation rel := (rel A V).

(** as many samples as points on the axis *)
Definition fits (r : rel) : Prop := axis_size A (r_x r) = Ok (length (r_y r)).
(** object [l] of class [k] made with methods [cf] has content [c] *)
Definition stands (k : cls) (cf : hconfig A V) (h : heap) (l : loc) (c : rel) : Prop :=
  rel_view A V h l = Some c /\ cls_of A V h l = Some k /\ cfg_of A V h l = Some cf /\ fits c.
(** the same names are bound, each to an object with the value's content *)
Definition stand (k : cls) (cf : hconfig A V) (h : heap) (s : env loc) (v : env rel) : Prop :=
  forall x, match s x, v x with Some l, Some c => stands k cf h l c | None, None => True | _, _ => False end.
(** sharing an axis object makes no difference to an operator *)
Definition share_blind (c : config A V) : Prop :=
  forall o r1 r2, fits r1 -> fits r2 -> r_x r1 = r_x r2 -> rel_op A V c o true r1 r2 = rel_op A V c o false r1 r2.
(** every object of [h] is in [h'] with the same content, class, methods and axis object *)
Definition untouched (h h' : heap) : Prop :=
  (forall r c, rel_view A V h r = Some c -> rel_view A V h' r = Some c) /\
  (forall a p, ax_view A V h a = Some p -> ax_view A V h' a = Some p /\ read_array A V h' a = read_array A V h a) /\
  (forall r k, cls_of A V h r = Some k -> cls_of A V h' r = Some k) /\
  (forall r cf, cfg_of A V h r = Some cf -> cfg_of A V h' r = Some cf) /\
  (forall r a, axis_of A V h r = Some a -> axis_of A V h' r = Some a).
(** the program calls [shift] (which signals do through their spectrum) *)
Fixpoint shifts_e (e : expr A V) : bool :=
  match e with
  | EName _ => false
  | EBin _ e1 e2 => shifts_e e1 || shifts_e e2
  | ENum _ e1 _ => shifts_e e1
  | EMeth m e1 => match m with MShift _ => true | _ => shifts_e e1 end
  end.
Fixpoint shifts (p : stmt A V) : bool :=
  match p with
  | SAssign _ e | SAug _ _ e => shifts_e e
  | SAugNum _ _ _ | SSkip => false
  | SFor _ b => shifts b
  | SSeq p q => shifts p || shifts q
  end.
(** names the program assigns *)
Fixpoint assigned (p : stmt A V) (x : nat) : Prop :=
  match p with
  | SAssign y _ | SAug y _ _ | SAugNum y _ _ => x = y
  | SFor _ b => assigned b x
  | SSkip => False
  | SSeq p q => assigned p x \/ assigned q x
  end.
End ProgSpec.
