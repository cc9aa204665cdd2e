(** Python programs over names bound to relations: expressions of operators and methods, assignment,
    augmented assignment and counted loops.

    Two readings of the same program.  [h_exec]: names hold references to objects in a heap, every operator
    and method call goes through the object-level model (HeapModel.v), an assignment rebinds the name.
    [v_exec]: names hold values (axis parameters and samples), nothing is ever shared. *)
From Coq Require Import ZArith List Bool.
From Verif Require Import Num Numpy AxisModel RelModel HeapModel.
Import ListNotations.

Section Prog.
Context (A : Arith) (V : Vals A) (F : vfun A V).
Notation heap := (heap A V).
Notation rel := (rel A V).
Notation num := (num A).
Notation val := (val V).

(** Methods without a second relation: relation.py 284-293 [exp], 295-305 [diff], 307-317 [integrate],
    253-282 [select_data], 342-356 [shift]. *)
Inductive meth :=
| MDiff | MIntegrate | MExp
| MSelect (s e : option num)
| MShift (d : num).

(** Expressions: a name; [e1 o e2] with both operands relations; [e o v] or [v o e] with a number, the second
    being the reflected operation of [e] (relation.py 440-480); a method call. *)
Inductive expr :=
| EName (x : nat)
| EBin (o : mathop) (e1 e2 : expr)
| ENum (o : mathop) (e : expr) (v : val)
| EMeth (m : meth) (e : expr).

(** Statements: [x = e]; [x o= e] and [x o= v] (relation.py 482-495); [for _ in range(n): body]; sequence. *)
Inductive stmt :=
| SAssign (x : nat) (e : expr)
| SAug (x : nat) (o : mathop) (e : expr)
| SAugNum (x : nat) (o : mathop) (v : val)
| SFor (n : nat) (b : stmt)
| SSkip
| SSeq (p q : stmt).

(** Why a program stopped: a name without a value, or an exception of a call. *)
Inductive stop := Unbound (x : nat) | Raised (e : exn).
Definition ran T : Type := (T + stop)%type.

Definition env T := nat -> option T.
Definition bind_name {T} (x : nat) (v : T) (s : env T) : env T := fun y => if Nat.eqb y x then Some v else s y.

(** ** Objects *)
Definition called (r : result loc * heap) : ran loc * heap :=
  match r with (Ok l, h) => (inl l, h) | (Err e, h) => (inr (Raised e), h) end.
(** relation.py 253-317, 342-356; a signal shifts through its spectrum (signal.py 150-156, [h_shift]) *)
Definition h_meth (m : meth) (l : loc) (h : heap) : result loc * heap :=
  match m with
  | MDiff => h_diff A V l h
  | MIntegrate => h_integrate A V l h
  | MExp => h_exp A V F l h
  | MSelect s e => h_select A V l s e h
  | MShift d => h_shift A V F l d h
  end.
(** relation.py 482-495: [__iadd__], [__isub__], [__imul__], [__ipow__] return [self.__add__(other)], ...;
    Python 3 has no [__idiv__], so [/=] falls back to [__truediv__].  The operator is looked up on the object,
    so signals and spectra use theirs (signal.py 263-281, spectrum.py 273-291, [h_operator]). *)
Definition h_augmented (o : mathop) (l : loc) (b : harg A V) (h : heap) : result loc * heap := h_operator A V o l b h.
(** relation.py 440-480; operands are evaluated from left to right, before the call *)
Fixpoint h_eval (s : env loc) (e : expr) (h : heap) : ran loc * heap :=
  match e with
  | EName x => (match s x with Some l => inl l | None => inr (Unbound x) end, h)
  | EBin o e1 e2 =>
      match h_eval s e1 h with
      | (inl l1, h1) =>
          match h_eval s e2 h1 with
          | (inl l2, h2) => called (h_operator A V o l1 (HRel l2) h2)
          | (inr st, h2) => (inr st, h2)
          end
      | (inr st, h1) => (inr st, h1)
      end
  | ENum o e1 v =>
      match h_eval s e1 h with
      | (inl l1, h1) => called (h_operator A V o l1 (HVal (OVal v)) h1)
      | (inr st, h1) => (inr st, h1)
      end
  | EMeth m e1 =>
      match h_eval s e1 h with
      | (inl l1, h1) => called (h_meth m l1 h1)
      | (inr st, h1) => (inr st, h1)
      end
  end.
(** state of a program: bindings, heap, and why it stopped if it did; [h_exec] of a stopped program is not
    called, [loop] and [SSeq] stop at the first exception *)
Definition h_state : Type := (env loc * heap * option stop)%type.
Definition h_bind (x : nat) (s : env loc) (r : ran loc * heap) : h_state :=
  match r with (inl l, h) => (bind_name x l s, h, None) | (inr st, h) => (s, h, Some st) end.
Fixpoint loop {T} (n : nat) (f : T -> T) (stopped : T -> bool) (a : T) : T :=
  match n with O => a | S m => let b := f a in if stopped b then b else loop m f stopped b end.
Definition is_stopped {T} (a : T * option stop) : bool := match snd a with Some _ => true | None => false end.
Fixpoint h_exec (p : stmt) (a : env loc * heap) : h_state :=
  match p with
  | SAssign x e => h_bind x (fst a) (h_eval (fst a) e (snd a))
  | SAug x o e =>
      match fst a x with
      | None => (fst a, snd a, Some (Unbound x))
      | Some l => match h_eval (fst a) e (snd a) with
                  | (inl l2, h2) => h_bind x (fst a) (called (h_augmented o l (HRel l2) h2))
                  | (inr st, h2) => (fst a, h2, Some st)
                  end
      end
  | SAugNum x o v =>
      match fst a x with
      | None => (fst a, snd a, Some (Unbound x))
      | Some l => h_bind x (fst a) (called (h_augmented o l (HVal (OVal v)) (snd a)))
      end
  | SFor n b => loop n (fun st => h_exec b (fst st)) is_stopped (a, None)
  | SSkip => (a, None)
  | SSeq p q => let st := h_exec p a in if is_stopped st then st else h_exec q (fst st)
  end.

(** ** Values *)
Section Values.
Context (c : config A V).
Definition raised {T} (r : result T) : ran T := match r with Ok v => inl v | Err e => inr (Raised e) end.
(** the value-level functions of RelModel.v *)
Definition v_meth (m : meth) (r : rel) : result rel :=
  match m with
  | MDiff => rel_diff A V c r
  | MIntegrate => rel_integrate A V c r
  | MExp => rel_map A V (vf_exp A V F) r
  | MSelect s e => rel_select A V s e r
  | MShift d => rel_shift A V d r
  end.
(** relation.py 425-480 on values: both operands are always brought to the common axis *)
Fixpoint v_eval (s : env rel) (e : expr) : ran rel :=
  match e with
  | EName x => match s x with Some r => inl r | None => inr (Unbound x) end
  | EBin o e1 e2 =>
      match v_eval s e1 with
      | inl r1 => match v_eval s e2 with inl r2 => raised (rel_op A V c o false r1 r2) | inr st => inr st end
      | inr st => inr st
      end
  | ENum o e1 v =>
      match v_eval s e1 with inl r1 => raised (rel_op_num A V c o r1 (OVal v)) | inr st => inr st end
  | EMeth m e1 => match v_eval s e1 with inl r1 => raised (v_meth m r1) | inr st => inr st end
  end.
Definition v_bind (x : nat) (s : env rel) (r : ran rel) : env rel * option stop :=
  match r with inl v => (bind_name x v s, None) | inr st => (s, Some st) end.
(** [x o= e] is [x = x o e] *)
Fixpoint v_exec (p : stmt) (s : env rel) : env rel * option stop :=
  match p with
  | SAssign x e => v_bind x s (v_eval s e)
  | SAug x o e => v_bind x s (v_eval s (EBin o (EName x) e))
  | SAugNum x o v => v_bind x s (v_eval s (ENum o (EName x) v))
  | SFor n b => loop n (fun st => v_exec b (fst st)) is_stopped (s, None)
  | SSkip => (s, None)
  | SSeq p q => let st := v_exec p s in if is_stopped st then st else v_exec q (fst st)
  end.
End Values.
End Prog.
