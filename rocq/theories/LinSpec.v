(** Specification vocabulary for C85: what samples do and do not influence, linear programs. *)
From Coq Require Import List Bool.
From Verif Require Import Num Numpy AxisModel RelModel HeapModel ProgModel.
Import ListNotations.

Section Shape.
Context (A : Arith) (V : Vals A).
Notation rel := (rel A V).
(** the same axis and as many samples *)
Definition alike (r1 r2 : rel) : Prop := r_x r1 = r_x r2 /\ length (r_y r1) = length (r_y r2).
Definition both {T} (P : T -> T -> Prop) (a b : result T) : Prop :=
  match a, b with Ok x, Ok y => P x y | Err e, Err e' => e = e' | _, _ => False end.
(** the same names are bound, to relations alike *)
Definition alike_env (s1 s2 : env rel) : Prop :=
  forall x, match s1 x, s2 x with Some r1, Some r2 => alike r1 r2 | None, None => True | _, _ => False end.

(** [a r1 + b r2], sample by sample, on the axis of [r1] *)
Definition mix (a b : val V) (r1 r2 : rel) : rel :=
  mkRel (r_x r1) (map2 (fun u v => v_add V (v_mul V a u) (v_mul V b v)) (r_y r1) (r_y r2)).
Definition mix_env (a b : val V) (s1 s2 : env rel) : env rel :=
  fun x => match s1 x, s2 x with Some r1, Some r2 => Some (mix a b r1 r2) | _, _ => None end.
Definition res_mix (a b : val V) (r1 r2 : result rel) : result rel :=
  match r1, r2 with Ok x, Ok y => Ok (mix a b x y) | Err e, _ => Err e | _, Err e => Err e end.

(** programs of additions and subtractions of relations, multiplications and divisions by numbers, [diff],
    [integrate], [select_data] and [shift] *)
Definition linear_bin (o : mathop) : bool := match o with ADD | RADD | SUB | RSUB => true | _ => false end.
Definition linear_num (o : mathop) : bool := match o with MUL | RMUL | TRUEDIV => true | _ => false end.
Fixpoint linear_e (e : expr A V) : bool :=
  match e with
  | EName _ => true
  | EBin o e1 e2 => linear_bin o && linear_e e1 && linear_e e2
  | ENum o e1 _ => linear_num o && linear_e e1
  | EMeth m e1 => match m with MExp => false | _ => linear_e e1 end
  end.
Fixpoint linear_p (p : stmt A V) : bool :=
  match p with
  | SAssign _ e => linear_e e
  | SAug _ o e => linear_bin o && linear_e e
  | SAugNum _ o _ => linear_num o
  | SFor _ b => linear_p b
  | SSkip => true
  | SSeq p q => linear_p p && linear_p q
  end.
End Shape.
