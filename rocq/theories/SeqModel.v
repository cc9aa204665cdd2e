(** A relation used as a Python sequence: [len(r)], [bool(r)], [r[key]], [for p in r], [reversed(r)]. *)
From Coq Require Import ZArith List Bool.
From Verif Require Import Num Numpy AxisModel RelModel HeapModel.
Import ListNotations.

Section Seq.
Context (A : Arith) (V : Vals A).
Notation rel := (rel A V).
Notation num := (num A).
Notation val := (val V).

(** [__len__], relation.py 497-498: the size of the axis.  [bool(r)] is [len(r) != 0], the class defining no
    [__bool__]. *)
Definition rel_len (r : rel) : result nat := axis_size A (r_x r).
Definition rel_bool (r : rel) : result bool := do n <- rel_len r; Ok (negb (Nat.eqb n 0)).
(** the same on an object *)
Definition h_len (r : loc) : HeapModel.heap A V -> result nat * HeapModel.heap A V :=
  bindM A V (get_rel A V r) (fun o => ax_size A V (ro_x o)).

(** [__getitem__], relation.py 500-526: a float, int or complex gives a point, a slice a selection (its step is
    not read), anything else nothing.  A complex index is not modelled. *)
Inductive key := KeyNum (v : num) | KeySlice (start stop step : option num) | KeyOther.
Inductive item := ItPoint (x : num) (y : val) | ItRel (r : rel) | ItNone.
Definition rel_index (k : key) (r : rel) : result item :=
  match k with
  | KeyNum v => do p <- rel_getitem A V v r; Ok (ItPoint (fst p) (snd p))
  | KeySlice s e _ => do r' <- rel_select A V s e r; Ok (ItRel r')
  | KeyOther => Ok ItNone
  end.

(** The class has no [__iter__], so [for p in r] calls [r[0]], [r[1]], ... until an IndexError (Python's
    sequence iteration).  [steps]: the items of the first calls and what has become of the iteration. *)
Inductive going := Running | Ended | Failed (e : exn).
Definition rel_item (i : nat) (r : rel) : result (num * val) := rel_getitem A V (n_of_Z A (Z.of_nat i)) r.
Fixpoint steps_from (n i : nat) (r : rel) : list (num * val) * going :=
  match n with
  | O => ([], Running)
  | S m => match rel_item i r with
           | Ok p => let q := steps_from m (S i) r in (p :: fst q, snd q)
           | Err EIndex => ([], Ended)
           | Err e => ([], Failed e)
           end
  end.
Definition steps (n : nat) (r : rel) : list (num * val) * going := steps_from n 0 r.
(** [reversed(r)] calls [r[len(r)-1]], ..., [r[0]] until an IndexError *)
Fixpoint back_from (n : nat) (r : rel) : list (num * val) * going :=
  match n with
  | O => ([], Ended)
  | S m => match rel_item m r with
           | Ok p => let q := back_from m r in (p :: fst q, snd q)
           | Err EIndex => ([], Ended)
           | Err e => ([], Failed e)
           end
  end.
Definition rel_reversed (r : rel) : result (list (num * val) * going) := do n <- rel_len r; Ok (back_from n r).
End Seq.
