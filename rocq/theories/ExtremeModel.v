(** [Relation.max] and [Relation.min] on objects (by value: [rel_max], [rel_min] in RelModel.v). *)
From Coq Require Import List.
From Verif Require Import Num Numpy AxisModel RelModel HeapModel.

Section Extreme.
Context (A : Arith) (V : Vals A).
Notation "'do!' x <- a ; b" := (bindM A V a (fun x => b))
  (at level 200, x pattern, a at level 100, b at level 200).
(** [max], relation.py 225-231: the [max] of the array of samples; numpy raises ValueError for no samples.  The
    array is read at the time of the call. *)
Definition h_max (r : loc) : HeapModel.M A V (val V) :=
  do! o <- get_rel A V r;
  do! y <- get_y A V (ro_y o);
  lift A V (match amax_val A V y with Some v => Ok v | None => Err EValue end).
(** [min], relation.py 233-239 *)
Definition h_min (r : loc) : HeapModel.M A V (val V) :=
  do! o <- get_rel A V r;
  do! y <- get_y A V (ro_y o);
  lift A V (match amin_val A V y with Some v => Ok v | None => Err EValue end).
End Extreme.
