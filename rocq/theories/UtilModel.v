(** What [str] of an axis or a relation is made of, and the wrappers around empirical mode decomposition. *)
From Coq Require Import ZArith List Bool.
From Verif Require Import Num Numpy AxisModel RelModel HeapModel.
Import ListNotations.

Section Util.
Context (A : Arith) (V : Vals A).
Notation num := (num A).
Notation val := (val V).
Notation M := (HeapModel.M A V).
Notation "'do!' x <- a ; b" := (bindM A V a (fun x => b))
  (at level 200, x pattern, a at level 100, b at level 200).

(** The values formatted by [ArrayAxis.__str__], axis.py 93-100, in order: start, end, sample, size, calculated
    sample.  The text itself is not modelled. *)
Record axis_text : Type := mkText {
  t_start : num; t_end : num; t_sample : num; t_size : nat; t_calculated : num }.
(** by value: the size is read before the calculated sample *)
Definition axis_str (p : axis A) : result axis_text :=
  do n <- axis_size A p;
  do xs <- axis_array A p;
  do d <- actual_sample A xs;
  Ok (mkText (a_start p) (a_end p) (a_sample p) n d).
(** on an axis object *)
Definition h_axis_str (a : loc) : M axis_text :=
  do! o <- get_ax A V a;
  do! n <- ax_size A V a;
  do! d <- ax_actual A V a;
  ret A V (mkText (a_start (ao_p o)) (a_end (ao_p o)) (a_sample (ao_p o)) n d).
(** [Relation.__str__], relation.py 527-528: the samples, then the text of the axis *)
Definition rel_str (r : rel A V) : result (list val * axis_text) :=
  do t <- axis_str (r_x r); Ok (r_y r, t).
Definition h_rel_str (r : loc) : M (list val * axis_text) :=
  do! o <- get_rel A V r;
  do! y <- get_y A V (ro_y o);
  do! t <- h_axis_str (ro_x o);
  ret A V (y, t).

(** [[Signal(data.x.copy(), k) for k in IMFs]], emd_analyze.py 80-81, 102-103 *)
Fixpoint h_components (a : loc) (ks : list (list val)) : M (list loc) :=
  match ks with
  | [] => ret A V []
  | k :: t =>
      do! c <- ax_copy A V a;
      do! r <- new_plain A V KSig (XaAxis c) (Some k) None;
      do! rs <- h_components a t;
      ret A V (r :: rs)
  end.
(** [get_IMFs_ceemdan], emd_analyze.py 7-82, and [get_IMFs_emd], 85-104: [emd] stands for the decomposition object of
    PyEMD with its parameters, a function of the samples (the random noise of CEEMDAN is part of it). *)
Definition h_imfs (emd : list val -> result (list (list val))) (r : loc) : M (list loc) :=
  do! o <- get_rel A V r;
  do! y <- get_y A V (ro_y o);
  do! ks <- lift A V (emd y);
  h_components (ro_x o) ks.
(** adding the components up, [r1 + r2 + ... + rn] *)
Fixpoint sum_from (c : config A V) (acc : rel A V) (l : list (rel A V)) : result (rel A V) :=
  match l with [] => Ok acc | r :: t => do s <- rel_op A V c ADD false acc r; sum_from c s t end.
End Util.
Arguments mkText {A}. Arguments t_start {A}. Arguments t_end {A}. Arguments t_sample {A}.
Arguments t_size {A}. Arguments t_calculated {A}.
