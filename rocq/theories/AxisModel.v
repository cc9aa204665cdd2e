(** Value level of sweep_design/axis.py. *)
From Coq Require Import ZArith List Bool.
From Verif Require Import Num Numpy.
Import ListNotations.

Section Axis.
Context (A : Arith).
Notation num := (num A).

(** The three parameters of an [ArrayAxis] (axis.py 11-25).  Complex axes are not modelled. *)
Record axis : Type := mkAxis { a_start : num; a_end : num; a_sample : num }.

(** [round(abs((end - start) / sample)) + 1], axis.py 41-44.
    Division by a zero sample and rounding of inf/nan raise (ZeroDivisionError, OverflowError or
    ValueError depending on the float class; one exception here). *)
Definition axis_size (a : axis) : result nat :=
  if n_eq A (a_sample a) (n_of_Z A 0) then Err EArith
  else match n_round A (n_abs A (n_div A (n_sub A (a_end a) (a_start a)) (a_sample a))) with
       | Some k => Ok (Z.to_nat k + 1)
       | None => Err EArith
       end.

(** [ArrayAxis.array], axis.py 34-46 (value; the caching is modelled at heap level). *)
Definition axis_array (a : axis) : result (list num) :=
  do n <- axis_size a; Ok (linspace A (a_start a) (a_end a) n).

(** [get_actual_sample], axis.py 103-116: [np.min(np.diff(x))]; the [np.unique] that follows works on
    that single number.  ValueError when there is no difference. *)
Definition actual_sample (x : list num) : result num :=
  match amin_num A (np_diff_num A x) with Some d => Ok d | None => Err EValue end.

(** Assignments to the properties, axis.py 52-55, 61-64, 76-79. *)
Definition set_start (v : num) (a : axis) : axis := mkAxis v (a_end a) (a_sample a).
Definition set_end (v : num) (a : axis) : axis := mkAxis (a_start a) v (a_sample a).
Definition set_sample (v : num) (a : axis) : axis := mkAxis (a_start a) (a_end a) v.

(** An array-like argument: its numbers and whether numpy gives it a floating dtype.
    (numpy integer scalars are not instances of int or float.) *)
Record seq_in : Type := mkSeq { s_float : bool; s_data : list num }.

(** The rounded sample, axis.py 133-134: [1 / round(1 / dx) if dx < 1 else round(dx)]. *)
Definition round_sample (dx : num) : result num :=
  if n_lt A dx (n_of_Z A 1) then
    if n_eq A dx (n_of_Z A 0) then Err EArith
    else match n_round A (n_div A (n_of_Z A 1) dx) with
         | None => Err EArith
         | Some k => if Z.eqb k 0 then Err EArith
                     else Ok (n_div A (n_of_Z A 1) (n_of_Z A k))
         end
  else match n_round A dx with None => Err EArith | Some k => Ok (n_of_Z A k) end.

(** [get_array_axis_from_array], axis.py 119-136. *)
Definition axis_of_array (x : seq_in) (round_dx : bool) : result axis :=
  do dx <- actual_sample (s_data x);
  do dx' <- (if round_dx && s_float x then round_sample dx else Ok dx);
  match s_data x with
  | [] => Err EIndex
  | x0 :: _ => Ok (mkAxis x0 (last (s_data x) x0) dx')
  end.

End Axis.
Arguments mkAxis {A} _ _ _.
Arguments a_start {A} _.
Arguments a_end {A} _.
Arguments a_sample {A} _.
Arguments mkSeq {A} _ _.
Arguments s_float {A} _.
Arguments s_data {A} _.

(** Sanity runs (tests, not proofs), exact rationals and binary64. *)
From Coq Require Import QArith.
Example run_axis_Q : axis_array QA (mkAxis (A:=QA) (0#1) (1#2) (1#10)) =
  Ok [0#1; 1#10; 1#5; 3#10; 2#5; 1#2]%Q.
Proof. vm_compute. reflexivity. Qed.
(** tests/test_axis.py 30-32: [-5.5, -2.5, 1.5, 4.5] gives sample 3.0 *)
Example run_axis_of_array_Q :
  axis_of_array QA (mkSeq (A:=QA) true [(-11)#2; (-5)#2; 3#2; 9#2]%Q) true = Ok (mkAxis (A:=QA) ((-11)#2) (9#2) (3#1)).
Proof. vm_compute. reflexivity. Qed.
(** tests/test_axis.py 27-29: [0, 0.1, ..., 0.5] gives sample 0.1 in binary64 *)
Example run_axis_of_array_F :
  match axis_of_array FA (mkSeq (A:=FA) true [f64 0 1; f64 1 10; f64 2 10; f64 3 10; f64 4 10; f64 5 10]) true with
  | Ok a => Some (a_start a : SpecFloat.spec_float, a_end a : SpecFloat.spec_float, a_sample a : SpecFloat.spec_float)
  | Err _ => None
  end = Some (f64 0 1, f64 5 10, f64 1 10).
Proof. vm_compute. reflexivity. Qed.
