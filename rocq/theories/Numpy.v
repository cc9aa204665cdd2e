(** numpy / scipy array primitives used by the repository, over any [Arith] and [Vals].
    These model library functions (numpy 1.23, scipy 1.9, the versions of /repo/poetry.lock);
    each comment names the library function and the /repo lines that use it. *)
From Coq Require Import ZArith List Bool.
From Verif Require Import Num.
Import ListNotations.

Section Numpy.
Context (A : Arith) (V : Vals A).
Notation num := (num A).
Notation val := (val V).

Definition n_of_nat (n : nat) : num := n_of_Z A (Z.of_nat n).

(** [numpy.linspace(s, e, n)], axis.py 41-44.  numpy computes [arange(n)*step + start]
    (or [arange(n)/div*delta + start] when the step underflows to zero) and then overwrites the
    last element with [stop] when n > 1. *)
Definition linspace (s e : num) (n : nat) : list num :=
  match n with
  | O => []
  | S O => [s]
  | S m =>
      let delta := n_sub A e s in
      let step := n_div A delta (n_of_nat m) in
      map (fun i => n_add A (if n_eq A step (n_of_Z A 0)
                             then n_mul A (n_div A (n_of_nat i) (n_of_nat m)) delta
                             else n_mul A (n_of_nat i) step) s)
          (seq 0 m) ++ [e]
  end.

(** consecutive differences, [numpy.diff] *)
Fixpoint diffs {T U} (sub : T -> T -> U) (l : list T) : list U :=
  match l with
  | a :: ((b :: _) as t) => sub b a :: diffs sub t
  | _ => []
  end.
Definition np_diff_num (l : list num) : list num := diffs (n_sub A) l.       (* axis.py 113 *)
Definition np_diff_val (l : list val) : list val := diffs (v_sub V) l.       (* methods.py 124 *)

(** running combination, [numpy.cumsum] / [numpy.cumprod] *)
Fixpoint cumul_from {T} (op : T -> T -> T) (acc : T) (l : list T) : list T :=
  match l with [] => [] | a :: t => op acc a :: cumul_from op (op acc a) t end.
Definition cumul {T} (op : T -> T -> T) (l : list T) : list T :=
  match l with [] => [] | a :: t => a :: cumul_from op a t end.

(** [scipy.integrate.cumulative_trapezoid(y)] with dx=1, methods.py 105 *)
Definition cum_trapz (y : list val) : list val :=
  cumul (v_add V) (diffs (fun b a => v_div V (v_add V b a) (v_of V (n_of_Z A 2))) y).

Definition v_sum (l : list val) : val := fold_left (v_add V) l (v_of V (n_of_Z A 0)).

(** [scipy.integrate.trapezoid(y, x)], methods.py 86.  Equal lengths are checked by the caller. *)
Fixpoint trapz_terms (y : list val) (x : list num) : list val :=
  match y, x with
  | y0 :: ((y1 :: _) as y'), x0 :: ((x1 :: _) as x') =>
      v_div V (v_mul V (v_of V (n_sub A x1 x0)) (v_add V y1 y0)) (v_of V (n_of_Z A 2))
        :: trapz_terms y' x'
  | _, _ => []
  end.
Definition trapz (y : list val) (x : list num) : val := v_sum (trapz_terms y x).

(** boolean mask indexing [arr[mask]] *)
Fixpoint mask {T} (m : list bool) (l : list T) : list T :=
  match m, l with
  | b :: m', a :: l' => if b then a :: mask m' l' else mask m' l'
  | _, _ => []
  end.

(** first index of the minimum, [ndarray.argmin] *)
Fixpoint argmin_from (i best : nat) (m : num) (l : list num) : nat :=
  match l with
  | [] => best
  | a :: t => if n_lt A a m then argmin_from (S i) i a t else argmin_from (S i) best m t
  end.
Definition argmin (l : list num) : option nat :=
  match l with [] => None | a :: t => Some (argmin_from 1 0 a t) end.

(** [numpy.min] of a real array, [ndarray.max]/[min] of a sample array; None models the
    ValueError on an empty array. *)
Definition amin_num (l : list num) : option num :=
  match l with [] => None | a :: t => Some (fold_left (fun m x => if n_lt A x m then x else m) t a) end.
Definition amax_val (l : list val) : option val :=
  match l with [] => None | a :: t => Some (fold_left (fun m x => if v_lt V m x then x else m) t a) end.
Definition amin_val (l : list val) : option val :=
  match l with [] => None | a :: t => Some (fold_left (fun m x => if v_lt V x m then x else m) t a) end.

(** stable sort by abscissa: [interp1d] with assume_sorted=False argsorts x (mergesort) *)
Fixpoint insert_pt (p : num * val) (l : list (num * val)) : list (num * val) :=
  match l with
  | [] => [p]
  | q :: t => if n_lt A (fst q) (fst p) then q :: insert_pt p t else p :: l
  end.
Definition sort_pts (l : list (num * val)) : list (num * val) := fold_right insert_pt [] l.

(** [numpy.interp]-style evaluation inside the range of sorted points: at a sample point the sample
    itself, between two points the straight line through them. *)
Fixpoint interp_in (pts : list (num * val)) (x : num) : val :=
  match pts with
  | [] => v_of V (n_of_Z A 0)
  | (x0, y0) :: rest =>
      match rest with
      | [] => y0
      | (x1, y1) :: _ =>
          if n_lt A x x1 then
            if n_eq A x0 x then y0
            else v_add V (v_mul V (v_div V (v_sub V y1 y0) (v_of V (n_sub A x1 x0)))
                                  (v_of V (n_sub A x x0))) y0
          else interp_in rest x
      end
  end.

(** [interp1d(x, y, bounds_error=False, fill_value=0.0)(t)], methods.py 151-158: fill outside.  Simplification: for
    a single complex sample scipy divides 0 by 0 and gives nan; here the sample itself is the value at its point. *)
Definition interp_at (pts : list (num * val)) (x : num) : val :=
  match pts with
  | [] => v_of V (n_of_Z A 0)
  | (x0, _) :: _ =>
      if n_lt A x x0 || n_lt A (fst (last pts (x, v_of V (n_of_Z A 0)))) x
      then v_of V (n_of_Z A 0)
      else interp_in pts x
  end.
(** ValueError when the two arrays differ in length. *)
Definition interp1d (x : list num) (y : list val) : result (num -> val) :=
  if Nat.eqb (length x) (length y) then Ok (interp_at (sort_pts (combine x y))) else Err EValue.

(** [numpy.convolve(a, v, "full")], methods.py 225; ValueError on empty input. *)
Definition conv_term (a v : list val) (k j : nat) : val :=
  match (if Nat.leb j k then nth_error v (k - j) else None), nth_error a j with
  | Some vv, Some aa => v_mul V aa vv
  | _, _ => v_of V (n_of_Z A 0)
  end.
Definition convolve_full (a v : list val) : list val :=
  map (fun k => v_sum (map (conv_term a v k) (seq 0 (length a)))) (seq 0 (length a + length v - 1)).
Definition np_convolve (a v : list val) : result (list val) :=
  match a, v with [], _ | _, [] => Err EValue | _, _ => Ok (convolve_full a v) end.
(** [numpy.correlate(a, v, "full")], methods.py 203: conjugate and reverse the second array. *)
Definition np_correlate (a v : list val) : result (list val) :=
  np_convolve a (rev (map (v_conj V) v)).

End Numpy.
Arguments diffs {T U} sub l.
Arguments mask {T} m l.
