(** Specification vocabulary for C86: samples and axes of ordinary size in binary64, exact sums and trapezoids. *)
From Coq Require Import Reals ZArith List Permutation SpecFloat.
From Verif Require Import FloatSpec.
Import ListNotations.
Local Open Scope R_scope.

(** a finite binary64 number of at most 2^300 *)
Definition f64_ordinary (y : spec_float) : Prop := f64_fin y /\ Rabs (f64_val y) <= powerRZ 2 300.
(** an everyday axis running forward, its sample between 2^-300 and 2^300 *)
Definition f64_forward (s e d : spec_float) (n : nat) : Prop :=
  f64_tame s e d n /\ powerRZ 2 (-300) <= f64_val d <= powerRZ 2 300 /\ f64_val s <= f64_val e.
(** the exact mean of the samples [i] and [i+1] *)
Definition mean (y : list R) (i : nat) : R := (nth i y 0 + nth (S i) y 0) / 2.
(** [f 0 + ... + f k] *)
Fixpoint upto (f : nat -> R) (k : nat) : R := match k with O => f 0%nat | S j => upto f j + f (S j) end.
Definition vals (y : list spec_float) : list R := map f64_val y.
(** [v] comes about by adding up the numbers of [l] in binary64, two at a time, in whatever order; zeros may be added in *)
Inductive added : list spec_float -> spec_float -> Prop :=
| added_none b : added [] (S754_zero b)
| added_one x : added [x] x
| added_two l r x y : added l x -> added r y -> added (l ++ r) (SFadd 53 1024 x y)
| added_order l l' x : Permutation l l' -> added l x -> added l' x.
(** areas under the straight lines from point to point *)
Fixpoint panels (x y : list R) : list R :=
  match x, y with
  | x0 :: ((x1 :: _) as x'), y0 :: ((y1 :: _) as y') => (x1 - x0) * (y0 + y1) / 2 :: panels x' y'
  | _, _ => []
  end.
Definition total (l : list R) : R := fold_right Rplus 0 l.

(** ** C87: sums of products *)
Definition look {T} (l : list T) (z : Z) : option T := if (z <? 0)%Z then None else nth_error l (Z.to_nat z).
Definition both {T} (x y : option T) : list (T * T) := match x, y with Some a, Some b => [(a, b)] | _, _ => [] end.
(** the factors of the convolution at [k], a[n] and b[k - n] *)
Definition conv_pairs {T} (a b : list T) (k : Z) : list (T * T) :=
  flat_map (fun n => both (look a (Z.of_nat n)) (look b (k - Z.of_nat n))) (seq 0 (length a)).
(** the factors of the correlation at [lag], a[n] and b[n - lag] *)
Definition corr_pairs {T} (a b : list T) (lag : Z) : list (T * T) :=
  flat_map (fun n => both (look a (Z.of_nat n)) (look b (Z.of_nat n - lag))) (seq 0 (length a)).
(** [v] comes about by multiplying and adding up in binary64: in whatever order, each product rounded by itself or together with the
    addition (fused multiply-add); zeros may be added in *)
Inductive dotted : list (spec_float * spec_float) -> spec_float -> Prop :=
| dot_none b : dotted [] (S754_zero b)
| dot_one a b : dotted [(a, b)] (SFmul 53 1024 a b)
| dot_two l r x y : dotted l x -> dotted r y -> dotted (l ++ r) (SFadd 53 1024 x y)
| dot_fused a b l x z : dotted l x -> f64_nearest (f64_val a * f64_val b + f64_val x) z -> dotted ((a, b) :: l) z
| dot_order l l' x : Permutation l l' -> dotted l x -> dotted l' x.
(** absolute values of the samples *)
Definition absv (y : list spec_float) : list R := map Rabs (vals y).
(** the number is a whole number *)
Definition whole (x : spec_float) : Prop := exists m : Z, f64_val x = IZR m.

(** ** C88: numbers lying near the points X0, X0 + delta, X0 + 2 delta, ... *)
Definition near_grid (xs : list spec_float) (X0 delta eta : R) : Prop :=
  forall i x, nth_error xs i = Some x -> f64_fin x /\ Rabs (f64_val x - (X0 + INR i * delta)) <= eta.
