(** Specification vocabulary for the binary64 theorems (C77, C78): the real number a binary64 datum
    stands for, correct rounding, and axes whose numbers are of ordinary size.  Nothing here refers to
    the model functions. *)
From Coq Require Import Reals ZArith List SpecFloat.
Local Open Scope R_scope.

(** [x] is a finite binary64 number (mantissa and exponent in range). *)
Definition f64_fin (x : spec_float) : Prop :=
  valid_binary 53 1024 x = true /\
  match x with S754_zero _ | S754_finite _ _ _ => True | S754_infinity _ | S754_nan => False end.

(** the real number it stands for *)
Definition f64_val (x : spec_float) : R :=
  match x with
  | S754_finite s m e => (if s then - IZR (Zpos m) else IZR (Zpos m)) * powerRZ 2 e
  | _ => 0
  end.

(** [x] is a finite binary64 number and none is closer to the real number [r]. *)
Definition f64_nearest (r : R) (x : spec_float) : Prop :=
  f64_fin x /\ forall y, f64_fin y -> Rabs (f64_val x - r) <= Rabs (f64_val y - r).

(** The axis start, end, sample has [n] intervals of ordinary size: numbers between 2^-1000 and
    2^1000, and a span that is [n] samples up to the given tolerance (at least a quarter of a sample
    for every axis of less than 2^49 points). *)
Definition f64_axis (s e d : spec_float) (n : nat) : Prop :=
  f64_fin s /\ f64_fin e /\ f64_fin d /\
  Rabs (f64_val s) <= powerRZ 2 1000 /\ Rabs (f64_val e) <= powerRZ 2 1000 /\
  powerRZ 2 (-1000) <= Rabs (f64_val d) /\
  Rabs (Rabs (f64_val e - f64_val s) / Rabs (f64_val d) - INR n) <= / 2 - INR (n + 1) * / 2 ^ 51.

(** An everyday axis: neither end further than 2^46 samples from zero, and a span that is [n] samples
    up to a quarter of a sample. *)
Definition f64_tame (s e d : spec_float) (n : nat) : Prop :=
  f64_fin s /\ f64_fin e /\ f64_fin d /\
  powerRZ 2 (-1000) <= Rabs (f64_val d) <= powerRZ 2 900 /\
  Rabs (f64_val s) <= 2 ^ 46 * Rabs (f64_val d) /\ Rabs (f64_val e) <= 2 ^ 46 * Rabs (f64_val d) /\
  Rabs (Rabs (f64_val e - f64_val s) / Rabs (f64_val d) - INR n) <= / 4.
