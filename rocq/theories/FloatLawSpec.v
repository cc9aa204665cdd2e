(** Specification vocabulary for C92: a linear frequency law whose numbers are of ordinary size. *)
From Coq Require Import Reals ZArith SpecFloat.
From Verif Require Import FloatSpec CalcSpec.
Local Open Scope R_scope.

(** The straight line that f_t.py draws, in real arithmetic: [t * (f1 - f0) / (te - ts) + f0]. *)
Definition line (ts te f0 f1 t : R) : R := t * (f1 - f0) / (te - ts) + f0.
(** times and frequencies of at most 2^300 and a duration of at least 2^-300 *)
Definition f64_line (ts te f0 f1 : spec_float) : Prop :=
  f64_ordinary ts /\ f64_ordinary te /\ f64_ordinary f0 /\ f64_ordinary f1 /\ powerRZ 2 (-300) <= f64_val te - f64_val ts.
(** how far a frequency [v + f0] on the line may be from the exact one *)
Definition line_error (f0 v : R) : R := / 2 ^ 50 * Rabs (v - f0) + / 2 ^ 53 * Rabs v + powerRZ 2 (-770).
(** the datum stands for the whole number [z] *)
Definition f64_whole (x : spec_float) (z : Z) : Prop := f64_fin x /\ f64_val x = IZR z.
