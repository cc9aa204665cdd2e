(** Specification vocabulary for C90: the sine and the constant 2 pi of a binary64 library. *)
From Coq Require Import Reals ZArith SpecFloat.
From Verif Require Import FloatSpec CalcSpec.
Local Open Scope R_scope.

(** On finite numbers [f] is the sine up to [eps], and never more than 1 in size. *)
Definition sin_within (eps : R) (f : spec_float -> spec_float) : Prop :=
  forall x, f64_fin x -> f64_fin (f x) /\ Rabs (f64_val (f x)) <= 1 /\ Rabs (f64_val (f x) - sin (f64_val x)) <= eps.
(** [p] is 2 pi up to half a part in 2^50 *)
Definition near_2pi (p : spec_float) : Prop := f64_fin p /\ Rabs (f64_val p - 2 * PI) <= / 2 ^ 51.
(** The largest error of the angle in radians, for a number of periods [I] known up to [q] and an initial angle [t0]. *)
Definition angle_error (I q t0 : R) : R := 9 * q + / 2 ^ 48 * Rabs I + / 2 ^ 53 * Rabs t0 + powerRZ 2 (-1073).
(** The largest error of a sample of amplitude [a] whose angle is known up to [delta]. *)
Definition sample_error (a eps delta : R) : R := Rabs a * (eps + delta + / 2 ^ 53) + powerRZ 2 (-1075).
(** The number of periods at sample [k] of a frequency with means [f] from sample to sample, [d] apart. *)
Definition periods (d : R) (f : nat -> R) (k : nat) : R := match k with O => 0 | S j => d * upto f j end.
(** how far the running integral in binary64 may be from it *)
Definition periods_error (d : R) (f : nat -> R) (k : nat) : R :=
  match k with
  | O => 0
  | S j => (INR j + 3) / 2 ^ 52 * (d * upto (fun i => Rabs (f i)) j) + (INR j + 2) * (d + 1) * powerRZ 2 (-1074)
  end.
