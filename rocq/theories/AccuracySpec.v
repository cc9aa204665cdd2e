(** Specification vocabulary for C83: how far sampled laws and numerical methods are from the continuous ones. *)
From Coq Require Import Reals List.
From Coquelicot Require Import Coquelicot.
From Verif Require Import Spec.
Import ListNotations.
Local Open Scope R_scope.

(** [f] has the derivative [f'] on [a, b], and [f'] changes by at most [M] per unit. *)
Definition smooth_on (f f' : R -> R) (a b M : R) : Prop :=
  (forall t, a <= t <= b -> is_derive f t (f' t)) /\
  (forall u v, a <= u <= b -> a <= v <= b -> Rabs (f' u - f' v) <= M * Rabs (u - v)).

(** the values of [f] at [n] equally spaced points from [s] to [e] *)
Definition samples_of (f : R -> R) (s e : R) (n : nat) : list R := map f (grid s e n).

(** how far a law given by [p] samples over the length [T] is from the function sampled, once it is brought to [n] samples *)
Definition resampling_error (M T : R) (p n : nat) : R := if Nat.eqb p n then 0 else M / 8 * (T / INR (p - 1)) ^ 2.
