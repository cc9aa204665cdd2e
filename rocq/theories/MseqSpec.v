(** Specifications for the statements about m-sequences; independent of the model code. *)
From Coq Require Import ZArith List Bool.
Import ListNotations.
Local Open Scope nat_scope.

(** the linear recurrence of order [k] with the given taps: every bit is the sum modulo 2 of the bit [k] places
    before and of the bits at the taps, counted (modulo [k]) from there *)
Definition next_bit (taps : list nat) (k : nat) (s : nat -> bool) (i : nat) : bool :=
  fold_left xorb (map (fun j => s (i + j mod k)) taps) (s i).
Definition follows (taps : list nat) (k : nat) (s : nat -> bool) : Prop := forall i, s (i + k) = next_bit taps k s i.
(** a finite code obeys the recurrence as far as it reaches *)
Definition obeys (taps : list nat) (k : nat) (m : list bool) : Prop :=
  forall i, i + k < length m -> nth (i + k) m false = next_bit taps k (fun j => nth j m false) i.
(** [k] successive bits *)
Definition window (s : nat -> bool) (k i : nat) : list bool := map s (seq i k).
(** The taps belong to a maximal length sequence: some sequence following the recurrence starts with different
    windows, none of them zero, as long as there are any; and the bit that leaves counts only once. *)
Definition maximal (taps : list nat) (k : nat) : Prop :=
  (forall j, In j taps -> j mod k <> 0) /\
  exists s, follows taps k s /\ In true (window s k 0) /\
    forall i j, i < j < 2 ^ k - 1 -> window s k i <> window s k j.
(** number of ones *)
Definition ones (m : list bool) : nat := count_occ bool_dec m true.
(** bits as +1 and -1; periodic autocorrelation at lag [l] *)
Definition sign (b : bool) : Z := if b then (-1)%Z else 1%Z.
Fixpoint zsum (f : nat -> Z) (n : nat) : Z := match n with O => 0%Z | S m => (zsum f m + f m)%Z end.
Definition periodic_correlation (m : list bool) (l : nat) : Z :=
  zsum (fun i => (sign (nth i m false) * sign (nth ((i + l) mod length m) m false))%Z) (length m).
(** the register starts with the given bits, or with 1, 0, 0, ... when they are all zero *)
Definition start_bit (b : nat -> bool) (k i : nat) : bool := if existsb b (seq 0 k) then b i else Nat.eqb i 0.
