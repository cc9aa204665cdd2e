(** Specification side of C82: delays and echoes of a sequence of samples.  Indices are integers;
    [at0] (Spec.v) reads 0 outside the sequence. *)
From Coq Require Import Reals ZArith List.
From Verif Require Import Num Spec.
Import ListNotations.

(** [y] has as many samples as [s] and is [s] moved by [k] places; nothing is lost, so [s] ends
    in [k] zeros if [k] is positive (and starts with [-k] zeros if it is negative) *)
Definition delayed {V : Vals RA} (k : Z) (s y : list (val V)) : Prop :=
  length y = length s /\ forall z, at0 y z = at0 s (z - k).
(** sum over the pairs (delay, gain) of gain * f (z - delay) *)
Fixpoint mix {V : Vals RA} (es : list (Z * val V)) (f : Z -> val V) (z : Z) : val V :=
  match es with
  | [] => v_of V (0%R : num RA)
  | (k, c) :: es => v_add V (v_mul V c (f (z - k)%Z)) (mix es f z)
  end.
(** [y] is the superposition of delayed copies of [s], each with its gain *)
Definition echoes {V : Vals RA} (es : list (Z * val V)) (s y : list (val V)) : Prop :=
  length y = length s /\ forall z, at0 y z = mix es (at0 s) z.
