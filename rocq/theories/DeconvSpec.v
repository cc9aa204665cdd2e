(** Specifications used by the statements about filters and reverse signals (C94); independent of the model code. *)
From Coq Require Import Reals List.
Import ListNotations.
Local Open Scope R_scope.

(** a symmetric pulse around time 0 of a periodic time axis: no sample is larger than the one at 0, and the
    samples at equal distances before and after 0 are equal *)
Definition pulse (w : list R) : Prop :=
  0 < nth 0 w 0 < 1 /\
  (forall i, (i < length w)%nat -> - nth 0 w 0 <= nth i w 0 <= nth 0 w 0) /\
  (forall i, (1 <= i < length w)%nat -> nth (length w - i) w 0 = nth i w 0).
