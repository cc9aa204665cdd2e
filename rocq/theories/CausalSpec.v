(** Specification vocabulary for C89: which samples a result depends on. *)
From Coq Require Import Reals List.
From Verif Require Import Num AxisModel RelModel SweepModel LinSpec.
Import ListNotations.

(** the same first [m] elements *)
Definition upto {T} (m : nat) (y y' : list T) : Prop := forall i, (i < m)%nat -> nth_error y i = nth_error y' i.

(** relations on the same axis with as many samples, the first [m] of them the same *)
Definition early A V (m : nat) (r r' : rel A V) : Prop := alike A V r r' /\ upto m (r_y r) (r_y r').

(** samples on one axis, the same at every time for which [P] holds *)
Definition same_where {A V} (P : num A -> Prop) (r r' : rel A V) : Prop :=
  r_x r = r_x r' /\ length (r_y r) = length (r_y r') /\
  forall xs, axis_array A (r_x r) = Ok xs -> forall i x, nth_error xs i = Some x -> P x -> nth_error (r_y r) i = nth_error (r_y r') i.

(** a law given by a function of one number, applied to arrays element by element *)
Definition by_element {A V} (c : callable A V) (f : num A -> val V) : Prop := cl_num c = Ok f /\ forall l, cl_arr c l = Ok (map f l).

(** the quadrature uses the function only between its bounds *)
Definition quad_local (quad : (R -> R) -> R -> R -> R) : Prop :=
  forall g g' a b, (a <= b)%R -> (forall t, (a <= t <= b)%R -> g t = g' t) -> quad g a b = quad g' a b.

Local Open Scope R_scope.
(** the times of an axis of [n] points that stand at [t] or next to it *)
Definition beside (x : axis RA) (n : nat) (t u : num RA) : Prop := u = t \/ Rabs (u - t) < Rabs ((a_end x - a_start x) / INR (n - 1)).
