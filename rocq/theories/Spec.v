(** Specification vocabulary.  Nothing here refers to the model functions of axis.py, relation.py
    etc.; only number types and lists are used, so the property statements can be read on their own. *)
From Coq Require Import Reals ZArith List Bool.
From Coquelicot Require Import Complex.
From Verif Require Import Num.
Import ListNotations.
Local Open Scope R_scope.

(** [k] is [x] rounded to the nearest integer, ties to the even one. *)
Definition round_half_even (x : R) (k : Z) : Prop :=
  Rabs (x - IZR k) < / 2 \/ (Rabs (x - IZR k) = / 2 /\ Z.Even k).

(** [x] lies exactly half-way between two integers. *)
Definition is_tie (x : R) : Prop := exists k : Z, x = IZR k + / 2.

(** [n] equally spaced points from [s] to [e] (just [s] when n = 1). *)
Definition grid_pt (s e : R) (n i : nat) : R := s + INR i * ((e - s) / INR (n - 1)).
Definition grid (s e : R) (n : nat) : list R := map (grid_pt s e n) (seq 0 n).

(** The span is a whole number [m] of samples. *)
Definition exact_span (s e d : R) (m : nat) : Prop := 0 < d /\ e - s = INR m * d.

(** What we use of sample values: they form a field containing the reals. *)
Record VLaws (V : Vals RA) : Prop := mkVLaws {
  vl_field : field_theory (v_of V 0) (v_of V 1) (v_add V) (v_mul V) (v_sub V)
               (fun x => v_sub V (v_of V 0) x) (v_div V) (fun x => v_div V (v_of V 1) x) eq;
  vl_of_add : forall a b : R, v_of V (a + b) = v_add V (v_of V a) (v_of V b);
  vl_of_mul : forall a b : R, v_of V (a * b) = v_mul V (v_of V a) (v_of V b);
  vl_of_inj : forall a b : R, v_of V a = v_of V b -> a = b
}.

(** Straight line through (x0,y0) and (x1,y1), at t. *)
Definition line {V : Vals RA} (x0 : R) (y0 : val V) (x1 : R) (y1 : val V) (t : R) : val V :=
  v_add V y0 (v_mul V (v_sub V y1 y0) (v_of V ((t - x0) / (x1 - x0)))).

(** [v] is the value at [t] of the piecewise linear function through the points (xs,ys), which is
    zero strictly outside the points. *)
Inductive pl_value {V : Vals RA} (xs : list R) (ys : list (val V)) (t : R) : val V -> Prop :=
| PL_point : forall i y, nth_error xs i = Some t -> nth_error ys i = Some y -> pl_value xs ys t y
| PL_between : forall i x0 x1 y0 y1,
    nth_error xs i = Some x0 -> nth_error xs (S i) = Some x1 ->
    nth_error ys i = Some y0 -> nth_error ys (S i) = Some y1 ->
    (x0 < t < x1 \/ x1 < t < x0) ->
    pl_value xs ys t (line x0 y0 x1 y1 t)
| PL_outside : xs <> [] -> ((forall x, In x xs -> x < t) \/ (forall x, In x xs -> t < x)) ->
    pl_value xs ys t (v_of V 0).

(** [n] numbers x0, x0+d, x0+2d, ... *)
Definition arith_seq (x0 d : R) (n : nat) : list R := map (fun i => x0 + INR i * d) (seq 0 n).

(** [d] is one of the differences of consecutive elements of [l], and none is smaller. *)
Definition smallest_gap (l : list R) (d : R) : Prop :=
  (exists i a b, nth_error l i = Some a /\ nth_error l (S i) = Some b /\ b - a = d) /\
  (forall i a b, nth_error l i = Some a -> nth_error l (S i) = Some b -> d <= b - a).

(** [d'] is the positive spacing [d] rounded to a whole number (d >= 1) or to the reciprocal of a
    whole number (d < 1). *)
Definition rounded_spacing (d d' : R) : Prop :=
  exists k : Z, (1 <= k)%Z /\
    ((1 <= d /\ round_half_even d k /\ d' = IZR k) \/
     (0 < d < 1 /\ round_half_even (/ d) k /\ d' = / IZR k)).

(** whole numbers and reciprocals of whole numbers *)
Definition nice_spacing (d : R) : Prop :=
  (exists k, (1 <= k)%Z /\ d = IZR k) \/ (exists k, (1 <= k)%Z /\ d = / IZR k).


(** *** sums and discrete correlation / convolution *)
(** sum of the values f 0 + ... + f (n-1) *)
Fixpoint vsum {V : Vals RA} (f : nat -> val V) (n : nat) : val V :=
  match n with O => v_of V 0 | S n => v_add V (vsum f n) (f n) end.
(** element at a possibly negative or too large index, 0 outside *)
Definition at0 {V : Vals RA} (l : list (val V)) (z : Z) : val V :=
  if (z <? 0)%Z then v_of V 0
  else match nth_error l (Z.to_nat z) with Some v => v | None => v_of V 0 end.
(** sum over n of a[n + lag] * conj(b[n]) *)
Definition corr_at {V : Vals RA} (a b : list (val V)) (lag : Z) : val V :=
  vsum (fun n => v_mul V (at0 a (Z.of_nat n + lag)) (v_conj V (at0 b (Z.of_nat n)))) (length b).
(** sum over n of a[n] * b[k - n] *)
Definition conv_at {V : Vals RA} (a b : list (val V)) (k : Z) : val V :=
  vsum (fun n => v_mul V (at0 a (Z.of_nat n)) (at0 b (k - Z.of_nat n))) (length a).

(** Conjugation is an involutive ring morphism fixing the reals. *)
Record CLaws (V : Vals RA) : Prop := mkCLaws {
  cl_add : forall a b, v_conj V (v_add V a b) = v_add V (v_conj V a) (v_conj V b);
  cl_mul : forall a b, v_conj V (v_mul V a b) = v_mul V (v_conj V a) (v_conj V b);
  cl_inv : forall a, v_conj V (v_conj V a) = a;
  cl_of : forall r : R, v_conj V (v_of V r) = v_of V r
}.

(** [y] holds the [n] values at 0, ..., T of the piecewise linear function through the points
    (xs, ys) moved so that its first point lies at 0. *)
Definition from_zero {V : Vals RA} (xs : list R) (ys : list (val V)) (T : R) (n : nat) (y : list (val V)) : Prop :=
  length y = n /\
  forall i t v, nth_error (grid 0 T n) i = Some t -> nth_error y i = Some v ->
    pl_value (map (fun x => x - nth 0 xs 0) xs) ys t v.
