(** Property theorems for axis.py: C01, C02, C05, C06. *)
From Coq Require Import Reals ZArith QArith List Bool Lia Lra.
From Verif Require Import Num Numpy Spec AxisModel RelModel RLemmas AxisLemmas.
Import ListNotations.
Local Open Scope R_scope.

(** C01: shape of [ArrayAxis(start, end, sample).array]. *)
Theorem C01_axis_array_shape : forall s e d : R, d <> 0 ->
  exists n arr, axis_size RA (mkAxis (A:=RA) s e d) = Ok n /\
    axis_array RA (mkAxis (A:=RA) s e d) = Ok arr /\
    length arr = n /\ (1 <= n)%nat /\
    round_half_even (Rabs (e - s) / Rabs d) (Z.of_nat n - 1) /\
    nth_error arr 0 = Some s /\
    ((2 <= n)%nat -> nth_error arr (n - 1) = Some e) /\
    (forall i x y, nth_error arr i = Some x -> nth_error arr (S i) = Some y ->
       y - x = (e - s) / INR (n - 1)).
Proof. exact axis_array_shape. Qed.
Print Assumptions C01_axis_array_shape.

Theorem C01_zero_sample_raises : forall s e : R,
  axis_array RA (mkAxis (A:=RA) s e 0) = Err EArith.
Proof. exact axis_array_zero. Qed.
Print Assumptions C01_zero_sample_raises.

(** the specification of rounding determines the number of points *)
Theorem C01_rounding_is_a_function : forall (x : R) (a b : Z),
  round_half_even x a -> round_half_even x b -> a = b.
Proof. exact round_half_even_unique. Qed.
Print Assumptions C01_rounding_is_a_function.

(** non-trivial cases: 2.5 samples round to 2 (even), so 3 points; 3.5 to 4, so 5 points *)
Example C01_case_Q : axis_array QA (mkAxis (A:=QA) (0#1) (5#2) (1#1)) = Ok [0#1; 5#4; 5#2]%Q
  /\ axis_size QA (mkAxis (A:=QA) (7#2) (0#1) (1#1)) = Ok 5%nat.
Proof. split; vm_compute; reflexivity. Qed.

(** C02: true spacing against requested sample. *)
Theorem C02_axis_spacing : forall (s e d : R) (n : nat), d <> 0 ->
  axis_size RA (mkAxis (A:=RA) s e d) = Ok n -> (2 <= n)%nat ->
  let h := Rabs (e - s) / INR (n - 1) in
  Rabs (h - Rabs d) <= Rabs d / (2 * INR (n - 1)) /\
  (h = Rabs d <-> exists m : nat, Rabs (e - s) = INR m * Rabs d).
Proof. exact axis_spacing. Qed.
Print Assumptions C02_axis_spacing.
Example C02_case : axis_size RA (mkAxis (A:=RA) 0 5 2) = Ok 3%nat.
Proof.
  rewrite axis_size_nz by (cbn; lra). cbn.
  replace (Rround (Rabs ((5 - 0) / 2))) with 2%Z; [reflexivity|].
  symmetry. apply Rround_iff. right. split; [|exists 1%Z; reflexivity].
  rewrite (Rabs_right ((5 - 0) / 2)) by lra. rewrite Rabs_right; lra.
Qed.

(** C06: the calculated sample is the smallest gap. *)
Theorem C06_actual_sample : forall (l : list R) (d : R),
  actual_sample RA l = Ok d <-> smallest_gap l d.
Proof. exact actual_sample_spec. Qed.
Print Assumptions C06_actual_sample.

Theorem C06_actual_sample_short : forall l : list R,
  actual_sample RA l = Err EValue <-> (length l < 2)%nat.
Proof. exact actual_sample_err. Qed.
Print Assumptions C06_actual_sample_short.

(** it is not the most common gap: 0,1,2,3,3.5 has gap 1 three times and gap 0.5 once *)
Theorem C06_not_most_common_refuted :
  actual_sample QA [0#1; 1#1; 2#1; 3#1; 7#2]%Q = Ok (1#2)%Q.
Proof. vm_compute. reflexivity. Qed.
Print Assumptions C06_not_most_common_refuted.

(** C05: axis from a number sequence. *)
Theorem C05_axis_from_sequence_exact : forall (x0 d : R) (n : nat) (fl rd : bool),
  (2 <= n)%nat -> d <> 0 ->
  (rd = false \/ fl = false \/ (exists k, (1 <= k)%Z /\ d = IZR k) \/ (exists k, k <> 0%Z /\ d = / IZR k)) ->
  exists a, axis_of_array RA (mkSeq (A:=RA) fl (arith_seq x0 d n)) rd = Ok a /\
            axis_array RA a = Ok (arith_seq x0 d n) /\ a_sample a = d.
Proof. exact axis_of_array_exact. Qed.
Print Assumptions C05_axis_from_sequence_exact.
Example C05_exact_case : exists k, k <> 0%Z /\ (1/4) = / IZR k.
Proof. exists 4%Z. split; [lia | lra]. Qed.

(** Exactly when [Relation(x, y)] works for equally spaced floats [x] with len(x) = len(y). *)
Theorem C05_relation_of_sequence_iff : forall (V : Vals RA) (x0 d : R) (n : nat) (y : list (val V)),
  (2 <= n)%nat -> 0 < d -> length y = n ->
  exists d', rounded_spacing d d' /\
    ((exists r, rel_init RA V (default_config RA V) (XSeq (mkSeq (A:=RA) true (arith_seq x0 d n))) (Some y) = Ok r)
      <-> round_half_even (INR (n - 1) * (d / d')) (Z.of_nat n - 1)) /\
    (forall e, rel_init RA V (default_config RA V) (XSeq (mkSeq (A:=RA) true (arith_seq x0 d n))) (Some y) = Err e ->
       exists m, e = ENotEqual m n /\ m <> n).
Proof. exact rel_init_arith. Qed.
Print Assumptions C05_relation_of_sequence_iff.

(** For every spacing that is neither whole nor the reciprocal of a whole number, every long enough
    equally spaced sequence is rejected although the lengths agree. *)
Theorem C05_long_sequences_rejected : forall (V : Vals RA) (d : R), 0 < d -> ~ nice_spacing d ->
  exists N, forall n (x0 : R) (y : list (val V)), (N <= n)%nat -> length y = n ->
    exists m, rel_init RA V (default_config RA V) (XSeq (mkSeq (A:=RA) true (arith_seq x0 d n))) (Some y)
      = Err (ENotEqual m n) /\ m <> n.
Proof. exact rel_init_long_fails. Qed.
Print Assumptions C05_long_sequences_rejected.
Example C05_rejected_case : 0 < 3/2 /\ ~ nice_spacing (3/2).
Proof.
  split; [lra|]. intros [(k & Hk & H)|(k & Hk & H)].
  - assert (IZR (2 * k) = IZR 3) as H3 by (rewrite mult_IZR; lra). apply eq_IZR in H3. lia.
  - assert (0 < IZR k) by (apply (IZR_lt 0); lia). assert (IZR (3 * k) = IZR 2) as H3.
    { rewrite mult_IZR. apply (f_equal (fun z => z * IZR k)) in H. rewrite Rinv_l in H by lra. lra. }
    apply eq_IZR in H3. lia.
Qed.

(** binary64 witnesses: x = [0, 1.5, 3, 4.5] and x = [0, 0.7, 1.4, 2.1] with four samples *)
Theorem C05_binary64_refuted :
  let y := [f64 1 1; f64 1 1; f64 1 1; f64 1 1] in
  err_of (rel_init FA FV (default_config FA FV)
    (XSeq (mkSeq (A:=FA) true [f64 0 1; f64 3 2; f64 3 1; f64 9 2])) (Some y)) = Some (ENotEqual 3 4) /\
  err_of (rel_init FA FV (default_config FA FV)
    (XSeq (mkSeq (A:=FA) true [f64 0 1; f64 7 10; f64 14 10; f64 21 10])) (Some y)) = Some (ENotEqual 3 4).
Proof. split; vm_compute; reflexivity. Qed.
Print Assumptions C05_binary64_refuted.
