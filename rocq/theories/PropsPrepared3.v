(** Theorems about the contents of m-sequences: C69 recurrence, C70 balance and autocorrelation. *)
From Coq Require Import Reals ZArith List Bool Lia.
From Verif Require Import Num Numpy Spec AxisModel RelModel HeapModel FourierModel SweepModel PreparedModel PreparedSpec LogLemmas PreparedLemmas2
  MseqSpec MseqLemmas MseqLemmas2.
Import ListNotations.
Local Open Scope nat_scope.

(** the bits the register of [get_relation_m_sequence] starts with and their number: the given sequence (an element
    counts as 1 unless it is 0) or random bits, enough for the points of the axis *)
Definition given_bits (start : option (list Z)) (rnd : nat -> bool) : nat -> bool :=
  match start with Some s => fun i => negb (Z.eqb (nth i s 0%Z) 0) | None => rnd end.
Definition register_size (clog : Z -> Z) (start : option (list Z)) (n k : nat) : Prop :=
  match start with
  | Some s => k = length s
  | None => Z.of_nat k = clog (Z.of_nat n - 1)%Z /\ (2 ^ (Z.of_nat k - 1) <= Z.of_nat n - 1 <= 2 ^ Z.of_nat k)%Z
  end.

Lemma some_size (A : Arith) (V : Vals A) cfg clog taps rnd (t : axis A) n start full r : rounded_log clog -> axis_size A t = Ok n -> 4 <= n -> (Z.of_nat n <= 2 ^ 32 + 1)%Z -> (Z.of_nat n - 1 = 2 ^ 32 -> clog (Z.of_nat n - 1) = 32)%Z ->
 
  match start with Some s => 2 <= length s <= 32 | None => True end -> get_relation_m_sequence A V cfg clog taps rnd (inl t) start full = Ok r ->
  exists k, 2 <= k <= 32 /\ register_size clog start n k /\
    r_y r = map (bit_val A V) (map (bit (taps k) k (starting (given_bits start rnd) k)) (seq 0 (if full then 2 ^ k - 1 else n))).
Proof.
  intros R Hn H4 Hu H32 Hs Er. pose proof (relation_bits A V cfg clog taps rnd t n start full r Hn ltac:(lia)) as H. cbn zeta in H.
  destruct start as [s|].
  - exists (length s). split; [exact Hs|]. split; [reflexivity|]. exact (H Hs Er).
  - rewrite random_len in H. pose proof (bits_spec clog (Z.of_nat n - 1) R ltac:(lia) H32) as [Hb Hb']. eexists. split; [exact Hb|]. split; [exact Hb'|].
    exact (H Hb Er).
Qed.

(** ** C69 the recurrence *)
Theorem C69_code : forall clog taps rnd (L : Z) full m, rounded_log clog -> get_m_sequence_code clog taps rnd L full = Ok m ->
  exists k, Z.of_nat k = clog (L - 1)%Z /\ (2 ^ (Z.of_nat k - 1) <= L - 1 <= 2 ^ Z.of_nat k)%Z /\
    (forall i, i < k -> i < length m -> nth i m false = start_bit rnd k i) /\ obeys (taps k) k m.
Proof.
  intros clog taps rnd L full m R H. destruct (code_bits clog taps rnd L full m R H) as (k & Hk & Hc & Hs & ->). exists k. split; [exact Hc|]. split; [exact Hs|].
  split; [|apply m_obeys; lia]. intros i H1 H2. rewrite m_length in H2. apply m_start; auto; lia.
Qed.
Print Assumptions C69_code.
Theorem C69_relation : forall (A : Arith) (V : Vals A) cfg clog taps rnd (t : axis A) n start full r,
  rounded_log clog -> axis_size A t = Ok n -> 4 <= n -> (Z.of_nat n <= 2 ^ 32 + 1)%Z -> (Z.of_nat n - 1 = 2 ^ 32 -> clog (Z.of_nat n - 1) = 32)%Z ->
  match start with Some s => 2 <= length s <= 32 | None => True end ->
  get_relation_m_sequence A V cfg clog taps rnd (inl t) start full = Ok r ->
  exists k m, register_size clog start n k /\ r_y r = map (fun b : bool => v_of V (n_of_Z A (if b then 1 else 0))) m /\
    (forall i, i < k -> i < length m -> nth i m false = start_bit (given_bits start rnd) k i) /\ obeys (taps k) k m.
Proof.
  intros A V cfg clog taps rnd t n start full r R Hn H4 Hu H32 Hs Er.
  destruct (some_size A V cfg clog taps rnd t n start full r R Hn H4 Hu H32 Hs Er) as (k & Hk & Hb & E).
  eexists k, _. split; [exact Hb|]. split; [exact E|]. split; [|apply m_obeys; lia].
  intros i H1 H2. rewrite m_length in H2. apply m_start; auto; lia.
Qed.
Print Assumptions C69_relation.
(** the code never shows as many zeros in a row as the register has bits *)
Theorem C69_no_zero_run : forall clog taps rnd (L : Z) full m, rounded_log clog -> get_m_sequence_code clog taps rnd L full = Ok m ->
  exists k, Z.of_nat k = clog (L - 1)%Z /\ (2 ^ (Z.of_nat k - 1) <= L - 1 <= 2 ^ Z.of_nat k)%Z /\
    ((forall j, In j (taps k) -> j mod k <> 0) -> forall i, i + k <= length m -> In true (firstn k (skipn i m))).
Proof.
  intros clog taps rnd L full m R H. destruct (code_bits clog taps rnd L full m R H) as (k & Hk & Hc & Hs & ->). exists k. split; [exact Hc|]. split; [exact Hs|].
  intros Ht i Hi. rewrite m_length in Hi. apply m_no_zero_run; [lia|exact Ht|exact Hi].
Qed.
Print Assumptions C69_no_zero_run.
(** 5 bits with tap 3: every bit is the sum of the bits 5 and 2 places before *)
Example C69_case : get_m_sequence_code Z.log2_up (fun _ => [3]) (fun i => Nat.eqb i 1) 20 false =
  Ok [false; true; false; false; false; false; true; false; true; false; true; true; true; false; true; true; false; false; false].
Proof. vm_compute. reflexivity. Qed.
(** all random bits zero: the register starts with 1, 0, 0 *)
Example C69_case_zero : get_m_sequence_code Z.log2_up (fun _ => [2]) (fun _ => false) 8 true = Ok [true; false; false; true; true; true; false].
Proof. vm_compute. reflexivity. Qed.

(** ** C70 full sequences are balanced and have a two-valued autocorrelation *)
Theorem C70_code : forall clog taps rnd (L : Z) m, rounded_log clog -> get_m_sequence_code clog taps rnd L true = Ok m ->
  exists k, Z.of_nat k = clog (L - 1)%Z /\ (2 ^ (Z.of_nat k - 1) <= L - 1 <= 2 ^ Z.of_nat k)%Z /\
    (maximal (taps k) k ->
       length m = 2 ^ k - 1 /\ ones m = 2 ^ (k - 1) /\
       forall l, l mod length m <> 0 -> periodic_correlation m l = (-1)%Z).
Proof.
  intros clog taps rnd L m R H. destruct (code_bits clog taps rnd L true m R H) as (k & Hk & Hc & Hs & ->). exists k. split; [exact Hc|]. split; [exact Hs|].
  intros Hm. rewrite m_length. split; [reflexivity|].
  pose proof (starting_length rnd k). pose proof (starting_nonzero rnd k ltac:(lia)).
  split; [apply balanced; auto; lia|]. intros l Hl. apply correlation; auto; lia.
Qed.
Print Assumptions C70_code.
Theorem C70_relation : forall (A : Arith) (V : Vals A) cfg clog taps rnd (t : axis A) n start r,
  rounded_log clog -> axis_size A t = Ok n -> 4 <= n -> (Z.of_nat n <= 2 ^ 32 + 1)%Z -> (Z.of_nat n - 1 = 2 ^ 32 -> clog (Z.of_nat n - 1) = 32)%Z ->
  match start with Some s => 2 <= length s <= 32 | None => True end ->
  get_relation_m_sequence A V cfg clog taps rnd (inl t) start true = Ok r ->
  exists k m, register_size clog start n k /\ r_y r = map (fun b : bool => v_of V (n_of_Z A (if b then 1 else 0))) m /\
    (maximal (taps k) k ->
       length m = 2 ^ k - 1 /\ ones m = 2 ^ (k - 1) /\
       forall l, l mod length m <> 0 -> periodic_correlation m l = (-1)%Z).
Proof.
  intros A V cfg clog taps rnd t n start r R Hn H4 Hu H32 Hs Er.
  destruct (some_size A V cfg clog taps rnd t n start true r R Hn H4 Hu H32 Hs Er) as (k & Hk & Hb & E).
  eexists k, _. split; [exact Hb|]. split; [exact E|]. intros Hm. rewrite m_length. split; [reflexivity|].
  pose proof (starting_length (given_bits start rnd) k). pose proof (starting_nonzero (given_bits start rnd) k ltac:(lia)).
  split; [apply balanced; auto; lia|]. intros l Hl. apply correlation; auto; lia.
Qed.
Print Assumptions C70_relation.
(** the same code for another start is the same cyclic sequence: all full codes with [k] bits are rotations of one *)
Theorem C70_rotations : forall clog taps rnd rnd' (L : Z) m m', rounded_log clog -> get_m_sequence_code clog taps rnd L true = Ok m ->
  get_m_sequence_code clog taps rnd' L true = Ok m' ->
  (forall k, Z.of_nat k = clog (L - 1)%Z -> maximal (taps k) k) ->
  length m' = length m /\ exists d, forall i, i < length m -> nth i m' false = nth ((i + d) mod length m) m false.
Proof.
  intros clog taps rnd rnd' L m m' R H H' Hm.
  destruct (code_bits clog taps rnd L true m R H) as (k & Hk & Hs & _ & ->).
  destruct (code_bits clog taps rnd' L true m' R H') as (k' & Hk' & Hs' & _ & ->).
  assert (k' = k) as -> by lia.
  rewrite !m_length. split; [reflexivity|]. specialize (Hm k Hs).
  pose proof (starting_length rnd k) as L1. pose proof (starting_nonzero rnd k ltac:(lia)) as N1.
  pose proof (starting_length rnd' k) as L2. pose proof (starting_nonzero rnd' k ltac:(lia)) as N2.
  destruct (reached (taps k) k ltac:(lia) Hm (starting rnd k) (starting rnd' k) L1 N1) as (d & Hd & E); auto.
  { apply all_separate; auto; lia. }
  exists d. intros i Hi. rewrite nth_m by exact Hi. rewrite nth_m by (apply Nat.mod_upper_bound; lia).
  rewrite bit_mod by (auto; lia). rewrite Nat.add_comm, bit_add, E. reflexivity.
Qed.
Print Assumptions C70_rotations.
(** taps of this kind exist: the ones of scipy for 2 to 8 bits *)
Example C70_taps : maximal [1] 2 /\ maximal [2] 3 /\ maximal [3] 4 /\ maximal [3] 5 /\ maximal [5] 6 /\ maximal [6] 7 /\ maximal [7; 6; 1] 8.
Proof. repeat split; apply maximalb_ok; try lia; vm_compute; reflexivity. Qed.
(** and not all taps are of this kind *)
Example C70_other_taps : ones [true; false; false; false; true; false; true; false; false; false; true; false; true; false; false] <> 2 ^ 3 /\
  get_m_sequence_code Z.log2_up (fun _ => [2]) (fun i => Nat.eqb i 0) 16 true = Ok [true; false; false; false; true; false; true; false; false; false; true; false; true; false; false].
Proof. split; [vm_compute; lia|vm_compute; reflexivity]. Qed.
Example C70_case : exists m, get_m_sequence_code Z.log2_up (fun _ => [3]) (fun _ => true) 20 true = Ok m /\ length m = 31 /\ ones m = 16 /\
  periodic_correlation m 7 = (-1)%Z.
Proof. eexists. split; [vm_compute; reflexivity|]. vm_compute. auto. Qed.
