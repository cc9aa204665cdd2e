(** The codes of code_m_sequence.py in terms of the shift register (C69, C70). *)
From Coq Require Import Reals ZArith List Bool Lia.
From Verif Require Import Num Numpy Spec AxisModel RelModel HeapModel FourierModel SweepModel PreparedModel PreparedSpec PreparedLemmas2
  RelLemmas MseqSpec MseqLemmas.
Import ListNotations.
Local Open Scope nat_scope.

Definition nz (z : Z) : bool := negb (Z.eqb z 0).
Definition starting (b : nat -> bool) (k : nat) : list bool := map (start_bit b k) (seq 0 k).
Lemma starting_length b k : length (starting b k) = k.
Proof. unfold starting. rewrite map_length, seq_length. reflexivity. Qed.
Lemma starting_nonzero b k : 1 <= k -> In true (starting b k).
Proof.
  intros Hk. unfold starting, start_bit. destruct (existsb b (seq 0 k)) eqn:E.
  - apply existsb_exists in E. destruct E as (i & Hi & Hb). apply in_map_iff. exists i. auto.
  - apply in_map_iff. exists 0. split; [reflexivity|]. apply in_seq. lia.
Qed.
Lemma map_nth_seq {S T} (f : S -> T) (l : list S) d : map f l = map (fun i => f (nth i l d)) (seq 0 (length l)).
Proof.
  induction l as [|a l IH]; [reflexivity|]. cbn [map length seq]. cbn [nth]. f_equal. rewrite <- seq_shift, map_map. exact IH.
Qed.
Lemma all_zero s : forallb (Z.eqb 0) s = negb (existsb (fun i => nz (nth i s 0%Z)) (seq 0 (length s))).
Proof.
  induction s as [|a s IH]; [reflexivity|]. cbn [forallb length seq existsb nth]. rewrite IH.
  rewrite <- seq_shift.
  assert (E : forall (f : nat -> bool) l, existsb f (map S l) = existsb (fun i => f (S i)) l).
  { induction l as [|x l I]; [reflexivity|]. cbn. rewrite I. reflexivity. }
  rewrite E. cbn [nth]. unfold nz. rewrite Z.eqb_sym. destruct (Z.eqb a 0); reflexivity.
Qed.
Lemma start_bits s st : nonzero_start s = Ok st -> map nz st = starting (fun i => nz (nth i s 0%Z)) (length s).
Proof.
  unfold nonzero_start. rewrite all_zero. unfold starting, start_bit.
  destruct (existsb (fun i => nz (nth i s 0%Z)) (seq 0 (length s))) eqn:E; cbn [negb].
  - intros [= <-]. apply map_nth_seq.
  - destruct s as [|a t]; [discriminate|]. intros [= <-]. cbn [map length seq Nat.eqb]. f_equal.
    rewrite <- seq_shift, map_map. cbn [Nat.eqb]. cbn [length seq existsb nth] in E. apply orb_false_iff in E. destruct E as [_ E].
    rewrite (map_nth_seq nz t 0%Z). apply map_ext_in. intros i Hi.
    destruct (nz (nth i t 0%Z)) eqn:F; [|reflexivity]. exfalso.
    assert (X : existsb (fun i => nz (nth i (a :: t) 0%Z)) (seq 1 (length t)) = true); [|cbn [nth] in X; congruence].
    apply existsb_exists. exists (S i). split; [rewrite <- seq_shift; apply in_map; exact Hi|exact F].
Qed.
Lemma random_bits rnd k : starting (fun i => nz (nth i (random_start rnd k) 0%Z)) k = starting rnd k.
Proof.
  assert (H : forall i, i < k -> nz (nth i (random_start rnd k) 0%Z) = rnd i).
  { intros i Hi. unfold random_start. rewrite (nth_indep _ 0%Z ((fun i => if rnd i then 1%Z else 0%Z) 0)) by (rewrite map_length, seq_length; exact Hi).
    rewrite (map_nth (fun i => if rnd i then 1%Z else 0%Z)), seq_nth by exact Hi. cbn. destruct (rnd i); reflexivity. }
  unfold starting. apply map_ext_in. intros i Hi. apply in_seq in Hi. unfold start_bit. rewrite H by lia.
  replace (existsb (fun i => nz (nth i (random_start rnd k) 0%Z)) (seq 0 k)) with (existsb rnd (seq 0 k)); [reflexivity|].
  assert (G : forall l, (forall i, In i l -> i < k) -> existsb rnd l = existsb (fun i => nz (nth i (random_start rnd k) 0%Z)) l).
  { induction l as [|a l IH]; intros Hl; [reflexivity|]. cbn. rewrite H by (apply Hl; left; reflexivity). f_equal. apply IH. intros; apply Hl; right; assumption. }
  apply G. intros j Hj. apply in_seq in Hj. lia.
Qed.
Lemma mls_bits taps k s st m : nonzero_start s = Ok st -> length st = k -> length s = k -> max_len_seq taps k st = Ok m ->
  2 <= k <= 32 /\ m = map (bit (taps k) k (starting (fun i => nz (nth i s 0%Z)) k)) (seq 0 (2 ^ k - 1)).
Proof.
  intros Es Hl Hs. unfold max_len_seq. destruct (Nat.ltb_spec k 2); [discriminate|]. destruct (Nat.ltb_spec 32 k); [discriminate|].
  cbn [orb]. destruct (negb _ || _); [discriminate|]. intros [= <-]. split; [lia|].
  change (map (fun z => negb (Z.eqb z 0)) st) with (map nz st).
  rewrite (start_bits s st Es), Hs. apply register_bits; [apply starting_length|lia].
Qed.
Lemma firstn_map_seq {T} (f : nat -> T) n m : firstn n (map f (seq 0 m)) = map f (seq 0 (Nat.min n m)).
Proof.
  rewrite firstn_map. f_equal. generalize 0. revert m. induction n as [|n IH]; intros [|m] a; cbn; try reflexivity. f_equal. apply IH.
Qed.
Lemma code_bits clog taps rnd L full m : rounded_log clog -> get_m_sequence_code clog taps rnd L full = Ok m ->
  exists k, 2 <= k <= 32 /\ Z.of_nat k = clog (L - 1)%Z /\ (2 ^ (Z.of_nat k - 1) <= L - 1 <= 2 ^ Z.of_nat k)%Z /\
    m = map (bit (taps k) k (starting rnd k)) (seq 0 (if full then 2 ^ k - 1 else Nat.min (Z.to_nat (L - 1)) (2 ^ k - 1))).
Proof.
  intros R H.
  assert (HL : (4 <= L <= 2 ^ 32 + 1)%Z /\ (L - 1 = 2 ^ 32 -> clog (L - 1) = 32)%Z).
  { assert (N : ~ (L < 4 \/ 2 ^ 32 + 1 < L \/ (L - 1 = 2 ^ 32 /\ clog (L - 1) <> 32))%Z).
    { intros X. destruct (code_raises clog taps rnd L full R X) as (e & E & _). congruence. }
    split; [lia|]. intros X. destruct (Z.eq_dec (clog (L - 1)%Z) 32) as [Y|Y]; [exact Y|]. exfalso. apply N. auto. }
  destruct HL as [HL H32].
  pose proof (bits_spec clog (L - 1) R ltac:(lia) H32) as (Hb & Hc & Hs). exists (bits clog (L - 1)). split; [exact Hb|]. split; [exact Hc|]. split; [exact Hs|].
  revert H. unfold get_m_sequence_code, log2_ceil. replace (L - 1 <=? 0)%Z with false by (symmetry; apply Z.leb_gt; lia).
  cbn [bind]. fold (bits clog (L - 1)). set (k := bits clog (L - 1)) in *.
  destruct (nonzero_start (random_start rnd k)) as [st|] eqn:Es; [|discriminate]. cbn [bind].
  destruct (max_len_seq taps k st) as [m0|] eqn:Em; [|discriminate]. cbn [bind]. intros [= <-].
  assert (Hl : length st = k).
  { destruct (nonzero_ok (random_start rnd k)) as (st' & E & Hl & _).
    - intros E. pose proof (random_len rnd k) as Q. rewrite E in Q. cbn in Q. lia.
    - rewrite random_len in Hl. congruence. }
  destruct (mls_bits taps k _ st m0 Es Hl (random_len rnd k) Em) as [_ ->]. rewrite random_bits.
  destruct full; [reflexivity|]. apply firstn_map_seq.
Qed.
(** what a sequence of register bits satisfies *)
Section Bits.
Context (tp : list nat) (k n : nat) (b : nat -> bool) (Hk : 2 <= k).
Let st := starting b k.
Let m := map (bit tp k st) (seq 0 n).
Lemma nth_m i : i < n -> nth i m false = bit tp k st i.
Proof.
  intros Hi. unfold m. rewrite (nth_indep _ false (bit tp k st 0)) by (rewrite map_length, seq_length; exact Hi).
  rewrite map_nth, seq_nth by exact Hi. reflexivity.
Qed.
Lemma m_length : length m = n.
Proof. unfold m. rewrite map_length, seq_length. reflexivity. Qed.
Lemma st_length : length st = k.
Proof. apply starting_length. Qed.
Lemma m_start i : i < k -> i < n -> nth i m false = start_bit b k i.
Proof.
  intros H1 H2. rewrite nth_m by exact H2. rewrite <- (nth_state tp k st i) by (rewrite st_length; exact H1).
  unfold st, starting. rewrite (nth_indep _ false (start_bit b k 0)) by (rewrite map_length, seq_length; exact H1).
  rewrite map_nth, seq_nth by exact H1. reflexivity.
Qed.
Lemma m_obeys : obeys tp k m.
Proof.
  intros i Hi. rewrite m_length in Hi. rewrite nth_m by exact Hi. rewrite (bit_follows tp k st st_length ltac:(lia)).
  unfold next_bit. rewrite nth_m by lia. f_equal. apply map_ext. intros j.
  pose proof (Nat.mod_upper_bound j k ltac:(lia)). rewrite nth_m by lia. reflexivity.
Qed.
Lemma m_window i : i + k <= n -> firstn k (skipn i m) = state tp k i st.
Proof.
  intros Hi. rewrite (state_window tp k st i st_length ltac:(lia)). unfold window, m. rewrite skipn_map, firstn_map. f_equal.
  assert (E : forall a c d, a <= c -> skipn a (seq d c) = seq (d + a) (c - a)).
  { induction a as [|a IH]; intros c d H; [cbn; rewrite Nat.add_0_r, Nat.sub_0_r; reflexivity|]. destruct c; [lia|]. cbn.
    rewrite IH by lia. f_equal; lia. }
  rewrite E by lia. assert (F : forall a c d, a <= c -> firstn a (seq d c) = seq d a).
  { induction a as [|a IH]; intros c d H; [reflexivity|]. destruct c; [lia|]. cbn. rewrite IH by lia. reflexivity. }
  apply F. lia.
Qed.
Lemma m_no_zero_run i : (forall j, In j tp -> j mod k <> 0) -> i + k <= n -> In true (firstn k (skipn i m)).
Proof.
  intros Ht Hi. rewrite m_window by exact Hi. apply nonzero_state; try exact Ht; [apply st_length|lia|]. apply starting_nonzero. lia.
Qed.
End Bits.
(** the samples of the relation *)
Lemma relation_bits (A : Arith) (V : Vals A) cfg clog taps rnd (t : axis A) n start full r : axis_size A t = Ok n -> 2 <= n ->
  let st := match start with Some s => s | None => random_start rnd (bits clog (Z.of_nat n - 1)) end in
  2 <= length st <= 32 -> get_relation_m_sequence A V cfg clog taps rnd (inl t) start full = Ok r ->
  let k := length st in
  r_y r = map (bit_val A V) (map (bit (taps k) k (starting (match start with Some s => fun i => nz (nth i s 0%Z) | None => rnd end) k)) (seq 0 (if full then 2 ^ k - 1 else n))).
Proof.
  intros Hn H2 st Hl Er k. destruct (relation_code_eq A V cfg clog taps rnd t n start full st Hn H2 eq_refl Hl) as (m & Hm & (st' & E1 & E2 & E3) & E).
  destruct (mls_bits taps (length st) st st' m E1 E2 eq_refl E3) as [_ Em].
  assert (Est : starting (fun i => nz (nth i st 0%Z)) (length st) = starting (match start with Some s => fun i => nz (nth i s 0%Z) | None => rnd end) k).
  { unfold k, st. destruct start as [s|]; [reflexivity|]. rewrite random_len. apply random_bits. }
  rewrite Est in Em. rewrite E in Er. destruct full.
  - apply rel_make_iff in Er. destruct Er as [-> _]. cbn [r_y]. rewrite Em. reflexivity.
  - destruct (relation_code_size A V cfg clog taps rnd t n start st Hn H2 eq_refl Hl) as [S1 S2].
    pose proof (pow2_pos (length st)).
    destruct (Nat.le_gt_cases (2 ^ length st) n) as [X|X]; [rewrite (S1 X) in E; rewrite <- E in Er; discriminate|].
    apply rel_make_iff in Er. destruct Er as [-> _]. cbn [r_y]. rewrite Em, firstn_map_seq. do 2 f_equal. f_equal. unfold k. lia.
Qed.
