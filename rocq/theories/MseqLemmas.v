(** Lemmas about the shift register (C69, C70). *)
From Coq Require Import ZArith List Bool Lia FinFun Permutation.
From Verif Require Import Num Numpy AxisModel RelModel HeapModel FourierModel SweepModel PreparedModel MseqSpec.
Import ListNotations.
Local Open Scope nat_scope.

Section Register.
Context (taps : list nat) (k : nat).
Definition feed (st : list bool) : bool := fold_left xorb (map (fun i => nth (i mod k) st false) taps) (hd false st).
Definition step (st : list bool) : list bool := tl st ++ [feed st].
Fixpoint state (i : nat) (st : list bool) : list bool := match i with O => st | S j => state j (step st) end.
Definition bit (st : list bool) (i : nat) : bool := hd false (state i st).

Lemma step_length st : 1 <= length st -> length (step st) = length st.
Proof. destruct st; cbn; [lia|]. intros _. unfold step. cbn [tl]. rewrite app_length. cbn. lia. Qed.
Lemma state_length i st : 1 <= length st -> length (state i st) = length st.
Proof.
  revert st. induction i as [|i IH]; intros st H; cbn; [reflexivity|]. rewrite IH; rewrite step_length; auto.
Qed.
Lemma state_add i j st : state (i + j) st = state j (state i st).
Proof. revert st. induction i; intros st; cbn; auto. Qed.
Lemma state_S i st : state (S i) st = step (state i st).
Proof. replace (S i) with (i + 1) by lia. rewrite state_add. reflexivity. Qed.

Lemma register_bits n st : length st = k -> 1 <= k -> shift_register taps n st = map (bit st) (seq 0 n).
Proof.
  intros Hl Hk. revert st Hl. induction n as [|n IH]; intros st Hl; [destruct st; reflexivity|].
  destruct st as [|b t]; [cbn in Hl; lia|]. cbn [shift_register seq map]. f_equal.
  rewrite Hl. change (t ++ [_]) with (step (b :: t)). rewrite IH by (rewrite step_length; [exact Hl|lia]).
  rewrite <- seq_shift, map_map. reflexivity.
Qed.
(** the state consists of the next bits *)
Lemma nth_step st j : S j < length st -> nth j (step st) false = nth (S j) st false.
Proof.
  destruct st as [|b t]; cbn [length]; [lia|]. intros H. unfold step. cbn [tl nth]. apply app_nth1. lia.
Qed.
Lemma nth_step_last st : 1 <= length st -> nth (length st - 1) (step st) false = feed st.
Proof.
  destruct st as [|b t]; cbn [length]; [lia|]. intros _. unfold step. cbn [tl].
  replace (S (length t) - 1) with (length t) by lia. rewrite app_nth2 by lia. rewrite Nat.sub_diag. reflexivity.
Qed.
Lemma nth_state st j : j < length st -> nth j st false = bit st j.
Proof.
  revert st. induction j as [|j IH]; intros st H.
  - unfold bit. cbn. destruct st; reflexivity.
  - unfold bit. cbn [state]. fold (bit (step st) j). rewrite <- IH by (rewrite step_length; lia).
    symmetry. apply nth_step. exact H.
Qed.
Lemma bit_add st i j : bit st (i + j) = bit (state i st) j.
Proof. unfold bit. rewrite state_add. reflexivity. Qed.
Lemma bit_follows st : length st = k -> 1 <= k -> follows taps k (bit st).
Proof.
  intros Hl Hk i. rewrite bit_add. set (s := state i st). assert (Hs : length s = k) by (unfold s; rewrite state_length; lia).
  unfold next_bit. replace (bit st i) with (hd false s) by reflexivity.
  assert (E : map (fun j => bit st (i + j mod k)) taps = map (fun j => nth (j mod k) s false) taps).
  { apply map_ext. intros j. rewrite bit_add. fold s. symmetry. apply nth_state. rewrite Hs. apply Nat.mod_upper_bound. lia. }
  rewrite E. change (bit s k = feed s).
  replace k with (1 + (k - 1)) at 1 by lia. rewrite bit_add. change (state 1 s) with (step s).
  rewrite <- nth_state by (rewrite step_length; lia). rewrite <- Hs. apply nth_step_last. lia.
Qed.
Lemma state_window st i : length st = k -> 1 <= k -> state i st = window (bit st) k i.
Proof.
  intros Hl Hk. set (s := state i st). assert (Hs : length s = k) by (unfold s; rewrite state_length; lia).
  apply (nth_ext _ _ false false); [unfold window; rewrite map_length, seq_length; exact Hs|].
  intros j Hj. rewrite nth_state by exact Hj. unfold window.
  rewrite (nth_indep _ false (bit st 0)) by (rewrite map_length, seq_length; lia). rewrite map_nth, seq_nth by lia.
  symmetry. apply bit_add.
Qed.
(** a sequence following the recurrence is the register's *)
Lemma follows_step s i : follows taps k s -> 1 <= k -> step (window s k i) = window s k (S i).
Proof.
  intros F Hk. unfold step, window.
  assert (E1 : tl (map s (seq i k)) = map s (seq (S i) (k - 1))).
  { destruct k as [|k']; [lia|]. cbn. rewrite Nat.sub_0_r. reflexivity. }
  rewrite E1. replace k with (k - 1 + 1) at 3 by lia. rewrite seq_app, map_app. f_equal. cbn [seq map].
  f_equal. replace (S i + (k - 1)) with (i + k) by lia. rewrite F. unfold next_bit, feed. f_equal.
  - apply map_ext. intros j. pose proof (Nat.mod_upper_bound j k ltac:(lia)).
    rewrite (nth_indep _ false (s 0)) by (rewrite map_length, seq_length; lia). rewrite map_nth, seq_nth by lia. reflexivity.
  - destruct k; [lia|reflexivity].
Qed.
Lemma follows_state s i : follows taps k s -> 1 <= k -> state i (window s k 0) = window s k i.
Proof.
  intros F Hk. induction i as [|i IH]; [reflexivity|]. rewrite state_S, IH. apply follows_step; assumption.
Qed.

(** *** linearity *)
Definition xors (a b : list bool) : list bool := map (fun p => xorb (fst p) (snd p)) (combine a b).
Lemma xors_length a b : length a = length b -> length (xors a b) = length a.
Proof. intros H. unfold xors. rewrite map_length, combine_length. lia. Qed.
Lemma nth_xors a b i : length a = length b -> nth i (xors a b) false = xorb (nth i a false) (nth i b false).
Proof.
  revert b i. induction a as [|x a IH]; intros [|y b] i H; try discriminate; [destruct i; reflexivity|].
  destruct i; [reflexivity|]. exact (IH b i ltac:(injection H; auto)).
Qed.
Lemma fold_xor_lin {T} (f g : T -> bool) l x y :
  fold_left xorb (map (fun i => xorb (f i) (g i)) l) (xorb x y) = xorb (fold_left xorb (map f l) x) (fold_left xorb (map g l) y).
Proof.
  revert x y. induction l as [|a l IH]; intros x y; cbn; [reflexivity|]. rewrite <- IH. f_equal.
  destruct x, y, (f a), (g a); reflexivity.
Qed.
Lemma feed_lin a b : length a = length b -> feed (xors a b) = xorb (feed a) (feed b).
Proof.
  intros H. unfold feed. rewrite <- fold_xor_lin. f_equal.
  - apply map_ext. intros i. apply nth_xors. exact H.
  - destruct a, b; try discriminate; reflexivity.
Qed.
Lemma step_lin a b : length a = length b -> 1 <= length a -> step (xors a b) = xors (step a) (step b).
Proof.
  intros H Ha. unfold step. rewrite feed_lin by exact H. destruct a as [|x a], b as [|y b]; try discriminate; [cbn in Ha; lia|].
  cbn [tl]. unfold xors at 1. cbn [combine map tl]. fold (xors a b). injection H as H.
  clear Ha. generalize (feed (x :: a)) (feed (y :: b)). intros u v. revert b H.
  induction a as [|p a IH]; intros [|q b] H; try discriminate; [reflexivity|]. cbn. f_equal. apply IH. injection H; auto.
Qed.
Lemma state_lin i a b : length a = length b -> 1 <= length a -> state i (xors a b) = xors (state i a) (state i b).
Proof.
  revert a b. induction i as [|i IH]; intros a b H Ha; [reflexivity|]. cbn [state]. rewrite step_lin by assumption.
  apply IH; rewrite ?step_length; lia.
Qed.
Lemma bit_lin a b i : length a = length b -> 1 <= length a -> bit (xors a b) i = xorb (bit a i) (bit b i).
Proof.
  intros H Ha. unfold bit. rewrite state_lin by assumption.
  assert (L : length (state i a) = length (state i b)) by (rewrite !state_length; lia).
  destruct (state i a), (state i b); try discriminate; reflexivity.
Qed.

(** *** injectivity *)
Context (Htaps : forall j, In j taps -> j mod k <> 0).
Lemma fold_taps x t f : (forall j, In j taps -> f j = nth (j mod k) (x :: t) false) ->
  fold_left xorb (map f taps) x = xorb x (fold_left xorb (map (fun j => nth (j mod k - 1) t false) taps) false).
Proof.
  intros Hf.
  assert (E : map f taps = map (fun j => nth (j mod k - 1) t false) taps).
  { apply map_ext_in. intros j Hj. rewrite Hf by exact Hj. specialize (Htaps j Hj). destruct (j mod k) as [|r]; [lia|].
    cbn. rewrite Nat.sub_0_r. reflexivity. }
  rewrite E. generalize (map (fun j => nth (j mod k - 1) t false) taps). intros l.
  assert (G : forall l z, fold_left xorb l z = xorb z (fold_left xorb l false)).
  { clear. induction l as [|a l IH]; intros z; cbn [fold_left]; [destruct z; reflexivity|]. rewrite (IH (xorb z a)), (IH (xorb false a)).
    destruct z, a; cbn; destruct (fold_left xorb l false); reflexivity. }
  apply G.
Qed.
Lemma step_inj a b : length a = length b -> step a = step b -> a = b.
Proof.
  intros H E. destruct a as [|x a], b as [|y b]; try discriminate; [reflexivity|].
  unfold step in E. cbn [tl] in E. apply app_inj_tail in E. destruct E as [-> E]. f_equal.
  unfold feed in E. cbn [hd] in E. rewrite (fold_taps x b), (fold_taps y b) in E by reflexivity.
  destruct x, y; try reflexivity; destruct (fold_left xorb _ false); discriminate.
Qed.
Lemma state_inj i a b : length a = length b -> 1 <= length a -> state i a = state i b -> a = b.
Proof.
  revert a b. induction i as [|i IH]; intros a b H Ha E; [exact E|]. cbn [state] in E.
  apply step_inj; [exact H|]. apply IH in E; [exact E| |]; rewrite ?step_length; lia.
Qed.
Lemma zero_step : 1 <= k -> step (repeat false k) = repeat false k.
Proof.
  intros Hk. unfold step. replace k with (S (k - 1)) at 1 by lia. cbn [repeat tl].
  assert (E : feed (repeat false k) = false).
  { unfold feed. replace (hd false (repeat false k)) with false by (destruct k; reflexivity).
    clear Htaps. induction taps as [|a l IH]; [reflexivity|]. cbn. rewrite nth_repeat. exact IH. }
  rewrite E. replace k with (k - 1 + 1) at 2 by lia. rewrite repeat_app. reflexivity.
Qed.
Lemma zero_state i : 1 <= k -> state i (repeat false k) = repeat false k.
Proof. intros Hk. induction i as [|i IH]; [reflexivity|]. cbn [state]. rewrite zero_step by exact Hk. exact IH. Qed.
Lemma nonzero_state i st : length st = k -> 1 <= k -> In true st -> In true (state i st).
Proof.
  intros Hl Hk Hin. destruct (in_dec bool_dec true (state i st)) as [H|H]; [exact H|exfalso].
  assert (E : forall l, ~ In true l -> l = repeat false (length l)).
  { induction l as [|b l IH]; intros N; [reflexivity|]. cbn. destruct b; [destruct N; left; reflexivity|].
    f_equal. apply IH. intros X. apply N. right. exact X. }
  pose proof (E _ H) as Z. rewrite state_length in Z by lia. rewrite Hl in Z. rewrite <- (zero_state i Hk) in Z.
  apply state_inj in Z; [|rewrite repeat_length; exact Hl|lia]. subst st. apply repeat_spec in Hin. discriminate.
Qed.
End Register.

(** *** all states *)
Fixpoint states (k : nat) : list (list bool) :=
  match k with O => [[]] | S j => map (cons true) (states j) ++ map (cons false) (states j) end.
Lemma states_in k l : In l (states k) <-> length l = k.
Proof.
  revert l. induction k as [|k IH]; intros l; cbn [states].
  - split; [intros [<-|[]]; reflexivity|]. destruct l; [left; reflexivity|discriminate].
  - rewrite in_app_iff, !in_map_iff. split.
    + intros [(t & <- & H)|(t & <- & H)]; cbn; f_equal; apply IH; exact H.
    + destruct l as [|b t]; [discriminate|]. intros [= H]. apply IH in H. destruct b; [left|right]; exists t; auto.
Qed.
Lemma NoDup_app' {T} (a b : list T) : NoDup a -> NoDup b -> (forall x, In x a -> ~ In x b) -> NoDup (a ++ b).
Proof.
  induction a as [|x a IH]; intros Ha Hb H; cbn; [exact Hb|]. inversion Ha as [|? ? N Na]; subst. constructor.
  - rewrite in_app_iff. intros [X|X]; [exact (N X)|exact (H x (or_introl eq_refl) X)].
  - apply IH; auto. intros y Hy. apply H. right. exact Hy.
Qed.
Lemma states_nodup k : NoDup (states k).
Proof.
  induction k as [|k IH]; cbn [states]; [repeat constructor; auto|].
  apply NoDup_app'; try (apply Injective_map_NoDup; [intros a b; congruence|exact IH]).
  intros a Ha Hb. apply in_map_iff in Ha, Hb. destruct Ha as (t & <- & _), Hb as (t' & E & _). discriminate.
Qed.
Lemma states_length k : length (states k) = 2 ^ k.
Proof. induction k as [|k IH]; cbn [states]; [reflexivity|]. rewrite app_length, !map_length, IH. cbn. lia. Qed.
Lemma nodup_map_seq {T} (f : nat -> T) n : (forall i j, i < j < n -> f i <> f j) -> NoDup (map f (seq 0 n)).
Proof.
  intros H. induction n as [|n IH]; [constructor|]. rewrite seq_S, map_app. cbn [map Nat.add].
  apply NoDup_app'; [apply IH; intros; apply H; lia|repeat constructor; auto|].
  intros x Hx [<-|[]]. apply in_map_iff in Hx. destruct Hx as (i & E & Hi). apply in_seq in Hi. exact (H i n ltac:(lia) E).
Qed.
Lemma hd_states j : count_occ bool_dec (map (hd false) (states (S j))) true = 2 ^ j.
Proof.
  cbn [states]. rewrite map_app, !map_map. cbn [hd]. rewrite count_occ_app, <- (states_length j).
  assert (E1 : forall l : list (list bool), count_occ bool_dec (map (fun _ => true) l) true = length l).
  { induction l as [|a l IH]; [reflexivity|]. cbn. destruct (bool_dec true true); [rewrite IH; reflexivity|congruence]. }
  assert (E2 : forall l : list (list bool), count_occ bool_dec (map (fun _ => false) l) true = 0).
  { induction l as [|a l IH]; [reflexivity|]. cbn. destruct (bool_dec false true); [discriminate|exact IH]. }
  rewrite E1, E2. lia.
Qed.
Lemma xor_self a : forall b, length a = length b -> ~ In true (xors a b) -> a = b.
Proof.
  induction a as [|x a IH]; intros [|y b] H N; try discriminate; [reflexivity|]. cbn in N. f_equal.
  - destruct x, y; try reflexivity; destruct N; left; reflexivity.
  - apply IH; [injection H; auto|]. intros X. apply N. right. exact X.
Qed.
Lemma zsum_ext f g n : (forall i, i < n -> f i = g i) -> zsum f n = zsum g n.
Proof. induction n as [|n IH]; intros H; cbn; [reflexivity|]. rewrite IH by (intros; apply H; lia). rewrite H by lia. reflexivity. Qed.
Lemma zsum_sign f n : zsum (fun i => sign (f i)) n = (Z.of_nat n - 2 * Z.of_nat (ones (map f (seq 0 n))))%Z.
Proof.
  induction n as [|n IH]; [reflexivity|]. cbn [zsum]. rewrite IH, seq_S, map_app. unfold ones. rewrite count_occ_app.
  cbn [map Nat.add count_occ]. unfold sign. destruct (f n); [destruct (bool_dec true true)|destruct (bool_dec false true)]; try congruence; lia.
Qed.

Section Maximal.
Context (taps : list nat) (k : nat) (Hk : 1 <= k) (Hm : maximal taps k).
Notation P := (2 ^ k - 1).
Notation state := (state taps k).
Notation bit := (bit taps k).
Let Ht : forall j, In j taps -> j mod k <> 0 := proj1 Hm.
Definition separate (st : list bool) : Prop := forall i j, i < j < P -> state i st <> state j st.
Lemma P_pos : 1 <= P.
Proof. destruct k as [|j]; [lia|]. cbn. pose proof (Nat.pow_nonzero 2 j). lia. Qed.
Lemma zero_not : ~ In true (repeat false k).
Proof. intros H. apply repeat_spec in H. discriminate. Qed.
Lemma orbit_all st : length st = k -> In true st -> separate st ->
  Permutation.Permutation (repeat false k :: map (fun i => state i st) (seq 0 P)) (states k).
Proof.
  intros Hl Hin Hs.
  assert (N : NoDup (repeat false k :: map (fun i => state i st) (seq 0 P))).
  { constructor; [|apply nodup_map_seq; exact Hs]. intros X. apply in_map_iff in X. destruct X as (i & E & _).
    apply zero_not. rewrite <- E. apply nonzero_state; auto. }
  apply Permutation.NoDup_Permutation; [exact N|apply states_nodup|].
  assert (I : incl (repeat false k :: map (fun i => state i st) (seq 0 P)) (states k)).
  { intros x [<-|X]; apply states_in; [apply repeat_length|]. apply in_map_iff in X. destruct X as (i & <- & _).
    rewrite state_length; lia. }
  intros x. split; [apply I|]. apply (NoDup_length_incl N); [|exact I].
  cbn [length]. rewrite map_length, seq_length, states_length. pose proof P_pos. lia.
Qed.
Lemma reached st x : length st = k -> In true st -> separate st -> length x = k -> In true x -> exists i, i < P /\ state i st = x.
Proof.
  intros Hl Hin Hs Hx Hx'. apply states_in in Hx. eapply Permutation.Permutation_in in Hx; [|apply Permutation.Permutation_sym, (orbit_all st Hl Hin Hs)].
  destruct Hx as [<-|X]; [destruct (zero_not Hx')|]. apply in_map_iff in X. destruct X as (i & E & Hi). apply in_seq in Hi.
  exists i. split; [lia|exact E].
Qed.
Lemma all_separate st : length st = k -> In true st -> separate st.
Proof.
  intros Hl Hin. destruct (proj2 Hm) as (s & F & H0 & Hd). set (st0 := window s k 0) in *.
  assert (L0 : length st0 = k) by (unfold st0, window; rewrite map_length, seq_length; reflexivity).
  assert (S0 : separate st0).
  { intros i j Hij. unfold st0. rewrite !follows_state by assumption. apply Hd. exact Hij. }
  destruct (reached st0 st L0 H0 S0 Hl Hin) as (j & _ & Hj). intros i i' Hi E. apply (S0 i i' Hi).
  rewrite <- Hj in E. rewrite <- !state_add in E. rewrite (Nat.add_comm j i), (Nat.add_comm j i'), !state_add in E.
  apply (state_inj taps k Ht) in E; [exact E| |]; rewrite ?state_length; lia.
Qed.
Lemma balanced st : length st = k -> In true st -> ones (map (bit st) (seq 0 P)) = 2 ^ (k - 1).
Proof.
  intros Hl Hin. pose proof (orbit_all st Hl Hin (all_separate st Hl Hin)) as Q.
  apply (Permutation.Permutation_map (hd false)) in Q. cbn [map] in Q. rewrite map_map in Q.
  pose proof (proj1 (Permutation_count_occ bool_dec _ _) Q true) as Q'. clear Q. rename Q' into Q. unfold ones.
  change (fun x => hd false (state x st)) with (bit st) in Q.
  replace (states k) with (states (S (k - 1))) in Q by (f_equal; lia). rewrite hd_states in Q.
  replace (hd false (repeat false k)) with false in Q by (destruct k; reflexivity). cbn [count_occ] in Q.
  destruct (bool_dec false true); [discriminate|exact Q].
Qed.
Lemma periodic st : length st = k -> In true st -> state P st = st.
Proof.
  intros Hl Hin. pose proof (all_separate st Hl Hin) as Hs.
  destruct (reached st (state P st) Hl Hin Hs) as (j & Hj & E); [rewrite state_length; lia|apply nonzero_state; auto|].
  destruct (Nat.eq_dec j 0) as [->|N]; [symmetry; exact E|exfalso].
  replace (state P st) with (state ((P - j) + j) st) in E by (f_equal; lia). rewrite state_add in E.
  apply (state_inj taps k Ht) in E; [|rewrite state_length; lia|lia].
  exact (Hs 0 (P - j) ltac:(lia) E).
Qed.
Lemma bit_period st i q : length st = k -> In true st -> bit st (i + P * q) = bit st i.
Proof.
  intros Hl Hin. rewrite Nat.add_comm. unfold MseqLemmas.bit. rewrite state_add. do 2 f_equal.
  induction q as [|q IH]; [rewrite Nat.mul_0_r; reflexivity|]. rewrite Nat.mul_succ_r, Nat.add_comm, state_add, periodic by assumption. exact IH.
Qed.
Lemma bit_mod st i : length st = k -> In true st -> bit st (i mod P) = bit st i.
Proof.
  intros Hl Hin. pose proof P_pos. rewrite (Nat.div_mod i P) at 2 by lia. rewrite Nat.add_comm. symmetry. apply bit_period; assumption.
Qed.
Lemma correlation st l : length st = k -> In true st -> l mod P <> 0 -> periodic_correlation (map (bit st) (seq 0 P)) l = (-1)%Z.
Proof.
  intros Hl Hin Hlag. unfold periodic_correlation. rewrite map_length, seq_length. pose proof P_pos as Hp.
  assert (Hnth : forall i, i < P -> nth i (map (bit st) (seq 0 P)) false = bit st i).
  { intros i Hi. rewrite (nth_indep _ false (bit st 0)) by (rewrite map_length, seq_length; exact Hi). rewrite map_nth, seq_nth by exact Hi. reflexivity. }
  set (d := xors st (state l st)). assert (Ls : length (state l st) = k) by (rewrite state_length; lia).
  assert (Ld : length d = k) by (unfold d; rewrite xors_length; lia).
  assert (Hd : In true d).
  { destruct (in_dec bool_dec true d) as [H|H]; [exact H|exfalso]. apply xor_self in H; [|lia].
    assert (E : state (l mod P) st = state l st).
    { rewrite (Nat.div_mod l P) at 2 by lia. rewrite state_add. f_equal.
      generalize (l / P). intros q. induction q as [|q IH]; [rewrite Nat.mul_0_r; reflexivity|].
      rewrite Nat.mul_succ_r, Nat.add_comm, state_add, periodic by assumption. exact IH. }
    rewrite <- E in H. pose proof (Nat.mod_upper_bound l P ltac:(lia)).
    exact (all_separate st Hl Hin 0 (l mod P) ltac:(lia) H). }
  rewrite (zsum_ext _ (fun i => sign (bit d i))).
  - rewrite zsum_sign, balanced by assumption.
    assert (E : 2 ^ k = 2 * 2 ^ (k - 1)) by (replace k with (S (k - 1)) at 1 by lia; cbn; lia). lia.
  - intros i Hi. rewrite Hnth by exact Hi. rewrite Hnth by (apply Nat.mod_upper_bound; lia).
    rewrite bit_mod by assumption. unfold d. rewrite bit_lin by lia. rewrite <- bit_add, (Nat.add_comm l i).
    destruct (bit st i), (bit st (i + l)); reflexivity.
Qed.
End Maximal.
(** *** deciding maximality *)
Fixpoint distinctb (l : list (list bool)) : bool :=
  match l with [] => true | a :: t => negb (existsb (fun b => if list_eq_dec bool_dec a b then true else false) t) && distinctb t end.
Lemma distinctb_ok l : distinctb l = true -> NoDup l.
Proof.
  induction l as [|a t IH]; intros H; [constructor|]. cbn in H. apply andb_true_iff in H. destruct H as [H1 H2]. constructor; [|apply IH; exact H2].
  intros X. apply negb_true_iff in H1. assert (existsb (fun b => if list_eq_dec bool_dec a b then true else false) t = true); [|congruence].
  apply existsb_exists. exists a. split; [exact X|]. destruct (list_eq_dec bool_dec a a); congruence.
Qed.
Fixpoint trace (taps : list nat) (k n : nat) (st : list bool) : list (list bool) :=
  match n with O => [] | S m => st :: trace taps k m (step taps k st) end.
Lemma trace_states taps k n st : trace taps k n st = map (fun i => state taps k i st) (seq 0 n).
Proof.
  revert st. induction n as [|n IH]; intros st; [reflexivity|]. cbn [trace seq map]. f_equal. rewrite IH, <- seq_shift, map_map. reflexivity.
Qed.
Definition maximalb (taps : list nat) (k : nat) : bool :=
  let st := true :: repeat false (k - 1) in
  forallb (fun j => negb (Nat.eqb (j mod k) 0)) taps && distinctb (trace taps k (2 ^ k - 1) st).
Lemma maximalb_ok taps k : 1 <= k -> maximalb taps k = true -> maximal taps k.
Proof.
  intros Hk H. apply andb_true_iff in H. destruct H as [H1 H2]. split.
  - intros j Hj E. rewrite forallb_forall in H1. specialize (H1 j Hj). rewrite E in H1. discriminate.
  - set (st := true :: repeat false (k - 1)) in *. assert (L : length st = k) by (unfold st; cbn; rewrite repeat_length; lia).
    exists (bit taps k st). split; [apply bit_follows; assumption|]. split.
    + rewrite <- state_window by assumption. left. reflexivity.
    + apply distinctb_ok in H2. rewrite trace_states in H2. intros i j Hij E. rewrite <- !state_window in E by assumption.
      assert (D : i = j); [|lia]. apply (proj1 (NoDup_nth _ []) H2); rewrite ?map_length, ?seq_length; try lia.
      rewrite !(nth_indep _ [] (state taps k 0 st)) by (rewrite map_length, seq_length; lia).
      rewrite !(map_nth (fun i => state taps k i st)), !seq_nth by lia. exact E.
Qed.
