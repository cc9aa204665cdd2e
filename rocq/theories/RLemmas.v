(** Lemmas on rounding, comparisons and [linspace] over the reals. *)
From Coq Require Import Reals ZArith List Bool Lia Lra.
From Verif Require Import Num Numpy Spec AxisModel.
Import ListNotations.
Local Open Scope R_scope.

(** *** boolean comparisons *)
Lemma Rleb_true x y : Rleb x y = true <-> x <= y.
Proof. unfold Rleb; destruct (Rle_dec x y); split; intros; try lra; try discriminate; auto. Qed.
Lemma Rleb_false x y : Rleb x y = false <-> y < x.
Proof. unfold Rleb; destruct (Rle_dec x y); split; intros; try lra; try discriminate; auto. Qed.
Lemma Rltb_true x y : Rltb x y = true <-> x < y.
Proof. unfold Rltb; destruct (Rlt_dec x y); split; intros; try lra; try discriminate; auto. Qed.
Lemma Rltb_false x y : Rltb x y = false <-> y <= x.
Proof. unfold Rltb; destruct (Rlt_dec x y); split; intros; try lra; try discriminate; auto. Qed.
Lemma Reqb_true x y : Reqb x y = true <-> x = y.
Proof. unfold Reqb; destruct (Req_EM_T x y); split; intros; try lra; try discriminate; auto. Qed.
Lemma Reqb_false x y : Reqb x y = false <-> x <> y.
Proof. unfold Reqb; destruct (Req_EM_T x y); split; intros; try tauto; try discriminate; auto. Qed.

(** [num RA] and [R] are convertible but not syntactically equal *)
Ltac rr := change (num RA) with R in *.
Ltac rb := repeat match goal with
  | H : Rleb _ _ = true |- _ => apply Rleb_true in H
  | H : Rleb _ _ = false |- _ => apply Rleb_false in H
  | H : Rltb _ _ = true |- _ => apply Rltb_true in H
  | H : Rltb _ _ = false |- _ => apply Rltb_false in H
  | H : Reqb _ _ = true |- _ => apply Reqb_true in H
  | H : Reqb _ _ = false |- _ => apply Reqb_false in H
  end.

(** *** rounding *)
Lemma Rround_spec x : round_half_even x (Rround x).
Proof.
  unfold Rround, round_half_even, half_even, Rcomp.
  destruct (base_Int_part x) as [H1 H2].
  set (f := Int_part x) in *.
  destruct (Rlt_dec (x - IZR f) (/ 2)).
  - left. rewrite Rabs_right; lra.
  - destruct (Req_EM_T (x - IZR f) (/ 2)).
    + right. destruct (Z.even f) eqn:E.
      * split; [rewrite Rabs_right; lra | apply Z.even_spec; exact E].
      * rewrite plus_IZR. split.
        -- replace (x - (IZR f + 1)) with (- / 2) by lra. rewrite Rabs_Ropp, Rabs_right; lra.
        -- apply Z.even_spec. rewrite Z.even_add, E. reflexivity.
    + left. rewrite plus_IZR. rewrite Rabs_left1; lra.
Qed.

Lemma IZR_close a b : Rabs (IZR a - IZR b) < 1 -> a = b.
Proof.
  intros H. rewrite <- minus_IZR, <- abs_IZR in H. apply lt_IZR in H. lia.
Qed.
Lemma IZR_close1 a b : Rabs (IZR a - IZR b) <= 1 -> (Z.abs (a - b) <= 1)%Z.
Proof. intros H. rewrite <- minus_IZR, <- abs_IZR in H. apply le_IZR in H. exact H. Qed.

Lemma round_half_even_unique x a b : round_half_even x a -> round_half_even x b -> a = b.
Proof.
  intros [Ha|[Ha Ea]] [Hb|[Hb Eb]].
  - apply IZR_close. replace (IZR a - IZR b) with ((x - IZR b) - (x - IZR a)) by lra.
    unfold Rabs in *; repeat destruct Rcase_abs; lra.
  - apply IZR_close. replace (IZR a - IZR b) with ((x - IZR b) - (x - IZR a)) by lra.
    unfold Rabs in *; repeat destruct Rcase_abs; lra.
  - apply IZR_close. replace (IZR a - IZR b) with ((x - IZR b) - (x - IZR a)) by lra.
    unfold Rabs in *; repeat destruct Rcase_abs; lra.
  - assert (Z.abs (a - b) <= 1)%Z.
    { apply IZR_close1. replace (IZR a - IZR b) with ((x - IZR b) - (x - IZR a)) by lra.
      unfold Rabs in *; repeat destruct Rcase_abs; lra. }
    destruct Ea as [p Ea], Eb as [q Eb]. lia.
Qed.

Lemma Rround_iff x k : Rround x = k <-> round_half_even x k.
Proof.
  split; [intros <-; apply Rround_spec | intros H; eapply round_half_even_unique; [apply Rround_spec | exact H]].
Qed.

Lemma Rround_IZR k : Rround (IZR k) = k.
Proof. apply Rround_iff. left. rewrite Rminus_diag_eq, Rabs_R0 by reflexivity. lra. Qed.
Lemma Rround_INR n : Rround (INR n) = Z.of_nat n.
Proof. rewrite INR_IZR_INZ. apply Rround_IZR. Qed.
Lemma Rround_half x : Rabs (x - IZR (Rround x)) <= / 2.
Proof. destruct (Rround_spec x) as [H|[H _]]; lra. Qed.
Lemma Rround_nonneg x : 0 <= x -> (0 <= Rround x)%Z.
Proof.
  intros Hx. pose proof (Rround_half x) as H.
  assert (-1 < Rround x)%Z; [|lia]. apply lt_IZR.
  unfold Rabs in H; destruct Rcase_abs in H; lra.
Qed.
Lemma Rround_near x k : Rabs (x - IZR k) < / 2 -> Rround x = k.
Proof. intros H. apply Rround_iff. left. exact H. Qed.

Lemma tie_dist x k : Rabs (x - IZR k) = / 2 -> is_tie x.
Proof.
  unfold Rabs; destruct Rcase_abs; intros H.
  - exists (k - 1)%Z. rewrite minus_IZR. lra.
  - exists k. lra.
Qed.
Lemma Rround_minus_one x : ~ is_tie x -> Rround (x - 1) = (Rround x - 1)%Z.
Proof.
  intros Ht. apply Rround_iff. left. rewrite minus_IZR.
  destruct (Rround_spec x) as [H|[H _]].
  - replace (x - 1 - (IZR (Rround x) - 1)) with (x - IZR (Rround x)) by lra. exact H.
  - exfalso. apply Ht. eapply tie_dist; exact H.
Qed.
Lemma Rround_minus_one_tie x : is_tie x -> Rround (x - 1) <> (Rround x - 1)%Z.
Proof.
  intros [k Hk] H.
  destruct (Z.Even_or_Odd k) as [E|O].
  - assert (H1 : Rround x = k).
    { apply Rround_iff. right. split; [|exact E]. rewrite Hk.
      replace (IZR k + / 2 - IZR k) with (/ 2) by lra. rewrite Rabs_right; lra. }
    assert (H2 : Rround (x - 1) = k).
    { apply Rround_iff. right. split; [|exact E]. rewrite Hk.
      replace (IZR k + / 2 - 1 - IZR k) with (- / 2) by lra. rewrite Rabs_Ropp, Rabs_right; lra. }
    lia.
  - assert (H1 : Rround x = (k + 1)%Z).
    { apply Rround_iff. right. split.
      - rewrite Hk, plus_IZR.
        replace (IZR k + / 2 - (IZR k + 1)) with (- / 2) by lra. rewrite Rabs_Ropp, Rabs_right; lra.
      - destruct O as [j ->]. exists (j + 1)%Z. lia. }
    assert (H2 : Rround (x - 1) = (k - 1)%Z).
    { apply Rround_iff. right. split.
      - rewrite Hk, minus_IZR.
        replace (IZR k + / 2 - 1 - (IZR k - 1)) with (/ 2) by lra. rewrite Rabs_right; lra.
      - destruct O as [j ->]. exists j. lia. }
    lia.
Qed.

(** *** linspace *)
Lemma n_of_nat_R n : n_of_nat RA n = INR n.
Proof. unfold n_of_nat; cbn. symmetry. apply INR_IZR_INZ. Qed.

Lemma map_seq_last {T} (f : nat -> T) m : map f (seq 0 (S m)) = map f (seq 0 m) ++ [f m].
Proof. rewrite seq_S, map_app. reflexivity. Qed.

Lemma grid_pt_last s e m : grid_pt s e (S (S m)) (S m) = e.
Proof.
  unfold grid_pt. replace (S (S m) - 1)%nat with (S m) by lia. field. apply not_0_INR; lia.
Qed.
Lemma linspace_R s e n : linspace RA s e n = grid s e n.
Proof.
  destruct n as [|[|m]]; [reflexivity| |].
  - unfold grid, grid_pt. cbn. f_equal. lra.
  - unfold grid. rewrite map_seq_last. cbn [linspace].
    assert (Hm : INR (S m) <> 0) by (apply not_0_INR; lia).
    f_equal.
    + apply map_ext_in. intros i Hi. rewrite !n_of_nat_R.
      unfold grid_pt. cbn [RA n_add n_eq n_mul n_div n_sub n_of_Z num].
      replace (S (S m) - 1)%nat with (S m) by lia.
      destruct (Reqb ((e - s) / INR (S m)) 0) eqn:E; rb.
      * field. exact Hm.
      * lra.
    + rewrite grid_pt_last. reflexivity.
Qed.

Lemma grid_length s e n : length (grid s e n) = n.
Proof. unfold grid. rewrite map_length, seq_length. reflexivity. Qed.
Lemma grid_nth s e n i : (i < n)%nat -> nth_error (grid s e n) i = Some (grid_pt s e n i).
Proof.
  intros H. unfold grid. rewrite nth_error_map.
  rewrite (nth_error_nth' _ 0%nat) by (rewrite seq_length; exact H).
  rewrite seq_nth by exact H. reflexivity.
Qed.
Lemma grid_nth_inv s e n i t : nth_error (grid s e n) i = Some t -> (i < n)%nat /\ t = grid_pt s e n i.
Proof.
  intros H. assert (Hi : (i < n)%nat).
  { rewrite <- (grid_length s e n). apply nth_error_Some. rewrite H. discriminate. }
  split; [exact Hi|]. rewrite grid_nth in H by exact Hi. congruence.
Qed.

(** *** axis *)
Lemma axis_size_zero (a : axis RA) : a_sample a = 0 -> axis_size RA a = Err EArith.
Proof.
  intros H. unfold axis_size. cbn [RA n_eq n_of_Z].
  replace (Reqb (a_sample a) 0) with true; [reflexivity|]. symmetry. apply Reqb_true. exact H.
Qed.
Lemma axis_size_nz (a : axis RA) : a_sample a <> 0 ->
  axis_size RA a = Ok (Z.to_nat (Rround (Rabs ((a_end a - a_start a) / a_sample a))) + 1)%nat.
Proof.
  intros H. unfold axis_size. cbn [RA n_eq n_of_Z n_round n_abs n_div n_sub].
  replace (Reqb (a_sample a) 0) with false; [reflexivity|]. symmetry. apply Reqb_false. exact H.
Qed.
Lemma axis_array_size (a : axis RA) n : axis_size RA a = Ok n ->
  axis_array RA a = Ok (grid (a_start a) (a_end a) n).
Proof. intros H. unfold axis_array. rewrite H. cbn [bind]. rewrite linspace_R. reflexivity. Qed.
Lemma axis_array_inv (a : axis RA) l : axis_array RA a = Ok l ->
  axis_size RA a = Ok (length l) /\ l = grid (a_start a) (a_end a) (length l).
Proof.
  unfold axis_array. destruct (axis_size RA a) as [n|e] eqn:E; cbn [bind]; intros H; [|discriminate].
  injection H as <-. rewrite linspace_R, grid_length. auto.
Qed.
Lemma axis_size_pos (a : axis RA) n : axis_size RA a = Ok n -> (0 < n)%nat.
Proof.
  destruct (Req_EM_T (a_sample a) 0) as [H|H].
  - rewrite axis_size_zero by exact H. discriminate.
  - rewrite axis_size_nz by exact H. intros E; injection E as <-. lia.
Qed.
(** size characterised by the specification of rounding *)
Lemma axis_size_iff (a : axis RA) n : a_sample a <> 0 ->
  (axis_size RA a = Ok n <->
   (0 < n)%nat /\ round_half_even (Rabs ((a_end a - a_start a) / a_sample a)) (Z.of_nat n - 1)).
Proof.
  intros Hz. rewrite axis_size_nz by exact Hz.
  set (q := Rabs _).
  assert (Hq : (0 <= Rround q)%Z) by (apply Rround_nonneg, Rabs_pos).
  split.
  - intros E; injection E as <-. split; [lia|].
    replace (Z.of_nat (Z.to_nat (Rround q) + 1) - 1)%Z with (Rround q) by lia. apply Rround_spec.
  - intros [Hn H]. apply Rround_iff in H. f_equal. rewrite H. lia.
Qed.
Lemma axis_size_exact (a : axis RA) m :
  exact_span (a_start a) (a_end a) (a_sample a) m -> axis_size RA a = Ok (m + 1)%nat.
Proof.
  intros [Hd He]. rewrite axis_size_nz by lra. f_equal. rewrite He.
  replace (INR m * a_sample a / a_sample a) with (INR m) by (field; lra).
  rewrite Rabs_right by (apply Rle_ge, pos_INR). rewrite Rround_INR. rewrite Nat2Z.id. reflexivity.
Qed.
(** two or more points: the end points differ *)
Lemma axis_size_two (a : axis RA) n : axis_size RA a = Ok n -> (2 <= n)%nat -> a_start a <> a_end a.
Proof.
  intros H Hn Heq.
  destruct (Req_EM_T (a_sample a) 0) as [Hz|Hz].
  - rewrite axis_size_zero in H by exact Hz; discriminate.
  - rewrite axis_size_nz in H by exact Hz. rewrite Heq in H.
    replace ((a_end a - a_end a) / a_sample a) with 0 in H by (field; exact Hz).
    rewrite Rabs_R0, (Rround_IZR 0) in H. cbn in H. injection H as H. lia.
Qed.

(** *** lists *)
Lemma nth_error_ext {T} (l m : list T) : length l = length m ->
  (forall i, (i < length l)%nat -> nth_error l i = nth_error m i) -> l = m.
Proof.
  revert m; induction l as [|a l IH]; intros [|b m] Hl H; try discriminate; [reflexivity|].
  f_equal.
  - specialize (H 0%nat). cbn in H. assert (Some a = Some b) by (apply H; lia). congruence.
  - apply IH; [cbn in Hl; lia|]. intros i Hi. apply (H (S i)). cbn; lia.
Qed.
Lemma nth_error_map_seq {T} (f : nat -> T) n i : (i < n)%nat -> nth_error (map f (seq 0 n)) i = Some (f i).
Proof.
  intros H. rewrite nth_error_map, (nth_error_nth' _ 0%nat) by (rewrite seq_length; exact H).
  rewrite seq_nth by exact H. reflexivity.
Qed.
Lemma nth_error_lt {T} (l : list T) i : (i < length l)%nat -> exists a, nth_error l i = Some a.
Proof. intros H. apply nth_error_Some in H. destruct (nth_error l i); [eauto | tauto]. Qed.
Lemma nth_error_len {T} (l : list T) i a : nth_error l i = Some a -> (i < length l)%nat.
Proof. intros H. apply nth_error_Some. rewrite H. discriminate. Qed.

Lemma last_nth_error {T} (l : list T) d : l <> [] -> nth_error l (length l - 1) = Some (last l d).
Proof.
  induction l as [|a [|b l] IH]; intros H; [tauto|reflexivity|].
  cbn [length last]. replace (S (S (length l)) - 1)%nat with (S (S (length l) - 1)) by lia.
  cbn [nth_error]. apply IH. discriminate.
Qed.
