(** Proofs for C88: number sequences as axes in binary64. *)
From Coq Require Import Reals ZArith List Bool Lia Lra Psatz SpecFloat.
From Flocq Require Import Core.Core IEEE754.BinarySingleNaN.
From Verif Require Import Num Numpy Spec AxisModel RelModel RLemmas FloatSpec FloatLemmas FloatLemmas2 FloatLemmas3 FloatLemmas4 CalcSpec
  FloatLemmas5 RelLemmas.
Import ListNotations.
Local Open Scope R_scope.

Lemma amin_In (l : list spec_float) a : In (fold_left (fun m x => if SFltb x m then x else m) l a) (a :: l).
Proof.
  revert a. induction l as [|b l IH]; intros a; cbn [fold_left]; [left; reflexivity|].
  destruct (SFltb b a); [right; apply IH|]. destruct (IH a) as [H|H]; [left; exact H|right; right; exact H].
Qed.
Lemma diffs_In (l : list spec_float) g : In g (diffs (SFsub 53 1024) l) ->
  exists i a b, nth_error l i = Some a /\ nth_error l (S i) = Some b /\ g = SFsub 53 1024 b a.
Proof. intros H. apply In_nth_error in H as [i Hi]. apply diffs_get in Hi as (a & b & Ha & Hb & ->). exists i, a, b. auto. Qed.

Section Seq.
Context (xs : list spec_float) (n : nat) (X0 dl eta : R) (L : length xs = (n + 1)%nat) (Hn : (1 <= n)%nat) (HN : INR n <= 2 ^ 44)
  (Pd : bpow radix2 (-200) <= dl <= bpow radix2 200) (HX : Rabs X0 <= 2 ^ 44 * dl) (He : eta <= / 16 * dl) (G : near_grid xs X0 dl eta).
Lemma sq_pos : 0 < dl. Proof. pose proof (bpow_gt_0 radix2 (-200)). lra. Qed.
Lemma sq_uu : 0 < uu * dl /\ uu * dl <= / 1024 * dl.
Proof. pose proof sq_pos. pose proof uu_pos. split; [apply Rmult_lt_0_compat; lra|]. apply Rmult_le_compat_r; [lra|apply uu_small]. Qed.
Lemma sq_eta : 0 <= eta.
Proof.
  destruct (nth_error xs 0) as [x|] eqn:E; [|apply nth_error_None in E; lia]. destruct (G 0%nat x E) as [_ H]. pose proof (Rabs_pos (f64_val x - (X0 + INR 0 * dl))). lra.
Qed.
Lemma sq_gap i a b : nth_error xs i = Some a -> nth_error xs (S i) = Some b ->
  f64_fin (SFsub 53 1024 b a) /\ Rabs (f64_val (SFsub 53 1024 b a) - dl) <= 2 * eta + 2 * (uu * dl).
Proof.
  intros Ha Hb. pose proof sq_pos as P. pose proof sq_uu as [U1 U2]. pose proof sq_eta as E0. destruct (G i a Ha) as [Fa Ea]. destruct (G (S i) b Hb) as [Fb Eb].
  rewrite S_INR in Eb. apply Rabs_le_inv in Ea, Eb.
  assert (E : Rabs (f64_val b - f64_val a - dl) <= 2 * eta) by (apply Rabs_le; lra). pose proof (near_abs _ _ _ E) as B. rewrite (Rabs_right dl) in B by lra.
  destruct (sub_ok b a Fb Fa) as [F Es].
  { apply Rle_trans with (2 * bpow radix2 200); [lra|]. change 2 with (bpow radix2 1). rewrite <- bpow_plus. apply bpow_le. lia. }
  split; [exact F|]. eapply Rle_trans; [apply (near_trans _ _ _ _ _ Es E)|].
  assert (uu * Rabs (f64_val b - f64_val a) <= uu * (2 * dl)) by (apply Rmult_le_compat_l; [apply Rlt_le, uu_pos|lra]). lra.
Qed.
Lemma sq_sample : exists m, actual_sample FA xs = Ok m /\ f64_fin m /\ Rabs (f64_val m - dl) <= 2 * eta + 2 * (uu * dl).
Proof.
  unfold actual_sample, np_diff_num, amin_num. cbn [n_sub n_lt FA].
  assert (LD : length (diffs (SFsub 53 1024) xs) = n) by (rewrite diffs_len; lia).
  change (num FA) with spec_float in *. destruct (diffs (SFsub 53 1024) xs) as [|g l] eqn:ED; [cbn in LD; lia|].
  eexists. split; [reflexivity|]. pose proof (amin_In l g) as H. rewrite <- ED in H. apply diffs_In in H as (i & a & b & Ha & Hb & E).
  change (num FA) with spec_float in *. rewrite E. apply (sq_gap i a b Ha Hb).
Qed.
Context (x0 x1 d : spec_float) (H0 : nth_error xs 0 = Some x0) (H1 : nth_error xs n = Some x1) (Fd : f64_fin d) (Hd : Rabs (f64_val d - dl) <= 2 * (uu * dl)).
Lemma sq_d : f64_val d <= 2 * dl /\ dl <= (1 + / 256) * f64_val d /\ 0 < f64_val d.
Proof. pose proof sq_pos. pose proof sq_uu as [U1 U2]. pose proof Hd as Q. apply Rabs_le_inv in Q. lra. Qed.
Lemma sq_tame : f64_tame x0 x1 d n /\ f64_val x0 <= f64_val x1.
Proof.
  pose proof sq_pos as P. pose proof sq_uu as [U1 U2]. pose proof sq_eta as E0. destruct sq_d as (D1 & D2 & D3).
  destruct (G 0%nat x0 H0) as [F0 A0]. destruct (G n x1 H1) as [F1 A1]. cbn [INR] in A0. rewrite Rmult_0_l, Rplus_0_r in A0.
  pose proof (near_abs _ _ _ A0) as B0. pose proof (near_abs _ _ _ A1) as B1. pose proof (Rabs_triang X0 (INR n * dl)) as T. pose proof (pos_INR n) as Pn.
  rewrite (Rabs_right (INR n * dl)) in T by (apply Rle_ge, Rmult_le_pos; lra).
  assert (N1 : INR n * dl <= 2 ^ 44 * dl) by (apply Rmult_le_compat_r; lra).
  assert (O1 : 1 * dl <= INR n * dl) by (apply Rmult_le_compat_r; [lra|apply (le_INR 1); exact Hn]).
  apply Rabs_le_inv in A0, A1. pose proof (bpow_gt_0 radix2 (-200)).
  split; [|lra].
  split; [exact F0|]. split; [exact F1|]. split; [exact Fd|]. rewrite !powerRZ_bpow, (Rabs_right (f64_val d)) by lra.
  split. { split; [apply Rle_trans with (/ 2 * bpow radix2 (-200)); [|lra]; change (/ 2) with (bpow radix2 (-1)); rewrite <- bpow_plus; apply bpow_le; lia|].
    apply Rle_trans with (2 * bpow radix2 200); [lra|]. change 2 with (bpow radix2 1). rewrite <- bpow_plus. apply bpow_le. lia. }
  split; [lra|]. split; [lra|]. rewrite (Rabs_right (f64_val x1 - f64_val x0)) by lra.
  replace ((f64_val x1 - f64_val x0) / f64_val d - INR n) with ((f64_val x1 - f64_val x0 - INR n * f64_val d) / f64_val d) by (field; lra).
  rewrite div_abs, (Rabs_right (f64_val d)) by lra. apply Rmult_le_reg_r with (f64_val d); [lra|]. unfold Rdiv. rewrite Rmult_assoc, Rinv_l, Rmult_1_r by lra.
  pose proof (near_mult _ _ (INR n) _ Hd) as Q. rewrite (Rabs_right (INR n)) in Q by lra.
  assert (Q2 : 2 * (uu * dl) * INR n <= / 256 * dl).
  { replace (2 * (uu * dl) * INR n) with (2 * uu * INR n * dl) by ring. apply Rmult_le_compat_r; [lra|]. unfold uu. lra. }
  apply Rabs_le_inv in Q. apply Rabs_le. lra.
Qed.
Lemma sq_array : exists xs', axis_size FA (mkAxis (A:=FA) x0 x1 d) = Ok (n + 1)%nat /\ axis_array FA (mkAxis (A:=FA) x0 x1 d) = Ok xs' /\ length xs' = (n + 1)%nat /\
  forall i x x', nth_error xs i = Some x -> nth_error xs' i = Some x' -> f64_fin x' /\
    Rabs (f64_val x' - f64_val x) <= 2 * eta + / 2 ^ 50 * Rmax (Rabs (f64_val x0)) (Rabs (f64_val x1)).
Proof.
  destruct sq_tame as [HT _]. pose proof (tame_axis _ _ _ _ HT) as HA. destruct (f64_array _ _ _ _ HA) as (xs' & X & L' & _ & P & _).
  exists xs'. split; [apply (f64_size _ _ _ _ HA)|]. split; [exact X|]. split; [exact L'|]. intros i x x' Hx Hx'.
  destruct (P i x' Hx') as (F & _ & Q). split; [exact F|]. destruct (G i x Hx) as [_ Ex]. pose proof (nth_error_len _ _ _ Hx) as Li. rewrite L in Li.
  destruct (G 0%nat x0 H0) as [_ A0]. destruct (G n x1 H1) as [_ A1]. cbn [INR] in A0. rewrite Rmult_0_l, Rplus_0_r in A0.
  destruct (grid_mix (f64_val x0) (f64_val x1) n i ltac:(lia)) as (k & Hk & G1 & K1). pose proof (mix_near k _ _ _ _ _ Hk A0 A1) as M. rewrite <- G1 in M.
  assert (EM : (1 - k) * X0 + k * (X0 + INR n * dl) = X0 + INR i * dl).
  { rewrite K1. field. assert (1 <= INR n) by (apply (le_INR 1); exact Hn). lra. }
  rewrite EM in M. rewrite <- (Rabs_Ropp (f64_val x - _)) in Ex. replace (- (f64_val x - (X0 + INR i * dl))) with (X0 + INR i * dl - f64_val x) in Ex by ring.
  eapply Rle_trans; [apply (near_trans _ _ _ _ _ Q (near_trans _ _ _ _ _ M Ex))|]. lra.
Qed.
End Seq.

(** ** the rounded sample *)
Lemma one_fin : f64_fin (n_of_Z FA 1) /\ f64_val (n_of_Z FA 1) = 1.
Proof. apply (f64_Z_exact 1). vm_compute. discriminate. Qed.
Lemma zero_fin : f64_fin (n_of_Z FA 0) /\ f64_val (n_of_Z FA 0) = 0.
Proof. apply (f64_Z_exact 0). vm_compute. discriminate. Qed.
Lemma eqb_no x y : f64_fin x -> f64_fin y -> f64_val x <> f64_val y -> SFeqb x y = false.
Proof. intros Fx Fy H. apply not_true_is_false. intros E. apply f64_eqb in E; try assumption. contradiction. Qed.
Lemma ltb_no x y : f64_fin x -> f64_fin y -> f64_val y <= f64_val x -> SFltb x y = false.
Proof. intros Fx Fy H. apply not_true_is_false. intros E. apply f64_ltb in E; try assumption. lra. Qed.

(** near a reciprocal *)
Section Rnd.
Context (k : nat) (K1 : (1 <= k)%nat) (K2 : INR k <= 2 ^ 40).
Lemma k_one : 1 <= INR k. Proof. apply (le_INR 1). exact K1. Qed.
Lemma k_inv : / 2 ^ 40 <= / INR k <= 1.
Proof. pose proof k_one. split; [apply Rinv_le_contravar; lra|]. rewrite <- Rinv_1. apply Rinv_le_contravar; lra. Qed.
Lemma k_fin : f64_fin (f64_of_Z (Z.of_nat k)) /\ f64_val (f64_of_Z (Z.of_nat k)) = INR k.
Proof.
  rewrite INR_IZR_INZ. apply f64_Z_exact. rewrite Z.abs_eq by lia. apply le_IZR. rewrite <- INR_IZR_INZ. change (2 ^ 53)%Z with (2 ^ 40 * 2 ^ 13)%Z.
  apply Rle_trans with (1 := K2). change (IZR (2 ^ 40 * 2 ^ 13)) with 9007199254740992. lra.
Qed.
Lemma k_div : f64_nearest (/ INR k) (SFdiv 53 1024 (f64_of_Z 1) (f64_of_Z (Z.of_nat k))) /\
  Rabs (f64_val (SFdiv 53 1024 (f64_of_Z 1) (f64_of_Z (Z.of_nat k))) - / INR k) <= 2 * (uu * / INR k).
Proof.
  destruct one_fin as [F1 V1]. change (n_of_Z FA 1) with (f64_of_Z 1) in *. destruct k_fin as [Fk Vk]. pose proof k_one as O. pose proof k_inv as I.
  assert (Q : f64_val (f64_of_Z 1) / f64_val (f64_of_Z (Z.of_nat k)) = / INR k) by (rewrite V1, Vk; field; lra).
  assert (Z0 : f64_val (f64_of_Z (Z.of_nat k)) <> 0) by (rewrite Vk; lra).
  assert (B : Rabs (/ INR k) <= bpow radix2 1000) by (rewrite Rabs_right by lra; apply Rle_trans with (bpow radix2 0); [apply I|apply bpow_le; lia]).
  split.
  - destruct (f64_div _ _ F1 Fk Z0) as [F E]; [rewrite Q; apply Rle_trans with (1 := B); apply bpow_le; lia|]. rewrite Q in E. apply frnd_nearest; assumption.
  - destruct (div_ok _ _ F1 Fk Z0) as [F E]; [rewrite Q; exact B|]. rewrite Q in E. rewrite (Rabs_right (/ INR k)) in E by lra. eapply Rle_trans; [exact E|].
    assert (et <= uu * / INR k).
    { apply Rle_trans with (uu * bpow radix2 (-40)); [|apply Rmult_le_compat_l; [apply Rlt_le, uu_pos|cbn; lra]].
      replace uu with (bpow radix2 (-53)) by (cbn; unfold uu; lra). rewrite <- bpow_plus. apply bpow_le. lia. }
    lra.
Qed.
Lemma round_reciprocal m : f64_fin m -> Rabs (f64_val m - / INR k) <= / 4 * (/ INR k * / INR k) -> f64_val m < 1 ->
  round_sample FA m = Ok (SFdiv 53 1024 (f64_of_Z 1) (f64_of_Z (Z.of_nat k))).
Proof.
  intros Fm E Lm. destruct one_fin as [F1 V1]. destruct zero_fin as [F0 V0]. pose proof k_one as O. pose proof k_inv as I.
  assert (I2 : / INR k * / INR k <= 1 * / INR k) by (apply Rmult_le_compat_r; lra).
  pose proof E as E'. apply Rabs_le_inv in E'. assert (Pm : 3 / 4 * / INR k <= f64_val m) by lra. assert (Pm0 : 0 < f64_val m) by lra.
  unfold round_sample. cbn [n_lt n_eq n_div n_round FA].
  replace (SFltb m (n_of_Z FA 1)) with true by (symmetry; apply f64_ltb; try assumption; rewrite V1; exact Lm).
  rewrite eqb_no by (try assumption; rewrite V0; lra). change (n_of_Z FA 1) with (f64_of_Z 1) in *.
  assert (QI : / f64_val m <= 4 / 3 * INR k).
  { replace (4 / 3 * INR k) with (/ (3 / 4 * / INR k)) by (field; lra). apply Rinv_le_contravar; lra. }
  assert (QP : 0 < / f64_val m) by (apply Rinv_0_lt_compat; lra).
  assert (Q : f64_val (f64_of_Z 1) / f64_val m = / f64_val m) by (rewrite V1; field; lra).
  destruct (div_ok _ _ F1 Fm ltac:(lra)) as [F D].
  { rewrite Q, Rabs_right by lra. apply Rle_trans with (4 / 3 * 2 ^ 40); [lra|]. apply Rle_trans with (bpow radix2 41); [cbn; lra|apply bpow_le; lia]. }
  rewrite Q, (Rabs_right (/ f64_val m)) in D by lra.
  assert (EQ : Rabs (/ f64_val m - INR k) <= / 3).
  { replace (/ f64_val m - INR k) with ((/ INR k - f64_val m) * (INR k * / f64_val m)) by (field; lra).
    rewrite Rabs_mult, Rabs_minus_sym, (Rabs_right (INR k * / f64_val m)) by (apply Rle_ge, Rmult_le_pos; lra).
    assert (W : INR k * / f64_val m <= INR k * (4 / 3 * INR k)) by (apply Rmult_le_compat_l; lra).
    apply Rle_trans with (/ 4 * (/ INR k * / INR k) * (INR k * (4 / 3 * INR k))).
    - apply Rmult_le_compat; [apply Rabs_pos|apply Rmult_le_pos; lra|exact E|exact W].
    - apply Req_le. field. lra. }
  assert (T : uu * / f64_val m <= uu * (4 / 3 * 2 ^ 40)) by (apply Rmult_le_compat_l; [apply Rlt_le, uu_pos|lra]).
  assert (T2 : et <= uu * 1) by (pose proof et_small; pose proof uu_pos; lra).
  assert (T3 : uu * (4 / 3 * 2 ^ 40) + uu * 1 <= / 100) by (unfold uu; lra).
  rewrite f64_round_fin by exact F. rewrite (near_round _ k).
  2:{ eapply Rle_lt_trans; [apply (near_trans _ _ _ _ _ D EQ)|]. lra. }
  destruct (Z.eqb_spec (Z.of_nat k) 0); [lia|]. reflexivity.
Qed.
(** near a whole number *)
Lemma round_whole m : f64_fin m -> Rabs (f64_val m - INR k) <= / 4 -> 1 <= f64_val m -> round_sample FA m = Ok (f64_of_Z (Z.of_nat k)).
Proof.
  intros Fm E Lm. destruct one_fin as [F1 V1]. unfold round_sample. cbn [n_lt n_eq n_div n_round FA].
  rewrite ltb_no by (try assumption; rewrite V1; exact Lm). rewrite f64_round_fin by exact Fm. rewrite (near_round _ k) by lra. reflexivity.
Qed.
End Rnd.

(** ** the two theorems *)
Lemma inv_bounds k : (1 <= k)%nat -> INR k <= 2 ^ 40 -> bpow radix2 (-200) <= / INR k <= bpow radix2 200.
Proof.
  intros K1 K2. pose proof (k_inv k K1 K2) as I. split; [apply Rle_trans with (bpow radix2 (-40)); [apply bpow_le; lia|cbn; lra]|].
  apply Rle_trans with (bpow radix2 0); [apply I|apply bpow_le; lia].
Qed.
Lemma whole_bounds k : (1 <= k)%nat -> INR k <= 2 ^ 40 -> bpow radix2 (-200) <= INR k <= bpow radix2 200.
Proof.
  intros K1 K2. pose proof (k_one k K1) as I. split; [apply Rle_trans with (bpow radix2 0); [apply bpow_le; lia|exact I]|].
  apply Rle_trans with (bpow radix2 40); [cbn; lra|apply bpow_le; lia].
Qed.
Lemma last_nth {T} (l : list T) n x0 x1 : length l = (n + 1)%nat -> nth_error l n = Some x1 -> last l x0 = x1.
Proof.
  revert n. induction l as [|a l IH]; intros n L H; [destruct n; discriminate|]. destruct n as [|n].
  - cbn in L. destruct l; [|cbn in L; lia]. cbn in *. congruence.
  - cbn [length] in L. destruct l as [|b l]; [cbn in L; lia|]. apply (IH n); [cbn [length] in *; lia|exact H].
Qed.
Lemma seq_axis xs n x0 x1 d m : length xs = (n + 1)%nat -> nth_error xs 0 = Some x0 -> nth_error xs n = Some x1 ->
  actual_sample FA xs = Ok m -> round_sample FA m = Ok d -> axis_of_array FA (mkSeq (A:=FA) true xs) true = Ok (mkAxis (A:=FA) x0 x1 d).
Proof.
  intros L H0 H1 Hm Hr. unfold axis_of_array. cbn [s_data s_float]. rewrite Hm. cbn [bind andb]. rewrite Hr. cbn [bind].
  destruct xs as [|a l]; [cbn in L; lia|]. injection H0 as <-. rewrite (last_nth (a :: l) n a x1 L H1). reflexivity.
Qed.
Lemma ends (xs : list spec_float) n : length xs = (n + 1)%nat -> exists x0 x1, nth_error xs 0 = Some x0 /\ nth_error xs n = Some x1.
Proof.
  intros L. destruct (nth_error xs 0) as [x0|] eqn:E0; [|apply nth_error_None in E0; lia].
  destruct (nth_error xs n) as [x1|] eqn:E1; [|apply nth_error_None in E1; lia]. exists x0, x1. auto.
Qed.
Lemma seq_reciprocal xs n k X0 eta : length xs = (n + 1)%nat -> (1 <= n)%nat -> INR n <= 2 ^ 44 -> (1 <= k)%nat -> INR k <= 2 ^ 40 ->
  Rabs X0 <= 2 ^ 44 * / INR k -> eta <= / 16 * (/ INR k * / INR k) -> near_grid xs X0 (/ INR k) eta ->
  exists x0 x1, nth_error xs 0 = Some x0 /\ nth_error xs n = Some x1 /\
    axis_of_array FA (mkSeq (A:=FA) true xs) true = Ok (mkAxis (A:=FA) x0 x1 (SFdiv 53 1024 (f64_of_Z 1) (f64_of_Z (Z.of_nat k)))).
Proof.
  intros L Hn HN K1 K2 HX He G. destruct (ends xs n L) as (x0 & x1 & H0 & H1). exists x0, x1. split; [exact H0|]. split; [exact H1|].
  pose proof (k_inv k K1 K2) as I. pose proof (k_one k K1) as O.
  assert (I2 : / INR k * / INR k <= 1 * / INR k) by (apply Rmult_le_compat_r; lra).
  destruct (sq_sample xs n X0 (/ INR k) eta L Hn (inv_bounds k K1 K2) ltac:(lra) G) as (m & Hm & Fm & Em).
  apply (seq_axis xs n x0 x1 _ m L H0 H1 Hm).
  assert (S : 2 * (uu * / INR k) <= / 8 * (/ INR k * / INR k)).
  { replace (2 * (uu * / INR k)) with (2 * uu * / INR k) by ring. rewrite <- Rmult_assoc. apply Rmult_le_compat_r; [lra|]. unfold uu. lra. }
  assert (E : Rabs (f64_val m - / INR k) <= / 4 * (/ INR k * / INR k)) by lra.
  destruct (Rlt_le_dec (f64_val m) 1) as [Lm|Gm]; [apply round_reciprocal; assumption|].
  assert (k = 1%nat).
  { destruct (Nat.eq_dec k 1) as [e|e]; [exact e|exfalso]. assert (2 <= INR k) by (apply (le_INR 2); lia).
    assert (/ INR k <= / 2) by (apply Rinv_le_contravar; lra). apply Rabs_le_inv in E. lra. }
  subst k. cbn [INR] in *. rewrite Rinv_1 in *. rewrite (round_whole 1) by (try assumption; try lia; cbn [INR]; lra). f_equal. vm_compute. reflexivity.
Qed.
Lemma seq_whole xs n k X0 eta : length xs = (n + 1)%nat -> (1 <= n)%nat -> INR n <= 2 ^ 44 -> (1 <= k)%nat -> INR k <= 2 ^ 40 ->
  Rabs X0 <= 2 ^ 44 * INR k -> eta <= / 16 -> near_grid xs X0 (INR k) eta ->
  exists x0 x1, nth_error xs 0 = Some x0 /\ nth_error xs n = Some x1 /\
    axis_of_array FA (mkSeq (A:=FA) true xs) true = Ok (mkAxis (A:=FA) x0 x1 (f64_of_Z (Z.of_nat k))).
Proof.
  intros L Hn HN K1 K2 HX He G. destruct (Nat.eq_dec k 1) as [->|Nk].
  { cbn [INR] in *. destruct (seq_reciprocal xs n 1 X0 eta L Hn HN K1) as (x0 & x1 & H0 & H1 & E); cbn [INR]; rewrite ?Rinv_1; try lra; try assumption.
    exists x0, x1. split; [exact H0|]. split; [exact H1|]. rewrite E. f_equal. }
  assert (K3 : 2 <= INR k) by (apply (le_INR 2); lia). destruct (ends xs n L) as (x0 & x1 & H0 & H1). exists x0, x1. split; [exact H0|]. split; [exact H1|].
  destruct (sq_sample xs n X0 (INR k) eta L Hn (whole_bounds k K1 K2) ltac:(lra) G) as (m & Hm & Fm & Em).
  apply (seq_axis xs n x0 x1 _ m L H0 H1 Hm).
  assert (S : uu * INR k <= uu * 2 ^ 40) by (apply Rmult_le_compat_l; [apply Rlt_le, uu_pos|exact K2]).
  assert (S2 : uu * 2 ^ 40 <= / 1024) by (unfold uu; lra).
  assert (E : Rabs (f64_val m - INR k) <= / 4) by lra. apply round_whole; try assumption. apply Rabs_le_inv in E. lra.
Qed.
Lemma init_seq xs a m (y : list spec_float) : axis_of_array FA (mkSeq (A:=FA) true xs) true = Ok a -> axis_size FA a = Ok m ->
  rel_init FA FV (default_config FA FV) (XSeq (mkSeq (A:=FA) true xs)) (Some y) =
    if Nat.eqb (length y) m then Ok (mkRel (A:=FA) (V:=FV) a y) else Err (ENotEqual m (length y)).
Proof.
  intros E S. unfold rel_init. cbn [c_axis_from_array default_config]. rewrite E. cbn [bind]. unfold rel_make. rewrite S. cbn [bind].
  change (@length (val FV) y) with (@length spec_float y). rewrite Nat.eqb_sym. reflexivity.
Qed.

(** a relation's own points *)
Lemma own_near s e d n xs dl : f64_tame s e d n -> (1 <= n)%nat -> axis_array FA (mkAxis (A:=FA) s e d) = Ok xs ->
  near_grid xs (f64_val s) dl (Rabs (f64_val e - f64_val s - INR n * dl) + / 2 ^ 50 * Rmax (Rabs (f64_val s)) (Rabs (f64_val e))) /\
  length xs = (n + 1)%nat /\ nth_error xs n = Some e /\ forall x, nth_error xs 0 = Some x -> f64_val x = f64_val s.
Proof.
  intros HT Hn X. destruct (f64_array _ _ _ _ (tame_axis _ _ _ _ HT)) as (xs2 & X2 & L & E & P & _). rewrite X in X2. injection X2 as <-.
  assert (On : 1 <= INR n) by (apply (le_INR 1); exact Hn).
  split; [|split; [exact L|split]].
  - intros i x Hx. destruct (P i x Hx) as (F & _ & Q). split; [exact F|]. pose proof (nth_error_len _ _ _ Hx) as Li. change (num FA) with spec_float in *. rewrite L in Li.
    assert (W : grid_pt (f64_val s) (f64_val e) (n + 1) i - (f64_val s + INR i * dl) = INR i * / INR n * (f64_val e - f64_val s - INR n * dl)).
    { unfold grid_pt. replace (n + 1 - 1)%nat with n by lia. field. lra. }
    assert (W2 : Rabs (grid_pt (f64_val s) (f64_val e) (n + 1) i - (f64_val s + INR i * dl)) <= Rabs (f64_val e - f64_val s - INR n * dl)).
    { rewrite W, Rabs_mult. rewrite <- (Rmult_1_l (Rabs (_ - _ - _))) at 2. apply Rmult_le_compat_r; [apply Rabs_pos|].
      pose proof (pos_INR i). assert (INR i <= INR n) by (apply le_INR; lia). assert (0 < / INR n) by (apply Rinv_0_lt_compat; lra).
      rewrite Rabs_right by (apply Rle_ge, Rmult_le_pos; lra). apply Rle_trans with (INR n * / INR n); [apply Rmult_le_compat_r; lra|apply Req_le, Rinv_r; lra]. }
    pose proof (near_trans _ _ _ _ _ Q W2). lra.
  - rewrite E. destruct (Nat.eqb_spec n 0); [lia|reflexivity].
  - intros x Hx. apply (P 0%nat x Hx). reflexivity.
Qed.
