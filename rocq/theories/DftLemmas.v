(** Finite sums, orthogonality of cosines, inversion of the real discrete Fourier transform. *)
From Coq Require Import Reals ZArith List Bool Lia Lra.
From Coquelicot Require Import Complex.
From Verif Require Import Num FourierModel RLemmas.
Import ListNotations.
Local Open Scope R_scope.

Lemma rsum_ext f g n : (forall i, (i < n)%nat -> f i = g i) -> rsum f n = rsum g n.
Proof. induction n; cbn; intros H; [reflexivity|]. rewrite IHn, H by (intros; try apply H; lia). reflexivity. Qed.
Lemma rsum_plus f g n : rsum (fun i => f i + g i) n = rsum f n + rsum g n.
Proof. induction n; cbn; lra. Qed.
Lemma rsum_minus f g n : rsum (fun i => f i - g i) n = rsum f n - rsum g n.
Proof. induction n; cbn; lra. Qed.
Lemma rsum_scal c f n : rsum (fun i => c * f i) n = c * rsum f n.
Proof. induction n; cbn; lra. Qed.
Lemma rsum_zero n : rsum (fun _ => 0) n = 0.
Proof. induction n; cbn; lra. Qed.
Lemma rsum_one n : rsum (fun _ => 1) n = INR n.
Proof. induction n; [reflexivity|]. cbn [rsum]. rewrite S_INR. lra. Qed.
Lemma rsum_head f n : rsum f (S n) = f 0%nat + rsum (fun i => f (S i)) n.
Proof. induction n; [cbn; lra|]. cbn [rsum] in *. lra. Qed.
Lemma rsum_split f n m : rsum f (n + m) = rsum f n + rsum (fun i => f (n + i)%nat) m.
Proof. induction m; [rewrite Nat.add_0_r; cbn; lra|]. rewrite Nat.add_succ_r. cbn [rsum]. lra. Qed.
Lemma rsum_rev f n : rsum f n = rsum (fun i => f (n - 1 - i)%nat) n.
Proof.
  induction n; [reflexivity|]. rewrite (rsum_head (fun i => f (S n - 1 - i)%nat)). cbn [rsum]. rewrite IHn.
  replace (S n - 1 - 0)%nat with n by lia. rewrite Rplus_comm. f_equal. apply rsum_ext. intros. f_equal. lia.
Qed.
Lemma rsum_swap f n m : rsum (fun i => rsum (fun j => f i j) m) n = rsum (fun j => rsum (fun i => f i j) n) m.
Proof.
  induction n; cbn [rsum].
  - rewrite rsum_zero. reflexivity.
  - rewrite IHn, rsum_plus. reflexivity.
Qed.
Lemma rsum_single f n k : (k < n)%nat -> (forall i, (i < n)%nat -> i <> k -> f i = 0) -> rsum f n = f k.
Proof.
  intros Hk H. replace n with (k + (1 + (n - k - 1)))%nat by lia. rewrite rsum_split, rsum_split. cbn [rsum].
  rewrite (rsum_ext f (fun _ => 0) k) by (intros; apply H; lia).
  rewrite (rsum_ext (fun i => f (k + (1 + i))%nat) (fun _ => 0)) by (intros; apply H; lia).
  rewrite !rsum_zero. replace (k + 0)%nat with k by lia. lra.
Qed.

Lemma half_e h : (2 * h / 2)%nat = h.
Proof. rewrite Nat.mul_comm. apply Nat.div_mul. lia. Qed.
Lemma half_o h : ((2 * h + 1) / 2)%nat = h.
Proof. symmetry. apply (Nat.div_unique _ 2 h 1); lia. Qed.
(** g (n-k) = g k: the full sum from the half *)
Lemma rsum_half g n : (1 <= n)%nat -> (forall k, (1 <= k < n)%nat -> g (n - k)%nat = g k) ->
  rsum g n = g 0%nat + rsum (fun k => 2 * g (S k)) ((n - 1) / 2) + (if Nat.even n then g (n / 2)%nat else 0).
Proof.
  intros Hn Hs. replace n with (S (n - 1)) at 1 by lia. rewrite rsum_head, Rplus_assoc. f_equal.
  destruct (Nat.even n) eqn:E.
  - apply Nat.even_spec in E. destruct E as [h ->]. destruct h as [|h]; [lia|].
    rewrite half_e. replace (2 * S h - 1)%nat with (2 * h + 1)%nat by lia. rewrite half_o.
    replace (2 * h + 1)%nat with (h + S h)%nat by lia. rewrite rsum_split, rsum_head. rewrite Nat.add_0_r.
    rewrite (rsum_rev (fun i => g (S (h + S i)))).
    rewrite (rsum_ext (fun i => g (S (h + S (h - 1 - i)))) (fun i => g (S i))).
    2:{ intros i Hi. rewrite <- (Hs (S i)) by lia. f_equal. lia. }
    rewrite rsum_scal. lra.
  - assert (O : Nat.odd n = true) by (unfold Nat.odd; rewrite E; reflexivity).
    apply Nat.odd_spec in O. destruct O as [h ->].
    replace (2 * h + 1 - 1)%nat with (2 * h)%nat by lia. rewrite half_e.
    replace (2 * h)%nat with (h + h)%nat by lia. rewrite rsum_split.
    rewrite (rsum_rev (fun i => g (S (h + i)))).
    rewrite (rsum_ext (fun i => g (S (h + (h - 1 - i)))) (fun i => g (S i))).
    2:{ intros i Hi. rewrite <- (Hs (S i)) by lia. f_equal. lia. }
    rewrite rsum_scal. lra.
Qed.

(** *** whole turns *)
Lemma cos_turns x k : cos (x + 2 * PI * IZR k) = cos x.
Proof.
  destruct (Z_le_gt_dec 0 k) as [H|H].
  - rewrite <- (Z2Nat.id k H). rewrite <- INR_IZR_INZ. replace (2 * PI * INR (Z.to_nat k)) with (2 * INR (Z.to_nat k) * PI) by lra.
    apply cos_period.
  - rewrite <- (cos_period _ (Z.to_nat (- k))). f_equal. rewrite INR_IZR_INZ, Z2Nat.id by lia. rewrite opp_IZR. lra.
Qed.
Lemma sin_turns x k : sin (x + 2 * PI * IZR k) = sin x.
Proof.
  destruct (Z_le_gt_dec 0 k) as [H|H].
  - rewrite <- (Z2Nat.id k H). rewrite <- INR_IZR_INZ. replace (2 * PI * INR (Z.to_nat k)) with (2 * INR (Z.to_nat k) * PI) by lra.
    apply sin_period.
  - rewrite <- (sin_period _ (Z.to_nat (- k))). f_equal. rewrite INR_IZR_INZ, Z2Nat.id by lia. rewrite opp_IZR. lra.
Qed.
Lemma sin_int_pi k : sin (IZR k * PI) = 0.
Proof. apply sin_eq_0_1. exists k. reflexivity. Qed.

(** angle with an integer index: 2 pi k z / n *)
Definition zang (n k : nat) (z : Z) : R := 2 * PI * INR k * IZR z / INR n.
Lemma ang_zang n k j : ang n k j = zang n k (Z.of_nat j).
Proof. unfold ang, zang. rewrite <- INR_IZR_INZ. reflexivity. Qed.
Lemma zang_add n k a b : zang n k (a + b) = zang n k a + zang n k b.
Proof. unfold zang. rewrite plus_IZR. unfold Rdiv. ring. Qed.
Lemma zang_opp n k a : zang n k (- a) = - zang n k a.
Proof. unfold zang. rewrite opp_IZR. unfold Rdiv. ring. Qed.
Lemma zang_sub n k a b : zang n k (a - b) = zang n k a - zang n k b.
Proof. unfold Z.sub. rewrite zang_add, zang_opp. lra. Qed.
Lemma INR_nz n : (1 <= n)%nat -> INR n <> 0.
Proof. intros H. apply not_0_INR. lia. Qed.
Lemma zang_turn n k z q : (1 <= n)%nat -> zang n k (z + Z.of_nat n * q) = zang n k z + 2 * PI * IZR (Z.of_nat k * q).
Proof.
  intros H. rewrite zang_add. f_equal. unfold zang. rewrite !mult_IZR, <- !INR_IZR_INZ. field. apply INR_nz; auto.
Qed.
Lemma zang_mirror n k z : (k <= n)%nat -> (1 <= n)%nat -> zang n (n - k) z = - zang n k z + 2 * PI * IZR z.
Proof. intros Hk H. unfold zang. rewrite minus_INR by lia. field. apply INR_nz; auto. Qed.

(** *** orthogonality *)
Lemma cos_telescope th n : 2 * sin (th / 2) * rsum (fun k => cos (INR k * th)) n = sin ((INR n - / 2) * th) + sin (th / 2).
Proof.
  induction n; cbn [rsum].
  - replace ((INR 0 - / 2) * th) with (- (th / 2)) by (cbn; lra). rewrite sin_neg. lra.
  - rewrite Rmult_plus_distr_l, IHn. rewrite S_INR.
    replace ((INR n + 1 - / 2) * th) with (INR n * th + th / 2) by lra.
    replace ((INR n - / 2) * th) with (INR n * th - th / 2) by lra. rewrite sin_plus, sin_minus. lra.
Qed.
Lemma cos_sum n z : (1 <= n)%nat ->
  rsum (fun k => cos (zang n k z)) n = if (z mod Z.of_nat n =? 0)%Z then INR n else 0.
Proof.
  intros Hn. assert (Hn' := INR_nz n Hn). destruct (Z.eqb_spec (z mod Z.of_nat n) 0) as [E|E].
  - apply Z.mod_divide in E; [|lia]. destruct E as [q ->].
    rewrite (rsum_ext _ (fun _ => 1)); [apply rsum_one|]. intros k _.
    replace (q * Z.of_nat n)%Z with (0 + Z.of_nat n * q)%Z by lia. rewrite zang_turn by auto.
    rewrite cos_turns. unfold zang. rewrite Rmult_0_r. unfold Rdiv. rewrite Rmult_0_l. apply cos_0.
  - set (th := 2 * PI * IZR z / INR n).
    rewrite (rsum_ext _ (fun k => cos (INR k * th))).
    2:{ intros k _. f_equal. unfold zang, th, Rdiv. ring. }
    assert (T := cos_telescope th n).
    assert (S0 : sin (th / 2) <> 0).
    { intros S0. apply sin_eq_0_0 in S0. destruct S0 as [k Hk]. apply E.
      assert (Hz : IZR z = IZR (k * Z.of_nat n)).
      { rewrite mult_IZR, <- INR_IZR_INZ. unfold th in Hk. assert (HP := PI_RGT_0).
        apply (Rmult_eq_reg_l (PI / INR n)); [|apply Rmult_integral_contrapositive_currified; [lra|apply Rinv_neq_0_compat; auto]].
        replace (PI / INR n * IZR z) with (2 * PI * IZR z / INR n / 2) by (field; auto). rewrite Hk. field. auto. }
      apply eq_IZR in Hz. rewrite Hz. apply Z_mod_mult. }
    assert (N : sin ((INR n - / 2) * th) = - sin (th / 2)).
    { replace ((INR n - / 2) * th) with (- (th / 2) + 2 * PI * IZR z) by (unfold th; field; auto).
      rewrite sin_turns, sin_neg. reflexivity. }
    rewrite N in T. assert (T' : 2 * sin (th / 2) * rsum (fun k => cos (INR k * th)) n = 0) by lra.
    apply Rmult_integral in T'. destruct T' as [T'|T']; [|exact T']. exfalso. apply S0. lra.
Qed.

(** *** inversion *)
(** value at an integer index, periodic with period n *)
Definition per (n : nat) (a : list R) (z : Z) : R := nth (Z.to_nat (z mod Z.of_nat n)) a 0.
Lemma inv_core n a z : (1 <= n)%nat ->
  rsum (fun k => rsum (fun l => nth l a 0 * cos (zang n k (z - Z.of_nat l))) n) n = INR n * per n a z.
Proof.
  intros Hn. rewrite rsum_swap.
  rewrite (rsum_ext _ (fun l => nth l a 0 * (if ((z - Z.of_nat l) mod Z.of_nat n =? 0)%Z then INR n else 0))).
  2:{ intros l Hl. rewrite rsum_scal, cos_sum by auto. reflexivity. }
  assert (B := Z.mod_pos_bound z (Z.of_nat n) ltac:(lia)).
  rewrite (rsum_single _ n (Z.to_nat (z mod Z.of_nat n))).
  - rewrite Z2Nat.id by lia. unfold per. rewrite Zminus_mod_idemp_r, Z.sub_diag, Z.mod_0_l by lia. cbn [Z.eqb]. ring.
  - lia.
  - intros i Hi Hne. destruct (Z.eqb_spec ((z - Z.of_nat i) mod Z.of_nat n) 0) as [E|E]; [|ring].
    exfalso. apply Hne. assert (E2 : (z mod Z.of_nat n = Z.of_nat i mod Z.of_nat n)%Z).
    { apply Z.mod_divide in E; [|lia]. destruct E as [q Hq]. replace z with (Z.of_nat i + q * Z.of_nat n)%Z by lia.
      apply Z_mod_plus_full. }
    rewrite E2, Z.mod_small by lia. lia.
Qed.

(** the k-th term of the inverse transform at z, in closed form *)
Lemma term_closed n a k z :
  fst (rfft_at n a k) * cos (zang n k z) - snd (rfft_at n a k) * sin (zang n k z) =
  rsum (fun l => nth l a 0 * cos (zang n k (z - Z.of_nat l))) n.
Proof.
  unfold rfft_at. cbn [fst snd]. rewrite (rsum_ext (fun l => nth l a 0 * cos (zang n k (z - Z.of_nat l)))
    (fun l => cos (zang n k z) * (nth l a 0 * cos (ang n k l)) + sin (zang n k z) * (nth l a 0 * sin (ang n k l)))).
  2:{ intros l _. rewrite zang_sub, cos_minus, ang_zang. ring. }
  rewrite rsum_plus, !rsum_scal. ring.
Qed.
Lemma term_mirror n a k z : (1 <= n)%nat -> (k <= n)%nat ->
  rsum (fun l => nth l a 0 * cos (zang n (n - k) (z - Z.of_nat l))) n =
  rsum (fun l => nth l a 0 * cos (zang n k (z - Z.of_nat l))) n.
Proof.
  intros Hn Hk. apply rsum_ext. intros l _. f_equal. rewrite zang_mirror by auto. rewrite cos_turns, cos_neg. reflexivity.
Qed.
(** no imaginary part at the two ends of the half spectrum *)
Lemma rfft_im_0 n a : snd (rfft_at n a 0) = 0.
Proof.
  unfold rfft_at. cbn [snd]. rewrite (rsum_ext _ (fun _ => 0)); [rewrite rsum_zero; lra|]. intros j _.
  unfold ang. replace (2 * PI * INR 0 * INR j / INR n) with 0 by (cbn; unfold Rdiv; ring). rewrite sin_0. ring.
Qed.
Lemma ang_nyquist n j : (1 <= n)%nat -> Nat.even n = true -> ang n (n / 2) j = IZR (Z.of_nat j) * PI.
Proof.
  intros Hn E. apply Nat.even_spec in E. destruct E as [h ->].
  rewrite half_e. unfold ang. rewrite mult_INR, <- INR_IZR_INZ.
  cbn [INR]. field. apply INR_nz. lia.
Qed.
Lemma rfft_im_nyquist n a : (1 <= n)%nat -> Nat.even n = true -> snd (rfft_at n a (n / 2)) = 0.
Proof.
  intros Hn E. unfold rfft_at. cbn [snd]. rewrite (rsum_ext _ (fun _ => 0)); [rewrite rsum_zero; lra|]. intros j _.
  rewrite ang_nyquist by auto. rewrite sin_int_pi. ring.
Qed.

(** inverse transform of X[k] exp(-2 pi i k m / n): the samples moved by m places around the circle *)
Definition modulate (n : nat) (m : Z) (k : nat) (z : C) : C := Cmult z (cos (zang n k m), - sin (zang n k m)).
Lemma irfft_shift n a m X j : (1 <= n)%nat ->
  (forall k, (k <= n / 2)%nat -> nth k X (RtoC 0) = modulate n m k (rfft_at n a k)) ->
  irfft_at n X j = per n a (Z.of_nat j - m).
Proof.
  intros Hn HX.
  assert (T : forall k, (k <= n / 2)%nat ->
    fst (nth k X (RtoC 0)) * cos (ang n k j) - snd (nth k X (RtoC 0)) * sin (ang n k j) =
    rsum (fun l => nth l a 0 * cos (zang n k (Z.of_nat j - m - Z.of_nat l))) n).
  { intros k Hk. rewrite (HX k Hk), <- term_closed, ang_zang, zang_sub, cos_minus, sin_minus.
    unfold modulate. destruct (rfft_at n a k) as [u v]. cbn [fst snd Cmult]. ring. }
  assert (H2 : (n / 2 <= n)%nat) by (apply Nat.div_le_upper_bound; lia).
  unfold irfft_at. rewrite <- (Rmult_1_l (per n a _)), <- (Rinv_l (INR n)) by (apply INR_nz; auto).
  rewrite Rmult_assoc. f_equal. rewrite <- inv_core by auto.
  rewrite (rsum_half (fun k => rsum (fun l => nth l a 0 * cos (zang n k (Z.of_nat j - m - Z.of_nat l))) n) n) by
    (auto; intros; apply term_mirror; lia).
  f_equal; [f_equal|].
  - rewrite <- T by lia. assert (E : ang n 0 j = 0) by (unfold ang; cbn [INR]; unfold Rdiv; ring). rewrite E, cos_0, sin_0. ring.
  - apply rsum_ext. intros k Hk. rewrite <- T; [reflexivity|].
    assert ((n - 1) / 2 <= n / 2)%nat by (apply Nat.div_le_mono; lia).
    assert (k < (n - 1) / 2)%nat by auto. destruct (Nat.even n) eqn:E.
    + assert (2 * ((n - 1) / 2) <= n - 1)%nat by (apply Nat.mul_div_le; lia). apply Nat.div_le_lower_bound; lia.
    + assert (2 * ((n - 1) / 2) <= n - 1)%nat by (apply Nat.mul_div_le; lia). apply Nat.div_le_lower_bound; lia.
  - destruct (Nat.even n) eqn:E; [|reflexivity]. rewrite <- T by lia. rewrite (ang_nyquist n j) by auto. rewrite sin_int_pi. ring.
Qed.
