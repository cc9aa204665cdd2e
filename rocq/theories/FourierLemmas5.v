(** Products of spectra (C67) and the energy of a spectrum (C68). *)
From Coq Require Import Reals ZArith List Bool Lia Lra.
From Coquelicot Require Import Complex.
From Verif Require Import Num Numpy Spec AxisModel RelModel HeapModel RLemmas AxisLemmas InterpLemmas VInst
  RelLemmas RelLemmas2 FourierSpec FourierModel DftLemmas FourierLemmas FourierLemmas2 FourierLemmas3.
Import ListNotations.
Local Open Scope R_scope.

Lemma tsum_rsum f n : tsum f n = rsum f n.
Proof. induction n; cbn; [reflexivity|]. rewrite IHn. reflexivity. Qed.
Lemma rsum_next (F : Z -> R) n : (forall z, F (z + Z.of_nat n)%Z = F z) ->
  rsum (fun i => F (Z.of_nat i + 1)%Z) n = rsum (fun i => F (Z.of_nat i)) n.
Proof.
  intros H. pose proof (rsum_head (fun i => F (Z.of_nat i)) n) as E. cbn [rsum] in E.
  rewrite (rsum_ext (fun i => F (Z.of_nat (S i))) (fun i => F (Z.of_nat i + 1)%Z)) in E by (intros; f_equal; lia).
  specialize (H 0%Z). rewrite Z.add_0_l in H. change (Z.of_nat 0) with 0%Z in E. lra.
Qed.
Lemma rsum_periodic (F : Z -> R) n m : (forall z, F (z + Z.of_nat n)%Z = F z) ->
  rsum (fun i => F (Z.of_nat i + Z.of_nat m)%Z) n = rsum (fun i => F (Z.of_nat i)) n.
Proof.
  intros H. induction m as [|m IH].
  - apply rsum_ext. intros. f_equal. lia.
  - rewrite <- IH. rewrite <- (rsum_next (fun z => F (z + Z.of_nat m)%Z) n).
    + apply rsum_ext. intros. f_equal. lia.
    + intros z. replace (z + Z.of_nat n + Z.of_nat m)%Z with (z + Z.of_nat m + Z.of_nat n)%Z by lia. apply H.
Qed.
Lemma per_turn n a z : per n a (z + Z.of_nat n) = per n a z.
Proof.
  unfold per. destruct n as [|n]; [rewrite Z.add_0_r; reflexivity|]. do 2 f_equal.
  replace (z + Z.of_nat (S n))%Z with (z + 1 * Z.of_nat (S n))%Z by lia. apply Z.mod_add. lia.
Qed.
Lemma per_small n a i : (i < n)%nat -> per n a (Z.of_nat i) = nth i a 0.
Proof. intros H. unfold per. rewrite Z.mod_small by lia. rewrite Nat2Z.id. reflexivity. Qed.

(** the samples of the circular convolution *)
Definition circ (n : nat) (u v : list R) : list R :=
  map (fun i => rsum (fun m => nth m u 0 * per n v (Z.of_nat i - Z.of_nat m)) n) (seq 0 n).
Lemma circ_length n u v : length (circ n u v) = n.
Proof. unfold circ. rewrite map_length, seq_length. reflexivity. Qed.
Lemma circ_circular u v : circular u v (circ (length u) u v).
Proof.
  split; [apply circ_length|]. intros i Hi. unfold circ. rewrite nth_map_seq by exact Hi. reflexivity.
Qed.
Lemma circular_unique u v w w' : circular u v w -> circular u v w' -> w = w'.
Proof.
  intros [L H] [L' H']. apply (nth_ext _ _ 0 0); [congruence|]. intros i Hi. rewrite H, H' by lia. reflexivity.
Qed.
Section Trig.
Context (n k : nat) (Hn : (1 <= n)%nat).
Lemma turn_trig (g : R -> R) : (g = cos \/ g = sin) -> forall z, g (zang n k (z + Z.of_nat n)) = g (zang n k z).
Proof.
  intros Hg z. replace (z + Z.of_nat n)%Z with (z + Z.of_nat n * 1)%Z by lia. rewrite zang_turn by exact Hn.
  destruct Hg as [->| ->]; [apply cos_turns | apply sin_turns].
Qed.
Lemma shifted_sum (g : R -> R) v m : (g = cos \/ g = sin) ->
  rsum (fun i => per n v (Z.of_nat i - Z.of_nat m) * g (zang n k (Z.of_nat i))) n =
  rsum (fun l => nth l v 0 * g (zang n k (Z.of_nat l + Z.of_nat m))) n.
Proof.
  intros Hg. rewrite <- (rsum_periodic (fun z => per n v (z - Z.of_nat m) * g (zang n k z)) n m).
  - apply rsum_ext. intros l Hl. replace (Z.of_nat l + Z.of_nat m - Z.of_nat m)%Z with (Z.of_nat l) by lia.
    rewrite per_small by exact Hl. reflexivity.
  - intros z. rewrite (turn_trig g Hg). replace (z + Z.of_nat n - Z.of_nat m)%Z with (z - Z.of_nat m + Z.of_nat n)%Z by lia. rewrite per_turn. reflexivity.
Qed.
Lemma circ_sum (g : R -> R) u v : (g = cos \/ g = sin) ->
  rsum (fun i => nth i (circ n u v) 0 * g (ang n k i)) n =
  rsum (fun m => nth m u 0 * rsum (fun l => nth l v 0 * g (zang n k (Z.of_nat l) + zang n k (Z.of_nat m))) n) n.
Proof.
  intros Hg.
  rewrite (rsum_ext _ (fun i => rsum (fun m => nth m u 0 * (per n v (Z.of_nat i - Z.of_nat m) * g (zang n k (Z.of_nat i)))) n)).
  2:{ intros i Hi. unfold circ. rewrite nth_map_seq by exact Hi. rewrite ang_zang, Rmult_comm, <- rsum_scal.
      apply rsum_ext. intros m _. ring. }
  rewrite rsum_swap. apply rsum_ext. intros m _. rewrite rsum_scal. f_equal. rewrite (shifted_sum g v m Hg).
  apply rsum_ext. intros l _. rewrite zang_add. reflexivity.
Qed.
(** the transform of a circular convolution is the product of the transforms *)
Lemma rfft_circ u v : rfft_at n (circ n u v) k = Cmult (rfft_at n u k) (rfft_at n v k).
Proof.
  unfold rfft_at. rewrite (circ_sum cos u v (or_introl eq_refl)), (circ_sum sin u v (or_intror eq_refl)).
  set (uc := rsum (fun j => nth j u 0 * cos (ang n k j)) n). set (us := rsum (fun j => nth j u 0 * sin (ang n k j)) n).
  set (vc := rsum (fun j => nth j v 0 * cos (ang n k j)) n). set (vs := rsum (fun j => nth j v 0 * sin (ang n k j)) n).
  unfold Cmult. cbn [fst snd]. f_equal.
  - rewrite (rsum_ext _ (fun m => vc * (nth m u 0 * cos (ang n k m)) - vs * (nth m u 0 * sin (ang n k m)))).
    + rewrite rsum_minus, !rsum_scal. fold uc us. ring.
    + intros m _. rewrite (rsum_ext _ (fun l => cos (ang n k m) * (nth l v 0 * cos (ang n k l)) - sin (ang n k m) * (nth l v 0 * sin (ang n k l)))).
      * rewrite rsum_minus, !rsum_scal. fold vc vs. ring.
      * intros l _. rewrite cos_plus, !ang_zang. ring.
  - rewrite (rsum_ext _ (fun m => vs * (nth m u 0 * cos (ang n k m)) + vc * (nth m u 0 * sin (ang n k m)))).
    + rewrite rsum_plus, !rsum_scal. fold uc us. ring.
    + intros m _. rewrite (rsum_ext _ (fun l => cos (ang n k m) * (nth l v 0 * sin (ang n k l)) + sin (ang n k m) * (nth l v 0 * cos (ang n k l)))).
      * rewrite rsum_plus, !rsum_scal. fold vc vs. ring.
      * intros l _. rewrite sin_plus, !ang_zang. ring.
Qed.
End Trig.
Lemma dft_circ n u v : (1 <= n)%nat -> dft n (circ n u v) = map2 Cmult (dft n u) (dft n v).
Proof. intros Hn. unfold dft. rewrite map2_map. apply map_ext. intros k. apply rfft_circ. exact Hn. Qed.

(** *** energy *)
Lemma parseval n u : (1 <= n)%nat -> length u = n -> INR n * tsum (fun i => nth i u 0 * nth i u 0) n = half_energy n (dft n u).
Proof.
  intros Hn Hu. rewrite tsum_rsum.
  assert (Hinv : forall j, (j < n)%nat -> nth j u 0 = irfft_at n (dft n u) j).
  { intros j Hj. rewrite (irfft_shift n u 0 (dft n u) j Hn).
    - rewrite Z.sub_0_r. symmetry. apply per_small. exact Hj.
    - intros k Hk. unfold dft. rewrite nth_map_seq by lia. symmetry. apply modulate_0. }
  rewrite (rsum_ext _ (fun j => nth j u 0 * irfft_at n (dft n u) j)) by (intros j Hj; rewrite <- Hinv by exact Hj; reflexivity).
  assert (HN := INR_nz n Hn).
  set (X := dft n u).
  assert (HX : forall k, (k <= n / 2)%nat -> nth k X (RtoC 0) = rfft_at n u k) by (intros k Hk; unfold X, dft; rewrite nth_map_seq by lia; reflexivity).
  assert (Hh : ((n - 1) / 2 <= n / 2)%nat) by (apply Nat.div_le_mono; lia).
  assert (Hk2 : forall k, (k < (n - 1) / 2)%nat -> (S k <= n / 2)%nat) by (intros; lia).
  assert (T : forall k, (k <= n / 2)%nat ->
    rsum (fun j => nth j u 0 * (fst (nth k X (RtoC 0)) * cos (ang n k j) - snd (nth k X (RtoC 0)) * sin (ang n k j))) n = cnorm2 (nth k X (RtoC 0))).
  { intros k Hk. rewrite HX by exact Hk.
    rewrite (rsum_ext _ (fun j => fst (rfft_at n u k) * (nth j u 0 * cos (ang n k j)) - snd (rfft_at n u k) * (nth j u 0 * sin (ang n k j)))) by (intros; ring).
    rewrite rsum_minus, !rsum_scal. unfold cnorm2, rfft_at. cbn [fst snd]. ring. }
  unfold half_energy.
  rewrite (rsum_ext _ (fun j => / INR n * (nth j u 0 * fst (nth 0 X (RtoC 0))
     + rsum (fun k => 2 * (nth j u 0 * (fst (nth (S k) X (RtoC 0)) * cos (ang n (S k) j) - snd (nth (S k) X (RtoC 0)) * sin (ang n (S k) j)))) ((n - 1) / 2)
     + (if Nat.even n then nth j u 0 * (fst (nth (n / 2) X (RtoC 0)) * cos (ang n (n / 2) j)) else 0)))).
  2:{ intros j _. unfold irfft_at. fold X.
      rewrite (rsum_ext (fun k => 2 * (nth j u 0 * _)) (fun k => nth j u 0 * (2 * (fst (nth (S k) X (RtoC 0)) * cos (ang n (S k) j) - snd (nth (S k) X (RtoC 0)) * sin (ang n (S k) j)))))
        by (intros; ring).
      rewrite (rsum_scal (nth j u 0)). destruct (Nat.even n); ring. }
  rewrite rsum_scal, !rsum_plus, rsum_swap.
  rewrite <- Rmult_assoc, Rinv_r, Rmult_1_l by exact HN. f_equal; [f_equal|].
  - rewrite <- T by lia. apply rsum_ext. intros j _. rewrite HX by lia. rewrite rfft_im_0. unfold ang.
    replace (2 * PI * INR 0 * INR j / INR n) with 0 by (cbn; unfold Rdiv; ring). rewrite cos_0. ring.
  - change tsum with rsum. apply rsum_ext. intros k Hk. rewrite rsum_scal. rewrite T by (apply Hk2; exact Hk). reflexivity.
  - destruct (Nat.even n) eqn:E; [|apply rsum_zero]. rewrite <- T by lia. apply rsum_ext. intros j _. rewrite HX by lia.
    rewrite rfft_im_nyquist by assumption. ring.
Qed.

(** *** rotations *)
Lemma per_rotated n a b m z : (1 <= n)%nat -> length a = n -> rotated_left m a b -> per n b z = per n a (z + m).
Proof.
  intros Hn Ha [Hl H]. unfold per. pose proof (Z.mod_pos_bound z (Z.of_nat n) ltac:(lia)) as B.
  pose proof (Z.mod_pos_bound (z + m) (Z.of_nat n) ltac:(lia)) as B'.
  specialize (H (Z.to_nat (z mod Z.of_nat n))). rewrite Ha in H. specialize (H ltac:(lia)).
  rewrite Z2Nat.id, Zplus_mod_idemp_l in H by lia.
  assert (E : nth_error a (Z.to_nat ((z + m) mod Z.of_nat n)) = Some (nth (Z.to_nat ((z + m) mod Z.of_nat n)) a 0)) by (apply List.nth_error_nth'; lia).
  rewrite E in H. exact (nth_error_nth b _ 0 H).
Qed.
Lemma circ_rotated n u v u' v' p : (1 <= n)%nat -> length u = n -> length v = n ->
  rotated_left (Z.of_nat p) u u' -> rotated_left (Z.of_nat p) v v' ->
  rotated_left (2 * Z.of_nat p) (circ n u v) (circ n u' v').
Proof.
  intros Hn Hu Hv Ru Rv. split; [rewrite !circ_length; reflexivity|]. rewrite circ_length. intros i Hi.
  pose proof (Z.mod_pos_bound (Z.of_nat i + 2 * Z.of_nat p) (Z.of_nat n) ltac:(lia)) as B.
  unfold circ. rewrite !nth_error_map_seq by lia. f_equal. rewrite Z2Nat.id by lia.
  rewrite (rsum_ext (fun m => nth m u 0 * _) (fun m => per n u (Z.of_nat m) * per n v (Z.of_nat i + 2 * Z.of_nat p - Z.of_nat m))).
  2:{ intros m Hm. rewrite per_small by exact Hm. f_equal. unfold per. rewrite Zminus_mod_idemp_l. reflexivity. }
  rewrite <- (rsum_periodic (fun z => per n u z * per n v (Z.of_nat i + 2 * Z.of_nat p - z)) n p).
  - apply rsum_ext. intros m Hm. rewrite <- (per_small n u') by exact Hm.
    rewrite (per_rotated n u u' (Z.of_nat p)), (per_rotated n v v' (Z.of_nat p)) by assumption.
    f_equal. f_equal. lia.
  - intros z. rewrite per_turn. f_equal. rewrite <- per_turn. f_equal. lia.
Qed.
Lemma energy_rotated n u u' m : (1 <= n)%nat -> length u = n -> rotated_left m u u' ->
  rsum (fun i => nth i u' 0 * nth i u' 0) n = rsum (fun i => nth i u 0 * nth i u 0) n.
Proof.
  intros Hn Hu R. set (q := (m mod Z.of_nat n)%Z).
  assert (Hq : (0 <= q)%Z) by (apply Z.mod_pos_bound; lia).
  rewrite <- (rsum_ext (fun i => per n u (Z.of_nat i) * per n u (Z.of_nat i)) (fun i => nth i u 0 * nth i u 0)) by (intros i Hi; rewrite per_small by exact Hi; reflexivity).
  rewrite <- (rsum_periodic (fun z => per n u z * per n u z) n (Z.to_nat q)) by (intros; rewrite per_turn; reflexivity).
  apply rsum_ext. intros i Hi. rewrite <- (per_small n u') by exact Hi. rewrite (per_rotated n u u' m) by assumption.
  assert (E : per n u (Z.of_nat i + m) = per n u (Z.of_nat i + Z.of_nat (Z.to_nat q))).
  { unfold per. rewrite Z2Nat.id by exact Hq. unfold q. rewrite Zplus_mod_idemp_r. reflexivity. }
  rewrite E. reflexivity.
Qed.

(** *** products of spectra of signals *)
Section Prod.
Context (x : raxis) (u v : list R) (p : nat) (z1 z2 : bool).
Let n := length u.
Hypothesis (Hn : (2 <= n)%nat) (Hv : length v = n)
  (Hx : exact_span (a_start x) (a_end x) (a_sample x) (n - 1)) (Hp : (p <= n)%nat)
  (Hneg : negatives (a_start x) (a_sample x) n p) (Hz1 : unextended x z1) (Hz2 : unextended x z2).
Notation fx := (faxis n (a_sample x)).
Lemma spec_of (w : list R) z : length w = n -> unextended x z ->
  val_spectrum RA CV FC (mkRel (A:=RA) (V:=CV) x (reals w)) (DNone RA) z = Ok (mkRel (A:=RA) (V:=CV) fx (dft n (rotl p w))).
Proof.
  intros Hw Hz. replace n with (n - 1 + 1)%nat at 1 2 by lia.
  rewrite (spectrum_exact x (n - 1) p z); try assumption; try lia.
  - rewrite rotl_reals, fst_reals. reflexivity.
  - unfold reals. rewrite map_length. lia.
  - replace (n - 1 + 1)%nat with n by lia. exact Hneg.
Qed.
Lemma fx_valid (w : list R) : valid (mkRel (A:=RA) (V:=CV) fx (dft n w)).
Proof. unfold valid. cbn [r_x r_y]. rewrite dft_length. apply faxis_size; [exact Hn|apply Hx]. Qed.
Lemma sig_of (w : list R) : length w = n ->
  val_signal RA CV FC (mkRel (A:=RA) (V:=CV) fx (dft n w)) (DAxis RA x) None = Ok (mkRel (A:=RA) (V:=CV) x (reals (rotl p w))).
Proof.
  intros Hw. rewrite (signal_exact x _ (n - 1) p _ w 0).
  - replace (n - 1 + 1)%nat with n by lia. rewrite turned_0 by exact Hw. rewrite rotl_reals. reflexivity.
  - exact Hx.
  - lia.
  - replace (n - 1 + 1)%nat with n by lia. exact Hneg.
  - replace (n - 1 + 1)%nat with n by lia. unfold dft. apply map_ext. intros j. symmetry. apply modulate_0.
Qed.
Lemma spectra_product same : exists S1 S2 P w w',
  val_spectrum RA CV FC (mkRel (A:=RA) (V:=CV) x (reals u)) (DNone RA) z1 = Ok S1 /\
  val_spectrum RA CV FC (mkRel (A:=RA) (V:=CV) x (reals v)) (DNone RA) z2 = Ok S2 /\
  rel_op RA CV (default_config RA CV) MUL same S1 S2 = Ok P /\
  val_signal RA CV FC P (DAxis RA x) None = Ok (mkRel (A:=RA) (V:=CV) x (reals w')) /\
  circular u v w /\ rotated_left (3 * Z.of_nat p) w w'.
Proof.
  do 3 eexists. exists (circ n u v), (rotl p (circ n (rotl p u) (rotl p v))).
  split; [apply spec_of; auto|]. split; [apply spec_of; auto|]. split; [|split; [|split]].
  - apply (rel_op_equal_axes CV_laws); try apply fx_valid. reflexivity.
  - cbn [r_x r_y]. pose proof (sig_of (circ n (rotl p u) (rotl p v)) (circ_length _ _ _)) as E.
    rewrite dft_circ in E by lia. exact E.
  - apply circ_circular.
  - replace (3 * Z.of_nat p)%Z with (2 * Z.of_nat p + Z.of_nat p)%Z by lia.
    eapply rotated_trans; [|apply rotl_rotated; rewrite circ_length; lia].
    apply circ_rotated; try assumption; try lia; try reflexivity; apply rotl_rotated; lia.
Qed.
Lemma spectrum_energy : exists S1,
  val_spectrum RA CV FC (mkRel (A:=RA) (V:=CV) x (reals u)) (DNone RA) z1 = Ok S1 /\
  INR n * tsum (fun i => nth i u 0 * nth i u 0) n = half_energy n (r_y S1).
Proof.
  eexists. split; [apply spec_of; auto|]. cbn [r_y]. rewrite <- parseval by (rewrite ?rotl_length; lia).
  f_equal. change tsum with rsum. symmetry. apply (energy_rotated n u _ (Z.of_nat p)); [lia|reflexivity|].
  apply rotl_rotated. exact Hp.
Qed.
End Prod.
(** dividing the product by a factor without zeros *)
Lemma product_divided (S1 S2 P : crel) same same' : valid S1 -> valid S2 -> r_x S1 = r_x S2 ->
  (forall z, In z (r_y S2) -> z <> RtoC 0) ->
  rel_op RA CV (default_config RA CV) MUL same S1 S2 = Ok P ->
  rel_op RA CV (default_config RA CV) TRUEDIV same' P S2 = Ok S1.
Proof.
  intros H1 H2 Hx Hz E. rewrite (rel_op_equal_axes CV_laws) in E by assumption. injection E as <-.
  assert (Hl : length (r_y S1) = length (r_y S2)).
  { unfold valid in *. rewrite Hx in H1. congruence. }
  rewrite (rel_op_equal_axes CV_laws); [|unfold valid; cbn [r_x r_y]; rewrite map2_length by exact Hl; exact H1|exact H2|exact Hx].
  cbn [r_x r_y]. destruct S1 as [x1 y1], S2 as [x2 y2]. cbn [r_x r_y] in *. do 2 f_equal.
  clear - Hl Hz. revert y2 Hl Hz. induction y1 as [|a y1 IH]; intros [|b y2] Hl Hz; try discriminate; cbn [map2]; [reflexivity|].
  f_equal.
  - change (Cdiv (Cmult a b) b = a). field. apply Hz. left. reflexivity.
  - apply IH; [injection Hl; auto|]. intros z Hin. apply Hz. right. exact Hin.
Qed.
Lemma rsum_sq_zero (f : nat -> R) n : rsum (fun i => f i * f i) n = 0 -> forall i, (i < n)%nat -> f i = 0.
Proof.
  assert (P : forall m, 0 <= rsum (fun i => f i * f i) m).
  { induction m; cbn; [lra|]. pose proof (Rle_0_sqr (f m)). unfold Rsqr in *. lra. }
  induction n as [|n IH]; intros H i Hi; [lia|]. cbn in H. pose proof (P n). pose proof (Rle_0_sqr (f n)). unfold Rsqr in *.
  destruct (Nat.eq_dec i n) as [->|N].
  - apply Rsqr_0_uniq. unfold Rsqr. lra.
  - apply IH; [lra|lia].
Qed.
Lemma energy_zero (u : list R) (X : list C) : (2 <= length u)%nat ->
  INR (length u) * tsum (fun i => nth i u 0 * nth i u 0) (length u) = half_energy (length u) X ->
  (forall z, In z X -> z = RtoC 0) -> forall t, In t u -> t = 0.
Proof.
  intros Hu E H0.
  assert (N : forall k, nth k X (RtoC 0) = RtoC 0).
  { intros k. destruct (nth_in_or_default k X (RtoC 0)) as [H|H]; [apply H0; exact H|exact H]. }
  assert (Hh : half_energy (length u) X = 0).
  { unfold half_energy. rewrite !N. change tsum with rsum.
    rewrite (rsum_ext _ (fun _ => 0)); [|intros; rewrite N; unfold cnorm2; cbn; ring]. rewrite rsum_zero.
    destruct (Nat.even (length u)); unfold cnorm2; cbn; ring. }
  rewrite Hh in E. apply Rmult_integral in E. destruct E as [E|E]; [apply INR_nz in E; [destruct E|lia]|].
  intros t Ht. destruct (In_nth _ _ 0 Ht) as (i & Hi & <-). exact (rsum_sq_zero (fun i => nth i u 0) _ E i Hi).
Qed.
