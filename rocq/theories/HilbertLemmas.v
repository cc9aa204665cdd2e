(** Lemmas about the analytic signal. *)
From Coq Require Import Reals ZArith List Bool Lia Lra.
From Coquelicot Require Import Complex Rcomplements.
From Verif Require Import Num Numpy AxisModel RelModel HeapModel FourierModel SweepModel HilbertModel FourierSpec HilbertSpec RLemmas DftLemmas
  SpectrumLemmas FourierLemmas3.
Import ListNotations.
Local Open Scope R_scope.

(** *** the weights *)
Lemma weight_0 n : hilbert_weight n 0 = 1.
Proof. reflexivity. Qed.
Lemma weight_low n k : (0 < k)%nat -> (2 * k < n)%nat -> hilbert_weight n k = 2.
Proof.
  intros H1 H2. unfold hilbert_weight. destruct (Nat.eqb_spec k 0); [lia|].
  destruct (Nat.even n) eqn:E.
  - apply Nat.even_spec in E. destruct E as [h ->]. rewrite half_e.
    destruct (Nat.eqb_spec k h); [lia|]. destruct (Nat.ltb_spec k h); [reflexivity|lia].
  - assert (O : Nat.odd n = true) by (unfold Nat.odd; rewrite E; reflexivity). apply Nat.odd_spec in O. destruct O as [h ->].
    replace (2 * h + 1 + 1)%nat with (2 * (h + 1))%nat by lia. rewrite half_e. destruct (Nat.ltb_spec k (h + 1)); [reflexivity|lia].
Qed.
Lemma weight_mid n k : (0 < k)%nat -> (2 * k = n)%nat -> hilbert_weight n k = 1.
Proof.
  intros H1 H2. unfold hilbert_weight. destruct (Nat.eqb_spec k 0); [lia|].
  subst n. rewrite half_e. assert (E : Nat.even (2 * k) = true) by (apply Nat.even_spec; exists k; lia).
  rewrite E, Nat.eqb_refl. reflexivity.
Qed.
Lemma weight_high n k : (n < 2 * k)%nat -> hilbert_weight n k = 0.
Proof.
  intros H2. unfold hilbert_weight. destruct (Nat.eqb_spec k 0); [lia|].
  destruct (Nat.even n) eqn:E.
  - apply Nat.even_spec in E. destruct E as [h ->]. rewrite half_e.
    destruct (Nat.eqb_spec k h); [lia|]. destruct (Nat.ltb_spec k h); [lia|reflexivity].
  - assert (O : Nat.odd n = true) by (unfold Nat.odd; rewrite E; reflexivity). apply Nat.odd_spec in O. destruct O as [h ->].
    replace (2 * h + 1 + 1)%nat with (2 * (h + 1))%nat by lia. rewrite half_e. destruct (Nat.ltb_spec k (h + 1)); [lia|reflexivity].
Qed.
Lemma weight_mirror n k : (1 <= k < n)%nat -> hilbert_weight n k + hilbert_weight n (n - k) = 2.
Proof.
  intros H. destruct (lt_eq_lt_dec (2 * k) n) as [[L|E]|G].
  - rewrite weight_low, (weight_high n (n - k)) by lia. lra.
  - rewrite !weight_mid by lia. lra.
  - rewrite weight_high, weight_low by lia. lra.
Qed.
Lemma rsum_first f n : (1 <= n)%nat -> rsum f n = f 0%nat + rsum (fun i => f (S i)) (n - 1).
Proof. intros H. rewrite <- rsum_head. f_equal. lia. Qed.
Lemma weighted_sum g n : (1 <= n)%nat -> (forall k, (1 <= k < n)%nat -> g (n - k)%nat = g k) ->
  rsum (fun k => hilbert_weight n k * g k) n = rsum g n.
Proof.
  intros Hn Hs. rewrite (rsum_first g), rsum_first by auto. cbv beta. rewrite weight_0, Rmult_1_l. f_equal.
  set (w := fun i => hilbert_weight n (S i) * g (S i)). 
  assert (E : rsum w (n - 1) = rsum (fun i => hilbert_weight n (n - S i) * g (S i)) (n - 1)).
  { rewrite rsum_rev. apply rsum_ext. intros i Hi. unfold w. replace (S (n - 1 - 1 - i)) with (n - S i)%nat by lia.
    rewrite Hs by lia. reflexivity. }
  assert (D : rsum w (n - 1) + rsum w (n - 1) = 2 * rsum (fun i => g (S i)) (n - 1)).
  { rewrite E at 2. rewrite <- rsum_plus, <- rsum_scal. apply rsum_ext. intros i Hi. unfold w.
    rewrite <- Rmult_plus_distr_r, weight_mirror by lia. reflexivity. }
  lra.
Qed.

(** *** the real part is the signal *)
Lemma per_small n a j : (j < n)%nat -> per n a (Z.of_nat j) = nth j a 0.
Proof. intros H. unfold per. rewrite Z.mod_small by lia. rewrite Nat2Z.id. reflexivity. Qed.
Lemma hilbert_re n a j : (j < n)%nat -> fst (hilbert_at n a j) = nth j a 0.
Proof.
  intros Hj. unfold hilbert_at. cbn [fst].
  rewrite (rsum_ext _ (fun k => hilbert_weight n k * rsum (fun l => nth l a 0 * cos (zang n k (Z.of_nat j - Z.of_nat l))) n)).
  2:{ intros k _. rewrite ang_zang, term_closed. reflexivity. }
  rewrite weighted_sum.
  - rewrite inv_core, per_small by lia. field. apply INR_nz. lia.
  - lia.
  - intros k Hk. apply term_mirror; lia.
Qed.
Lemma hilbert_ok a : a <> [] -> hilbert a = Ok (map (hilbert_at (length a) a) (seq 0 (length a))).
Proof. destruct a; [contradiction|]. reflexivity. Qed.

(** *** a pure tone *)
(** transform of cos(2 pi k j / n + phi) at m <= n/2 *)
Notation tone := harmonic (only parsing).
Lemma nth_tone n k amp phi j : (j < n)%nat -> nth j (tone n k amp phi) 0 = amp * cos (ang n k j + phi).
Proof.
  intros H. unfold harmonic. change (fun j => amp * cos (2 * PI * INR k * INR j / INR n + phi)) with (fun j => amp * cos (ang n k j + phi)).
  set (f := fun j => amp * cos (ang n k j + phi)). rewrite (nth_indep _ 0 (f 0%nat)) by (rewrite map_length, seq_length; lia).
  rewrite map_nth, seq_nth by lia. reflexivity.
Qed.
(** sums over the samples instead of over the frequencies *)
Lemma zang_sym n k j : zang n k (Z.of_nat j) = zang n j (Z.of_nat k).
Proof. unfold zang. rewrite <- !INR_IZR_INZ. unfold Rdiv. ring. Qed.
Lemma zang_z n j z : zang n j z = INR j * (2 * PI * IZR z / INR n).
Proof. unfold zang, Rdiv. ring. Qed.
Lemma sin_sum n z : (1 <= n)%nat -> rsum (fun k => sin (zang n k z)) n = 0.
Proof.
  intros Hn. rewrite rsum_first by auto.
  assert (Z0 : sin (zang n 0 z) = 0) by (rewrite zang_z; cbn [INR]; rewrite Rmult_0_l; apply sin_0). rewrite Z0.
  set (g := fun i => sin (zang n (S i) z)).
  assert (E : rsum g (n - 1) = rsum (fun i => -1 * g i) (n - 1)).
  { rewrite rsum_rev at 1. apply rsum_ext. intros i Hi. unfold g. replace (S (n - 1 - 1 - i)) with (n - S i)%nat by lia.
    rewrite zang_mirror by lia. rewrite sin_turns, sin_neg. ring. }
  rewrite rsum_scal in E. lra.
Qed.
(** the sum of cos(2 pi z j / n + phi) over the samples *)
Lemma cos_phi_sum n z phi : (1 <= n)%nat ->
  rsum (fun j => cos (zang n j z + phi)) n = (if (z mod Z.of_nat n =? 0)%Z then INR n else 0) * cos phi.
Proof.
  intros Hn. rewrite (rsum_ext _ (fun j => cos phi * cos (zang n j z) + (- sin phi) * sin (zang n j z))).
  2:{ intros j _. rewrite cos_plus. ring. }
  rewrite rsum_plus, !rsum_scal, cos_sum, sin_sum by auto. ring.
Qed.
Lemma sin_phi_sum n z phi : (1 <= n)%nat ->
  rsum (fun j => sin (zang n j z + phi)) n = (if (z mod Z.of_nat n =? 0)%Z then INR n else 0) * sin phi.
Proof.
  intros Hn. rewrite (rsum_ext _ (fun j => sin phi * cos (zang n j z) + cos phi * sin (zang n j z))).
  2:{ intros j _. rewrite sin_plus. ring. }
  rewrite rsum_plus, !rsum_scal, cos_sum, sin_sum by auto. ring.
Qed.
Lemma mod_nz z n : (0 < z < n)%Z -> (z mod n =? 0)%Z = false.
Proof. intros H. rewrite Z.mod_small by lia. apply Z.eqb_neq. lia. Qed.
Lemma mod_nz_neg z n : (- n < z < 0)%Z -> (z mod n =? 0)%Z = false.
Proof.
  intros H. apply Z.eqb_neq. intros E. apply Z.mod_divide in E; [|lia]. destruct E as [q Hq].
  assert (q = 0 \/ q <= -1 \/ 1 <= q)%Z as [Q|[Q|Q]] by lia; nia.
Qed.
Lemma rfft_tone n k amp phi m : (0 < k)%nat -> (2 * k < n)%nat -> (m <= n / 2)%nat ->
  rfft_at n (tone n k amp phi) m =
  if Nat.eqb m k then (amp * INR n / 2 * cos phi, amp * INR n / 2 * sin phi) else (0, 0).
Proof.
  intros Hk Hn Hm. assert (Hm' : (2 * m <= n)%nat) by (pose proof (Nat.div_mod_eq n 2); lia).
  unfold rfft_at.
  rewrite (rsum_ext (fun j => nth j (tone n k amp phi) 0 * cos (ang n m j))
    (fun j => amp / 2 * cos (zang n j (Z.of_nat k + Z.of_nat m) + phi) + amp / 2 * cos (zang n j (Z.of_nat k - Z.of_nat m) + phi))).
  2:{ intros j Hj. rewrite nth_tone by auto. rewrite !ang_zang, !(zang_sym n _ j), zang_add, zang_sub.
      set (a := zang n j (Z.of_nat k)); set (b := zang n j (Z.of_nat m)).
      replace (a + b + phi) with ((a + phi) + b) by ring. replace (a - b + phi) with ((a + phi) - b) by ring.
      generalize (a + phi). intros c. rewrite cos_plus, cos_minus. field. }
  rewrite (rsum_ext (fun j => nth j (tone n k amp phi) 0 * sin (ang n m j))
    (fun j => amp / 2 * sin (zang n j (Z.of_nat k + Z.of_nat m) + phi) + (- (amp / 2)) * sin (zang n j (Z.of_nat k - Z.of_nat m) + phi))).
  2:{ intros j Hj. rewrite nth_tone by auto. rewrite !ang_zang, !(zang_sym n _ j), zang_add, zang_sub.
      set (a := zang n j (Z.of_nat k)); set (b := zang n j (Z.of_nat m)).
      replace (a + b + phi) with ((a + phi) + b) by ring. replace (a - b + phi) with ((a + phi) - b) by ring.
      generalize (a + phi). intros c. rewrite sin_plus, sin_minus. field. }
  rewrite !rsum_plus, !rsum_scal, !cos_phi_sum, !sin_phi_sum by lia.
  rewrite (mod_nz (Z.of_nat k + Z.of_nat m)) by lia.
  destruct (Nat.eqb_spec m k) as [->|Ne].
  - rewrite Z.sub_diag, Z.mod_0_l by lia. cbn [Z.eqb]. f_equal; lra.
  - assert (E : ((Z.of_nat k - Z.of_nat m) mod Z.of_nat n =? 0)%Z = false).
    { destruct (Z_lt_le_dec (Z.of_nat k) (Z.of_nat m)); [apply mod_nz_neg; lia|apply mod_nz; lia]. }
    rewrite E. f_equal; ring.
Qed.
(** the analytic signal of a pure tone is the rotating phasor *)
Lemma hilbert_tone n k amp phi j : (0 < k)%nat -> (2 * k < n)%nat -> (j < n)%nat ->
  hilbert_at n (tone n k amp phi) j = (amp * cos (ang n k j + phi), amp * sin (ang n k j + phi)).
Proof.
  intros Hk Hn Hj. assert (N := INR_nz n ltac:(lia)). unfold hilbert_at.
  rewrite (rsum_single _ n k); [|lia|].
  2:{ intros m Hm Ne. destruct (le_lt_dec (2 * m) n) as [L|L].
      - rewrite rfft_tone by (auto; apply Nat.div_le_lower_bound; lia).
        destruct (Nat.eqb_spec m k); [contradiction|]. cbn [fst snd]. ring.
      - rewrite weight_high by lia. ring. }
  rewrite (rsum_single _ n k); [|lia|].
  2:{ intros m Hm Ne. destruct (le_lt_dec (2 * m) n) as [L|L].
      - rewrite rfft_tone by (auto; apply Nat.div_le_lower_bound; lia).
        destruct (Nat.eqb_spec m k); [contradiction|]. cbn [fst snd]. ring.
      - rewrite weight_high by lia. ring. }
  rewrite rfft_tone by (auto; apply Nat.div_le_lower_bound; lia). rewrite Nat.eqb_refl. cbn [fst snd].
  rewrite weight_low by auto. rewrite cos_plus, sin_plus. f_equal; field; auto.
Qed.
Lemma Cmod_phasor amp t : 0 <= amp -> Cmod (amp * cos t, amp * sin t) = amp.
Proof.
  intros H. unfold Cmod. cbn [fst snd].
  replace ((amp * cos t) ^ 2 + (amp * sin t) ^ 2) with (amp * amp * (Rsqr (sin t) + Rsqr (cos t))) by (unfold Rsqr; ring).
  rewrite sin2_cos2, Rmult_1_r. apply sqrt_square. exact H.
Qed.

(** *** the result is the analytic signal, and there is only one *)
Lemma fourier_c_parts z m :
  fourier_c z m = (rsum (fun j => fst (nth j z (RtoC 0)) * cos (ang (length z) m j) + snd (nth j z (RtoC 0)) * sin (ang (length z) m j)) (length z),
                   rsum (fun j => snd (nth j z (RtoC 0)) * cos (ang (length z) m j) - fst (nth j z (RtoC 0)) * sin (ang (length z) m j)) (length z)).
Proof.
  unfold fourier_c. set (n := length z).
  assert (E : forall j, 2 * PI * INR j * INR m / INR n = ang n m j) by (intros; unfold ang, Rdiv; ring).
  assert (K : forall N, csum (fun j => Cmult (nth j z (RtoC 0)) (cis (- (2 * PI * INR j * INR m / INR n)))) N =
    (rsum (fun j => fst (nth j z (RtoC 0)) * cos (ang n m j) + snd (nth j z (RtoC 0)) * sin (ang n m j)) N,
     rsum (fun j => snd (nth j z (RtoC 0)) * cos (ang n m j) - fst (nth j z (RtoC 0)) * sin (ang n m j)) N)); [|apply K].
  induction N as [|N IH]; [reflexivity|]. cbn [csum rsum]. rewrite IH. unfold cis. rewrite E, cos_neg, sin_neg.
  destruct (nth N z (RtoC 0)) as [u v]. unfold Cplus, Cmult. cbn [fst snd]. f_equal; ring.
Qed.
Lemma nth_reals x j : nth j (reals x) (RtoC 0) = RtoC (nth j x 0).
Proof. unfold reals. apply (map_nth RtoC). Qed.
Lemma fourier_c_reals x m : fourier_c (reals x) m = rfft_at (length x) x m.
Proof.
  rewrite fourier_c_parts. unfold rfft_at.
  assert (L : length (reals x) = length x) by apply map_length. rewrite L. f_equal.
  - apply rsum_ext. intros j _. rewrite nth_reals. unfold RtoC. cbn [fst snd]. ring.
  - rewrite <- rsum_opp. apply rsum_ext. intros j _. rewrite nth_reals. unfold RtoC. cbn [fst snd]. ring.
Qed.
Lemma nth_map_seq {T} (f : nat -> T) n j d : (j < n)%nat -> nth j (map f (seq 0 n)) d = f j.
Proof.
  intros H. rewrite (nth_indep _ d (f 0%nat)) by (rewrite map_length, seq_length; lia). rewrite map_nth, seq_nth by lia. reflexivity.
Qed.
Lemma fourier_hilbert n a m : (m < n)%nat ->
  fourier_c (map (hilbert_at n a) (seq 0 n)) m = (hilbert_weight n m * fst (rfft_at n a m), hilbert_weight n m * snd (rfft_at n a m)).
Proof.
  intros Hm. assert (N := INR_nz n ltac:(lia)). rewrite fourier_c_parts. rewrite map_length, seq_length.
  set (A := fun k => hilbert_weight n k * fst (rfft_at n a k)). set (B := fun k => hilbert_weight n k * snd (rfft_at n a k)).
  assert (E1 : forall j, (j < n)%nat -> fst (hilbert_at n a j) = / INR n * rsum (fun k => A k * cos (ang n k j) - B k * sin (ang n k j)) n).
  { intros j _. unfold hilbert_at. cbn [fst]. f_equal. apply rsum_ext. intros k _. unfold A, B. ring. }
  assert (E2 : forall j, (j < n)%nat -> snd (hilbert_at n a j) = / INR n * rsum (fun k => A k * sin (ang n k j) + B k * cos (ang n k j)) n).
  { intros j _. unfold hilbert_at. cbn [snd]. f_equal. apply rsum_ext. intros k _. unfold A, B. ring. }
  assert (Dl : forall k, (k < n)%nat -> k <> m -> ((Z.of_nat k - Z.of_nat m) mod Z.of_nat n =? 0)%Z = false).
  { intros k Hk Ne. destruct (Z_lt_le_dec (Z.of_nat k) (Z.of_nat m)); [apply mod_nz_neg; lia|apply mod_nz; lia]. }
  assert (An : forall k j, ang n k j - ang n m j = zang n j (Z.of_nat k - Z.of_nat m)).
  { intros k j. rewrite !ang_zang, !(zang_sym n _ j), zang_sub. reflexivity. }
  fold (A m) (B m). f_equal.
  - rewrite (rsum_ext _ (fun j => rsum (fun k => / INR n * (A k * cos (zang n j (Z.of_nat k - Z.of_nat m)) - B k * sin (zang n j (Z.of_nat k - Z.of_nat m)))) n)).
    2:{ intros j Hj. rewrite nth_map_seq by auto. rewrite E1, E2 by auto. rewrite (rsum_scal (/ INR n)).
        rewrite !Rmult_assoc, <- Rmult_plus_distr_l. f_equal.
        rewrite (Rmult_comm _ (cos _)), (Rmult_comm _ (sin _)), <- !rsum_scal, <- rsum_plus. apply rsum_ext. intros k _.
        rewrite <- An, cos_minus, sin_minus. ring. }
    rewrite rsum_swap. rewrite (rsum_single _ n m); [|lia|].
    + rewrite rsum_scal, rsum_minus, !rsum_scal. rewrite Z.sub_diag.
      rewrite cos_sum, sin_sum by lia. rewrite Z.mod_0_l by lia. cbn [Z.eqb]. field. auto.
    + intros k Hk Ne. rewrite rsum_scal, rsum_minus, !rsum_scal, cos_sum, sin_sum by lia. rewrite Dl by auto. ring.
  - rewrite (rsum_ext _ (fun j => rsum (fun k => / INR n * (A k * sin (zang n j (Z.of_nat k - Z.of_nat m)) + B k * cos (zang n j (Z.of_nat k - Z.of_nat m)))) n)).
    2:{ intros j Hj. rewrite nth_map_seq by auto. rewrite E1, E2 by auto. rewrite (rsum_scal (/ INR n)).
        rewrite !Rmult_assoc, <- Rmult_minus_distr_l. f_equal.
        rewrite (Rmult_comm _ (cos _)), (Rmult_comm _ (sin _)), <- !rsum_scal, <- rsum_minus. apply rsum_ext. intros k _.
        rewrite <- An, cos_minus, sin_minus. ring. }
    rewrite rsum_swap. rewrite (rsum_single _ n m); [|lia|].
    + rewrite rsum_scal, rsum_plus, !rsum_scal. rewrite Z.sub_diag.
      rewrite cos_sum, sin_sum by lia. rewrite Z.mod_0_l by lia. cbn [Z.eqb]. field. auto.
    + intros k Hk Ne. rewrite rsum_scal, rsum_plus, !rsum_scal, cos_sum, sin_sum by lia. rewrite Dl by auto. ring.
Qed.
Lemma hilbert_analytic x z : hilbert x = Ok z -> analytic x z.
Proof.
  intros H. assert (Nx : x <> []) by (intros ->; discriminate H). rewrite hilbert_ok in H by auto. injection H as <-.
  assert (L : length (map (hilbert_at (length x) x) (seq 0 (length x))) = length x) by (rewrite map_length, seq_length; reflexivity).
  split; [|split].
  - apply (nth_ext _ _ 0 0); [rewrite map_length; exact L|]. intros j Hj. rewrite map_length in Hj.
    assert (Hj' : (j < length x)%nat) by (rewrite <- L; exact Hj). clear Hj. rename Hj' into Hj.
    rewrite map_map, nth_map_seq by auto. apply hilbert_re. exact Hj.
  - intros m Hm Hh. rewrite fourier_hilbert, weight_high by auto. unfold RtoC. f_equal; ring.
  - intros m Hm Hd. rewrite fourier_hilbert, fourier_c_reals by auto.
    assert (W : hilbert_weight (length x) m = 1).
    { destruct Hd as [->|Hd]; [apply weight_0|]. destruct m; [apply weight_0|]. apply weight_mid; lia. }
    rewrite W. destruct (rfft_at (length x) x m) as [u v]. cbn [fst snd]. f_equal; ring.
Qed.
Lemma rfft_mirror n a k : (1 <= n)%nat -> (k <= n)%nat -> rfft_at n a (n - k) = (fst (rfft_at n a k), - snd (rfft_at n a k)).
Proof.
  intros Hn Hk. unfold rfft_at. cbn [fst snd]. f_equal.
  - apply rsum_ext. intros j _. rewrite !ang_zang, zang_mirror by auto. rewrite cos_turns, cos_neg. reflexivity.
  - rewrite <- !rsum_opp. apply rsum_ext. intros j _. rewrite !ang_zang, zang_mirror by auto. rewrite sin_turns, sin_neg. ring.
Qed.
Lemma rfft_zero n a : (1 <= n)%nat -> (forall m, (m < n)%nat -> rfft_at n a m = (0, 0)) -> forall j, (j < n)%nat -> nth j a 0 = 0.
Proof.
  intros Hn H j Hj. assert (N := INR_nz n Hn). assert (I := inv_core n a (Z.of_nat j) Hn). rewrite per_small in I by auto.
  rewrite (rsum_ext _ (fun _ => 0)) in I.
  - rewrite rsum_zero in I. apply (Rmult_eq_reg_l (INR n)); [lra|auto].
  - intros k Hk. rewrite <- term_closed, H by auto. cbn [fst snd]. ring.
Qed.
Lemma analytic_length x z : analytic x z -> length z = length x.
Proof. intros (H & _). rewrite <- H. symmetry. apply map_length. Qed.
Lemma analytic_unique x z z' : analytic x z -> analytic x z' -> z = z'.
Proof.
  intros H H'. assert (L := analytic_length _ _ H). assert (L' := analytic_length _ _ H').
  destruct H as (R & Hh & Hd). destruct H' as (R' & Hh' & Hd'). set (n := length x) in *.
  destruct (Nat.eq_dec n 0) as [Z|Z].
  { destruct z; [|cbn in L; lia]. destruct z'; [reflexivity|cbn in L'; lia]. }
  set (d := map (fun j => snd (nth j z (RtoC 0)) - snd (nth j z' (RtoC 0))) (seq 0 n)).
  assert (F : forall j, (j < n)%nat -> fst (nth j z (RtoC 0)) = fst (nth j z' (RtoC 0))).
  { assert (Fm : forall (l : list C) j, fst (nth j l (RtoC 0)) = nth j (map fst l) 0) by (intros l j; symmetry; exact (map_nth fst l (RtoC 0) j)).
    intros j _. rewrite !Fm, R, R'. reflexivity. }
  assert (Df : forall m, rfft_at n d m = (snd (fourier_c z m) - snd (fourier_c z' m), - (fst (fourier_c z m) - fst (fourier_c z' m)))).
  { intros m. rewrite !fourier_c_parts, L, L'. cbn [fst snd]. unfold rfft_at. f_equal.
    - rewrite <- rsum_minus. apply rsum_ext. intros j Hj. unfold d. rewrite nth_map_seq, F by auto. ring.
    - f_equal. rewrite <- rsum_minus. apply rsum_ext. intros j Hj. unfold d. rewrite nth_map_seq, F by auto. ring. }
  assert (Up : forall m, (m < n)%nat -> (m = 0%nat \/ (n <= 2 * m)%nat) -> rfft_at n d m = (0, 0)).
  { intros m Hm Hc. rewrite Df. assert (E : fourier_c z m = fourier_c z' m).
    { destruct (Nat.eq_dec m 0) as [->|]; [rewrite Hd, Hd'; auto; lia|].
      destruct (Nat.eq_dec (2 * m) n); [rewrite Hd, Hd'; auto; lia|]. rewrite Hh, Hh' by lia. reflexivity. }
    rewrite E. f_equal; ring. }
  assert (All : forall m, (m < n)%nat -> rfft_at n d m = (0, 0)).
  { intros m Hm. destruct (Nat.eq_dec m 0); [apply Up; auto|]. destruct (le_lt_dec n (2 * m)); [apply Up; auto|].
    replace m with (n - (n - m))%nat by lia. rewrite rfft_mirror, Up by lia. cbn [fst snd]. f_equal. ring. }
  apply (nth_ext _ _ (RtoC 0) (RtoC 0)); [lia|]. intros j Hj. rewrite L in Hj.
  assert (D0 := rfft_zero n d ltac:(lia) All j Hj). unfold d in D0. rewrite nth_map_seq in D0 by auto.
  specialize (F j Hj). destruct (nth j z (RtoC 0)), (nth j z' (RtoC 0)). cbn in *. f_equal; lra.
Qed.

(** *** the samples of the two estimates *)
Lemma fst_le_mod (z : C) : Rabs (fst z) <= Cmod z.
Proof.
  unfold Cmod. rewrite <- sqrt_Rsqr_abs. apply sqrt_le_1.
  - apply Rle_0_sqr.
  - apply Rplus_le_le_0_compat; apply pow2_ge_0.
  - unfold Rsqr. assert (H := pow2_ge_0 (snd z)). cbn in *. lra.
Qed.
Lemma diffs_length {T U} (f : T -> T -> U) l : length (diffs f l) = (length l - 1)%nat.
Proof. induction l as [|a [|b t] IH]; [reflexivity..|]. cbn [diffs length] in *. rewrite IH. cbn. lia. Qed.
Lemma diffs_nth {T U} (f : T -> T -> U) l : forall i a b, nth_error l i = Some a -> nth_error l (S i) = Some b ->
  nth_error (diffs f l) i = Some (f b a).
Proof.
  induction l as [|x [|y t] IH]; intros i a b Ha Hb.
  - destruct i; discriminate.
  - destruct i as [|[|i]]; discriminate.
  - destruct i as [|i].
    + cbn in *. injection Ha as <-. injection Hb as <-. reflexivity.
    + cbn [diffs nth_error]. apply IH; [exact Ha|exact Hb].
Qed.
Lemma cis_add a b : cis (a + b) = Cmult (cis a) (cis b).
Proof. unfold cis, Cmult. cbn [fst snd]. rewrite cos_plus, sin_plus. f_equal; ring. Qed.
Lemma f_t_spec c f : get_f_t c = Ok f ->
  exists z, hilbert (r_y c) = Ok z /\ length f = length (r_y c) /\ nth_error f 0 = Some 0 /\
  forall i z0 z1 w, nth_error z i = Some z0 -> nth_error z (S i) = Some z1 -> nth_error f (S i) = Some w ->
  exists d, Rabs d <= PI /\ phasor z1 = Cmult (phasor z0) (cis d) /\ w = d / (2 * PI) / a_sample (r_x c).
Proof.
  intros H. unfold get_f_t in H. change (val RV) with R in H.
  destruct (hilbert (r_y c)) as [z|] eqn:Ez; [|discriminate H]. cbn [bind] in H. injection H as <-. exists z.
  assert (Ea := hilbert_analytic _ _ Ez). assert (L := analytic_length _ _ Ea).
  assert (Nx : r_y c <> []) by (intros E; rewrite E in Ez; discriminate Ez).
  destruct (unwrap_spec (map Carg z)) as (U1 & U2 & U3 & U4). rewrite map_length in U1.
  assert (P : (1 <= length (r_y c))%nat) by (destruct (r_y c); [contradiction|cbn; lia]).
  split; [reflexivity|]. split; [|split].
  - cbn [length]. rewrite map_length, diffs_length, U1, L. change (val RV) with R in *. lia.
  - reflexivity.
  - intros i z0 z1 w H0 H1 Hw. cbn [nth_error] in Hw. rewrite nth_error_map in Hw.
    assert (I : (S i < length z)%nat) by (apply nth_error_Some; rewrite H1; discriminate).
    destruct (nth_error (unwrap (map Carg z)) i) as [u0|] eqn:E0; [|apply nth_error_None in E0; lia].
    destruct (nth_error (unwrap (map Carg z)) (S i)) as [u1|] eqn:E1; [|apply nth_error_None in E1; lia].
    rewrite (diffs_nth _ _ _ _ _ E0 E1) in Hw. cbn [option_map] in Hw. injection Hw as <-.
    exists (u1 - u0). split; [apply (U3 i); assumption|]. split; [|reflexivity].
    assert (C0 := map_nth_error cis _ _ E0). assert (C1 := map_nth_error cis _ _ E1). rewrite cis_unwrap in C0, C1.
    rewrite (map_nth_error phasor _ _ H0) in C0. rewrite (map_nth_error phasor _ _ H1) in C1.
    injection C0 as ->. injection C1 as ->. rewrite <- cis_add. f_equal. ring.
Qed.
Lemma cis_eq x y : cis x = cis y -> Rabs (x - y) < 2 * PI -> x = y.
Proof.
  intros H L. assert (P := PI_RGT_0). assert (Hc : cos x = cos y) by exact (f_equal fst H). assert (Hs : sin x = sin y) by exact (f_equal snd H).
  assert (C1 : cos (x - y) = 1).
  { rewrite cos_minus, Hc, Hs. assert (T := sin2_cos2 y). unfold Rsqr in T. lra. }
  assert (S0 : sin ((x - y) / 2) = 0).
  { assert (T := cos_2a_sin ((x - y) / 2)). replace (2 * ((x - y) / 2)) with (x - y) in T by field. rewrite C1 in T.
    assert (Q : sin ((x - y) / 2) * sin ((x - y) / 2) = 0) by lra. apply Rmult_integral in Q. tauto. }
  apply sin_eq_0_0 in S0. destruct S0 as [k Hk]. assert (E : x - y = 2 * PI * IZR k) by lra. rewrite E in L.
  rewrite Rabs_mult, Rabs_right in L by lra.
  assert (A1 : Rabs (IZR k) < 1) by (apply (Rmult_lt_reg_l (2 * PI)); lra). rewrite <- abs_IZR in A1. apply lt_IZR in A1.
  assert (k = 0%Z) by lia. subst k. lra.
Qed.
Lemma phasor_pos amp t : 0 < amp -> phasor (amp * cos t, amp * sin t) = cis t.
Proof.
  intros H. unfold phasor. rewrite Cmod_phasor by lra. destruct (Req_EM_T amp 0) as [E|E]; [lra|].
  unfold cis, Cdiv, Cinv, Cmult, RtoC. cbn [fst snd]. f_equal; field; exact E.
Qed.
Lemma tone_length n k amp phi : length (harmonic n k amp phi) = n.
Proof. unfold harmonic. rewrite map_length, seq_length. reflexivity. Qed.
Lemma harmonic_hilbert n k amp phi : (0 < k)%nat -> (2 * k < n)%nat ->
  hilbert (harmonic n k amp phi) = Ok (map (fun j => (amp * cos (ang n k j + phi), amp * sin (ang n k j + phi))) (seq 0 n)).
Proof.
  intros Hk Hn. rewrite hilbert_ok. 2:{ intros E. apply (f_equal (@length R)) in E. rewrite tone_length in E. cbn in E. lia. }
  rewrite tone_length. f_equal. apply map_ext_in. intros j Hj. apply in_seq in Hj. apply hilbert_tone; lia.
Qed.
Lemma harmonic_f_t (c : rel RA RV) n k amp phi f : (0 < k)%nat -> (2 * k < n)%nat -> 0 < amp -> r_y c = harmonic n k amp phi ->
  get_f_t c = Ok f -> f = 0 :: repeat (INR k / (INR n * a_sample (r_x c))) (n - 1).
Proof.
  intros Hk Hn Ha Hy H. assert (N := INR_nz n ltac:(lia)). assert (P := PI_RGT_0).
  destruct (f_t_spec _ _ H) as (z & Ez & L & F0 & Fs). rewrite Hy in L. change (val RV) with R in *. rewrite tone_length in L.
  rewrite Hy, harmonic_hilbert in Ez by auto. injection Ez as <-.
  destruct f as [|f0 f]; [discriminate F0|]. cbn in F0. injection F0 as ->. f_equal. cbn [length] in L.
  apply (nth_ext _ _ 0 0); [rewrite repeat_length; lia|]. intros i Hi.
  rewrite (nth_indep (repeat _ _) 0 (INR k / (INR n * a_sample (r_x c)))) by (rewrite repeat_length; lia). rewrite nth_repeat.
  set (zf := fun j => (amp * cos (ang n k j + phi), amp * sin (ang n k j + phi))) in *.
  destruct (Fs i (zf i) (zf (S i)) (nth i f 0)) as (d & D1 & D2 & D3).
  - apply nth_error_map_seq. lia.
  - apply nth_error_map_seq. lia.
  - cbn [nth_error]. apply nth_error_nth'. exact Hi.
  - unfold zf in D2. rewrite !phasor_pos, <- cis_add in D2 by auto. rewrite D3.
    assert (Hst : ang n k (S i) + phi - (ang n k i + phi) = 2 * PI * INR k / INR n).
    { unfold ang. rewrite S_INR. field. auto. }
    assert (Hkn : 0 < 2 * PI * INR k / INR n < PI).
    { assert (0 < INR k) by (apply lt_0_INR; lia). assert (0 < INR n) by (apply lt_0_INR; lia). split.
      - apply Rdiv_lt_0_compat; [|auto]. apply Rmult_lt_0_compat; lra.
      - apply (Rmult_lt_reg_r (INR n)); [auto|]. unfold Rdiv. rewrite Rmult_assoc, Rinv_l, Rmult_1_r by auto.
        assert (2 * INR k < INR n). { replace 2 with (INR 2) by reflexivity. rewrite <- mult_INR. apply lt_INR. lia. }
        replace (2 * PI * INR k) with (PI * (2 * INR k)) by ring. apply Rmult_lt_compat_l; lra. }
    assert (E : d = 2 * PI * INR k / INR n).
    { apply cis_eq in D2; [lra|]. apply Rcomplements.Rabs_le_between in D1. apply Rabs_def1; lra. }
    rewrite E. destruct (Req_EM_T (a_sample (r_x c)) 0) as [Z|Z].
    + change (num RA) with R in *. rewrite Z. unfold Rdiv. rewrite Rmult_0_r, Rinv_0. ring.
    + change (num RA) with R in *. field. repeat split; auto. lra.
Qed.
(** a constant signal *)
Lemma hilbert_const n v j : (j < n)%nat -> hilbert_at n (repeat v n) j = (v, 0).
Proof.
  intros Hj. assert (N := INR_nz n ltac:(lia)).
  assert (X : forall m, (m < n)%nat -> rfft_at n (repeat v n) m = if Nat.eqb m 0 then (INR n * v, 0) else (0, 0)).
  { intros m Hm. unfold rfft_at.
    assert (E : forall f, rsum (fun j => nth j (repeat v n) 0 * f j) n = v * rsum f n).
    { intros f. rewrite <- rsum_scal. apply rsum_ext. intros i Hi.
      rewrite (nth_indep _ 0 v) by (rewrite repeat_length; lia). rewrite nth_repeat. reflexivity. }
    rewrite !E. rewrite (rsum_ext (fun j => cos (ang n m j)) (fun j => cos (zang n j (Z.of_nat m)))).
    2:{ intros. rewrite ang_zang, zang_sym. reflexivity. }
    rewrite (rsum_ext (fun j => sin (ang n m j)) (fun j => sin (zang n j (Z.of_nat m)))).
    2:{ intros. rewrite ang_zang, zang_sym. reflexivity. }
    rewrite cos_sum, sin_sum by lia. destruct m as [|m].
    - rewrite Z.mod_0_l by lia. cbn [Nat.eqb Z.eqb]. f_equal; ring.
    - rewrite mod_nz by lia. cbn [Nat.eqb]. f_equal; ring. }
  unfold hilbert_at. rewrite !(rsum_single _ n 0); try lia.
  - rewrite X, weight_0 by lia. cbn [Nat.eqb fst snd]. unfold ang. cbn [INR].
    replace (2 * PI * 0 * INR j / INR n) with 0 by (unfold Rdiv; ring). rewrite cos_0, sin_0. f_equal; [field; auto|ring].
  - intros m Hm Ne. rewrite X by auto. destruct (Nat.eqb_spec m 0); [contradiction|]. cbn [fst snd]. ring.
  - intros m Hm Ne. rewrite X by auto. destruct (Nat.eqb_spec m 0); [contradiction|]. cbn [fst snd]. ring.
Qed.
Lemma const_hilbert n v : (1 <= n)%nat -> hilbert (repeat v n) = Ok (repeat (v, 0) n).
Proof.
  intros H. rewrite hilbert_ok by (destruct n; [lia|discriminate]). rewrite repeat_length. f_equal.
  apply (nth_ext _ _ (RtoC 0) (RtoC 0)); [rewrite map_length, seq_length, repeat_length; reflexivity|].
  intros j Hj. rewrite map_length, seq_length in Hj. rewrite nth_map_seq, hilbert_const by auto.
  rewrite (nth_indep (repeat _ _) (RtoC 0) (v, 0)) by (rewrite repeat_length; lia). rewrite nth_repeat. reflexivity.
Qed.
Lemma const_f_t (c : rel RA RV) n v f : (1 <= n)%nat -> r_y c = repeat v n -> get_f_t c = Ok f -> f = repeat 0 n.
Proof.
  intros Hn Hy H. assert (P := PI_RGT_0).
  destruct (f_t_spec _ _ H) as (z & Ez & L & F0 & Fs). rewrite Hy in L. change (val RV) with R in *. rewrite repeat_length in L.
  rewrite Hy, const_hilbert in Ez by auto. injection Ez as <-.
  apply (nth_ext _ _ 0 0); [rewrite repeat_length; lia|]. intros i Hi. rewrite nth_repeat.
  destruct i as [|i]; [exact (nth_error_nth f 0 0 F0)|].
  assert (R1 : forall i, (i < n)%nat -> nth_error (repeat (v, 0) n) i = Some (v, 0)).
  { intros q Hq. rewrite <- (nth_repeat (v, 0) n q) at 2. apply nth_error_nth'. rewrite repeat_length. exact Hq. }
  destruct (Fs i (v, 0) (v, 0) (nth (S i) f 0)) as (d & D1 & D2 & D3).
  - apply R1. lia.
  - apply R1. lia.
  - apply nth_error_nth'. exact Hi.
  - rewrite <- arg_phasor, <- cis_add in D2. apply cis_eq in D2.
    + assert (d = 0) by lra. rewrite D3. subst d. unfold Rdiv. ring.
    + apply Rcomplements.Rabs_le_between in D1. apply Rabs_def1; lra.
Qed.
(** scaling *)
Lemma hilbert_scale v x z : hilbert x = Ok z -> hilbert (map (Rmult v) x) = Ok (map (fun w : C => (v * fst w, v * snd w)) z).
Proof.
  intros H. assert (Nx : x <> []) by (intros ->; discriminate H). rewrite hilbert_ok in H by auto. injection H as <-.
  rewrite hilbert_ok by (destruct x; [contradiction|discriminate]). rewrite map_length, map_map. f_equal. apply map_ext. intros j.
  assert (X : forall n k, rfft_at n (map (Rmult v) x) k = (v * fst (rfft_at n x k), v * snd (rfft_at n x k))).
  { intros n k. unfold rfft_at. cbn [fst snd]. 
    assert (Nt : forall l, nth l (map (Rmult v) x) 0 = v * nth l x 0).
    { intros l. replace 0 with (v * 0) at 1 by ring. apply map_nth. }
    f_equal; [|rewrite <- Ropp_mult_distr_r; f_equal]; rewrite <- rsum_scal; apply rsum_ext; intros l _; rewrite Nt; ring. }
  unfold hilbert_at. cbn [fst snd]. f_equal; rewrite <- Rmult_assoc, (Rmult_comm v), Rmult_assoc; f_equal;
    rewrite <- rsum_scal; apply rsum_ext; intros k _; rewrite X; cbn [fst snd]; ring.
Qed.
Lemma Cmod_scale v w : Cmod (v * fst w, v * snd w) = Rabs v * Cmod w.
Proof.
  unfold Cmod. cbn [fst snd]. replace ((v * fst w) ^ 2 + (v * snd w) ^ 2) with (Rsqr v * (fst w ^ 2 + snd w ^ 2)) by (unfold Rsqr; ring).
  rewrite sqrt_mult_alt by apply Rle_0_sqr. rewrite sqrt_Rsqr_abs. reflexivity.
Qed.
(** a sweep without given laws *)
Lemma val_sweep_hilbert sp (c : rel RA RV) w : val_sweep RA RV (hilbert_sconfig sp) c None None = Ok w ->
  sw_rel w = c /\ r_x (sw_ft w) = r_x c /\ r_x (sw_at w) = r_x c /\ get_f_t c = Ok (r_y (sw_ft w)) /\ get_a_t c = Ok (r_y (sw_at w)).
Proof.
  unfold val_sweep, hilbert_sconfig, rel_make. cbn [sc_ft sc_at sc_spectro]. intros H. change (val RV) with R in H.
  destruct (get_f_t c) as [f|]; [|discriminate H]. cbn [bind] in H. destruct (axis_size RA (r_x c)) as [n|]; [|discriminate H]. cbn [bind] in H.
  destruct (Nat.eqb n (length f)); [|discriminate H]. cbn [bind] in H.
  destruct (get_a_t c) as [a|]; [|discriminate H]. cbn [bind] in H.
  destruct (Nat.eqb n (length a)); [|discriminate H]. cbn [bind] in H. destruct (sp c); [|discriminate H]. cbn [bind] in H.
  injection H as <-. cbn. auto.
Qed.
Lemma val_sweep_hilbert_ok sp (c : rel RA RV) : axis_size RA (r_x c) = Ok (length (r_y c)) -> r_y c <> [] -> sp c = Ok tt ->
  exists w, val_sweep RA RV (hilbert_sconfig sp) c None None = Ok w.
Proof.
  intros Hs Hn Hsp. unfold val_sweep, hilbert_sconfig, rel_make. cbn [sc_ft sc_at sc_spectro].
  assert (Ez := hilbert_ok (r_y c) Hn). set (z := map _ _) in Ez.
  assert (Lz : length z = length (r_y c)) by (unfold z; rewrite map_length, seq_length; reflexivity).
  destruct (get_f_t c) as [f|] eqn:Ef.
  2:{ unfold get_f_t in Ef. change (val RV) with R in *. rewrite Ez in Ef. discriminate Ef. }
  destruct (f_t_spec _ _ Ef) as (_ & _ & Lf & _).
  cbn [bind]. rewrite Hs. cbn [bind]. change (val RV) with R in *. rewrite Lf, Nat.eqb_refl. cbn [bind].
  unfold get_a_t. change (val RV) with R in *. rewrite Ez. cbn [bind]. rewrite map_length, Lz, Nat.eqb_refl. cbn [bind]. rewrite Hsp. cbn [bind]. eauto.
Qed.
