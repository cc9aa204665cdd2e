(** The model's transforms against the formulas of FourierSpec.v, in the form used by PropsFourier.v *)
From Coq Require Import Reals ZArith List Bool Lia Lra.
From Coquelicot Require Import Complex.
From Verif Require Import Num Numpy Spec AxisModel RelModel HeapModel RLemmas AxisLemmas InterpLemmas VInst
  RelLemmas RelLemmas2 RelLemmas3 CorrLemmas FourierSpec FourierModel DftLemmas FourierLemmas FourierLemmas2
  SpectrumLemmas SpectrumLemmas2.
Import ListNotations.
Local Open Scope R_scope.
Lemma nth_some {T} (l : list T) i : (i < length l)%nat -> exists v, nth_error l i = Some v.
Proof. intros H. destruct (nth_error l i) eqn:E; eauto. apply nth_error_None in E. lia. Qed.
Notation FC := fourier_config.

Lemma csum_fst f n : fst (csum f n) = rsum (fun j => fst (f j)) n.
Proof. induction n as [|n IH]; cbn; [reflexivity|]. rewrite IH. reflexivity. Qed.
Lemma csum_snd f n : snd (csum f n) = rsum (fun j => snd (f j)) n.
Proof. induction n as [|n IH]; cbn; [reflexivity|]. rewrite IH. reflexivity. Qed.
Lemma rsum_eq f g n : (forall j, (j < n)%nat -> f j = g j) -> rsum f n = rsum g n.
Proof. induction n as [|n IH]; intros H; cbn; [reflexivity|]. rewrite IH, H; auto. Qed.
Lemma rsum_opp f n : rsum (fun j => - f j) n = - rsum f n.
Proof. induction n as [|n IH]; cbn; [lra|]. rewrite IH. lra. Qed.
Lemma fourier_rfft u k : rfft_at (length u) u k = fourier_at u k.
Proof.
  unfold fourier_at. apply C_eq.
  - rewrite csum_fst. unfold rfft_at. cbn [fst]. apply rsum_eq. intros j _. unfold cis, ang. cbn.
    rewrite cos_neg. replace (2 * PI * INR j * INR k / INR (length u)) with (2 * PI * INR k * INR j / INR (length u)) by (unfold Rdiv; ring). ring.
  - rewrite csum_snd. unfold rfft_at. cbn [snd]. rewrite <- rsum_opp. apply rsum_eq. intros j _. unfold cis, ang. cbn.
    rewrite sin_neg. replace (2 * PI * INR j * INR k / INR (length u)) with (2 * PI * INR k * INR j / INR (length u)) by (unfold Rdiv; ring). ring.
Qed.
Lemma fourier_dft u : dft (length u) u = fourier u.
Proof. unfold dft, fourier. apply map_ext. intros k. apply fourier_rfft. Qed.

Lemma pointwise_map2 {S T U} (f : S -> T -> U) a b : length a = length b -> pointwise f a b (map2 f a b).
Proof.
  revert b; induction a as [|x a IH]; intros [|y b] Hl; try discriminate.
  - split; [reflexivity|]. intros [|i] ? ? H; discriminate.
  - destruct (IH b) as [H1 H2]; [cbn in Hl; lia|]. split; [cbn; f_equal; exact H1|].
    intros [|i] p q Hp Hq; cbn in *; [congruence|]. apply H2; assumption.
Qed.

(** C33 *)
Lemma spectrum_linear (x : raxis) (u v w : list R) a b z : (2 <= length u)%nat -> length v = length u -> a_start x = 0 ->
  exact_span (a_start x) (a_end x) (a_sample x) (length u - 1) ->
  pointwise (fun p q => a * p + b * q) u v w ->
  let fx := faxis (length u) (a_sample x) in
  exists yu yv yw,
    val_spectrum RA CV FC (mk x (reals u)) (DNone RA) z = Ok (mk fx yu) /\
    val_spectrum RA CV FC (mk x (reals v)) (DNone RA) z = Ok (mk fx yv) /\
    val_spectrum RA CV FC (mk x (reals w)) (DNone RA) z = Ok (mk fx yw) /\
    pointwise (fun p q => Cplus (Cmult (RtoC a) p) (Cmult (RtoC b) q)) yu yv yw.
Proof.
  intros Hu Hv Hs Hx [Lw Hw] fx. assert (Ew : w = lin a b u v).
  { destruct (pointwise_map2 (fun p q => a * p + b * q) u v (eq_sym Hv)) as [L2 H2]. fold (lin a b u v) in *.
    apply nth_error_ext; [congruence|]. intros i Hi. destruct (nth_some u i) as [p Ep]; [congruence|].
    destruct (nth_some v i) as [q Eq]; [congruence|]. rewrite (Hw i p q Ep Eq), (H2 i p q Ep Eq). reflexivity. }
  subst w. exists (dft (length u) u), (dft (length u) v), (dft (length u) (lin a b u v)). unfold fx.
  split; [|split; [|split]].
  - apply spectrum_zero; assumption.
  - pose proof (spectrum_zero x v z) as H. rewrite Hv in H. apply H; assumption.
  - pose proof (spectrum_zero x (lin a b u v) z) as H. rewrite Lw in H. apply H; assumption.
  - rewrite dft_lin by (symmetry; exact Hv). apply pointwise_map2. rewrite !dft_length. reflexivity.
Qed.

(** C28 *)
Lemma comb_len comb : comb = np_correlate RA CV \/ comb = np_convolve RA CV ->
  forall a b : list C, a <> [] -> b <> [] -> exists c, comb a b = Ok c /\ length c = (length a + length b - 1)%nat.
Proof.
  intros [->| ->] a b Ha Hb.
  - destruct (np_correlate_spec CV_laws CV_claws a b Ha Hb) as (c & H1 & H2 & _). eauto.
  - destruct (np_convolve_spec CV_laws a b Ha Hb) as (c & H1 & H2 & _). eauto.
Qed.
Lemma lagged_exactly comb (x : raxis) (y1 y2 : list C) z n : comb = np_correlate RA CV \/ comb = np_convolve RA CV ->
  axis_size RA x = Ok n -> length y1 = n -> length y2 = n -> (2 <= n)%nat -> 0 < a_sample x -> a_start x <= a_end x ->
  (round_half_even (Rabs (2 * a_end x / a_sample x)) (Z.of_nat (2 * (n - 1))) ->
     exists y, sig_lagged comb (mk x y1) (mk x y2) z = Ok (mk (mkAxis (A:=RA) (- a_end x) (a_end x) (a_sample x)) y)) /\
  (~ round_half_even (Rabs (2 * a_end x / a_sample x)) (Z.of_nat (2 * (n - 1))) ->
     exists k, k <> (n + n - 1)%nat /\ sig_lagged comb (mk x y1) (mk x y2) z = Err (ENotEqual k (n + n - 1))).
Proof.
  intros Hc Hx L1 L2 Hn Hd Hse. destruct (ext_size x z n Hx) as [N HN].
  pose proof (ext_size_ge x z n N Hse Hx HN).
  apply (sig_lagged_any comb (comb_len comb Hc) x y1 y2 z N n); auto. lia.
Qed.
Lemma lagged_mirror (x : raxis) m : exact_span (a_start x) (a_end x) (a_sample x) m ->
  a_start x = - (2 * INR m * a_sample x) -> lag_fits x (m + 1).
Proof.
  intros [Hd He] Hs. unfold lag_fits. left. replace (m + 1 - 1)%nat with m by lia.
  replace (Rabs (2 * a_end x / a_sample x)) with (IZR (Z.of_nat (2 * m))).
  - rewrite Rminus_eq_0, Rabs_R0. lra.
  - rewrite <- INR_IZR_INZ. rewrite mult_INR. change (INR 2) with 2.
    replace (a_end x) with (- (INR m * a_sample x)) by lra.
    replace (2 * - (INR m * a_sample x) / a_sample x) with (- (2 * INR m)) by (field; lra).
    rewrite Rabs_Ropp. rewrite Rabs_right; [reflexivity|]. pose proof (pos_INR m). lra.
Qed.
