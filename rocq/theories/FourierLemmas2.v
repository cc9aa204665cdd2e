(** Frequency arguments, linearity, energy and signals starting after time 0 (C31-C33). *)
From Coq Require Import Reals ZArith List Bool Lia Lra.
From Coquelicot Require Import Complex.
From Verif Require Import Num Numpy Spec AxisModel RelModel HeapModel RLemmas AxisLemmas InterpLemmas VInst
  RelLemmas RelLemmas2 FourierSpec FourierModel DftLemmas FourierLemmas.
Import ListNotations.
Local Open Scope R_scope.

Lemma round_half_le x y a b : round_half_even x a -> round_half_even y b -> x <= y -> (a <= b)%Z.
Proof.
  intros Ha Hb Hxy. destruct (Z_le_gt_dec a b) as [H|H]; [exact H|exfalso].
  assert (Hba : (b + 1 <= a)%Z) by lia. apply IZR_le in Hba. rewrite plus_IZR in Hba.
  assert (Hx : IZR a - / 2 <= x).
  { destruct Ha as [Ha|[Ha _]]; unfold Rabs in Ha; destruct (Rcase_abs (x - IZR a)); lra. }
  assert (Hy : y <= IZR b + / 2).
  { destruct Hb as [Hb|[Hb _]]; unfold Rabs in Hb; destruct (Rcase_abs (y - IZR b)); lra. }
  assert (E : x = y) by lra. subst y. pose proof (round_half_even_unique x a b Ha Hb). lia.
Qed.
Lemma Rround_le x y : x <= y -> (Rround x <= Rround y)%Z.
Proof. apply round_half_le; apply Rround_spec. Qed.
Lemma axis_size_mono (a b : raxis) n m : a_sample a = a_sample b -> axis_size RA a = Ok n -> axis_size RA b = Ok m ->
  Rabs (a_end a - a_start a) <= Rabs (a_end b - a_start b) -> (n <= m)%nat.
Proof.
  intros Hd Ha Hb H. pose proof (sample_nz _ _ Ha) as Hz. rr.
  rewrite axis_size_nz in Ha by exact Hz. rewrite axis_size_nz in Hb by (rewrite <- Hd; exact Hz).
  injection Ha as <-. injection Hb as <-. apply Nat.add_le_mono_r. apply Z2Nat.inj_le.
  - apply Rround_nonneg, Rabs_pos.
  - apply Rround_nonneg, Rabs_pos.
  - apply Rround_le. unfold Rdiv. rewrite !Rabs_mult. rewrite <- Hd. apply Rmult_le_compat_r; [apply Rabs_pos|exact H].
Qed.

(** *** the transformed axis *)
Definition ext_axis (z : bool) (x : raxis) : raxis :=
  mkAxis (A:=RA) (ext_start z (a_start x)) (ext_end z (a_end x)) (a_sample x).

Lemma s2s_ext (c : crel) d z N : axis_size RA (r_x c) = Ok (length (r_y c)) -> a_start (r_x c) <= a_end (r_x c) ->
  axis_size RA (ext_axis z (r_x c)) = Ok N ->
  exists y', length y' = N /\ (length (r_y c) <= N)%nat /\ signal2spectrum c d z = calculate_spectrum (ext_axis z (r_x c)) y' d.
Proof.
  intros Hc Hse HN. unfold signal2spectrum.
  destruct c as [[s e sa] y]. unfold ext_axis, ext_start, ext_end in *. cbn [r_x r_y a_start a_end a_sample set_start set_end] in *.
  change (val CV) with C in *. rr. destruct z.
  - pose proof (eq_trans (eq_sym HN) Hc) as E; injection E as E.
    exists y. split; [symmetry; exact E|]. split; [rewrite E; apply le_n|reflexivity].
  - destruct (Rltb 0 s) eqn:E1; [|destruct (Rltb e 0) eqn:E2]; rb.
    + rewrite Rmin_left in * by lra. rewrite Rmax_right in * by lra. unfold set_start. cbn [a_start a_end a_sample].
      change (n_of_Z RA 0) with 0. rewrite HN. cbn [bind].
      assert (Hle : (length y <= N)%nat).
      { eapply axis_size_mono; [| exact Hc | exact HN |]; cbn; [reflexivity|]. rewrite !Rabs_right by lra. lra. }
      destruct (Nat.ltb_spec N (length y)); [lia|].
      eexists. split; [|split; [exact Hle|reflexivity]]. rewrite app_length, repeat_length. lia.
    + rewrite Rmin_right in * by lra. rewrite Rmax_left in * by lra. unfold set_end. cbn [a_start a_end a_sample].
      change (n_of_Z RA 0) with 0. rewrite HN. cbn [bind].
      assert (Hle : (length y <= N)%nat).
      { eapply axis_size_mono; [| exact Hc | exact HN |]; cbn; [reflexivity|].
        rewrite (Rabs_right (e - s)), (Rabs_right (0 - s)) by lra. lra. }
      destruct (Nat.ltb_spec N (length y)); [lia|].
      eexists. split; [|split; [exact Hle|reflexivity]]. rewrite app_length, repeat_length. lia.
    + rewrite Rmin_right in * by lra. rewrite Rmax_right in * by lra.
      pose proof (eq_trans (eq_sym HN) Hc) as E; injection E as E.
    exists y. split; [symmetry; exact E|]. split; [rewrite E; apply le_n|reflexivity].
Qed.

(** the spectrum of any signal: frequency axis and number of values *)
Lemma spectrum_any (c : crel) z N : axis_size RA (r_x c) = Ok (length (r_y c)) -> 0 < a_sample (r_x c) ->
  a_start (r_x c) <= a_end (r_x c) -> axis_size RA (ext_axis z (r_x c)) = Ok N -> (2 <= N)%nat ->
  exists l, length l = (N / 2 + 1)%nat /\
    val_spectrum RA CV FC c (DNone RA) z = Ok (mkRel (A:=RA) (V:=CV) (faxis N (a_sample (r_x c))) l).
Proof.
  intros Hc Hd Hse HN H2. unfold val_spectrum. cbn [fourier_config hc_s2s].
  destruct (s2s_ext c (DNone RA) z N Hc Hse HN) as (y' & Hy' & Hl & ->).
  destruct (reorder_len _ y' N HN Hy') as (y2 & Hr & Hy2).
  rewrite (calc_none _ y' N y2 H2) by (try assumption; cbn; lra). cbn [bind fst snd ext_axis a_sample].
  eexists. split; [|apply make_CV with (n := (N / 2 + 1)%nat)].
  - apply dft_length.
  - apply faxis_size; assumption.
  - apply dft_length.
Qed.
Lemma spectrum_int (c : crel) z N k : axis_size RA (r_x c) = Ok (length (r_y c)) -> 0 < a_sample (r_x c) ->
  a_start (r_x c) <= a_end (r_x c) -> axis_size RA (ext_axis z (r_x c)) = Ok N -> (2 <= N)%nat -> (1 <= k)%Z ->
  (Z.to_nat k / 2 <> N / 2 ->
   val_spectrum RA CV FC c (DInt RA k) z = Err (ENotEqual (N / 2 + 1) (Z.to_nat k / 2 + 1)))%nat /\
  (Z.to_nat k / 2 = N / 2 ->
   exists l, val_spectrum RA CV FC c (DInt RA k) z = Ok (mkRel (A:=RA) (V:=CV) (faxis N (a_sample (r_x c))) l))%nat.
Proof.
  intros Hc Hd Hse HN H2 Hk. unfold val_spectrum. cbn [fourier_config hc_s2s].
  destruct (s2s_ext c (DInt RA k) z N Hc Hse HN) as (y' & Hy' & Hl & ->).
  destruct (reorder_len _ y' N HN Hy') as (y2 & Hr & Hy2).
  destruct (calc_int (ext_axis z (r_x c)) y' N y2 k H2) as (l & -> & Hll); try assumption; [cbn; lra|].
  cbn [bind fst snd ext_axis a_sample]. pose proof (faxis_size N (a_sample (r_x c)) H2 Hd) as Hf. split; intros Hne.
  - unfold rel_make. rewrite Hf. cbn [bind]. change (val CV) with C. rewrite Hll.
    destruct (Nat.eqb_spec (N / 2 + 1) (Z.to_nat k / 2 + 1)); [lia|reflexivity].
  - exists l. eapply make_CV; [exact Hf|]. lia.
Qed.
Lemma half_lt m : (2 < m)%nat -> (m / 2 + 1 < m)%nat.
Proof. intros H. pose proof (Nat.div_mod_eq m 2). pose proof (Nat.mod_upper_bound m 2 ltac:(lia)). lia. Qed.
Lemma spectrum_axis (c : crel) z N (a : raxis) m : axis_size RA (r_x c) = Ok (length (r_y c)) ->
  a_start (r_x c) <= a_end (r_x c) -> axis_size RA (ext_axis z (r_x c)) = Ok N ->
  axis_size RA a = Ok m -> (2 < m)%nat ->
  val_spectrum RA CV FC c (DAxis RA a) z = Err (ENotEqual m (m / 2 + 1)).
Proof.
  intros Hc Hse HN Ha H2. unfold val_spectrum. cbn [fourier_config hc_s2s].
  destruct (s2s_ext c (DAxis RA a) z N Hc Hse HN) as (y' & Hy' & Hl & ->).
  destruct (reorder_len _ y' N HN Hy') as (y2 & Hr & Hy2).
  destruct (calc_axis (ext_axis z (r_x c)) y' y2 a m Hr Ha) as (l & -> & Hll).
  cbn [bind fst snd]. unfold rel_make. rewrite Ha. cbn [bind]. change (val CV) with C. rewrite Hll.
  pose proof (half_lt m H2). destruct (Nat.eqb_spec m (m / 2 + 1)); [lia|reflexivity].
Qed.
Lemma ext_size (x : raxis) z n : axis_size RA x = Ok n -> exists N, axis_size RA (ext_axis z x) = Ok N.
Proof.
  intros H. rewrite axis_size_nz; [eauto|]. cbn. exact (sample_nz x n H).
Qed.
Lemma ext_size_ge (x : raxis) z n N : a_start x <= a_end x -> axis_size RA x = Ok n -> axis_size RA (ext_axis z x) = Ok N -> (n <= N)%nat.
Proof.
  intros Hse Hx HN. eapply axis_size_mono; [|exact Hx|exact HN|]; [reflexivity|]. unfold ext_axis, ext_start, ext_end.
  destruct x as [s e d]. cbn in *. destruct z; [lra|].
  pose proof (Rmin_r 0 s). pose proof (Rmax_r 0 e). rewrite !Rabs_right by lra. lra.
Qed.

(** *** linearity (C33) *)
Definition lin (a b : R) (u v : list R) : list R := map2 (fun x y => a * x + b * y) u v.
Definition Clin (a b : R) (u v : list C) : list C := map2 (fun x y => Cplus (Cmult (RtoC a) x) (Cmult (RtoC b) y)) u v.
Lemma lin_nth a b u v j : length u = length v -> nth j (lin a b u v) 0 = a * nth j u 0 + b * nth j v 0.
Proof.
  revert v j; induction u as [|x u IH]; intros [|y v] j Hl; try discriminate.
  - cbn. destruct j; lra.
  - destruct j as [|j]; cbn; [lra|]. apply IH. cbn in Hl. lia.
Qed.
Lemma rfft_lin n a b u v k : length u = length v ->
  rfft_at n (lin a b u v) k = Cplus (Cmult (RtoC a) (rfft_at n u k)) (Cmult (RtoC b) (rfft_at n v k)).
Proof.
  intros Hl. unfold rfft_at, Cplus, Cmult, RtoC. cbn [fst snd]. f_equal.
  - rewrite (rsum_ext _ (fun j => a * (nth j u 0 * cos (ang n k j)) + b * (nth j v 0 * cos (ang n k j)))).
    2:{ intros j _. rewrite lin_nth by exact Hl. lra. }
    rewrite rsum_plus, !rsum_scal. lra.
  - rewrite (rsum_ext _ (fun j => a * (nth j u 0 * sin (ang n k j)) + b * (nth j v 0 * sin (ang n k j)))).
    2:{ intros j _. rewrite lin_nth by exact Hl. lra. }
    rewrite rsum_plus, !rsum_scal. lra.
Qed.
Lemma dft_lin n a b u v : length u = length v -> dft n (lin a b u v) = Clin a b (dft n u) (dft n v).
Proof.
  intros Hl. unfold Clin, dft. rewrite map2_map. apply map_ext. intros k. apply rfft_lin. exact Hl.
Qed.

Lemma rotl_0 {T} (l : list T) : rotl 0 l = l.
Proof. unfold rotl. cbn. apply app_nil_r. Qed.
(** spectrum of a real signal starting at 0 *)
Lemma spectrum_zero (x : raxis) (u : list R) z : (2 <= length u)%nat -> a_start x = 0 ->
  exact_span (a_start x) (a_end x) (a_sample x) (length u - 1) ->
  val_spectrum RA CV FC (mkRel (A:=RA) (V:=CV) x (reals u)) (DNone RA) z =
    Ok (mkRel (A:=RA) (V:=CV) (faxis (length u) (a_sample x)) (dft (length u) u)).
Proof.
  intros Hu Hs Hx. set (m := (length u - 1)%nat) in *. assert (Hm : length u = (m + 1)%nat) by lia. rewrite Hm.
  rewrite (spectrum_exact x m 0 z); try assumption; [|lia| |lia| |].
  - rewrite rotl_0, fst_reals. reflexivity.
  - unfold reals. rewrite map_length. exact Hm.
  - apply negatives_0; [lra|]. apply Hx.
  - right. split; [lra|]. destruct Hx as [Hd He]. pose proof (pos_INR m).
    assert (0 <= INR m * a_sample x) by (apply Rmult_le_pos; lra). lra.
Qed.

(** *** a signal starting after time 0 is not returned (C31) *)
Definition late : raxis := mkAxis (A:=RA) 1 2 1.
Lemma cos_third : cos (2 * PI / 3) = - / 2.
Proof. replace (2 * PI / 3) with (2 * (PI / 3)) by lra. rewrite cos_2PI3. lra. Qed.
Lemma cos_two_thirds : cos (4 * PI / 3) = - / 2.
Proof.
  replace (4 * PI / 3) with (2 * PI - 2 * PI / 3) by lra.
  rewrite cos_minus, cos_2PI, sin_2PI, cos_third. lra.
Qed.
Lemma late_round_trip a b :
  exists S, val_spectrum RA CV FC (mkRel (A:=RA) (V:=CV) late (reals [a; b])) (DNone RA) false = Ok S /\
    val_signal RA CV FC S (DAxis RA late) None = Ok (mkRel (A:=RA) (V:=CV) late (reals [(a + b) / 4; 3 * (a + b) / 4])).
Proof.
  assert (Hlate : axis_size RA late = Ok 2%nat).
  { apply (axis_size_exact late 1). split; cbn; lra. }
  assert (Hext : exact_span (a_start (set_start RA 0 late)) (a_end (set_start RA 0 late)) (a_sample (set_start RA 0 late)) 2).
  { split; cbn; lra. }
  exists (mkRel (A:=RA) (V:=CV) (faxis 3 1) (dft 3 [0; a; b])). split.
  - unfold val_spectrum. cbn [fourier_config hc_s2s]. unfold signal2spectrum. cbn [r_x r_y late a_start].
    assert (E : Rltb 0 1 = true) by (apply Rltb_true; lra). rewrite E. fold late.
    rewrite (axis_size_exact _ 2 Hext). cbn [bind]. unfold reals. cbn [map length Nat.ltb Nat.leb Nat.add Nat.sub repeat app].
    rewrite (calc_none _ _ 3 [RtoC 0; RtoC a; RtoC b]).
    + cbn [bind fst snd map RtoC]. apply make_CV with (n := (3 / 2 + 1)%nat); [|apply dft_length].
      change (a_sample (set_start RA 0 late)) with 1. apply faxis_size; [lia|lra].
    + lia.
    + cbn. lra.
    + rewrite (reorder_exact _ 2 0); [reflexivity|exact Hext|reflexivity|lia|]. apply negatives_0; cbn; lra.
    + reflexivity.
  - unfold val_signal. cbn [fourier_config hc_sp2s]. unfold spectrum2signal. cbn [fft_size]. rewrite Hlate.
    cbn [bind r_y r_x]. rewrite irfft_some by (first [lia | reflexivity]). cbn [bind].
    rewrite (reorder_exact late 1 0); [| split; cbn; lra | reflexivity | lia | apply negatives_0; cbn; lra].
    rewrite rotl_0. cbn [bind fst snd].
    assert (E : map (fun j => RtoC (irfft_at 2 (dft 3 [0; a; b]) j)) (seq 0 2) = reals [(a + b) / 4; 3 * (a + b) / 4]).
    { unfold reals. cbn [seq map]. unfold irfft_at, dft, rfft_at, ang. cbn [Nat.div Nat.divmod fst snd seq map nth rsum Nat.sub Nat.even Nat.add INR].
      repeat (rewrite ?Rmult_0_r, ?Rmult_0_l, ?Rmult_1_r; unfold Rdiv; rewrite ?Rmult_0_l).
      rewrite cos_0.
      replace (2 * PI * / (1 + 1 + 1)) with (2 * PI / 3) by (field).
      replace (2 * PI * (1 + 1) * / (1 + 1 + 1)) with (4 * PI / 3) by (field).
      replace (2 * PI * / (1 + 1)) with PI by field.
      rewrite cos_third, cos_two_thirds, cos_PI.
      f_equal; [f_equal; field | f_equal; f_equal; field]. }
    rewrite E. apply make_CV with (n := 2%nat); [exact Hlate|reflexivity].
Qed.
