(** Filters as circular convolutions; reverse signals (C94). *)
From Coq Require Import Reals ZArith List Bool Lia Lra.
From Coquelicot Require Import Complex.
From Verif Require Import Num Numpy Spec AxisModel RelModel HeapModel RLemmas AxisLemmas InterpLemmas VInst
  RelLemmas RelLemmas2 RelLemmas3 CorrLemmas FourierSpec FourierModel DftLemmas FourierLemmas FourierLemmas2 FourierLemmas3 FourierLemmas5
  SpectrumLemmas SpectrumLemmas2 PreparedLemmas4 PreparedLemmas9 DeconvSpec.
Import ListNotations.
Local Open Scope R_scope.

(** *** the inverse transform at any integer *)
Section Inv.
Context (n : nat) (Hn : (1 <= n)%nat).
Notation at_ := (fun k X => nth k X (RtoC 0)).
Definition tm (X : list C) (k : nat) (z : Z) : R :=
  fst (nth k X (RtoC 0)) * cos (zang n k z) - snd (nth k X (RtoC 0)) * sin (zang n k z).
Definition iz (X : list C) (z : Z) : R :=
  / INR n * (tm X 0 z + rsum (fun k => 2 * tm X (S k) z) ((n - 1) / 2) + (if Nat.even n then tm X (n / 2) z else 0)).
Lemma zang_0k z : zang n 0 z = 0.
Proof. unfold zang. cbn [INR]. unfold Rdiv. ring. Qed.
Lemma zang_k0 k : zang n k 0 = 0.
Proof. unfold zang, Rdiv. ring. Qed.
Lemma zang_nyq z : Nat.even n = true -> zang n (n / 2) z = IZR z * PI.
Proof.
  intros E. apply Nat.even_spec in E. destruct E as [h E]. rewrite E. rewrite half_e. unfold zang. rewrite mult_INR. cbn [INR].
  field. apply not_0_INR. lia.
Qed.
Lemma irfft_iz X j : irfft_at n X j = iz X (Z.of_nat j).
Proof.
  unfold irfft_at, iz. f_equal. f_equal; [f_equal|].
  - unfold tm. rewrite zang_0k, cos_0, sin_0. ring.
  - apply rsum_ext. intros k _. unfold tm. rewrite !ang_zang. reflexivity.
  - destruct (Nat.even n) eqn:E; [|reflexivity]. unfold tm. rewrite ang_zang, (zang_nyq _ E), sin_int_pi. ring.
Qed.
Lemma tm_turn X k z q : tm X k (z + Z.of_nat n * q) = tm X k z.
Proof. unfold tm. rewrite zang_turn by exact Hn. rewrite cos_turns, sin_turns. reflexivity. Qed.
Lemma iz_turn X z q : iz X (z + Z.of_nat n * q) = iz X z.
Proof.
  unfold iz. rewrite !tm_turn. f_equal. f_equal. f_equal. apply rsum_ext. intros k _. rewrite tm_turn. reflexivity.
Qed.
Lemma iz_mod X z : iz X (z mod Z.of_nat n) = iz X z.
Proof.
  rewrite <- (iz_turn X (z mod Z.of_nat n) (z / Z.of_nat n)). f_equal.
  pose proof (Z.div_mod z (Z.of_nat n) ltac:(lia)). lia.
Qed.
(** the filtered spectrum *)
Definition filtered (u : list R) (X : list C) : list C := map2 Cmult (dft n u) X.
Lemma filtered_nth u X k : length X = (n / 2 + 1)%nat -> (k <= n / 2)%nat ->
  nth k (filtered u X) (RtoC 0) = Cmult (rfft_at n u k) (nth k X (RtoC 0)).
Proof.
  intros HX Hk. unfold filtered. apply nth_error_nth.
  apply (pointwise_map2 Cmult (dft n u) X); [rewrite dft_length; congruence| |apply nth_error_nth'; lia].
  unfold dft. rewrite nth_error_map_seq by lia. reflexivity.
Qed.
Lemma tm_conv u X k i : length X = (n / 2 + 1)%nat -> (k <= n / 2)%nat ->
  rsum (fun j => nth j u 0 * tm X k (i - Z.of_nat j)) n = tm (filtered u X) k i.
Proof.
  intros HX Hk. unfold tm at 2. rewrite filtered_nth by assumption. set (Y := nth k X (RtoC 0)). unfold rfft_at, Cmult. cbn [fst snd].
  set (a := zang n k i).
  rewrite (rsum_ext _ (fun j => (fst Y * cos a - snd Y * sin a) * (nth j u 0 * cos (ang n k j)) + (fst Y * sin a + snd Y * cos a) * (nth j u 0 * sin (ang n k j)))).
  2:{ intros j _. unfold tm. fold Y. rewrite zang_sub, <- ang_zang. fold a. rewrite cos_minus, sin_minus. ring. }
  rewrite rsum_plus, !rsum_scal. ring.
Qed.
Lemma iz_conv u X i : length X = (n / 2 + 1)%nat ->
  rsum (fun j => nth j u 0 * iz X (i - Z.of_nat j)) n = iz (filtered u X) i.
Proof.
  intros HX. unfold iz at 2.
  rewrite (rsum_ext _ (fun j => / INR n * ((nth j u 0 * tm X 0 (i - Z.of_nat j) + rsum (fun k => 2 * (nth j u 0 * tm X (S k) (i - Z.of_nat j))) ((n - 1) / 2))
     + (if Nat.even n then nth j u 0 * tm X (n / 2) (i - Z.of_nat j) else 0)))).
  2:{ intros j _. unfold iz. rewrite (rsum_ext (fun k => 2 * (nth j u 0 * tm X (S k) (i - Z.of_nat j))) (fun k => nth j u 0 * (2 * tm X (S k) (i - Z.of_nat j)))) by (intros; ring).
      rewrite (rsum_scal (nth j u 0)). destruct (Nat.even n); ring. }
  rewrite rsum_scal. f_equal. rewrite !rsum_plus. f_equal; [f_equal|].
  - apply tm_conv; [exact HX|lia].
  - rewrite rsum_swap. apply rsum_ext. intros k Hk. rewrite rsum_scal. f_equal. apply tm_conv; [exact HX|].
    pose proof (Nat.div_le_mono (n - 1) n 2 ltac:(lia) ltac:(lia)). lia.
  - destruct (Nat.even n); [apply tm_conv; [exact HX|lia]|apply rsum_zero].
Qed.
Definition sg (X : list C) : list R := map (fun j => iz X (Z.of_nat j)) (seq 0 n).
Lemma sg_length X : length (sg X) = n.
Proof. unfold sg. rewrite map_length, seq_length. reflexivity. Qed.
Lemma sg_nth X i : (i < n)%nat -> nth i (sg X) 0 = iz X (Z.of_nat i).
Proof. intros H. unfold sg. rewrite nth_map_seq by exact H. reflexivity. Qed.
Lemma sg_circular u X : length u = n -> length X = (n / 2 + 1)%nat -> circular u (sg X) (sg (filtered u X)).
Proof.
  intros Hu HX. split; [rewrite sg_length; auto|]. rewrite Hu. intros i Hi. rewrite sg_nth by exact Hi.
  rewrite <- iz_conv by exact HX. change tsum with rsum. apply rsum_ext. intros j _. f_equal.
  pose proof (Z.mod_pos_bound (Z.of_nat i - Z.of_nat j) (Z.of_nat n) ltac:(lia)).
  rewrite sg_nth by lia. rewrite Z2Nat.id by lia. rewrite iz_mod. reflexivity.
Qed.
End Inv.

(** *** the signal of any list of values *)
Lemma signal_zero (x fx : raxis) n (X : list C) : (1 <= n)%nat -> 0 <= a_start x ->
  exact_span (a_start x) (a_end x) (a_sample x) (n - 1) ->
  val_signal RA CV FC (mkRel (A:=RA) (V:=CV) fx X) (DAxis RA x) None =
    Ok (mkRel (A:=RA) (V:=CV) x (reals (sg n (fit (RtoC 0) (n / 2 + 1) X)))).
Proof.
  intros Hn Hs Hx. unfold val_signal. cbn [fourier_config hc_sp2s]. unfold spectrum2signal.
  cbn [fft_size]. rewrite (axis_size_exact x _ Hx). cbn [bind r_y r_x].
  replace (n - 1 + 1)%nat with n by lia. unfold irfft. destruct (Z.ltb_spec (Z.of_nat n) 1); [lia|]. cbn [bind].
  rewrite Nat2Z.id.
  assert (E : map (fun j => RtoC (irfft_at n (fit (RtoC 0) (n / 2 + 1) X) j)) (seq 0 n) = reals (sg n (fit (RtoC 0) (n / 2 + 1) X))).
  { unfold reals, sg. rewrite map_map. apply map_ext. intros j. rewrite irfft_iz by exact Hn. reflexivity. }
  rewrite E. rewrite (reorder_exact x (n - 1) 0); [|exact Hx| |lia|].
  - cbn [bind fst snd]. rewrite rotl_0. eapply make_CV; [apply axis_size_exact; exact Hx|].
    unfold reals. rewrite map_length, sg_length. lia.
  - unfold reals. rewrite map_length, sg_length. lia.
  - apply negatives_0; [exact Hs|apply Hx].
Qed.

(** *** pulses *)
Section Pulse.
Context (n : nat) (Hn : (1 <= n)%nat).
Context (g : nat -> R) (G : list C).
Hypothesis (HG : forall k, (k <= n / 2)%nat -> nth k G (RtoC 0) = RtoC (g k)) (Hg : forall k, (k <= n / 2)%nat -> 0 <= g k < 1).
Lemma tm_real k z : (k <= n / 2)%nat -> tm n G k z = g k * cos (zang n k z).
Proof. intros Hk. unfold tm. rewrite HG by exact Hk. cbn. ring. Qed.
Lemma half_in k : (k < (n - 1) / 2)%nat -> (S k <= n / 2)%nat.
Proof. intros H. pose proof (Nat.div_le_mono (n - 1) n 2 ltac:(lia) ltac:(lia)). lia. Qed.
Lemma tm_bound k z : (k <= n / 2)%nat -> - tm n G k 0 <= tm n G k z <= tm n G k 0.
Proof.
  intros Hk. rewrite !tm_real by exact Hk. rewrite zang_k0, cos_0 by exact Hn.
  destruct (COS_bound (zang n k z)) as [A B]. destruct (Hg k Hk). split; nra.
Qed.
Lemma rsum_le f h m : (forall i, (i < m)%nat -> f i <= h i) -> rsum f m <= rsum h m.
Proof. induction m as [|m IH]; intros H; cbn [rsum]; [lra|]. pose proof (H m ltac:(lia)). assert (rsum f m <= rsum h m) by (apply IH; intros; apply H; lia). lra. Qed.
Lemma inv_pos : 0 < / INR n.
Proof. apply Rinv_0_lt_compat, lt_0_INR. lia. Qed.
Lemma iz_bound z : - iz n G 0 <= iz n G z <= iz n G 0.
Proof.
  pose proof inv_pos as Hi. unfold iz. pose proof (tm_bound 0 z ltac:(lia)) as B0.
  assert (B1 : - rsum (fun k => 2 * tm n G (S k) 0) ((n - 1) / 2) <= rsum (fun k => 2 * tm n G (S k) z) ((n - 1) / 2) <= rsum (fun k => 2 * tm n G (S k) 0) ((n - 1) / 2)).
  { split.
    - rewrite <- (Rmult_1_l (rsum (fun k => 2 * tm n G (S k) 0) ((n - 1) / 2))), Ropp_mult_distr_l, <- rsum_scal. apply rsum_le.
      intros k Hk. pose proof (tm_bound (S k) z (half_in k Hk)). lra.
    - apply rsum_le. intros k Hk. pose proof (tm_bound (S k) z (half_in k Hk)). lra. }
  assert (B2 : - (if Nat.even n then tm n G (n / 2) 0 else 0) <= (if Nat.even n then tm n G (n / 2) z else 0) <= (if Nat.even n then tm n G (n / 2) 0 else 0)).
  { destruct (Nat.even n); [apply tm_bound; lia|lra]. }
  split.
  - rewrite Ropp_mult_distr_r. apply Rmult_le_compat_l; lra.
  - apply Rmult_le_compat_l; lra.
Qed.
Lemma iz_even z : iz n G (Z.of_nat n - z) = iz n G z.
Proof.
  assert (T : forall k, (k <= n / 2)%nat -> tm n G k (Z.of_nat n - z) = tm n G k z).
  { intros k Hk. replace (Z.of_nat n - z)%Z with (- z + Z.of_nat n * 1)%Z by lia. rewrite tm_turn by exact Hn.
    rewrite !tm_real by exact Hk. rewrite zang_opp, cos_neg. reflexivity. }
  unfold iz. rewrite !T by lia. f_equal. f_equal. f_equal. apply rsum_ext. intros k Hk. rewrite T by (apply half_in; exact Hk). reflexivity.
Qed.
Lemma tm_0_pos k : (k <= n / 2)%nat -> tm n G k 0 = g k.
Proof. intros Hk. rewrite tm_real by exact Hk. rewrite zang_k0, cos_0 by exact Hn. ring. Qed.
Lemma iz_0 : iz n G 0 = / INR n * (g 0%nat + rsum (fun k => 2 * g (S k)) ((n - 1) / 2) + (if Nat.even n then g (n / 2)%nat else 0)).
Proof.
  unfold iz. rewrite !tm_0_pos by lia. f_equal. f_equal. f_equal. apply rsum_ext. intros k Hk. rewrite tm_0_pos by (apply half_in; exact Hk). reflexivity.
Qed.
Lemma weights : 1 + rsum (fun _ => 2) ((n - 1) / 2) + (if Nat.even n then 1 else 0) = INR n.
Proof. rewrite <- rsum_one. rewrite (rsum_half (fun _ => 1) n Hn); [|reflexivity]. f_equal. f_equal. apply rsum_ext. intros. ring. Qed.
Lemma iz_0_lt : iz n G 0 < 1.
Proof.
  rewrite iz_0. apply (Rmult_lt_reg_l (INR n)); [apply lt_0_INR; lia|]. rewrite <- Rmult_assoc, Rinv_r, Rmult_1_l, Rmult_1_r by (apply INR_nz; exact Hn).
  rewrite <- weights.
  assert (rsum (fun k => 2 * g (S k)) ((n - 1) / 2) <= rsum (fun _ => 2) ((n - 1) / 2)).
  { apply rsum_le. intros k Hk. pose proof (Hg (S k) (half_in k Hk)). lra. }
  pose proof (Hg 0%nat ltac:(lia)). pose proof (Hg (n / 2)%nat ltac:(lia)). destruct (Nat.even n); lra.
Qed.
Lemma rsum_nonneg f m : (forall i, (i < m)%nat -> 0 <= f i) -> 0 <= rsum f m.
Proof. intros H. rewrite <- (rsum_zero m). apply rsum_le. exact H. Qed.
Lemma rsum_pos f m k : (k < m)%nat -> (forall i, (i < m)%nat -> 0 <= f i) -> 0 < f k -> 0 < rsum f m.
Proof.
  intros Hk H Hp. induction m as [|m IH]; [lia|]. cbn [rsum].
  assert (0 <= rsum f m) by (apply rsum_nonneg; intros; apply H; lia).
  destruct (Nat.eq_dec k m) as [->|Hne]; [lra|]. pose proof (H m ltac:(lia)).
  assert (0 < rsum f m) by (apply IH; [lia|intros; apply H; lia]). lra.
Qed.
Lemma iz_0_pos k : (k <= n / 2)%nat -> 0 < g k -> 0 < iz n G 0.
Proof.
  intros Hk Hp. rewrite iz_0. apply Rmult_lt_0_compat; [exact inv_pos|].
  assert (N : forall i, (i < (n - 1) / 2)%nat -> 0 <= 2 * g (S i)) by (intros i Hi; pose proof (Hg (S i) (half_in i Hi)); lra).
  pose proof (rsum_nonneg _ _ N) as A. pose proof (Hg 0%nat ltac:(lia)) as B. pose proof (Hg (n / 2)%nat ltac:(lia)) as D.
  destruct k as [|k]; [destruct (Nat.even n); lra|].
  destruct (Nat.lt_ge_cases k ((n - 1) / 2)) as [Hk2|Hk2].
  - assert (0 < rsum (fun k => 2 * g (S k)) ((n - 1) / 2)) by (apply (rsum_pos _ _ k Hk2 N); lra).
    destruct (Nat.even n); lra.
  - assert (E : Nat.even n = true /\ S k = (n / 2)%nat).
    { destruct (Nat.even n) eqn:E.
      - split; [reflexivity|]. apply Nat.even_spec in E. destruct E as [h E]. rewrite E in *. rewrite half_e in *.
        replace (2 * h - 1)%nat with (2 * (h - 1) + 1)%nat in Hk2 by lia. rewrite half_o in Hk2. lia.
      - exfalso. rewrite <- Nat.negb_odd in E. apply negb_false_iff, Nat.odd_spec in E. destruct E as [h E]. rewrite E in *. rewrite half_o in *.
        replace (2 * h + 1 - 1)%nat with (2 * h)%nat in Hk2 by lia. rewrite half_e in Hk2. lia. }
    destruct E as [E Ek]. rewrite E. rewrite <- Ek. lra.
Qed.
Lemma sg_pulse k : (k <= n / 2)%nat -> 0 < g k -> pulse (sg n G).
Proof.
  intros Hk Hp. unfold pulse. rewrite sg_length. rewrite !sg_nth by lia. change (Z.of_nat 0) with 0%Z.
  split; [split; [exact (iz_0_pos k Hk Hp)|exact iz_0_lt]|]. split.
  - intros i Hi. rewrite sg_nth by exact Hi. apply iz_bound.
  - intros i Hi. rewrite !sg_nth by lia. rewrite Nat2Z.inj_sub by lia. apply iz_even.
Qed.
End Pulse.

(** *** reverse signals *)
Lemma fit_nth (l : list C) m k : (length l <= m)%nat -> (k < m)%nat ->
  nth k (fit (RtoC 0) m l) (RtoC 0) = nth k l (RtoC 0).
Proof.
  intros Hl Hk. unfold fit. rewrite firstn_all2 by exact Hl. destruct (Nat.lt_ge_cases k (length l)) as [H|H].
  - apply app_nth1. exact H.
  - rewrite app_nth2 by exact H. rewrite (nth_overflow l) by exact H. apply nth_repeat.
Qed.
Lemma reverse_pulse (x fx bx : raxis) (u : list R) pct f0 f1 b k : (2 <= length u)%nat -> 0 <= a_start x ->
  exact_span (a_start x) (a_end x) (a_sample x) (length u - 1) -> 0 < pct ->
  (b <= length u / 2)%nat -> (k <= b)%nat -> rfft_at (length u) u k <> RtoC 0 ->
  rel_select RA CV f0 f1 (mkRel (A:=RA) (V:=CV) fx (dft (length u) u)) = Ok (mkRel (A:=RA) (V:=CV) bx (firstn (b + 1) (dft (length u) u))) ->
  axis_size RA bx = Ok (b + 1)%nat ->
  exists v w, val_reverse_signal RA CV CF FC pct true f0 f1 (mkRel (A:=RA) (V:=CV) x (reals u)) (mkRel (A:=RA) (V:=CV) fx (dft (length u) u))
      = Ok (mkRel (A:=RA) (V:=CV) x (reals v)) /\ length v = length u /\ circular u v w /\ pulse w.
Proof.
  intros Hu Hs Hx Hpc Hb Hk Nz Hsel Hbx. set (n := length u) in *. set (y := firstn (b + 1) (dft n u)) in *.
  assert (Ly : length y = (b + 1)%nat) by (unfold y; rewrite firstn_length, dft_length; lia).
  assert (Hbx' : axis_size RA bx = Ok (length y)) by (rewrite Ly; exact Hbx).
  destruct (reverse_filter_eq _ bx y pct true f0 f1 Hsel Hbx') as (M & HM & _ & E).
  set (F := map (filt true M pct) y) in *. assert (LF : length F = (b + 1)%nat) by (unfold F; rewrite map_length; exact Ly).
  assert (Ey : forall j, (j <= b)%nat -> nth_error y j = Some (rfft_at n u j)).
  { intros j Hj. unfold y. rewrite nth_error_firstn by lia. unfold dft. apply nth_error_map_seq. lia. }
  assert (HM0 : 0 < M).
  { pose proof (HM _ (nth_error_In _ _ (Ey k Hk))). assert (0 < Cmod (rfft_at n u k)) by (apply Cmod_gt_0; exact Nz). lra. }
  assert (Hd : 0 < M * pct / 100) by (apply Rdiv_lt_0_compat; [apply Rmult_lt_0_compat; lra|lra]).
  set (X := fit (RtoC 0) (n / 2 + 1) F). assert (LX : length X = (n / 2 + 1)%nat) by apply fit_length.
  exists (sg n X), (sg n (filtered n u X)).
  split; [|split; [apply sg_length|split; [apply sg_circular; [lia|reflexivity|exact LX]|]]].
  - unfold val_reverse_signal. rewrite E. cbn [bind r_x]. apply signal_zero; [lia|exact Hs|exact Hx].
  - apply (sg_pulse n ltac:(lia) (fun j => if Nat.leb j b then Cmod (rfft_at n u j) / (Cmod (rfft_at n u j) + M * pct / 100) else 0) _) with (k := k).
    + intros j Hj. rewrite filtered_nth by (exact LX || lia). unfold X. rewrite fit_nth by lia.
      destruct (Nat.leb_spec j b) as [H|H].
      * rewrite (nth_error_nth F j (RtoC 0) (x:=filt true M pct (rfft_at n u j))) by (unfold F; rewrite nth_error_map, Ey by exact H; reflexivity).
        pose proof (Cmod_ge_0 (rfft_at n u j)). apply filt_whiten; lra.
      * rewrite nth_overflow by lia. apply Cmult_0_r.
    + intros j Hj. destruct (Nat.leb j b); [|lra]. pose proof (Cmod_ge_0 (rfft_at n u j)) as Hm. split.
      * apply Rmult_le_pos; [lra|]. left. apply Rinv_0_lt_compat. lra.
      * apply Rmult_lt_reg_r with (Cmod (rfft_at n u j) + M * pct / 100); [lra|]. unfold Rdiv at 1. rewrite Rmult_assoc, Rinv_l; lra.
    + lia.
    + destruct (Nat.leb_spec k b) as [_|H]; [|lia]. assert (0 < Cmod (rfft_at n u k)) by (apply Cmod_gt_0; exact Nz).
      apply Rdiv_lt_0_compat; lra.
Qed.

(** *** statements about signals *)
Lemma filter_circular (x : raxis) (u : list R) (z same : bool) (S H : crel) : (2 <= length u)%nat -> a_start x = 0 ->
  exact_span (a_start x) (a_end x) (a_sample x) (length u - 1) ->
  val_spectrum RA CV FC (mkRel (A:=RA) (V:=CV) x (reals u)) (DNone RA) z = Ok S -> valid H -> r_x H = r_x S ->
  exists v w P, val_signal RA CV FC H (DAxis RA x) None = Ok (mkRel (A:=RA) (V:=CV) x (reals v)) /\
    rel_op RA CV (default_config RA CV) MUL same S H = Ok P /\
    val_signal RA CV FC P (DAxis RA x) None = Ok (mkRel (A:=RA) (V:=CV) x (reals w)) /\ circular u v w.
Proof.
  intros Hu Hs Hx HS VH Ex. rewrite (spectrum_zero x u z Hu Hs Hx) in HS. injection HS as <-. cbn [r_x] in Ex. set (n := length u) in *.
  destruct H as [hx X]. cbn [r_x] in Ex. subst hx. change (list (val CV)) with (list C) in X.
  assert (LX : length X = (n / 2 + 1)%nat).
  { unfold valid in VH. cbn [r_x r_y] in VH. rewrite faxis_size in VH by (exact Hu || apply Hx). injection VH as E. symmetry. exact E. }
  exists (sg n X), (sg n (filtered n u X)). eexists. split; [|split; [|split]].
  - rewrite (signal_zero x _ n) by (lia || lra || exact Hx). rewrite fit_self by exact LX. reflexivity.
  - apply (rel_op_equal_axes CV_laws); [apply (fx_valid x u Hu Hx)|exact VH|reflexivity].
  - cbn [r_x r_y]. change (map2 (op_apply RA CV MUL) (dft n u) X) with (filtered n u X).
    rewrite (signal_zero x _ n) by (lia || lra || exact Hx). rewrite fit_self; [reflexivity|].
    unfold filtered. rewrite map2_length by (rewrite dft_length; symmetry; exact LX). apply dft_length.
  - apply sg_circular; [lia|reflexivity|exact LX].
Qed.
Lemma some_bin (u : list R) : (2 <= length u)%nat -> (exists t, In t u /\ t <> 0) -> exists k, (k <= length u / 2)%nat /\ rfft_at (length u) u k <> RtoC 0.
Proof.
  intros Hu (t & Ht & Nt). set (n := length u) in *.
  assert (D : forall m, (exists k, (k < m)%nat /\ rfft_at n u k <> RtoC 0) \/ forall k, (k < m)%nat -> rfft_at n u k = RtoC 0).
  { induction m as [|m [(k & Hk & Nk)|IH]]; [right; intros; lia|left; exists k; split; [lia|exact Nk]|].
    assert (E : {rfft_at n u m = RtoC 0} + {rfft_at n u m <> RtoC 0}) by apply Ceq_dec.
    destruct E as [E|E]; [right|left; exists m; split; [lia|exact E]]. intros k Hk. destruct (Nat.eq_dec k m) as [->|]; [exact E|apply IH; lia]. }
  destruct (D (n / 2 + 1)%nat) as [(k & Hk & Nk)|All]; [exists k; split; [lia|exact Nk]|]. exfalso. apply Nt.
  apply (energy_zero u (dft n u) Hu); [apply parseval; [lia|reflexivity]| |exact Ht].
  intros z Hz. unfold dft in Hz. apply in_map_iff in Hz. destruct Hz as (k & <- & Hk). apply in_seq in Hk. apply All. lia.
Qed.
Lemma whole_pulse (x : raxis) (u : list R) (percent : R) (z : bool) : (2 <= length u)%nat -> a_start x = 0 ->
  exact_span (a_start x) (a_end x) (a_sample x) (length u - 1) -> 0 < percent -> (exists t, In t u /\ t <> 0) ->
  exists S v w, val_spectrum RA CV FC (mkRel (A:=RA) (V:=CV) x (reals u)) (DNone RA) z = Ok S /\
    val_reverse_signal RA CV CF FC percent true None None (mkRel (A:=RA) (V:=CV) x (reals u)) S = Ok (mkRel (A:=RA) (V:=CV) x (reals v)) /\
    length v = length u /\ circular u v w /\ pulse w.
Proof.
  intros Hu Hs Hx Hp Ht. destruct (some_bin u Hu Ht) as (k & Hk & Nk). eexists.
  pose proof (half_pos (length u) Hu) as Hh. pose proof (freq_pos (length u) (a_sample x) ltac:(lia) (proj1 Hx)) as Hf.
  destruct (reverse_pulse x (faxis (length u) (a_sample x)) (faxis (length u) (a_sample x)) u percent None None (length u / 2) k) as (v & w & E & R); try assumption; try lia; try lra.
  - assert (A : axis_size RA (faxis (length u) (a_sample x)) = Ok (length (dft (length u) u))) by exact (fx_valid x u Hu Hx u).
    rewrite firstn_all2 by (rewrite dft_length; lia). apply select_all.
    + exact A.
    + rewrite dft_length. lia.
    + cbn [faxis a_start a_end]. apply Rmult_le_pos; [apply pos_INR|lra].
  - apply faxis_size; [exact Hu|apply Hx].
  - exists v, w. split; [apply spectrum_zero; assumption|]. split; [exact E|exact R].
Qed.
Lemma last_below (f hi : R) m k : 0 < f -> (k <= m)%nat -> INR k * f <= hi ->
  exists N, (k <= N <= m)%nat /\ INR N * f <= hi /\ forall i, (N < i <= m)%nat -> hi < INR i * f.
Proof.
  intros Hf Hk Hhi. induction m as [|m IH].
  - exists 0%nat. replace k with 0%nat in * by lia. repeat split; [lia|lia|exact Hhi|intros; lia].
  - destruct (Rle_lt_dec (INR (S m) * f) hi) as [H|H].
    + exists (S m). repeat split; [lia|lia|exact H|intros; lia].
    + assert (Hk' : (k <= m)%nat) by (destruct (Nat.eq_dec k (S m)) as [->|]; [lra|lia]).
      destruct (IH Hk') as (N & H1 & H2 & H3). exists N. repeat split; [lia|lia|exact H2|].
      intros i Hi. destruct (Nat.eq_dec i (S m)) as [->|]; [exact H|apply H3; lia].
Qed.
Lemma low_pulse (x : raxis) (u : list R) (percent hi : R) (z : bool) (k : nat) : (2 <= length u)%nat -> a_start x = 0 ->
  exact_span (a_start x) (a_end x) (a_sample x) (length u - 1) -> 0 < percent ->
  (k <= length u / 2)%nat -> INR k / (INR (length u) * a_sample x) <= hi -> fourier_at u k <> RtoC 0 ->
  exists S v w, val_spectrum RA CV FC (mkRel (A:=RA) (V:=CV) x (reals u)) (DNone RA) z = Ok S /\
    val_reverse_signal RA CV CF FC percent true None (Some hi) (mkRel (A:=RA) (V:=CV) x (reals u)) S = Ok (mkRel (A:=RA) (V:=CV) x (reals v)) /\
    length v = length u /\ circular u v w /\ pulse w.
Proof.
  intros Hu Hs Hx Hp Hk Hhi Nk. rewrite <- fourier_rfft in Nk. eexists.
  pose proof (half_pos (length u) Hu) as Hh. pose proof (freq_pos (length u) (a_sample x) ltac:(lia) (proj1 Hx)) as Hf.
  set (f := 1 / (INR (length u) * a_sample x)) in *.
  assert (Hhi' : INR k * f <= hi) by (unfold f, Rdiv in *; lra).
  destruct (last_below f hi (length u / 2) k Hf Hk Hhi') as (N & HN & Hlo & Hup).
  set (n := length u) in *. set (y := dft n u).
  assert (Ly : length y = (n / 2 + 1)%nat) by apply dft_length.
  assert (E0 : forall m (q : list C), length q = (m + 1)%nat -> onlat (V:=CV) 0 f 0 q = mkRel (A:=RA) (V:=CV) (mkAxis (A:=RA) 0 (INR m * f) f) q).
  { intros m q Hq. unfold onlat. f_equal. apply axis_eq; cbn [a_start a_end a_sample]; [change (0 + INR 0 * f = 0); cbn [INR]; ring| |reflexivity].
    change (0 + INR (0 + (length q - 1)) * f = INR m * f). rewrite Hq. replace (0 + (m + 1 - 1))%nat with m by lia. ring. }
  destruct (reverse_pulse x (faxis n (a_sample x)) (mkAxis (A:=RA) 0 (INR N * f) f) u percent None (Some hi) N k) as (v & w & E & R); try assumption; try (fold n; lia); try lra.
  - assert (Lf : length (firstn (N + 1) y) = (N + 1)%nat) by (rewrite firstn_length; lia).
    refine (eq_trans (f_equal (rel_select RA CV None (Some hi)) (eq_sym (E0 (n / 2)%nat y Ly))) (eq_trans (lat_select (V:=CV) 0 f y hi N Hf _ _ _) (f_equal Ok (E0 N _ Lf)))).
    + change (N + 1 <= @length C y)%nat. lia.
    + intros i Hi. rewrite Rplus_0_l. apply Rle_trans with (INR N * f); [|exact Hlo]. apply Rmult_le_compat_r; [lra|apply le_INR; exact Hi].
    + intros i Hi. rewrite Rplus_0_l. apply Hup. change (N < i < @length C y)%nat in Hi. lia.
  - apply axis_size_exact. split; cbn [a_start a_end a_sample]; [exact Hf|ring].
  - exists v, w. split; [apply spectrum_zero; assumption|]. split; [exact E|exact R].
Qed.
Lemma from_refuted : exists (x : raxis) (u : list R) (percent lo : R) (S : crel) (v w : list R),
  a_start x = 0 /\ length u = 2%nat /\ exact_span (a_start x) (a_end x) (a_sample x) (length u - 1) /\ 0 < percent /\
  (forall k, INR k / (INR (length u) * a_sample x) < lo -> fourier_at u k = RtoC 0) /\ (exists t, In t u /\ t <> 0) /\
  val_spectrum RA CV FC (mkRel (A:=RA) (V:=CV) x (reals u)) (DNone RA) false = Ok S /\
  val_reverse_signal RA CV CF FC percent true (Some lo) None (mkRel (A:=RA) (V:=CV) x (reals u)) S = Ok (mkRel (A:=RA) (V:=CV) x (reals v)) /\
  circular u v w /\ w = [0; 0].
Proof.
  set (x := mkAxis (A:=RA) 0 1 1). set (u := [1; -1]). set (y := dft 2 u).
  assert (Hx : exact_span (a_start x) (a_end x) (a_sample x) (length u - 1)) by (split; cbn; lra).
  assert (Ey : y = [RtoC 0; rfft_at 2 u 1]).
  { unfold y, dft. cbn [Nat.div seq map fst]. cbn. f_equal. unfold rfft_at, ang, u, RtoC. cbn. f_equal; rewrite ?Rmult_0_r, ?Rmult_0_l; unfold Rdiv; rewrite ?Rmult_0_l, ?Rmult_0_r, ?cos_0, ?sin_0; ring. }
  set (bx := mkAxis (A:=RA) (/ 2) (/ 2) (/ 2)).
  assert (Hsel : rel_select RA CV (Some (/ 2)) None (mkRel (A:=RA) (V:=CV) (faxis 2 1) y) = Ok (mkRel (A:=RA) (V:=CV) bx [rfft_at 2 u 1])).
  { assert (Hv : valid (mkRel (A:=RA) (V:=CV) (faxis 2 1) y)) by exact (fx_valid x u ltac:(cbn; lia) Hx u).
    rewrite (select_unf _ _ _ Hv). cbv zeta.
    assert (Ex : xs_of (mkRel (A:=RA) (V:=CV) (faxis 2 1) y) = [0; / 2]).
    { unfold xs_of. cbn [r_x r_y]. rewrite Ey. unfold grid, grid_pt. cbn. f_equal; [|f_equal]; lra. }
    rewrite Ex. cbn [r_x r_y faxis a_end a_sample]. cbn [map].
    assert (B1 : Rleb (/ 2) 0 = false) by (apply Rleb_false; lra). assert (B2 : Rleb (/ 2) (/ 2) = true) by (apply Rleb_true; lra).
    assert (B3 : Rleb (/ 2) (INR (2 / 2) * (1 / (INR 2 * 1))) = true) by (apply Rleb_true; cbn; lra).
    rewrite B1, B2, B3, Ey. cbn [andb mask last].
    replace (1 / (INR 2 * 1)) with (/ 2) by (cbn; lra). fold bx.
    apply (make_CV bx _ 1); [|reflexivity]. apply (axis_size_exact bx 0). split; cbn; lra. }
  assert (Hb : axis_size RA bx = Ok (length [rfft_at 2 u 1])) by (apply (axis_size_exact bx 0); split; cbn; lra).
  destruct (reverse_filter_eq _ bx _ 1 true (Some (/ 2)) None Hsel Hb) as (M & _ & _ & E). cbn [map] in E.
  set (c := filt true M 1 (rfft_at 2 u 1)) in *.
  exists x, u, 1, (/ 2), (mkRel (A:=RA) (V:=CV) (faxis 2 1) y), (sg 2 (fit (RtoC 0) 2 [c])), (sg 2 (filtered 2 u (fit (RtoC 0) 2 [c]))).
  split; [reflexivity|]. split; [reflexivity|]. split; [exact Hx|]. split; [lra|]. split; [|split; [|split; [|split; [|split]]]].
  - intros k Hk. cbn in Hk. assert (k = 0%nat) as ->.
    { destruct k as [|k]; [reflexivity|exfalso]. rewrite S_INR in Hk. pose proof (pos_INR k). lra. }
    rewrite <- fourier_rfft. change (length u) with 2%nat. pose proof Ey as E2. unfold y, dft in E2. cbn [Nat.div seq map] in E2. injection E2 as E2 _.
    unfold rfft_at, RtoC. cbn [rsum]. unfold ang, u, RtoC, Rdiv. cbn. f_equal; rewrite ?Rmult_0_r, ?Rmult_0_l, ?Rmult_0_r, ?Rmult_0_l, ?cos_0, ?sin_0; ring.
  - exists 1. split; [left; reflexivity|lra].
  - exact (spectrum_zero x u false ltac:(cbn; lia) eq_refl Hx).
  - unfold val_reverse_signal. rewrite E. cbn [bind r_x]. apply (signal_zero x bx 2); [lia|cbn; lra|exact Hx].
  - apply sg_circular; [lia|reflexivity|reflexivity].
  - assert (F : filtered 2 u (fit (RtoC 0) 2 [c]) = [RtoC 0; RtoC 0]).
    { unfold filtered. fold y. rewrite Ey. cbn [fit firstn length Nat.sub repeat app map2]. rewrite Cmult_0_l, Cmult_0_r. reflexivity. }
    rewrite F. unfold sg, iz, tm. cbn. f_equal; [|f_equal]; ring.
Qed.
