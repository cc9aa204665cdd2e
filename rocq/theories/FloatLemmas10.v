(** Proofs for C90: sweeps in binary64. *)
From Coq Require Import Reals ZArith List Bool Lia Lra Psatz SpecFloat QArith Qreals Ratan Machin.
From Flocq Require Import Core.Core IEEE754.BinarySingleNaN.
From Verif Require Import Num Numpy Spec AxisModel RelModel SweepModel SweepSpec RLemmas AxisLemmas InterpLemmas RelLemmas RelLemmas2 SweepLemmas
  FloatSpec FloatLemmas FloatLemmas2 FloatLemmas3 FloatLemmas4 CalcSpec FloatLemmas5 FloatLemmas6 FloatLemmas9 AccuracyLemmas FloatSweepSpec.
Import ListNotations.
Local Open Scope R_scope.

Lemma wave_at sf a x phi eps delta : sin_within eps sf -> f64_ordinary a -> f64_fin x -> Rabs (f64_val x - phi) <= delta ->
  f64_fin (SFmul 53 1024 a (sf x)) /\ Rabs (f64_val (SFmul 53 1024 a (sf x))) <= Rabs (f64_val a) /\
  Rabs (f64_val (SFmul 53 1024 a (sf x)) - f64_val a * sin phi) <= sample_error (f64_val a) eps delta.
Proof.
  intros HS [Fa Ba] Fx Hx. destruct (HS x Fx) as (Fs & B1 & Es). rewrite powerRZ_bpow in Ba.
  set (A := f64_val a) in *. set (s := f64_val (sf x)) in *.
  assert (B : Rabs (A * s) <= Rabs A).
  { rewrite Rabs_mult. rewrite <- (Rmult_1_r (Rabs A)) at 2. apply Rmult_le_compat_l; [apply Rabs_pos|exact B1]. }
  assert (B' : Rabs (A * s) <= bpow radix2 1000).
  { eapply Rle_trans; [exact B|]. eapply Rle_trans; [exact Ba|]. apply bpow_le. lia. }
  destruct (mul_ok a (sf x) Fa Fs B') as [F E]. fold A s in E. split; [exact F|]. split.
  - destruct (f64_mul a (sf x) Fa Fs) as [_ V]; [fold A s; apply le_bpow_trans with 1000%Z; [exact B'|lia]|]. rewrite V. fold A s.
    pose proof (fin_fmt a Fa) as FA. fold A in FA. apply Rabs_le_inv in B.
    apply Rabs_le. split.
    + apply frnd_ge_fmt; [|lra]. apply generic_format_opp. apply generic_format_abs. exact FA.
    + apply frnd_le_fmt; [|lra]. apply generic_format_abs. exact FA.
  - unfold sample_error. replace (powerRZ 2 (-1075)) with et by (rewrite powerRZ_bpow; reflexivity). replace (/ 2 ^ 53) with uu by (unfold uu; lra).
    pose proof (sin_lipschitz (f64_val x) phi) as SL. fold s in Es.
    replace (f64_val (SFmul 53 1024 a (sf x)) - A * sin phi)
      with ((f64_val (SFmul 53 1024 a (sf x)) - A * s) + A * ((s - sin (f64_val x)) + (sin (f64_val x) - sin phi))) by ring.
    eapply Rle_trans; [apply Rabs_triang|]. rewrite (Rabs_mult A (_ + _)). pose proof (Rabs_triang (s - sin (f64_val x)) (sin (f64_val x) - sin phi)) as T.
    assert (M : Rabs A * Rabs (s - sin (f64_val x) + (sin (f64_val x) - sin phi)) <= Rabs A * (eps + delta)) by (apply Rmult_le_compat_l; [apply Rabs_pos|lra]).
    pose proof uu_pos. assert (M2 : uu * Rabs (A * s) <= uu * Rabs A) by (apply Rmult_le_compat_l; lra). lra.
Qed.

Lemma pi_bounds : 3 < PI < 7 / 2.
Proof.
  pose proof (PI_2_3_7_ineq 0) as H. unfold tg_alt, PI_2_3_7_tg, Ratan_seq in H. cbn in H. lra.
Qed.

Lemma angle_at p v t0 I q : near_2pi p -> f64_fin v -> f64_ordinary t0 -> Rabs (f64_val v - I) <= q -> Rabs I + q <= bpow radix2 700 ->
  f64_fin (SFadd 53 1024 (SFmul 53 1024 p v) t0) /\
  Rabs (f64_val (SFadd 53 1024 (SFmul 53 1024 p v) t0) - (2 * PI * I + f64_val t0)) <= angle_error I q (f64_val t0).
Proof.
  intros [Fp Ep] Fv [Ft Bt] Hv HB. rewrite powerRZ_bpow in Bt. unfold angle_error.
  replace (powerRZ 2 (-1073)) with (4 * et) by (change (-1073)%Z with (-1075 + 2)%Z; rewrite p_et; cbn; ring).
  replace (/ 2 ^ 51) with (4 * uu) in Ep by (unfold uu; lra). replace (/ 2 ^ 48) with (32 * uu) by (unfold uu; lra). replace (/ 2 ^ 53) with uu by (unfold uu; lra).
  set (P := f64_val p) in *. set (v' := f64_val v) in *. set (T := f64_val t0) in *.
  pose proof pi_bounds as PB. pose proof uu_pos as U. assert (U1 : uu <= / 1024) by (unfold uu; lra). pose proof et_pos as TP. pose proof et_small as TS.
  assert (Q0 : 0 <= q) by (pose proof (Rabs_pos (v' - I)); lra). pose proof (Rabs_pos I) as I0. pose proof (Rabs_pos T) as T0.
  assert (BP : Rabs P <= 7.5). { apply Rabs_le_inv in Ep. apply Rabs_le. lra. }
  assert (BV : Rabs v' <= Rabs I + q). { replace v' with (I + (v' - I)) by ring. eapply Rle_trans; [apply Rabs_triang|]. lra. }
  assert (BPV : Rabs (P * v') <= 7.5 * (Rabs I + q)). { rewrite Rabs_mult. apply Rmult_le_compat; auto using Rabs_pos. }
  assert (G7 : 16 * bpow radix2 700 <= bpow radix2 1000). { change 16 with (bpow radix2 4). rewrite <- bpow_plus. apply bpow_le. lia. }
  assert (G3 : bpow radix2 300 <= bpow radix2 700) by (apply bpow_le; lia).
  assert (G1 : 1 <= bpow radix2 700) by (change 1 with (bpow radix2 0); apply bpow_le; lia).
  destruct (mul_ok p v Fp Fv) as [Fm Em]; [fold P v'; lra|]. fold P v' in Em. set (M := f64_val (SFmul 53 1024 p v)) in *.
  assert (X1 : uu * Rabs (P * v') <= uu * (7.5 * (Rabs I + q))) by (apply Rmult_le_compat_l; lra).
  assert (UI : 0 <= uu * Rabs I <= / 1024 * Rabs I) by (split; [apply Rmult_le_pos; lra|apply Rmult_le_compat_r; lra]).
  assert (UQ : 0 <= uu * q <= / 1024 * q) by (split; [apply Rmult_le_pos; lra|apply Rmult_le_compat_r; lra]).
  assert (BM : Rabs M <= 7.6 * (Rabs I + q) + et).
  { replace M with (P * v' + (M - P * v')) by ring. eapply Rle_trans; [apply Rabs_triang|]. lra. }
  assert (BMT : Rabs (M + T) <= 7.6 * (Rabs I + q) + et + Rabs T). { eapply Rle_trans; [apply Rabs_triang|]. lra. }
  destruct (add_ok (SFmul 53 1024 p v) t0 Fm Ft) as [Fs Es]; [fold M T; lra|]. split; [exact Fs|]. fold M T in Es.
  assert (X2 : uu * Rabs (M + T) <= uu * (7.6 * (Rabs I + q) + et + Rabs T)) by (apply Rmult_le_compat_l; lra).
  assert (UE : uu * et <= / 1024 * et) by (apply Rmult_le_compat_r; lra).
  assert (X3 : Rabs (P * v' - 2 * PI * I) <= 7.5 * q + 4 * uu * Rabs I).
  { replace (P * v' - 2 * PI * I) with (P * (v' - I) + (P - 2 * PI) * I) by ring. eapply Rle_trans; [apply Rabs_triang|]. rewrite !Rabs_mult.
    assert (Rabs P * Rabs (v' - I) <= 7.5 * q) by (apply Rmult_le_compat; auto using Rabs_pos).
    assert (Rabs (P - 2 * PI) * Rabs I <= 4 * uu * Rabs I) by (apply Rmult_le_compat_r; lra). lra. }
  set (R := f64_val (SFadd 53 1024 (SFmul 53 1024 p v) t0)) in *.
  replace (R - (2 * PI * I + T)) with ((R - (M + T)) + ((M - P * v') + (P * v' - 2 * PI * I))) by ring.
  pose proof (Rabs_triang (R - (M + T)) ((M - P * v') + (P * v' - 2 * PI * I))) as A1. pose proof (Rabs_triang (M - P * v') (P * v' - 2 * PI * I)) as A2. lra.
Qed.

Lemma upto_le f k B : (forall i, (i <= k)%nat -> Rabs (f i) <= B) -> Rabs (upto f k) <= (INR k + 1) * B.
Proof.
  induction k as [|k IH]; intros H.
  - cbn [upto INR]. specialize (H 0%nat (le_n _)). lra.
  - cbn [upto]. rewrite S_INR. assert (Rabs (upto f k) <= (INR k + 1) * B) by (apply IH; intros; apply H; lia).
    specialize (H (S k) (le_n _)). eapply Rle_trans; [apply Rabs_triang|]. lra.
Qed.
Lemma nth_ordinary (y : list spec_float) i : Forall f64_ordinary y -> Rabs (nth i (vals y) 0) <= bpow radix2 300.
Proof.
  intros H. unfold vals. destruct (nth_in_or_default i (map f64_val y) 0) as [I|E].
  - apply in_map_iff in I as (x & <- & Hx). rewrite Forall_forall in H. destruct (H x Hx) as [_ B]. rewrite powerRZ_bpow in B. exact B.
  - rewrite E, Rabs_R0. apply bpow_ge_0.
Qed.
Lemma mean_ordinary (y : list spec_float) i : Forall f64_ordinary y -> Rabs (mean (vals y) i) <= bpow radix2 300.
Proof.
  intros H. unfold mean. pose proof (nth_ordinary y i H) as A. pose proof (nth_ordinary y (S i) H) as B.
  apply Rabs_le_inv in A. apply Rabs_le_inv in B. apply Rabs_le. lra.
Qed.
Lemma upto_abs f k : Rabs (upto f k) <= upto (fun i => Rabs (f i)) k.
Proof. induction k as [|k IH]; cbn [upto]; [lra|]. eapply Rle_trans; [apply Rabs_triang|]. lra. Qed.
Lemma upto_size (y : list spec_float) k : Forall f64_ordinary y -> upto (fun i => Rabs (mean (vals y) i)) k <= (INR k + 1) * bpow radix2 300.
Proof.
  intros H. eapply Rle_trans; [apply Rle_abs|]. apply upto_le. intros i _. rewrite Rabs_right by (apply Rle_ge, Rabs_pos). apply mean_ordinary. exact H.
Qed.

(** the size of the number of periods *)
Lemma periods_size s e d m (y : list spec_float) k : f64_forward s e d (m + 1) -> Forall f64_ordinary y -> (k <= m + 1)%nat ->
  Rabs (periods (f64_val d) (mean (vals y)) k) + periods_error (f64_val d) (mean (vals y)) k <= bpow radix2 700.
Proof.
  intros HF Oy Hk. pose proof HF as (HT & Bd & _). rewrite !powerRZ_bpow in Bd. pose proof (fwd_D s e d m HF) as PD.
  pose proof (tame_n _ _ _ _ HT) as Tn. destruct k as [|j]; cbn [periods periods_error].
  - rewrite Rabs_R0. pose proof (bpow_ge_0 radix2 700). lra.
  - set (D := f64_val d) in *. assert (Hj : INR j + 1 <= 2 ^ 48).
    { rewrite <- S_INR. eapply Rle_trans; [apply le_INR; exact Hk|]. lra. }
    pose proof (pos_INR j) as Pj. pose proof (upto_size y j Oy) as B. pose proof (upto_abs (mean (vals y)) j) as Ba.
    set (u := upto (fun i => Rabs (mean (vals y) i)) j) in *. assert (U0 : 0 <= u) by (apply upto_nonneg; intros; apply Rabs_pos).
    replace (powerRZ 2 (-1074)) with (2 * et) by (change (-1074)%Z with (-1075 + 1)%Z; rewrite p_et; cbn; ring).
    rewrite Rabs_mult, (Rabs_right D) by lra.
    assert (X : D * u <= bpow radix2 300 * (2 ^ 48 * bpow radix2 300)).
    { apply Rmult_le_compat; [lra|exact U0|lra|]. eapply Rle_trans; [exact B|]. apply Rmult_le_compat_r; [apply bpow_ge_0|lra]. }
    assert (X1 : D * Rabs (upto (mean (vals y)) j) <= D * u) by (apply Rmult_le_compat_l; lra).
    assert (C : (INR j + 3) / 2 ^ 52 <= 1) by lra. assert (C0 : 0 <= (INR j + 3) / 2 ^ 52) by lra.
    assert (X2 : (INR j + 3) / 2 ^ 52 * (D * u) <= 1 * (D * u)) by (apply Rmult_le_compat_r; [apply Rmult_le_pos; lra|exact C]).
    pose proof et_small as TS. pose proof et_pos as TP.
    assert (E1 : 1 <= bpow radix2 300) by (change 1 with (bpow radix2 0); apply bpow_le; lia).
    assert (X3 : (INR j + 2) * (D + 1) <= 2 ^ 49 * (2 * bpow radix2 300)) by (apply Rmult_le_compat; lra).
    assert (X4 : (INR j + 2) * (D + 1) * (2 * et) <= 2 ^ 49 * (2 * bpow radix2 300) * 1).
    { apply Rmult_le_compat; [apply Rmult_le_pos; lra|lra|exact X3|]. assert (et <= / 2) by (unfold et; change (/ 2) with (bpow radix2 (-1)); apply bpow_le; lia). lra. }
    replace (2 ^ 48) with (bpow radix2 48) in X by (cbn; lra). replace (2 ^ 49) with (bpow radix2 49) in X4 by (cbn; lra).
    rewrite <- !bpow_plus in X. replace (bpow radix2 49 * (2 * bpow radix2 300) * 1) with (bpow radix2 49 * (bpow radix2 1 * bpow radix2 300)) in X4 by (change (bpow radix2 1) with 2; ring).
    rewrite <- !bpow_plus in X4.
    assert (Y1 : 3 * bpow radix2 (300 + (48 + 300)) <= bpow radix2 700 / 2).
    { apply Rle_trans with (bpow radix2 2 * bpow radix2 (300 + (48 + 300))); [apply Rmult_le_compat_r; [apply bpow_ge_0|cbn; lra]|].
      replace (bpow radix2 700 / 2) with (bpow radix2 700 * bpow radix2 (-1)) by (cbn; lra). rewrite <- !bpow_plus. apply bpow_le. lia. }
    assert (Y2 : bpow radix2 (49 + (1 + 300)) <= bpow radix2 700 / 2).
    { replace (bpow radix2 700 / 2) with (bpow radix2 700 * bpow radix2 (-1)) by (cbn; lra). rewrite <- !bpow_plus. apply bpow_le. lia. }
    pose proof (bpow_ge_0 radix2 (300 + (48 + 300))) as Y3. pose proof (Rle_trans _ _ _ X4 Y2) as Y4.
    set (w1 := D * u) in *. set (w2 := (INR j + 2) * (D + 1) * (2 * et)) in *. set (w3 := (INR j + 3) / 2 ^ 52 * w1) in *. set (w4 := D * Rabs (upto (mean (vals y)) j)) in *.
    change (bpow radix2 (300 + (48 + 300))) with (bpow radix2 648) in *. generalize dependent (bpow radix2 648). generalize dependent (bpow radix2 700).
    clear - X1 X2. intros. lra.
Qed.

Section Call.
Context (W : wfun FA FV) (eps : R) (HS : sin_within eps (w_sin FA FV W)) (HP : near_2pi (w_2pi FA FV W)).

Lemma zero_angle (t0 : spec_float) : f64_ordinary t0 -> f64_fin (SFadd 53 1024 (n_of_Z FA 0) t0) /\
  Rabs (f64_val (SFadd 53 1024 (n_of_Z FA 0) t0) - (2 * PI * 0 + f64_val t0)) <= angle_error 0 0 (f64_val t0).
Proof.
  intros [Ft Bt]. rewrite powerRZ_bpow in Bt. assert (Fz : f64_fin (n_of_Z FA 0)) by apply zero_fin. assert (Vz : f64_val (n_of_Z FA 0) = 0) by apply zero_fin.
  destruct (add_ok (n_of_Z FA 0) t0 Fz Ft) as [F E]; rewrite ?Vz, ?Rplus_0_l in *.
  { eapply Rle_trans; [exact Bt|]. apply bpow_le. lia. }
  split; [exact F|]. replace (2 * PI * 0 + f64_val t0) with (f64_val t0) by ring. eapply Rle_trans; [exact E|]. unfold angle_error.
  replace (/ 2 ^ 53) with uu by (unfold uu; lra). rewrite Rabs_R0. assert (0 <= powerRZ 2 (-1073)) by (apply powerRZ_le; lra). lra.
Qed.

Lemma wave_nth am th (t0 : spec_float) k w : length am = length th ->
  nth_error (map2 (v_mul FV) am (map (fun v => w_sin FA FV W (v_add FV v (v_of FV t0))) th)) k = Some w ->
  exists a v, nth_error am k = Some a /\ nth_error th k = Some v /\ w = SFmul 53 1024 a (w_sin FA FV W (SFadd 53 1024 v t0)).
Proof.
  revert th k. induction am as [|a am IH]; intros [|v th] [|k] L H; cbn in *; try discriminate.
  - injection H as <-. exists a, v. auto.
  - apply IH; [lia|exact H].
Qed.

Lemma sweep_arr sc (g : ugen FA FV) t (tht0 : spec_float) s f sx ex d m :
  us_call FA FV W (default_config FA FV) sc g t tht0 = Ok s -> u_f g = LawArr f -> f64_ordinary tht0 ->
  r_x (sw_rel s) = mkAxis (A:=FA) sx ex d -> f64_forward sx ex d (m + 1) ->
  Forall f64_ordinary (r_y (sw_ft s)) -> Forall f64_ordinary (r_y (sw_at s)) ->
  length (r_y (sw_rel s)) = (m + 2)%nat /\ length (r_y (sw_at s)) = (m + 2)%nat /\
  forall k w a, nth_error (r_y (sw_rel s)) k = Some w -> nth_error (r_y (sw_at s)) k = Some a ->
    f64_fin w /\ Rabs (f64_val w) <= Rabs (f64_val a) /\
    Rabs (f64_val w - f64_val a * sin (2 * PI * periods (f64_val d) (mean (vals (r_y (sw_ft s)))) k + f64_val tht0))
      <= sample_error (f64_val a) eps (angle_error (periods (f64_val d) (mean (vals (r_y (sw_ft s)))) k)
           (periods_error (f64_val d) (mean (vals (r_y (sw_ft s)))) k) (f64_val tht0)).
Proof.
  intros H Hf Ot Hx HF Of Oa. apply us_call_exact in H. destruct H as (x & fy & am & th & _ & _ & _ & HA & Sz & La & Lt & -> & _).
  cbn [sw_rel sw_ft sw_at r_x r_y] in *. subst x. rewrite Hf in HA.
  pose proof (proj1 (f64_size _ _ _ _ (tame_axis _ _ _ _ (proj1 HF)))) as Sz'. rewrite Sz in Sz'. injection Sz' as Lf.
  assert (Lf' : length fy = (m + 2)%nat) by (transitivity (m + 1 + 1)%nat; [exact Lf|lia]).
  pose proof (eq_trans La Lf' : length am = (m + 2)%nat) as La'. pose proof (eq_trans Lt Lf' : length th = (m + 2)%nat) as Lt'. clear La Lt Lf Sz.
  inversion HA as [|? ? ? i Hi]; subst.
  destruct (f64_integrate_rel sx ex d m fy HF Lf' Of) as (s' & z & xs & R & Lz & _ & _ & _ & P). rewrite R in Hi. injection Hi as <-.
  cbn [r_y] in *. set (th := v_of FV (n_of_Z FA 0) :: map (v_mul FV (w_2pi FA FV W)) z) in *.
  split; [rewrite map2_length; rewrite ?map_length; congruence|]. split; [exact La'|].
  intros k w a Hw Ha. destruct (wave_nth am th tht0 k w ltac:(congruence) Hw) as (a' & v & Ha' & Hv & ->).
  rewrite Ha in Ha'. injection Ha' as <-.
  assert (Oa' : f64_ordinary a) by (rewrite Forall_forall in Oa; apply Oa; eapply nth_error_In; exact Ha).
  assert (Hk : (k <= m + 1)%nat). { assert (k < length th)%nat by (apply nth_error_Some; congruence). rewrite Lt' in *. lia. }
  enough (AA : f64_fin (SFadd 53 1024 v tht0) /\
    Rabs (f64_val (SFadd 53 1024 v tht0) - (2 * PI * periods (f64_val d) (mean (vals fy)) k + f64_val tht0))
      <= angle_error (periods (f64_val d) (mean (vals fy)) k) (periods_error (f64_val d) (mean (vals fy)) k) (f64_val tht0)).
  { destruct AA as [F1 E1]. exact (wave_at _ a _ _ eps _ HS Oa' F1 E1). }
  destruct k as [|k].
  - cbn in Hv. injection Hv as <-. cbn [periods periods_error]. exact (zero_angle tht0 Ot).
  - cbn [th nth_error] in Hv. unfold th in Hv. cbn [nth_error] in Hv. rewrite nth_error_map in Hv. destruct (nth_error z k) as [u|] eqn:G; [|discriminate]. injection Hv as <-.
    destruct (P k u G) as [Fu Eu].
    apply (angle_at (w_2pi FA FV W) u tht0 _ _ HP Fu Ot); [exact Eu|]. exact (periods_size sx ex d m fy (S k) HF Of Hk).
Qed.

(** a frequency given as a function, its integral known up to [q] *)
Lemma sweep_fun quad sc (g : ugen FA FV) t (tht0 : spec_float) s c gf ts (I q : nat -> R) :
  us_call FA FV W (default_config FA FV) sc g t tht0 = Ok s -> u_f g = LawFun c -> u_int g = integrate_function_default FA FV W quad ->
  cl_num c = Ok gf -> axis_array FA (r_x (sw_rel s)) = Ok ts -> f64_ordinary tht0 -> Forall f64_ordinary (r_y (sw_at s)) -> I 0%nat = 0 -> q 0%nat = 0 ->
  (forall k u, nth_error ts (S k) = Some u -> f64_fin (quad gf (a_start (r_x (sw_rel s))) u) /\
     Rabs (f64_val (quad gf (a_start (r_x (sw_rel s))) u) - I (S k)) <= q (S k) /\ Rabs (I (S k)) + q (S k) <= powerRZ 2 700) ->
  forall k w a, nth_error (r_y (sw_rel s)) k = Some w -> nth_error (r_y (sw_at s)) k = Some a ->
    f64_fin w /\ Rabs (f64_val w) <= Rabs (f64_val a) /\
    Rabs (f64_val w - f64_val a * sin (2 * PI * I k + f64_val tht0)) <= sample_error (f64_val a) eps (angle_error (I k) (q k) (f64_val tht0)).
Proof.
  intros H Hf Hi Hg Hts Ot Oa I0 Q0 HI. apply us_call_exact in H. destruct H as (x & fy & am & th & _ & _ & _ & HA & Sz & La & Lt & -> & _).
  cbn [sw_rel sw_ft sw_at r_x r_y] in *. rewrite Hf in HA. inversion HA as [? ? ? ? E|]; subst. rewrite Hi in E. unfold integrate_function_default in E. rewrite Hts in E. cbn [bind] in E.
  intros k w a Hw Ha. destruct (wave_nth am th tht0 k w ltac:(congruence) Hw) as (a' & v & Ha' & Hv & ->).
  rewrite Ha in Ha'. injection Ha' as <-.
  assert (Oa' : f64_ordinary a) by (rewrite Forall_forall in Oa; apply Oa; eapply nth_error_In; exact Ha).
  enough (AA : f64_fin (SFadd 53 1024 v tht0) /\
    Rabs (f64_val (SFadd 53 1024 v tht0) - (2 * PI * I k + f64_val tht0)) <= angle_error (I k) (q k) (f64_val tht0)).
  { destruct AA as [F1 E1]. exact (wave_at _ a _ _ eps _ HS Oa' F1 E1). }
  assert (Hth : th = v_of FV (n_of_Z FA 0) :: map (fun t => v_mul FV (w_2pi FA FV W) (quad gf (a_start x) t)) (tl ts)).
  { destruct (tl ts) as [|t1 ts']; [injection E as <-; reflexivity|]. rewrite Hg in E. cbn [bind] in E. injection E as <-. reflexivity. }
  subst th. destruct k as [|k].
  - cbn in Hv. injection Hv as <-. rewrite I0, Q0. exact (zero_angle tht0 Ot).
  - cbn [nth_error] in Hv. rewrite nth_error_map in Hv. destruct (nth_error (tl ts) k) as [u|] eqn:G; [|discriminate]. injection Hv as <-.
    assert (G' : nth_error ts (S k) = Some u) by (destruct ts; [destruct k; discriminate|exact G]).
    destruct (HI k u G') as (Fu & Eu & Bu). rewrite powerRZ_bpow in Bu. exact (angle_at (w_2pi FA FV W) _ tht0 _ _ HP Fu Ot Eu Bu).
Qed.
End Call.

(** ** The constant 2 pi, by Machin's series summed in rational numbers *)
Definition qterm (n : nat) : Q := (2 * (Qinv (inject_Z (3 ^ Z.of_nat (2*n+1)))) / inject_Z (Z.of_nat (2*n+1)) + (Qinv (inject_Z (7 ^ Z.of_nat (2*n+1)))) / inject_Z (Z.of_nat (2*n+1)))%Q.
Fixpoint qsum (n : nat) : Q := match n with O => qterm 0 | S k => Qred (qsum k + (if Nat.even n then qterm n else - qterm n))%Q end.
Lemma Q2R_Z z : Q2R (inject_Z z) = IZR z.
Proof. unfold Q2R, inject_Z. cbn. field. Qed.
Lemma pow_IZR' a n : (a <> 0)%Z -> Q2R (/ inject_Z (a ^ Z.of_nat n)) = (/ IZR a) ^ n.
Proof.
  intros Ha. rewrite Q2R_inv. 2:{ intros E. unfold Qeq in E. cbn in E. assert (a ^ Z.of_nat n <> 0)%Z by (apply Z.pow_nonzero; lia). lia. }
  rewrite Q2R_Z, <- pow_IZR. rewrite pow_inv; reflexivity.
Qed.
Lemma qterm_R n : Q2R (qterm n) = PI_2_3_7_tg n.
Proof.
  unfold qterm, PI_2_3_7_tg, Ratan_seq. assert (N : ~ (inject_Z (Z.of_nat (2*n+1)) == 0)%Q) by (unfold Qeq; cbn [inject_Z Qnum Qden]; lia).
  rewrite Q2R_plus, !Q2R_div by exact N. rewrite Q2R_mult, !pow_IZR' by lia. rewrite Q2R_Z, <- INR_IZR_INZ. replace (Q2R 2) with 2 by (unfold Q2R; cbn; lra). unfold Rdiv. ring.
Qed.
Lemma qsum_R n : Q2R (qsum n) = sum_f_R0 (tg_alt PI_2_3_7_tg) n.
Proof.
  induction n as [|n IH]; [cbn [qsum sum_f_R0]; unfold tg_alt; rewrite qterm_R; cbn [pow]; ring|].
  cbn [qsum sum_f_R0]. rewrite (Qeq_eqR _ _ (Qred_correct _)), Q2R_plus, IH. f_equal. unfold tg_alt.
  destruct (Nat.even (S n)) eqn:E.
  - apply Nat.even_spec in E as [k Ek]. rewrite Ek, pow_1_even, qterm_R. ring.
  - assert (O : Nat.odd (S n) = true) by (unfold Nat.odd; rewrite E; reflexivity). apply Nat.odd_spec in O as [k Ek]. rewrite Ek. replace (2*k+1)%nat with (S (2*k))%nat by lia. rewrite pow_1_odd, Q2R_opp, qterm_R. ring.
Qed.
Lemma np2pi_near : Rabs (IZR 7074237752028440 / 2 ^ 50 - 2 * PI) <= / 2 ^ 51.
Proof.
  pose proof (PI_2_3_7_ineq 9) as [L U]. rewrite <- qsum_R in L, U.
  assert (A : Q2R (7074237752028440 # 1125899906842624) - Q2R (1 # 2251799813685248) <= 8 * Q2R (qsum (S (2 * 9)))).
  { replace 8 with (Q2R 8%Q) by (unfold Q2R; cbn; lra). rewrite <- Q2R_minus, <- Q2R_mult. apply Qle_Rle. vm_compute. discriminate. }
  assert (B : 8 * Q2R (qsum (2 * 9)) <= Q2R (7074237752028440 # 1125899906842624) + Q2R (1 # 2251799813685248)).
  { replace 8 with (Q2R 8%Q) by (unfold Q2R; cbn; lra). rewrite <- Q2R_plus, <- Q2R_mult. apply Qle_Rle. vm_compute. discriminate. }
  assert (E1 : Q2R (7074237752028440 # 1125899906842624) = IZR 7074237752028440 / 2 ^ 50) by (unfold Q2R; cbn [Qnum Qden]; lra).
  assert (E2 : Q2R (1 # 2251799813685248) = / 2 ^ 51) by (unfold Q2R; cbn [Qnum Qden]; lra).
  rewrite E1, E2 in A, B. apply Rabs_le. generalize dependent (Q2R (qsum (S (2 * 9)))). generalize dependent (Q2R (qsum (2 * 9))). intros. 
  generalize dependent (IZR 7074237752028440 / 2 ^ 50). generalize dependent (/ 2 ^ 51). intros. lra.
Qed.

Lemma np_2pi_near : near_2pi (S754_finite false 7074237752028440 (-50)).
Proof.
  split.
  - split; vm_compute; reflexivity.
  - replace (f64_val (S754_finite false 7074237752028440 (-50))) with (IZR 7074237752028440 / 2 ^ 50); [exact np2pi_near|].
    cbn [f64_val]. rewrite powerRZ_bpow. cbn. lra.
Qed.

(** ** A sine rounded to a multiple of 2^-52 *)
Definition sin64 (x : spec_float) : spec_float :=
  SFdiv 53 1024 (f64_of_Z (ZnearestE (sin (f64_val x) * 2 ^ 52))) (f64_of_Z (2 ^ 52)).
Lemma sin64_within : sin_within (/ 2 ^ 51) sin64.
Proof.
  intros x Fx. unfold sin64. set (s := sin (f64_val x)). assert (Bs : -1 <= s <= 1) by apply SIN_bound. set (m := ZnearestE (s * 2 ^ 52)).
  assert (Em : Rabs (IZR m - s * 2 ^ 52) <= / 2). { rewrite Rabs_minus_sym. apply Znearest_half. }
  assert (Bm : (Z.abs m <= 2 ^ 52)%Z).
  { apply Rabs_le_inv in Em. apply le_IZR. rewrite abs_IZR. change (IZR (2 ^ 52)) with 4503599627370496.
    assert (-4503599627370497 < m < 4503599627370497)%Z by (split; apply lt_IZR; lra). rewrite <- abs_IZR. apply IZR_le. lia. }
  destruct (f64_Z_exact m) as [Fm Vm]; [apply Z.le_trans with (2 ^ 52)%Z; [exact Bm|vm_compute; discriminate]|].
  destruct (f64_Z_exact (2 ^ 52)) as [Fd Vd]; [vm_compute; discriminate|].
  change (IZR (2 ^ 52)) with 4503599627370496 in Vd.
  apply IZR_le in Bm. rewrite abs_IZR in Bm. change (IZR (2 ^ 52)) with 4503599627370496 in Bm. apply Rabs_le_inv in Bm. apply Rabs_le_inv in Em.
  set (q := IZR m / 4503599627370496). assert (Bq : -1 <= q <= 1) by (unfold q; lra). assert (Eq : - / 2 ^ 53 <= q - s <= / 2 ^ 53) by (unfold q; lra).
  assert (Bq1 : Rabs q <= bpow radix2 0) by (apply Rabs_le; cbn; lra).
  destruct (f64_div (f64_of_Z m) (f64_of_Z (2 ^ 52)) Fm Fd) as [F V]; rewrite ?Vm, ?Vd; [lra|fold q; apply le_bpow_trans with 0%Z; [exact Bq1|lia]|].
  rewrite Vm, Vd in V. fold q in V. split; [exact F|]. rewrite V.
  assert (F1 : fmt 1) by (apply (fmt_Z 1); vm_compute; discriminate). split.
  - apply Rabs_le. split; [|apply frnd_le_fmt; [exact F1|lra]]. apply frnd_ge_fmt; [apply generic_format_opp; exact F1|lra].
  - pose proof (frnd_err q) as E. fold et in E. apply Rabs_le_inv in E. assert (Rabs q <= 1) by (apply Rabs_le; lra). pose proof uu_pos.
    assert (uu * Rabs q <= uu * 1) by (apply Rmult_le_compat_l; lra). pose proof et_small as T.
    assert (ET : et <= / 2 ^ 53) by (unfold et; replace (/ 2 ^ 53) with (bpow radix2 (-53)) by (cbn; lra); apply bpow_le; lia).
    replace (/ 2 ^ 51) with (4 * / 2 ^ 53) by lra. replace (/ 2 ^ 53) with uu in * by (unfold uu; lra).
    apply Rabs_le. clear - E Eq ET H1 H0 H. set (r := frnd q) in *. generalize dependent (uu * Rabs q). generalize dependent et. generalize dependent uu. intros.
    lra.
Qed.
