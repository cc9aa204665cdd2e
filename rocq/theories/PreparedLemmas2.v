(** Lemmas on soft clipping and m-sequence codes. *)
From Coq Require Import Reals ZArith List Bool Lia Lra Psatz.
From Coquelicot Require Import Complex.
From Verif Require Import Num Numpy AxisModel RelModel HeapModel Spec RLemmas AxisLemmas InterpLemmas VInst RelLemmas RelLemmas2 RelLemmas3
  FourierModel SweepModel SweepSpec SweepLemmas PreparedModel PreparedSpec LogLemmas PreparedLemmas.
Import ListNotations.
Local Open Scope R_scope.

(** *** powers *)
Lemma Rnat_of_INR n : Rnat_of (INR n) = Some n.
Proof.
  unfold Rnat_of. assert (E : Int_part (INR n) = Z.of_nat n).
  { apply Int_part_INR. }
  rewrite E, <- INR_IZR_INZ. destruct (Req_EM_T (INR n) (INR n)) as [_|H]; [|tauto].
  replace (Z.leb 0 (Z.of_nat n)) with true by (symmetry; apply Z.leb_le; lia). rewrite Nat2Z.id. reflexivity.
Qed.
Lemma Rpow_py_nat b n : Rpow_py b (INR n) = b ^ n.
Proof. unfold Rpow_py. rewrite Rnat_of_INR. reflexivity. Qed.
Lemma Rpow_py_1 b : Rpow_py b 1 = b.
Proof. change 1 with (INR 1). rewrite Rpow_py_nat. cbn. ring. Qed.
Lemma Rpow_py_4 b : Rpow_py b 4 = b ^ 4.
Proof. replace 4 with (INR 4) by (cbn; lra). apply Rpow_py_nat. Qed.
Lemma Rpow_unit b c : 0 < b <= 1 -> 0 <= c -> 0 < Rpow_py b c <= 1.
Proof.
  intros Hb Hc. unfold Rpow_py. destruct (Rnat_of c) as [n|].
  - split; [apply pow_lt; lra|]. clear Hc. induction n as [|n IH]; cbn [pow]; [lra|].
    assert (0 <= b ^ n) by (apply pow_le; lra). assert (b * b ^ n <= 1 * b ^ n) by (apply Rmult_le_compat_r; lra). lra.
  - unfold Rpower. split; [apply exp_pos|]. replace 1 with (exp 0) by apply exp_0.
    assert (Hl : ln b <= 0).
    { replace 0 with (ln 1) by apply ln_1. destruct (Req_EM_T b 1) as [->|Hn]; [lra|]. left. apply ln_increasing; lra. }
    assert (Hm : c * ln b <= 0) by (assert (c * ln b <= c * 0) by (apply Rmult_le_compat_l; lra); lra).
    destruct (Rle_lt_or_eq_dec _ _ Hm) as [Hlt| ->]; [left; apply exp_increasing; exact Hlt | right; reflexivity].
Qed.

(** *** soft clipping *)
(** the clipped amplitude *)
Lemma clip_row_eq limit percent c d F : 0 <= limit * percent ->
  clip_row limit percent c (d, F) =
  if Rleb (Rabs d) (limit * percent) then (d, F) else (d, Rpow_py (clipped limit percent (Rabs d) / Rabs d) c * F).
Proof.
  intros Hl. unfold clip_row, clipped. cbn [fst snd]. destruct (Rleb (Rabs d) (limit * percent)) eqn:E1; [reflexivity|].
  destruct (Rleb limit (Rabs d)); reflexivity.
Qed.

Lemma sin_diff u v : 0 <= u <= v -> v <= PI / 2 -> 0 <= sin v - sin u <= v - u.
Proof.
  intros [Hu Hv] Hp. pose proof PI_RGT_0 as Hpi. split.
  - assert (sin u <= sin v) by (apply sin_incr_1; lra). lra.
  - rewrite form4. assert (Hc : 0 <= cos ((v + u) / 2) <= 1).
    { split; [apply cos_ge_0; lra | apply COS_bound]. }
    assert (Hs : 0 <= sin ((v - u) / 2)) by (apply sin_ge_0; lra).
    assert (Hx : sin ((v - u) / 2) <= (v - u) / 2).
    { destruct (Req_EM_T v u) as [->|Hn]; [replace ((u - u) / 2) with 0 by lra; rewrite sin_0; lra|].
      left. apply sin_lt_x. lra. }
    assert (cos ((v + u) / 2) * sin ((v - u) / 2) <= 1 * sin ((v - u) / 2)) by (apply Rmult_le_compat_r; lra). lra.
Qed.
Lemma PI_gt_2 : 2 < PI. Proof. pose proof PI2_1. lra. Qed.
Section Clip.
Context (limit percent : R) (HL : 0 < limit) (HP : 0 <= percent <= 1).
Notation lin := (limit * percent).
Notation g := (clipped limit percent).
Notation h a := ((limit - lin) * sin (PI / 2 * (a - lin) / (limit - lin))).
Lemma lin_nonneg : 0 <= lin. Proof. apply Rmult_le_pos; lra. Qed.
Lemma lin_le : lin <= limit.
Proof. assert (limit * percent <= limit * 1) by (apply Rmult_le_compat_l; lra). lra. Qed.
Lemma h_diff a b : lin < limit -> lin <= a <= b -> b <= limit -> 0 <= h b - h a <= PI / 2 * (b - a).
Proof.
  intros Hs Hab Hb. pose proof PI_RGT_0 as Hpi. set (s := limit - lin). assert (Hsp : 0 < s) by (unfold s; lra).
  assert (E : forall x, PI / 2 * (x - lin) / s = PI / 2 * ((x - lin) / s)) by (intros; field; lra).
  rewrite !E. set (u := (a - lin) / s). set (v := (b - lin) / s).
  assert (Hu : 0 <= u) by (apply Rmult_le_pos; [lra | left; apply Rinv_0_lt_compat; lra]).
  assert (Huv : u <= v) by (apply Rmult_le_compat_r; [left; apply Rinv_0_lt_compat; lra | lra]).
  assert (Hv : v <= 1).
  { replace 1 with (s / s) by (field; lra). apply Rmult_le_compat_r; [left; apply Rinv_0_lt_compat; lra | unfold s; lra]. }
  assert (H1 : 0 <= PI / 2 * u) by (apply Rmult_le_pos; lra).
  assert (H2 : PI / 2 * u <= PI / 2 * v) by (apply Rmult_le_compat_l; lra).
  assert (H3 : PI / 2 * v <= PI / 2) by (replace (PI / 2) with (PI / 2 * 1) at 2 by lra; apply Rmult_le_compat_l; lra).
  destruct (sin_diff (PI / 2 * u) (PI / 2 * v) ltac:(lra) H3) as [HA HB].
  replace (s * sin (PI / 2 * v) - s * sin (PI / 2 * u)) with (s * (sin (PI / 2 * v) - sin (PI / 2 * u))) by ring.
  split; [apply Rmult_le_pos; lra|].
  apply Rle_trans with (s * (PI / 2 * v - PI / 2 * u)); [apply Rmult_le_compat_l; lra|].
  right. unfold v, u. field. lra.
Qed.
Lemma h_lin : lin < limit -> h lin = 0.
Proof. intros Hs. replace (PI / 2 * (lin - lin) / (limit - lin)) with 0 by (field; lra). rewrite sin_0. lra. Qed.
Lemma h_limit : lin < limit -> h limit = limit - lin.
Proof. intros Hs. replace (PI / 2 * (limit - lin) / (limit - lin)) with (PI / 2) by (field; lra). rewrite sin_PI2. lra. Qed.

Lemma g_cases a : 0 <= a ->
  (a <= lin /\ g a = a) \/ (lin < a /\ limit <= a /\ g a = limit) \/ (lin < a < limit /\ g a = lin + h a).
Proof.
  intros Ha. unfold clipped. cbv zeta. destruct (Rleb a lin) eqn:E1; rb; [left; lra|].
  destruct (Rleb limit a) eqn:E2; rb; [right; left; lra | right; right; split; [lra | reflexivity]].
Qed.
Lemma g_diff a b : 0 <= a <= b -> 0 <= g b - g a <= PI / 2 * (b - a).
Proof.
  intros [Ha Hab]. pose proof PI_gt_2 as Hpi. pose proof lin_le as Hll.
  assert (Hk : b - a <= PI / 2 * (b - a)).
  { replace (b - a) with (1 * (b - a)) at 1 by lra. apply Rmult_le_compat_r; lra. }
  assert (Hmul : forall x y, x <= y -> x <= PI / 2 * y -> True) by tauto.
  destruct (g_cases a Ha) as [[A1 ->]|[(A1 & A2 & ->)|[A1 ->]]];
  destruct (g_cases b ltac:(lra)) as [[B1 ->]|[(B1 & B2 & ->)|[B1 ->]]]; try lra.
  - pose proof (h_diff lin b ltac:(lra) ltac:(lra) ltac:(lra)) as [H1 H2]. rewrite h_lin in H1, H2 by lra.
    assert (E : PI / 2 * (b - a) = PI / 2 * (b - lin) + PI / 2 * (lin - a)) by ring.
    assert (E2 : 1 * (lin - a) <= PI / 2 * (lin - a)) by (apply Rmult_le_compat_r; lra). lra.
  - pose proof (h_diff a limit ltac:(lra) ltac:(lra) ltac:(lra)) as [H1 H2]. rewrite h_limit in H1, H2 by lra.
    assert (E2 : PI / 2 * (limit - a) <= PI / 2 * (b - a)) by (apply Rmult_le_compat_l; lra). lra.
  - pose proof (h_diff a b ltac:(lra) ltac:(lra) ltac:(lra)) as [H1 H2]. lra.
Qed.
Lemma g_zero : g 0 = 0.
Proof. destruct (g_cases 0 ltac:(lra)) as [[A1 ->]|[(A1 & A2 & ->)|[A1 ->]]]; pose proof lin_nonneg; lra. Qed.
(** in the transition the sine lies above the chord *)
Lemma sin_chord u : 0 < u < 1 -> u < sin (PI / 2 * u).
Proof.
  intros Hu. pose proof PI_RGT_0 as Hpi. set (x := PI / 2 * u).
  assert (Hx : 0 < x) by (apply Rmult_lt_0_compat; lra).
  assert (Hx2 : x < PI / 2) by (unfold x; replace (PI / 2) with (PI / 2 * 1) at 2 by lra; apply Rmult_lt_compat_l; lra).
  destruct (MVT_cor2 sin cos 0 x Hx) as (c1 & E1 & C1); [intros; apply derivable_pt_lim_sin|].
  destruct (MVT_cor2 sin cos x (PI / 2) Hx2) as (c2 & E2 & C2); [intros; apply derivable_pt_lim_sin|].
  rewrite sin_0 in E1. rewrite sin_PI2 in E2.
  assert (Hc : cos c2 < cos c1) by (apply cos_decreasing_1; lra).
  assert (F1 : sin x = cos c1 * x) by lra. assert (F2 : 1 - sin x = cos c2 * (PI / 2 - x)) by lra.
  (* cross-multiply the two slopes *)
  assert (G1 : sin x * (PI / 2 - x) - (1 - sin x) * x = (cos c1 - cos c2) * (x * (PI / 2 - x))) by (rewrite F2, F1 at 1; ring).
  assert (G2 : 0 < (cos c1 - cos c2) * (x * (PI / 2 - x))) by (apply Rmult_lt_0_compat; [lra | apply Rmult_lt_0_compat; lra]).
  assert (G3 : x < sin x * (PI / 2)) by lra.
  apply (Rmult_lt_reg_l (PI / 2)); [lra|]. fold x. lra.
Qed.
Lemma g_bounds a : 0 < a -> 0 < g a <= limit /\
  (lin < a < limit -> a < g a) /\ (limit < a -> g a < a) /\ (a <= lin \/ a = limit -> g a = a).
Proof.
  intros Ha. pose proof lin_nonneg as Hn. pose proof lin_le as Hll.
  destruct (g_cases a ltac:(lra)) as [[A1 ->]|[(A1 & A2 & ->)|[A1 ->]]]; [lra|repeat split; try lra|].
  set (s := limit - lin) in *. assert (Hs : 0 < s) by (unfold s; lra).
  assert (E : PI / 2 * (a - lin) / s = PI / 2 * ((a - lin) / s)) by (field; lra).
  assert (Hu : 0 < (a - lin) / s) by (apply Rmult_lt_0_compat; [lra | apply Rinv_0_lt_compat; exact Hs]).
  assert (Hu1 : (a - lin) / s < 1).
  { replace 1 with (s / s) by (field; lra). apply Rmult_lt_compat_r; [apply Rinv_0_lt_compat; exact Hs | unfold s; lra]. }
  pose proof (sin_chord _ (conj Hu Hu1)) as Hc. rewrite <- E in Hc.
  assert (Hm : a - lin < s * sin (PI / 2 * (a - lin) / s)).
  { apply (Rmult_lt_compat_l s) in Hc; [|exact Hs]. replace (s * ((a - lin) / s)) with (a - lin) in Hc by (field; lra). exact Hc. }
  pose proof (SIN_bound (PI / 2 * (a - lin) / s)) as [_ Hb].
  assert (Hm2 : s * sin (PI / 2 * (a - lin) / s) <= s * 1) by (apply Rmult_le_compat_l; lra).
  repeat split; unfold s in *; lra.
Qed.
(** factor applied to the force with coefficient 1 *)
Lemma clip_factor d F : exists k, clip_row limit percent 1 (d, F) = (d, k * F) /\
  0 < k /\ (k * Rabs d <= Rmax limit 0) /\ k * Rabs d = g (Rabs d) /\
  (Rabs d <= lin -> k = 1) /\ (lin < Rabs d < limit -> 1 < k) /\ (limit < Rabs d -> k < 1).
Proof.
  pose proof lin_nonneg as Hn. pose proof lin_le as Hll. rewrite clip_row_eq by exact Hn.
  rewrite Rmax_left by lra.
  destruct (Rleb (Rabs d) lin) eqn:E1; rb.
  - exists 1. rewrite Rmult_1_l. split; [reflexivity|]. split; [lra|].
    assert (Eg : g (Rabs d) = Rabs d).
    { destruct (g_cases (Rabs d) (Rabs_pos d)) as [[_ E]|[[? _]|[? _]]]; [exact E|lra|lra]. }
    rewrite Eg, Rmult_1_l. repeat split; lra.
  - assert (Ha : 0 < Rabs d) by lra. destruct (g_bounds (Rabs d) Ha) as (G1 & G2 & G3 & G4).
    exists (g (Rabs d) / Rabs d). rewrite Rpow_py_1. split; [reflexivity|].
    replace (g (Rabs d) / Rabs d * Rabs d) with (g (Rabs d)) by (field; lra).
    split; [apply Rmult_lt_0_compat; [lra | apply Rinv_0_lt_compat; exact Ha]|].
    split; [lra|]. split; [reflexivity|]. split; [intros; lra|].
    split; intros Hx; apply (Rmult_lt_reg_r (Rabs d)); try exact Ha; unfold Rdiv; rewrite Rmult_assoc, Rinv_l by lra; [pose proof (G2 Hx)|pose proof (G3 Hx)]; lra.
Qed.
End Clip.

(** *** m-sequence codes *)
Lemma register_len taps n st : st <> [] -> length (shift_register taps n st) = n.
Proof.
  revert st; induction n as [|n IH]; intros st H; [reflexivity|]. destruct st as [|b t]; [tauto|].
  cbn [shift_register length]. f_equal. apply IH. destruct t; discriminate.
Qed.
Lemma random_len rnd n : length (random_start rnd n) = n.
Proof. unfold random_start. rewrite map_length. apply seq_length. Qed.
Lemma nonzero_ok s : s <> [] -> exists st, nonzero_start s = Ok st /\ length st = length s /\ forallb (Z.eqb 0) st = false.
Proof.
  intros H. unfold nonzero_start. destruct (forallb (Z.eqb 0) s) eqn:E.
  - destruct s as [|a t]; [tauto|]. exists (1%Z :: t). repeat split.
  - exists s. repeat split. exact E.
Qed.
Lemma mls_ok taps st : (2 <= length st <= 32)%nat -> forallb (Z.eqb 0) st = false ->
  exists m, max_len_seq taps (length st) st = Ok m /\ length m = (2 ^ length st - 1)%nat.
Proof.
  intros Hl Hz. unfold max_len_seq. replace (Nat.ltb (length st) 2) with false by (symmetry; apply Nat.ltb_ge; lia).
  replace (Nat.ltb 32 (length st)) with false by (symmetry; apply Nat.ltb_ge; lia). cbn [orb].
  rewrite Nat.eqb_refl, Hz. cbn [negb orb]. eexists. split; [reflexivity|]. apply register_len.
  destruct st; [cbn in Hl; lia | discriminate].
Qed.
Lemma mls_few taps nbits st : (nbits < 2 \/ 32 < nbits)%nat -> max_len_seq taps nbits st = Err EValue.
Proof.
  intros H. unfold max_len_seq. replace (Nat.ltb nbits 2 || Nat.ltb 32 nbits) with true; [reflexivity|].
  symmetry. apply orb_true_iff. destruct H; [left|right]; apply Nat.ltb_lt; lia.
Qed.
Lemma pow2_Z k : Z.of_nat (2 ^ k) = (2 ^ Z.of_nat k)%Z.
Proof. rewrite Nat2Z.inj_pow. reflexivity. Qed.
Lemma pow2_pos k : (1 <= 2 ^ k)%nat.
Proof. pose proof (Nat.pow_nonzero 2 k). lia. Qed.

(** number of bits for [m] *)
Definition bits (clog : Z -> Z) (m : Z) : nat := Z.to_nat (clog m).
Lemma bits_spec clog m : rounded_log clog -> (3 <= m <= 2 ^ 32)%Z -> (m = 2 ^ 32 -> clog m = 32)%Z ->
  (2 <= bits clog m <= 32)%nat /\ Z.of_nat (bits clog m) = clog m /\
  (2 ^ (Z.of_nat (bits clog m) - 1) <= m <= 2 ^ Z.of_nat (bits clog m))%Z.
Proof.
  intros R H H32. unfold bits.
  pose proof (Z.log2_up_spec m ltac:(lia)) as Hs. rewrite <- Z.sub_1_r in Hs.
  pose proof (Z.log2_up_le_mono m (2 ^ 32) ltac:(lia)) as Hm. rewrite Z.log2_up_pow2 in Hm by lia.
  pose proof (Z.log2_up_le_mono 3 m ltac:(lia)) as Hm2. change (Z.log2_up 3) with 2%Z in Hm2.
  set (k := Z.log2_up m) in *.
  destruct (clog_between clog m k R ltac:(lia) Hs) as [E|[E1 E]]; rewrite E.
  - rewrite Z2Nat.id by lia. split; [lia|]. split; [reflexivity|lia].
  - assert (k <> 32)%Z. { intros ->. specialize (H32 E1). lia. }
    rewrite Z2Nat.id by lia. split; [lia|]. split; [reflexivity|]. replace (k + 1 - 1)%Z with k by lia.
    rewrite Z.pow_add_r by lia. change (2 ^ 1)%Z with 2%Z. lia.
Qed.
Lemma bits_big clog m : rounded_log clog -> (2 ^ 32 < m)%Z -> (32 < bits clog m)%nat.
Proof. intros R H. unfold bits. pose proof (clog_big clog m R H). lia. Qed.
(** exactly [m] when [m] is a power of two, unless the logarithm was rounded up *)
Lemma bits_pow clog m k : rounded_log clog -> (1 <= k <= 32)%Z -> m = (2 ^ k)%Z -> (clog m = k \/ clog m = k + 1)%Z.
Proof.
  intros R Hk ->. destruct (clog_between clog (2 ^ k) k R ltac:(lia)) as [E|[_ E]]; auto.
  split; [apply Z.pow_lt_mono_r; lia | lia].
Qed.

Lemma code_full clog taps rnd L : rounded_log clog -> (4 <= L <= 2 ^ 32 + 1)%Z -> (L - 1 = 2 ^ 32 -> clog (L - 1) = 32)%Z ->
  exists m, get_m_sequence_code clog taps rnd L true = Ok m /\ length m = (2 ^ bits clog (L - 1) - 1)%nat /\
    get_m_sequence_code clog taps rnd L false = Ok (firstn (Z.to_nat (L - 1)) m).
Proof.
  intros R HL H32. pose proof (bits_spec clog (L - 1) R ltac:(lia) H32) as [Hb _].
  unfold get_m_sequence_code, log2_ceil. replace (L - 1 <=? 0)%Z with false by (symmetry; apply Z.leb_gt; lia).
  cbn [bind]. fold (bits clog (L - 1)).
  destruct (nonzero_ok (random_start rnd (bits clog (L - 1)))) as (st & -> & Hl & Hz).
  { intros E. pose proof (random_len rnd (bits clog (L - 1))) as H. rewrite E in H. cbn in H. lia. }
  rewrite random_len in Hl. cbn [bind].
  destruct (mls_ok taps st ltac:(lia) Hz) as (m & Em & Hm). rewrite Hl in Em, Hm. rewrite Em. cbn [bind].
  exists m. repeat split. exact Hm.
Qed.
Lemma code_length clog taps rnd L : rounded_log clog -> (4 <= L <= 2 ^ 32 + 1)%Z -> (L - 1 = 2 ^ 32 -> clog (L - 1) = 32)%Z ->
  exists c, get_m_sequence_code clog taps rnd L false = Ok c /\
    (~ power_of_two (L - 1) -> Z.of_nat (length c) = (L - 1)%Z) /\
    (forall k, (0 <= k)%Z -> (L - 1 = 2 ^ k)%Z ->
       (clog (L - 1) = k /\ Z.of_nat (length c) = L - 2)%Z \/ (clog (L - 1) = k + 1 /\ Z.of_nat (length c) = L - 1)%Z).
Proof.
  intros R HL H32. destruct (code_full clog taps rnd L R HL H32) as (m & _ & Hm & E). eexists. split; [exact E|].
  pose proof (bits_spec clog (L - 1) R ltac:(lia) H32) as (Hb & Hc & Hs).
  assert (Hz : Z.of_nat (length m) = (2 ^ Z.of_nat (bits clog (L - 1)) - 1)%Z).
  { rewrite Hm. rewrite Nat2Z.inj_sub by apply pow2_pos. rewrite pow2_Z. reflexivity. }
  rewrite firstn_length. rewrite Hc in *. split.
  - intros H. assert (L - 1 <> 2 ^ clog (L - 1))%Z by (intros E1; apply H; exists (clog (L - 1)%Z); split; [lia|exact E1]). lia.
  - intros k Hk Ek. assert (1 <= k)%Z. { destruct (Z.eq_dec k 0) as [->|]; [change (2 ^ 0)%Z with 1%Z in Ek; lia|lia]. }
    assert (k <= 32)%Z. { apply Z.nlt_ge. intros X. pose proof (Z.pow_lt_mono_r 2 32 k ltac:(lia) ltac:(lia) X). lia. }
    destruct (bits_pow clog (L - 1) k R ltac:(lia) Ek) as [E1|E1]; [left|right]; (split; [exact E1|]); rewrite E1 in Hz.
    + lia.
    + rewrite Z.pow_add_r in Hz by lia. change (2 ^ 1)%Z with 2%Z in Hz. lia.
Qed.
Lemma code_raises clog taps rnd L full : rounded_log clog -> (L < 4 \/ 2 ^ 32 + 1 < L \/ (L - 1 = 2 ^ 32 /\ clog (L - 1) <> 32))%Z ->
  exists e, get_m_sequence_code clog taps rnd L full = Err e /\ (e = EIndex <-> L = 2%Z) /\ (e = EValue <-> L <> 2%Z).
Proof.
  intros R H. unfold get_m_sequence_code, log2_ceil. destruct (Z.leb_spec (L - 1) 0) as [H0|H0].
  { exists EValue. cbn [bind]. split; [reflexivity|]. split; split; intros; try discriminate; try lia; reflexivity. }
  cbn [bind]. fold (bits clog (L - 1)). destruct (Z.eq_dec L 2) as [->|H2].
  { exists EIndex. unfold bits. change (2 - 1)%Z with 1%Z. rewrite (clog_one clog R). cbn. split; [reflexivity|]. split; split; intros; try discriminate; try tauto; lia. }
  assert (Hb : (bits clog (L - 1) < 2 \/ 32 < bits clog (L - 1))%nat /\ (0 < bits clog (L - 1))%nat).
  { destruct H as [H|[H|[H H']]].
    - assert (L = 3)%Z as -> by lia. unfold bits. change (3 - 1)%Z with 2%Z. rewrite (proj1 R). cbn. lia.
    - pose proof (bits_big clog (L - 1) R ltac:(lia)). lia.
    - unfold bits. destruct (bits_pow clog (L - 1) 32 R ltac:(lia) H) as [E|E]; [contradiction|rewrite E; cbn; lia]. }
  destruct (nonzero_ok (random_start rnd (bits clog (L - 1)))) as (st & -> & Hl & Hz).
  { intros E. pose proof (random_len rnd (bits clog (L - 1))) as Hr. rewrite E in Hr. cbn in Hr. lia. }
  cbn [bind]. rewrite (mls_few taps _ st (proj1 Hb)). exists EValue. cbn [bind]. split; [reflexivity|]. split; split; intros; try discriminate; tauto.
Qed.

Section RelationCode.
Context (A : Arith) (V : Vals A) (cfg : config A V) (clog : Z -> Z) (taps : nat -> list nat) (rnd : nat -> bool).
(** the start state in use and the bits that come out of it *)
Lemma relation_code_eq (t : axis A) (n : nat) start full st : axis_size A t = Ok n -> (2 <= n)%nat ->
  st = (match start with Some s => s | None => random_start rnd (bits clog (Z.of_nat n - 1)) end) ->
  (2 <= length st <= 32)%nat ->
  exists m, length m = (2 ^ length st - 1)%nat /\
  (exists st', nonzero_start st = Ok st' /\ length st' = length st /\ max_len_seq taps (length st) st' = Ok m) /\
  get_relation_m_sequence A V cfg clog taps rnd (inl t) start full =
  if full then rel_make A V (mkAxis (n_of_Z A 0) (n_mul A (a_sample t) (n_of_Z A (Z.of_nat (length m) - 1))) (a_sample t)) (map (bit_val A V) m)
  else rel_make A V t (map (bit_val A V) (firstn n m)).
Proof.
  intros Hn H2 Est Hl. unfold get_relation_m_sequence. cbn [bind]. rewrite Hn. cbn [bind]. unfold log2_ceil.
  replace (Z.of_nat n - 1 <=? 0)%Z with false by (symmetry; apply Z.leb_gt; lia). cbn [bind]. fold (bits clog (Z.of_nat n - 1)).
  rewrite <- Est. destruct (nonzero_ok st) as (st' & E & Hl' & Hz); [destruct st; [cbn in Hl; lia | discriminate]|].
  destruct (mls_ok taps st' ltac:(lia) Hz) as (m & Em & Hm). exists m. rewrite Hl' in Hm. split; [exact Hm|].
  split; [exists st'; rewrite <- Hl' at 2; repeat split; assumption|].
  rewrite E. cbn [bind]. rewrite Em. reflexivity.
Qed.
Lemma relation_code_size (t : axis A) (n : nat) start st : axis_size A t = Ok n -> (2 <= n)%nat ->
  st = (match start with Some s => s | None => random_start rnd (bits clog (Z.of_nat n - 1)) end) ->
  (2 <= length st <= 32)%nat ->
  ((2 ^ length st <= n)%nat -> get_relation_m_sequence A V cfg clog taps rnd (inl t) start false = Err (ENotEqual n (2 ^ length st - 1))) /\
  ((n < 2 ^ length st)%nat -> exists r, get_relation_m_sequence A V cfg clog taps rnd (inl t) start false = Ok r /\ r_x r = t /\ length (r_y r) = n).
Proof.
  intros Hn H2 Est Hl. destruct (relation_code_eq t n start false st Hn H2 Est Hl) as (m & Hm & _ & ->).
  pose proof (pow2_pos (length st)) as Hp.
  assert (Ha : exists arr, axis_array A t = Ok arr /\ length arr = n).
  { unfold axis_array. rewrite Hn. eexists. split; [reflexivity|]. apply linspace_length. }
  destruct Ha as (arr & Ea & La). split; intros Hx.
  - apply rel_make_err. right. exists arr. rewrite map_length, firstn_length, Hm, La.
    replace (Nat.min n (2 ^ length st - 1)) with (2 ^ length st - 1)%nat by lia. repeat split; [exact Ea | lia].
  - eexists. split; [apply rel_make_iff; split; [reflexivity|]; exists arr; split; [exact Ea|]; rewrite map_length, firstn_length; lia|].
    cbn [r_x r_y]. split; [reflexivity|]. rewrite map_length, firstn_length. lia.
Qed.
End RelationCode.

Lemma nat_power_of_two n : power_of_two (Z.of_nat n) <-> exists k, n = (2 ^ k)%nat.
Proof.
  split.
  - intros (k & Hk & E). exists (Z.to_nat k). apply Nat2Z.inj. rewrite pow2_Z, Z2Nat.id by exact Hk. exact E.
  - intros (k & ->). exists (Z.of_nat k). split; [lia | apply pow2_Z].
Qed.
Lemma bits_between clog n : rounded_log clog -> (4 <= n)%nat -> (Z.of_nat n <= 2 ^ 32 + 1)%Z -> (Z.of_nat n - 1 = 2 ^ 32 -> clog (Z.of_nat n - 1) = 32)%Z ->
  ((2 ^ bits clog (Z.of_nat n - 1) <= n)%nat <-> exists k, n = (2 ^ k)%nat \/ (n = (2 ^ k + 1)%nat /\ clog (Z.of_nat n - 1)%Z = Z.of_nat k)).
Proof.
  intros R H4 Hb H32. pose proof (bits_spec clog (Z.of_nat n - 1) R ltac:(lia) H32) as (Hk & Hc & Hlo & Hhi).
  set (k := bits clog (Z.of_nat n - 1)) in *.
  assert (Hp : (2 ^ Z.of_nat k = 2 * 2 ^ (Z.of_nat k - 1))%Z).
  { replace (Z.of_nat k) with (Z.succ (Z.of_nat k - 1)) at 1 by lia. rewrite Z.pow_succ_r by lia. reflexivity. }
  split.
  - intros H. exists k. assert (Z.of_nat (2 ^ k) <= Z.of_nat n)%Z by lia. rewrite pow2_Z in H0.
    assert (Z.of_nat n = 2 ^ Z.of_nat k \/ Z.of_nat n = 2 ^ Z.of_nat k + 1)%Z as [E|E] by lia; rewrite <- pow2_Z in E; [left; lia|right].
    split; [lia|symmetry; exact Hc].
  - intros (j & [Hj|[Hj Ej]]); [|assert (j = k) by lia; subst j; lia].
    apply Nat2Z.inj_le. rewrite pow2_Z.
    assert (Hj2 : (Z.of_nat n = 2 ^ Z.of_nat j)%Z) by (rewrite <- pow2_Z; lia).
    destruct (Z.le_gt_cases (Z.of_nat k) (Z.of_nat j)) as [Hkj|Hkj].
    + pose proof (Z.pow_le_mono_r 2 (Z.of_nat k) (Z.of_nat j) ltac:(lia) Hkj). lia.
    + (* n - 1 = 2^j - 1 is no power of two, so j bits are enough *)
      exfalso.
      assert (Hj2' : (2 <= Z.of_nat j)%Z).
      { apply Z.nlt_ge. intros X. pose proof (Z.pow_le_mono_r 2 (Z.of_nat j) 1 ltac:(lia) ltac:(lia)). change (2 ^ 1)%Z with 2%Z in *. lia. }
      assert (Hpj : (2 ^ Z.of_nat j = 2 * 2 ^ (Z.of_nat j - 1))%Z).
      { replace (Z.of_nat j) with (Z.succ (Z.of_nat j - 1)) at 1 by lia. rewrite Z.pow_succ_r by lia. reflexivity. }
      pose proof (Z.pow_le_mono_r 2 1 (Z.of_nat j - 1) ltac:(lia) ltac:(lia)) as Hq. change (2 ^ 1)%Z with 2%Z in Hq.
      destruct (clog_between clog (Z.of_nat n - 1) (Z.of_nat j) R ltac:(lia) ltac:(lia)) as [E|[E _]]; lia.
Qed.
(** with [is_full] in exact arithmetic *)
Lemma relation_code_full (V : Vals RA) (cfg : config RA V) clog taps rnd (t : axis RA) n start st :
  axis_size RA t = Ok n -> (2 <= n)%nat ->
  st = (match start with Some s => s | None => random_start rnd (bits clog (Z.of_nat n - 1)) end) ->
  (2 <= length st <= 32)%nat ->
  exists r, get_relation_m_sequence RA V cfg clog taps rnd (inl t) start true = Ok r /\
    length (r_y r) = (2 ^ length st - 1)%nat /\
    axis_array RA (r_x r) = Ok (arith_seq 0 (a_sample t) (2 ^ length st - 1)).
Proof.
  intros Hn H2 Est Hl. destruct (relation_code_eq RA V cfg clog taps rnd t n start true st Hn H2 Est Hl) as (m & Hm & _ & ->).
  assert (Hz : a_sample t <> 0) by (intros E; rewrite axis_size_zero in Hn by exact E; discriminate).
  assert (Hp : (4 <= 2 ^ length st)%nat).
  { replace (length st) with (S (S (length st - 2))) by lia. cbn [Nat.pow]. pose proof (pow2_pos (length st - 2)). lia. }
  set (k := (2 ^ length st - 1)%nat) in *.
  set (x := mkAxis (A:=RA) 0 (a_sample t * IZR (Z.of_nat (length m) - 1)) (a_sample t)).
  assert (Ex : x = mkAxis (A:=RA) 0 (0 + INR (k - 1) * a_sample t) (a_sample t)).
  { unfold x. f_equal. rewrite Hm. replace (Z.of_nat k - 1)%Z with (Z.of_nat (k - 1)) by lia. rewrite <- INR_IZR_INZ. reqq. ring. }
  assert (Hs : axis_size RA x = Ok k) by (rewrite Ex; apply size_exact_any; [lia | exact Hz]).
  exists (mkRel x (map (bit_val RA V) m)). split.
  - change (rel_make RA V x (map (bit_val RA V) m) = Ok (mkRel x (map (bit_val RA V) m))).
    apply rel_make_iff. split; [reflexivity|]. eexists. split; [apply axis_array_size; exact Hs|]. rewrite grid_length, map_length. lia.
  - cbn [r_x r_y]. rewrite map_length. split; [exact Hm|]. rewrite (axis_array_size _ _ Hs). f_equal. rewrite Ex. cbn [a_start a_end].
    apply grid_arith. lia.
Qed.
(** only zero or non-zero matters in a given start sequence *)
Lemma relation_code_bool (A : Arith) (V : Vals A) cfg clog taps rnd t s1 s2 full :
  map (Z.eqb 0) s1 = map (Z.eqb 0) s2 ->
  get_relation_m_sequence A V cfg clog taps rnd t (Some s1) full = get_relation_m_sequence A V cfg clog taps rnd t (Some s2) full.
Proof.
  intros H. unfold get_relation_m_sequence. destruct (match t with inl a => Ok a | inr s => axis_of_array A s true end) as [x|e]; [cbn [bind]|reflexivity].
  destruct (axis_size A x) as [n|e]; [cbn [bind]|reflexivity]. destruct (log2_ceil clog (Z.of_nat n - 1)) as [k|e]; [cbn [bind]|reflexivity].
  assert (Hf : forall l m, map (Z.eqb 0) l = map (Z.eqb 0) m -> forallb (Z.eqb 0) l = forallb (Z.eqb 0) m).
  { induction l as [|a l IH]; intros [|b m] E; try discriminate; [reflexivity|]. cbn in *. injection E as E1 E2. rewrite E1, (IH m E2). reflexivity. }
  assert (Hl : length s1 = length s2) by (apply (f_equal (@length bool)) in H; rewrite !map_length in H; exact H).
  assert (Hstep : match nonzero_start s1, nonzero_start s2 with
                  | Ok a, Ok b => map (Z.eqb 0) a = map (Z.eqb 0) b | Err a, Err b => a = b | _, _ => False end).
  { unfold nonzero_start. rewrite (Hf s1 s2 H). destruct (forallb (Z.eqb 0) s2).
    - destruct s1 as [|a l], s2 as [|b m]; try discriminate; [reflexivity|]. cbn in *. injection H as _ H. f_equal. exact H.
    - exact H. }
  destruct (nonzero_start s1) as [a|e], (nonzero_start s2) as [b|e']; cbn [bind]; try tauto; [|subst; reflexivity].
  assert (Hab : length a = length b) by (apply (f_equal (@length bool)) in Hstep; rewrite !map_length in Hstep; exact Hstep).
  assert (Em : max_len_seq taps (length a) a = max_len_seq taps (length b) b).
  { unfold max_len_seq. rewrite Hab, (Hf a b Hstep).
    replace (map (fun z => negb (Z.eqb z 0)) a) with (map (fun z => negb (Z.eqb z 0)) b); [reflexivity|].
    clear -Hstep. revert b Hstep; induction a as [|x a IH]; intros [|y b] H; try discriminate; [reflexivity|].
    cbn [map] in *. assert (E1 : Z.eqb 0 x = Z.eqb 0 y) by (apply (f_equal (hd true)) in H; exact H).
    assert (E2 : map (Z.eqb 0) a = map (Z.eqb 0) b) by (apply (f_equal (@tl bool)) in H; exact H).
    rewrite (Z.eqb_sym x 0), (Z.eqb_sym y 0), E1, (IH b E2). reflexivity. }
  rewrite Em. reflexivity.
Qed.
