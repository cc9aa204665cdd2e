(** Proofs for C86, continued: integrate and interpolation in binary64. *)
From Coq Require Import Reals ZArith List Bool Lia Lra Psatz SpecFloat.
From Flocq Require Import Core.Core IEEE754.BinarySingleNaN.
From Verif Require Import Num Numpy Spec AxisModel RelModel RLemmas AxisLemmas InterpLemmas RelLemmas RelLemmas2 FloatSpec FloatLemmas FloatLemmas2 FloatLemmas3 FloatLemmas4 CalcSpec FloatLemmas5.
Import ListNotations.
Local Open Scope R_scope.

Lemma two52 : / 2 ^ 52 = 2 * uu. Proof. unfold uu. lra. Qed.
Lemma two49 : / 2 ^ 49 = 16 * uu. Proof. unfold uu. lra. Qed.
Lemma p_et k : powerRZ 2 (-1075 + k) = bpow radix2 k * et.
Proof. rewrite powerRZ_bpow, bpow_plus. unfold et. ring. Qed.

(** ** [integrate] of a whole relation *)
Lemma f64_integrate_rel s e d m (y : list spec_float) : f64_forward s e d (m + 1) -> length y = (m + 2)%nat -> Forall f64_ordinary y ->
  exists s' z xs, rel_integrate FA FV (default_config FA FV) (mkRel (A:=FA) (V:=FV) (mkAxis (A:=FA) s e d) y) =
      Ok (mkRel (A:=FA) (V:=FV) (mkAxis (A:=FA) s' e d) z) /\
    length z = (m + 1)%nat /\ axis_array FA (mkAxis (A:=FA) s' e d) = Ok xs /\ length xs = (m + 1)%nat /\
    (forall i x, nth_error xs i = Some x -> f64_fin x /\
      Rabs (f64_val x - grid_pt (f64_val s + f64_val d) (f64_val e) (m + 1) i)
        <= / 2 ^ 48 * (Rmax (Rabs (f64_val s)) (Rabs (f64_val e)) + f64_val d)) /\
    (forall k w, nth_error z k = Some w -> f64_fin w /\
      Rabs (f64_val w - f64_val d * upto (mean (vals y)) k)
        <= (INR k + 3) / 2 ^ 52 * (f64_val d * upto (fun i => Rabs (mean (vals y) i)) k) + (INR k + 2) * (f64_val d + 1) * powerRZ 2 (-1074)).
Proof.
  intros HF Ly Oy. pose proof HF as (HT & Bd & SE). rewrite !powerRZ_bpow in Bd. pose proof HT as (Fs & Fe & Fd & _ & B1 & B2 & _).
  pose proof (fwd_D s e d m HF) as PD. pose proof (fwd_K s e d m HF) as (K1 & K2 & K3 & K4 & K5).
  pose proof (tame_n _ _ _ _ HT) as Tn.
  set (D := f64_val d) in *. set (S0 := f64_val s) in *. set (E := f64_val e) in *. set (K := Rmax (Rabs S0) (Rabs E) + D) in *.
  pose proof uu_pos as U. pose proof uu_small as US. assert (UD : uu * D <= uu * K) by (apply Rmult_le_compat_l; lra).
  assert (PUD : 0 <= uu * D) by (apply Rmult_le_pos; lra).
  assert (BK : 2 * K <= bpow radix2 1000).
  { apply Rle_trans with (bpow radix2 48 * bpow radix2 300); [|rewrite <- bpow_plus; apply bpow_le; lia].
    apply Rle_trans with (2 ^ 48 * D); [lra|]. replace (bpow radix2 48) with (2 ^ 48) by (cbn; lra). apply Rmult_le_compat_l; lra. }
  pose proof (Rabs_triang S0 D) as T0. rewrite (Rabs_right D) in T0 by lra.
  destruct (add_ok s d Fs Fd) as [Fs' Es']; fold S0 D; [lra|].
  set (s' := SFadd 53 1024 s d) in *. fold S0 D in Es'.
  assert (RS : Rabs (f64_val s' - (S0 + D)) <= 4 * (uu * K)).
  { eapply Rle_trans; [exact Es'|]. assert (uu * Rabs (S0 + D) <= uu * (2 * K)) by (apply Rmult_le_compat_l; lra). lra. }
  assert (RE : Rabs (f64_val e - (E - 0)) <= 4 * (uu * K)).
  { fold E. replace (E - (E - 0)) with 0 by ring. rewrite Rabs_R0. lra. }
  pose proof (trimmed_axis s e d m HF s' e D 0 Fs' Fe ltac:(lra) ltac:(lra) ltac:(fold D; lra) RS RE) as HA.
  destruct (trimmed_points s e d m HF s' e D 0 Fs' Fe ltac:(lra) ltac:(lra) ltac:(fold D; lra) RS RE) as (xs & X & L & P).
  fold S0 E D in P. rewrite Rminus_0_r in P.
  set (c := cumul (SFadd 53 1024) (diffs (fun b a => SFdiv 53 1024 (SFadd 53 1024 b a) (n_of_Z FA 2)) y)).
  set (z := map (fun v => SFmul 53 1024 v d) c).
  assert (Lz : length z = (m + 1)%nat) by (unfold z, c; rewrite map_length, cumul_len, diffs_len; lia).
  exists s', z, xs. split.
  { unfold rel_integrate, default_config, integrate_default, cum_trapz. cbn [c_integrate bind fst snd r_x r_y a_start a_end a_sample set_start set_end].
    unfold set_start. cbn [a_start a_end a_sample].
    change (map _ _) with z. change (n_add FA s d) with s'.
    unfold rel_make. rewrite (proj1 (f64_size _ _ _ _ HA)). cbn [bind].
    change (@length (val FV) z) with (@length spec_float z). rewrite Lz, Nat.eqb_refl. reflexivity. }
  split; [exact Lz|]. split; [exact X|]. split; [exact L|]. split; [exact P|].
  intros k w Hw. unfold z in Hw. rewrite nth_error_map in Hw. destruct (nth_error c k) as [v|] eqn:G; [|discriminate]. injection Hw as <-.
  assert (Ly48 : INR (length y) <= 2 ^ 48). { rewrite Ly. replace (m + 2)%nat with (m + 1 + 1)%nat by lia. rewrite plus_INR. cbn [INR]. lra. }
  destruct (running y Oy Ly48 k v G) as (Fv & Ev & BA & Hk).
  set (A := upto (fun i => Rabs (mean (vals y) i)) k) in *. set (T := upto (mean (vals y)) k) in *.
  assert (PA : 0 <= A) by (apply upto_nonneg; intros; apply Rabs_pos). pose proof (pos_INR k) as Pk. pose proof et_pos as TP. pose proof et_small as TS.
  assert (Hk48 : INR k <= 2 ^ 48) by (eapply Rle_trans; [|exact Ly48]; apply le_INR; lia).
  assert (Ku : (3 + 2 * INR k) * uu <= / 8) by (unfold uu; lra).
  assert (KA : (3 + 2 * INR k) * uu * A <= / 8 * A) by (apply Rmult_le_compat_r; lra).
  pose proof (upto_abs (mean (vals y)) k) as TA. fold A T in TA.
  pose proof (near_abs _ _ _ Ev) as Bv. rewrite <- Rmult_assoc in Bv.
  assert (Bv2 : Rabs (f64_val v) <= 9 / 8 * A + (2 * INR k + 2) * et) by lra.
  assert (Te : (2 * INR k + 2) * et <= 1).
  { apply Rle_trans with ((2 * INR k + 2) * (uu / 16)); [apply Rmult_le_compat_l; lra|]. unfold uu. lra. }
  destruct (mul_ok v d Fv Fd) as [Fz Ez].
  { fold D. apply le_bpow_trans with (350 + 300)%Z; [|lia]. apply le_bpow_mul; [|rewrite Rabs_right by lra; lra].
    eapply Rle_trans; [exact Bv2|]. change 350%Z with (2 + 348)%Z. rewrite bpow_plus. change (bpow radix2 2) with 4.
    assert (1 <= bpow radix2 348) by (change 1 with (bpow radix2 0); apply bpow_le; lia). lra. }
  fold D in Ez. split; [exact Fz|]. pose proof (near_mult _ _ D _ Ev) as Em. rewrite (Rabs_right D) in Em by lra. rewrite (Rmult_comm D T).
  eapply Rle_trans; [apply (near_trans _ _ _ _ _ Ez Em)|].
  rewrite Rabs_mult, (Rabs_right D) by lra.
  assert (PDA : 0 <= uu * (D * A)) by (repeat apply Rmult_le_pos; lra).
  assert (PDe : 0 <= D * et) by (apply Rmult_le_pos; lra).
  assert (X1 : uu * (Rabs (f64_val v) * D) <= uu * ((9 / 8 * A + (2 * INR k + 2) * et) * D)).
  { apply Rmult_le_compat_l; [lra|]. apply Rmult_le_compat_r; lra. }
  assert (X2 : ((2 * INR k + 2) * uu) * (D * et) <= / 8 * (D * et)) by (apply Rmult_le_compat_r; lra).
  assert (X3 : 0 <= INR k * (D * et)) by (apply Rmult_le_pos; lra). assert (X4 : 0 <= INR k * et) by (apply Rmult_le_pos; lra).
  change (-1074)%Z with (-1075 + 1)%Z. rewrite p_et. change (bpow radix2 1) with 2.
  unfold Rdiv. rewrite two52. assert (X5 : 0 <= INR k * (uu * (D * A))) by (apply Rmult_le_pos; lra).
  lra.
Qed.

(** ** one interpolated value *)
Lemma factor x' x : Rabs (x' - x) <= uu * Rabs x -> exists a, Rabs a <= uu /\ x' = x * (1 + a).
Proof.
  intros H. destruct (Req_dec x 0) as [->|N].
  - exists 0. rewrite Rabs_R0 in *. pose proof uu_pos. split; [lra|]. rewrite Rmult_0_r, Rminus_0_r in H. rewrite Rmult_0_l.
    destruct (Req_dec x' 0) as [->|N]; [reflexivity|]. apply Rabs_pos_lt in N. lra.
  - exists ((x' - x) / x). split; [|field; exact N]. rewrite div_abs. apply Rmult_le_reg_r with (Rabs x); [apply Rabs_pos_lt; exact N|].
    unfold Rdiv. rewrite Rmult_assoc, Rinv_l by (apply Rabs_no_R0; exact N). lra.
Qed.
Lemma factor_et x' x : Rabs (x' - x) <= uu * Rabs x + et -> exists a t, Rabs a <= uu /\ Rabs t <= et /\ x' = x * (1 + a) + t.
Proof.
  intros H. pose proof uu_pos as U. pose proof et_pos as T. pose proof (Rabs_pos x) as Px. assert (PU : 0 <= uu * Rabs x) by (apply Rmult_le_pos; lra).
  destruct (Rle_or_lt (Rabs (x' - x)) et) as [L|L].
  - exists 0, (x' - x). rewrite Rabs_R0. repeat split; try lra.
  - assert (exists t, Rabs t <= et /\ Rabs (x' - t - x) <= uu * Rabs x) as (t & Ht & Hx).
    { destruct (Rle_or_lt 0 (x' - x)) as [S|S].
      - exists et. rewrite Rabs_right in H, L by lra. rewrite (Rabs_right et) by lra. split; [lra|]. rewrite Rabs_right by lra. lra.
      - exists (- et). rewrite Rabs_left in H, L by lra. rewrite Rabs_Ropp, (Rabs_right et) by lra. split; [lra|]. rewrite Rabs_left by lra. lra. }
    apply factor in Hx as (a & Ha & E). exists a, t. repeat split; try assumption. lra.
Qed.
Lemma one_more P a al : Rabs (P - 1) <= al -> Rabs a <= uu -> al <= / 64 -> Rabs (P * (1 + a) - 1) <= al + 33 / 32 * uu.
Proof.
  intros HP Ha Hl. replace (P * (1 + a) - 1) with ((P - 1) + (P - 1) * a + a) by ring.
  pose proof (Rabs_triang ((P - 1) + (P - 1) * a) a). pose proof (Rabs_triang (P - 1) ((P - 1) * a)). pose proof (Rabs_pos a).
  assert (Rabs ((P - 1) * a) <= / 64 * uu) by (rewrite Rabs_mult; apply Rmult_le_compat; try apply Rabs_pos; lra). lra.
Qed.
Lemma one_less b : Rabs b <= uu -> Rabs (/ (1 + b) - 1) <= 33 / 32 * uu /\ 0 < 1 + b.
Proof.
  intros Hb. pose proof uu_small. pose proof uu_pos. apply Rabs_le_inv in Hb as Hb2. assert (P : 0 < 1 + b) by lra. split; [|exact P].
  replace (/ (1 + b) - 1) with (- b / (1 + b)) by (field; lra). rewrite div_abs, Rabs_Ropp, (Rabs_right (1 + b)) by lra.
  apply Rmult_le_reg_r with (1 + b); [exact P|]. unfold Rdiv. rewrite Rmult_assoc, Rinv_l by lra.
  assert (33 / 32 * uu * (1 - uu) <= 33 / 32 * uu * (1 + b)) by (apply Rmult_le_compat_l; lra).
  assert (uu * uu <= / 1024 * uu) by (apply Rmult_le_compat_r; lra). lra.
Qed.
Lemma near_one_abs P al : Rabs (P - 1) <= al -> Rabs P <= 1 + al.
Proof. intros H. apply near_abs in H. rewrite Rabs_R1 in H. exact H. Qed.

Definition f64_line (x0 y0 x1 y1 x : spec_float) : spec_float :=
  SFadd 53 1024 (SFmul 53 1024 (SFdiv 53 1024 (SFsub 53 1024 y1 y0) (SFsub 53 1024 x1 x0)) (SFsub 53 1024 x x0)) y0.
Lemma line_sample x0 y0 x1 y1 x : f64_fin x0 -> f64_fin x1 -> f64_fin x -> f64_ordinary y0 -> f64_ordinary y1 ->
  f64_val x0 < f64_val x < f64_val x1 -> bpow radix2 (-301) <= f64_val x1 - f64_val x0 <= bpow radix2 348 ->
  let L := f64_val y0 + (f64_val y1 - f64_val y0) / (f64_val x1 - f64_val x0) * (f64_val x - f64_val x0) in
  f64_fin (f64_line x0 y0 x1 y1 x) /\
  Rabs (f64_val (f64_line x0 y0 x1 y1 x) - L) <= / 2 ^ 49 * Rmax (Rabs (f64_val y0)) (Rabs (f64_val y1)) + (f64_val x1 - f64_val x0 + 1) * powerRZ 2 (-1074).
Proof.
  intros F0 F1 Fx [G0 B0] [G1 B1] Hx Hg L. rewrite powerRZ_bpow in B0, B1. unfold f64_line.
  pose proof uu_pos as U. pose proof uu_small as US. pose proof et_pos as TP. pose proof et_small as TS.
  pose proof (le_bpow_sub _ _ _ B1 B0) as Bd.
  destruct (sub_ok y1 y0 G1 G0) as [Fd Ed]; [apply (le_bpow_trans _ _ _ Bd); lia|].
  destruct (sub_ok x1 x0 F1 F0) as [Fg Eg]. { rewrite Rabs_right by lra. eapply Rle_trans; [apply Hg|]. apply bpow_le. lia. }
  destruct (sub_ok x x0 Fx F0) as [Fh Eh]. { rewrite Rabs_right by lra. apply Rle_trans with (bpow radix2 348); [lra|]. apply bpow_le. lia. }
  set (dl := SFsub 53 1024 y1 y0) in *. set (g := SFsub 53 1024 x1 x0) in *. set (h := SFsub 53 1024 x x0) in *.
  set (X := f64_val x1 - f64_val x0) in *. set (H := f64_val x - f64_val x0) in *. set (Y := f64_val y1 - f64_val y0) in *.
  assert (PX : 0 < X) by (pose proof (bpow_gt_0 radix2 (-301)); lra). assert (PH : 0 < H) by (unfold H; lra). assert (HX : H < X) by (unfold H, X; lra).
  apply factor in Ed as (a & Ha & Ed). apply factor in Eg as (b & Hb & Eg). apply factor in Eh as (c & Hc & Eh).
  destruct (one_less b Hb) as [Ib Pb]. pose proof (one_more _ _ _ Ib Ha ltac:(lra)) as I2.
  assert (Pg : f64_val g <> 0) by (rewrite Eg; apply Rmult_integral_contrapositive; split; lra).
  assert (Qe : f64_val dl / f64_val g = Y / X * (/ (1 + b) * (1 + a))) by (rewrite Ed, Eg; field; split; lra).
  set (q := Y / X) in *.
  assert (Bq : Rabs q <= bpow radix2 602).
  { unfold q, Rdiv. change 602%Z with (300 + 1 + 301)%Z. apply le_bpow_mul; [exact Bd|]. rewrite Rabs_inv, (Rabs_right X) by lra.
    replace (bpow radix2 301) with (/ bpow radix2 (-301)) by (rewrite <- bpow_opp; reflexivity). apply Rinv_le; [apply bpow_gt_0|lra]. }
  destruct (div_ok dl g Fd Fg Pg) as [Fs Es].
  { rewrite Qe. apply le_bpow_trans with (602 + 1)%Z; [|lia]. apply le_bpow_mul; [exact Bq|]. eapply Rle_trans; [apply (near_one_abs _ _ I2)|]. change (bpow radix2 1) with 2. lra. }
  set (sl := SFdiv 53 1024 dl g) in *. apply factor_et in Es as (d1 & t1 & Hd1 & Ht1 & Es). rewrite Qe in Es.
  pose proof (one_more _ _ _ I2 Hd1 ltac:(lra)) as I3. pose proof (one_more _ _ _ I3 Hc ltac:(lra)) as I4.
  set (la := H / X). assert (Hla : 0 < la < 1).
  { unfold la. split; [apply Rdiv_lt_0_compat; assumption|]. apply Rmult_lt_reg_r with X; [exact PX|]. unfold Rdiv. rewrite Rmult_assoc, Rinv_l by lra. lra. }
  set (P4 := / (1 + b) * (1 + a) * (1 + d1) * (1 + c)) in *.
  assert (Pe : f64_val sl * f64_val h = la * Y * P4 + t1 * (H * (1 + c))) by (rewrite Es, Eh; unfold la, q, P4; field; split; lra).
  set (M := Rmax (Rabs (f64_val y0)) (Rabs (f64_val y1))).
  pose proof (Rmax_l (Rabs (f64_val y0)) (Rabs (f64_val y1))) as M0. pose proof (Rmax_r (Rabs (f64_val y0)) (Rabs (f64_val y1))) as M1. fold M in M0, M1.
  assert (PM : 0 <= M) by (pose proof (Rabs_pos (f64_val y0)); lra). assert (BM : M <= bpow radix2 300) by (apply Rmax_lub; assumption).
  assert (BY : Rabs (la * Y) <= 2 * M).
  { rewrite Rabs_mult, (Rabs_right la) by lra. assert (Rabs Y <= 2 * M) by (unfold Y, Rminus; pose proof (Rabs_triang (f64_val y1) (- f64_val y0)) as T; rewrite Rabs_Ropp in T; lra).
    pose proof (Rabs_pos Y). apply Rle_trans with (1 * Rabs Y); [apply Rmult_le_compat_r; lra|lra]. }
  assert (Bt : Rabs (t1 * (H * (1 + c))) <= et * (33 / 32 * H)).
  { rewrite Rabs_mult. apply Rmult_le_compat; try apply Rabs_pos; [exact Ht1|]. rewrite Rabs_mult, (Rabs_right H) by lra. rewrite (Rmult_comm (33 / 32)).
    apply Rmult_le_compat_l; [lra|]. pose proof (Rabs_triang 1 c) as T. rewrite Rabs_R1 in T. lra. }
  assert (B1p : 1 <= bpow radix2 348) by (change 1 with (bpow radix2 0); apply bpow_le; lia).
  assert (eH : et * H <= bpow radix2 348). { apply Rle_trans with (1 * H); [apply Rmult_le_compat_r; lra|]. lra. }
  assert (B300 : bpow radix2 300 <= bpow radix2 348) by (apply bpow_le; lia).
  assert (b1000 : 16 * bpow radix2 348 <= bpow radix2 1000) by (change 16 with (bpow radix2 4); rewrite <- bpow_plus; apply bpow_le; lia).
  assert (BYP : Rabs (la * Y * P4) <= 33 / 16 * M).
  { rewrite Rabs_mult. apply Rle_trans with (2 * M * (33 / 32)); [|lra]. apply Rmult_le_compat; try apply Rabs_pos; [exact BY|]. eapply Rle_trans; [apply (near_one_abs _ _ I4)|]. lra. }
  destruct (mul_ok sl h Fs Fh) as [Fp Ep].
  { rewrite Pe. eapply Rle_trans; [apply Rabs_triang|]. lra. }
  set (p := SFmul 53 1024 sl h) in *. apply factor_et in Ep as (d2 & t2 & Hd2 & Ht2 & Ep). rewrite Pe in Ep.
  pose proof (one_more _ _ _ I4 Hd2 ltac:(lra)) as I5.
  assert (Dp : Rabs (f64_val p - la * Y) <= 12 * (uu * M) + et * (17 / 16 * H) + et).
  { replace (f64_val p - la * Y) with (la * Y * (P4 * (1 + d2) - 1) + (t1 * (H * (1 + c)) * (1 + d2) + t2)) by (rewrite Ep; ring).
    eapply Rle_trans; [apply Rabs_triang|]. eapply Rle_trans; [apply Rplus_le_compat_l, Rabs_triang|].
    assert (Y1 : Rabs (la * Y * (P4 * (1 + d2) - 1)) <= 2 * M * (6 * uu)).
    { rewrite Rabs_mult. apply Rmult_le_compat; try apply Rabs_pos; [exact BY|]. eapply Rle_trans; [exact I5|]. lra. }
    assert (Y2 : Rabs (t1 * (H * (1 + c)) * (1 + d2)) <= et * (33 / 32 * H) * (1 + uu)).
    { rewrite Rabs_mult. apply Rmult_le_compat; try apply Rabs_pos; [exact Bt|]. pose proof (Rabs_triang 1 d2) as T. rewrite Rabs_R1 in T. lra. }
    assert (Y3 : 0 <= et * H) by (apply Rmult_le_pos; lra). assert (Y4 : uu * (et * H) <= / 1024 * (et * H)) by (apply Rmult_le_compat_r; lra). lra. }
  assert (EL : L = la * Y + f64_val y0) by (unfold L, la, q; field; lra).
  assert (BL : Rabs L <= M).
  { unfold L. fold q. replace (f64_val y0 + q * H) with ((1 - la) * f64_val y0 + la * f64_val y1) by (unfold la, q, Y; field; lra).
    eapply Rle_trans; [apply Rabs_triang|]. rewrite !Rabs_mult, (Rabs_right (1 - la)), (Rabs_right la) by lra.
    assert ((1 - la) * Rabs (f64_val y0) <= (1 - la) * M) by (apply Rmult_le_compat_l; lra).
    assert (la * Rabs (f64_val y1) <= la * M) by (apply Rmult_le_compat_l; lra). lra. }
  assert (Ds : Rabs (f64_val p + f64_val y0 - L) <= 12 * (uu * M) + et * (17 / 16 * H) + et).
  { rewrite EL. replace (f64_val p + f64_val y0 - (la * Y + f64_val y0)) with (f64_val p - la * Y) by ring. exact Dp. }
  pose proof (near_abs _ _ _ Ds) as Bs. assert (uM : uu * M <= / 1024 * M) by (apply Rmult_le_compat_r; lra).
  assert (e1 : et <= 1) by lra.
  assert (Y3 : 0 <= et * H) by (apply Rmult_le_pos; lra).
  destruct (add_ok p y0 Fp G0) as [Fz Ez]; [lra|].
  split; [exact Fz|]. eapply Rle_trans; [apply (near_trans _ _ _ _ _ Ez Ds)|].
  assert (Z1 : uu * Rabs (f64_val p + f64_val y0) <= uu * (2 * M + et * (17 / 16 * H) + et)) by (apply Rmult_le_compat_l; lra).
  assert (Z2 : uu * (et * H) <= / 1024 * (et * H)) by (apply Rmult_le_compat_r; lra).
  assert (Z3 : uu * et <= / 1024 * et) by (apply Rmult_le_compat_r; lra).
  assert (Z4 : et * H <= et * X) by (apply Rmult_le_compat_l; lra).
  assert (Z5 : 0 <= uu * M) by (apply Rmult_le_pos; lra).
  rewrite two49. change (-1074)%Z with (-1075 + 1)%Z. rewrite p_et. change (bpow radix2 1) with 2. lra.
Qed.

(** ** interpolation at any finite point *)
Section Points.
Notation fpt := (spec_float * spec_float)%type.
Definition ffins (P : list fpt) : Prop := forall p, In p P -> f64_fin (fst p).
Definition fkeys (P : list fpt) : list R := map (fun p => f64_val (fst p)) P.

Lemma key_nth (P : list fpt) i x y : nth_error P i = Some (x, y) -> nth_error (fkeys P) i = Some (f64_val x).
Proof. intros H. exact (map_nth_error (fun p => f64_val (fst p)) _ _ H). Qed.
Lemma key_lt (P : list fpt) i j x y x' y' : incr (fkeys P) -> (i < j)%nat -> nth_error P i = Some (x, y) -> nth_error P j = Some (x', y') -> f64_val x < f64_val x'.
Proof. intros H Hij Hi Hj. apply (H i j); [exact Hij|eapply key_nth; exact Hi|eapply key_nth; exact Hj]. Qed.
Lemma fin_nth (P : list fpt) i x y : ffins P -> nth_error P i = Some (x, y) -> f64_fin x.
Proof. intros F H. apply (F (x, y)). eapply nth_error_In. exact H. Qed.

Lemma in_exact (P : list fpt) : forall i t x y, ffins P -> incr (fkeys P) -> f64_fin t -> nth_error P i = Some (x, y) -> f64_val t = f64_val x ->
  interp_in FA FV P t = y.
Proof.
  induction P as [|[x0 y0] [|[x1 y1] P] IH]; intros i t x y F Hinc Ft Hn E; [destruct i; discriminate| |].
  - destruct i as [|[|i]]; try discriminate. injection Hn as -> ->. reflexivity.
  - assert (F0 : f64_fin x0) by (apply (F (x0, y0)); left; reflexivity). assert (F1 : f64_fin x1) by (apply (F (x1, y1)); right; left; reflexivity).
    destruct i as [|i].
    + injection Hn as -> ->. assert (Hlt : f64_val x < f64_val x1) by (apply (key_lt _ 0 1 x y x1 y1 Hinc); [lia|reflexivity|reflexivity]).
      cbn [interp_in n_lt n_eq FA]. rewrite (ltb_true_fin t x1 Ft F1) by lra. replace (SFeqb x t) with true; [reflexivity|].
      symmetry. apply (f64_eqb x t F0 Ft). lra.
    + cbn [nth_error] in Hn. assert (f64_val x1 <= f64_val t).
      { destruct i as [|i]; [injection Hn as -> _; lra|]. apply Rlt_le. rewrite E. apply (key_lt _ 1 (S (S i)) x1 y1 x y Hinc); [lia|reflexivity|exact Hn]. }
      change (interp_in FA FV ((x0, y0) :: (x1, y1) :: P) t) with
        (if SFltb t x1 then if SFeqb x0 t then y0 else f64_line x0 y0 x1 y1 t else interp_in FA FV ((x1, y1) :: P) t).
      rewrite ltb_false_fin by assumption.
      apply (IH i t x y); [intros q Hq; apply F; right; exact Hq|eapply incr_tail; exact Hinc|exact Ft|exact Hn|exact E].
Qed.
Lemma in_between (P : list fpt) : forall i t x0 y0 x1 y1, ffins P -> incr (fkeys P) -> f64_fin t -> nth_error P i = Some (x0, y0) -> nth_error P (S i) = Some (x1, y1) ->
  f64_val x0 < f64_val t < f64_val x1 -> interp_in FA FV P t = f64_line x0 y0 x1 y1 t.
Proof.
  induction P as [|[a b] [|[a' b'] P] IH]; intros i t x0 y0 x1 y1 F Hinc Ft H0 H1 Ht; [destruct i; discriminate|destruct i; discriminate|].
  assert (Fa : f64_fin a) by (apply (F (a, b)); left; reflexivity). assert (Fa' : f64_fin a') by (apply (F (a', b')); right; left; reflexivity).
  change (interp_in FA FV ((a, b) :: (a', b') :: P) t) with
    (if SFltb t a' then if SFeqb a t then b else f64_line a b a' b' t else interp_in FA FV ((a', b') :: P) t).
  destruct i as [|i].
  - injection H0 as -> ->. injection H1 as -> ->. rewrite ltb_true_fin by (assumption || lra).
    replace (SFeqb x0 t) with false; [reflexivity|]. symmetry. apply not_true_is_false. intros X. apply (f64_eqb x0 t Fa Ft) in X. lra.
  - assert (f64_val a' <= f64_val x0).
    { destruct i as [|i]; [injection H0 as -> _; lra|]. apply Rlt_le. apply (key_lt _ 1 (S (S i)) a' b' x0 y0 Hinc); [lia|reflexivity|exact H0]. }
    rewrite ltb_false_fin by (assumption || lra).
    apply (IH i t); [intros q Hq; apply F; right; exact Hq|eapply incr_tail; exact Hinc|exact Ft|exact H0|exact H1|exact Ht].
Qed.
Lemma last_is (P : list fpt) p0 p : nth_error P (length P - 1) = Some p -> last P p0 = p.
Proof.
  intros H. destruct P as [|q P]; [discriminate|]. pose proof (last_nth_error (q :: P) p0 ltac:(discriminate)) as X. congruence.
Qed.
Lemma at_in (P : list fpt) t a b a' b' : ffins P -> f64_fin t -> nth_error P 0 = Some (a, b) -> nth_error P (length P - 1) = Some (a', b') ->
  f64_val a <= f64_val t <= f64_val a' -> interp_at FA FV P t = interp_in FA FV P t.
Proof.
  intros F Ft H0 HL Ht. destruct P as [|[x0 y0] P]; [discriminate|]. injection H0 as -> ->.
  change (interp_at FA FV ((a, b) :: P) t) with
    (if SFltb t a || SFltb (fst (last ((a, b) :: P) (t, n_of_Z FA 0))) t then n_of_Z FA 0 else interp_in FA FV ((a, b) :: P) t).
  pose proof (last_is ((a, b) :: P) (t, n_of_Z FA 0) (a', b') HL) as Y. change (num FA) with spec_float in *. rewrite Y. cbn [fst].
  rewrite (ltb_false_fin t a), (ltb_false_fin a' t); [reflexivity| | | | | |]; try assumption; try apply Ht.
  - eapply fin_nth; [exact F|exact HL].
  - apply (F (a, b)). left. reflexivity.
Qed.
Lemma at_out (P : list fpt) t a b a' b' : ffins P -> f64_fin t -> nth_error P 0 = Some (a, b) -> nth_error P (length P - 1) = Some (a', b') ->
  f64_val t < f64_val a \/ f64_val a' < f64_val t -> interp_at FA FV P t = n_of_Z FA 0.
Proof.
  intros F Ft H0 HL Ht. destruct P as [|[x0 y0] P]; [discriminate|]. injection H0 as -> ->.
  change (interp_at FA FV ((a, b) :: P) t) with
    (if SFltb t a || SFltb (fst (last ((a, b) :: P) (t, n_of_Z FA 0))) t then n_of_Z FA 0 else interp_in FA FV ((a, b) :: P) t).
  pose proof (last_is ((a, b) :: P) (t, n_of_Z FA 0) (a', b') HL) as Y. change (num FA) with spec_float in *. rewrite Y. cbn [fst].
  assert (Fa : f64_fin a) by (apply (F (a, b)); left; reflexivity). assert (Fa' : f64_fin a') by (eapply fin_nth; [exact F|exact HL]).
  destruct Ht as [Ht|Ht].
  - rewrite (ltb_true_fin t a) by assumption. reflexivity.
  - rewrite (ltb_true_fin a' t) by assumption. rewrite orb_true_r. reflexivity.
Qed.
End Points.

Lemma f64_gap s e d n xs i x x' : f64_forward s e d n -> axis_array FA (mkAxis (A:=FA) s e d) = Ok xs ->
  nth_error xs i = Some x -> nth_error xs (S i) = Some x' -> f64_val d / 2 <= f64_val x' - f64_val x <= 2 * f64_val d.
Proof.
  intros (HT & Bd & SE) X Hx Hx'. pose proof (tame_axis s e d n HT) as HA. rewrite !powerRZ_bpow in Bd.
  assert (PD : 0 < f64_val d) by (pose proof (bpow_gt_0 radix2 (-300)); lra).
  pose proof (tame_M s e d n HT) as BM.
  destruct (f64_array _ _ _ _ HA) as (xs2 & X2 & L & _ & P & _). rewrite X in X2. injection X2 as <-.
  pose proof (nth_error_len _ _ _ Hx') as Lj. rewrite L in Lj.
  destruct (P i x Hx) as (_ & _ & Ei). destruct (P (S i) x' Hx') as (_ & _ & Ej).
  pose proof HT as (_ & _ & _ & _ & _ & _ & Q).
  set (S0 := f64_val s) in *. set (E := f64_val e) in *. set (D := f64_val d) in *.
  set (M := Rmax (Rabs S0) (Rabs E)) in *. rewrite two50 in Ei, Ej. pose proof uu_pos as U. rewrite (Rabs_right D) in * by lra. rewrite (Rabs_right (E - S0)) in Q by lra.
  assert (EM : 8 * uu * M <= / 16 * D).
  { apply Rle_trans with (8 * uu * (2 ^ 46 * D)); [apply Rmult_le_compat_l; lra|]. unfold uu. lra. }
  assert (Pn : 1 <= INR n) by (apply (le_INR 1); lia). set (N := INR n) in *.
  assert (SP : 3 / 4 * D <= (E - S0) / N <= 5 / 4 * D).
  { apply Rabs_le_inv in Q. set (q := (E - S0) / D) in *. assert (Eq : E - S0 = q * D) by (unfold q; field; lra). rewrite Eq.
    assert (DN : D <= D * N) by (rewrite <- (Rmult_1_r D) at 1; apply Rmult_le_compat_l; lra).
    assert (Q1 : (N - / 4) * D <= q * D) by (apply Rmult_le_compat_r; lra). assert (Q2 : q * D <= (N + / 4) * D) by (apply Rmult_le_compat_r; lra).
    split; apply Rmult_le_reg_r with N; try lra; unfold Rdiv; rewrite (Rmult_assoc (q * D)), Rinv_l by lra; lra. }
  assert (G : grid_pt S0 E (n + 1) (S i) - grid_pt S0 E (n + 1) i = (E - S0) / N).
  { unfold grid_pt, N. replace (n + 1 - 1)%nat with n by lia. rewrite S_INR. unfold Rdiv. ring. }
  apply Rabs_le_inv in Ei, Ej. lra.
Qed.

Lemma f64_interp_rel s e d n (y : list spec_float) (nx : axis FA) n' xs' :
  f64_forward s e d n -> length y = (n + 1)%nat -> Forall f64_ordinary y ->
  axis_size FA nx = Ok n' -> axis_array FA nx = Ok xs' -> length xs' = n' -> Forall f64_fin xs' ->
  exists xs z, axis_array FA (mkAxis (A:=FA) s e d) = Ok xs /\ length xs = (n + 1)%nat /\
    rel_interp FA FV (default_config FA FV) nx (mkRel (A:=FA) (V:=FV) (mkAxis (A:=FA) s e d) y) = Ok (mkRel (A:=FA) (V:=FV) nx z) /\
    length z = n' /\
    forall j t w, nth_error xs' j = Some t -> nth_error z j = Some w ->
      (f64_val t < f64_val (nth 0 xs (n_of_Z FA 0)) \/ f64_val (nth n xs (n_of_Z FA 0)) < f64_val t -> w = n_of_Z FA 0) /\
      (forall i x v, nth_error xs i = Some x -> nth_error y i = Some v -> f64_val t = f64_val x -> w = v) /\
      (forall i x0 x1 v0 v1, nth_error xs i = Some x0 -> nth_error xs (S i) = Some x1 -> nth_error y i = Some v0 -> nth_error y (S i) = Some v1 ->
        f64_val x0 < f64_val t < f64_val x1 -> f64_fin w /\
        Rabs (f64_val w - (f64_val v0 + (f64_val v1 - f64_val v0) / (f64_val x1 - f64_val x0) * (f64_val t - f64_val x0)))
          <= / 2 ^ 49 * Rmax (Rabs (f64_val v0)) (Rabs (f64_val v1)) + (f64_val x1 - f64_val x0 + 1) * powerRZ 2 (-1074)).
Proof.
  intros HF Hy Oy Hs Ha Hl Fxs'. pose proof HF as (HT & Bd & SE). pose proof (tame_axis s e d n HT) as HA. rewrite !powerRZ_bpow in Bd.
  destruct (f64_array _ _ _ _ HA) as (xs & X & L & _ & P & Mo).
  change (num FA) with spec_float in xs. set (Q := combine xs y).
  assert (Hlen : length xs = length y) by (rewrite Hy; exact L).
  assert (FQ : ffins Q).
  { intros p Hp. unfold Q in Hp. destruct p as [a b]. apply in_combine_l in Hp. cbn [fst]. apply In_nth_error in Hp as [j Hj]. apply (P j a Hj). }
  assert (K : fkeys Q = map f64_val xs).
  { unfold fkeys, Q. rewrite <- (map_map fst f64_val). rewrite map_fst_combine by exact Hlen. reflexivity. }
  assert (IQ : incr (fkeys Q)).
  { rewrite K. intros i0 j0 a b Hij Ea Eb. rewrite nth_error_map in Ea, Eb.
    destruct (nth_error xs i0) as [xa|] eqn:Ea'; [|discriminate]. destruct (nth_error xs j0) as [xb|] eqn:Eb'; [|discriminate].
    injection Ea as <-. injection Eb as <-. destruct (f64_strict s e d n xs i0 j0 xa xb HT X Hij Ea' Eb') as (S1 & _ & S3). apply S1. lra. }
  assert (SQ : sort_pts FA FV Q = Q) by (apply (fsort_incr FV Q); [exact FQ|exact IQ]).
  assert (LQ : length Q = (n + 1)%nat) by (unfold Q; rewrite combine_length, Hlen, Hy; lia).
  assert (NQ : forall i x v, nth_error xs i = Some x -> nth_error y i = Some v -> nth_error Q i = Some (x, v)).
  { intros. unfold Q. apply nth_combine. split; assumption. }
  set (z := map (interp_at FA FV Q) xs').
  exists xs, z. split; [exact X|]. split; [exact L|]. split.
  { unfold rel_interp. cbn [r_x r_y]. rewrite X. cbn [bind default_config c_interp]. unfold interpolate_default, interp1d.
    match goal with |- context [Nat.eqb ?a ?b] => replace (Nat.eqb a b) with true by (symmetry; apply Nat.eqb_eq; exact Hlen) end.
    cbn [bind]. rewrite Ha. cbn [bind]. fold Q. change (combine xs y) with Q. rewrite SQ. fold z. unfold rel_make. rewrite Hs. cbn [bind].
    replace (Nat.eqb n' (length z)) with true; [reflexivity|]. symmetry. apply Nat.eqb_eq. unfold z. rewrite map_length. symmetry. exact Hl. }
  split; [unfold z; rewrite map_length; exact Hl|].
  intros j t w Ht Hw. unfold z in Hw. rewrite nth_error_map, Ht in Hw. injection Hw as <-.
  assert (Ft : f64_fin t) by (rewrite Forall_forall in Fxs'; apply Fxs'; eapply nth_error_In; exact Ht).
  assert (exists x0 v0, nth_error xs 0 = Some x0 /\ nth_error y 0 = Some v0) as (x0 & v0 & Hx0 & Hv0).
  { destruct (nth_error xs 0) eqn:E1; [|apply nth_error_None in E1; lia]. destruct (nth_error y 0) eqn:E2; [|apply nth_error_None in E2; lia]. eauto. }
  assert (exists xn vn, nth_error xs n = Some xn /\ nth_error y n = Some vn) as (xn & vn & Hxn & Hvn).
  { destruct (nth_error xs n) eqn:E1; [|apply nth_error_None in E1; lia]. destruct (nth_error y n) eqn:E2; [|apply nth_error_None in E2; lia]. eauto. }
  pose proof (NQ _ _ _ Hx0 Hv0) as Q0. pose proof (NQ _ _ _ Hxn Hvn) as Qn.
  assert (Qn' : nth_error Q (length Q - 1) = Some (xn, vn)) by (rewrite LQ; replace (n + 1 - 1)%nat with n by lia; exact Qn).
  assert (In : forall i x, nth_error xs i = Some x -> f64_val x0 <= f64_val x <= f64_val xn).
  { intros i x Hx. assert (Li : (i < n + 1)%nat) by (eapply Nat.lt_le_trans; [eapply nth_error_len; exact Hx|apply Nat.eq_le_incl; exact L]). split; [apply (Mo 0%nat i x0 x)|apply (Mo i n x xn)]; (lia || assumption). }
  split; [|split].
  - intros O. rewrite (nth_error_nth _ _ _ Hx0), (nth_error_nth _ _ _ Hxn) in O. exact (at_out Q t x0 v0 xn vn FQ Ft Q0 Qn' O).
  - intros i x v Hx Hv E. pose proof (In i x Hx) as B. transitivity (interp_in FA FV Q t).
    + apply (at_in Q t x0 v0 xn vn FQ Ft Q0 Qn'). rewrite E. exact B.
    + apply (in_exact Q i t x v FQ IQ Ft (NQ _ _ _ Hx Hv) E).
  - intros i a0 a1 b0 b1 Hx Hx' Hv Hv' B. pose proof (In i a0 Hx) as C0. pose proof (In (S i) a1 Hx') as C1.
    assert (Ew : interp_at FA FV Q t = f64_line a0 b0 a1 b1 t).
    { transitivity (interp_in FA FV Q t); [apply (at_in Q t x0 v0 xn vn FQ Ft Q0 Qn'); lra|].
      apply (in_between Q i t a0 b0 a1 b1 FQ IQ Ft (NQ _ _ _ Hx Hv) (NQ _ _ _ Hx' Hv') B). }
    rewrite Ew. rewrite Forall_forall in Oy. pose proof (f64_gap s e d n xs i a0 a1 HF X Hx Hx') as G.
    apply line_sample; try assumption; try (apply Oy; eapply nth_error_In; eassumption).
    + apply (P i a0 Hx).
    + apply (P (S i) a1 Hx').
    + split.
      * apply Rle_trans with (f64_val d / 2); [|apply G]. replace (bpow radix2 (-301)) with (bpow radix2 (-300) / 2); [lra|].
        change (-301)%Z with (-300 + -1)%Z. rewrite bpow_plus. reflexivity.
      * apply Rle_trans with (2 * bpow radix2 300); [lra|]. change 2 with (bpow radix2 1). rewrite <- bpow_plus. apply bpow_le. lia.
Qed.
