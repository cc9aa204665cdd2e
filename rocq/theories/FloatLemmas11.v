(** Proofs for C92: linear frequency laws in binary64. *)
From Coq Require Import Reals ZArith List Bool Lia Lra Psatz SpecFloat.
From Flocq Require Import Core.Core IEEE754.BinarySingleNaN.
From Verif Require Import Num Numpy Spec AxisModel RelModel PreparedModel RLemmas
  FloatSpec FloatLemmas FloatLemmas2 FloatLemmas3 FloatLemmas4 CalcSpec FloatLemmas5 FloatLawSpec.
Import ListNotations.
Local Open Scope R_scope.

Notation lin := (f_t_linear_function FA).

Section Line.
Variables ts te f0 f1 : spec_float.
Hypothesis HL : f64_line ts te f0 f1.
Let S := f64_val ts. Let T := f64_val te. Let F0 := f64_val f0. Let F1 := f64_val f1.
Let d := SFsub 53 1024 f1 f0. Let w := SFsub 53 1024 te ts.

Lemma line_bounds : Rabs S <= bpow radix2 300 /\ Rabs T <= bpow radix2 300 /\ Rabs F0 <= bpow radix2 300 /\ Rabs F1 <= bpow radix2 300 /\
  bpow radix2 (-300) <= T - S.
Proof. destruct HL as ((_ & A) & (_ & B) & (_ & C) & (_ & D) & E). rewrite !powerRZ_bpow in *. auto. Qed.
Lemma d_ok : f64_fin d /\ f64_val d = frnd (F1 - F0) /\ Rabs (f64_val d - (F1 - F0)) <= uu * Rabs (F1 - F0) /\ Rabs (F1 - F0) <= bpow radix2 301.
Proof.
  destruct line_bounds as (_ & _ & B0 & B1 & _). destruct HL as (_ & _ & (A0 & _) & (A1 & _) & _).
  pose proof (le_bpow_sub _ _ _ B1 B0) as B. destruct (f64_sub f1 f0 A1 A0) as [F V]; [apply (le_bpow_trans _ _ _ B); lia|].
  destruct (sub_ok f1 f0 A1 A0) as [_ E]; [apply (le_bpow_trans _ _ _ B); lia|]. auto.
Qed.
Lemma w_ok : f64_fin w /\ f64_val w = frnd (T - S) /\ Rabs (f64_val w - (T - S)) <= uu * (T - S) /\ 0 < T - S.
Proof.
  destruct line_bounds as (BS & BT & _ & _ & BB). destruct HL as ((A0 & _) & (A1 & _) & _).
  assert (P : 0 < T - S) by (pose proof (bpow_gt_0 radix2 (-300)); lra).
  pose proof (le_bpow_sub _ _ _ BT BS) as B. destruct (f64_sub te ts A1 A0) as [F V]; [apply (le_bpow_trans _ _ _ B); lia|].
  destruct (sub_ok te ts A1 A0) as [_ E]; [apply (le_bpow_trans _ _ _ B); lia|]. fold T S in E. rewrite (Rabs_right (T - S)) in E by lra. auto.
Qed.
Lemma w_pos : / 2 * (T - S) <= f64_val w.
Proof. destruct w_ok as (_ & _ & E & P). apply Rabs_le_inv in E. pose proof uu_small. assert (uu * (T - S) <= / 1024 * (T - S)) by (apply Rmult_le_compat_r; lra). lra. Qed.
Lemma d_sign : (F0 <= F1 -> 0 <= f64_val d) /\ (F1 <= F0 -> f64_val d <= 0).
Proof.
  destruct d_ok as (_ & V & _). rewrite V. split; intros H.
  - apply frnd_ge_fmt; [apply generic_format_0|lra].
  - apply frnd_le_fmt; [apply generic_format_0|lra].
Qed.

Section At.
Variable t : spec_float.
Hypothesis Ht : f64_ordinary t.
Let X := f64_val t.
Let m := SFmul 53 1024 t d. Let q := SFdiv 53 1024 m w.

Lemma X_big : Rabs X <= bpow radix2 300. Proof. destruct Ht as [_ B]. rewrite powerRZ_bpow in B. exact B. Qed.
Lemma two_bpow k : bpow radix2 (k + 1) = 2 * bpow radix2 k. Proof. rewrite bpow_plus. change (bpow radix2 1) with 2. ring. Qed.
Lemma d_big : Rabs (f64_val d) <= bpow radix2 302.
Proof.
  destruct d_ok as (_ & _ & E & B). pose proof uu_small as U. pose proof (near_abs _ _ _ E) as N. change 302%Z with (301 + 1)%Z. rewrite two_bpow.
  assert (uu * Rabs (F1 - F0) <= / 1024 * Rabs (F1 - F0)) by (apply Rmult_le_compat_r; [apply Rabs_pos|exact U]). pose proof (Rabs_pos (F1 - F0)). lra.
Qed.
Lemma m_ok : f64_fin m /\ f64_val m = frnd (X * f64_val d) /\ Rabs (f64_val m - X * f64_val d) <= uu * Rabs (X * f64_val d) + et /\ Rabs (X * f64_val d) <= bpow radix2 602.
Proof.
  assert (B : Rabs (X * f64_val d) <= bpow radix2 602).
  { rewrite Rabs_mult. change 602%Z with (300 + 302)%Z. rewrite bpow_plus. apply Rmult_le_compat; auto using Rabs_pos, X_big, d_big. }
  destruct Ht as [Ft _]. destruct d_ok as (Fd & _).
  destruct (f64_mul t d Ft Fd) as [F V]; [apply (le_bpow_trans _ _ _ B); lia|].
  destruct (mul_ok t d Ft Fd) as [_ E]; [apply (le_bpow_trans _ _ _ B); lia|]. auto.
Qed.
Lemma m_big : Rabs (f64_val m) <= bpow radix2 603.
Proof.
  destruct m_ok as (_ & _ & E & B). pose proof uu_small as U. pose proof (near_abs _ _ _ E) as N. change 603%Z with (602 + 1)%Z. rewrite two_bpow.
  assert (uu * Rabs (X * f64_val d) <= / 1024 * Rabs (X * f64_val d)) by (apply Rmult_le_compat_r; [apply Rabs_pos|exact U]).
  assert (et <= / 2 * bpow radix2 602). { unfold et. change (/ 2) with (bpow radix2 (-1)). rewrite <- bpow_plus. apply bpow_le. lia. }
  pose proof (Rabs_pos (X * f64_val d)). lra.
Qed.
Lemma w_inv : 0 < / f64_val w <= bpow radix2 301.
Proof.
  pose proof w_pos as W. destruct line_bounds as (_ & _ & _ & _ & B). pose proof (bpow_gt_0 radix2 (-300)).
  split; [apply Rinv_0_lt_compat; lra|]. replace (bpow radix2 301) with (/ bpow radix2 (-301)) by (rewrite <- bpow_opp; reflexivity).
  apply Rinv_le; [apply bpow_gt_0|]. assert (bpow radix2 (-300) = 2 * bpow radix2 (-301)) by (change (-300)%Z with (-301 + 1)%Z; apply two_bpow). lra.
Qed.
Lemma w_nz : f64_val w <> 0. Proof. pose proof w_pos. destruct w_ok as (_ & _ & _ & P). lra. Qed.
Lemma q_ok : f64_fin q /\ f64_val q = frnd (f64_val m / f64_val w) /\
  Rabs (f64_val q - f64_val m / f64_val w) <= uu * Rabs (f64_val m / f64_val w) + et /\ Rabs (f64_val m / f64_val w) <= bpow radix2 904.
Proof.
  assert (B : Rabs (f64_val m / f64_val w) <= bpow radix2 904).
  { unfold Rdiv. rewrite Rabs_mult. change 904%Z with (603 + 301)%Z. rewrite bpow_plus. destruct w_inv as [P I].
    apply Rmult_le_compat; auto using Rabs_pos, m_big. rewrite Rabs_right by lra. exact I. }
  destruct m_ok as (Fm & _). destruct w_ok as (Fw & _).
  destruct (f64_div m w Fm Fw w_nz) as [F V]; [apply (le_bpow_trans _ _ _ B); lia|].
  destruct (div_ok m w Fm Fw w_nz) as [_ E]; [apply (le_bpow_trans _ _ _ B); lia|]. auto.
Qed.
Lemma q_big : Rabs (f64_val q) <= bpow radix2 905.
Proof.
  destruct q_ok as (_ & _ & E & B). pose proof uu_small as U. pose proof (near_abs _ _ _ E) as N. change 905%Z with (904 + 1)%Z. rewrite two_bpow.
  assert (uu * Rabs (f64_val m / f64_val w) <= / 1024 * Rabs (f64_val m / f64_val w)) by (apply Rmult_le_compat_r; [apply Rabs_pos|exact U]).
  assert (et <= / 2 * bpow radix2 904). { unfold et. change (/ 2) with (bpow radix2 (-1)). rewrite <- bpow_plus. apply bpow_le. lia. }
  pose proof (Rabs_pos (f64_val m / f64_val w)). lra.
Qed.
Lemma lin_ok : f64_fin (lin ts te f0 f1 t) /\ f64_val (lin ts te f0 f1 t) = frnd (f64_val q + F0) /\
  Rabs (f64_val (lin ts te f0 f1 t) - (f64_val q + F0)) <= uu * Rabs (f64_val q + F0).
Proof.
  destruct line_bounds as (_ & _ & B0 & _). assert (B0' : Rabs F0 <= bpow radix2 905) by (apply (le_bpow_trans _ _ _ B0); lia).
  pose proof (le_bpow_add _ _ _ q_big B0') as B. destruct q_ok as (Fq & _). destruct HL as (_ & _ & (A0 & _) & _).
  destruct (f64_add q f0 Fq A0) as [F V]; [apply (le_bpow_trans _ _ _ B); lia|].
  destruct (add_ok q f0 Fq A0) as [_ E]; [apply (le_bpow_trans _ _ _ B); lia|]. change (lin ts te f0 f1 t) with (SFadd 53 1024 q f0). auto.
Qed.

(** the quotient is near the exact one *)
Lemma q_near : Rabs (f64_val q - X * (F1 - F0) / (T - S)) <= 5 * uu * Rabs (X * (F1 - F0) / (T - S)) + bpow radix2 (-771).
Proof.
  destruct d_ok as (_ & _ & Ed & _). destruct w_ok as (_ & _ & Ew & P). destruct m_ok as (_ & _ & Em & _). destruct q_ok as (_ & _ & Eq & _).
  destruct w_inv as [WP WI]. pose proof uu_pos as UP. pose proof uu_small as US.
  set (D := f64_val d) in *. set (W := f64_val w) in *. set (M := f64_val m) in *. set (Q := f64_val q) in *. set (Del := F1 - F0) in *. set (L := T - S) in *.
  set (e := X * Del / L) in *.
  assert (WN : W <> 0) by (intros Z; pose proof w_nz; contradiction).
  (* X D / W is near e *)
  assert (N0 : Rabs (X * D / W - e) <= (2 * uu + 4 * uu * uu) * Rabs e).
  { assert (HD : exists a, D = Del * (1 + a) /\ Rabs a <= uu).
    { destruct (Req_dec Del 0) as [Z|Z].
      - exists 0. rewrite Z, Rabs_R0, Rmult_0_r in Ed. split; [|rewrite Rabs_R0; lra]. rewrite Z. apply Rabs_le_inv in Ed. lra.
      - exists ((D - Del) / Del). split; [field; exact Z|]. unfold Rdiv. rewrite Rabs_mult, Rabs_inv. apply Rmult_le_reg_r with (Rabs Del); [apply Rabs_pos_lt; exact Z|].
        rewrite Rmult_assoc, Rinv_l; [lra|]. apply Rabs_no_R0. exact Z. }
    assert (HW : exists b, W = L * (1 + b) /\ Rabs b <= uu).
    { exists ((W - L) / L). split; [field; lra|]. unfold Rdiv. rewrite Rabs_mult, Rabs_inv, (Rabs_right L) by lra. apply Rmult_le_reg_r with L; [exact P|].
      rewrite Rmult_assoc, Rinv_l; lra. }
    destruct HD as (a & HD & Ha). destruct HW as (b & HW & Hb). apply Rabs_le_inv in Ha, Hb.
    assert (B1 : 0 < 1 + b) by lra.
    replace (X * D / W - e) with (e * ((a - b) / (1 + b))) by (rewrite HD, HW; unfold e; field; split; lra).
    rewrite Rabs_mult, Rmult_comm. apply Rmult_le_compat_r; [apply Rabs_pos|].
    unfold Rdiv. rewrite Rabs_mult, Rabs_inv, (Rabs_right (1 + b)) by lra. apply Rmult_le_reg_r with (1 + b); [exact B1|].
    rewrite Rmult_assoc, Rinv_l, Rmult_1_r by lra.
    assert (Rabs (a - b) <= 2 * uu) by (apply Rabs_le; lra).
    assert ((2 * uu + 4 * uu * uu) * (1 - uu) <= (2 * uu + 4 * uu * uu) * (1 + b)) by (apply Rmult_le_compat_l; nra).
    assert (0 <= uu * uu * (1 - 2 * uu)) by (apply Rmult_le_pos; nra). nra. }
  assert (N1 : Rabs (M / W - X * D / W) <= uu * Rabs (X * D / W) + et * bpow radix2 301).
  { replace (M / W - X * D / W) with ((M - X * D) * / W) by (field; exact WN). rewrite Rabs_mult, (Rabs_right (/ W)) by lra.
    replace (Rabs (X * D / W)) with (Rabs (X * D) * / W) by (unfold Rdiv; rewrite (Rabs_mult (X * D)), (Rabs_right (/ W)) by lra; reflexivity).
    apply Rle_trans with ((uu * Rabs (X * D) + et) * / W); [apply Rmult_le_compat_r; lra|]. rewrite Rmult_plus_distr_r.
    assert (et * / W <= et * bpow radix2 301) by (apply Rmult_le_compat_l; [apply Rlt_le, et_pos|exact WI]). lra. }
  set (y := X * D / W) in *. set (z := M / W) in *. set (h := et * bpow radix2 301) in *.
  assert (Hh : et <= bpow radix2 (-775) /\ h <= bpow radix2 (-774)).
  { split; [apply bpow_le; lia|]. unfold h, et. rewrite <- bpow_plus. apply bpow_le. lia. }
  assert (Hs : bpow radix2 (-771) = 8 * bpow radix2 (-774) /\ bpow radix2 (-774) = 2 * bpow radix2 (-775)).
  { split; [change (-771)%Z with (-774 + 3)%Z; rewrite bpow_plus; change (bpow radix2 3) with 8; ring|change (-774)%Z with (-775 + 1)%Z; apply two_bpow]. }
  pose proof (bpow_gt_0 radix2 (-775)) as BP. destruct Hs as [Hs1 Hs2]. destruct Hh as [Hh1 Hh2].
  assert (h0 : 0 <= h) by (unfold h; apply Rmult_le_pos; [apply Rlt_le, et_pos|apply bpow_ge_0]).
  revert Hs1 Hs2 BP Hh1 Hh2. generalize (bpow radix2 (-771)) (bpow radix2 (-774)) (bpow radix2 (-775)). intros b1 b2 b3 Hs1 Hs2 BP Hh1 Hh2.
  pose proof (Rabs_pos e) as e0.
  assert (By : Rabs y <= (1 + 3 * uu) * Rabs e).
  { pose proof (near_abs _ _ _ N0). assert (4 * uu * uu * Rabs e <= uu * Rabs e) by (apply Rmult_le_compat_r; nra). nra. }
  assert (Uy : uu * Rabs y <= (uu + 3 * (uu * uu)) * Rabs e) by (apply Rle_trans with (uu * ((1 + 3 * uu) * Rabs e)); [apply Rmult_le_compat_l; lra|nra]).
  assert (Bz : Rabs z <= (1 + 5 * uu) * Rabs e + h).
  { pose proof (near_abs _ _ _ N1). assert (3 * (uu * uu) * Rabs e <= uu * Rabs e) by (apply Rmult_le_compat_r; nra). nra. }
  assert (Uz : uu * Rabs z <= (uu + 5 * (uu * uu)) * Rabs e + h).
  { apply Rle_trans with (uu * ((1 + 5 * uu) * Rabs e + h)); [apply Rmult_le_compat_l; lra|]. assert (uu * h <= 1 * h) by (apply Rmult_le_compat_r; lra). nra. }
  assert (V : uu * uu * Rabs e <= / 1024 * (uu * Rabs e)) by (rewrite Rmult_assoc; apply Rmult_le_compat_r; [apply Rmult_le_pos; lra|exact US]).
  assert (U0 : 0 <= uu * Rabs e) by (apply Rmult_le_pos; lra).
  replace (Q - e) with ((Q - z) + (z - y) + (y - e)) by ring.
  eapply Rle_trans; [apply Rabs_triang|]. pose proof (Rabs_triang (Q - z) (z - y)) as T2. lra.
Qed.

Lemma lin_near : Rabs (f64_val (lin ts te f0 f1 t) - line S T F0 F1 X) <= line_error F0 (line S T F0 F1 X).
Proof.
  destruct lin_ok as (_ & _ & E). pose proof q_near as N. unfold line_error, line. set (e := X * (F1 - F0) / (T - S)) in *. set (Q := f64_val q) in *.
  replace (e + F0 - F0) with e by ring. replace (/ 2 ^ 50) with (8 * uu) by (unfold uu; lra). replace (/ 2 ^ 53) with uu by (unfold uu; lra). rewrite powerRZ_bpow.
  assert (Hs : bpow radix2 (-770) = 2 * bpow radix2 (-771)) by (change (-770)%Z with (-771 + 1)%Z; apply two_bpow). rewrite Hs. pose proof (bpow_gt_0 radix2 (-771)) as BP.
  revert N BP. generalize (bpow radix2 (-771)). intros b N BP. clear Hs. pose proof uu_pos as UP. pose proof uu_small as US. pose proof (Rabs_pos e) as e0.
  assert (N2 : Rabs (Q + F0) <= Rabs (e + F0) + (5 * uu * Rabs e + b)).
  { replace (Q + F0) with ((e + F0) + (Q - e)) by ring. eapply Rle_trans; [apply Rabs_triang|]. lra. }
  assert (uu * Rabs (Q + F0) <= uu * (Rabs (e + F0) + (5 * uu * Rabs e + b))) by (apply Rmult_le_compat_l; lra).
  assert (uu * b <= / 1024 * b) by (apply Rmult_le_compat_r; lra).
  assert (uu * (uu * Rabs e) <= / 1024 * (uu * Rabs e)) by (apply Rmult_le_compat_r; [apply Rmult_le_pos; lra|exact US]).
  assert (0 <= uu * Rabs e) by (apply Rmult_le_pos; lra).
  replace (f64_val (lin ts te f0 f1 t) - (e + F0)) with ((f64_val (lin ts te f0 f1 t) - (Q + F0)) + (Q - e)) by ring.
  eapply Rle_trans; [apply Rabs_triang|]. lra.
Qed.

(** the value as roundings only *)
Lemma lin_val : f64_val (lin ts te f0 f1 t) = frnd (frnd (frnd (X * f64_val d) / f64_val w) + F0).
Proof. destruct lin_ok as (_ & -> & _). destruct q_ok as (_ & -> & _). destruct m_ok as (_ & -> & _). reflexivity. Qed.
End At.

Lemma frnd_0 : frnd 0 = 0. Proof. apply frnd_fmt. apply generic_format_0. Qed.
Lemma lin_mono t t' : f64_ordinary t -> f64_ordinary t' -> f64_val t <= f64_val t' ->
  (F0 <= F1 -> f64_val (lin ts te f0 f1 t) <= f64_val (lin ts te f0 f1 t')) /\
  (F1 <= F0 -> f64_val (lin ts te f0 f1 t') <= f64_val (lin ts te f0 f1 t)).
Proof.
  intros Ht Ht' H. rewrite (lin_val t Ht), (lin_val t' Ht'). destruct w_inv as [WP _]. destruct d_sign as [D1 D2]. split; intros HF;
    apply frnd_le, Rplus_le_compat_r, frnd_le, Rmult_le_compat_r; try lra; apply frnd_le.
  - apply Rmult_le_compat_r; auto.
  - rewrite (Rmult_comm (f64_val t')), (Rmult_comm (f64_val t)). apply Rmult_le_compat_neg_l; auto.
Qed.
Lemma lin_zero t : f64_ordinary t -> f64_val t = 0 -> f64_val (lin ts te f0 f1 t) = F0.
Proof.
  intros Ht H. rewrite (lin_val t Ht), H, Rmult_0_l, frnd_0. unfold Rdiv. rewrite Rmult_0_l, frnd_0, Rplus_0_l. apply frnd_fmt, fin_fmt.
  destruct HL as (_ & _ & (A & _) & _). exact A.
Qed.
(** from time 0 on the law never leaves the band at the first frequency *)
Lemma lin_band t : f64_ordinary t -> 0 <= f64_val t ->
  (F0 <= F1 -> F0 <= f64_val (lin ts te f0 f1 t)) /\ (F1 <= F0 -> f64_val (lin ts te f0 f1 t) <= F0).
Proof.
  intros Ht H. assert (HZ : f64_ordinary (S754_zero false)).
  { split; [split; reflexivity || exact I|]. cbn [f64_val]. rewrite Rabs_R0. rewrite powerRZ_bpow. apply bpow_ge_0. }
  assert (E := lin_zero _ HZ eq_refl). destruct (lin_mono _ _ HZ Ht H) as [M1 M2]. rewrite E in M1, M2. auto.
Qed.
Lemma lin_whole t zt zd zl : f64_ordinary t -> F1 - F0 = IZR zd -> T - S = IZR zl -> f64_val t = IZR zt -> (Z.abs (zt * zd) <= 2 ^ 53)%Z -> (Z.abs zd <= 2 ^ 53)%Z ->
  (Z.abs zl <= 2 ^ 53)%Z -> (zl | zt * zd)%Z -> fmt (IZR (zt * zd / zl) + F0) -> f64_val (lin ts te f0 f1 t) = IZR (zt * zd / zl) + F0.
Proof.
  intros Ht HD HT Hx Bm Bd Bl [k Hk] HF. rewrite (lin_val t Ht). destruct d_ok as (_ & Vd & _). destruct w_ok as (_ & Vw & _ & P).
  rewrite Vd, Vw, HD, HT, Hx. rewrite (frnd_fmt (IZR zd)), (frnd_fmt (IZR zl)) by (apply fmt_Z; assumption).
  rewrite <- mult_IZR. rewrite (frnd_fmt (IZR (zt * zd))) by (apply fmt_Z; assumption).
  rewrite HT in P. assert (Pz : (0 < zl)%Z) by (apply lt_IZR; exact P).
  rewrite Hk. rewrite Hk, Z.div_mul in HF by lia. rewrite Z.div_mul by lia. rewrite mult_IZR. replace (IZR k * IZR zl / IZR zl) with (IZR k) by (field; lra).
  rewrite (frnd_fmt (IZR k)); [apply frnd_fmt; exact HF|]. apply fmt_Z. rewrite Hk in Bm. rewrite Z.abs_mul in Bm. assert (1 <= Z.abs zl)%Z by lia. nia.
Qed.
Lemma lin_last zl zd : f64_ordinary te -> S = 0 -> T = IZR zl -> F1 - F0 = IZR zd -> (zl * Z.abs zd <= 2 ^ 53)%Z -> (Z.abs zd <= 2 ^ 53)%Z -> (zl <= 2 ^ 53)%Z ->
  f64_val (lin ts te f0 f1 te) = F1.
Proof.
  intros Ht Z0 Z1 HD B Bd Bl. destruct w_ok as (_ & _ & _ & P). rewrite Z0, Z1, Rminus_0_r in P. assert (Pz : (0 < zl)%Z) by (apply lt_IZR; exact P).
  assert (Q : (zl * zd / zl = zd)%Z) by (rewrite Z.mul_comm, Z.div_mul; lia).
  assert (E : IZR (zl * zd / zl) + F0 = F1) by (rewrite Q, <- HD; ring).
  rewrite (lin_whole te zl zd zl Ht HD); rewrite ?E; auto.
  - rewrite Z0, Z1. ring.
  - rewrite Z.abs_mul, (Z.abs_eq zl) by lia. exact B.
  - rewrite Z.abs_eq by lia. exact Bl.
  - exists zd. ring.
  - apply fin_fmt. destruct HL as (_ & _ & _ & (A & _) & _). exact A.
Qed.
End Line.

Lemma law_eq (time : list spec_float) f0 f1 t0 t1 : nth_error time 0 = Some t0 -> nth_error time (length time - 1) = Some t1 ->
  f_t_linear_array FA time f0 f1 = Ok (map (lin t0 t1 f0 f1) time).
Proof.
  intros H0 H1. assert (E : last time t0 = t1).
  { assert (time <> []) as Hn by (destruct time; discriminate). pose proof (last_nth_error time t0 Hn) as L. congruence. }
  destruct time as [|x time]; [discriminate H0|]. injection H0 as ->. unfold f_t_linear_array. change (@last spec_float (t0 :: time) t0) with (last (t0 :: time) t0). f_equal.
  apply map_ext. intros t. unfold f_t_linear_function. do 3 f_equal. exact E.
Qed.
Lemma small_ordinary x : valid_binary 53 1024 x = true ->
  match x with S754_zero _ => true | S754_finite _ m e => (Zpos m <? 2 ^ 53)%Z && (e <=? 0)%Z | _ => false end = true -> f64_ordinary x.
Proof.
  intros V H. split; [split; [exact V|destruct x; auto; discriminate]|]. rewrite powerRZ_bpow. destruct x as [b| | |b m e]; try discriminate; cbn [f64_val].
  - rewrite Rabs_R0. apply bpow_ge_0.
  - apply andb_true_iff in H. destruct H as [H1 H2]. apply Z.ltb_lt in H1. apply Z.leb_le in H2. rewrite powerRZ_bpow, Rabs_mult, (Rabs_right (bpow radix2 e)) by (apply Rle_ge, bpow_ge_0).
    assert (E : Rabs (if b then - IZR (Zpos m) else IZR (Zpos m)) = IZR (Zpos m)) by (destruct b; rewrite ?Rabs_Ropp; apply Rabs_right, IZR_ge; lia). rewrite E.
    change 300%Z with (300 + 0)%Z. rewrite bpow_plus. apply Rmult_le_compat; [apply IZR_le; lia|apply bpow_ge_0| |apply bpow_le; exact H2].
    apply Rle_trans with (bpow radix2 53); [|apply bpow_le; lia]. change (bpow radix2 53) with (IZR (2 ^ 53)). apply IZR_le. lia.
Qed.
Lemma tenth_long : powerRZ 2 (-300) <= IZR 7205759403792794 * powerRZ 2 (-56) - 0.
Proof.
  rewrite !powerRZ_bpow, Rminus_0_r. apply Rle_trans with (1 * bpow radix2 (-56)); [rewrite Rmult_1_l; apply bpow_le; lia|].
  apply Rmult_le_compat_r; [apply bpow_ge_0|]. apply IZR_le. lia.
Qed.
