(** A computed binary logarithm, rounded up (C54, C55, C69, C70). *)
From Coq Require Import Reals ZArith List Bool Lia Lra Psatz.
From Verif Require Import Num PreparedSpec.
Local Open Scope R_scope.

Lemma ln2_bounds : 0 < ln 2 <= 1.
Proof.
  split; [rewrite <- ln_1; apply ln_increasing; lra|].
  pose proof (exp_ineq1_le 1) as H. rewrite <- (ln_exp 1). destruct (Req_dec 2 (exp 1)) as [E|E]; [rewrite E; lra|].
  apply Rlt_le, ln_increasing; lra.
Qed.
Lemma ln_upper y : 0 < y -> ln y <= y - 1.
Proof. intros H. pose proof (exp_ineq1_le (ln y)) as E. rewrite exp_ln in E by exact H. lra. Qed.
Lemma ln_lower y : 0 < y -> 1 - / y <= ln y.
Proof.
  intros H. pose proof (ln_upper (/ y) (Rinv_0_lt_compat _ H)) as E. rewrite ln_Rinv in E by exact H. lra.
Qed.
Definition lb (m : Z) : R := ln (IZR m) / ln 2.
Lemma lb_pow k : (0 <= k)%Z -> lb (2 ^ k) = IZR k.
Proof.
  intros H. unfold lb. rewrite <- (Z2Nat.id k) by exact H. rewrite <- pow_IZR, ln_pow by lra. rewrite <- INR_IZR_INZ.
  field. pose proof ln2_bounds. lra.
Qed.
Lemma lb_mono a b : (1 <= a <= b)%Z -> lb a <= lb b.
Proof.
  intros H. unfold lb. apply Rmult_le_compat_r; [apply Rlt_le, Rinv_0_lt_compat, ln2_bounds|].
  destruct (Z.eq_dec a b) as [->|Hn]; [lra|]. apply Rlt_le, ln_increasing; [apply IZR_lt; lia | apply IZR_lt; lia].
Qed.
Lemma lb_diff a b : (1 <= a)%Z -> (1 <= b)%Z -> 1 - IZR a / IZR b <= lb b - lb a \/ IZR b < IZR a.
Proof.
  intros Ha Hb. destruct (Rlt_le_dec (IZR b) (IZR a)) as [H|H]; [right; exact H|left].
  apply (IZR_le 1) in Ha, Hb. unfold lb. rewrite <- Rdiv_minus_distr.
  assert (E : ln (IZR b) - ln (IZR a) = ln (IZR b / IZR a)) by (unfold Rdiv; rewrite ln_mult, ln_Rinv; [ring|lra|lra|apply Rinv_0_lt_compat; lra]).
  rewrite E. pose proof (ln_lower (IZR b / IZR a) ltac:(apply Rdiv_lt_0_compat; lra)) as L.
  replace (/ (IZR b / IZR a)) with (IZR a / IZR b) in L by (field; lra).
  assert (0 <= 1 - IZR a / IZR b).
  { apply Rmult_le_reg_r with (IZR b); [lra|]. replace ((1 - IZR a / IZR b) * IZR b) with (IZR b - IZR a) by (field; lra). lra. }
  eapply Rle_trans; [exact L|]. pose proof ln2_bounds as [B1 B2].
  apply Rmult_le_reg_r with (ln 2); [exact B1|]. unfold Rdiv at 2. rewrite Rmult_assoc, Rinv_l, Rmult_1_r by lra. nra.
Qed.

Lemma bits_eps : / 2 ^ 40 * 128 = / 2 ^ 33.
Proof. replace (2 ^ 40) with (2 ^ 33 * 128) by ring. field. Qed.
(** [2^(k-1) < m <= 2^k], [k <= 32]: the rounded logarithm rounded up is [k], or [k+1] for [m = 2^k] *)
Lemma clog_between clog m k : rounded_log clog -> (1 <= k <= 33)%Z -> (2 ^ (k - 1) < m <= 2 ^ k)%Z ->
  clog m = k \/ (m = 2 ^ k /\ clog m = k + 1)%Z.
Proof.
  intros [_ H] Hk Hm.
  assert (Hp : (1 <= 2 ^ (k - 1))%Z) by (pose proof (Z.pow_pos_nonneg 2 (k - 1)); lia).
  assert (Hd : (2 ^ k = 2 * 2 ^ (k - 1))%Z) by (replace k with (Z.succ (k - 1)) at 1 by lia; apply Z.pow_succ_r; lia).
  assert (Hb : (2 ^ k <= 2 ^ 33)%Z) by (apply Z.pow_le_mono_r; lia).
  destruct (H m ltac:(lia)) as (v & Hv & Hc). fold (lb m) in Hv. set (e := / 2 ^ 40) in *.
  pose proof bits_eps as He. fold e in He.
  assert (He0 : 0 < e) by (unfold e; apply Rinv_0_lt_compat, pow_lt; lra).
  assert (Hq : / 2 ^ 33 = / IZR (2 ^ 33)) by (rewrite (pow_IZR 2 33); reflexivity).
  pose proof (lb_pow k ltac:(lia)) as Lk. pose proof (lb_pow (k - 1) ltac:(lia)) as Lk1.
  pose proof (lb_mono m (2 ^ k) ltac:(lia)) as M1. rewrite Lk in M1.
  pose proof (lb_mono 1 m ltac:(lia)) as M0. rewrite (lb_pow 0 ltac:(lia) : lb 1 = 0) in M0.
  assert (Kr : IZR k <= 33) by (apply IZR_le; lia).
  rewrite minus_IZR in Lk1.
  assert (Hve : Rabs (v - lb m) <= e * 33) by (eapply Rle_trans; [exact Hv|]; apply Rmult_le_compat_l; lra).
  pose proof (Rle_abs (v - lb m)) as A1. pose proof (Rle_abs (- (v - lb m))) as A2. rewrite Rabs_Ropp in A2. clear Hv.
  (* from below *)
  assert (Lo : IZR k - 1 < v).
  { destruct (lb_diff (2 ^ (k - 1)) m Hp ltac:(lia)) as [D|D]; [|apply lt_IZR in D; lia].
    rewrite Lk1 in D.
    assert (G : / 2 ^ 33 <= 1 - IZR (2 ^ (k - 1)) / IZR m).
    { assert (P : 0 < IZR m) by (apply IZR_lt; lia).
      apply Rmult_le_reg_r with (IZR m); [exact P|]. replace ((1 - IZR (2 ^ (k - 1)) / IZR m) * IZR m) with (IZR m - IZR (2 ^ (k - 1))) by (field; lra).
      rewrite <- minus_IZR. apply Rle_trans with 1; [|apply IZR_le; lia].
      rewrite Hq. apply Rmult_le_reg_l with (IZR (2 ^ 33)); [apply IZR_lt; reflexivity|]. rewrite <- Rmult_assoc, Rinv_r, Rmult_1_l, Rmult_1_r; [apply IZR_le; lia|].
      apply not_0_IZR. discriminate. }
    lra. }
  assert (C1 : (k <= clog m)%Z) by (apply Z.lt_pred_le; apply lt_IZR; rewrite <- Z.sub_1_r, minus_IZR; lra).
  destruct (Z.eq_dec m (2 ^ k)) as [Em|Nm].
  - assert (clog m - 1 < k + 1)%Z by (apply lt_IZR; rewrite minus_IZR, plus_IZR; lra). lia.
  - left. destruct (lb_diff m (2 ^ k) ltac:(lia) ltac:(lia)) as [D|D]; [|apply lt_IZR in D; lia].
    rewrite Lk in D.
    assert (G : / 2 ^ 33 <= 1 - IZR m / IZR (2 ^ k)).
    { assert (P : 0 < IZR (2 ^ k)) by (apply IZR_lt; lia).
      apply Rmult_le_reg_r with (IZR (2 ^ k)); [exact P|]. replace ((1 - IZR m / IZR (2 ^ k)) * IZR (2 ^ k)) with (IZR (2 ^ k) - IZR m) by (field; lra).
      rewrite <- minus_IZR. apply Rle_trans with 1; [|apply IZR_le; lia].
      rewrite Hq. apply Rmult_le_reg_l with (IZR (2 ^ 33)); [apply IZR_lt; reflexivity|]. rewrite <- Rmult_assoc, Rinv_r, Rmult_1_l, Rmult_1_r; [apply IZR_le; lia|].
      apply not_0_IZR. discriminate. }
    assert (clog m - 1 < k)%Z by (apply lt_IZR; rewrite minus_IZR; lra). lia.
Qed.
Lemma clog_one clog : rounded_log clog -> clog 1%Z = 0%Z.
Proof.
  intros [_ H]. destruct (H 1%Z ltac:(lia)) as (v & Hv & Hc). rewrite ln_1 in Hv. unfold Rdiv in Hv. rewrite Rmult_0_l, Rmult_0_r in Hv.
  assert (v = 0) as ->. { pose proof (Rabs_pos (v - 0)). assert (Rabs (v - 0) = 0) by lra. destruct (Req_dec v 0) as [E|E]; [exact E|]. pose proof (Rabs_no_R0 (v - 0)). lra. }
  assert (-1 < clog 1)%Z by (apply lt_IZR; lra). assert (clog 1 < 1)%Z; [|lia]. apply lt_IZR. lra.
Qed.
(** beyond 2^32 at least 33 *)
Lemma clog_big clog m : rounded_log clog -> (2 ^ 32 < m)%Z -> (33 <= clog m)%Z.
Proof.
  intros R Hm. destruct (Z.le_gt_cases m (2 ^ 33)) as [H|H].
  - destruct (clog_between clog m 33 R ltac:(lia) ltac:(change (33 - 1)%Z with 32%Z; lia)) as [E|[_ E]]; lia.
  - destruct R as [_ R]. destruct (R m ltac:(lia)) as (v & Hv & Hc). fold (lb m) in Hv.
    pose proof (lb_mono (2 ^ 33) m ltac:(lia)) as M. rewrite lb_pow in M by lia.
    pose proof (Rle_abs (v - lb m)) as A1. pose proof (Rle_abs (- (v - lb m))) as A2. rewrite Rabs_Ropp in A2.
    assert (He : / 2 ^ 40 * lb m <= / 1024 * lb m).
    { apply Rmult_le_compat_r; [lra|]. apply Rinv_le_contravar; [lra|]. replace (2 ^ 40) with (1024 * (2 ^ 30)) by ring.
      assert (1 <= 2 ^ 30) by (apply pow_R1_Rle; lra). lra. }
    assert (32 < clog m)%Z; [|lia]. apply lt_IZR. lra.
Qed.
(** the exact logarithm is one such *)
Lemma exact_log : rounded_log Z.log2_up.
Proof.
  split; [reflexivity|]. intros m Hm. exists (ln (IZR m) / ln 2). split.
  - rewrite Rminus_diag_eq, Rabs_R0 by reflexivity. fold (lb m). pose proof (lb_mono 1 m ltac:(lia)) as M0. rewrite (lb_pow 0 ltac:(lia) : lb 1 = 0) in M0.
    apply Rmult_le_pos; [|exact M0]. apply Rlt_le, Rinv_0_lt_compat, pow_lt. lra.
  - fold (lb m). destruct (Z.eq_dec m 1) as [->|N].
    { rewrite (lb_pow 0 ltac:(lia) : lb 1 = 0). change (Z.log2_up 1) with 0%Z. lra. }
    pose proof (Z.log2_up_spec m ltac:(lia)) as S. rewrite <- Z.sub_1_r in S. pose proof (Z.log2_up_pos m ltac:(lia)).
    set (k := Z.log2_up m) in *. split.
    + rewrite <- minus_IZR, <- (lb_pow (k - 1)) by lia.
      unfold lb. apply Rmult_lt_compat_r; [apply Rinv_0_lt_compat, ln2_bounds|]. apply ln_increasing; apply IZR_lt; [apply Z.pow_pos_nonneg; lia|lia].
    + rewrite <- (lb_pow k) by lia. apply lb_mono. lia.
Qed.
(** and so is one that is too high at one power of two *)
Lemma rounded_up_at k : (2 <= k <= 40)%Z -> rounded_log (fun m => if (m =? 2 ^ k)%Z then (k + 1)%Z else Z.log2_up m).
Proof.
  intros Hk. pose proof exact_log as [_ E]. split.
  - replace (2 =? 2 ^ k)%Z with false; [reflexivity|]. symmetry. apply Z.eqb_neq. intros H.
    pose proof (Z.pow_lt_mono_r 2 1 k ltac:(lia) ltac:(lia) ltac:(lia)). change (2 ^ 1)%Z with 2%Z in *. lia.
  - intros m Hm. destruct (Z.eqb_spec m (2 ^ k)) as [->|H]; [|exact (E m Hm)].
    fold (lb (2 ^ k)). rewrite lb_pow by lia.
    assert (He : 0 < / 2 ^ 40) by (apply Rinv_0_lt_compat, pow_lt; lra).
    assert (Hk1 : 1 <= IZR k) by (apply IZR_le; lia).
    assert (Hs : / 2 ^ 40 <= / 2).
    { apply Rinv_le_contravar; [lra|]. replace (2 ^ 40) with (2 * 2 ^ 39) by ring. assert (1 <= 2 ^ 39) by (apply pow_R1_Rle; lra). lra. }
    exists (IZR k + / 2 ^ 40). rewrite plus_IZR. split; [|lra].
    replace (IZR k + / 2 ^ 40 - IZR k) with (/ 2 ^ 40) by ring. rewrite Rabs_right by lra.
    rewrite <- (Rmult_1_r (/ 2 ^ 40)) at 1. apply Rmult_le_compat_l; lra.
Qed.
