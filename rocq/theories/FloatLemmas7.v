(** Proofs for C86, continued: sums in any order, the integral over the whole axis and the norm in binary64. *)
From Coq Require Import Reals ZArith List Bool Lia Lra Psatz Permutation SpecFloat.
From Flocq Require Import Core.Core IEEE754.BinarySingleNaN.
From Verif Require Import Num Numpy Spec AxisModel RelModel RLemmas FloatSpec FloatLemmas FloatLemmas2 FloatLemmas3 FloatLemmas4 CalcSpec FloatLemmas5 FloatLemmas6.
Import ListNotations.
Local Open Scope R_scope.

Lemma total_app l r : total (l ++ r) = total l + total r.
Proof. unfold total. induction l as [|a l IH]; cbn [app fold_right]; [ring|]. rewrite IH. ring. Qed.
Lemma total_perm l r : Permutation l r -> total l = total r.
Proof. unfold total. induction 1; cbn [fold_right]; [reflexivity|rewrite IHPermutation; reflexivity|ring|congruence]. Qed.
Lemma total_abs l : Rabs (total l) <= total (map Rabs l).
Proof. unfold total. induction l as [|a l IH]; cbn [map fold_right] in *; [rewrite Rabs_R0; lra|]. pose proof (Rabs_triang a (fold_right Rplus 0 l)). lra. Qed.
Lemma total_nonneg l : Forall (fun a => 0 <= a) l -> 0 <= total l.
Proof. unfold total. induction 1; cbn [fold_right]; lra. Qed.
Lemma abs_nonneg l : Forall (fun a => 0 <= a) (map Rabs l).
Proof. apply Forall_forall. intros a Ha. apply in_map_iff in Ha as (b & <- & _). apply Rabs_pos. Qed.
Lemma abs_same l : Forall (fun a => 0 <= a) l -> map Rabs l = l.
Proof. induction 1; cbn [map]; [reflexivity|]. rewrite Rabs_right by lra. f_equal. assumption. Qed.
Lemma total_small l c : Forall (fun a => Rabs a <= c) l -> total (map Rabs l) <= INR (length l) * c.
Proof.
  induction 1; [cbn; lra|]. change (total (map Rabs (x :: l))) with (Rabs x + total (map Rabs l)).
  change (length (x :: l)) with (S (length l)). rewrite S_INR. lra.
Qed.
Lemma frnd_nonneg x : 0 <= x -> 0 <= frnd x.
Proof. intros H. apply frnd_ge_fmt; [apply generic_format_0|exact H]. Qed.

(** ** sums in any order *)
Lemma sum_any l v : added l v -> Forall f64_fin l -> Forall (fun x => Rabs (f64_val x) <= bpow radix2 950) l -> INR (length l) <= 2 ^ 48 ->
  f64_fin v /\ Rabs (f64_val v - total (map f64_val l)) <= 2 * INR (length l) * (uu * total (map Rabs (map f64_val l))) /\
  (Forall (fun x => 0 <= f64_val x) l -> 0 <= f64_val v).
Proof.
  intros H. induction H as [b|x|l r x y Hl IHl Hr IHr|l l' x HP Hl IHl]; intros F B N.
  - assert (V0 : f64_val (S754_zero b) = 0) by reflexivity. rewrite V0. split; [repeat split|]. unfold total. cbn [map fold_right length INR].
    split; [rewrite Rminus_0_r, Rabs_R0; lra|lra].
  - apply Forall_inv in F. split; [exact F|]. unfold total. cbn [map fold_right length INR]. rewrite Rplus_0_r. split.
    + replace (f64_val x - f64_val x) with 0 by ring. rewrite Rabs_R0, Rplus_0_r. pose proof uu_pos. pose proof (Rabs_pos (f64_val x)).
      assert (0 <= uu * Rabs (f64_val x)) by (apply Rmult_le_pos; lra). lra.
    + intros P. exact (Forall_inv P).
  - rewrite app_length, plus_INR in *. apply Forall_app in F as [Fl Fr]. apply Forall_app in B as [Bl Br]. pose proof (pos_INR (length l)) as Pl. pose proof (pos_INR (length r)) as Pr.
    destruct (IHl Fl Bl ltac:(lra)) as (Fx & Ex & Nx). destruct (IHr Fr Br ltac:(lra)) as (Fy & Ey & Ny).
    rewrite !map_app, !total_app.
    set (A1 := total (map Rabs (map f64_val l))) in *. set (A2 := total (map Rabs (map f64_val r))) in *.
    set (T1 := total (map f64_val l)) in *. set (T2 := total (map f64_val r)) in *.
    assert (PA1 : 0 <= A1) by (apply total_nonneg, abs_nonneg). assert (PA2 : 0 <= A2) by (apply total_nonneg, abs_nonneg).
    assert (TA1 : Rabs T1 <= A1) by apply total_abs. assert (TA2 : Rabs T2 <= A2) by apply total_abs.
    pose proof uu_pos as U.
    assert (Q1 : 0 <= uu * A1) by (apply Rmult_le_pos; lra). assert (Q2 : 0 <= uu * A2) by (apply Rmult_le_pos; lra).
    assert (S1 : 2 * INR (length l) * (uu * A1) <= / 8 * A1).
    { replace (2 * INR (length l) * (uu * A1)) with ((2 * INR (length l) * uu) * A1) by ring. apply Rmult_le_compat_r; [lra|]. unfold uu. lra. }
    assert (S2 : 2 * INR (length r) * (uu * A2) <= / 8 * A2).
    { replace (2 * INR (length r) * (uu * A2)) with ((2 * INR (length r) * uu) * A2) by ring. apply Rmult_le_compat_r; [lra|]. unfold uu. lra. }
    assert (Es : Rabs (f64_val x + f64_val y - (T1 + T2)) <= 2 * INR (length l) * (uu * A1) + 2 * INR (length r) * (uu * A2)).
    { replace (f64_val x + f64_val y - (T1 + T2)) with ((f64_val x - T1) + (f64_val y - T2)) by ring. eapply Rle_trans; [apply Rabs_triang|]. lra. }
    pose proof (near_abs _ _ _ Es) as Bs. pose proof (Rabs_triang T1 T2) as Tt.
    assert (Bs2 : Rabs (f64_val x + f64_val y) <= 9 / 8 * (A1 + A2)) by lra.
    assert (BA : A1 + A2 <= bpow radix2 998).
    { apply Rle_trans with (INR (length l) * bpow radix2 950 + INR (length r) * bpow radix2 950).
      - apply Rplus_le_compat; [unfold A1|unfold A2]; (eapply Rle_trans; [apply total_small with (c := bpow radix2 950)|rewrite map_length; lra]); apply Forall_map; assumption.
      - rewrite <- Rmult_plus_distr_r. change 998%Z with (48 + 950)%Z. rewrite (bpow_plus _ 48). apply Rmult_le_compat_r; [apply bpow_ge_0|].
        replace (bpow radix2 48) with (2 ^ 48) by (cbn; lra). exact N. }
    assert (B4 : 4 * bpow radix2 998 = bpow radix2 1000) by (change 1000%Z with (2 + 998)%Z; rewrite (bpow_plus _ 2); reflexivity).
    assert (B1000 : Rabs (f64_val x + f64_val y) <= bpow radix2 1000) by lra.
    destruct (add_ok x y Fx Fy B1000) as [Fz Ez]. split; [exact Fz|]. split.
    + destruct l as [|a l]; [|destruct r as [|c r]].
      * assert (Z1 : T1 = 0 /\ A1 = 0) by (split; reflexivity). destruct Z1 as [Z1 Z2]. rewrite Z1, Z2 in *. cbn [length INR] in *.
        assert (X0 : f64_val x = 0). { rewrite Rminus_0_r in Ex. pose proof (Rabs_pos (f64_val x)). destruct (Req_dec (f64_val x) 0) as [E|E]; [exact E|apply Rabs_pos_lt in E; lra]. }
        destruct (f64_add x y Fx Fy ltac:(apply le_bpow_trans with 1000%Z; [exact B1000|lia])) as [_ Va]. rewrite Va, X0, Rplus_0_l.
        rewrite frnd_fmt by (apply fin_fmt; exact Fy). replace (f64_val y - (0 + T2)) with (f64_val y - T2) by ring. lra.
      * assert (Z1 : T2 = 0 /\ A2 = 0) by (split; reflexivity). destruct Z1 as [Z1 Z2]. rewrite Z1, Z2 in *. cbn [length INR] in *.
        assert (X0 : f64_val y = 0). { rewrite Rminus_0_r in Ey. pose proof (Rabs_pos (f64_val y)). destruct (Req_dec (f64_val y) 0) as [E|E]; [exact E|apply Rabs_pos_lt in E; lra]. }
        destruct (f64_add x y Fx Fy ltac:(apply le_bpow_trans with 1000%Z; [exact B1000|lia])) as [_ Va]. rewrite Va, X0, Rplus_0_r.
        rewrite frnd_fmt by (apply fin_fmt; exact Fx). replace (f64_val x - (T1 + 0)) with (f64_val x - T1) by ring. lra.
      * eapply Rle_trans; [apply (near_trans _ _ _ _ _ Ez Es)|].
        assert (O1 : 1 <= INR (length (a :: l))) by (apply (le_INR 1); cbn; lia). assert (O2 : 1 <= INR (length (c :: r))) by (apply (le_INR 1); cbn; lia).
        set (n1 := INR (length (a :: l))) in *. set (n2 := INR (length (c :: r))) in *.
        assert (uu * Rabs (f64_val x + f64_val y) <= uu * (9 / 8 * (A1 + A2))) by (apply Rmult_le_compat_l; lra).
        assert (1 * (uu * A1) <= n2 * (uu * A1)) by (apply Rmult_le_compat_r; lra). assert (1 * (uu * A2) <= n1 * (uu * A2)) by (apply Rmult_le_compat_r; lra). lra.
    + intros P. apply Forall_app in P as [P1 P2]. destruct (f64_add x y Fx Fy ltac:(apply le_bpow_trans with 1000%Z; [exact B1000|lia])) as [_ Va].
      rewrite Va. apply frnd_nonneg. specialize (Nx P1). specialize (Ny P2). lra.
  - apply Permutation_sym in HP. destruct IHl as (Fx & Ex & Nx).
    + eapply Permutation_Forall; [exact HP|exact F].
    + eapply Permutation_Forall; [exact HP|exact B].
    + rewrite <- (Permutation_length HP). exact N.
    + split; [exact Fx|]. rewrite (Permutation_length HP).
      rewrite (total_perm (map f64_val l') (map f64_val l)) by (apply Permutation_map; exact HP).
      rewrite (total_perm (map Rabs (map f64_val l')) (map Rabs (map f64_val l))) by (do 2 apply Permutation_map; exact HP).
      split; [exact Ex|]. intros P. apply Nx. eapply Permutation_Forall; [exact HP|exact P].
Qed.
Lemma added_fold l : forall acc l0, added l0 acc -> added (l0 ++ l) (fold_left (SFadd 53 1024) l acc).
Proof.
  induction l as [|a l IH]; intros acc l0 H; cbn [fold_left]; [rewrite app_nil_r; exact H|].
  replace (l0 ++ a :: l) with ((l0 ++ [a]) ++ l) by (rewrite <- app_assoc; reflexivity). apply IH. apply added_two; [exact H|apply added_one].
Qed.
Lemma v_sum_added (l : list spec_float) : added l (v_sum FA FV l).
Proof. apply (added_fold l (S754_zero false) []). apply added_none. Qed.

(** ** one panel *)
Lemma term_sample x0 x1 y0 y1 : f64_fin x0 -> f64_fin x1 -> f64_fin y0 -> f64_fin y1 ->
  0 <= f64_val x1 - f64_val x0 <= bpow radix2 301 -> Rabs (f64_val y0) <= bpow radix2 601 -> Rabs (f64_val y1) <= bpow radix2 601 ->
  let t := SFdiv 53 1024 (SFmul 53 1024 (SFsub 53 1024 x1 x0) (SFadd 53 1024 y1 y0)) (n_of_Z FA 2) in
  let T := (f64_val x1 - f64_val x0) * (f64_val y0 + f64_val y1) / 2 in
  f64_fin t /\ Rabs (f64_val t - T) <= 5 * (uu * Rabs T) + 2 * et /\ Rabs T <= bpow radix2 903 /\
  (0 <= f64_val y0 -> 0 <= f64_val y1 -> 0 <= f64_val t).
Proof.
  intros F0 F1 G0 G1 HX B0 B1 t T. pose proof uu_pos as U. pose proof uu_small as US. pose proof et_pos as TP. pose proof et_small as TS.
  destruct two_fin as [F2 V2]. set (X := f64_val x1 - f64_val x0) in *. set (W := f64_val y1 + f64_val y0).
  assert (BX : Rabs X <= bpow radix2 301) by (rewrite Rabs_right by lra; lra).
  assert (BW : Rabs W <= bpow radix2 602) by (apply (le_bpow_add _ _ 601); assumption).
  destruct (sub_ok x1 x0 F1 F0) as [Fg Eg]; [apply (le_bpow_trans _ _ _ BX); lia|].
  destruct (add_ok y1 y0 G1 G0) as [Fw Ew]; [apply (le_bpow_trans _ _ _ BW); lia|].
  assert (Ng : 0 <= f64_val (SFsub 53 1024 x1 x0)).
  { destruct (f64_sub x1 x0 F1 F0) as [_ V]; [apply (le_bpow_trans _ _ _ BX); lia|]. rewrite V. apply frnd_nonneg. fold X. lra. }
  assert (Nw : 0 <= f64_val y0 -> 0 <= f64_val y1 -> 0 <= f64_val (SFadd 53 1024 y1 y0)).
  { intros P0 P1. destruct (f64_add y1 y0 G1 G0) as [_ V]; [apply (le_bpow_trans _ _ _ BW); lia|]. rewrite V. apply frnd_nonneg. lra. }
  set (g := SFsub 53 1024 x1 x0) in *. set (w := SFadd 53 1024 y1 y0) in *. fold X in Eg. fold W in Ew.
  apply factor in Eg as (a & Ha & Eg). apply factor in Ew as (b & Hb & Ew).
  assert (I0 : Rabs (1 - 1) <= 0) by (replace (1 - 1) with 0 by ring; rewrite Rabs_R0; lra).
  pose proof (one_more _ _ _ I0 Ha ltac:(lra)) as I1. pose proof (one_more _ _ _ I1 Hb ltac:(lra)) as I2.
  set (P2 := 1 * (1 + a) * (1 + b)) in *.
  assert (Pe : f64_val g * f64_val w = X * W * P2) by (rewrite Eg, Ew; unfold P2; ring).
  assert (BXW : Rabs (X * W) <= bpow radix2 903) by (apply (le_bpow_mul _ _ 301 602); assumption).
  assert (B1p : 1 <= bpow radix2 903) by (change 1 with (bpow radix2 0); apply bpow_le; lia).
  assert (B4 : 4 * bpow radix2 903 <= bpow radix2 1000) by (change 4 with (bpow radix2 2); rewrite <- bpow_plus; apply bpow_le; lia).
  assert (BP : Rabs (X * W * P2) <= 2 * bpow radix2 903).
  { rewrite Rabs_mult, (Rmult_comm 2). apply Rmult_le_compat; try apply Rabs_pos; [exact BXW|]. eapply Rle_trans; [apply (near_one_abs _ _ I2)|]. lra. }
  destruct (mul_ok g w Fg Fw) as [Fp Ep]; [rewrite Pe; lra|].
  assert (Np : 0 <= f64_val y0 -> 0 <= f64_val y1 -> 0 <= f64_val (SFmul 53 1024 g w)).
  { intros P0 P1. destruct (f64_mul g w Fg Fw) as [_ V]; [apply le_bpow_trans with 1000%Z; [rewrite Pe; lra|lia]|]. rewrite V. apply frnd_nonneg.
    apply Rmult_le_pos; [exact Ng|exact (Nw P0 P1)]. }
  set (p := SFmul 53 1024 g w) in *. rewrite Pe in Ep. apply factor_et in Ep as (d1 & t1 & Hd1 & Ht1 & Ep).
  pose proof (one_more _ _ _ I2 Hd1 ltac:(lra)) as I3.
  assert (Bp : Rabs (f64_val p / 2) <= bpow radix2 1000).
  { unfold Rdiv. rewrite Rabs_mult, (Rabs_right (/ 2)) by lra. rewrite Ep. pose proof (Rabs_triang (X * W * P2 * (1 + d1)) t1) as Tr.
    assert (Rabs (X * W * P2 * (1 + d1)) <= 2 * bpow radix2 903 * 2).
    { rewrite Rabs_mult. apply Rmult_le_compat; try apply Rabs_pos; [exact BP|]. pose proof (Rabs_triang 1 d1) as Tr2. rewrite Rabs_R1 in Tr2. lra. }
    lra. }
  destruct (div_ok p (n_of_Z FA 2) Fp F2) as [Ft Et]; rewrite ?V2; [lra|exact Bp|]. fold t in Ft, Et. rewrite V2 in Et.
  split; [exact Ft|]. split; [|split].
  - apply factor_et in Et as (d2 & t2 & Hd2 & Ht2 & Et). pose proof (one_more _ _ _ I3 Hd2 ltac:(lra)) as I4.
    assert (ET : T = X * W / 2) by (unfold T, W; field).
    replace (f64_val t - T) with (T * (P2 * (1 + d1) * (1 + d2) - 1) + (t1 * ((1 + d2) / 2) + t2)) by (rewrite Et, Ep, ET; field).
    eapply Rle_trans; [apply Rabs_triang|]. eapply Rle_trans; [apply Rplus_le_compat_l, Rabs_triang|].
    assert (Y1 : Rabs (T * (P2 * (1 + d1) * (1 + d2) - 1)) <= Rabs T * (5 * uu)).
    { rewrite Rabs_mult. apply Rmult_le_compat_l; [apply Rabs_pos|]. eapply Rle_trans; [exact I4|]. lra. }
    assert (Y2 : Rabs (t1 * ((1 + d2) / 2)) <= et * 1).
    { rewrite Rabs_mult. apply Rmult_le_compat; try apply Rabs_pos; [exact Ht1|]. apply Rabs_le_inv in Hd2. apply Rabs_le. lra. }
    lra.
  - replace T with (X * W * / 2) by (unfold T, W; field). rewrite Rabs_mult, (Rabs_right (/ 2)) by lra. pose proof (Rabs_pos (X * W)). lra.
  - intros P0 P1. destruct (f64_div p (n_of_Z FA 2) Fp F2) as [_ V]; rewrite ?V2; [lra|apply le_bpow_trans with 1000%Z; [exact Bp|lia]|].
    fold t in V. rewrite V, V2. apply frnd_nonneg. specialize (Np P0 P1). lra.
Qed.

(** ** all panels *)
Definition gaps (xs : list spec_float) : Prop := Forall f64_fin xs /\
  forall i a b, nth_error xs i = Some a -> nth_error xs (S i) = Some b -> 0 <= f64_val b - f64_val a <= bpow radix2 301.
Definition okterm (t : spec_float) (T : R) : Prop := f64_fin t /\ Rabs (f64_val t - T) <= 5 * (uu * Rabs T) + 2 * et /\ Rabs T <= bpow radix2 903.
Definition terms64 (y x : list spec_float) : list spec_float := trapz_terms FA FV y x.
Definition big_ok (y : spec_float) : Prop := f64_fin y /\ Rabs (f64_val y) <= bpow radix2 601.

Lemma terms_ok : forall y x, gaps x -> Forall big_ok y -> Forall2 okterm (terms64 y x) (panels (vals x) (vals y)).
Proof.
  induction y as [|y0 [|y1 y] IH]; intros x G Y; [destruct x as [|? [|? ?]]; constructor|destruct x as [|? [|? ?]]; constructor|].
  destruct x as [|x0 [|x1 x]]; [constructor|constructor|].
  change (terms64 (y0 :: y1 :: y) (x0 :: x1 :: x)) with
    (SFdiv 53 1024 (SFmul 53 1024 (SFsub 53 1024 x1 x0) (SFadd 53 1024 y1 y0)) (n_of_Z FA 2) :: terms64 (y1 :: y) (x1 :: x)).
  change (panels (vals (x0 :: x1 :: x)) (vals (y0 :: y1 :: y))) with
    ((f64_val x1 - f64_val x0) * (f64_val y0 + f64_val y1) / 2 :: panels (vals (x1 :: x)) (vals (y1 :: y))).
  destruct G as [Fx Gx]. inversion Fx as [|? ? F0 Fx' E1]; subst. inversion Fx' as [|? ? F1 Fx'' E1]; subst.
  inversion Y as [|? ? [G0 B0] Y' E1]; subst. inversion Y' as [|? ? [G1 B1] Y'' E1]; subst. constructor.
  - destruct (term_sample x0 x1 y0 y1 F0 F1 G0 G1 (Gx 0%nat x0 x1 eq_refl eq_refl) B0 B1) as (H1 & H2 & H3 & _). repeat split; assumption || apply H1.
  - apply IH; [split; [exact Fx'|]|exact Y']. intros i a b Ha Hb. apply (Gx (S i) a b Ha Hb).
Qed.
Lemma terms_nonneg : forall y x, gaps x -> Forall big_ok y -> Forall (fun v => 0 <= f64_val v) y -> Forall (fun t => 0 <= f64_val t) (terms64 y x).
Proof.
  induction y as [|y0 [|y1 y] IH]; intros x G Y N; [destruct x as [|? [|? ?]]; constructor|destruct x as [|? [|? ?]]; constructor|].
  destruct x as [|x0 [|x1 x]]; [constructor|constructor|].
  change (terms64 (y0 :: y1 :: y) (x0 :: x1 :: x)) with
    (SFdiv 53 1024 (SFmul 53 1024 (SFsub 53 1024 x1 x0) (SFadd 53 1024 y1 y0)) (n_of_Z FA 2) :: terms64 (y1 :: y) (x1 :: x)).
  destruct G as [Fx Gx]. inversion Fx as [|? ? F0 Fx' E1]; subst. inversion Fx' as [|? ? F1 Fx'' E1]; subst.
  inversion Y as [|? ? [G0 B0] Y' E1]; subst. inversion Y' as [|? ? [G1 B1] Y'' E1]; subst.
  inversion N as [|? ? N0 N' E1]; subst. inversion N' as [|? ? N1 N'' E1]; subst. constructor.
  - apply (term_sample x0 x1 y0 y1 F0 F1 G0 G1 (Gx 0%nat x0 x1 eq_refl eq_refl) B0 B1); assumption.
  - apply IH; [split; [exact Fx'|]|exact Y'|exact N']. intros i a b Ha Hb. apply (Gx (S i) a b Ha Hb).
Qed.
Lemma terms_total l p : Forall2 okterm l p ->
  let A := total (map Rabs p) in let n := INR (length l) in
  Rabs (total (map f64_val l) - total p) <= 5 * (uu * A) + n * (2 * et) /\ total (map Rabs (map f64_val l)) <= A + 5 * (uu * A) + n * (2 * et).
Proof.
  cbv zeta. induction 1 as [|t T l p (Ft & Et & _) _ [IH1 IH2]].
  - unfold total. cbn [map fold_right length INR]. replace (0 - 0) with 0 by ring. rewrite Rabs_R0. lra.
  - change (length (t :: l)) with (S (length l)). rewrite S_INR. cbn [map].
    change (total (f64_val t :: map f64_val l)) with (f64_val t + total (map f64_val l)). change (total (T :: p)) with (T + total p).
    change (total (Rabs T :: map Rabs p)) with (Rabs T + total (map Rabs p)).
    change (total (Rabs (f64_val t) :: map Rabs (map f64_val l))) with (Rabs (f64_val t) + total (map Rabs (map f64_val l))).
    split.
    + replace (f64_val t + total (map f64_val l) - (T + total p)) with ((f64_val t - T) + (total (map f64_val l) - total p)) by ring.
      eapply Rle_trans; [apply Rabs_triang|]. lra.
    + pose proof (near_abs _ _ _ Et). lra.
Qed.
Lemma Forall2_len {T U} (P : T -> U -> Prop) l m : Forall2 P l m -> length l = length m.
Proof. induction 1; cbn; congruence. Qed.
Lemma panels_len : forall x y : list R, length x = length y -> length (panels x y) = (length x - 1)%nat.
Proof.
  induction x as [|x0 [|x1 x] IH]; intros [|y0 [|y1 y]] H; try discriminate; try reflexivity.
  change (panels (x0 :: x1 :: x) (y0 :: y1 :: y)) with ((x1 - x0) * (y0 + y1) / 2 :: panels (x1 :: x) (y1 :: y)). cbn [length] in *. rewrite IH by (cbn [length]; lia). cbn [length]. lia.
Qed.

Lemma integral_any x y v : gaps x -> Forall big_ok y -> length x = length y -> INR (length x) <= 2 ^ 48 -> added (terms64 y x) v ->
  let p := panels (vals x) (vals y) in let n := INR (length p) in
  f64_fin v /\ Rabs (f64_val v - total p) <= (n + 2) / 2 ^ 51 * total (map Rabs p) + n * powerRZ 2 (-1073) /\
  total (map Rabs p) <= bpow radix2 951 /\ length p = (length x - 1)%nat /\
  (Forall (fun v => 0 <= f64_val v) y -> 0 <= f64_val v).
Proof.
  intros G Y L N Av p n. pose proof (terms_ok y x G Y) as HT. fold p in HT. pose proof (Forall2_len _ _ _ HT) as Lp.
  assert (Lq : length p = (length x - 1)%nat) by (unfold p; rewrite panels_len; unfold vals; rewrite !map_length; [reflexivity|exact L]).
  destruct (terms_total _ _ HT) as [T1 T2]. rewrite Lp in T1, T2. fold n in T1, T2. set (A := total (map Rabs p)) in *.
  pose proof uu_pos as U. pose proof uu_small as US. pose proof et_pos as TP. pose proof et_small as TS.
  assert (PA : 0 <= A) by (apply total_nonneg, abs_nonneg).
  assert (Pn : 0 <= n) by apply pos_INR. assert (Nn : n <= 2 ^ 48) by (unfold n; eapply Rle_trans; [apply le_INR|exact N]; lia).
  assert (HB : Forall (fun x => Rabs (f64_val x) <= bpow radix2 950) (terms64 y x) /\ Forall f64_fin (terms64 y x)).
  { clear - HT U US TP TS. induction HT as [|t T l q (Ft & Et & Bt) _ [IH1 IH2]]; [split; constructor|]. split; constructor; try assumption.
    pose proof (near_abs _ _ _ Et). assert (uu * Rabs T <= / 1024 * Rabs T) by (apply Rmult_le_compat_r; [apply Rabs_pos|lra]).
    assert (1 <= bpow radix2 903) by (change 1 with (bpow radix2 0); apply bpow_le; lia).
    apply Rle_trans with (4 * bpow radix2 903); [lra|]. change 4 with (bpow radix2 2). rewrite <- bpow_plus. apply bpow_le. lia. }
  destruct HB as [HB HFn]. destruct (sum_any _ _ Av HFn HB) as (Fv & Ev & Nv); [rewrite Lp; exact Nn|]. rewrite Lp in Ev. fold n in Ev.
  split; [exact Fv|]. split; [|split; [|split]].
  - eapply Rle_trans; [apply (near_trans _ _ _ _ _ Ev T1)|].
    assert (PUA : 0 <= uu * A) by (apply Rmult_le_pos; lra).
    assert (Nu : 2 * n * uu <= / 8) by (unfold uu; lra). assert (Pu : 0 <= 2 * n * uu) by (apply Rmult_le_pos; lra).
    set (B := total (map Rabs (map f64_val (terms64 y x)))) in *.
    assert (X1 : 2 * n * (uu * B) <= 2 * n * uu * (A + 5 * (uu * A) + n * (2 * et))) by (rewrite <- Rmult_assoc; apply Rmult_le_compat_l; assumption).
    assert (X2 : 2 * n * uu * (5 * (uu * A)) <= / 8 * (5 * (uu * A))) by (apply Rmult_le_compat_r; lra).
    assert (X3 : 0 <= n * (2 * et)) by (apply Rmult_le_pos; lra).
    assert (X4 : 2 * n * uu * (n * (2 * et)) <= / 8 * (n * (2 * et))) by (apply Rmult_le_compat_r; lra).
    assert (X5 : 0 <= n * (uu * A)) by (apply Rmult_le_pos; lra).
    unfold Rdiv. rewrite two51. change (-1073)%Z with (-1075 + 2)%Z. rewrite p_et. change (bpow radix2 2) with 4. lra.
  - eapply Rle_trans; [apply total_small with (c := bpow radix2 903)|].
    + clear - HT. induction HT as [|t T l q (_ & _ & B) _ IH]; constructor; assumption.
    + change 951%Z with (48 + 903)%Z. rewrite bpow_plus. apply Rmult_le_compat_r; [apply bpow_ge_0|]. replace (bpow radix2 48) with (2 ^ 48) by (cbn; lra). exact Nn.
  - exact Lq.
  - intros NY. apply Nv. apply terms_nonneg; assumption.
Qed.

(** ** panels of nearly equal samples *)
Definition steps (x : list R) (c : R) : Prop := forall i a b, nth_error x i = Some a -> nth_error x (S i) = Some b -> 0 <= b - a <= c.
Lemma panels_near (c : R) : forall x s q : list R, 0 <= c -> steps x c -> Forall2 (fun a b => 0 <= b /\ Rabs (a - b) <= uu * b + et) s q -> length x = length q ->
  Forall (fun p => 0 <= p) (panels x q) /\
  Rabs (total (panels x s) - total (panels x q)) <= uu * total (panels x q) + INR (length (panels x q)) * (c * et).
Proof.
  pose proof uu_pos as U. pose proof et_pos as TP.
  assert (Base : Forall (fun p => 0 <= p) [] /\ Rabs (total [] - total []) <= uu * total [] + INR (length (@nil R)) * (1 * et)).
  { split; [constructor|]. unfold total. cbn [fold_right length INR]. replace (0 - 0) with 0 by ring. rewrite Rabs_R0. lra. }
  induction x as [|x0 [|x1 x] IH]; intros s q Pc G H L.
  - destruct H; [|discriminate]. cbn [panels length INR] in *. split; [constructor|]. unfold total. cbn [fold_right]. replace (0 - 0) with 0 by ring. rewrite Rabs_R0. lra.
  - destruct H as [|? ? ? ? ? [|]]; try discriminate. cbn [panels length INR] in *. split; [constructor|]. unfold total. cbn [fold_right]. replace (0 - 0) with 0 by ring. rewrite Rabs_R0. lra.
  - destruct H as [|s0 q0 s q H0 H]; [discriminate|]. destruct H as [|s1 q1 s q H1 H]; [discriminate|].
    change (panels (x0 :: x1 :: x) (s0 :: s1 :: s)) with ((x1 - x0) * (s0 + s1) / 2 :: panels (x1 :: x) (s1 :: s)).
    change (panels (x0 :: x1 :: x) (q0 :: q1 :: q)) with ((x1 - x0) * (q0 + q1) / 2 :: panels (x1 :: x) (q1 :: q)).
    destruct (IH (s1 :: s) (q1 :: q) Pc) as [I1 I2]; [intros i a b Ha Hb; apply (G (S i) a b Ha Hb)|constructor; assumption|cbn [length] in *; lia|].
    pose proof (G 0%nat x0 x1 eq_refl eq_refl) as Gx. destruct H0 as [P0 E0], H1 as [P1 E1]. set (X := x1 - x0) in *.
    assert (PX : 0 <= X * (q0 + q1)) by (apply Rmult_le_pos; lra). split; [constructor; [lra|exact I1]|].
    cbn [length]. rewrite S_INR. set (T := panels (x1 :: x) (q1 :: q)) in *. set (T' := panels (x1 :: x) (s1 :: s)) in *.
    change (total (X * (s0 + s1) / 2 :: T')) with (X * (s0 + s1) / 2 + total T'). change (total (X * (q0 + q1) / 2 :: T)) with (X * (q0 + q1) / 2 + total T).
    replace (X * (s0 + s1) / 2 + total T' - (X * (q0 + q1) / 2 + total T)) with (X * ((s0 - q0) + (s1 - q1)) / 2 + (total T' - total T)) by field.
    eapply Rle_trans; [apply Rabs_triang|].
    assert (Y1 : Rabs (X * ((s0 - q0) + (s1 - q1))) <= X * (uu * q0 + et + (uu * q1 + et))).
    { rewrite Rabs_mult, (Rabs_right X) by lra. apply Rmult_le_compat_l; [lra|]. eapply Rle_trans; [apply Rabs_triang|]. lra. }
    assert (Y2 : X * et <= c * et) by (apply Rmult_le_compat_r; lra).
    unfold Rdiv. rewrite (Rabs_mult _ (/ 2)), (Rabs_right (/ 2)) by lra. lra.
Qed.
Lemma panels_size (c b : R) : forall x y : list R, 0 <= c -> steps x c -> Forall (fun a => Rabs a <= b) y -> length x = length y ->
  total (map Rabs (panels x y)) <= INR (length (panels x y)) * (c * b).
Proof.
  induction x as [|x0 [|x1 x] IH]; intros y Pc G H L.
  - destruct y; [|discriminate]. unfold total. cbn. lra.
  - destruct y as [|y0 [|]]; try discriminate. unfold total. cbn. lra.
  - destruct y as [|y0 [|y1 y]]; try discriminate.
    change (panels (x0 :: x1 :: x) (y0 :: y1 :: y)) with ((x1 - x0) * (y0 + y1) / 2 :: panels (x1 :: x) (y1 :: y)).
    inversion H as [|? ? H0 H' E]; subst. inversion H' as [|? ? H1 H'' E]; subst.
    pose proof (IH (y1 :: y) Pc ltac:(intros i u v Hu Hv; apply (G (S i) u v Hu Hv)) H' ltac:(cbn [length] in *; lia)) as I.
    pose proof (G 0%nat x0 x1 eq_refl eq_refl) as Gx. cbn [length map]. rewrite S_INR.
    change (total (?a :: ?l)) with (a + total l). set (T := panels (x1 :: x) (y1 :: y)) in *.
    assert (Rabs ((x1 - x0) * (y0 + y1) / 2) <= c * b).
    { unfold Rdiv. rewrite Rmult_assoc, Rabs_mult, (Rabs_right (x1 - x0)) by lra. apply Rmult_le_compat; [lra|apply Rabs_pos|lra|].
      rewrite Rabs_mult, (Rabs_right (/ 2)) by lra. pose proof (Rabs_triang y0 y1). lra. }
    lra.
Qed.

(** ** on an everyday axis *)
Lemma fwd_gaps s e d n xs : f64_forward s e d n -> axis_array FA (mkAxis (A:=FA) s e d) = Ok xs ->
  gaps xs /\ steps (vals xs) (2 * f64_val d) /\ length xs = (n + 1)%nat /\ INR n <= 2 ^ 47 + / 4.
Proof.
  intros HF X. pose proof HF as (HT & Bd & SE). pose proof (tame_axis s e d n HT) as HA. rewrite !powerRZ_bpow in Bd.
  destruct (f64_array _ _ _ _ HA) as (xs2 & X2 & L & _ & P & _). rewrite X in X2. injection X2 as <-.
  pose proof (bpow_gt_0 radix2 (-300)) as B0.
  assert (B301 : 2 * bpow radix2 300 = bpow radix2 301) by (change 301%Z with (1 + 300)%Z; rewrite (bpow_plus _ 1); reflexivity).
  repeat split.
  - apply Forall_forall. intros x Hx. apply In_nth_error in Hx as [i Hi]. apply (P i x Hi).
  - pose proof (f64_gap s e d n xs i a b HF X H H0). lra.
  - pose proof (f64_gap s e d n xs i a b HF X H H0). lra.
  - unfold vals in H, H0. rewrite nth_error_map in H, H0. change (num FA) with spec_float in *. destruct (nth_error xs i) as [a'|] eqn:Ea; [|discriminate]. destruct (nth_error xs (S i)) as [b'|] eqn:Eb; [|discriminate].
    injection H as <-. injection H0 as <-. pose proof (f64_gap s e d n xs i a' b' HF X Ea Eb). lra.
  - unfold vals in H, H0. rewrite nth_error_map in H, H0. change (num FA) with spec_float in *. destruct (nth_error xs i) as [a'|] eqn:Ea; [|discriminate]. destruct (nth_error xs (S i)) as [b'|] eqn:Eb; [|discriminate].
    injection H as <-. injection H0 as <-. apply (f64_gap s e d n xs i a' b' HF X Ea Eb).
  - exact L.
  - apply (tame_n _ _ _ _ HT).
Qed.
Lemma ord_big y : Forall f64_ordinary y -> Forall big_ok y.
Proof.
  apply Forall_impl. intros a [F B]. split; [exact F|]. rewrite powerRZ_bpow in B. apply (le_bpow_trans _ _ _ B). lia.
Qed.

Lemma f64_integral s e d n (y : list spec_float) : f64_forward s e d n -> length y = (n + 1)%nat -> Forall f64_ordinary y ->
  exists xs v, axis_array FA (mkAxis (A:=FA) s e d) = Ok xs /\ length xs = (n + 1)%nat /\
    one_integrate FA FV (mkRel (A:=FA) (V:=FV) (mkAxis (A:=FA) s e d) y) = Ok v /\ added (trapz_terms FA FV y xs) v /\
    forall v', added (trapz_terms FA FV y xs) v' ->
      let p := panels (vals xs) (vals y) in
      f64_fin v' /\ Rabs (f64_val v' - total p) <= (INR n + 2) / 2 ^ 51 * total (map Rabs p) + INR n * powerRZ 2 (-1073) /\
      (Forall (fun v => 0 <= f64_val v) y -> 0 <= f64_val v').
Proof.
  intros HF Hy Oy. pose proof HF as (HT & Bd & SE). pose proof (tame_axis s e d n HT) as HA.
  destruct (f64_array _ _ _ _ HA) as (xs & X & L & _). destruct (fwd_gaps s e d n xs HF X) as (G & _ & _ & Nn).
  exists xs, (trapz FA FV y xs). split; [exact X|]. split; [exact L|]. split; [|split].
  - unfold one_integrate, rel_get_data. cbn [r_x r_y]. rewrite (proj1 (f64_size _ _ _ _ HA)). cbn [bind].
    change (@length (val FV) y) with (@length spec_float y). rewrite Hy, Nat.eqb_refl, X. reflexivity.
  - apply v_sum_added.
  - intros v' Av p. destruct (integral_any xs y v' G (ord_big y Oy)) as (F & E & _ & Lp & N).
    + rewrite Hy. exact L.
    + change (num FA) with spec_float in *. rewrite L, plus_INR. cbn [INR]. lra.
    + exact Av.
    + assert (En : INR (length (panels (vals xs) (vals y))) = INR n) by (f_equal; rewrite Lp; change (num FA) with spec_float in *; rewrite L; lia).
      rewrite En in E. split; [exact F|]. split; [exact E|exact N].
Qed.

Lemma square_ok y : f64_ordinary y -> big_ok (SFmul 53 1024 y y) /\ 0 <= f64_val (SFmul 53 1024 y y) /\
  (0 <= f64_val y * f64_val y /\ Rabs (f64_val (SFmul 53 1024 y y) - f64_val y * f64_val y) <= uu * (f64_val y * f64_val y) + et).
Proof.
  intros [F B]. rewrite powerRZ_bpow in B. pose proof (le_bpow_mul _ _ _ _ B B) as B2. change (300 + 300)%Z with 600%Z in B2.
  assert (P : 0 <= f64_val y * f64_val y) by (apply Rle_0_sqr). pose proof uu_pos as U. pose proof uu_small as US. pose proof et_small as TS.
  destruct (mul_ok y y F F) as [Fm Em]; [apply (le_bpow_trans _ _ _ B2); lia|]. rewrite (Rabs_right (f64_val y * f64_val y)) in Em, B2 by lra.
  destruct (f64_mul y y F F) as [_ V]; [apply le_bpow_trans with 600%Z; [rewrite Rabs_right by lra; exact B2|lia]|].
  split; [split; [exact Fm|]|split; [rewrite V; apply frnd_nonneg; exact P|split; [exact P|exact Em]]].
  pose proof (near_abs _ _ _ Em) as N. rewrite (Rabs_right (f64_val y * f64_val y)) in N by lra.
  assert (uu * (f64_val y * f64_val y) <= / 1024 * (f64_val y * f64_val y)) by (apply Rmult_le_compat_r; lra).
  change 601%Z with (1 + 600)%Z. rewrite bpow_plus. change (bpow radix2 1) with 2.
  assert (1 <= bpow radix2 600) by (change 1 with (bpow radix2 0); apply bpow_le; lia). lra.
Qed.

(** ** the norm *)
Lemma f64_norm s e d n (y : list spec_float) : f64_forward s e d n -> length y = (n + 1)%nat -> Forall f64_ordinary y ->
  exists xs v, axis_array FA (mkAxis (A:=FA) s e d) = Ok xs /\ length xs = (n + 1)%nat /\
    rel_norm FA FV (default_config FA FV) (mkRel (A:=FA) (V:=FV) (mkAxis (A:=FA) s e d) y) = Ok (SFdiv 53 1024 v d) /\
    added (trapz_terms FA FV (map (fun a => SFmul 53 1024 a a) y) xs) v /\
    forall v', added (trapz_terms FA FV (map (fun a => SFmul 53 1024 a a) y) xs) v' ->
      let w := SFdiv 53 1024 v' d in
      let N := total (panels (vals xs) (map (fun a => a * a) (vals y))) / f64_val d in
      f64_fin w /\ 0 <= f64_val w /\
      Rabs (f64_val w - N) <= (INR n + 3) / 2 ^ 51 * N + (INR n + 1) * (1 + / f64_val d) * powerRZ 2 (-1072).
Proof.
  intros HF Hy Oy. pose proof HF as (HT & Bd & SE). pose proof (tame_axis s e d n HT) as HA. pose proof HT as (_ & _ & Fd & _).
  rewrite !powerRZ_bpow in Bd.
  destruct (f64_array _ _ _ _ HA) as (xs & X & L & _). destruct (fwd_gaps s e d n xs HF X) as (G & Gs & _ & Nn).
  set (sq := map (fun a => SFmul 53 1024 a a) y).
  exists xs, (trapz FA FV sq xs). split; [exact X|]. split; [exact L|]. split; [|split].
  - unfold rel_norm, rel_op_num. cbn [default_config c_math c_int_one r_x r_y math_operation bind].
    assert (Esq : map (fun a => op_apply FA FV POW a (v_of FV (n_of_Z FA 2))) y = sq).
    { unfold sq. apply map_ext. intros a. reflexivity. }
    rewrite Esq. assert (Lsq : length sq = (n + 1)%nat) by (unfold sq; rewrite map_length; exact Hy).
    unfold rel_make. rewrite (proj1 (f64_size _ _ _ _ HA)). cbn [bind]. change (@length (val FV) sq) with (@length spec_float sq). rewrite Lsq, Nat.eqb_refl. cbn [bind].
    unfold one_integrate, rel_get_data. cbn [r_x r_y]. rewrite (proj1 (f64_size _ _ _ _ HA)). cbn [bind].
    change (@length (val FV) sq) with (@length spec_float sq). rewrite Lsq, Nat.eqb_refl, X. reflexivity.
  - apply v_sum_added.
  - intros v Av w N. change (num FA) with spec_float in *.
    assert (Bsq : Forall big_ok sq /\ Forall (fun v => 0 <= f64_val v) sq /\
      Forall2 (fun a b => 0 <= b /\ Rabs (a - b) <= uu * b + et) (vals sq) (map (fun a => a * a) (vals y))).
    { clear - Oy. unfold sq. induction Oy as [|a y Ha Hy' (I1 & I2 & I3)]; [repeat constructor|]. destruct (square_ok a Ha) as (S1 & S2 & S3).
      cbn [map vals]. repeat split; constructor; assumption. }
    destruct Bsq as (B1 & B2 & B3).
    assert (Lsq : length sq = (n + 1)%nat) by (unfold sq; rewrite map_length; exact Hy).
    set (D := f64_val d) in *. assert (PD : 0 < D) by (pose proof (bpow_gt_0 radix2 (-300)); lra).
    destruct (integral_any xs sq v G B1) as (Fv & Ev & _ & Lp & Nv); [rewrite Lsq; exact L|rewrite L, plus_INR; cbn [INR]; lra|exact Av|].
    assert (En : INR (length (panels (vals xs) (vals sq))) = INR n) by (f_equal; rewrite Lp, L; lia). rewrite En in Ev.
    destruct (panels_near (2 * D) (vals xs) (vals sq) _ ltac:(lra) Gs B3) as [PQ NQ].
    { unfold vals. rewrite !map_length, Hy. exact L. }
    assert (Lq : length (panels (vals xs) (map (fun a => a * a) (vals y))) = n).
    { rewrite panels_len; unfold vals; rewrite !map_length; [rewrite L; lia|rewrite Hy; exact L]. }
    rewrite Lq in NQ. set (Q := total (panels (vals xs) (map (fun a => a * a) (vals y)))) in *.
    assert (PQ0 : 0 <= Q) by (apply total_nonneg; exact PQ).
    assert (Pp : Forall (fun p => 0 <= p) (panels (vals xs) (vals sq))).
    { apply (panels_near (2 * D) (vals xs) (vals sq) (vals sq)); [lra|exact Gs| |unfold vals; rewrite !map_length, Lsq; exact L].
      pose proof uu_pos as U. pose proof et_pos as TP. unfold vals. clear - B2 U TP. induction B2 as [|a l Ha _ IH]; constructor; [|exact IH]. split; [exact Ha|].
      replace (f64_val a - f64_val a) with 0 by ring. rewrite Rabs_R0. assert (0 <= uu * f64_val a) by (apply Rmult_le_pos; lra). lra. }
    rewrite (abs_same _ Pp) in Ev. set (Q' := total (panels (vals xs) (vals sq))) in *.
    assert (PQ' : 0 <= Q') by (apply total_nonneg; exact Pp).
    assert (BQ : Q' <= INR n * (2 * D * bpow radix2 601)).
    { rewrite <- En. unfold Q'. rewrite <- (abs_same _ Pp) at 1. apply panels_size; [lra|exact Gs| |unfold vals; rewrite !map_length, Lsq; exact L].
      unfold vals. apply Forall_map. eapply Forall_impl; [|exact B1]. intros a [_ Ba]. exact Ba. }
    pose proof (pos_INR n) as Pn. set (k := INR n) in *. pose proof uu_pos as U. pose proof uu_small as US. pose proof et_pos as TP. pose proof et_small as TS.
    (* divide by the sample *)
    set (iD := / D). assert (PI : 0 < iD) by (apply Rinv_0_lt_compat; exact PD). assert (ID : D * iD = 1) by (apply Rinv_r; lra).
    assert (EN : N = Q * iD) by reflexivity. set (N' := Q' * iD).
    assert (PN : 0 <= N) by (rewrite EN; apply Rmult_le_pos; lra). assert (PN' : 0 <= N') by (apply Rmult_le_pos; lra).
    assert (E1 : Rabs (N' - N) <= uu * N + k * (2 * et)).
    { pose proof (near_mult _ _ iD _ NQ) as Z. rewrite (Rabs_right iD) in Z by lra. fold N' in Z. rewrite <- EN in Z. eapply Rle_trans; [exact Z|].
      replace ((uu * Q + k * (2 * D * et)) * iD) with (uu * (Q * iD) + k * (2 * et) * (D * iD)) by ring. rewrite ID, <- EN. lra. }
    unfold Rdiv in Ev. rewrite two51 in Ev. change (-1073)%Z with (-1075 + 2)%Z in Ev. rewrite p_et in Ev. change (bpow radix2 2) with 4 in Ev.
    assert (E2 : Rabs (f64_val v / D - N') <= (k + 2) * (4 * uu) * N' + k * (4 * et) * iD).
    { pose proof (near_mult _ _ iD _ Ev) as Z. rewrite (Rabs_right iD) in Z by lra. eapply Rle_trans; [exact Z|]. unfold N'. lra. }
    assert (Ku : (k + 2) * (4 * uu) <= / 8) by (unfold uu; lra). assert (Kp : 0 <= (k + 2) * (4 * uu)) by (apply Rmult_le_pos; lra).
    assert (KN : (k + 2) * (4 * uu) * N' <= / 8 * N') by (apply Rmult_le_compat_r; lra).
    assert (Pk1 : 0 <= k * et) by (apply Rmult_le_pos; lra). assert (Pk2 : 0 <= k * et * iD) by (apply Rmult_le_pos; lra).
    pose proof (near_abs _ _ _ E2) as Bv. rewrite (Rabs_right N') in Bv by lra.
    assert (BN' : N' <= bpow radix2 651).
    { unfold N'. apply Rle_trans with (k * (2 * D * bpow radix2 601) * iD); [apply Rmult_le_compat_r; lra|].
      replace (k * (2 * D * bpow radix2 601) * iD) with (k * 2 * bpow radix2 601 * (D * iD)) by ring. rewrite ID, Rmult_1_r.
      change 651%Z with (50 + 601)%Z. rewrite bpow_plus. apply Rmult_le_compat_r; [apply bpow_ge_0|]. replace (bpow radix2 50) with (2 ^ 50) by (cbn; lra). lra. }
    assert (BI : iD <= bpow radix2 300).
    { unfold iD. replace (bpow radix2 300) with (/ bpow radix2 (-300)) by (rewrite <- bpow_opp; reflexivity). apply Rinv_le; [apply bpow_gt_0|lra]. }
    assert (Bk : k * et * iD <= bpow radix2 300).
    { apply Rle_trans with (1 * iD); [|lra]. apply Rmult_le_compat_r; [lra|]. apply Rle_trans with (k * (uu / 16)); [apply Rmult_le_compat_l; lra|]. unfold uu. lra. }
    assert (B300 : bpow radix2 300 <= bpow radix2 651) by (apply bpow_le; lia).
    assert (B8 : 8 * bpow radix2 651 <= bpow radix2 1000) by (change 8 with (bpow radix2 3); rewrite <- bpow_plus; apply bpow_le; lia).
    assert (BW : Rabs (f64_val v / D) <= bpow radix2 1000) by lra.
    destruct (div_ok v d Fv Fd) as [Fw Ew]; fold D; [lra|exact BW|]. fold w in Fw, Ew. fold D in Ew.
    destruct (f64_div v d Fv Fd) as [_ Vw]; fold D; [lra|apply le_bpow_trans with 1000%Z; [exact BW|lia]|]. fold w D in Vw.
    split; [exact Fw|]. split.
    + rewrite Vw. apply frnd_nonneg. specialize (Nv B2). apply Rmult_le_pos; [exact Nv|]. fold iD. lra.
    + pose proof (near_trans _ _ _ _ _ Ew (Rle_trans _ _ _ (near_trans _ _ _ _ _ E2 E1 : Rabs (f64_val v / D - N) <= _) (Rle_refl _))) as Z.
      eapply Rle_trans; [exact Z|]. pose proof (near_abs _ _ _ E1) as NN. rewrite (Rabs_right N), (Rabs_right N') in NN by lra.
      assert (uN : uu * N <= / 1024 * N) by (apply Rmult_le_compat_r; lra). assert (uN0 : 0 <= uu * N) by (apply Rmult_le_pos; lra).
      assert (W1 : uu * Rabs (f64_val v / D) <= uu * (9 / 8 * N' + 4 * (k * et * iD))) by (apply Rmult_le_compat_l; lra).
      assert (W2 : uu * N' <= uu * (33 / 32 * N + 2 * (k * et))) by (apply Rmult_le_compat_l; lra).
      assert (W3 : uu * (k * et) <= / 1024 * (k * et)) by (apply Rmult_le_compat_r; lra).
      assert (W4 : uu * (k * et * iD) <= / 1024 * (k * et * iD)) by (apply Rmult_le_compat_r; lra).
      assert (W5 : (k + 2) * (4 * uu) * N' <= (k + 2) * (4 * uu) * (N + uu * N + 2 * (k * et))) by (apply Rmult_le_compat_l; lra).
      assert (W6 : (k + 2) * (4 * uu) * (uu * N) <= / 8 * (uu * N)) by (apply Rmult_le_compat_r; lra).
      assert (W7 : (k + 2) * (4 * uu) * (k * et) <= / 8 * (k * et)) by (apply Rmult_le_compat_r; lra).
      assert (W8 : 0 <= et * iD) by (apply Rmult_le_pos; lra).
      set (VD := Rabs (f64_val v / D)) in *. unfold Rdiv. rewrite two51. change (-1072)%Z with (-1075 + 3)%Z. rewrite p_et. change (bpow radix2 3) with 8. fold iD. lra.
Qed.
