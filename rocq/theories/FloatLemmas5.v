(** Proofs for C86: diff and integrate in binary64. *)
From Coq Require Import Reals ZArith List Bool Lia Lra Psatz SpecFloat.
From Flocq Require Import Core.Core IEEE754.BinarySingleNaN.
From Verif Require Import Num Numpy Spec AxisModel RelModel RLemmas FloatSpec FloatLemmas FloatLemmas2 FloatLemmas3 FloatLemmas4 CalcSpec.
Import ListNotations.
Local Open Scope R_scope.

Definition et : R := bpow radix2 (-1075).
Lemma et_pos : 0 < et. Proof. apply bpow_gt_0. Qed.
Lemma et_small : et <= uu / 16. Proof. apply tiny. Qed.

Lemma le_bpow_add a b k : Rabs a <= bpow radix2 k -> Rabs b <= bpow radix2 k -> Rabs (a + b) <= bpow radix2 (k + 1).
Proof. intros Ha Hb. pose proof (Rabs_triang a b). rewrite bpow_plus. change (bpow radix2 1) with 2. lra. Qed.
Lemma le_bpow_sub a b k : Rabs a <= bpow radix2 k -> Rabs b <= bpow radix2 k -> Rabs (a - b) <= bpow radix2 (k + 1).
Proof. intros Ha Hb. apply le_bpow_add; [exact Ha|]. rewrite Rabs_Ropp. exact Hb. Qed.
Lemma le_bpow_mul a b k j : Rabs a <= bpow radix2 k -> Rabs b <= bpow radix2 j -> Rabs (a * b) <= bpow radix2 (k + j).
Proof. intros Ha Hb. rewrite Rabs_mult, bpow_plus. apply Rmult_le_compat; auto using Rabs_pos. Qed.
Lemma le_bpow_trans a k j : Rabs a <= bpow radix2 k -> (k <= j)%Z -> Rabs a <= bpow radix2 j.
Proof. intros H Hk. eapply Rle_trans; [exact H|]. apply bpow_le. exact Hk. Qed.

Lemma add_ok x y : f64_fin x -> f64_fin y -> Rabs (f64_val x + f64_val y) <= bpow radix2 1000 ->
  f64_fin (SFadd 53 1024 x y) /\ Rabs (f64_val (SFadd 53 1024 x y) - (f64_val x + f64_val y)) <= uu * Rabs (f64_val x + f64_val y).
Proof.
  intros Fx Fy H. destruct (f64_add x y Fx Fy) as [F V]; [apply le_bpow_trans with 1000%Z; [exact H|lia]|]. split; [exact F|].
  rewrite V. apply frnd_err_add; apply fin_fmt; assumption.
Qed.
Lemma sub_ok x y : f64_fin x -> f64_fin y -> Rabs (f64_val x - f64_val y) <= bpow radix2 1000 ->
  f64_fin (SFsub 53 1024 x y) /\ Rabs (f64_val (SFsub 53 1024 x y) - (f64_val x - f64_val y)) <= uu * Rabs (f64_val x - f64_val y).
Proof.
  intros Fx Fy H. destruct (f64_sub x y Fx Fy) as [F V]; [apply le_bpow_trans with 1000%Z; [exact H|lia]|]. split; [exact F|].
  rewrite V. apply frnd_err_sub; apply fin_fmt; assumption.
Qed.
Lemma mul_ok x y : f64_fin x -> f64_fin y -> Rabs (f64_val x * f64_val y) <= bpow radix2 1000 ->
  f64_fin (SFmul 53 1024 x y) /\ Rabs (f64_val (SFmul 53 1024 x y) - f64_val x * f64_val y) <= uu * Rabs (f64_val x * f64_val y) + et.
Proof.
  intros Fx Fy H. destruct (f64_mul x y Fx Fy) as [F V]; [apply le_bpow_trans with 1000%Z; [exact H|lia]|]. split; [exact F|].
  rewrite V. apply frnd_err.
Qed.
Lemma div_ok x y : f64_fin x -> f64_fin y -> f64_val y <> 0 -> Rabs (f64_val x / f64_val y) <= bpow radix2 1000 ->
  f64_fin (SFdiv 53 1024 x y) /\ Rabs (f64_val (SFdiv 53 1024 x y) - f64_val x / f64_val y) <= uu * Rabs (f64_val x / f64_val y) + et.
Proof.
  intros Fx Fy Hy H. destruct (f64_div x y Fx Fy Hy) as [F V]; [apply le_bpow_trans with 1000%Z; [exact H|lia]|]. split; [exact F|].
  rewrite V. apply frnd_err.
Qed.
Lemma near_abs a b u : Rabs (a - b) <= u -> Rabs a <= Rabs b + u.
Proof. intros H. replace a with (b + (a - b)) by ring. eapply Rle_trans; [apply Rabs_triang|]. lra. Qed.
Lemma near_mult a b k u : Rabs (a - b) <= u -> Rabs (a * k - b * k) <= u * Rabs k.
Proof. intros H. replace (a * k - b * k) with ((a - b) * k) by ring. rewrite Rabs_mult. apply Rmult_le_compat_r; [apply Rabs_pos|exact H]. Qed.
Lemma near_trans a b c u v : Rabs (a - b) <= u -> Rabs (b - c) <= v -> Rabs (a - c) <= u + v.
Proof. intros H1 H2. replace (a - c) with ((a - b) + (b - c)) by ring. eapply Rle_trans; [apply Rabs_triang|]. lra. Qed.

Lemma two_fin : f64_fin (n_of_Z FA 2) /\ f64_val (n_of_Z FA 2) = 2.
Proof. apply (f64_Z_exact 2). vm_compute. discriminate. Qed.

(** ** one sample of [diff] *)
Lemma diff_sample y0 y1 d : f64_ordinary y0 -> f64_ordinary y1 -> f64_fin d -> bpow radix2 (-300) <= Rabs (f64_val d) ->
  let z := SFdiv 53 1024 (SFsub 53 1024 y1 y0) d in
  let q := (f64_val y1 - f64_val y0) / f64_val d in
  f64_fin z /\ Rabs (f64_val z - q) <= 4 * uu * Rabs q + et.
Proof.
  intros [F0 B0] [F1 B1] Fd Bd z q. rewrite powerRZ_bpow in B0, B1.
  assert (Hd : f64_val d <> 0) by (intros E; rewrite E, Rabs_R0 in Bd; pose proof (bpow_gt_0 radix2 (-300)); lra).
  pose proof (le_bpow_sub _ _ _ B1 B0) as Bs. destruct (sub_ok y1 y0 F1 F0) as [Fs Es]; [apply (le_bpow_trans _ _ _ Bs); lia|].
  set (w := SFsub 53 1024 y1 y0) in *. pose proof uu_pos. pose proof (uu_small) as Us.
  assert (Inv : Rabs (/ f64_val d) <= bpow radix2 300).
  { rewrite Rabs_inv. replace (bpow radix2 300) with (/ bpow radix2 (-300)) by (rewrite <- bpow_opp; reflexivity).
    apply Rinv_le; [apply bpow_gt_0|exact Bd]. }
  pose proof (near_mult _ _ (/ f64_val d) _ Es) as Eq. fold (f64_val w / f64_val d) in Eq. fold ((f64_val y1 - f64_val y0) / f64_val d) in Eq. fold q in Eq.
  assert (Eq' : Rabs (f64_val w / f64_val d - q) <= uu * Rabs q).
  { unfold q at 2. unfold Rdiv at 2. rewrite Rabs_mult. lra. }
  assert (Bq : Rabs q <= bpow radix2 601) by (apply (le_bpow_mul _ _ 301 300); [exact Bs|exact Inv]).
  pose proof (near_abs _ _ _ Eq') as Bw. pose proof (Rabs_pos q).
  assert (Huq : uu * Rabs q <= Rabs q / 1024) by (unfold Rdiv; rewrite (Rmult_comm (Rabs q)); apply Rmult_le_compat_r; [lra|exact Us]).
  assert (Huw : uu * Rabs (f64_val w / f64_val d) <= uu * (2 * Rabs q)) by (apply Rmult_le_compat_l; lra).
  destruct (div_ok w d Fs Fd Hd) as [Fz Ez].
  { apply le_bpow_trans with 602%Z; [|lia]. apply Rle_trans with (2 * Rabs q); [lra|]. change 602%Z with (601 + 1)%Z. rewrite bpow_plus. change (bpow radix2 1) with 2. lra. }
  split; [exact Fz|]. eapply Rle_trans; [apply (near_trans _ _ _ _ _ Ez Eq')|]. assert (0 <= uu * Rabs q) by (apply Rmult_le_pos; lra). lra.
Qed.

Lemma div_abs a b : Rabs (a / b) = Rabs a / Rabs b.
Proof. unfold Rdiv. rewrite Rabs_mult, Rabs_inv. reflexivity. Qed.

(** ** axes of the results: [a] cut off at the start, [b] at the end, together one sample *)
Section Trimmed.
Context (s e d : spec_float) (m : nat) (HF : f64_forward s e d (m + 1)).
Let S := f64_val s. Let E := f64_val e. Let D := f64_val d.
Let K := Rmax (Rabs S) (Rabs E) + D.
Lemma fwd_D : 0 < D.
Proof. destruct HF as (_ & [B _] & _). rewrite powerRZ_bpow in B. pose proof (bpow_gt_0 radix2 (-300)). fold D in B. lra. Qed.
Lemma fwd_K : Rabs S <= K /\ Rabs E <= K /\ D <= K /\ K <= (2 ^ 46 + 1) * D /\ uu * K <= / 64 * D.
Proof.
  pose proof fwd_D as P. destruct HF as (HT & _ & _). pose proof (tame_M _ _ _ _ HT) as M. fold S E D in M. rewrite (Rabs_right D) in M by lra.
  pose proof (Rmax_l (Rabs S) (Rabs E)). pose proof (Rmax_r (Rabs S) (Rabs E)). pose proof (Rabs_pos S). unfold K.
  assert (H2 : Rmax (Rabs S) (Rabs E) + D <= (2 ^ 46 + 1) * D) by lra. repeat split; try lra.
  apply Rle_trans with (uu * ((2 ^ 46 + 1) * D)); [apply Rmult_le_compat_l; [apply Rlt_le, uu_pos|exact H2]|]. unfold uu. lra.
Qed.
Context (s' e' : spec_float) (a b : R)
  (Fs' : f64_fin s') (Fe' : f64_fin e') (Ha : 0 <= a) (Hb : 0 <= b) (Hab : a + b = D)
  (Rs : Rabs (f64_val s' - (S + a)) <= 4 * (uu * K)) (Re : Rabs (f64_val e' - (E - b)) <= 4 * (uu * K)).

Lemma trimmed_axis : f64_axis s' e' d m.
Proof.
  pose proof fwd_D as PD. pose proof fwd_K as (K1 & K2 & K3 & K4 & K5). pose proof HF as (HT & [_ B300] & SE). fold S E in SE.
  pose proof (tame_n _ _ _ _ HT) as Tn. rewrite plus_INR in Tn. cbn [INR] in Tn.
  pose proof HT as (Fs & Fe & Fd & Bd & B1 & B2 & Q). rewrite !powerRZ_bpow in Bd. fold S E D in B1, B2, Q, Bd.
  rewrite (Rabs_right D) in * by lra. rewrite (Rabs_right (E - S)) in Q by lra. rewrite plus_INR in Q. cbn [INR] in Q. apply Rabs_le_inv in Q.
  apply Rabs_le_inv in Rs, Re. apply Rabs_le_inv in B1, B2.
  apply loose_axis; try assumption; fold D; try (rewrite (Rabs_right D) by lra); try assumption; try lra.
  - apply Rabs_le. lra.
  - apply Rabs_le. lra.
  - set (q := (E - S) / D) in *. assert (Eq : E - S = q * D) by (unfold q; field; lra).
    set (g := f64_val e' - f64_val s') in *.
    assert (Eg : Rabs (g - (q - 1) * D) <= / 8 * D) by (apply Rabs_le; unfold g; lra).
    assert (Eg2 : Rabs (g / D - (q - 1)) <= / 8).
    { replace (g / D - (q - 1)) with ((g - (q - 1) * D) / D) by (field; lra). rewrite (div_abs _ D), (Rabs_right D) by lra.
      apply Rmult_le_reg_r with D; [exact PD|]. unfold Rdiv. rewrite Rmult_assoc, Rinv_l by lra. lra. }
    assert (Eg3 : Rabs (g / D - INR m) <= 3 / 8) by (apply Rabs_le_inv in Eg2; apply Rabs_le; lra).
    replace (Rabs g / D) with (Rabs (g / D)) by (rewrite (div_abs _ D), (Rabs_right D) by lra; reflexivity).
    pose proof (Rabs_near _ _ _ Eg3) as Eg4. rewrite (Rabs_right (INR m)) in Eg4 by (apply Rle_ge, pos_INR). exact Eg4.
Qed.
Lemma trimmed_points : exists xs, axis_array FA (mkAxis (A:=FA) s' e' d) = Ok xs /\ length xs = (m + 1)%nat /\
  forall i x, nth_error xs i = Some x -> f64_fin x /\ Rabs (f64_val x - grid_pt (S + a) (E - b) (m + 1) i) <= / 2 ^ 48 * K.
Proof.
  destruct (f64_array _ _ _ _ trimmed_axis) as (xs & X & L & _ & P & _). exists xs. split; [exact X|]. split; [exact L|].
  intros i x Hx. destruct (P i x Hx) as (Fx & _ & Q). split; [exact Fx|]. pose proof (nth_error_len _ _ _ Hx) as Li. rewrite L in Li.
  pose proof fwd_D as PD. pose proof fwd_K as (K1 & K2 & K3 & K4 & K5). pose proof uu_pos as U. pose proof uu_small as US.
  assert (PU : 0 <= uu * K) by (apply Rmult_le_pos; lra). assert (UK : uu * K <= / 1024 * K) by (apply Rmult_le_compat_r; lra).
  assert (M2 : Rmax (Rabs (f64_val s')) (Rabs (f64_val e')) <= 3 * K).
  { pose proof (near_abs _ _ _ Rs) as N1. pose proof (near_abs _ _ _ Re) as N2. pose proof (Rabs_triang S a) as T1. pose proof (Rabs_triang E (- b)) as T2.
    rewrite Rabs_Ropp in T2. rewrite (Rabs_right a) in T1 by lra. rewrite (Rabs_right b) in T2 by lra. unfold Rminus in N2.
    apply Rmax_lub; lra. }
  rewrite two50 in Q. rewrite two48.
  assert (Q' : Rabs (f64_val x - grid_pt (f64_val s') (f64_val e') (m + 1) i) <= 24 * (uu * K)).
  { eapply Rle_trans; [exact Q|]. apply Rle_trans with (8 * uu * (3 * K)); [apply Rmult_le_compat_l; lra|]. lra. }
  destruct (grid_mix (f64_val s') (f64_val e') m i ltac:(lia)) as (k & Hk & G1 & K1').
  destruct (grid_mix (S + a) (E - b) m i ltac:(lia)) as (k2 & _ & G2 & K2'). rewrite <- K1' in K2'. rewrite K2' in G2.
  pose proof (mix_near k _ _ _ _ _ Hk Rs Re) as Q3. rewrite <- G1, <- G2 in Q3.
  eapply Rle_trans; [apply (near_trans _ _ _ _ _ Q' Q3)|]. lra.
Qed.
End Trimmed.

(** ** diff *)
Lemma half_ok d : f64_fin d -> bpow radix2 (-300) <= f64_val d <= bpow radix2 300 ->
  let h := SFdiv 53 1024 d (n_of_Z FA 2) in f64_fin h /\ Rabs (f64_val h - f64_val d / 2) <= 2 * (uu * f64_val d).
Proof.
  intros Fd B h. pose proof (bpow_gt_0 radix2 (-300)) as P. destruct two_fin as [F2 V2].
  destruct (div_ok d (n_of_Z FA 2) Fd F2) as [Fh Eh]; [rewrite V2; lra| |].
  { rewrite V2. apply le_bpow_trans with 300%Z; [|lia]. rewrite Rabs_right by lra. lra. }
  split; [exact Fh|]. rewrite V2 in Eh. rewrite (Rabs_right (f64_val d / 2)) in Eh by lra. eapply Rle_trans; [exact Eh|].
  assert (et <= uu * f64_val d).
  { unfold et. apply Rle_trans with (uu * bpow radix2 (-300)); [|apply Rmult_le_compat_l; [apply Rlt_le, uu_pos|lra]].
    rewrite <- uu_bpow. change (/ 2) with (bpow radix2 (-1)). rewrite <- !bpow_plus. apply bpow_le. lia. }
  pose proof et_pos. lra.
Qed.

(** ** positions in lists of differences and running sums *)
Lemma diffs_len {T U} (sub : T -> T -> U) l : length (diffs sub l) = (length l - 1)%nat.
Proof. induction l as [|a [|b t] IH]; try reflexivity. cbn [diffs length] in *. rewrite IH. lia. Qed.
Lemma diffs_get {T U} (sub : T -> T -> U) l : forall i z, nth_error (diffs sub l) i = Some z ->
  exists a b, nth_error l i = Some a /\ nth_error l (S i) = Some b /\ z = sub b a.
Proof.
  induction l as [|a [|b t] IH]; intros [|i] z H; try discriminate.
  - injection H as <-. exists a, b. repeat split.
  - apply (IH i z H).
Qed.
Lemma cumul_from_len {T} (op : T -> T -> T) l : forall acc, length (cumul_from op acc l) = length l.
Proof. induction l as [|a t IH]; intros; cbn; [reflexivity|]. rewrite IH. reflexivity. Qed.
Lemma cumul_len {T} (op : T -> T -> T) l : length (cumul op l) = length l.
Proof. destruct l; cbn; [reflexivity|]. rewrite cumul_from_len. reflexivity. Qed.
Lemma cumul_from_get {T} (op : T -> T -> T) l : forall acc i z, nth_error (cumul_from op acc l) (S i) = Some z ->
  exists p q, nth_error (cumul_from op acc l) i = Some p /\ nth_error l (S i) = Some q /\ z = op p q.
Proof.
  induction l as [|a t IH]; intros acc i z H; [discriminate|]. cbn [cumul_from nth_error] in *. destruct i as [|i].
  - destruct t as [|b t]; [discriminate|]. cbn in *. injection H as <-. exists (op acc a), b. repeat split.
  - apply (IH (op acc a) i z H).
Qed.
Lemma cumul_get {T} (op : T -> T -> T) l i z : nth_error (cumul op l) (S i) = Some z ->
  exists p q, nth_error (cumul op l) i = Some p /\ nth_error l (S i) = Some q /\ z = op p q.
Proof.
  destruct l as [|a t]; [discriminate|]. cbn [cumul nth_error]. destruct i as [|i]; intros H.
  - destruct t as [|b t]; [discriminate|]. cbn in *. injection H as <-. exists a, b. repeat split.
  - destruct (cumul_from_get op t a i z H) as (p & q & H1 & H2 & H3). exists p, q. repeat split; assumption.
Qed.
Lemma vals_get y i a : nth_error y i = Some a -> nth i (vals y) 0 = f64_val a.
Proof. intros H. unfold vals. apply nth_error_nth. rewrite nth_error_map, H. reflexivity. Qed.

(** ** [diff] of a whole relation *)
Lemma f64_diff_rel s e d m (y : list spec_float) : f64_forward s e d (m + 1) -> length y = (m + 2)%nat -> Forall f64_ordinary y ->
  exists s' e' z xs, rel_diff FA FV (default_config FA FV) (mkRel (A:=FA) (V:=FV) (mkAxis (A:=FA) s e d) y) =
      Ok (mkRel (A:=FA) (V:=FV) (mkAxis (A:=FA) s' e' d) z) /\
    length z = (m + 1)%nat /\ axis_array FA (mkAxis (A:=FA) s' e' d) = Ok xs /\ length xs = (m + 1)%nat /\
    (forall i x, nth_error xs i = Some x -> f64_fin x /\
      Rabs (f64_val x - grid_pt (f64_val s + f64_val d / 2) (f64_val e - f64_val d / 2) (m + 1) i)
        <= / 2 ^ 48 * (Rmax (Rabs (f64_val s)) (Rabs (f64_val e)) + f64_val d)) /\
    (forall i w, nth_error z i = Some w -> f64_fin w /\
      let q := (nth (S i) (vals y) 0 - nth i (vals y) 0) / f64_val d in
      Rabs (f64_val w - q) <= / 2 ^ 51 * Rabs q + et).
Proof.
  intros HF Ly Oy. pose proof HF as (HT & Bd & SE). rewrite !powerRZ_bpow in Bd. pose proof HT as (Fs & Fe & Fd & _ & B1 & B2 & _).
  pose proof (fwd_D s e d m HF) as PD. pose proof (fwd_K s e d m HF) as (K1 & K2 & K3 & K4 & K5).
  destruct (half_ok d Fd Bd) as [Fh Eh]. set (h := SFdiv 53 1024 d (n_of_Z FA 2)) in *.
  set (D := f64_val d) in *. set (S := f64_val s) in *. set (E := f64_val e) in *. set (K := Rmax (Rabs S) (Rabs E) + D) in *.
  pose proof uu_pos as U. pose proof uu_small as US. assert (UD : uu * D <= uu * K) by (apply Rmult_le_compat_l; lra).
  assert (PUD : 0 <= uu * D) by (apply Rmult_le_pos; lra).
  assert (Bh : Rabs (f64_val h) <= D). { pose proof (near_abs _ _ _ Eh) as N. rewrite (Rabs_right (D / 2)) in N by lra. assert (uu * D <= / 1024 * D) by (apply Rmult_le_compat_r; lra). lra. }
  assert (BK : 2 * K <= bpow radix2 1000).
  { apply Rle_trans with (bpow radix2 48 * bpow radix2 300); [|rewrite <- bpow_plus; apply bpow_le; lia].
    apply Rle_trans with (2 ^ 48 * D); [lra|]. replace (bpow radix2 48) with (2 ^ 48) by (cbn; lra). apply Rmult_le_compat_l; lra. }
  destruct (add_ok s h Fs Fh) as [Fs' Es']; fold S.
  { pose proof (Rabs_triang S (f64_val h)). lra. }
  destruct (sub_ok e h Fe Fh) as [Fe' Ee']; fold E.
  { pose proof (Rabs_triang E (- f64_val h)) as T. rewrite Rabs_Ropp in T. unfold Rminus. lra. }
  set (s' := SFadd 53 1024 s h) in *. set (e' := SFsub 53 1024 e h) in *. fold S in Es'. fold E in Ee'.
  assert (RS : Rabs (f64_val s' - (S + D / 2)) <= 4 * (uu * K)).
  { assert (T2 : Rabs (S + f64_val h - (S + D / 2)) <= 2 * (uu * D)) by (replace (S + f64_val h - (S + D / 2)) with (f64_val h - D / 2) by ring; exact Eh).
    eapply Rle_trans; [apply (near_trans _ _ _ _ _ Es' T2)|]. pose proof (Rabs_triang S (f64_val h)).
    assert (uu * Rabs (S + f64_val h) <= uu * (2 * K)) by (apply Rmult_le_compat_l; lra). lra. }
  assert (RE : Rabs (f64_val e' - (E - D / 2)) <= 4 * (uu * K)).
  { assert (T2 : Rabs (E - f64_val h - (E - D / 2)) <= 2 * (uu * D)) by (replace (E - f64_val h - (E - D / 2)) with (- (f64_val h - D / 2)) by ring; rewrite Rabs_Ropp; exact Eh).
    eapply Rle_trans; [apply (near_trans _ _ _ _ _ Ee' T2)|]. pose proof (Rabs_triang E (- f64_val h)) as T3. rewrite Rabs_Ropp in T3.
    unfold Rminus in *. assert (uu * Rabs (E + - f64_val h) <= uu * (2 * K)) by (apply Rmult_le_compat_l; lra). lra. }
  pose proof (trimmed_axis s e d m HF s' e' (D / 2) (D / 2) Fs' Fe' ltac:(lra) ltac:(lra) ltac:(fold D; lra) RS RE) as HA.
  destruct (trimmed_points s e d m HF s' e' (D / 2) (D / 2) Fs' Fe' ltac:(lra) ltac:(lra) ltac:(fold D; lra) RS RE) as (xs & X & L & P).
  set (z := map (fun v => SFdiv 53 1024 v d) (diffs (SFsub 53 1024) y)).
  assert (Lz : length z = (m + 1)%nat) by (unfold z; rewrite map_length, diffs_len; lia).
  exists s', e', z, xs. split.
  { unfold rel_diff, default_config, differentiate_default. cbn [c_diff bind fst snd r_x r_y a_start a_end a_sample set_start set_end].
    unfold set_end, set_start, np_diff_val. cbn [a_start a_end a_sample n_add n_sub n_div v_sub v_div v_of FA FV val].
    change (SFadd 53 1024 s _) with s'. change (SFsub 53 1024 e _) with e'. fold z.
    unfold rel_make. rewrite (proj1 (f64_size _ _ _ _ HA)). cbn [bind].
    change (@length (val FV) z) with (@length spec_float z). rewrite Lz, Nat.eqb_refl. reflexivity. }
  split; [exact Lz|]. split; [exact X|]. split; [exact L|]. split; [exact P|].
  intros i w Hw. unfold z in Hw. rewrite nth_error_map in Hw. destruct (nth_error (diffs (SFsub 53 1024) y) i) as [g|] eqn:G; [|discriminate].
  injection Hw as <-. apply diffs_get in G as (a & b & Ga & Gb & ->). rewrite (vals_get _ _ _ Ga), (vals_get _ _ _ Gb).
  rewrite Forall_forall in Oy. rewrite two51.
  apply diff_sample; [apply Oy; eapply nth_error_In; exact Ga|apply Oy; eapply nth_error_In; exact Gb|exact Fd|].
  fold D. rewrite Rabs_right by lra. lra.
Qed.

(** ** [integrate]: the running sums of the means *)
Lemma mean_sample a b : f64_ordinary a -> f64_ordinary b ->
  let t := SFdiv 53 1024 (SFadd 53 1024 b a) (n_of_Z FA 2) in
  let q := (f64_val a + f64_val b) / 2 in f64_fin t /\ Rabs (f64_val t - q) <= 3 * (uu * Rabs q) + et /\ Rabs q <= bpow radix2 300.
Proof.
  intros [Fa Ba] [Fb Bb] t q. rewrite powerRZ_bpow in Ba, Bb. destruct two_fin as [F2 V2]. pose proof uu_pos as U. pose proof uu_small as US.
  pose proof (le_bpow_add _ _ _ Bb Ba) as B1. destruct (add_ok b a Fb Fa) as [Fw Ew]; [apply (le_bpow_trans _ _ _ B1); lia|].
  set (w := SFadd 53 1024 b a) in *. pose proof (near_mult _ _ (/ 2) _ Ew) as Eh.
  replace ((f64_val b + f64_val a) * / 2) with q in Eh by (unfold q; lra).
  replace (uu * Rabs (f64_val b + f64_val a) * Rabs (/ 2)) with (uu * Rabs q) in Eh
    by (unfold q, Rdiv; rewrite Rabs_mult, (Rplus_comm (f64_val b)); ring).
  assert (Bq : Rabs q <= bpow radix2 300).
  { unfold q, Rdiv. rewrite Rabs_mult, (Rabs_right (/ 2)) by lra. pose proof (Rabs_triang (f64_val a) (f64_val b)). lra. }
  pose proof (Rabs_pos q) as Pq. assert (Huq : uu * Rabs q <= / 1024 * Rabs q) by (apply Rmult_le_compat_r; lra).
  assert (0 <= uu * Rabs q) by (apply Rmult_le_pos; lra).
  pose proof (near_abs _ _ _ Eh) as Bh.
  destruct (div_ok w (n_of_Z FA 2) Fw F2) as [Ft Et]; rewrite ?V2; [lra| |].
  { apply le_bpow_trans with 301%Z; [|lia]. change 301%Z with (300 + 1)%Z. rewrite bpow_plus. change (bpow radix2 1) with 2. unfold Rdiv. lra. }
  rewrite V2 in Et. fold t in Ft, Et. split; [exact Ft|]. split; [|exact Bq].
  eapply Rle_trans; [apply (near_trans _ _ _ _ _ Et Eh)|]. fold (f64_val w / 2) in Bh.
  assert (uu * Rabs (f64_val w / 2) <= uu * (Rabs q + uu * Rabs q)) by (apply Rmult_le_compat_l; lra).
  assert (uu * (uu * Rabs q) <= / 1024 * (uu * Rabs q)) by (apply Rmult_le_compat_r; lra). lra.
Qed.
Lemma upto_ext f g k : (forall i, (i <= k)%nat -> f i = g i) -> upto f k = upto g k.
Proof. induction k as [|k IH]; intros H; cbn [upto]; [apply H; lia|]. rewrite IH, (H (S k)); [reflexivity|lia|]. intros; apply H; lia. Qed.
Lemma upto_abs f k : Rabs (upto f k) <= upto (fun i => Rabs (f i)) k.
Proof. induction k as [|k IH]; cbn [upto]; [lra|]. pose proof (Rabs_triang (upto f k) (f (S k))). lra. Qed.
Lemma upto_bound f k c : (forall i, (i <= k)%nat -> f i <= c) -> upto f k <= (INR k + 1) * c.
Proof.
  induction k as [|k IH]; intros H; cbn [upto]; [pose proof (H 0%nat (le_n _)); cbn [INR]; lra|].
  assert (upto f k <= (INR k + 1) * c) by (apply IH; intros; apply H; lia). pose proof (H (S k) (le_n _)). rewrite S_INR. lra.
Qed.
Lemma upto_nonneg f k : (forall i, 0 <= f i) -> 0 <= upto f k.
Proof. intros H. induction k as [|k IH]; cbn [upto]; [apply H|]. specialize (H (S k)). lra. Qed.

Lemma running y : Forall f64_ordinary y -> INR (length y) <= 2 ^ 48 -> forall k c,
  nth_error (cumul (SFadd 53 1024) (diffs (fun b a => SFdiv 53 1024 (SFadd 53 1024 b a) (n_of_Z FA 2)) y)) k = Some c ->
  let A := upto (fun i => Rabs (mean (vals y) i)) k in
  f64_fin c /\ Rabs (f64_val c - upto (mean (vals y)) k) <= (3 + 2 * INR k) * (uu * A) + (2 * INR k + 2) * et /\
  A <= bpow radix2 348 /\ (S k < length y)%nat.
Proof.
  intros Oy Ly.
  set (t := diffs (fun b a => SFdiv 53 1024 (SFadd 53 1024 b a) (n_of_Z FA 2)) y).
  assert (Ht : forall i z, nth_error t i = Some z -> (S i < length y)%nat /\ f64_fin z /\
      Rabs (f64_val z - mean (vals y) i) <= 3 * (uu * Rabs (mean (vals y) i)) + et /\ Rabs (mean (vals y) i) <= bpow radix2 300).
  { intros i z Hz. unfold t in Hz. apply diffs_get in Hz as (a & b & Ga & Gb & ->). split; [eapply nth_error_len; exact Gb|].
    unfold mean. rewrite (vals_get _ _ _ Ga), (vals_get _ _ _ Gb). rewrite Forall_forall in Oy.
    apply mean_sample; apply Oy; eapply nth_error_In; eassumption. }
  assert (Lt : length t = (length y - 1)%nat) by (unfold t; apply diffs_len).
  pose proof uu_pos as U. pose proof et_pos as TP. pose proof et_small as TS.
  assert (Bm : forall i, (i < length t)%nat -> Rabs (mean (vals y) i) <= bpow radix2 300).
  { intros i Hi. destruct (nth_error t i) as [z|] eqn:Ez; [|apply nth_error_None in Ez; lia]. apply (Ht i z Ez). }
  assert (BA : forall k, (k < length t)%nat -> upto (fun i => Rabs (mean (vals y) i)) k <= bpow radix2 348).
  { intros k Hk. eapply Rle_trans; [apply upto_bound with (c := bpow radix2 300); intros i Hi; apply Bm; lia|].
    change 348%Z with (48 + 300)%Z. rewrite bpow_plus. apply Rmult_le_compat_r; [apply bpow_ge_0|].
    replace (bpow radix2 48) with (2 ^ 48) by (cbn; lra). rewrite <- S_INR. eapply Rle_trans; [apply le_INR|exact Ly]. lia. }
  induction k as [|k IH]; intros c Hc A.
  - destruct t as [|t0 t']; [discriminate|]. cbn in Hc. injection Hc as <-. destruct (Ht 0%nat t0 eq_refl) as (H1 & H2 & H3 & H4).
    split; [exact H2|]. cbn [upto INR] in *. split; [|split; [apply (BA 0%nat); cbn; lia|exact H1]]. unfold A. lra.
  - apply cumul_get in Hc as (p & q & Gp & Gq & ->). destruct (IH p Gp) as (F1 & E1 & _ & _). destruct (Ht _ _ Gq) as (H1 & F2 & E2 & H4).
    pose proof (nth_error_len _ _ _ Gq) as Lq. pose proof (BA (S k) Lq) as B2. fold A in B2. cbn [upto] in A.
    set (A0 := upto (fun i => Rabs (mean (vals y) i)) k) in *. set (M := mean (vals y) (S k)) in *.
    assert (PA0 : 0 <= A0) by (apply upto_nonneg; intros; apply Rabs_pos). pose proof (Rabs_pos M) as PM. pose proof (pos_INR k) as Pk.
    assert (Hk : INR k <= 2 ^ 48) by (eapply Rle_trans; [|exact Ly]; apply le_INR; lia).
    assert (Ku : (3 + 2 * INR k) * uu <= / 8) by (unfold uu; lra).
    assert (Kp : 0 <= (3 + 2 * INR k) * uu) by (apply Rmult_le_pos; lra).
    set (kk := (3 + 2 * INR k) * uu) in *.
    replace ((3 + 2 * INR k) * (uu * A0)) with (kk * A0) in E1 by (unfold kk; ring).
    assert (KA : kk * A0 <= / 8 * A0) by (apply Rmult_le_compat_r; lra).
    assert (UM : 3 * (uu * Rabs M) <= kk * Rabs M).
    { unfold kk. replace ((3 + 2 * INR k) * uu * Rabs M) with (3 * (uu * Rabs M) + 2 * (INR k * (uu * Rabs M))) by ring.
      assert (0 <= INR k * (uu * Rabs M)) by (repeat apply Rmult_le_pos; lra). lra. }
    assert (KM : kk * Rabs M <= / 8 * Rabs M) by (apply Rmult_le_compat_r; lra).
    assert (Es : Rabs (f64_val p + f64_val q - (upto (mean (vals y)) k + M)) <= kk * A0 + (2 * INR k + 2) * et + (3 * (uu * Rabs M) + et)).
    { replace (f64_val p + f64_val q - (upto (mean (vals y)) k + M)) with ((f64_val p - upto (mean (vals y)) k) + (f64_val q - M)) by ring.
      eapply Rle_trans; [apply Rabs_triang|]. lra. }
    pose proof (near_abs _ _ _ Es) as Bs. pose proof (Rabs_triang (upto (mean (vals y)) k) M) as T1. pose proof (upto_abs (mean (vals y)) k) as T2. fold A0 in T2.
    assert (Bs2 : Rabs (f64_val p + f64_val q) <= 9 / 8 * A + (2 * INR k + 3) * et) by (unfold A; lra).
    assert (Te : (2 * INR k + 3) * et <= 1).
    { apply Rle_trans with ((2 * INR k + 3) * (uu / 16)); [apply Rmult_le_compat_l; lra|]. unfold kk in Ku. lra. }
    destruct (add_ok p q F1 F2) as [F3 E3].
    { eapply Rle_trans; [exact Bs2|]. apply Rle_trans with (4 * bpow radix2 348).
      - assert (1 <= bpow radix2 348) by (change 1 with (bpow radix2 0); apply bpow_le; lia). lra.
      - change 4 with (bpow radix2 2). rewrite <- bpow_plus. apply bpow_le. lia. }
    split; [exact F3|]. split; [|split; [exact B2|exact H1]].
    cbn [upto]. fold M. eapply Rle_trans; [apply (near_trans _ _ _ _ _ E3 Es)|].
    assert (X1 : uu * Rabs (f64_val p + f64_val q) <= uu * (9 / 8 * A + (2 * INR k + 3) * et)) by (apply Rmult_le_compat_l; lra).
    assert (X2 : uu * ((2 * INR k + 3) * et) <= / 8 * et).
    { replace (uu * ((2 * INR k + 3) * et)) with (kk * et) by (unfold kk; ring). apply Rmult_le_compat_r; lra. }
    assert (X3 : 0 <= uu * A) by (apply Rmult_le_pos; [lra|unfold A; lra]).
    rewrite S_INR. replace ((3 + 2 * (INR k + 1)) * (uu * A)) with (kk * A + 2 * (uu * A)) by (unfold kk; ring). unfold A in *. lra.
Qed.
