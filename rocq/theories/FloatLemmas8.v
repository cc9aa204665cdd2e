(** Proofs for C87: correlation and convolution in binary64. *)
From Coq Require Import Reals ZArith List Bool Lia Lra Psatz Permutation SpecFloat.
From Flocq Require Import Core.Core IEEE754.BinarySingleNaN.
From Verif Require Import Num Numpy Spec AxisModel RelModel RLemmas FloatSpec FloatLemmas FloatLemmas2 FloatLemmas3 FloatLemmas4 CalcSpec
  FloatLemmas5 FloatLemmas6 FloatLemmas7 RelLemmas3 InterpLemmas VInst CorrLemmas.
Import ListNotations.
Local Open Scope R_scope.

Definition prods (g : spec_float -> R) (l : list (spec_float * spec_float)) : list R := map (fun p => g (fst p) * g (snd p)) l.
Definition gabs (x : spec_float) : R := Rabs (f64_val x).
Lemma prods_abs l : prods gabs l = map Rabs (prods f64_val l).
Proof. unfold prods. rewrite map_map. apply map_ext. intros [a b]. cbn [fst snd]. unfold gabs. symmetry. apply Rabs_mult. Qed.

(** ** nearest numbers *)
Lemma nearest_err r z : f64_nearest r z -> Rabs r <= bpow radix2 1000 -> f64_fin z /\ Rabs (f64_val z - r) <= uu * Rabs r + et.
Proof.
  intros [F N] B. split; [exact F|]. destruct (fmt_fin (frnd r)) as (x & Fx & Vx).
  - apply fmt_frnd.
  - apply frnd_small. apply (le_bpow_trans _ _ _ B). lia.
  - eapply Rle_trans; [apply (N x Fx)|]. rewrite Vx. apply frnd_err.
Qed.
Lemma nearest_exact r z : f64_nearest r z -> fmt r -> Rabs r < bpow radix2 1024 -> f64_fin z /\ f64_val z = r.
Proof.
  intros [F N] Fr B. split; [exact F|]. destruct (fmt_fin r Fr B) as (x & Fx & Vx). specialize (N x Fx). rewrite Vx in N.
  replace (r - r) with 0 in N by ring. rewrite Rabs_R0 in N. pose proof (Rabs_pos (f64_val z - r)).
  destruct (Req_dec (f64_val z - r) 0) as [E|E]; [lra|]. apply Rabs_pos_lt in E. lra.
Qed.

(** ** one more rounding on top of two sums of [n1] and [n2] products *)
Lemma dot_step n1 n2 A1 A2 c q : 1 <= n1 -> 1 <= n2 -> n1 + n2 <= 2 ^ 48 -> 0 <= A1 -> 0 <= A2 -> 0 <= c <= 2 * (n1 + n2) -> 
  q <= 2 * n1 * (uu * A1) + 2 * n2 * (uu * A2) + c * et ->
  q + uu * (A1 + A2 + q) <= 2 * (n1 + n2) * (uu * (A1 + A2)) + (c + / 8) * et /\ A1 + A2 + q <= 2 * (A1 + A2) + 1.
Proof.
  intros H1 H2 H3 P1 P2 Hc Hq. pose proof uu_pos as U. pose proof et_pos as TP. pose proof et_small as TS.
  assert (Q1 : 0 <= uu * A1) by (apply Rmult_le_pos; lra). assert (Q2 : 0 <= uu * A2) by (apply Rmult_le_pos; lra).
  assert (X1 : 1 * (uu * A1) <= n2 * (uu * A1)) by (apply Rmult_le_compat_r; lra).
  assert (X2 : 1 * (uu * A2) <= n1 * (uu * A2)) by (apply Rmult_le_compat_r; lra).
  assert (K : 2 * (n1 + n2) * uu <= / 16) by (unfold uu; lra).
  assert (S1 : 2 * n1 * (uu * A1) <= / 16 * A1).
  { apply Rle_trans with (2 * (n1 + n2) * uu * A1); [|apply Rmult_le_compat_r; lra].
    assert (0 <= n2 * (uu * A1)) by (apply Rmult_le_pos; lra). lra. }
  assert (S2 : 2 * n2 * (uu * A2) <= / 16 * A2).
  { apply Rle_trans with (2 * (n1 + n2) * uu * A2); [|apply Rmult_le_compat_r; lra].
    assert (0 <= n1 * (uu * A2)) by (apply Rmult_le_pos; lra). lra. }
  assert (Cu : c * uu <= / 16) by (apply Rle_trans with (2 * (n1 + n2) * uu); [apply Rmult_le_compat_r; lra|exact K]).
  assert (Ce : c * et <= / 256). { apply Rle_trans with (c * (uu / 16)); [apply Rmult_le_compat_l; lra|]. lra. }
  assert (Cue : uu * (c * et) <= / 16 * et). { replace (uu * (c * et)) with (c * uu * et) by ring. apply Rmult_le_compat_r; lra. }
  assert (V : uu * (A1 + A2 + q) <= uu * (A1 + A2 + (/ 16 * A1 + / 16 * A2 + c * et))) by (apply Rmult_le_compat_l; lra).
  split; lra.
Qed.

Lemma zero_of x T A : Rabs (x - T) <= 0 -> Rabs T <= A -> A = 0 -> x = 0 /\ T = 0.
Proof.
  intros H1 H2 ->. split; (destruct (Req_dec T 0) as [E|E]; [|apply Rabs_pos_lt in E; lra]); [|exact E]. rewrite E, Rminus_0_r in H1.
  destruct (Req_dec x 0) as [E2|E2]; [exact E2|apply Rabs_pos_lt in E2; lra].
Qed.

(** ** sums of products in any order *)
Definition ordpair (p : spec_float * spec_float) : Prop := f64_ordinary (fst p) /\ f64_ordinary (snd p).
Lemma ord_prod a b : f64_ordinary a -> f64_ordinary b -> Rabs (f64_val a * f64_val b) <= bpow radix2 600.
Proof. intros [_ B1] [_ B2]. rewrite powerRZ_bpow in *. exact (le_bpow_mul _ _ _ _ B1 B2). Qed.
Lemma prods_bound l : Forall ordpair l -> INR (length l) <= 2 ^ 48 -> total (prods gabs l) <= bpow radix2 648.
Proof.
  intros H N. rewrite prods_abs. eapply Rle_trans; [apply total_small with (c := bpow radix2 600)|].
  - unfold prods. apply Forall_map. eapply Forall_impl; [|exact H]. intros [a b] [Ha Hb]. apply ord_prod; assumption.
  - unfold prods. rewrite map_length. change 648%Z with (48 + 600)%Z. rewrite (bpow_plus _ 48). apply Rmult_le_compat_r; [apply bpow_ge_0|].
    replace (bpow radix2 48) with (2 ^ 48) by (cbn; lra). exact N.
Qed.
Lemma prods_nonneg l : 0 <= total (prods gabs l).
Proof. rewrite prods_abs. apply total_nonneg, abs_nonneg. Qed.
Lemma prods_le l : Rabs (total (prods f64_val l)) <= total (prods gabs l).
Proof. rewrite prods_abs. apply total_abs. Qed.
Lemma prods_perm g l l' : Permutation l l' -> total (prods g l) = total (prods g l').
Proof. intros H. apply total_perm. apply Permutation_map. exact H. Qed.
Lemma prods_app g l r : total (prods g (l ++ r)) = total (prods g l) + total (prods g r).
Proof. unfold prods. rewrite map_app. apply total_app. Qed.
Lemma prods_cons g a b l : total (prods g ((a, b) :: l)) = g a * g b + total (prods g l).
Proof. reflexivity. Qed.
Lemma prods_nil g : total (prods g []) = 0.
Proof. reflexivity. Qed.

Definition ecount (l : list (spec_float * spec_float)) : R := INR (2 * length l - 1).
Lemma ecount_some p l : ecount (p :: l) = 2 * INR (length (p :: l)) - 1.
Proof. unfold ecount. cbn [length]. rewrite minus_INR by lia. rewrite mult_INR. cbn [INR]. lra. Qed.
Lemma ecount_nil : ecount [] = 0. Proof. reflexivity. Qed.

Lemma dot_size l x T A : Rabs (x - T) <= 2 * INR (length l) * (uu * A) + ecount l * et -> Rabs T <= A -> 0 <= A -> INR (length l) <= 2 ^ 48 ->
  Rabs x <= 2 * A + 1.
Proof.
  intros E HT PA N. pose proof (near_abs _ _ _ E) as B. pose proof uu_pos as U. pose proof et_pos as TP. pose proof et_small as TS. pose proof (pos_INR (length l)).
  assert (C : 0 <= ecount l <= 2 * INR (length l)).
  { unfold ecount. split; [apply pos_INR|]. apply Rle_trans with (INR (2 * length l)); [apply le_INR; lia|]. rewrite mult_INR. cbn [INR]. lra. }
  assert (K : 2 * INR (length l) * uu <= / 8) by (unfold uu; lra).
  assert (2 * INR (length l) * (uu * A) <= / 8 * A) by (rewrite <- Rmult_assoc; apply Rmult_le_compat_r; lra).
  assert (ecount l * et <= 2 * INR (length l) * (uu / 16)) by (apply Rmult_le_compat; lra). lra.
Qed.
Lemma add_zero x y : f64_fin x -> f64_fin y -> f64_val x = 0 -> Rabs (f64_val y) <= bpow radix2 1000 ->
  f64_fin (SFadd 53 1024 x y) /\ f64_val (SFadd 53 1024 x y) = f64_val y.
Proof.
  intros Fx Fy X0 B. destruct (f64_add x y Fx Fy) as [F V]; rewrite X0, Rplus_0_l in *; [apply (le_bpow_trans _ _ _ B); lia|]. split; [exact F|].
  rewrite V. apply frnd_fmt, fin_fmt, Fy.
Qed.

Lemma dot_any l v : dotted l v -> Forall ordpair l -> INR (length l) <= 2 ^ 48 ->
  f64_fin v /\ Rabs (f64_val v - total (prods f64_val l)) <= 2 * INR (length l) * (uu * total (prods gabs l)) + ecount l * et.
Proof.
  pose proof uu_pos as U. pose proof et_pos as TP.
  assert (B1000 : 2 * bpow radix2 648 + 1 <= bpow radix2 1000).
  { apply Rle_trans with (bpow radix2 650); [|apply bpow_le; lia]. change 650%Z with (2 + 648)%Z. rewrite (bpow_plus _ 2). change (bpow radix2 2) with 4.
    assert (1 <= bpow radix2 648) by (change 1 with (bpow radix2 0); apply bpow_le; lia). lra. }
  intros H. induction H as [b|a b|l r x y Hl IHl Hr IHr|a b l x z Hl IHl Hz|l l' x HP Hl IHl]; intros O N.
  - split; [repeat split|]. rewrite !prods_nil, ecount_nil. cbn [f64_val length INR]. rewrite Rminus_0_r, Rabs_R0. lra.
  - apply Forall_inv in O as [Oa Ob]. cbn [fst snd] in Oa, Ob. rewrite !prods_cons, !prods_nil, ecount_some. cbn [length INR]. rewrite !Rplus_0_r.
    pose proof (ord_prod a b Oa Ob) as B. destruct Oa as [Fa _], Ob as [Fb _].
    destruct (mul_ok a b Fa Fb) as [F E]; [apply (le_bpow_trans _ _ _ B); lia|]. split; [exact F|].
    unfold gabs. rewrite <- Rabs_mult. set (w := Rabs (f64_val a * f64_val b)) in *. assert (0 <= uu * w) by (apply Rmult_le_pos; [lra|apply Rabs_pos]). lra.
  - pose proof (prods_bound _ O N) as BA. apply Forall_app in O as [Ol Or]. rewrite !prods_app in *. rewrite app_length, plus_INR in *.
    pose proof (pos_INR (length l)) as Pl. pose proof (pos_INR (length r)) as Pr.
    destruct (IHl Ol ltac:(lra)) as [Fx Ex]. destruct (IHr Or ltac:(lra)) as [Fy Ey].
    pose proof (prods_nonneg l) as PA1. pose proof (prods_nonneg r) as PA2. pose proof (prods_le l) as TA1. pose proof (prods_le r) as TA2.
    set (A1 := total (prods gabs l)) in *. set (A2 := total (prods gabs r)) in *.
    set (T1 := total (prods f64_val l)) in *. set (T2 := total (prods f64_val r)) in *.
    assert (SB : forall q, Rabs (f64_val x - T1) + Rabs (f64_val y - T2) <= q -> Rabs (f64_val x + f64_val y - (T1 + T2)) <= q /\ Rabs (f64_val x + f64_val y) <= A1 + A2 + q).
    { intros q Hq. assert (Es : Rabs (f64_val x + f64_val y - (T1 + T2)) <= q).
      { replace (f64_val x + f64_val y - (T1 + T2)) with ((f64_val x - T1) + (f64_val y - T2)) by ring. eapply Rle_trans; [apply Rabs_triang|]. exact Hq. }
      split; [exact Es|]. pose proof (near_abs _ _ _ Es). pose proof (Rabs_triang T1 T2). lra. }
    destruct l as [|p l]; [|destruct r as [|p2 r]].
    + assert (Z1 : A1 = 0) by reflexivity. rewrite ecount_nil in Ex. cbn [length app] in *. change (INR 0) with 0 in *. rewrite Z1 in *.
      destruct (zero_of (f64_val x) T1 0 ltac:(lra) TA1 eq_refl) as [X0 Z2]. rewrite Z2 in *.
      pose proof (dot_size _ _ _ _ Ey TA2 PA2 ltac:(lra)) as By.
      destruct (add_zero x y Fx Fy X0 ltac:(lra)) as [Fz Vz]. split; [exact Fz|]. rewrite Vz, !Rplus_0_l. exact Ey.
    + assert (Z1 : A2 = 0) by reflexivity. rewrite ecount_nil in Ey. rewrite app_nil_r. set (pl := p :: l) in *. change (INR (length [])) with 0 in *. rewrite Z1 in *.
      destruct (zero_of (f64_val y) T2 0 ltac:(lra) TA2 eq_refl) as [X0 Z2]. rewrite Z2 in *.
      pose proof (dot_size _ _ _ _ Ex TA1 PA1 ltac:(lra)) as Bx. rewrite SFadd_comm.
      destruct (add_zero y x Fy Fx X0 ltac:(lra)) as [Fz Vz]. split; [exact Fz|]. rewrite Vz, !Rplus_0_r. exact Ex.
    + assert (O1 : 1 <= INR (length (p :: l))) by (apply (le_INR 1); cbn; lia). assert (O2 : 1 <= INR (length (p2 :: r))) by (apply (le_INR 1); cbn; lia).
      cbn [app]. rewrite ecount_some in *. rewrite app_comm_cons, app_length, plus_INR.
      set (n1 := INR (length (p :: l))) in *. set (n2 := INR (length (p2 :: r))) in *.
      set (q := 2 * n1 * (uu * A1) + 2 * n2 * (uu * A2) + (2 * (n1 + n2) - 2) * et).
      destruct (SB q ltac:(unfold q; lra)) as [Es Bs].
      destruct (dot_step n1 n2 A1 A2 (2 * (n1 + n2) - 2) q O1 O2 N PA1 PA2 ltac:(lra) (Rle_refl _)) as [Q1 Q2].
      destruct (add_ok x y Fx Fy ltac:(lra)) as [Fz Ez]. split; [exact Fz|].
      eapply Rle_trans; [apply (near_trans _ _ _ _ _ Ez Es)|].
      assert (uu * Rabs (f64_val x + f64_val y) <= uu * (A1 + A2 + q)) by (apply Rmult_le_compat_l; lra). lra.
  - pose proof (prods_bound _ O N) as BA. apply Forall_cons_iff in O as [[Oa Ob] Ol]. cbn [fst snd] in Oa, Ob. rewrite !prods_cons in *.
    assert (LE : INR (length ((a, b) :: l)) = 1 + INR (length l)) by (cbn [length]; rewrite S_INR; ring). rewrite LE in *.
    pose proof (pos_INR (length l)) as Pl. destruct (IHl Ol ltac:(lra)) as [Fx Ex].
    pose proof (prods_nonneg l) as PA1. pose proof (prods_le l) as TA1. rewrite ecount_some, LE.
    set (A1 := total (prods gabs l)) in *. set (T1 := total (prods f64_val l)) in *.
    unfold gabs in *. rewrite <- Rabs_mult in *. set (w := f64_val a * f64_val b) in *. pose proof (Rabs_pos w) as Pw.
    assert (Puw : 0 <= uu * Rabs w) by (apply Rmult_le_pos; lra).
    destruct l as [|p l].
    + assert (Z1 : A1 = 0) by reflexivity. rewrite ecount_nil in Ex. change (INR (length [])) with 0 in *. rewrite Z1 in *.
      destruct (zero_of (f64_val x) T1 0 ltac:(lra) TA1 eq_refl) as [X0 Z2]. rewrite Z2, X0 in *. rewrite !Rplus_0_r in *.
      destruct (nearest_err _ _ Hz ltac:(lra)) as [Fz Ez]. split; [exact Fz|]. lra.
    + assert (O2 : 1 <= INR (length (p :: l))) by (apply (le_INR 1); cbn; lia). rewrite ecount_some in Ex. set (n2 := INR (length (p :: l))) in *.
      set (q := 2 * 1 * (uu * Rabs w) + 2 * n2 * (uu * A1) + (2 * n2 - 1) * et).
      set (q0 := 2 * n2 * (uu * A1) + (2 * n2 - 1) * et) in *.
      destruct (dot_step 1 n2 (Rabs w) A1 (2 * n2 - 1) q0 ltac:(lra) O2 N Pw PA1 ltac:(lra) ltac:(unfold q0; lra)) as [Q1 Q2].
      assert (Es : Rabs (w + f64_val x - (w + T1)) <= q0) by (replace (w + f64_val x - (w + T1)) with (f64_val x - T1) by ring; exact Ex).
      pose proof (near_abs _ _ _ Es) as Bs. pose proof (Rabs_triang w T1) as Tt.
      destruct (nearest_err _ _ Hz ltac:(lra)) as [Fz Ez]. split; [exact Fz|].
      eapply Rle_trans; [apply (near_trans _ _ _ _ _ Ez Es)|].
      assert (uu * Rabs (w + f64_val x) <= uu * (Rabs w + A1 + q0)) by (apply Rmult_le_compat_l; lra). lra.
  - apply Permutation_sym in HP. destruct IHl as [Fx Ex].
    + eapply Permutation_Forall; [exact HP|exact O].
    + rewrite <- (Permutation_length HP). exact N.
    + split; [exact Fx|]. unfold ecount in *. rewrite (Permutation_length HP), !(prods_perm _ _ _ HP). exact Ex.
Qed.

(** ** whole numbers: no rounding at all *)
Definition wholepair (p : spec_float * spec_float) : Prop := (f64_fin (fst p) /\ whole (fst p)) /\ (f64_fin (snd p) /\ whole (snd p)).
Lemma fmt_whole m : Rabs (IZR m) <= 2 ^ 53 -> fmt (IZR m) /\ Rabs (IZR m) <= bpow radix2 1000 /\ Rabs (IZR m) < bpow radix2 1024.
Proof.
  intros H. assert (B : Rabs (IZR m) <= bpow radix2 1000).
  { apply Rle_trans with (bpow radix2 53); [|apply bpow_le; lia]. replace (bpow radix2 53) with (2 ^ 53) by (cbn; lra). exact H. }
  split; [|split; [exact B|apply Rle_lt_trans with (bpow radix2 1000); [exact B|apply bpow_lt; lia]]].
  apply fmt_Z. apply le_IZR. rewrite abs_IZR. eapply Rle_trans; [exact H|]. change (2 ^ 53)%Z with (Zpower radix2 53). rewrite IZR_Zpower by lia. cbn. lra.
Qed.
Lemma prods_whole l : Forall wholepair l -> exists m, total (prods f64_val l) = IZR m.
Proof.
  induction 1 as [|[a b] l [[_ [ma Ha]] [_ [mb Hb]]] _ [m Hm]]; [exists 0%Z; reflexivity|]. exists (ma * mb + m)%Z.
  cbn [fst snd] in *. rewrite prods_cons, Ha, Hb, Hm, plus_IZR, mult_IZR. reflexivity.
Qed.
Lemma dot_exact l v : dotted l v -> Forall wholepair l -> total (prods gabs l) <= 2 ^ 53 -> f64_fin v /\ f64_val v = total (prods f64_val l).
Proof.
  intros H. induction H as [b|a b|l r x y Hl IHl Hr IHr|a b l x z Hl IHl Hz|l l' x HP Hl IHl]; intros O N.
  - split; [repeat split|]. reflexivity.
  - destruct (prods_whole _ O) as [m Hm]. pose proof (prods_le [(a, b)]) as HA. rewrite Hm in *.
    destruct (fmt_whole m ltac:(lra)) as (Fm & B1 & B2). apply Forall_inv in O as [[Fa _] [Fb _]]. cbn [fst snd] in Fa, Fb.
    rewrite prods_cons, prods_nil, Rplus_0_r in Hm.
    destruct (f64_mul a b Fa Fb) as [F V]; [rewrite Hm; apply (le_bpow_trans _ _ _ B1); lia|]. split; [exact F|]. rewrite V, Hm. apply frnd_fmt, Fm.
  - destruct (prods_whole _ O) as [m Hm]. pose proof (prods_le (l ++ r)) as HA. rewrite Hm in *.
    destruct (fmt_whole m ltac:(lra)) as (Fm & B1 & B2). apply Forall_app in O as [Ol Or]. rewrite !prods_app in *.
    pose proof (prods_nonneg l). pose proof (prods_nonneg r). destruct (IHl Ol ltac:(lra)) as [Fx Vx]. destruct (IHr Or ltac:(lra)) as [Fy Vy].
    rewrite <- Vx, <- Vy in Hm. destruct (f64_add x y Fx Fy) as [F V]; [rewrite Hm; apply (le_bpow_trans _ _ _ B1); lia|]. split; [exact F|]. rewrite V, Hm. apply frnd_fmt, Fm.
  - destruct (prods_whole _ O) as [m Hm]. pose proof (prods_le ((a, b) :: l)) as HA. rewrite Hm in *.
    destruct (fmt_whole m ltac:(lra)) as (Fm & B1 & B2). apply Forall_cons_iff in O as [_ Ol]. rewrite !prods_cons in *.
    assert (0 <= gabs a * gabs b) by (apply Rmult_le_pos; apply Rabs_pos). destruct (IHl Ol ltac:(lra)) as [Fx Vx].
    rewrite <- Vx in Hm. rewrite Hm in Hz. apply nearest_exact; assumption.
  - apply Permutation_sym in HP. destruct IHl as [Fx Ex].
    + eapply Permutation_Forall; [exact HP|exact O].
    + rewrite <- (prods_perm _ _ _ HP). exact N.
    + split; [exact Fx|]. rewrite (prods_perm _ _ _ HP). exact Ex.
Qed.

(** ** the pairs *)
Lemma at0_look {T} (g : T -> R) (l : list T) z : at0 (V:=RV) (map g l) z = match look l z with Some x => g x | None => 0 end.
Proof. unfold at0, look. destruct (z <? 0)%Z; [reflexivity|]. rewrite nth_error_map. destruct (nth_error l (Z.to_nat z)); reflexivity. Qed.
Lemma total_seq (f : nat -> list (spec_float * spec_float)) g n :
  total (prods g (flat_map f (seq 0 n))) = vsum (V:=RV) (fun i => total (prods g (f i))) n.
Proof.
  induction n as [|n IH]; [reflexivity|]. rewrite seq_S, flat_map_app, prods_app, IH. cbn [flat_map vsum Nat.add]. rewrite app_nil_r. reflexivity.
Qed.
Lemma conv_pairs_total g (a b : list spec_float) k : total (prods g (conv_pairs a b k)) = conv_at (V:=RV) (map g a) (map g b) k.
Proof.
  unfold conv_pairs, conv_at. rewrite total_seq, map_length. apply (vsum_ext (V:=RV)). intros i _. rewrite !at0_look.
  destruct (look a _) as [x|], (look b _) as [y|]; unfold both; rewrite ?prods_cons, ?prods_nil; cbn; ring.
Qed.
Lemma look_rev {T} (l : list T) z : look (rev l) z = look l (Z.of_nat (length l) - 1 - z).
Proof.
  unfold look. destruct (Z.ltb_spec z 0) as [H|H]; destruct (Z.ltb_spec (Z.of_nat (length l) - 1 - z) 0) as [H2|H2]; try reflexivity.
  - symmetry. apply nth_error_None. lia.
  - apply nth_error_None. rewrite rev_length. lia.
  - rewrite nth_error_rev by lia. f_equal. lia.
Qed.
Lemma conv_pairs_rev {T} (a b : list T) k : conv_pairs a (rev b) k = corr_pairs a b (k - (Z.of_nat (length b) - 1)).
Proof. unfold conv_pairs, corr_pairs. apply flat_map_ext. intros i. rewrite look_rev. f_equal. f_equal. lia. Qed.
Lemma corr_pairs_total g (a b : list spec_float) lag : total (prods g (corr_pairs a b lag)) = corr_at (V:=RV) (map g a) (map g b) lag.
Proof.
  replace lag with ((lag + (Z.of_nat (length b) - 1)) - (Z.of_nat (length b) - 1))%Z by lia. rewrite <- conv_pairs_rev, conv_pairs_total.
  rewrite map_rev. pose proof (corr_conv RV_laws RV_claws (map g a) (map g b) (lag + (Z.of_nat (length b) - 1))) as H. rewrite map_length in H.
  rewrite <- H. f_equal. symmetry. f_equal. apply map_id.
Qed.
Lemma pairs_len {T} (a : list T) (f : nat -> option T) : (length (flat_map (fun n => both (look a (Z.of_nat n)) (f n)) (seq 0 (length a))) <= length a)%nat.
Proof.
  rewrite <- (seq_length (length a) 0) at 2. induction (seq 0 (length a)) as [|i l IH]; [reflexivity|]. cbn [flat_map length]. rewrite app_length.
  destruct (look a (Z.of_nat i)), (f i); cbn [both length]; lia.
Qed.
Lemma look_In {T} (l : list T) z x : look l z = Some x -> In x l.
Proof. unfold look. destruct (z <? 0)%Z; [discriminate|]. apply nth_error_In. Qed.
Lemma pairs_all {T} (P : T -> Prop) (a b : list T) k : Forall P a -> Forall P b -> Forall (fun p => P (fst p) /\ P (snd p)) (conv_pairs a b k).
Proof.
  intros Ha Hb. rewrite Forall_forall in Ha, Hb. apply Forall_flat_map, Forall_forall. intros i _.
  destruct (look a (Z.of_nat i)) eqn:E1, (look b (k - Z.of_nat i)) eqn:E2; cbn [both]; constructor; [|constructor].
  cbn [fst snd]. split; [apply Ha|apply Hb]; eapply look_In; eassumption.
Qed.

(** ** numpy.convolve of the model adds up these pairs *)
Lemma conv_term_dotted (a b : list spec_float) k j :
  dotted (both (look a (Z.of_nat j)) (look b (Z.of_nat k - Z.of_nat j))) (conv_term FA FV a b k j).
Proof.
  unfold conv_term, look. destruct (Z.ltb_spec (Z.of_nat j) 0); [lia|]. rewrite Nat2Z.id.
  destruct (Nat.leb_spec j k) as [L|L].
  - destruct (Z.ltb_spec (Z.of_nat k - Z.of_nat j) 0); [lia|]. replace (Z.to_nat (Z.of_nat k - Z.of_nat j)) with (k - j)%nat by lia.
    change (val FV) with spec_float. destruct (nth_error b (k - j)) as [y|], (nth_error a j) as [x|]; cbn [both]; try apply (dot_none false). apply dot_one.
  - destruct (Z.ltb_spec (Z.of_nat k - Z.of_nat j) 0); [|lia]. destruct (nth_error a j); apply (dot_none false).
Qed.
Lemma conv_sum_dotted (a b : list spec_float) k : dotted (conv_pairs a b (Z.of_nat k)) (v_sum FA FV (map (conv_term FA FV a b k) (seq 0 (length a)))).
Proof.
  unfold conv_pairs. generalize (length a) as m. induction m as [|m IH]; [apply (dot_none false)|].
  rewrite seq_S, flat_map_app, map_app. unfold v_sum in *. rewrite fold_left_app. cbn [map fold_left flat_map Nat.add]. rewrite app_nil_r.
  apply dot_two; [exact IH|apply conv_term_dotted].
Qed.
Lemma conv_model (a b : list spec_float) : a <> [] -> b <> [] ->
  exists z, np_convolve FA FV a b = Ok z /\ length z = (length a + length b - 1)%nat /\
    forall k w, nth_error z k = Some w -> dotted (conv_pairs a b (Z.of_nat k)) w.
Proof.
  intros Ha Hb. exists (convolve_full FA FV a b). split; [destruct a; [tauto|]; destruct b; [tauto|reflexivity]|].
  unfold convolve_full. split; [rewrite map_length, seq_length; reflexivity|]. intros k w Hw. pose proof (nth_error_len _ _ _ Hw) as Lk. rewrite map_length, seq_length in Lk.
  rewrite nth_error_map_seq in Hw by exact Lk. injection Hw as <-.
  apply conv_sum_dotted.
Qed.
Lemma corr_model (a b : list spec_float) : a <> [] -> b <> [] ->
  exists z, np_correlate FA FV a b = Ok z /\ length z = (length a + length b - 1)%nat /\
    forall k w, nth_error z k = Some w -> dotted (corr_pairs a b (Z.of_nat k - (Z.of_nat (length b) - 1))) w.
Proof.
  intros Ha Hb. unfold np_correlate.
  assert (E : rev (map (v_conj FV) b) = rev b) by (f_equal; apply map_id). rewrite E.
  destruct (conv_model a (rev b)) as (z & Hz & L & D); [exact Ha|intros X; apply (f_equal (@length spec_float)) in X; rewrite rev_length in X; destruct b; [tauto|discriminate]|].
  exists z. split; [exact Hz|]. rewrite rev_length in L. split; [exact L|]. intros k w Hw. rewrite <- conv_pairs_rev. apply D, Hw.
Qed.

(** ** correlate and convolve of relations on axes of equal length *)
Lemma add_opp x : f64_fin x -> SFadd 53 1024 x (SFopp x) = S754_zero false.
Proof.
  intros [_ F]. destruct x as [b|b| |b m ex]; try contradiction; [destruct b; reflexivity|].
  cbn [SFopp SFadd]. rewrite Z.min_id. set (q := fst (shl_align m ex ex)).
  replace (cond_Zopp b (Zpos q) + cond_Zopp (negb b) (Zpos q))%Z with 0%Z by (destruct b; cbn [cond_Zopp negb]; lia). reflexivity.
Qed.
Lemma val_inj x y : f64_fin x -> f64_fin y -> f64_val x = f64_val y -> f64_val x <> 0 -> x = y.
Proof.
  intros Fx Fy E N. apply fin_B in Fx as [bx [-> Gx]]. apply fin_B in Fy as [by_ [-> Gy]]. rewrite !val_B in *.
  f_equal. assert (Sx : is_finite_strict bx = true) by (destruct bx; try discriminate; [cbn in N; lra|reflexivity]).
  assert (Sy : is_finite_strict by_ = true) by (destruct by_; try discriminate; [rewrite E in N; cbn in N; lra|reflexivity]).
  apply B2R_inj; assumption.
Qed.

Section Lagged.
Context (s e d : spec_float) (n : nat) (HF : f64_forward s e d n) (Hn : (1 <= n)%nat) (Hn2 : INR n <= 2 ^ 45)
  (HQ : Rabs ((f64_val e - f64_val s) / f64_val d - INR n) <= / 8).
Let S := f64_val s. Let E := f64_val e. Let D := f64_val d.
Let e' := SFadd 53 1024 e (SFopp s).
Lemma lag_D : 0 < D /\ bpow radix2 (-300) <= D <= bpow radix2 300.
Proof. destruct HF as (_ & B & _). rewrite !powerRZ_bpow in B. pose proof (bpow_gt_0 radix2 (-300)). fold D in B. split; lra. Qed.
Lemma lag_span : Rabs (E - S - INR n * D) <= / 8 * D.
Proof.
  destruct lag_D as [P _]. fold S E D in HQ. replace (E - S - INR n * D) with (((E - S) / D - INR n) * D) by (field; lra).
  rewrite Rabs_mult, (Rabs_right D) by lra. apply Rmult_le_compat_r; [lra|exact HQ].
Qed.
Lemma lag_n : 1 <= INR n. Proof. apply (le_INR 1). exact Hn. Qed.
Lemma lag_e : f64_fin e' /\ f64_val e' = frnd (E - S) /\ Rabs (f64_val e' - (E - S)) <= uu * (E - S) /\ 0 < E - S <= (INR n + 1) * D.
Proof.
  destruct lag_D as [P [_ B]]. pose proof lag_span as Q. apply Rabs_le_inv in Q. pose proof lag_n as O.
  assert (X : 1 * D <= INR n * D) by (apply Rmult_le_compat_r; lra).
  destruct HF as ((Fs & Fe & _) & _ & _). destruct (f64_opp s Fs) as [Fo Vo]. fold S in Vo.
  assert (BS : Rabs (E - S) <= bpow radix2 400).
  { apply Rle_trans with ((2 ^ 45 + 1) * D); [apply Rabs_le; assert (INR n * D <= 2 ^ 45 * D) by (apply Rmult_le_compat_r; lra); lra|].
    apply Rle_trans with (bpow radix2 46 * bpow radix2 300); [|rewrite <- bpow_plus; apply bpow_le; lia].
    replace (bpow radix2 46) with (2 ^ 46) by (cbn; lra). apply Rmult_le_compat; lra. }
  destruct (f64_add e (SFopp s) Fe Fo) as [F V].
  { rewrite Vo. apply le_bpow_trans with 400%Z; [exact BS|lia]. }
  rewrite Vo in V. fold e' in F, V. split; [exact F|]. split; [exact V|]. split; [|lra].
  rewrite V. pose proof (frnd_err_sub E S (fin_fmt e Fe) (fin_fmt s Fs)) as R. fold E S in R. change (f64_val e + - S) with (E - S).
  rewrite (Rabs_right (E - S)) in R by lra. exact R.
Qed.
Lemma lag_near : Rabs (f64_val e' - INR n * D) <= (/ 8 + / 128) * D /\ Rabs (f64_val e' - (E - S)) <= / 128 * D /\ 0 < f64_val e'.
Proof.
  destruct lag_D as [P _]. pose proof lag_span as Q. destruct lag_e as (_ & _ & R & B). pose proof lag_n as O. pose proof uu_pos as U.
  assert (UB : uu * (E - S) <= / 128 * D).
  { apply Rle_trans with (uu * ((INR n + 1) * D)); [apply Rmult_le_compat_l; lra|].
    replace (uu * ((INR n + 1) * D)) with (uu * (INR n + 1) * D) by ring. apply Rmult_le_compat_r; [lra|]. unfold uu. lra. }
  apply Rabs_le_inv in Q, R. assert (X : 1 * D <= INR n * D) by (apply Rmult_le_compat_r; lra).
  split; [apply Rabs_le; lra|]. split; [apply Rabs_le; lra|]. lra.
Qed.
Lemma quot_near x k c : 0 <= x -> Rabs (x - k * D) <= c * D -> Rabs (Rabs x / Rabs D - k) <= c.
Proof.
  intros Px H. destruct lag_D as [P _]. rewrite (Rabs_right x), (Rabs_right D) by lra. replace (x / D - k) with ((x - k * D) / D) by (field; lra).
  rewrite div_abs, (Rabs_right D) by lra. apply Rmult_le_reg_r with D; [lra|]. unfold Rdiv. rewrite Rmult_assoc, Rinv_l by lra. lra.
Qed.
Lemma lag_big : Rabs (f64_val e') <= 2 ^ 46 * Rabs D.
Proof.
  destruct lag_D as [P _]. destruct lag_near as (N1 & _ & N3). apply Rabs_le_inv in N1. rewrite !Rabs_right by lra.
  assert (INR n * D <= 2 ^ 45 * D) by (apply Rmult_le_compat_r; lra). lra.
Qed.
Lemma lag_tame : f64_tame (S754_zero false) e' d n.
Proof.
  destruct lag_D as [P _]. destruct lag_near as (N1 & _ & N3). destruct lag_e as (F & _). destruct HF as ((_ & _ & Fd & B & _) & _).
  split; [repeat split|]. split; [exact F|]. split; [exact Fd|]. split; [exact B|]. change (f64_val (S754_zero false)) with 0.
  split; [rewrite Rabs_R0; apply Rmult_le_pos; [lra|apply Rabs_pos]|]. split; [exact lag_big|].
  rewrite Rminus_0_r. apply (quot_near (f64_val e') (INR n) (/ 4)); [lra|]. eapply Rle_trans; [exact N1|]. lra.
Qed.
Lemma lag_axis : f64_axis (SFopp e') e' d (2 * n).
Proof.
  destruct lag_D as [P _]. destruct lag_near as (N1 & _ & N3). destruct lag_e as (F & _). destruct HF as ((_ & _ & Fd & B & _) & _). rewrite !powerRZ_bpow in B.
  destruct (f64_opp e' F) as [Fo Vo]. pose proof lag_big as G. pose proof (Rabs_pos D). fold D in B. apply loose_axis; try assumption; fold D; try exact B.
  - rewrite Vo, Rabs_Ropp. lra.
  - lra.
  - rewrite mult_INR. cbn [INR]. lra.
  - rewrite Vo. apply (quot_near (f64_val e' - - f64_val e') (INR (2 * n)) (3 / 8)); [lra|]. rewrite mult_INR. cbn [INR].
    apply Rabs_le_inv in N1. apply Rabs_le. lra.
Qed.
Lemma lag_shift (y : list spec_float) : length y = (n + 1)%nat ->
  rel_shift FA FV (SFopp s) (mkRel (A:=FA) (V:=FV) (mkAxis (A:=FA) s e d) y) = Ok (mkRel (A:=FA) (V:=FV) (mkAxis (A:=FA) (S754_zero false) e' d) y).
Proof.
  intros L. unfold rel_shift, set_end, set_start. cbn [r_x r_y a_start a_end a_sample n_add FA]. fold e'.
  destruct HF as ((Fs & _) & _). rewrite (add_opp s Fs). unfold rel_make.
  rewrite (proj1 (f64_size _ _ _ _ (tame_axis _ _ _ _ lag_tame))). cbn [bind]. change (@length (val FV) y) with (@length spec_float y). rewrite L, Nat.eqb_refl. reflexivity.
Qed.
Lemma lag_points : exists xs, axis_array FA (mkAxis (A:=FA) (SFopp e') e' d) = Ok xs /\ length xs = (2 * n + 1)%nat /\
  forall i x, nth_error xs i = Some x -> f64_fin x /\ Rabs (f64_val x - (INR i - INR n) * ((E - S) / INR n)) <= / 2 ^ 49 * (E - S).
Proof.
  destruct (f64_array _ _ _ _ lag_axis) as (xs & X & L & _ & P & _). exists xs. split; [exact X|]. split; [exact L|].
  intros i x Hx. destruct (P i x Hx) as (Fx & _ & Q). split; [exact Fx|]. pose proof (nth_error_len _ _ _ Hx) as Li. rewrite L in Li.
  destruct lag_e as (F & _ & R & B). destruct (f64_opp e' F) as [_ Vo]. rewrite Vo, Rabs_Ropp, Rmax_left in Q by lra.
  pose proof uu_pos as U. pose proof lag_n as O. destruct lag_near as (_ & _ & N3). rewrite (Rabs_right (f64_val e')) in Q by lra.
  rewrite two50 in Q. pose proof (Rabs_near _ _ _ R) as R0. 
  assert (UU : uu * (E - S) <= / 1024 * (E - S)) by (apply Rmult_le_compat_r; [lra|apply uu_small]).
  apply Rabs_le_inv in R as R'. assert (Be : 8 * uu * f64_val e' <= 9 * (uu * (E - S))).
  { assert (uu * f64_val e' <= uu * (9 / 8 * (E - S))) by (apply Rmult_le_compat_l; lra). lra. }
  assert (G : grid_pt (- f64_val e') (f64_val e') (2 * n + 1) i = (INR i - INR n) * (f64_val e' / INR n)).
  { unfold grid_pt. replace (2 * n + 1 - 1)%nat with (2 * n)%nat by lia. rewrite mult_INR. cbn [INR]. field. lra. }
  rewrite G in Q.
  assert (G2 : Rabs ((INR i - INR n) * (f64_val e' / INR n) - (INR i - INR n) * ((E - S) / INR n)) <= uu * (E - S)).
  { replace ((INR i - INR n) * (f64_val e' / INR n) - (INR i - INR n) * ((E - S) / INR n)) with ((f64_val e' - (E - S)) * ((INR i - INR n) / INR n)) by (field; lra).
    rewrite Rabs_mult. rewrite <- (Rmult_1_r (uu * (E - S))). apply Rmult_le_compat; try apply Rabs_pos; [exact R|].
    assert (INR i <= 2 * INR n) by (change 2 with (INR 2); rewrite <- mult_INR; apply le_INR; lia). pose proof (pos_INR i).
    rewrite div_abs, (Rabs_right (INR n)) by lra. apply Rmult_le_reg_r with (INR n); [lra|]. unfold Rdiv. rewrite Rmult_assoc, Rinv_l, Rmult_1_r, Rmult_1_l by lra.
    apply Rabs_le. lra. }
  eapply Rle_trans; [apply (near_trans _ _ _ _ _ Q G2)|]. replace (/ 2 ^ 49) with (16 * uu) by (unfold uu; lra). 
  assert (0 <= uu * (E - S)) by (apply Rmult_le_pos; lra). lra.
Qed.
End Lagged.

Lemma f64_lagged (comb : list spec_float -> list spec_float -> result (list spec_float)) s1 e1 s2 e2 d n (y1 y2 z : list spec_float) :
  f64_forward s1 e1 d n -> f64_forward s2 e2 d n -> f64_val e1 - f64_val s1 = f64_val e2 - f64_val s2 ->
  (1 <= n)%nat -> INR n <= 2 ^ 45 -> Rabs ((f64_val e1 - f64_val s1) / f64_val d - INR n) <= / 8 ->
  length y1 = (n + 1)%nat -> length y2 = (n + 1)%nat -> comb y1 y2 = Ok z -> length z = (2 * n + 1)%nat ->
  let e' := SFadd 53 1024 e1 (SFopp s1) in
  rel_lagged FA FV (default_config FA FV) comb (mkRel (A:=FA) (V:=FV) (mkAxis (A:=FA) s1 e1 d) y1) (mkRel (A:=FA) (V:=FV) (mkAxis (A:=FA) s2 e2 d) y2) =
  Ok (mkRel (A:=FA) (V:=FV) (mkAxis (A:=FA) (SFopp e') e' d) z).
Proof.
  intros H1 H2 HE Hn Hn2 HQ L1 L2 Hz Lz e'. pose proof HQ as HQ2. rewrite HE in HQ2.
  assert (EE : SFadd 53 1024 e2 (SFopp s2) = e').
  { destruct (lag_e s1 e1 d n H1 Hn Hn2 HQ) as (F1 & V1 & _). destruct (lag_e s2 e2 d n H2 Hn Hn2 HQ2) as (F2 & V2 & _).
    destruct (lag_near s2 e2 d n H2 Hn Hn2 HQ2) as (_ & _ & N). apply val_inj; [exact F2|exact F1| |lra]. unfold e'. rewrite V1, V2, HE. reflexivity. }
  pose proof (lag_tame s1 e1 d n H1 Hn Hn2 HQ) as HT. fold e' in HT.
  unfold rel_lagged. cbn [r_x a_start n_opp FA].
  rewrite (lag_shift s1 e1 d n H1 Hn Hn2 HQ y1 L1). cbn [bind]. rewrite (lag_shift s2 e2 d n H2 Hn Hn2 HQ2 y2 L2). cbn [bind]. rewrite EE. fold e'.
  unfold rel_equalize. cbv zeta. cbn [r_x default_config c_common_x]. rewrite (f64_common _ _ _ _ HT).
  rewrite (f64_interp_own FV _ _ _ n y1 HT L1), (f64_interp_own FV _ _ _ n y2 HT L2). cbn [bind fst snd r_x r_y a_end a_sample].
  rewrite Hz. cbn [bind]. unfold rel_make. pose proof (proj1 (f64_size _ _ _ _ (lag_axis s1 e1 d n H1 Hn Hn2 HQ))) as HS. fold e' in HS. rewrite HS. cbn [bind].
  change (@length (val FV) z) with (@length spec_float z). rewrite Lz, Nat.eqb_refl. reflexivity.
Qed.

(** ** the errors *)
Lemma absv_map y : absv y = map gabs y.
Proof. unfold absv, vals. rewrite map_map. reflexivity. Qed.
Lemma two52' m A : m / 2 ^ 52 * A = 2 * m * (uu * A).
Proof. unfold uu. lra. Qed.
Lemma dot_error l w : dotted l w -> Forall ordpair l -> INR (length l) <= 2 ^ 48 ->
  f64_fin w /\ Rabs (f64_val w - total (prods f64_val l)) <= INR (length l) / 2 ^ 52 * total (prods gabs l) + INR (length l) * powerRZ 2 (-1074).
Proof.
  intros H O N. destruct (dot_any l w H O N) as [F E]. split; [exact F|]. eapply Rle_trans; [exact E|]. rewrite two52'.
  rewrite powerRZ_bpow. change (-1074)%Z with (1 + -1075)%Z. rewrite bpow_plus. change (bpow radix2 1) with 2. fold et. pose proof et_pos.
  assert (C : ecount l <= 2 * INR (length l)) by (unfold ecount; apply Rle_trans with (INR (2 * length l)); [apply le_INR; lia|rewrite mult_INR; cbn [INR]; lra]).
  assert (ecount l * et <= 2 * INR (length l) * et) by (apply Rmult_le_compat_r; lra). lra.
Qed.
Lemma conv_error a b k w : Forall f64_ordinary a -> Forall f64_ordinary b -> INR (length a) <= 2 ^ 48 -> dotted (conv_pairs a b k) w ->
  let m := INR (length (conv_pairs a b k)) in
  m <= INR (length a) /\ f64_fin w /\
  Rabs (f64_val w - conv_at (V:=RV) (vals a) (vals b) k) <= m / 2 ^ 52 * conv_at (V:=RV) (absv a) (absv b) k + m * powerRZ 2 (-1074).
Proof.
  intros Oa Ob N H m. assert (M : m <= INR (length a)) by (apply le_INR, pairs_len). split; [exact M|].
  pose proof (dot_error _ _ H (pairs_all _ _ _ _ Oa Ob) ltac:(fold m; lra)) as G. rewrite !conv_pairs_total in G. rewrite !absv_map. exact G.
Qed.
Lemma corr_as_conv {T} (a b : list T) lag : corr_pairs a b lag = conv_pairs a (rev b) (lag + (Z.of_nat (length b) - 1)).
Proof. rewrite conv_pairs_rev. f_equal. lia. Qed.
Lemma corr_error a b lag w : Forall f64_ordinary a -> Forall f64_ordinary b -> INR (length a) <= 2 ^ 48 -> dotted (corr_pairs a b lag) w ->
  let m := INR (length (corr_pairs a b lag)) in
  m <= INR (length a) /\ f64_fin w /\
  Rabs (f64_val w - corr_at (V:=RV) (vals a) (vals b) lag) <= m / 2 ^ 52 * corr_at (V:=RV) (absv a) (absv b) lag + m * powerRZ 2 (-1074).
Proof.
  intros Oa Ob N H m. assert (M : m <= INR (length a)) by (apply le_INR, pairs_len). split; [exact M|].
  assert (O : Forall ordpair (corr_pairs a b lag)) by (rewrite corr_as_conv; apply pairs_all; [exact Oa|apply Forall_rev; exact Ob]).
  pose proof (dot_error _ _ H O ltac:(fold m; lra)) as G. rewrite !corr_pairs_total in G. rewrite !absv_map. exact G.
Qed.
Lemma conv_whole a b k w : Forall f64_fin a -> Forall f64_fin b -> Forall whole a -> Forall whole b ->
  conv_at (V:=RV) (absv a) (absv b) k <= 2 ^ 53 -> dotted (conv_pairs a b k) w -> f64_fin w /\ f64_val w = conv_at (V:=RV) (vals a) (vals b) k.
Proof.
  intros Fa Fb Wa Wb B H. rewrite !absv_map, <- conv_pairs_total in B.
  pose proof (dot_exact _ _ H (pairs_all _ _ _ _ (Forall_and Fa Wa) (Forall_and Fb Wb)) B) as G. rewrite conv_pairs_total in G. exact G.
Qed.
Lemma corr_whole a b lag w : Forall f64_fin a -> Forall f64_fin b -> Forall whole a -> Forall whole b ->
  corr_at (V:=RV) (absv a) (absv b) lag <= 2 ^ 53 -> dotted (corr_pairs a b lag) w -> f64_fin w /\ f64_val w = corr_at (V:=RV) (vals a) (vals b) lag.
Proof.
  intros Fa Fb Wa Wb B H. rewrite !absv_map, <- corr_pairs_total in B.
  assert (O : Forall wholepair (corr_pairs a b lag)).
  { rewrite corr_as_conv. apply (pairs_all (fun x => f64_fin x /\ whole x)); [apply Forall_and; assumption|]. apply Forall_rev, Forall_and; assumption. }
  pose proof (dot_exact _ _ H O B) as G. rewrite corr_pairs_total in G. exact G.
Qed.
