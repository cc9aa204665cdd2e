(** Property theorems in IEEE binary64, continued: C87, how far correlations and convolutions can be from the exact ones. *)
From Coq Require Import Reals ZArith List Bool Lia Lra Permutation SpecFloat.
From Flocq Require Import Core.
From Verif Require Import Num Numpy Spec AxisModel RelModel FloatSpec CalcSpec FloatLemmas FloatLemmas2 FloatLemmas3 FloatLemmas4
  FloatLemmas5 FloatLemmas6 FloatLemmas7 FloatLemmas8 PropsFloat.
Import ListNotations.
Local Open Scope R_scope.

(** ** C87 correlation and convolution *)
(** [correlate] of two relations whose axes have the same sample and the same span [T], wherever they start: it succeeds on the axis
    from -T to T with 2n+1 points, each sample adds up the products belonging to its lag, and however they are added up the sample is
    the exact correlation up to [m] parts in 2^52 of the correlation of the absolute values, [m] the number of products *)
Theorem C87_correlate : forall s1 e1 s2 e2 d n (y1 y2 : list spec_float),
  f64_forward s1 e1 d n -> f64_forward s2 e2 d n -> f64_val e1 - f64_val s1 = f64_val e2 - f64_val s2 ->
  (1 <= n)%nat -> INR n <= 2 ^ 45 -> Rabs ((f64_val e1 - f64_val s1) / f64_val d - INR n) <= / 8 ->
  length y1 = (n + 1)%nat -> length y2 = (n + 1)%nat -> Forall f64_ordinary y1 -> Forall f64_ordinary y2 ->
  exists s e z xs, rel_correlate FA FV (default_config FA FV) (mkRel (A:=FA) (V:=FV) (mkAxis (A:=FA) s1 e1 d) y1) (mkRel (A:=FA) (V:=FV) (mkAxis (A:=FA) s2 e2 d) y2) =
      Ok (mkRel (A:=FA) (V:=FV) (mkAxis (A:=FA) s e d) z) /\
    length z = (2 * n + 1)%nat /\ axis_array FA (mkAxis (A:=FA) s e d) = Ok xs /\ length xs = (2 * n + 1)%nat /\
    (forall i x, nth_error xs i = Some x -> f64_fin x /\
      Rabs (f64_val x - (INR i - INR n) * ((f64_val e1 - f64_val s1) / INR n)) <= / 2 ^ 49 * (f64_val e1 - f64_val s1)) /\
    (forall i w, nth_error z i = Some w -> dotted (corr_pairs y1 y2 (Z.of_nat i - Z.of_nat n)) w) /\
    forall lag w, dotted (corr_pairs y1 y2 lag) w ->
      let m := INR (length (corr_pairs y1 y2 lag)) in
      m <= INR n + 1 /\ f64_fin w /\
      Rabs (f64_val w - corr_at (V:=RV) (vals y1) (vals y2) lag) <= m / 2 ^ 52 * corr_at (V:=RV) (absv y1) (absv y2) lag + m * powerRZ 2 (-1074).
Proof.
  intros s1 e1 s2 e2 d n y1 y2 H1 H2 HE Hn Hn2 HQ L1 L2 O1 O2.
  destruct (corr_model y1 y2) as (z & Hz & Lz & Dz); [destruct y1; [cbn in L1; lia|discriminate]|destruct y2; [cbn in L2; lia|discriminate]|].
  rewrite L1, L2 in Lz. assert (Lz2 : length z = (2 * n + 1)%nat) by (rewrite Lz; lia).
  destruct (lag_points s1 e1 d n H1 Hn Hn2 HQ) as (xs & X & Lx & P).
  eexists _, _, z, xs. split; [apply (f64_lagged (np_correlate FA FV) s1 e1 s2 e2 d n); assumption|]. split; [exact Lz2|]. split; [exact X|]. split; [exact Lx|].
  split; [exact P|]. split.
  - intros i w Hw. specialize (Dz i w Hw). rewrite L2 in Dz. replace (Z.of_nat i - Z.of_nat n)%Z with (Z.of_nat i - (Z.of_nat (n + 1) - 1))%Z by lia. exact Dz.
  - intros lag w Hw m. assert (B : INR (length y1) = INR n + 1) by (rewrite L1, plus_INR; reflexivity). rewrite <- B. apply corr_error; try assumption. lra.
Qed.
Print Assumptions C87_correlate.

(** [convolve] likewise *)
Theorem C87_convolve : forall s1 e1 s2 e2 d n (y1 y2 : list spec_float),
  f64_forward s1 e1 d n -> f64_forward s2 e2 d n -> f64_val e1 - f64_val s1 = f64_val e2 - f64_val s2 ->
  (1 <= n)%nat -> INR n <= 2 ^ 45 -> Rabs ((f64_val e1 - f64_val s1) / f64_val d - INR n) <= / 8 ->
  length y1 = (n + 1)%nat -> length y2 = (n + 1)%nat -> Forall f64_ordinary y1 -> Forall f64_ordinary y2 ->
  exists s e z xs, rel_convolve FA FV (default_config FA FV) (mkRel (A:=FA) (V:=FV) (mkAxis (A:=FA) s1 e1 d) y1) (mkRel (A:=FA) (V:=FV) (mkAxis (A:=FA) s2 e2 d) y2) =
      Ok (mkRel (A:=FA) (V:=FV) (mkAxis (A:=FA) s e d) z) /\
    length z = (2 * n + 1)%nat /\ axis_array FA (mkAxis (A:=FA) s e d) = Ok xs /\ length xs = (2 * n + 1)%nat /\
    (forall i x, nth_error xs i = Some x -> f64_fin x /\
      Rabs (f64_val x - (INR i - INR n) * ((f64_val e1 - f64_val s1) / INR n)) <= / 2 ^ 49 * (f64_val e1 - f64_val s1)) /\
    (forall i w, nth_error z i = Some w -> dotted (conv_pairs y1 y2 (Z.of_nat i)) w) /\
    forall k w, dotted (conv_pairs y1 y2 k) w ->
      let m := INR (length (conv_pairs y1 y2 k)) in
      m <= INR n + 1 /\ f64_fin w /\
      Rabs (f64_val w - conv_at (V:=RV) (vals y1) (vals y2) k) <= m / 2 ^ 52 * conv_at (V:=RV) (absv y1) (absv y2) k + m * powerRZ 2 (-1074).
Proof.
  intros s1 e1 s2 e2 d n y1 y2 H1 H2 HE Hn Hn2 HQ L1 L2 O1 O2.
  destruct (conv_model y1 y2) as (z & Hz & Lz & Dz); [destruct y1; [cbn in L1; lia|discriminate]|destruct y2; [cbn in L2; lia|discriminate]|].
  rewrite L1, L2 in Lz. assert (Lz2 : length z = (2 * n + 1)%nat) by (rewrite Lz; lia).
  destruct (lag_points s1 e1 d n H1 Hn Hn2 HQ) as (xs & X & Lx & P).
  eexists _, _, z, xs. split; [apply (f64_lagged (np_convolve FA FV) s1 e1 s2 e2 d n); assumption|]. split; [exact Lz2|]. split; [exact X|]. split; [exact Lx|].
  split; [exact P|]. split; [exact Dz|].
  intros k w Hw m. assert (B : INR (length y1) = INR n + 1) by (rewrite L1, plus_INR; reflexivity). rewrite <- B. apply conv_error; try assumption. lra.
Qed.
Print Assumptions C87_convolve.

(** whole numbers, such as the 1 and -1 of a code, are not rounded at all as long as the absolute values correlate to at most 2^53 *)
Theorem C87_whole : forall (a b : list spec_float), Forall f64_fin a -> Forall f64_fin b -> Forall whole a -> Forall whole b ->
  (forall lag w, corr_at (V:=RV) (absv a) (absv b) lag <= 2 ^ 53 -> dotted (corr_pairs a b lag) w -> f64_val w = corr_at (V:=RV) (vals a) (vals b) lag) /\
  (forall k w, conv_at (V:=RV) (absv a) (absv b) k <= 2 ^ 53 -> dotted (conv_pairs a b k) w -> f64_val w = conv_at (V:=RV) (vals a) (vals b) k).
Proof.
  intros a b Fa Fb Wa Wb. split; intros z w B H; [apply (corr_whole a b z w)|apply (conv_whole a b z w)]; assumption.
Qed.
Print Assumptions C87_whole.
Theorem C87_codes : forall (a b : list spec_float), INR (length a) <= 2 ^ 53 ->
  Forall (fun x => x = f64 1 1 \/ x = f64 (-1) 1) a -> Forall (fun x => x = f64 1 1 \/ x = f64 (-1) 1) b ->
  (forall lag w, dotted (corr_pairs a b lag) w -> f64_val w = corr_at (V:=RV) (vals a) (vals b) lag) /\
  (forall k w, dotted (conv_pairs a b k) w -> f64_val w = conv_at (V:=RV) (vals a) (vals b) k).
Proof.
  intros a b N Ha Hb.
  assert (One : forall x, x = f64 1 1 \/ x = f64 (-1) 1 -> f64_fin x /\ whole x /\ gabs x = 1).
  { intros x [-> | ->]; unfold gabs, whole; change (f64 1 1) with (f64_of_Z 1); [|replace (f64 (-1) 1) with (f64_of_Z (-1)) by (vm_compute; reflexivity)].
    - destruct (f64_Z_exact 1) as [F V]; [vm_compute; discriminate|]. rewrite V. split; [exact F|]. split; [exists 1%Z; reflexivity|apply Rabs_R1].
    - destruct (f64_Z_exact (-1)) as [F V]; [vm_compute; discriminate|]. rewrite V. split; [exact F|]. split; [exists (-1)%Z; reflexivity|rewrite Rabs_left; lra]. }
  assert (All : forall l, Forall (fun p => (fst p = f64 1 1 \/ fst p = f64 (-1) 1) /\ (snd p = f64 1 1 \/ snd p = f64 (-1) 1)) l ->
    (length l <= length a)%nat -> total (prods gabs l) <= 2 ^ 53).
  { intros l Hl Ll. apply Rle_trans with (INR (length a)); [|exact N]. apply le_INR in Ll. apply Rle_trans with (INR (length l)); [|exact Ll]. clear Ll.
    induction Hl as [|[x y] l [Hx Hy] _ IH]; [rewrite prods_nil; apply pos_INR|]. rewrite prods_cons. cbn [length fst snd] in *. rewrite S_INR.
    destruct (One x Hx) as (_ & _ & ->). destruct (One y Hy) as (_ & _ & ->). lra. }
  destruct (C87_whole a b) as [H1 H2]; try (eapply Forall_impl; [|eassumption]; intros x Hx; apply (One x Hx)).
  split; intros z w Hw; [apply H1|apply H2]; try exact Hw; rewrite !absv_map.
  - rewrite <- corr_pairs_total. apply All; [|apply pairs_len]. rewrite corr_as_conv. apply (pairs_all (fun x => x = f64 1 1 \/ x = f64 (-1) 1)); [exact Ha|apply Forall_rev; exact Hb].
  - rewrite <- conv_pairs_total. apply All; [|apply pairs_len]. apply (pairs_all (fun x => x = f64 1 1 \/ x = f64 (-1) 1)); assumption.
Qed.
Print Assumptions C87_codes.

(** beyond 2^53 they are *)
Theorem C87_large_whole_refuted :
  let big := f64 9007199254740992 1 in let one := f64 1 1 in
  whole big /\ whole one /\ np_convolve FA FV [big; one] [one; one] = Ok [big; big; one] /\ conv_at (V:=RV) (vals [big; one]) (vals [one; one]) 1 = 9007199254740993.
Proof.
  assert (B : f64_val (f64 9007199254740992 1) = 9007199254740992).
  { replace (f64 9007199254740992 1) with (S754_finite false 4503599627370496 1) by (vm_compute; reflexivity). cbn [f64_val]. rewrite powerRZ_1. lra. }
  assert (O : f64_val (f64 1 1) = 1).
  { replace (f64 1 1) with (f64_of_Z 1) by (vm_compute; reflexivity). apply (f64_Z_exact 1). vm_compute. discriminate. }
  cbv zeta. split; [exists 9007199254740992%Z; exact B|]. split; [exists 1%Z; exact O|]. split; [vm_compute; reflexivity|].
  unfold vals, conv_at, at0. cbn [map length vsum]. rewrite B, O. change (0 + 9007199254740992 * 1 + 1 * 1 = 9007199254740993). lra.
Qed.
Print Assumptions C87_large_whole_refuted.
(** the order of the additions does matter *)
Theorem C87_one_value_refuted : exists (a b : list spec_float) w w', Forall f64_fin a /\ Forall f64_fin b /\
  dotted (conv_pairs a b 2) w /\ dotted (conv_pairs a b 2) w' /\ n_eq FA w w' = false.
Proof.
  exists [f64 1 10; f64 2 10; f64 3 10], [f64 1 1; f64 1 1; f64 1 1].
  exists (SFadd 53 1024 (SFadd 53 1024 (SFmul 53 1024 (f64 1 10) (f64 1 1)) (SFmul 53 1024 (f64 2 10) (f64 1 1))) (SFmul 53 1024 (f64 3 10) (f64 1 1))).
  exists (SFadd 53 1024 (SFmul 53 1024 (f64 1 10) (f64 1 1)) (SFadd 53 1024 (SFmul 53 1024 (f64 2 10) (f64 1 1)) (SFmul 53 1024 (f64 3 10) (f64 1 1)))).
  split; [repeat constructor; (vm_compute; reflexivity) || (vm_compute; exact I)|]. split; [repeat constructor; (vm_compute; reflexivity) || (vm_compute; exact I)|].
  change (conv_pairs [f64 1 10; f64 2 10; f64 3 10] [f64 1 1; f64 1 1; f64 1 1] 2) with [(f64 1 10, f64 1 1); (f64 2 10, f64 1 1); (f64 3 10, f64 1 1)].
  split; [apply (dot_two [_; _] [_]); [apply (dot_two [_] [_])|]; apply dot_one|].
  split; [apply (dot_two [_] [_; _]); [|apply (dot_two [_] [_])]; apply dot_one|]. vm_compute. reflexivity.
Qed.
Print Assumptions C87_one_value_refuted.

(** a code of five points on the axis 0, 0.5, ..., 2 and a copy starting at 1: sidelobes 0 and 1, peak 5 in the middle *)
Example C87_case :
  let y := [f64 1 1; f64 1 1; f64 1 1; f64 (-1) 1; f64 1 1] in
  let r1 := mkRel (A:=FA) (V:=FV) (mkAxis (A:=FA) (f64 0 1) (f64 2 1) (f64 1 2)) y in
  let r2 := mkRel (A:=FA) (V:=FV) (mkAxis (A:=FA) (f64 1 1) (f64 3 1) (f64 1 2)) y in
  f64_forward (f64 0 1) (f64 2 1) (f64 1 2) 4 /\ f64_forward (f64 1 1) (f64 3 1) (f64 1 2) 4 /\
  f64_val (f64 2 1) - f64_val (f64 0 1) = f64_val (f64 3 1) - f64_val (f64 1 1) /\ Rabs ((f64_val (f64 2 1) - f64_val (f64 0 1)) / f64_val (f64 1 2) - INR 4) <= / 8 /\
  Forall f64_ordinary y /\
  match rel_correlate FA FV (default_config FA FV) r1 r2 with
  | Ok q => ((a_start (r_x q), a_end (r_x q), a_sample (r_x q)) : spec_float * spec_float * spec_float,
             map (fun v => (SFeqb v (f64 0 1), SFeqb v (f64 1 1), SFeqb v (f64 5 1))) (r_y q)) | Err _ => ((f64 0 1, f64 0 1, f64 0 1), []) end =
    ((f64 (-2) 1, f64 2 1, f64 1 2),
     let i := (false, true, false) in let o := (true, false, false) in [i; o; i; o; (false, false, true); o; i; o; i]).
Proof.
  assert (V0 : f64_val (f64 0 1) = 0) by reflexivity.
  assert (VZ : forall z, (Z.abs z <= 4)%Z -> f64_fin (f64_of_Z z) /\ f64_val (f64_of_Z z) = IZR z).
  { intros z Hz. apply f64_Z_exact. eapply Z.le_trans; [exact Hz|]. vm_compute. discriminate. }
  assert (E1 : f64 1 1 = f64_of_Z 1) by (vm_compute; reflexivity). assert (E2 : f64 2 1 = f64_of_Z 2) by (vm_compute; reflexivity).
  assert (E3 : f64 3 1 = f64_of_Z 3) by (vm_compute; reflexivity). assert (Em : f64 (-1) 1 = f64_of_Z (-1)) by (vm_compute; reflexivity).
  assert (E0 : f64 0 1 = f64_of_Z 0) by (vm_compute; reflexivity).
  assert (VH : f64_fin (f64 1 2) /\ f64_val (f64 1 2) = / 2).
  { split; [split; vm_compute; [reflexivity|exact I]|]. replace (f64 1 2) with (S754_finite false 4503599627370496 (-53)) by (vm_compute; reflexivity).
    transitivity (4503599627370496 / 9007199254740992); [cbn [f64_val]; rewrite powerRZ_bpow; cbn; reflexivity|lra]. }
  destruct VH as [FH VH].
  assert (Hb : bpow radix2 (-300) <= / 2 <= bpow radix2 300).
  { split; [change (/ 2) with (bpow radix2 (-1)); apply bpow_le; lia|]. apply Rle_trans with (bpow radix2 0); [cbn; lra|apply bpow_le; lia]. }
  assert (Hb2 : bpow radix2 (-1000) <= Rabs (/ 2) <= bpow radix2 900).
  { rewrite Rabs_right by lra. split; [eapply Rle_trans; [|apply Hb]|eapply Rle_trans; [apply Hb|]]; apply bpow_le; lia. }
  destruct (VZ 0%Z ltac:(lia)) as [F0 W0]. destruct (VZ 1%Z ltac:(lia)) as [F1 W1]. destruct (VZ 2%Z ltac:(lia)) as [F2 W2]. destruct (VZ 3%Z ltac:(lia)) as [F3 W3].
  assert (Fwd : forall a b, (0 <= a <= 3)%Z -> b = (a + 2)%Z -> f64_fin (f64_of_Z a) -> f64_val (f64_of_Z a) = IZR a -> f64_fin (f64_of_Z b) -> f64_val (f64_of_Z b) = IZR b ->
    f64_forward (f64_of_Z a) (f64_of_Z b) (f64 1 2) 4).
  { intros a b Ha -> Fa Va Fb Vb. unfold f64_forward, f64_tame. rewrite !powerRZ_bpow, Va, Vb, VH, plus_IZR. 
    assert (0 <= IZR a <= 3) by (split; apply IZR_le; lia).
    replace (IZR a + 2 - IZR a) with 2 by ring. rewrite (Rabs_right 2), (Rabs_right (IZR a)), (Rabs_right (IZR a + 2)) by lra.
    replace (INR 4) with 4 by (cbn; lra). rewrite (Rabs_right (/ 2)) in * by lra.
    split; [|split; [exact Hb|lra]]. split; [exact Fa|]. split; [exact Fb|]. split; [exact FH|]. split; [exact Hb2|]. split; [lra|]. split; [lra|].
    replace (2 / / 2 - 4) with 0 by field. rewrite Rabs_R0. lra. }
  cbv zeta. split; [rewrite E0, E2; apply Fwd; try assumption; lia|]. split; [rewrite E1, E3; apply Fwd; try assumption; lia|].
  split; [rewrite E0, E1, E2, E3, W0, W1, W2, W3; lra|].
  split; [rewrite E0, E2, W0, W2, VH; replace ((2 - 0) / / 2 - INR 4) with 0 by (cbn; field); rewrite Rabs_R0; lra|].
  split; [|vm_compute; reflexivity].
  assert (O : forall z, (Z.abs z <= 4)%Z -> f64_ordinary (f64_of_Z z)).
  { intros z Hz. destruct (VZ z Hz) as [F V]. split; [exact F|]. rewrite V, powerRZ_bpow, <- abs_IZR. apply Rle_trans with (IZR (2 ^ 2)); [apply IZR_le; lia|].
    change (2 ^ 2)%Z with (Zpower radix2 2). rewrite IZR_Zpower by lia. apply bpow_le. lia. }
  rewrite E1, Em. repeat (apply Forall_cons; [apply O; lia|]). apply Forall_nil.
Qed.
