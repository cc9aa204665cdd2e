(** Amplitude and phase of spectra, shifts and signal correlation (C28, C35-C39). *)
From Coq Require Import Reals ZArith List Bool Lia Lra.
From Coquelicot Require Import Complex.
From Verif Require Import Num Numpy Spec AxisModel RelModel HeapModel RLemmas AxisLemmas InterpLemmas VInst
  RelLemmas RelLemmas2 RelLemmas3 CorrLemmas FourierSpec FourierModel DftLemmas FourierLemmas FourierLemmas2.
Import ListNotations.
Local Open Scope R_scope.

(** *** the angle *)
Lemma C_eq (a b : C) : fst a = fst b -> snd a = snd b -> a = b.
Proof. destruct a, b; cbn; intros -> ->; reflexivity. Qed.
Lemma Cmod_sqr (z : C) : Cmod z * Cmod z = fst z * fst z + snd z * snd z.
Proof.
  unfold Cmod. rewrite sqrt_sqrt; [cbn; ring|]. cbn. pose proof (Rle_0_sqr (fst z)). pose proof (Rle_0_sqr (snd z)).
  unfold Rsqr in *. lra.
Qed.
Lemma arg_cos_sin (z : C) : Cmod z * cos (Carg z) = fst z /\ Cmod z * sin (Carg z) = snd z.
Proof.
  unfold Carg. destruct (Req_EM_T (Cmod z) 0) as [E|E].
  - apply Cmod_eq_0 in E. subst z. rewrite Cmod_0. cbn. lra.
  - assert (Hp : 0 < Cmod z) by (pose proof (Cmod_ge_0 z); lra).
    pose proof (Rmax_Cmod z) as HM. pose proof (Rmax_l (Rabs (fst z)) (Rabs (snd z))) as HL.
    set (q := fst z / Cmod z).
    assert (Hq : -1 <= q <= 1).
    { assert (Ha : Rabs q <= 1).
      { unfold q, Rdiv. rewrite Rabs_mult, Rabs_inv, (Rabs_right (Cmod z)) by lra.
        apply (Rmult_le_reg_r (Cmod z)); [exact Hp|]. rewrite Rmult_assoc, Rinv_l by lra. lra. }
      unfold Rabs in Ha. destruct (Rcase_abs q); lra. }
    assert (Hs : Cmod z * sqrt (1 - Rsqr q) = Rabs (snd z)).
    { rewrite <- (sqrt_square (Cmod z)) at 1 by lra. rewrite <- sqrt_mult_alt by nra.
      rewrite <- (sqrt_Rsqr_abs (snd z)). f_equal. unfold q, Rsqr.
      pose proof (Cmod_sqr z).
      replace (Cmod z * Cmod z * (1 - fst z / Cmod z * (fst z / Cmod z))) with (Cmod z * Cmod z - fst z * fst z) by (field; exact E).
      lra. }
    destruct (Rle_dec 0 (snd z)) as [L|L].
    + rewrite cos_acos, sin_acos by exact Hq. split; [unfold q; field; exact E|].
      rewrite Hs. apply Rabs_right. lra.
    + rewrite cos_neg, sin_neg, cos_acos, sin_acos by exact Hq. split; [unfold q; field; exact E|].
      rewrite Ropp_mult_distr_r_reverse, Hs. rewrite Rabs_left by lra. lra.
Qed.
Lemma arg_range z : - PI <= Carg z <= PI.
Proof.
  unfold Carg. pose proof PI_RGT_0. destruct (Req_EM_T (Cmod z) 0); [lra|].
  pose proof (acos_bound (fst z / Cmod z)). destruct (Rle_dec 0 (snd z)); lra.
Qed.
Lemma arg_phasor z : cis (Carg z) = phasor z.
Proof.
  unfold phasor. destruct (arg_cos_sin z) as [H1 H2]. destruct (Req_EM_T (Cmod z) 0) as [E|E].
  - unfold Carg. destruct (Req_EM_T (Cmod z) 0); [|tauto]. unfold cis. rewrite cos_0, sin_0. reflexivity.
  - apply C_eq; cbn [cis fst snd].
    + unfold Cdiv, Cmult, Cinv, RtoC. cbn [fst snd]. rewrite <- H1. field. nra.
    + unfold Cdiv, Cmult, Cinv, RtoC. cbn [fst snd]. rewrite <- H2. field. nra.
Qed.
Lemma cis_add a b : cis (a + b) = Cmult (cis a) (cis b).
Proof. unfold cis, Cmult. cbn. rewrite cos_plus, sin_plus. f_equal; ring. Qed.
Lemma cis_turn t k : cis (t + 2 * PI * IZR k) = cis t.
Proof. unfold cis. rewrite cos_turns, sin_turns. reflexivity. Qed.
Lemma cis_opp t : cis (- t) = Cconj (cis t).
Proof. unfold cis, Cconj. cbn. rewrite cos_neg, sin_neg. reflexivity. Qed.
Lemma cis_mod t : Cmod (cis t) = 1.
Proof.
  unfold Cmod, cis. cbn [fst snd]. pose proof (sin2_cos2 t) as H. unfold Rsqr in H.
  replace (cos t ^ 2 + sin t ^ 2) with 1 by (cbn; lra). apply sqrt_1.
Qed.
Lemma phasor_mod z : Cmod (phasor z) = 1.
Proof. rewrite <- arg_phasor. apply cis_mod. Qed.
Lemma phasor_unit z : Cmod z = 1 -> phasor z = z.
Proof.
  intros H. unfold phasor. rewrite H. destruct (Req_EM_T 1 0); [lra|].
  apply C_eq; unfold Cdiv, Cmult, Cinv, RtoC; cbn; field.
Qed.
Lemma mod_phasor z : Cmult (RtoC (Cmod z)) (phasor z) = z.
Proof.
  rewrite <- arg_phasor. destruct (arg_cos_sin z) as [H1 H2].
  apply C_eq; unfold Cmult, cis, RtoC; cbn [fst snd]; rewrite ?Rmult_0_l; lra.
Qed.
Lemma phasor_conj z : Cmult (phasor z) (Cconj (phasor z)) = RtoC 1.
Proof. rewrite Cmult_conj_mod, phasor_mod, Rmult_1_l. reflexivity. Qed.
Lemma conj_self_phasor z : Cmult z (Cconj (phasor z)) = RtoC (Cmod z).
Proof.
  rewrite <- (mod_phasor z) at 1. rewrite <- Cmult_assoc, phasor_conj. apply Cmult_1_r.
Qed.

(** *** unwrap (C37) *)
Lemma fmod_range x y : 0 < y -> 0 <= fmod x y < y.
Proof.
  intros Hy. unfold fmod. destruct (base_Int_part (x / y)) as [H1 H2].
  set (k := IZR (Int_part (x / y))) in *. assert (E : x = y * (x / y)) by (field; lra).
  split.
  - assert (y * k <= y * (x / y)) by (apply Rmult_le_compat_l; lra). lra.
  - assert (y * (x / y) < y * (k + 1)) by (apply Rmult_lt_compat_l; lra). lra.
Qed.
Lemma corr_turns dd : exists k : Z, unwrap_corr dd = 2 * PI * IZR k.
Proof.
  unfold unwrap_corr. destruct (Rltb (Rabs dd) PI); [exists 0%Z; cbn; ring|].
  set (k := Int_part ((dd + PI) / (2 * PI))).
  destruct (Reqb _ _ && Rltb 0 dd) eqn:E.
  - apply andb_true_iff in E. destruct E as [E _]. rb. unfold fmod in E. fold k in E.
    exists (1 - k)%Z. rewrite minus_IZR. lra.
  - exists (- k)%Z. unfold fmod. fold k. rewrite opp_IZR. lra.
Qed.
Lemma corr_jump dd : Rabs (dd + unwrap_corr dd) <= PI.
Proof.
  unfold unwrap_corr. pose proof PI_RGT_0. destruct (Rltb (Rabs dd) PI) eqn:E1; rb.
  - rewrite Rplus_0_r. lra.
  - pose proof (fmod_range (dd + PI) (2 * PI) ltac:(lra)) as Hf.
    set (f := fmod (dd + PI) (2 * PI)) in *.
    destruct (Reqb (f - PI) (- PI) && Rltb 0 dd).
    + replace (dd + (PI - dd)) with PI by lra. rewrite Rabs_right by lra. lra.
    + replace (dd + (f - PI - dd)) with (f - PI) by lra. unfold Rabs. destruct (Rcase_abs (f - PI)); lra.
Qed.

(** specification of an unwrapped phase *)
Lemma unwrap_from_spec l : forall prev acc (j : Z), acc = 2 * PI * IZR j ->
  length (unwrap_from prev acc l) = length l /\
  (forall i p q, nth_error l i = Some p -> nth_error (unwrap_from prev acc l) i = Some q -> exists k : Z, q = p + 2 * PI * IZR k) /\
  (forall i p q, nth_error ((prev + acc) :: unwrap_from prev acc l) i = Some p ->
                 nth_error ((prev + acc) :: unwrap_from prev acc l) (S i) = Some q -> Rabs (q - p) <= PI).
Proof.
  induction l as [|a l IH]; intros prev acc j Hj.
  - cbn. repeat split; [intros [|i]; discriminate|]. intros [|[|i]] p q H1 H2; discriminate.
  - cbn [unwrap_from]. destruct (corr_turns (a - prev)) as [k Hk].
    destruct (IH a (acc + unwrap_corr (a - prev)) (j + k)%Z) as (I1 & I2 & I3).
    { rewrite Hj, Hk, plus_IZR. ring. }
    split; [cbn; rewrite I1; reflexivity|]. split.
    + intros [|i] p q Hp Hq; cbn in Hp, Hq.
      * injection Hp as <-. injection Hq as <-. exists (j + k)%Z. rewrite plus_IZR, Hj, Hk. ring.
      * eapply I2; eassumption.
    + intros [|i] p q Hp Hq.
      * cbn in Hp, Hq. injection Hp as <-. injection Hq as <-.
        replace (a + (acc + unwrap_corr (a - prev)) - (prev + acc)) with ((a - prev) + unwrap_corr (a - prev)) by lra.
        apply corr_jump.
      * apply (I3 i); [exact Hp|exact Hq].
Qed.
Lemma unwrap_spec l :
  length (unwrap l) = length l /\
  (forall i p q, nth_error l i = Some p -> nth_error (unwrap l) i = Some q -> exists k : Z, q = p + 2 * PI * IZR k) /\
  (forall i p q, nth_error (unwrap l) i = Some p -> nth_error (unwrap l) (S i) = Some q -> Rabs (q - p) <= PI) /\
  nth_error (unwrap l) 0 = nth_error l 0.
Proof.
  destruct l as [|a l].
  - cbn. repeat split; intros [|i]; discriminate.
  - destruct (unwrap_from_spec l a 0 0) as (I1 & I2 & I3); [cbn; ring|]. unfold unwrap. repeat split.
    + cbn. rewrite I1. reflexivity.
    + intros [|i] p q Hp Hq; cbn in Hp, Hq; [|eapply I2; eassumption].
      exists 0%Z. cbn. injection Hp as <-. injection Hq as <-. ring.
    + rewrite Rplus_0_r in I3. exact I3.
Qed.
Lemma unwrap_length l : length (unwrap l) = length l.
Proof. apply unwrap_spec. Qed.

(** exp(i phase) *)
Lemma map_ext_nth {K T U} (f : K -> U) (g : T -> U) (l : list K) (m : list T) : length l = length m ->
  (forall i a b, nth_error l i = Some a -> nth_error m i = Some b -> f a = g b) -> map f l = map g m.
Proof.
  revert m; induction l as [|a l IH]; intros [|b m] Hl H; try discriminate; [reflexivity|]. cbn. f_equal.
  - apply (H 0%nat); reflexivity.
  - apply IH; [cbn in Hl; lia|]. intros i x y. apply (H (S i)).
Qed.
Lemma cis_unwrap (y : list C) : map cis (unwrap (map Carg y)) = map phasor y.
Proof.
  apply map_ext_nth; [rewrite unwrap_length; apply map_length|].
  intros i q z Hq Hz. destruct (unwrap_spec (map Carg y)) as (_ & H & _).
  destruct (H i (Carg z) q) as [k ->]; [rewrite nth_error_map, Hz; reflexivity|exact Hq|].
  rewrite cis_turn. apply arg_phasor.
Qed.

(** *** by value *)
Notation BC := (hc_base fourier_config).
Notation mk := (mkRel (A:=RA) (V:=CV)).
Lemma cexp_i t : Cexp (Cmult Ci (RtoC t)) = cis t.
Proof.
  unfold Cexp, Cmult, Ci, RtoC, cis. cbn [fst snd].
  replace (0 * t - 1 * 0) with 0 by lra. replace (0 * 0 + 1 * t) with t by lra. rewrite exp_0, !Rmult_1_l. reflexivity.
Qed.
Lemma map2_map_r {S T U W} (f : S -> U -> W) (g : T -> U) l m : map2 f l (map g m) = map2 (fun a b => f a (g b)) l m.
Proof. revert m; induction l as [|a l IH]; intros [|b m]; cbn; try reflexivity. f_equal. apply IH. Qed.
Lemma map2_map_l {S T U W} (f : U -> T -> W) (g : S -> U) l m : map2 f (map g l) m = map2 (fun a b => f (g a) b) l m.
Proof. revert m; induction l as [|a l IH]; intros [|b m]; cbn; try reflexivity. f_equal. apply IH. Qed.
Lemma map2_ext {S T U} (f g : S -> T -> U) l m : (forall a b, f a b = g a b) -> map2 f l m = map2 g l m.
Proof. intros H. revert m; induction l as [|a l IH]; intros [|b m]; cbn; try reflexivity. rewrite H, IH. reflexivity. Qed.
Lemma map2_diag {S U} (f : S -> S -> U) l : map2 f l l = map (fun a => f a a) l.
Proof. induction l as [|a l IH]; cbn; [reflexivity|]. f_equal. exact IH. Qed.
Lemma map2_cis (g : C -> C -> C) y p w : map cis p = w -> map2 (fun a t => g a (cis t)) y p = map2 g y w.
Proof. intros <-. symmetry. apply map2_map_r. Qed.

Lemma from_amp_phase (x : raxis) (am : list C) (ph : list R) n : axis_size RA x = Ok n -> length am = n -> length ph = n ->
  val_from_amp_phase RA CV CF FC (mk x am) (mk x (reals ph)) = Ok (mk x (map2 (fun a t => Cmult a (cis t)) am ph)).
Proof.
  intros Hx Ha Hp. unfold val_from_amp_phase, rel_op_num. cbn [r_x r_y fourier_config hc_base default_config c_math math_operation bind].
  rewrite (make_CV x _ n Hx) by (unfold reals; rewrite !map_length; exact Hp). cbn [bind].
  unfold rel_map. cbn [r_x r_y]. rewrite (make_CV x _ n Hx) by (unfold reals; rewrite !map_length; exact Hp). cbn [bind].
  rewrite (rel_op_equal_axes (V:=CV) CV_laws).
  - cbn [r_x r_y]. do 2 f_equal. unfold reals. rewrite !map_map, map2_map_r. apply map2_ext. intros a t.
    cbn [op_apply CV v_mul CF vf_exp vf_i]. rewrite cexp_i. reflexivity.
  - unfold valid. cbn [r_x r_y]. change (val CV) with C. rewrite Ha. exact Hx.
  - unfold valid. cbn [r_x r_y]. rewrite !map_length. unfold reals. rewrite map_length, Hp. exact Hx.
  - reflexivity.
Qed.
Lemma amp_eq (x : raxis) (y : list C) n : axis_size RA x = Ok n -> length y = n ->
  val_amp RA CV CF (mk x y) = Ok (mk x (map (fun z => RtoC (Cmod z)) y)).
Proof. intros Hx Hy. unfold val_amp, rel_map. cbn [r_x r_y CF vf_abs]. apply (make_CV x _ n Hx). rewrite map_length. exact Hy. Qed.
Definition phases (y : list C) : list R := unwrap (map Carg y).
Lemma phases_length y : length (phases y) = length y.
Proof. unfold phases. rewrite unwrap_length, map_length. reflexivity. Qed.
Lemma phase_eq (x : raxis) (y : list C) n : axis_size RA x = Ok n -> length y = n ->
  val_phase RA CV CF (mk x y) = Ok (mk x (reals (phases y))).
Proof.
  intros Hx Hy. unfold val_phase. cbn [r_x r_y CF vf_phase]. apply (make_CV x _ n Hx).
  rewrite map_length. fold (phases y). rewrite phases_length. exact Hy.
Qed.
(** C36 *)
Lemma amp_phase_rebuild (x : raxis) (y : list C) : axis_size RA x = Ok (length y) ->
  (do am <- val_amp RA CV CF (mk x y); do ph <- val_phase RA CV CF (mk x y); val_from_amp_phase RA CV CF FC am ph)
  = Ok (mk x y).
Proof.
  intros Hx. rewrite (amp_eq x y _ Hx eq_refl), (phase_eq x y _ Hx eq_refl). cbn [bind].
  rewrite (from_amp_phase x _ _ (length y) Hx) by (rewrite ?map_length, ?phases_length; reflexivity).
  do 2 f_equal. rewrite (map2_cis Cmult _ _ (map phasor y)) by apply cis_unwrap.
  rewrite map2_map. rewrite <- (map_id y) at 2. apply map_ext. intros z. apply mod_phasor.
Qed.

(** C38 *)
Definition turn (o : mathop) (z w : C) : C :=
  match o with SUB => Cmult z (Cconj (phasor w)) | _ => Cmult z (phasor w) end.
Lemma reals_op o (p q : list R) : (o = ADD \/ o = SUB) ->
  map2 (op_apply RA CV o) (reals p) (reals q) = reals (map2 (fun a b => match o with SUB => a - b | _ => a + b end) p q).
Proof.
  intros Ho. revert q; induction p as [|a p IH]; intros [|b q]; cbn; try reflexivity. f_equal; [|apply IH].
  destruct Ho as [-> | ->]; cbn; unfold Cplus, Cminus, Copp, RtoC; cbn. all: apply C_eq; cbn; try lra.
Qed.
Lemma spec_phase_eq o (x : raxis) (y w : list C) n : (o = ADD \/ o = SUB) -> axis_size RA x = Ok n -> length y = n -> length w = n ->
  val_spec_phase RA CV CF FC o (mk x y) (mk x w) = Ok (mk x (map2 (turn o) y w)).
Proof.
  intros Ho Hx Hy Hw. unfold val_spec_phase.
  rewrite (amp_eq x y n Hx Hy), (phase_eq x y n Hx Hy), (phase_eq x w n Hx Hw). cbn [bind].
  cbn [fourier_config hc_base]. rewrite (rel_op_equal_axes (V:=CV) CV_laws).
  2:{ unfold valid. cbn [r_x r_y]. unfold reals. rewrite map_length, phases_length, Hy. exact Hx. }
  2:{ unfold valid. cbn [r_x r_y]. unfold reals. rewrite map_length, phases_length, Hw. exact Hx. }
  2:{ reflexivity. }
  cbn [bind r_x r_y]. rewrite reals_op by exact Ho.
  rewrite (from_amp_phase x _ _ n Hx).
  2:{ rewrite map_length. exact Hy. }
  2:{ rewrite map2_length; rewrite !phases_length; congruence. }
  do 2 f_equal. rewrite map2_map_l.
  assert (E : forall (y w : list C) (p q : list R), length y = length w -> map cis p = map phasor y -> map cis q = map phasor w ->
    map2 (fun a t => Cmult (RtoC (Cmod a)) (cis t)) y (map2 (fun a b => match o with SUB => a - b | _ => a + b end) p q)
    = map2 (turn o) y w).
  { clear. intros y; induction y as [|z y IH]; intros [|u w] p q Hl Hp Hq; try discriminate; [reflexivity|].
    destruct p as [|a p]; [discriminate|]. destruct q as [|b q]; [discriminate|].
    cbn [map] in Hp, Hq.
    pose proof (f_equal (hd (RtoC 0)) Hp) as E. pose proof (f_equal (hd (RtoC 0)) Hq) as E2.
    apply (f_equal (@tl C)) in Hp, Hq. cbn [hd tl] in *. cbn [map2]. f_equal.
    - destruct o; cbn [turn]; rewrite ?cis_add; try (rewrite E, E2, Cmult_assoc, mod_phasor; reflexivity).
      unfold Rminus. rewrite cis_add, cis_opp, E, E2, Cmult_assoc, mod_phasor. reflexivity.
    - apply IH; [cbn in Hl; lia|exact Hp|exact Hq]. }
  apply E; [congruence| |]; apply cis_unwrap.
Qed.
Lemma turn_mod o z w : Cmod (turn o z w) = Cmod z.
Proof. destruct o; cbn; rewrite Cmod_mult, ?Cmod_conj, phasor_mod; lra. Qed.
Lemma turn_back z w : turn SUB (turn ADD z w) w = z.
Proof. cbn. rewrite <- Cmult_assoc, phasor_conj. apply Cmult_1_r. Qed.
