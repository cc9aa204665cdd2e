(** Reverse filter, circular shift and correlation of signals (C28, C35, C39). *)
From Coq Require Import Reals ZArith List Bool Lia Lra.
From Coquelicot Require Import Complex.
From Verif Require Import Num Numpy Spec AxisModel RelModel HeapModel RLemmas AxisLemmas InterpLemmas VInst
  RelLemmas RelLemmas2 RelLemmas3 CorrLemmas FourierSpec FourierModel DftLemmas FourierLemmas FourierLemmas2 SpectrumLemmas.
Import ListNotations.
Local Open Scope R_scope.

(** *** C39 *)
Lemma amax_mods (y : list C) : y <> [] ->
  exists M, amax_val RA CV (map (fun z => RtoC (Cmod z)) y) = Some (RtoC M) /\
    (forall z, In z y -> Cmod z <= M) /\ exists z, In z y /\ Cmod z = M.
Proof.
  destruct y as [|z0 y]; [tauto|]. intros _. cbn [map amax_val].
  assert (G : forall (y : list C) m, exists M,
     fold_left (fun m x => if v_lt CV m x then x else m) (map (fun z => RtoC (Cmod z)) y) (RtoC m) = RtoC M /\
     m <= M /\ (forall z, In z y -> Cmod z <= M) /\ (M = m \/ exists z, In z y /\ Cmod z = M)).
  { clear. induction y as [|a y IH]; intros m; cbn [map fold_left].
    - exists m. repeat split; [lra|intros z []|left; reflexivity].
    - destruct (v_lt CV (RtoC m) (RtoC (Cmod a))) eqn:E.
      + destruct (IH (Cmod a)) as (M & HM & H1 & H2 & H3). exists M. rewrite HM. repeat split.
        * cbn in E. unfold Cltb in E. cbn in E. apply orb_true_iff in E.
          destruct E as [E|E]; [rb; lra|]. apply andb_true_iff in E. destruct E as [_ E]. rb. lra.
        * intros z [<-|Hz]; [exact H1|apply H2; exact Hz].
        * right. destruct H3 as [->|(z & Hz & Hm)]; [exists a|exists z]; cbn; auto.
      + assert (Hle : Cmod a <= m).
        { cbn in E. unfold Cltb in E. cbn in E. apply orb_false_iff in E. destruct E as [E _]. rb. exact E. }
        destruct (IH m) as (M & HM & H1 & H2 & H3). exists M. rewrite HM. repeat split.
        * exact H1.
        * intros z [<-|Hz]; [lra|apply H2; exact Hz].
        * destruct H3 as [->|(z & Hz & Hm)]; [left; reflexivity|right; exists z; cbn; auto]. }
  destruct (G y (Cmod z0)) as (M & HM & H1 & H2 & H3). exists M. rewrite HM. split; [reflexivity|]. split.
  - intros z [<-|Hz]; [exact H1|apply H2; exact Hz].
  - destruct H3 as [->|(z & Hz & Hm)]; [exists z0|exists z]; cbn; auto.
Qed.

Definition filt (sub : bool) (M pct : R) (z : C) : C :=
  Cmult (Cdiv (RtoC 1) (Cplus (RtoC (Cmod z)) (Cdiv (Cmult (RtoC M) (RtoC pct)) (RtoC 100))))
        (if sub then Cconj (phasor z) else phasor z).
Lemma reverse_filter_eq (c : crel) (x : raxis) (y : list C) pct sub f0 f1 :
  rel_select RA CV f0 f1 c = Ok (mk x y) -> axis_size RA x = Ok (length y) ->
  exists M, (forall z, In z y -> Cmod z <= M) /\ (exists z, In z y /\ Cmod z = M) /\
    val_reverse_filter RA CV CF FC pct sub f0 f1 c = Ok (mk x (map (filt sub M pct) y)).
Proof.
  intros Hs Hx.
  assert (Hne : y <> []) by (intros ->; apply axis_size_pos in Hx; cbn in Hx; lia).
  destruct (amax_mods y Hne) as (M & HM & Hle & Hat). exists M. split; [exact Hle|]. split; [exact Hat|].
  unfold val_reverse_filter. rewrite Hs. cbn [bind]. rewrite (amp_eq x y _ Hx eq_refl). cbn [bind].
  unfold rel_max. cbn [r_y]. rewrite HM. cbn [bind].
  unfold rel_op_num. cbn [r_x r_y fourier_config hc_base default_config c_math math_operation bind].
  rewrite (make_CV x _ (length y) Hx) by (rewrite !map_length; reflexivity). cbn [bind r_x r_y].
  rewrite (make_CV x _ (length y) Hx) by (rewrite !map_length; reflexivity). cbn [bind r_x r_y].
  rewrite (phase_eq x y _ Hx eq_refl). cbn [bind r_x r_y].
  rewrite (make_CV x _ (length y) Hx) by (unfold reals; rewrite !map_length, phases_length; reflexivity). cbn [bind r_x r_y].
  set (sg := if sub then (-1)%Z else 1%Z).
  assert (E : map (fun a => op_apply RA CV RMUL a (v_of CV (n_of_Z RA sg))) (reals (phases y))
              = reals (map (fun t => IZR sg * t) (phases y))).
  { unfold reals. rewrite !map_map. apply map_ext. intros t. cbn. unfold Cmult, RtoC. cbn. f_equal; ring. }
  change (val CV) with C in *. rewrite E.
  rewrite (from_amp_phase x _ _ (length y) Hx) by (rewrite !map_length, ?phases_length; reflexivity).
  do 2 f_equal. rewrite map_map, map_map, map2_map_l, map2_map_r.
  assert (G : forall (y : list C) (p : list R), map cis p = map phasor y ->
    map2 (fun a b => Cmult (Cdiv (RtoC 1) (Cplus (RtoC (Cmod a)) (Cdiv (Cmult (RtoC M) (RtoC pct)) (RtoC 100)))) (cis (IZR sg * b))) y p
    = map (filt sub M pct) y).
  { clear. intros y; induction y as [|z y IH]; intros p Hp; [reflexivity|].
    destruct p as [|a p]; [discriminate|]. cbn [map] in Hp.
    pose proof (f_equal (hd (RtoC 0)) Hp) as E. apply (f_equal (@tl C)) in Hp. cbn [hd tl] in *.
    cbn [map2 map]. f_equal; [|apply IH; exact Hp].
    unfold filt. f_equal. subst sg. destruct sub.
    - replace (IZR (-1) * a) with (- a) by ring. rewrite cis_opp, E. reflexivity.
    - rewrite Rmult_1_l. exact E. }
  apply G. apply cis_unwrap.
Qed.
Lemma filt_whiten M pct z : 0 <= M -> 0 < pct -> Cmod z + M * pct / 100 <> 0 ->
  Cmult z (filt true M pct z) = RtoC (Cmod z / (Cmod z + M * pct / 100)).
Proof.
  intros HM Hp Hd. unfold filt. rewrite (Cmult_comm _ (Cconj (phasor z))), Cmult_assoc, conj_self_phasor.
  apply C_eq; unfold Cdiv, Cmult, Cplus, Cinv, RtoC; cbn [fst snd]; field; nra.
Qed.
Lemma filt_keep M pct z : 0 <= M -> 0 < pct -> Cmod z + M * pct / 100 <> 0 ->
  filt false M pct z = Cmult (RtoC (/ (Cmod z + M * pct / 100))) (phasor z).
Proof.
  intros HM Hp Hd. unfold filt. f_equal.
  apply C_eq; unfold Cdiv, Cmult, Cplus, Cinv, RtoC; cbn [fst snd]; field; nra.
Qed.
(** selecting everything *)
Lemma select_all (x : raxis) (y : list C) : axis_size RA x = Ok (length y) -> (2 <= length y)%nat -> a_start x <= a_end x ->
  rel_select RA CV None None (mk x y) = Ok (mk x y).
Proof.
  intros Hx Hn Hse. refine (eq_trans (select_unf (V:=CV) (mk x y) None None Hx) _). cbv zeta.
  cbn [r_x r_y]. unfold xs_of. cbn [r_x r_y]. change (val CV) with C in *. rr.
  set (g := grid (a_start x) (a_end x) (length y)).
  assert (Hg : length g = length y) by apply grid_length.
  assert (E : map (fun t => Rleb (a_start x) t && Rleb t (a_end x)) g = repeat true (length g)).
  { pose proof (map_flags (fun t => Rleb (a_start x) t && Rleb t (a_end x)) g (length g) true ltac:(lia)) as E.
    rewrite Nat.sub_diag in E. cbn [repeat] in E. rewrite app_nil_r in E. apply E. intros i t Ht.
    pose proof (nth_error_len _ _ _ Ht) as Hi. destruct (Nat.ltb_spec i (length g)); [|lia].
    apply grid_nth_inv in Ht. destruct Ht as [Hi2 ->]. unfold grid_pt.
    assert (HN : 0 < INR (length y - 1)) by (apply lt_0_INR; lia).
    assert (HI : 0 <= INR i <= INR (length y - 1)) by (split; [apply pos_INR|apply le_INR; lia]).
    set (w := a_end x - a_start x). assert (Hw : 0 <= w) by (unfold w; lra).
    assert (Hq : 0 <= INR i * (w / INR (length y - 1)) <= w).
    { replace (INR i * (w / INR (length y - 1))) with (INR i / INR (length y - 1) * w) by (field; lra).
      assert (0 <= INR i / INR (length y - 1) <= 1).
      { split; [apply Rmult_le_pos; [lra|apply Rlt_le, Rinv_0_lt_compat; lra]|]. apply (Rmult_le_reg_r (INR (length y - 1))); [lra|].
        unfold Rdiv. rewrite Rmult_assoc, Rinv_l by lra. lra. }
      nra. }
    apply andb_true_iff. split; apply Rleb_true; unfold w in *; lra. }
  rewrite E.
  assert (Hall : forall T (l : list T), length l = length g -> mask (repeat true (length g)) l = l).
  { intros T l <-. pose proof (mask_block l 0 (length l) 0 ltac:(lia)) as E2. cbn [repeat app skipn] in E2.
    rewrite app_nil_r, firstn_all in E2. exact E2. }
  rewrite !Hall by (rewrite ?Hg; reflexivity).
  pose proof (grid_nth (a_start x) (a_end x) (length y) 0 ltac:(lia)) as H0.
  pose proof (grid_nth (a_start x) (a_end x) (length y) (length y - 1) ltac:(lia)) as HL. fold g in H0, HL.
  destruct g as [|g0 g'] eqn:Eg; [cbn in Hg; lia|].
  cbn in H0. injection H0 as H0.
  pose proof (last_nth_error (g0 :: g') g0 ltac:(discriminate)) as HLL. rewrite Hg in HLL. assert (HL' : last (g0 :: g') g0 = grid_pt (a_start x) (a_end x) (length y) (length y - 1)) by congruence.
  assert (E0 : g0 = a_start x) by (rewrite H0; unfold grid_pt; cbn [INR]; lra).
  assert (E1 : last (g0 :: g') g0 = a_end x).
  { rewrite HL'. unfold grid_pt. field. apply not_0_INR. lia. }
  rewrite E1, E0. destruct x as [s e d]. cbn [a_start a_end a_sample] in *. apply make_CV with (n := length y); [exact Hx|reflexivity].
Qed.

(** *** C35 *)
Lemma phasor_arg f s : vf_phasor RA CV CF f s = cis (- (2 * PI * f * s)).
Proof.
  cbn [CF vf_phasor]. unfold Cexp, Cmult, Copp, Ci, RtoC, cis. cbn [fst snd].
  f_equal.
  - match goal with |- exp ?a * cos ?b = _ => replace a with 0 by ring; replace b with (- (2 * PI * f * s)) by ring end.
    rewrite exp_0. ring.
  - match goal with |- exp ?a * sin ?b = _ => replace a with 0 by ring; replace b with (- (2 * PI * f * s)) by ring end.
    rewrite exp_0. ring.
Qed.
(** Signal.shift on any spectrum [sp] lying on axis [fx] *)
Lemma shift_spec (c : crel) (fx : raxis) (X : list C) (s : R) fs :
  axis_array RA fx = Ok fs -> length fs = length X ->
  val_sig_shift RA CV CF FC s c (mk fx X) =
  val_signal RA CV FC (mk fx (map2 (fun z f => Cmult z (cis (- (2 * PI * f * s)))) X fs)) (DAxis RA (r_x c)) None.
Proof.
  intros Hf Hl. unfold val_sig_shift. cbn [r_x]. rewrite Hf. cbn [bind].
  assert (Hs : axis_size RA fx = Ok (length X)) by (apply axis_array_inv in Hf; destruct Hf as [Hf _]; rewrite <- Hl; exact Hf).
  rewrite (make_CV fx _ (length X) Hs) by (rewrite map_length; exact Hl). cbn [bind].
  unfold val_sig_phase.
  rewrite (spec_phase_eq ADD fx X _ (length X)); [|auto|exact Hs|reflexivity|rewrite map_length; exact Hl].
  cbn [bind]. do 2 f_equal. rewrite map2_map_r. apply map2_ext. intros z f. cbn [turn]. f_equal.
  rewrite phasor_arg. apply phasor_unit, cis_mod.
Qed.
Lemma faxis_array n d : (2 <= n)%nat -> 0 < d ->
  axis_array RA (faxis n d) = Ok (arith_seq 0 (1 / (INR n * d)) (n / 2 + 1)).
Proof.
  intros Hn Hd. apply (exact_array (faxis n d) (n / 2)). split; cbn; [apply freq_pos; [lia|exact Hd]|lra].
Qed.
Lemma arith_map {T} (g : R -> T) d n : map g (arith_seq 0 d n) = map (fun i => g (INR i * d)) (seq 0 n).
Proof. unfold arith_seq. rewrite map_map. apply map_ext. intros i. rewrite Rplus_0_l. reflexivity. Qed.

Lemma modulated (n : nat) (a : list R) d m : (2 <= n)%nat -> 0 < d ->
  map2 (fun z f => Cmult z (cis (- (2 * PI * f * (IZR m * d))))) (dft n a) (arith_seq 0 (1 / (INR n * d)) (n / 2 + 1))
  = map (fun k => modulate n m k (rfft_at n a k)) (seq 0 (n / 2 + 1)).
Proof.
  intros Hn Hd. unfold dft, arith_seq. rewrite map2_map. apply map_ext. intros k.
  unfold modulate. f_equal. unfold cis. rewrite cos_neg, sin_neg.
  assert (E : 2 * PI * (0 + INR k * (1 / (INR n * d))) * (IZR m * d) = zang n k m).
  { unfold zang. field. split; first [apply not_0_INR; lia | lra]. }
  rewrite E. reflexivity.
Qed.
Lemma shift_exact (x : raxis) (u : list R) p z m : (2 <= length u)%nat ->
  exact_span (a_start x) (a_end x) (a_sample x) (length u - 1) -> (p <= length u)%nat ->
  negatives (a_start x) (a_sample x) (length u) p -> unextended x z ->
  exists w, (do sp <- val_spectrum RA CV FC (mk x (reals u)) (DNone RA) z;
             val_sig_shift RA CV CF FC (IZR m * a_sample x) (mk x (reals u)) sp) = Ok (mk x (reals w)) /\
            rotated_left (2 * Z.of_nat p - m) u w.
Proof.
  intros Hu Hx Hp Hneg Hz. set (k := (length u - 1)%nat) in *.
  assert (Hm : length u = (k + 1)%nat) by lia. rewrite Hm in *.
  assert (Hd : 0 < a_sample x) by apply Hx.
  rewrite (spectrum_exact x k p z); try assumption; [|lia|unfold reals; rewrite map_length; exact Hm].
  cbn [bind]. rewrite (shift_spec _ _ _ _ _ (faxis_array (k + 1) (a_sample x) ltac:(lia) Hd)).
  2:{ rewrite arith_length, dft_length. reflexivity. }
  rewrite rotl_reals, fst_reals, modulated by (try lia; exact Hd). cbn [r_x].
  rewrite (signal_exact x _ k p _ (rotl p u) m); [|exact Hx|exact Hp|exact Hneg|reflexivity].
  rewrite rotl_reals. eexists. split; [reflexivity|].
  replace (2 * Z.of_nat p - m)%Z with (Z.of_nat p + (- m) + Z.of_nat p)%Z by lia.
  eapply rotated_trans; [|apply rotl_rotated; rewrite turned_length; exact Hp].
  eapply rotated_trans; [apply rotl_rotated; lia|]. apply turned_rotated. rewrite rotl_length. exact Hm.
Qed.

(** *** C28 *)
(** shift keeps the axis and the number of samples of any signal *)
Lemma shift_any (c : crel) z N s : axis_size RA (r_x c) = Ok (length (r_y c)) -> 0 < a_sample (r_x c) ->
  a_start (r_x c) <= a_end (r_x c) -> axis_size RA (ext_axis z (r_x c)) = Ok N -> (2 <= N)%nat ->
  exists y, length y = length (r_y c) /\
    (do sp <- val_spectrum RA CV FC c (DNone RA) z; val_sig_shift RA CV CF FC s c sp) = Ok (mk (r_x c) y).
Proof.
  intros Hc Hd Hse HN H2. destruct (spectrum_any c z N Hc Hd Hse HN H2) as (l & Hl & ->). cbn [bind].
  rewrite (shift_spec c _ l s _ (faxis_array N (a_sample (r_x c)) H2 Hd)) by (rewrite arith_length; auto).
  unfold val_signal. cbn [fourier_config hc_sp2s]. unfold spectrum2signal. cbn [fft_size]. rewrite Hc. cbn [bind r_x r_y].
  assert (Hpos : (0 < length (r_y c))%nat) by (eapply axis_size_pos; exact Hc). change (val CV) with C in *.
  match goal with |- context [irfft ?X (Some (Z.of_nat ?k))] => destruct (irfft_some_len X k Hpos) as (y & -> & Hy) end.
  cbn [bind]. destruct (reorder_len (r_x c) y _ Hc Hy) as (y' & -> & Hy'). cbn [bind fst snd].
  exists y'. split; [exact Hy'|]. apply (make_CV _ _ _ Hc Hy').
Qed.

(** the correlation axis of a signal has its 2n-1 points exactly when the end time is right *)
Definition lag_fits (x : raxis) (n : nat) : Prop :=
  round_half_even (Rabs (2 * a_end x / a_sample x)) (Z.of_nat (2 * (n - 1))).
Lemma lag_axis_size (x : raxis) n : (1 <= n)%nat -> 0 < a_sample x ->
  (axis_size RA (mkAxis (A:=RA) (- a_end x) (a_end x) (a_sample x)) = Ok (n + n - 1)%nat <-> lag_fits x n).
Proof.
  intros Hn Hd. rewrite axis_size_iff by (cbn; lra). cbn [a_start a_end a_sample]. unfold lag_fits.
  replace (Z.of_nat (n + n - 1) - 1)%Z with (Z.of_nat (2 * (n - 1))) by lia.
  replace ((a_end x - - a_end x) / a_sample x) with (2 * a_end x / a_sample x) by (field; lra).
  split; [tauto|]. intros H. split; [lia|exact H].
Qed.
Section Lagged.
Context (comb : list C -> list C -> result (list C)).
Context (Hcomb : forall a b : list C, a <> [] -> b <> [] ->
  exists c, comb a b = Ok c /\ length c = (length a + length b - 1)%nat).
Definition sig_lagged (c1 c2 : crel) (z : bool) : result crel :=
  do sp1 <- val_spectrum RA CV FC c1 (DNone RA) z;
  do sp2 <- val_spectrum RA CV FC c2 (DNone RA) z;
  val_sig_lagged RA CV CF FC comb c1 sp1 c2 sp2.
Lemma nonempty {T} (l : list T) n : length l = n -> (1 <= n)%nat -> l <> [].
Proof. intros H Hn ->. cbn in H. lia. Qed.
Lemma sig_lagged_eq (x : raxis) (y1 y2 w1 w2 : list C) z n :
  axis_size RA x = Ok n -> length w1 = n -> length w2 = n ->
  (do sp <- val_spectrum RA CV FC (mk x y1) (DNone RA) z; val_sig_shift RA CV CF FC (- a_start x) (mk x y1) sp) = Ok (mk x w1) ->
  (do sp <- val_spectrum RA CV FC (mk x y2) (DNone RA) z; val_sig_shift RA CV CF FC (- a_start x) (mk x y2) sp) = Ok (mk x w2) ->
  sig_lagged (mk x y1) (mk x y2) z =
    (do y <- comb w1 w2; rel_make RA CV (mkAxis (A:=RA) (- a_end x) (a_end x) (a_sample x)) y).
Proof.
  intros Hx Hw1 Hw2 H1 H2. unfold sig_lagged.
  destruct (val_spectrum RA CV FC (mk x y1) (DNone RA) z) as [sp1|e]; cbn [bind] in *; [|discriminate].
  destruct (val_spectrum RA CV FC (mk x y2) (DNone RA) z) as [sp2|e]; cbn [bind] in *; [|discriminate].
  unfold val_sig_lagged. cbn [r_x RA n_opp]. cbn [r_x] in H1, H2. rr. rewrite H1, H2. cbn [bind].
  unfold rel_equalize. cbn [r_x fourier_config hc_base default_config c_common_x]. rewrite common_x_self.
  rewrite (interp_same_points (V:=CV) CV_laws (mk x w1) x); [|cbn [r_x r_y]; change (val CV) with C; rewrite Hw1; exact Hx|reflexivity].
  cbn [bind]. rewrite (interp_same_points (V:=CV) CV_laws (mk x w2) x); [|cbn [r_x r_y]; change (val CV) with C; rewrite Hw2; exact Hx|reflexivity].
  reflexivity.
Qed.
Lemma sig_lagged_any (x : raxis) (y1 y2 : list C) z N n : axis_size RA x = Ok n -> length y1 = n -> length y2 = n ->
  0 < a_sample x -> a_start x <= a_end x -> axis_size RA (ext_axis z x) = Ok N -> (2 <= N)%nat ->
  (lag_fits x n -> exists y, sig_lagged (mk x y1) (mk x y2) z = Ok (mk (mkAxis (A:=RA) (- a_end x) (a_end x) (a_sample x)) y)) /\
  (~ lag_fits x n -> exists k, k <> (n + n - 1)%nat /\ sig_lagged (mk x y1) (mk x y2) z = Err (ENotEqual k (n + n - 1))).
Proof.
  intros Hx Hy1 Hy2 Hd Hse HN H2.
  destruct (shift_any (mk x y1) z N (- a_start x)) as (w1 & Hl1 & Hw1); try assumption; [cbn [r_x r_y]; change (val CV) with C; rewrite Hy1; exact Hx|].
  destruct (shift_any (mk x y2) z N (- a_start x)) as (w2 & Hl2 & Hw2); try assumption; [cbn [r_x r_y]; change (val CV) with C; rewrite Hy2; exact Hx|].
  cbn [r_x r_y] in *. change (val CV) with C in *. rewrite Hy1 in Hl1. rewrite Hy2 in Hl2.
  rewrite (sig_lagged_eq x y1 y2 w1 w2 z n Hx Hl1 Hl2 Hw1 Hw2).
  assert (Hn : (1 <= n)%nat) by (pose proof (axis_size_pos _ _ Hx); lia).
  destruct (Hcomb w1 w2 (nonempty _ _ Hl1 Hn) (nonempty _ _ Hl2 Hn)) as (y & -> & Hy). rewrite Hl1, Hl2 in Hy. cbn [bind].
  pose proof (lag_axis_size x n Hn Hd) as HS.
  split; intros Hf.
  - exists y. apply HS in Hf. apply (make_CV _ _ _ Hf Hy).
  - unfold rel_make.
    destruct (axis_size RA (mkAxis (A:=RA) (- a_end x) (a_end x) (a_sample x))) as [k|e] eqn:E.
    + exists k. cbn [bind]. change (val CV) with C. rewrite Hy.
      destruct (Nat.eqb_spec k (n + n - 1)) as [->|Hne]; [exfalso; apply Hf, HS; reflexivity|]. split; [exact Hne|reflexivity].
    + exfalso. rewrite axis_size_nz in E by (cbn; lra). discriminate.
Qed.
End Lagged.
(** starts of at least half a sample, on an exact axis reaching time 0 or later *)
Lemma lag_fits_no (x : raxis) m : exact_span (a_start x) (a_end x) (a_sample x) m ->
  (a_sample x / 2 <= a_start x \/ (a_start x <= - (a_sample x / 2) /\ - (a_sample x / 2) < a_end x /\ (1 <= m)%nat)) -> ~ lag_fits x (m + 1).
Proof.
  intros [Hd He] Hs Hf. unfold lag_fits in Hf. replace (m + 1 - 1)%nat with m in Hf by lia.
  set (q := a_start x / a_sample x).
  assert (Eq : 2 * a_end x / a_sample x = 2 * q + 2 * INR m).
  { unfold q. replace (a_end x) with (a_start x + INR m * a_sample x) by lra. field. lra. }
  assert (Hq : q * a_sample x = a_start x) by (unfold q; field; lra).
  rewrite Eq in Hf.
  assert (Hb : Rabs (Rabs (2 * q + 2 * INR m) - 2 * INR m) <= / 2).
  { replace (2 * INR m) with (IZR (Z.of_nat (2 * m))) at 2 by (rewrite <- INR_IZR_INZ, mult_INR; cbn; lra).
    destruct Hf as [Hf|[Hf _]]; lra. }
  pose proof (pos_INR m) as HI.
  destruct Hs as [Hs|(Hs & He2 & Hm)].
  - assert (/ 2 <= q) by nra. rewrite (Rabs_right (2 * q + 2 * INR m)) in Hb by lra.
    rewrite Rabs_right in Hb by lra. lra.
  - assert (Hq2 : q <= - / 2) by nra.
    assert (He3 : - / 2 < q + INR m) by nra.
    assert (HI1 : 1 <= INR m) by (apply (le_INR 1); lia).
    unfold Rabs at 2 in Hb. destruct (Rcase_abs (2 * q + 2 * INR m)) as [L|L].
    + unfold Rabs in Hb. destruct (Rcase_abs _) in Hb; lra.
    + unfold Rabs in Hb. destruct (Rcase_abs _) in Hb; lra.
Qed.
Lemma lag_fits_zero (x : raxis) m : exact_span (a_start x) (a_end x) (a_sample x) m -> a_start x = 0 -> lag_fits x (m + 1).
Proof.
  intros [Hd He] Hs. unfold lag_fits. left. replace (m + 1 - 1)%nat with m by lia.
  replace (2 * a_end x / a_sample x) with (INR (2 * m)).
  - rewrite (Rabs_right (INR (2 * m))) by (apply Rle_ge, pos_INR). rewrite INR_IZR_INZ. rewrite Rminus_eq_0, Rabs_R0. lra.
  - replace (a_end x) with (INR m * a_sample x) by lra. rewrite mult_INR. cbn [INR]. field. lra.
Qed.
(** with the start at 0 the samples are those of the plain operation *)
Lemma sig_lagged_zero comb (x : raxis) (u v : list R) z : (2 <= length u)%nat -> length v = length u -> a_start x = 0 ->
  (forall a b : list C, a <> [] -> b <> [] -> exists c, comb a b = Ok c /\ length c = (length a + length b - 1)%nat) ->
  exact_span (a_start x) (a_end x) (a_sample x) (length u - 1) ->
  exists y, comb (reals u) (reals v) = Ok y /\
    sig_lagged comb (mk x (reals u)) (mk x (reals v)) z = Ok (mk (mkAxis (A:=RA) (- a_end x) (a_end x) (a_sample x)) y).
Proof.
  intros Hu Hv Hs Hcomb Hx. pose proof Hx as Hx'. destruct Hx' as [Hd He].
  assert (Hun : unextended x z).
  { right. pose proof (pos_INR (length u - 1)).
    assert (0 <= INR (length u - 1) * a_sample x) by (apply Rmult_le_pos; lra). lra. }
  assert (HS : forall w : list R, length w = length u ->
    (do sp <- val_spectrum RA CV FC (mk x (reals w)) (DNone RA) z;
     val_sig_shift RA CV CF FC (- a_start x) (mk x (reals w)) sp) = Ok (mk x (reals w))).
  { intros w Hw. destruct (shift_exact x w 0 z 0) as (w' & E & Hr); try (rewrite Hw; assumption); try lia.
    - apply negatives_0; lra.
    - exact Hun.
    - cbn in Hr. pose proof (rotated_unique 0 w w w' (rotated_0 w) Hr) as Ew. subst w'.
      replace (- a_start x) with (IZR 0 * a_sample x) by lra. exact E. }
  assert (Hsz : axis_size RA x = Ok (length u)).
  { rewrite (axis_size_exact x _ Hx). f_equal. lia. }
  rewrite (sig_lagged_eq comb x (reals u) (reals v) (reals u) (reals v) z (length u) Hsz).
  - destruct (Hcomb (reals u) (reals v)) as (y & -> & Hy).
    + apply (nonempty _ (length u)); [unfold reals; apply map_length|lia].
    + apply (nonempty _ (length u)); [unfold reals; rewrite map_length; exact Hv|lia].
    + exists y. split; [reflexivity|]. cbn [bind]. unfold reals in Hy. rewrite !map_length in Hy.
      eapply make_CV; [|rewrite Hv in Hy; exact Hy].
      apply lag_axis_size; [lia|exact Hd|]. replace (length u) with (length u - 1 + 1)%nat by lia.
      apply lag_fits_zero; assumption.
  - unfold reals. apply map_length.
  - unfold reals. rewrite map_length. exact Hv.
  - apply HS. reflexivity.
  - apply HS. exact Hv.
Qed.
