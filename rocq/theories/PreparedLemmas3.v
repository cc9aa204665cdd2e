(** Lemmas on the conversion of spectra to frequency laws. *)
From Coq Require Import Reals ZArith List Bool Lia Lra Psatz.
From Coquelicot Require Import Complex.
From Verif Require Import Num Numpy AxisModel RelModel HeapModel Spec RLemmas AxisLemmas InterpLemmas VInst RelLemmas RelLemmas2 RelLemmas3
  FourierModel SweepModel SweepSpec SweepLemmas SweepLemmas2 PreparedModel PreparedSpec PreparedLemmas PreparedLemmas2.
Import ListNotations.
Local Open Scope R_scope.

Lemma never_step (l : list R) : (forall i a b, nth_error l i = Some a -> nth_error l (S i) = Some b -> a <= b) -> never_decreasing l.
Proof.
  intros H i j a b Hij Ha Hb. revert b Hb. induction Hij as [|j Hij IH]; intros b Hb.
  - rewrite Ha in Hb. injection Hb as <-. lra.
  - destruct (nth_error_lt l j) as [c Hc]; [apply nth_error_len in Hb; lia|].
    pose proof (IH c Hc). pose proof (H j c b Hc Hb). lra.
Qed.
Lemma never_nth (l : list R) : (forall i, (S i < length l)%nat -> nth i l 0 <= nth (S i) l 0) -> never_decreasing l.
Proof.
  intros H. apply never_step. intros i a b Ha Hb. pose proof (nth_error_len _ _ _ Hb) as Hl.
  rewrite <- (nth_nth_error l i 0 a Ha), <- (nth_nth_error l (S i) 0 b Hb). apply H. exact Hl.
Qed.
Lemma incr_nth (f : list R) i j : increasing f -> (i < j < length f)%nat -> nth i f 0 < nth j f 0.
Proof.
  intros H [Hij Hj]. apply (H i j); [exact Hij | apply nth_error_nth'; lia | apply nth_error_nth'; lia].
Qed.

(** *** cumulative sums and products by index *)
Lemma cumul_0 (op : R -> R -> R) l : (0 < length l)%nat -> nth 0 (cumul op l) 0 = nth 0 l 0.
Proof. destruct l; [cbn; lia | reflexivity]. Qed.
Lemma cumul_S (op : R -> R -> R) l i : (S i < length l)%nat -> nth (S i) (cumul op l) 0 = op (nth i (cumul op l) 0) (nth (S i) l 0).
Proof.
  intros H. apply nth_nth_error. apply cumul_nthS.
  - apply nth_error_nth'. rewrite cumul_len. lia.
  - apply nth_error_nth'. exact H.
Qed.
Lemma diffs_at {T} (sub : R -> R -> T) (l : list R) i d : (S i < length l)%nat -> nth i (diffs sub l) d = sub (nth (S i) l 0) (nth i l 0).
Proof.
  intros H. apply nth_nth_error. apply diffs_nth. exists (nth i l 0), (nth (S i) l 0).
  split; [apply nth_error_nth'; lia|]. split; [apply nth_error_nth'; lia | reflexivity].
Qed.
Lemma map_at {T} (f : T -> R) l i (d : T) : (i < length l)%nat -> nth i (map f l) 0 = f (nth i l d).
Proof. intros H. apply nth_nth_error. rewrite nth_error_map, (nth_error_nth' l i d) by exact H. reflexivity. Qed.
Lemma map2_at (f : R -> R -> R) l m i : (i < length l)%nat -> (i < length m)%nat -> nth i (map2 f l m) 0 = f (nth i l 0) (nth i m 0).
Proof. intros Hl Hm. apply nth_nth_error. apply map2_nth; apply nth_error_nth'; assumption. Qed.

(** *** the time array of simple_freq2time and proportional_freq2time *)
Lemma f2t_spec (f n : list R) : length n = length f -> (0 < length f)%nat ->
  let t := freq2time_time RA f n in
  length t = length f /\ nth 0 t 0 = 0 /\
  forall i, (S i < length f)%nat -> nth (S i) t 0 - nth i t 0 = (nth (S i) n 0 + nth i n 0) / (nth (S i) f 0 - nth i f 0).
Proof.
  intros Hl Hp t. unfold t, freq2time_time. cbn [RA n_add n_sub n_div n_of_Z].
  change (num RA) with R. set (d := map2 Rdiv (diffs Rplus n) (diffs Rminus f)).
  assert (Hd : length d = (length f - 1)%nat) by (unfold d; rewrite map2_length; rewrite !diffs_length; lia).
  split; [cbn [length]; rewrite cumul_len; lia|]. split; [reflexivity|].
  intros i Hi.
  assert (Hdi : nth i d 0 = (nth (S i) n 0 + nth i n 0) / (nth (S i) f 0 - nth i f 0)).
  { unfold d. rewrite map2_at by (rewrite diffs_length; lia). rewrite !diffs_at by lia. reflexivity. }
  rewrite <- Hdi. cbn [nth]. destruct i as [|i].
  - rewrite cumul_0 by lia. lra.
  - rewrite cumul_S by lia. cbn [nth]. lra.
Qed.
Lemma f2t_never (f n : list R) : length n = length f -> (0 < length f)%nat -> increasing f -> (forall i, (i < length f)%nat -> 0 <= nth i n 0) ->
  never_decreasing (freq2time_time RA f n).
Proof.
  intros Hl Hp Hf Hn. destruct (f2t_spec f n Hl Hp) as (H1 & _ & H3). apply never_nth. intros i Hi.
  change (num RA) with R in *. rewrite H1 in Hi.
  specialize (H3 i Hi). assert (0 <= (nth (S i) n 0 + nth i n 0) / (nth (S i) f 0 - nth i f 0)).
  { pose proof (incr_nth f i (S i) Hf ltac:(lia)). pose proof (Hn i ltac:(lia)). pose proof (Hn (S i) ltac:(lia)).
    unfold Rdiv. apply Rmult_le_pos; [lra | left; apply Rinv_0_lt_compat; lra]. }
  lra.
Qed.

Lemma amp_valid (c : crel) : valid c -> val_amp RA CV CF c = Ok (mkRel (A:=RA) (V:=CV) (r_x c) (map (fun z => RtoC (Cmod z)) (r_y c))).
Proof. intros Hv. unfold val_amp, rel_map. apply rel_make_eq. rewrite map_length. exact Hv. Qed.
Lemma incr_xs (c : crel) : a_start (r_x c) < a_end (r_x c) -> increasing (xs_of c).
Proof. intros H. apply grid_incr. exact H. Qed.
Lemma sq_re (z : C) : fst (Cpow_py (RtoC (Cmod z)) (RtoC 2)) = Cmod z ^ 2.
Proof. rewrite Cpow_py_2. cbn. ring. Qed.

(** the squared amplitudes *)
Lemma simple_ok (c : crel) : valid c ->
  exists k, simple_freq2time RA CV CW CF (default_config RA CV) c =
    Ok (freq2time_time RA (xs_of c) (energies c), map RtoC (xs_of c), repeat k (length (xs_of c))) /\
    rel_norm RA CV (default_config RA CV) (mkRel (A:=RA) (V:=CV) (r_x c) (map (fun z => RtoC (Cmod z)) (r_y c))) = Ok k.
Proof.
  intros Hv. unfold simple_freq2time. rewrite (amp_valid c Hv). cbn [bind r_x r_y].
  rewrite (valid_array c Hv). cbn [bind].
  set (am := mkRel (A:=RA) (V:=CV) (r_x c) (map (fun z => RtoC (Cmod z)) (r_y c))).
  assert (Ha : valid am) by (unfold valid, am; cbn [r_x r_y]; rewrite map_length; exact Hv).
  assert (En : exists k, rel_norm RA CV (default_config RA CV) am = Ok k).
  { unfold rel_norm. rewrite (rel_op_num_generic RA CV POW am _ Ha). cbn [bind default_config c_int_one].
    unfold one_integrate, rel_get_data. cbn [r_x r_y]. unfold valid in Ha. rewrite Ha. cbn [bind].
    rewrite map_length, Nat.eqb_refl. rewrite (axis_array_size _ _ Ha). cbn [bind]. eexists. reflexivity. }
  destruct En as [k Ek]. rewrite Ek. cbn [bind]. exists k. split; [|reflexivity].
  assert (Es : map (fun v : val CV => w_re RA CV CW (v_pow CV v (v_of CV (n_of_Z RA 2)))) (map (fun z => RtoC (Cmod z)) (r_y c)) = energies c).
  { rewrite map_map. apply map_ext. intros z. cbn [CW w_re CV v_pow v_of RA n_of_Z]. apply sq_re. }
  rewrite Es. assert (Hl : length (energies c) = length (xs_of c)) by (unfold energies; rewrite map_length, xs_of_length; reflexivity).
  assert (Hp : (0 < length (xs_of c))%nat) by (rewrite xs_of_length; apply valid_pos; exact Hv).
  destruct (f2t_spec (xs_of c) (energies c) Hl Hp) as (H1 & _). exact (f_equal (fun n => Ok (freq2time_time RA (xs_of c) (energies c), map RtoC (xs_of c), repeat k n)) H1).
Qed.
Lemma vsum_real (g : nat -> R) n : vsum (V:=CV) (fun i => RtoC (g i)) n = RtoC (vsum (V:=RV) g n).
Proof. induction n as [|n IH]; [reflexivity|]. cbn [vsum]. rewrite IH. cbn [CV RV v_add]. rewrite RtoC_plus. reflexivity. Qed.
Lemma vsum_nonneg (g : nat -> R) n : (forall i, (i < n)%nat -> 0 <= g i) -> 0 <= vsum (V:=RV) g n.
Proof.
  induction n as [|n IH]; intros H; [cbn; lra|]. cbn [vsum RV v_add]. pose proof (H n ltac:(lia)).
  assert (0 <= vsum (V:=RV) g n) by (apply IH; intros; apply H; lia). cbn [RV v_add] in *. change (val RV) with R in *. lra.
Qed.
Lemma proportional_ok (c : crel) : valid c -> a_start (r_x c) <= a_end (r_x c) ->
  exists k : R, proportional_freq2time RA CV CW CF c =
    Ok (freq2time_time RA (xs_of c) (energies c), map RtoC (xs_of c), repeat (RtoC k) (length (xs_of c))) /\
    0 <= k /\ k * k = 2 * vsum (V:=RV) (fun i => (nth (S i) (xs_of c) 0 - nth i (xs_of c) 0)
                      * (nth (S i) (energies c) 0 + nth i (energies c) 0) / 2) (length (xs_of c) - 1).
Proof.
  intros Hv Hse. unfold proportional_freq2time. rewrite (amp_valid c Hv). cbn [bind r_x r_y]. rewrite (valid_array c Hv). cbn [bind].
  set (sq := map (fun v : val CV => v_pow CV v (v_of CV (n_of_Z RA 2))) (map (fun z => RtoC (Cmod z)) (r_y c))).
  assert (Es : sq = map RtoC (energies c)).
  { unfold sq, energies. rewrite !map_map. apply map_ext. intros z. cbn [CV v_pow v_of RA n_of_Z].
    rewrite Cpow_py_2, <- RtoC_mult. f_equal. ring. }
  assert (Hl : length (energies c) = length (xs_of c)) by (unfold energies; rewrite map_length, xs_of_length; reflexivity).
  assert (Hp : (0 < length (xs_of c))%nat) by (rewrite xs_of_length; apply valid_pos; exact Hv).
  set (S0 := vsum (V:=RV) (fun i => (nth (S i) (xs_of c) 0 - nth i (xs_of c) 0) * (nth (S i) (energies c) 0 + nth i (energies c) 0) / 2) (length (xs_of c) - 1)).
  assert (Et : trapz RA CV sq (xs_of c) = RtoC S0).
  { rewrite (trapz_vsum CV) by (rewrite Es, map_length; symmetry; exact Hl). unfold S0. rewrite Es, map_length, Hl, <- vsum_real.
    apply (vsum_ext (V:=CV)). intros i Hi. cbn [CV v_div v_mul v_of v_add].
    assert (En : forall j, nth j (map RtoC (energies c)) (RtoC 0) = RtoC (nth j (energies c) 0)) by (intros j; apply map_nth).
    rewrite !En. rewrite <- RtoC_plus, <- RtoC_mult, <- RtoC_div by lra. reflexivity. }
  assert (Hs : 0 <= S0).
  { unfold S0. apply vsum_nonneg. intros i Hi.
    assert (He : forall j, (j < length (energies c))%nat -> 0 <= nth j (energies c) 0).
    { intros j Hj. unfold energies in *. rewrite map_length in Hj. rewrite (map_at _ _ _ (RtoC 0)) by exact Hj. apply pow_le, Cmod_ge_0. }
    pose proof (He i ltac:(lia)). pose proof (He (S i) ltac:(lia)).
    assert (Hse' : a_start (r_x c) < a_end (r_x c)).
    { destruct Hse as [Hlt|Heq]; [exact Hlt|]. exfalso. apply (axis_size_two (r_x c) (length (r_y c)) Hv); [rewrite xs_of_length in Hi; lia | exact Heq]. }
    pose proof (incr_nth (xs_of c) i (S i) (incr_xs c Hse') ltac:(lia)). unfold Rdiv. apply Rmult_le_pos; [apply Rmult_le_pos; lra | lra]. }
  rewrite Et. cbn [CV v_mul v_of RA n_of_Z CW w_sqrt]. rewrite <- RtoC_mult. cbn [RtoC fst].
  replace (Rltb (S0 * 2) 0) with false by (symmetry; apply Rltb_false; lra). cbn [bind].
  exists (sqrt (S0 * 2)). split; [|split; [apply sqrt_pos | rewrite sqrt_sqrt by lra; ring]].
  assert (Em : map (w_re RA CV CW) sq = energies c).
  { rewrite Es, map_map. rewrite <- map_id. apply map_ext. reflexivity. }
  rewrite Em. destruct (f2t_spec (xs_of c) (energies c) Hl Hp) as (H1 & _). exact (f_equal (fun n => Ok (freq2time_time RA (xs_of c) (energies c), map RtoC (xs_of c), repeat (RtoC (sqrt (S0 * 2))) n)) H1).
Qed.

(** *** dwell *)
Lemma low_prefix (f : list R) c : increasing f ->
  exists q, map (fun x => Rleb x c) f = repeat true (length (filter (fun x => Rleb x c) f)) ++ repeat false q /\
    (length (filter (fun x => Rleb x c) f) + q)%nat = length f.
Proof.
  induction f as [|x f IH]; intros Hi; [exists 0%nat; split; reflexivity|].
  cbn [map filter]. destruct (Rleb x c) eqn:E.
  - destruct (IH (incr_tail _ _ Hi)) as (q & E1 & E2). exists q. cbn [length repeat app]. rewrite E1. split; [reflexivity | lia].
  - exists (length (x :: f)).
    assert (Hn : forall g, (forall y, In y g -> c < y) -> map (fun x => Rleb x c) g = repeat false (length g) /\ filter (fun x => Rleb x c) g = []).
    { induction g as [|y g IHg]; intros Hg; [split; reflexivity|]. cbn. replace (Rleb y c) with false by (symmetry; apply Rleb_false; apply Hg; left; reflexivity).
      destruct (IHg ltac:(intros; apply Hg; right; assumption)) as [-> ->]. split; reflexivity. }
    apply Rleb_false in E. destruct (Hn f) as [-> ->]; [intros y Hy; pose proof (incr_head _ _ _ Hi Hy); lra|].
    split; reflexivity.
Qed.
Lemma mask_low {T} p q (l : list T) : length l = (p + q)%nat -> mask (repeat true p ++ repeat false q) l = firstn p l.
Proof. intros H. exact (mask_block l 0 p q H). Qed.
Lemma mask_high {T} p q (l : list T) : length l = (p + q)%nat -> mask (map negb (repeat true p ++ repeat false q)) l = skipn p l.
Proof.
  intros H. rewrite map_app. assert (E : forall b n, map negb (repeat b n) = repeat (negb b) n) by (intros b n; induction n; cbn; congruence).
  rewrite !E. cbn [negb]. pose proof (mask_block l p q 0 ltac:(lia)) as G. cbn [repeat] in G. rewrite app_nil_r in G.
  rewrite G. apply firstn_all2. rewrite skipn_length. lia.
Qed.
Lemma filter_mask (f : list R) (b : R -> bool) : length (mask (map b f) f) = length (filter b f).
Proof. induction f as [|x f IH]; [reflexivity|]. cbn. destruct (b x); cbn; rewrite IH; reflexivity. Qed.

(** fewer than two frequencies under the cut-off *)
Lemma dwell_data_short fc c (f a : list R) f0 : nth_error f 0 = Some f0 -> length a = length f ->
  c = (match fc with Some v => if Reqb v 0 then f0 else v | None => f0 end) ->
  (length (filter (fun x => Rleb x c) f) < 2)%nat -> dwell_data fc f a = Err EIndex.
Proof.
  intros H0 Hl Hc Hp. unfold dwell_data. destruct f as [|x f]; [discriminate|]. injection H0 as ->.
  replace (match fc with Some c0 => Ok (if Reqb c0 0 then f0 else c0) | None => Ok f0 end) with (Ok c) by (rewrite Hc; destruct fc; reflexivity).
  cbn [bind]. set (low := map (fun x => Rleb x c) (f0 :: f)).
  assert (Hm : length (mask low (f0 :: f)) = length (filter (fun x => Rleb x c) (f0 :: f))) by apply filter_mask.
  assert (Hm2 : length (mask low a) = length (mask low (f0 :: f))) by (apply mask_length; exact Hl).
  assert (Hd : freq_ratio (mask low (f0 :: f)) = []).
  { apply length_zero_iff_nil. unfold freq_ratio. rewrite diffs_length. lia. }
  rewrite Hd. cbn [map cumul length]. unfold butlast. rewrite map_length, firstn_length, Hm2.
  replace (Nat.min (length (mask low (f0 :: f)) - 1) (length (mask low (f0 :: f)))) with 0%nat by lia. reflexivity.
Qed.
Lemma first_only (f : list R) f0 : increasing f -> nth_error f 0 = Some f0 -> length (filter (fun x => Rleb x f0) f) = 1%nat.
Proof.
  intros Hi H0. destruct f as [|x f]; [discriminate|]. injection H0 as ->. cbn [filter].
  replace (Rleb f0 f0) with true by (symmetry; apply Rleb_true; lra). cbn [length]. f_equal.
  assert (G : forall g, (forall y, In y g -> f0 < y) -> filter (fun x => Rleb x f0) g = []).
  { induction g as [|y g IH]; intros Hg; [reflexivity|]. cbn [filter].
    replace (Rleb y f0) with false by (symmetry; apply Rleb_false; apply Hg; left; reflexivity). apply IH. intros; apply Hg; right; assumption. }
  rewrite G; [reflexivity|]. intros y Hy. exact (incr_head _ _ _ Hi Hy).
Qed.

Section Dwell.
Context (f a : list R) (c : R) (Hi : increasing f) (Hl : length a = length f) (Hf0 : 0 < nth 0 f 0) (Hc : c <> 0).
Let p := length (filter (fun x => Rleb x c) f).
Hypothesis (Hp : (2 <= p)%nat).
Lemma dw_p : (p <= length f)%nat.
Proof. unfold p. clear. induction f as [|x g IH]; cbn; [lia|]. destruct (Rleb x c); cbn; lia. Qed.
Lemma dw_pos i : (i < length f)%nat -> 0 < nth i f 0.
Proof. intros H. destruct i as [|i]; [exact Hf0|]. pose proof (incr_nth f 0 (S i) Hi ltac:(lia)). lra. Qed.
Let ratio := freq_ratio (firstn p f).
Lemma dw_ratio_len : length ratio = (p - 1)%nat.
Proof. unfold ratio, freq_ratio. rewrite diffs_length, firstn_length. pose proof dw_p. lia. Qed.
Lemma first_at {T} (l : list T) i k d : (i < k)%nat -> nth i (firstn k l) d = nth i l d.
Proof.
  revert l i; induction k as [|k IH]; intros l i H; [lia|]. destruct l as [|x l]; [reflexivity|].
  destruct i as [|i]; [reflexivity|]. cbn. apply IH. lia.
Qed.
Lemma dw_ratio i : (S i < p)%nat -> nth i ratio 0 = nth (S i) f 0 / nth i f 0.
Proof.
  intros H. pose proof dw_p as Hpl. unfold ratio, freq_ratio. rewrite diffs_at by (rewrite firstn_length; lia).
  rewrite !first_at by lia. pose proof (dw_pos i ltac:(lia)) as Hq.
  replace (Reqb (nth i f 0) 0) with false by (symmetry; apply Reqb_false; lra). reflexivity.
Qed.
Let dur := cumul Rmult (map (fun r => 1 / Rpow_py r 4) ratio).
Lemma dw_dur_len : length dur = (p - 1)%nat.
Proof. unfold dur. rewrite cumul_len, map_length. apply dw_ratio_len. Qed.
Lemma dw_dur i : (S i < p)%nat -> nth i dur 0 = (nth 0 f 0 / nth (S i) f 0) ^ 4.
Proof.
  pose proof dw_p as Hpl. pose proof dw_ratio_len as Hr.
  assert (G : forall j, (S j < p)%nat -> nth j (map (fun r => 1 / Rpow_py r 4) ratio) 0 = (nth j f 0 / nth (S j) f 0) ^ 4).
  { intros j Hj. rewrite (map_at _ _ _ 0) by lia. rewrite dw_ratio, Rpow_py_4 by exact Hj.
    pose proof (dw_pos j ltac:(lia)). pose proof (dw_pos (S j) ltac:(lia)). field. lra. }
  induction i as [|i IH]; intros H.
  - unfold dur. rewrite cumul_0 by (rewrite map_length; lia). apply G. exact H.
  - unfold dur. rewrite cumul_S by (rewrite map_length; lia). fold dur. rewrite IH by lia. rewrite G by exact H.
    pose proof (dw_pos (S i) ltac:(lia)). pose proof (dw_pos (S (S i)) ltac:(lia)). field. lra.
Qed.
Let at0 := cumul Rmult (1 :: map (fun r => Rpow_py r 2) ratio).
Lemma dw_at_len : length at0 = p.
Proof. unfold at0. rewrite cumul_len. cbn [length]. rewrite map_length, dw_ratio_len. lia. Qed.
Lemma dw_at i : (i < p)%nat -> nth i at0 0 = (nth i f 0 / nth 0 f 0) ^ 2.
Proof.
  pose proof dw_p as Hpl. pose proof dw_ratio_len as Hr.
  induction i as [|i IH]; intros H.
  - unfold at0. cbn [cumul nth]. field. lra.
  - unfold at0. rewrite cumul_S by (cbn [length]; rewrite map_length; lia). fold at0. rewrite IH by lia. cbn [nth].
    rewrite (map_at _ _ _ 0) by lia. rewrite dw_ratio, Rpow_py_2 by exact H. pose proof (dw_pos i ltac:(lia)). field. lra.
Qed.
Let energy := map (fun x => Rpow_py x 2) (butlast (firstn p a)).
Lemma dw_energy_len : length energy = (p - 1)%nat.
Proof. unfold energy, butlast. rewrite map_length, !firstn_length. pose proof dw_p. lia. Qed.
Lemma dw_energy i : (S i < p)%nat -> nth i energy 0 = nth i a 0 ^ 2.
Proof.
  intros H. pose proof dw_p as Hpl. unfold energy, butlast. rewrite firstn_length. replace (Nat.min p (length a)) with p by lia.
  rewrite (map_at _ _ _ 0) by (rewrite !firstn_length; lia). rewrite !first_at by lia. rewrite Rpow_py_2. ring.
Qed.
Let nT := cumul Rplus (0 :: map2 Rmult dur energy).
Lemma dw_nT_len : length nT = p.
Proof. unfold nT. rewrite cumul_len. cbn [length]. rewrite map2_length; rewrite ?dw_dur_len, ?dw_energy_len; lia. Qed.
Lemma dw_nT i : (S i < p)%nat -> nth (S i) nT 0 - nth i nT 0 = (nth 0 f 0 / nth (S i) f 0) ^ 4 * nth i a 0 ^ 2.
Proof.
  intros H. assert (Hm : length (map2 Rmult dur energy) = (p - 1)%nat) by (rewrite map2_length; rewrite ?dw_dur_len, ?dw_energy_len; lia).
  unfold nT. rewrite cumul_S by (cbn [length]; lia). cbn [nth]. rewrite map2_at by (rewrite ?dw_dur_len, ?dw_energy_len; lia).
  rewrite dw_dur, dw_energy by exact H. lra.
Qed.
Let dl := last dur (hd 0 dur).
Lemma last_at (l : list R) d : l <> [] -> last l d = nth (length l - 1) l 0.
Proof. intros H. symmetry. apply nth_nth_error. apply last_nth_error. exact H. Qed.
Lemma dw_dl : dl = (nth 0 f 0 / nth (p - 1) f 0) ^ 4.
Proof.
  unfold dl. rewrite last_at by (intros E; pose proof dw_dur_len as H; rewrite E in H; cbn in H; lia).
  rewrite dw_dur_len. rewrite dw_dur by lia. replace (S (p - 1 - 1)) with (p - 1)%nat by lia. reflexivity.
Qed.
Let high := map (fun x => dl * Rpow_py x 2) (skipn p a).
Let nT2 := cumul Rplus (last nT 0 :: high).
Lemma dw_high_len : length high = (length f - p)%nat.
Proof. unfold high. rewrite map_length, skipn_length. lia. Qed.
Lemma skip_at {T} (l : list T) k i d : nth i (skipn k l) d = nth (k + i) l d.
Proof. revert l; induction k as [|k IH]; intros l; [reflexivity|]. destruct l as [|x l]; [destruct i; reflexivity|]. cbn. apply IH. Qed.
Lemma dw_nT2 j : (j < length f - p)%nat -> nth (S j) nT2 0 - nth j nT2 0 = dl * nth (p + j) a 0 ^ 2.
Proof.
  intros H. unfold nT2. rewrite cumul_S by (cbn [length]; rewrite dw_high_len; lia). cbn [nth].
  unfold high. rewrite (map_at _ _ _ 0) by (rewrite skipn_length; lia). rewrite skip_at, Rpow_py_2. ring.
Qed.
Lemma dwell_data_ok : exists t e, dwell_data (Some c) f a = Ok (t, f, e) /\
  length t = length f /\ length e = length f /\ nth 0 t 0 = 0 /\
  (forall i, (S i < p)%nat -> nth (S i) t 0 - nth i t 0 = (nth 0 f 0 / nth (S i) f 0) ^ 4 * nth i a 0 ^ 2) /\
  (forall i, (p <= S i < length f)%nat -> nth (S i) t 0 - nth i t 0 = (nth 0 f 0 / nth (p - 1) f 0) ^ 4 * nth (S i) a 0 ^ 2) /\
  (forall i, (i < p)%nat -> nth i e 0 = (nth i f 0 / nth 0 f 0) ^ 2) /\
  (forall i, (p <= i < length f)%nat -> nth i e 0 = (nth (p - 1) f 0 / nth 0 f 0) ^ 2).
Proof.
  pose proof dw_p as Hpl. unfold dwell_data. destruct (low_prefix f c Hi) as (q & Elow & Eq). fold p in Elow, Eq.
  assert (Ec : (match f with f0 :: _ => Ok (if Reqb c 0 then f0 else c) | [] => if Reqb c 0 then Err EIndex else Ok c end) = Ok c).
  { replace (Reqb c 0) with false by (symmetry; apply Reqb_false; exact Hc). destruct f; reflexivity. }
  rewrite Ec. cbn [bind]. rewrite Elow. rewrite mask_low by lia. rewrite !mask_low, mask_high by lia.
  fold ratio. fold dur. fold energy. rewrite dw_dur_len, dw_energy_len, Nat.eqb_refl. cbn [negb]. fold nT.
  case_eq dur; [intros E; pose proof dw_dur_len as H; rewrite E in H; cbn in H; lia|]; intros d0 ds Ed.
  assert (Edl : last (d0 :: ds) d0 = dl) by exact (f_equal (fun l => last l (hd 0 l)) (eq_sym Ed)).
  rewrite Edl. fold high. fold nT2. fold at0.
  assert (HnT : length nT = p) by apply dw_nT_len. assert (Hh : length high = (length f - p)%nat) by apply dw_high_len.
  assert (HnT2 : length nT2 = S (length f - p)) by (unfold nT2; rewrite cumul_len; cbn [length]; lia).
  assert (Hat : length at0 = p) by apply dw_at_len.
  assert (Htl : length (tl nT2) = (length f - p)%nat) by (destruct nT2; cbn in *; lia).
  assert (Htl2 : forall j, nth j (tl nT2) 0 = nth (S j) nT2 0) by (intros j; destruct nT2; [destruct j; reflexivity | reflexivity]).
  assert (H20 : nth 0 nT2 0 = nth (p - 1) nT 0).
  { unfold nT2. cbn [cumul nth]. rewrite last_at, HnT by (intros E; rewrite E in HnT; cbn in HnT; lia). reflexivity. }
  eexists. eexists. split; [reflexivity|].
  split; [rewrite app_length; lia|]. split; [rewrite app_length, repeat_length; lia|].
  split; [rewrite app_nth1 by lia; reflexivity|].
  split; [intros i H; rewrite !app_nth1 by lia; apply dw_nT; exact H|].
  split; [|split].
  - intros i H. rewrite (app_nth2 nT (tl nT2) 0) by lia. rewrite HnT, Htl2.
    replace (nth i (nT ++ tl nT2) 0) with (nth (S i - p) nT2 0).
    + rewrite dw_nT2 by lia. rewrite dw_dl. replace (p + (S i - p))%nat with (S i) by lia. reflexivity.
    + destruct (Nat.eq_dec (S i) p) as [E|E].
      * rewrite app_nth1 by lia. replace (S i - p)%nat with 0%nat by lia. rewrite H20. f_equal. lia.
      * rewrite app_nth2 by lia. rewrite HnT, Htl2. f_equal. lia.
  - intros i H. rewrite app_nth1 by lia. apply dw_at. exact H.
  - intros i H. rewrite app_nth2 by lia. rewrite Hat.
    assert (Er : forall (x : R) n j, (j < n)%nat -> nth j (repeat x n) 0 = x).
    { intros x n; induction n as [|n IH]; intros j Hj; [lia|]. destruct j as [|j]; [reflexivity|]. cbn. apply IH. lia. }
    rewrite Er by lia. rewrite last_at, Hat by (intros E; rewrite E in Hat; cbn in Hat; lia). apply dw_at. lia.
Qed.
End Dwell.

(** lifting to spectra *)
Lemma dwell_eq lo hi fc (c s : crel) : rel_select RA CV lo hi c = Ok s -> valid s ->
  dwell lo hi fc c = do r <- dwell_data fc (xs_of s) (map (fun z : C => Cmod z) (r_y s)); Ok (fst (fst r), map RtoC (snd (fst r)), map RtoC (snd r)).
Proof.
  intros E Hv. unfold dwell. rewrite E. cbn [bind]. rewrite (amp_valid s Hv). cbn [bind r_x r_y].
  rewrite (valid_array s Hv). cbn [bind]. rewrite map_map. reflexivity.
Qed.
Lemma dwell_time_never (f a t : list R) p : increasing f -> 0 < nth 0 f 0 -> length t = length f -> (2 <= p <= length f)%nat ->
  (forall i, (S i < p)%nat -> nth (S i) t 0 - nth i t 0 = (nth 0 f 0 / nth (S i) f 0) ^ 4 * nth i a 0 ^ 2) ->
  (forall i, (p <= S i < length f)%nat -> nth (S i) t 0 - nth i t 0 = (nth 0 f 0 / nth (p - 1) f 0) ^ 4 * nth (S i) a 0 ^ 2) ->
  never_decreasing t.
Proof.
  intros Hi H0 Hl Hp H1 H2. apply never_nth. intros i Hx. rewrite Hl in Hx.
  assert (Hq : forall x y : R, 0 <= x ^ 4 * y ^ 2).
  { intros x y. replace (x ^ 4 * y ^ 2) with ((x * x * y) * (x * x * y)) by ring. apply Rle_0_sqr. }
  destruct (Nat.lt_ge_cases (S i) p) as [Hc|Hc].
  - pose proof (H1 i Hc) as E. pose proof (Hq (nth 0 f 0 / nth (S i) f 0) (nth i a 0)). lra.
  - pose proof (H2 i ltac:(lia)) as E. pose proof (Hq (nth 0 f 0 / nth (p - 1) f 0) (nth (S i) a 0)). lra.
Qed.
