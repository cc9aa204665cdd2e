(** The sweep convolved with a code, sweep_from_code.py 13-47 (C71). *)
From Coq Require Import Reals ZArith List Bool Lia Lra.
From Coquelicot Require Import Complex.
From Verif Require Import Num Numpy AxisModel RelModel HeapModel Spec RLemmas AxisLemmas InterpLemmas VInst RelLemmas RelLemmas2 RelLemmas3
  CorrLemmas FourierSpec FourierModel DftLemmas FourierLemmas FourierLemmas2 SpectrumLemmas SpectrumLemmas2 SweepModel PreparedModel PreparedSpec PreparedLemmas
  PreparedLemmas3 PreparedLemmas4.
Import ListNotations.
Local Open Scope R_scope.
Notation mk := (mkRel (A:=RA) (V:=CV)).
Notation DCC := (default_config RA CV).

Section Eq.
Context {V : Vals RA} (L : VLaws V).
Definition pad (n : nat) (y : list (val V)) : list (val V) := map (fun i => at0 y (Z.of_nat i)) (seq 0 n).
Lemma pad_length n y : length (pad n y) = n.
Proof. unfold pad. rewrite map_length, seq_length. reflexivity. Qed.
Lemma lat_equalize s d (y1 y2 : list (val V)) : 0 < d -> y1 <> [] -> y2 <> [] ->
  let n := Nat.max (length y1) (length y2) in
  rel_equalize RA V (default_config RA V) false (onlat s d 0 y1) (onlat s d 0 y2) = Ok (onlat s d 0 (pad n y1), onlat s d 0 (pad n y2)).
Proof.
  intros Hd H1 H2 n. pose proof (lat_valid s d 0 y1 Hd H1) as V1. pose proof (lat_valid s d 0 y2 Hd H2) as V2.
  assert (Hn1 : (1 <= length y1)%nat) by (destruct y1; [congruence | cbn; lia]).
  assert (Hn2 : (1 <= length y2)%nat) by (destruct y2; [congruence | cbn; lia]).
  assert (Hc : common_x_default RA (r_x (onlat s d 0 y1)) (r_x (onlat s d 0 y2)) = mkAxis (A:=RA) (s + INR 0 * d) (s + INR (0 + (n - 1)) * d) d).
  { destruct (common_x_spec (r_x (onlat s d 0 y1)) (r_x (onlat s d 0 y2))) as (A1 & A2 & A3).
    apply axis_eq; [rewrite A1|rewrite A2|rewrite A3]; unfold onlat; cbn [r_x a_start a_end a_sample].
    - apply Rmin_left. lra.
    - destruct (Nat.le_ge_cases (length y1) (length y2)) as [Hl|Hl].
      + replace n with (length y2) by (unfold n; lia). apply Rmax_right.
        apply Rplus_le_compat_l, Rmult_le_compat_r; [lra|]. apply le_INR. lia.
      + replace n with (length y1) by (unfold n; lia). apply Rmax_left.
        apply Rplus_le_compat_l, Rmult_le_compat_r; [lra|]. apply le_INR. lia.
    - apply Rmin_left. lra. }
  assert (Hs : axis_size RA (common_x_default RA (r_x (onlat s d 0 y1)) (r_x (onlat s d 0 y2))) = Ok n).
  { rewrite Hc. rewrite (axis_size_exact _ (n - 1)); [f_equal; unfold n; lia|]. split; [exact Hd|]. cbn [a_start a_end a_sample INR Nat.add]. ring. }
  rewrite (rel_equalize_eq _ _ n V1 V2 Hs). rewrite Hc.
  assert (E : forall y, y <> [] -> mkRel (A:=RA) (V:=V) (mkAxis (A:=RA) (s + INR 0 * d) (s + INR (0 + (n - 1)) * d) d)
      (map (ev (onlat s d 0 y)) (grid (a_start (mkAxis (A:=RA) (s + INR 0 * d) (s + INR (0 + (n - 1)) * d) d)) (a_end (mkAxis (A:=RA) (s + INR 0 * d) (s + INR (0 + (n - 1)) * d) d)) n)) = onlat s d 0 (pad n y)).
  { intros y Hy. unfold onlat at 2. rewrite pad_length. f_equal. cbn [a_start a_end].
    replace (s + INR (0 + (n - 1)) * d) with (s + INR 0 * d + INR (n - 1) * d) by (cbn [INR Nat.add]; ring).
    rewrite grid_arith by (unfold n; lia). unfold arith_seq, pad. rewrite map_map. apply map_ext. intros i.
    replace (s + INR 0 * d + INR i * d) with (s + INR i * d) by (cbn [INR]; ring).
    rewrite (lat_ev L) by assumption. rewrite Z.sub_0_r. reflexivity. }
  rewrite !E by assumption. reflexivity.
Qed.
(** selecting the samples of an exact axis up to a point of it (or beyond) *)
Lemma lat_select s d (y : list (val V)) b N : 0 < d -> (N + 1 <= length y)%nat ->
  (forall i, (i <= N)%nat -> s + INR i * d <= b) -> (forall i, (N < i < length y)%nat -> b < s + INR i * d) ->
  rel_select RA V None (Some b) (onlat s d 0 y) = Ok (onlat s d 0 (firstn (N + 1) y)).
Proof.
  intros Hd HN Hlo Hhi. assert (Hy : y <> []) by (intros ->; cbn in HN; lia).
  pose proof (lat_valid s d 0 y Hd Hy) as Hv. rewrite (select_unf _ _ _ Hv). cbv zeta.
  rewrite lat_xs by exact Hy. set (a := a_start (r_x (onlat s d 0 y))).
  assert (Ha : a = s) by (unfold a, onlat; cbn [r_x a_start INR]; rewrite Rmult_0_l; apply Rplus_0_r). rewrite Ha.
  replace (s + INR 0 * d) with s by (cbn [INR]; ring).
  set (g := fun x : R => Rleb s x && Rleb x b).
  assert (Hm : map g (arith_seq s d (length y)) = repeat true (N + 1) ++ repeat false (length y - (N + 1))).
  { apply nth_error_ext; [rewrite app_length, !repeat_length; unfold arith_seq; rewrite !map_length, seq_length; lia|].
    intros i Hi. unfold arith_seq in *. rewrite !map_length, seq_length in Hi. rewrite map_map, nth_error_map_seq by exact Hi. unfold g.
    assert (E1 : Rleb s (s + INR i * d) = true).
    { apply Rleb_true. pose proof (Rmult_le_pos (INR i) d (pos_INR i) ltac:(lra)). lra. }
    rewrite E1. cbn [andb]. destruct (Nat.le_gt_cases i N) as [H|H].
    - rewrite nth_error_app1 by (rewrite repeat_length; lia). rewrite nth_error_repeat by lia. f_equal.
      apply Rleb_true. exact (Hlo i H).
    - rewrite nth_error_app2 by (rewrite repeat_length; lia). rewrite repeat_length, nth_error_repeat by lia. f_equal.
      apply Rleb_false. apply Hhi. lia. }
  rewrite Hm. change (r_y (onlat s d 0 y)) with y.
  assert (Hlen : length (arith_seq s d (length y)) = (N + 1 + (length y - (N + 1)))%nat) by (unfold arith_seq; rewrite map_length, seq_length; lia).
  rewrite (mask_low (N + 1) _ _ Hlen). rewrite (mask_low (N + 1) (length y - (N + 1)) y) by lia.
  assert (Hf : firstn (N + 1) (arith_seq s d (length y)) = arith_seq s d (N + 1)).
  { unfold arith_seq. rewrite firstn_map. f_equal. replace (length y) with (N + 1 + (length y - (N + 1)))%nat by lia.
    rewrite seq_app, firstn_app, seq_length, Nat.sub_diag, firstn_O, app_nil_r. apply firstn_all2. rewrite seq_length. lia. }
  rewrite Hf. destruct (arith_ends s d (N + 1) ltac:(lia)) as (t & Ht & Hl). rewrite Ht in Hl |- *. rewrite Hl. clear Hf Ht Hl t.
  assert (Lf : length (firstn (N + 1) y) = (N + 1)%nat) by (rewrite firstn_length; lia).
  unfold onlat. cbn [r_x a_sample]. rewrite Lf.
  assert (Es : s + INR 0 * d = s) by (change (INR 0) with 0; lra). change (0 + (N + 1 - 1))%nat with (N + 1 - 1)%nat. rewrite Es.
  apply rel_make_eq. rewrite Lf. rewrite (axis_size_exact _ N); [reflexivity|]. split; [exact Hd|]. cbn [a_start a_end a_sample].
  replace (N + 1 - 1)%nat with N by lia. ring.
Qed.
End Eq.

(** *** the convolution of real samples *)
Lemma at0_reals (u : list R) z : at0 (V:=CV) (reals u) z = RtoC (if (z <? 0)%Z then 0 else nth (Z.to_nat z) u 0).
Proof.
  unfold at0. destruct (z <? 0)%Z; [reflexivity|]. unfold reals. change (val CV) with C. destruct (nth_error (map RtoC u) (Z.to_nat z)) as [c|] eqn:E.
  - rewrite nth_error_map in E. destruct (nth_error u (Z.to_nat z)) as [r|] eqn:E2; [|discriminate]. injection E as <-.
    rewrite (nth_error_nth _ _ 0 E2). reflexivity.
  - apply nth_error_None in E. rewrite map_length in E. rewrite nth_overflow by exact E. reflexivity.
Qed.
Lemma tsum_vsum (g : nat -> R) n : vsum (V:=RV) g n = tsum g n.
Proof. induction n as [|n IH]; [reflexivity|]. cbn [vsum tsum]. rewrite IH. reflexivity. Qed.
Lemma tsum_ext (f g : nat -> R) n : (forall i, (i < n)%nat -> f i = g i) -> tsum f n = tsum g n.
Proof. induction n as [|n IH]; intros H; [reflexivity|]. cbn [tsum]. rewrite IH, H by (intros; try apply H; lia). reflexivity. Qed.
Lemma tsum_zeros (f : nat -> R) n k : (forall i, (n <= i)%nat -> f i = 0) -> tsum f (n + k) = tsum f n.
Proof.
  intros H. induction k as [|k IH]; [rewrite Nat.add_0_r; reflexivity|]. rewrite Nat.add_succ_r. cbn [tsum]. rewrite IH, H by lia. ring.
Qed.
Lemma conv_reals (u v : list R) k : conv_at (V:=CV) (reals u) (reals v) (Z.of_nat k) = RtoC (convolved u v k).
Proof.
  unfold conv_at, convolved. rewrite <- tsum_vsum, <- vsum_real. unfold reals at 3. rewrite map_length. apply vsum_ext. intros j Hj.
  rewrite !at0_reals. destruct (Z.ltb_spec (Z.of_nat j) 0); [lia|]. rewrite Nat2Z.id.
  destruct (Z.ltb_spec (Z.of_nat k - Z.of_nat j) 0), (Nat.ltb_spec k j); try lia; cbn [CV v_mul]; rewrite <- RtoC_mult; [reflexivity|].
  replace (Z.to_nat (Z.of_nat k - Z.of_nat j)) with (k - j)%nat by lia. reflexivity.
Qed.
Definition conv_list (u v : list R) (n : nat) : list R := map (convolved u v) (seq 0 n).
Lemma convolve_reals (u v : list R) : u <> [] -> v <> [] ->
  np_convolve RA CV (reals u) (reals v) = Ok (reals (conv_list u v (length u + length v - 1))).
Proof.
  intros Hu Hv. destruct (np_convolve_spec (V:=CV) CV_laws (reals u) (reals v)) as (c & Hc & Hl & Hn);
    [intros E; apply map_eq_nil in E; auto .. |]. rewrite Hc. f_equal. unfold reals in Hl. rewrite !map_length in Hl.
  apply nth_error_ext; [unfold reals, conv_list; rewrite !map_length, seq_length; exact Hl|]. intros i Hi. change (val CV) with C in *.
  unfold reals at 1, conv_list. rewrite map_map, nth_error_map_seq by (rewrite <- Hl; exact Hi). cbn [Nat.add].
  rewrite <- conv_reals, <- (Hn i Hi). apply nth_error_nth'. exact Hi.
Qed.
(** padding with zeros changes no sample *)
Definition padR (n : nat) (u : list R) : list R := map (fun i => nth i u 0) (seq 0 n).
Lemma padR_length n u : length (padR n u) = n.
Proof. unfold padR. rewrite map_length, seq_length. reflexivity. Qed.
Lemma padR_nth n u i : (length u <= n)%nat -> nth i (padR n u) 0 = nth i u 0.
Proof.
  intros H. destruct (Nat.lt_ge_cases i n) as [Hi|Hi].
  - unfold padR. rewrite (nth_indep _ 0 ((fun i => nth i u 0) 0%nat)) by (rewrite map_length, seq_length; exact Hi).
    rewrite (map_nth (fun i => nth i u 0)), seq_nth by exact Hi. reflexivity.
  - rewrite !nth_overflow by (rewrite ?padR_length; lia). reflexivity.
Qed.
Lemma pad_reals n u : pad (V:=CV) n (reals u) = reals (padR n u).
Proof.
  unfold pad, padR, reals at 2. rewrite map_map. apply map_ext. intros i. rewrite at0_reals.
  destruct (Z.ltb_spec (Z.of_nat i) 0); [lia|]. rewrite Nat2Z.id. reflexivity.
Qed.
Lemma convolved_pad n u v k : (length u <= n)%nat -> (length v <= n)%nat -> convolved (padR n u) (padR n v) k = convolved u v k.
Proof.
  intros Hu Hv. unfold convolved. rewrite padR_length.
  rewrite <- (tsum_zeros (fun j => nth j u 0 * (if (k <? j)%nat then 0 else nth (k - j) v 0)) (length u) (n - length u)).
  2:{ intros i Hi. rewrite nth_overflow by exact Hi. ring. }
  replace (length u + (n - length u))%nat with n by lia. apply tsum_ext. intros j Hj. rewrite !padR_nth by assumption. reflexivity.
Qed.

(** *** the whole function *)
Definition at_zero (d : R) (u : list R) : crel := mk (mkAxis (A:=RA) 0 (INR (length u - 1) * d) d) (reals u).
Lemma at_zero_lat d u : at_zero d u = onlat (V:=CV) 0 d 0 (reals u).
Proof.
  unfold at_zero, onlat. f_equal. unfold reals. rewrite map_length. apply axis_eq; cbn [a_start a_end a_sample INR Nat.add]; try reflexivity;
    match goal with |- ?a = ?b => change (@eq R a b) end; ring.
Qed.
Lemma at_zero_exact d u : 0 < d -> exact_span (a_start (r_x (at_zero d u))) (a_end (r_x (at_zero d u))) (a_sample (r_x (at_zero d u))) (length u - 1).
Proof. intros Hd. split; [exact Hd|]. unfold at_zero. cbn [r_x a_start a_end a_sample]. ring. Qed.
Lemma at_zero_unext d u z : 0 < d -> unextended (r_x (at_zero d u)) z.
Proof. intros Hd. right. unfold at_zero. cbn [r_x a_start a_end]. pose proof (Rmult_le_pos _ d (pos_INR (length u - 1)) ltac:(lra)). lra. Qed.
Lemma at_zero_shift d u z : 0 < d -> (2 <= length u)%nat -> exists sp, val_spectrum RA CV FC (at_zero d u) (DNone RA) z = Ok sp /\
  val_sig_shift RA CV CF FC (n_opp RA (a_start (r_x (at_zero d u)))) (at_zero d u) sp = Ok (at_zero d u).
Proof.
  intros Hd Hu. destruct (shift_exact (r_x (at_zero d u)) u 0 z 0) as (w & E & Hr); [exact Hu|apply at_zero_exact; exact Hd|lia| |apply at_zero_unext; exact Hd|].
  - apply negatives_0; [unfold at_zero; cbn [r_x a_start]; lra|exact Hd].
  - cbn in Hr. pose proof (rotated_unique 0 u u w (rotated_0 u) Hr) as Ew. subst w. change (mk (r_x (at_zero d u)) (reals u)) with (at_zero d u) in E.
    destruct (val_spectrum RA CV FC (at_zero d u) (DNone RA) z) as [sp|e]; [|discriminate]. exists sp. split; [reflexivity|]. cbn [bind] in E.
    replace (n_opp RA (a_start (r_x (at_zero d u)))) with (IZR 0 * a_sample (r_x (at_zero d u))); [exact E|].
    unfold at_zero. cbn [r_x a_start a_sample RA n_opp]. change (0 * d = - 0). ring.
Qed.
Lemma firstn_conv u v m n : (n <= m)%nat -> firstn n (conv_list u v m) = conv_list u v n.
Proof.
  intros H. unfold conv_list. rewrite firstn_map. f_equal. replace m with (n + (m - n))%nat by lia.
  rewrite seq_app, firstn_app, seq_length, Nat.sub_diag, firstn_O, app_nil_r. apply firstn_all2. rewrite seq_length. lia.
Qed.
Lemma conv_list_length u v n : length (conv_list u v n) = n.
Proof. unfold conv_list. rewrite map_length, seq_length. reflexivity. Qed.
Lemma convolution_relation d (u v : list R) : 0 < d -> (2 <= length u)%nat -> (2 <= length v)%nat ->
  let n := Nat.max (length u) (length v) in
  let L := Nat.min (2 * n - 1) (n + length u) in
  exists w, get_convolution_sweep_and_code RA CV CF FC (inl (at_zero d u)) (at_zero d v) =
      Ok (mk (mkAxis (A:=RA) (- (INR (n - 1) * d)) (INR (L - 1) * d - INR (n - 1) * d) d) (reals w)) /\
    rotated_left (2 * Z.of_nat (n - 1) - Z.of_nat (length v - 1)) (conv_list u v L) w.
Proof.
  intros Hd Hu Hv n L. assert (Hn : (2 <= n)%nat) by (unfold n; lia). unfold get_convolution_sweep_and_code. cbn [code_relation bind].
  destruct (at_zero_shift d u false Hd Hu) as (sp1 & S1 & T1). destruct (at_zero_shift d v false Hd Hv) as (sp2 & S2 & T2).
  rewrite (axis_size_exact _ _ (at_zero_exact d u Hd)). cbn [bind]. rewrite S1, S2. cbn [bind].
  unfold val_sig_lagged. rewrite T1, T2. cbn [bind].
  rewrite !at_zero_lat. cbn [fourier_config hc_base].
  rewrite (lat_equalize CV_laws 0 d (reals u) (reals v) Hd)
    by (intros E; apply map_eq_nil in E; subst; cbn in *; lia).
  assert (El : Nat.max (length (A:=val CV) (reals u)) (length (A:=val CV) (reals v)) = n) by (unfold reals; rewrite !map_length; reflexivity).
  rewrite El. cbn [bind fst snd]. rewrite !pad_reals.
  change (r_y (onlat (V:=CV) 0 d 0 (reals (padR n u)))) with (reals (padR n u)). change (r_y (onlat (V:=CV) 0 d 0 (reals (padR n v)))) with (reals (padR n v)).
  rewrite convolve_reals by (intros E; apply (f_equal (@length R)) in E; rewrite padR_length in E; cbn in E; lia).
  rewrite !padR_length. replace (n + n - 1)%nat with (2 * n - 1)%nat by lia.
  assert (Ec : conv_list (padR n u) (padR n v) (2 * n - 1) = conv_list u v (2 * n - 1)).
  { unfold conv_list. apply map_ext. intros k. apply convolved_pad; unfold n; lia. }
  rewrite Ec. cbn [bind]. set (b := - (INR (n - 1) * d)). set (c := conv_list u v (2 * n - 1)).
  assert (Lc : length (A:=val CV) (reals c) = (2 * n - 1)%nat) by (unfold reals; rewrite map_length; apply conv_list_length).
  assert (Em : rel_make RA CV (mkAxis (n_opp RA (a_end (r_x (onlat (V:=CV) 0 d 0 (reals (padR n u)))))) (a_end (r_x (onlat (V:=CV) 0 d 0 (reals (padR n u)))))
      (a_sample (r_x (onlat (V:=CV) 0 d 0 (reals (padR n u)))))) (reals c) = Ok (onlat (V:=CV) b d 0 (reals c))).
  { assert (Ex : mkAxis (A:=RA) (n_opp RA (a_end (r_x (onlat (V:=CV) 0 d 0 (reals (padR n u)))))) (a_end (r_x (onlat (V:=CV) 0 d 0 (reals (padR n u)))))
      (a_sample (r_x (onlat (V:=CV) 0 d 0 (reals (padR n u))))) = r_x (onlat (V:=CV) b d 0 (reals c))).
    { unfold onlat. rewrite Lc. cbn [r_x a_start a_end a_sample]. unfold reals. rewrite map_length, padR_length.
      apply axis_eq; cbn [a_start a_end a_sample RA n_opp INR Nat.add]; try reflexivity; match goal with |- ?a = ?b => change (@eq R a b) end; unfold b.
      - ring.
      - replace (2 * n - 1 - 1)%nat with (2 * (n - 1))%nat by lia. rewrite mult_INR. cbn [INR]. ring. }
    rewrite Ex. change (rel_make RA CV (r_x (onlat (V:=CV) b d 0 (reals c))) (r_y (onlat (V:=CV) b d 0 (reals c))) = Ok (onlat (V:=CV) b d 0 (reals c))).
    apply rel_make_eq. apply lat_valid; [exact Hd|]. intros E. apply (f_equal (@length (val CV))) in E. rewrite Lc in E. cbn in E. lia. }
  rewrite Em. cbn [bind].
  assert (HL : (n <= L /\ L <= 2 * n - 1)%nat) by (unfold L; lia).
  assert (Es : rel_select RA CV None (Some (n_mul RA (n_of_Z RA (Z.of_nat (length u - 1 + 1))) (a_sample (r_x (onlat (V:=CV) 0 d 0 (reals v))))))
      (onlat (V:=CV) b d 0 (reals c)) = Ok (onlat (V:=CV) b d 0 (reals (conv_list u v L)))).
  { rewrite (lat_select (V:=CV) b d (reals c) _ (L - 1) Hd).
    - replace (L - 1 + 1)%nat with L by lia. do 2 f_equal. unfold reals. rewrite firstn_map. f_equal. apply firstn_conv. lia.
    - rewrite Lc. lia.
    - intros i Hi. unfold onlat. cbn [r_x a_sample RA n_mul n_of_Z]. rewrite <- INR_IZR_INZ. unfold b.
      assert (INR i <= INR (n - 1) + INR (length u - 1 + 1)) by (rewrite <- plus_INR; apply le_INR; unfold L in *; lia).
      pose proof (Rmult_le_compat_r d _ _ ltac:(lra) H). lra.
    - rewrite Lc. intros i Hi. unfold onlat. cbn [r_x a_sample RA n_mul n_of_Z]. rewrite <- INR_IZR_INZ. unfold b.
      assert (INR (n - 1) + INR (length u - 1 + 1) < INR i) by (rewrite <- plus_INR; apply lt_INR; unfold L in *; lia).
      pose proof (Rmult_lt_compat_r d _ _ ltac:(lra) H). lra. }
  rewrite Es. cbn [bind]. unfold signal_shift.
  set (x := mkAxis (A:=RA) b (INR (L - 1) * d - INR (n - 1) * d) d).
  assert (Eo : onlat (V:=CV) b d 0 (reals (conv_list u v L)) = mk x (reals (conv_list u v L))).
  { unfold onlat, x. f_equal. unfold reals. rewrite map_length, conv_list_length. apply axis_eq; cbn [a_start a_end a_sample INR Nat.add]; try reflexivity;
    match goal with |- ?a = ?b => change (@eq R a b) end; unfold b; ring. }
  rewrite Eo.
  assert (Ea : a_end (r_x (onlat (V:=CV) 0 d 0 (reals v))) = IZR (Z.of_nat (length v - 1)) * a_sample x).
  { unfold onlat, x. cbn [r_x a_end a_sample]. unfold reals. rewrite map_length. rewrite <- INR_IZR_INZ. cbn [Nat.add]. change (0 + INR (length v - 1) * d = INR (length v - 1) * d). ring. }
  rewrite Ea.
  apply shift_exact.
  - rewrite conv_list_length. lia.
  - rewrite conv_list_length. split; [exact Hd|]. unfold x, b. cbn [a_start a_end a_sample]. ring.
  - rewrite conv_list_length. lia.
  - rewrite conv_list_length. intros i Hi. unfold x, b. cbn [a_start a_sample]. split; intros H.
    + apply INR_lt. apply Rmult_lt_reg_r with d; [exact Hd|]. lra.
    + apply lt_INR in H. apply (Rmult_lt_compat_r d) in H; [lra|exact Hd].
  - right. unfold x, b. cbn [a_start a_end]. pose proof (Rmult_le_pos _ d (pos_INR (n - 1)) ltac:(lra)).
    assert (INR (n - 1) <= INR (L - 1)) by (apply le_INR; lia). pose proof (Rmult_le_compat_r d _ _ ltac:(lra) H0). lra.
Qed.
Lemma convolution_code d (u v : list R) : 0 < d -> u <> [] ->
  get_convolution_sweep_and_code RA CV CF FC (inr (reals u)) (at_zero d v) = get_convolution_sweep_and_code RA CV CF FC (inl (at_zero d u)) (at_zero d v).
Proof.
  intros Hd Hu. unfold get_convolution_sweep_and_code. assert (E : code_relation RA CV (at_zero d v) (inr (reals u)) = Ok (at_zero d u)); [|rewrite E; reflexivity].
  unfold code_relation. assert (Hp : (1 <= length u)%nat) by (destruct u; [congruence | cbn; lia]).
  assert (Ex : mkAxis (A:=RA) (n_of_Z RA 0) (n_mul RA (n_of_Z RA (Z.of_nat (length (A:=val CV) (reals u)) - 1)) (a_sample (r_x (at_zero d v)))) (a_sample (r_x (at_zero d v)))
    = r_x (at_zero d u)).
  { unfold at_zero, reals. rewrite map_length. cbn [r_x a_sample RA n_of_Z n_mul]. apply axis_eq; cbn [a_start a_end a_sample]; try reflexivity.
    change (IZR (Z.of_nat (length u) - 1) * d = INR (length u - 1) * d). rewrite INR_IZR_INZ. do 2 f_equal. lia. }
  rewrite Ex. apply (rel_make_eq (V:=CV) (r_x (at_zero d u)) (reals u)). rewrite (axis_size_exact _ _ (at_zero_exact d u Hd)).
  unfold reals. rewrite map_length. f_equal. lia.
Qed.
Lemma convolution_single d (a : R) (v : list R) : 0 < d -> get_convolution_sweep_and_code RA CV CF FC (inl (at_zero d [a])) (at_zero d v) = Err EValue.
Proof.
  intros Hd. unfold get_convolution_sweep_and_code. cbn [code_relation bind]. rewrite (axis_size_exact _ _ (at_zero_exact d [a] Hd)). cbn [bind length Nat.sub Nat.add].
  unfold at_zero at 1. cbn [reals map]. rewrite spectrum_single; [reflexivity| |].
  - rewrite (axis_size_exact _ 0); [reflexivity|]. split; [exact Hd|]. cbn. ring.
  - exact (at_zero_unext d [a] false Hd).
Qed.
Lemma convolution_empty d (v : list R) : 0 < d -> get_convolution_sweep_and_code RA CV CF FC (inr []) (at_zero d v) = Err (ENotEqual 2 0).
Proof.
  intros Hd. unfold get_convolution_sweep_and_code, code_relation, at_zero. cbn [r_x a_sample length]. unfold rel_make.
  assert (E : axis_size RA (mkAxis (A:=RA) (n_of_Z RA 0) (n_mul RA (n_of_Z RA (Z.of_nat 0 - 1)) d) d) = Ok 2%nat).
  { apply axis_size_iff; [cbn; lra|]. split; [lia|]. left. cbn [a_start a_end a_sample RA n_mul n_of_Z]. change (Z.of_nat 0 - 1)%Z with (-1)%Z.
    change (Z.of_nat 2 - 1)%Z with 1%Z. replace ((IZR (-1) * d - 0) / d) with (-1) by (field; lra). replace (-1) with (- (1)) by ring. rewrite Rabs_Ropp, Rabs_R1.
    replace (1 - 1) with 0 by ring. rewrite Rabs_R0. lra. }
  rewrite E. reflexivity.
Qed.
