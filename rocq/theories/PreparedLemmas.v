(** Lemmas on frequency laws, envelopes, soft clipping and codes. *)
From Coq Require Import Reals ZArith List Bool Lia Lra Psatz.
From Coquelicot Require Import Complex.
From Verif Require Import Num Numpy AxisModel RelModel HeapModel Spec RLemmas AxisLemmas InterpLemmas VInst RelLemmas RelLemmas2 RelLemmas3
  FourierModel SweepModel SweepSpec SweepLemmas PreparedModel PreparedSpec.
Import ListNotations.
Local Open Scope R_scope.

Ltac reqq := match goal with |- @eq _ ?p ?q => change (@eq R p q) end.

(** *** f_t.py *)
Lemma linear_array_eq (time : list R) (f0 f1 : R) t0 : nth_error time 0 = Some t0 ->
  f_t_linear_array RA time f0 f1 = Ok (map (f_t_linear_function RA t0 (last time t0) f0 f1) time).
Proof. destruct time as [|t ts]; [discriminate|]. intros E. injection E as ->. reflexivity. Qed.
Lemma linear_value (t0 t1 f0 f1 t : R) : t1 <> t0 ->
  f_t_linear_function RA t0 t1 f0 f1 t = f0 + t0 * (f1 - f0) / (t1 - t0) + (t - t0) * (f1 - f0) / (t1 - t0).
Proof. intros H. unfold f_t_linear_function. cbn [RA n_add n_sub n_mul n_div]. reqq. field. lra. Qed.
Lemma linear_ends (t0 t1 f0 f1 : R) : t1 <> t0 ->
  let c := t0 * (f1 - f0) / (t1 - t0) in
  f_t_linear_function RA t0 t1 f0 f1 t0 = f0 + c /\ f_t_linear_function RA t0 t1 f0 f1 t1 = f1 + c /\
  (c = 0 <-> t0 = 0 \/ f0 = f1).
Proof.
  intros H c. rewrite !linear_value by exact H. subst c. split; [reqq; field; lra|]. split; [reqq; field; lra|]. split.
  - intros E. apply (Rmult_eq_compat_r (t1 - t0)) in E. replace (t0 * (f1 - f0) / (t1 - t0) * (t1 - t0)) with (t0 * (f1 - f0)) in E by (field; lra).
    rewrite Rmult_0_l in E. apply Rmult_integral in E. destruct E as [E|E]; [left|right]; lra.
  - intros [->| ->]; field; lra.
Qed.

(** *** tukey *)
Lemma unit_ones n : unit_list (repeat 1 n).
Proof. intros x H. apply repeat_spec in H. lra. Qed.
Lemma unit_app l m : unit_list l -> unit_list m -> unit_list (l ++ m).
Proof. intros Hl Hm x H. apply in_app_or in H. destruct H; [apply Hl|apply Hm]; assumption. Qed.
Lemma unit_firstn l k : unit_list l -> unit_list (firstn k l).
Proof. intros Hl x H. apply Hl. rewrite <- (firstn_skipn k l). apply in_or_app. left. exact H. Qed.
Lemma unit_rev l : unit_list l -> unit_list (rev l).
Proof. intros Hl x H. apply Hl. apply in_rev. exact H. Qed.
Lemma unit_map {T} (f : T -> R) l : (forall x, 0 <= f x <= 1) -> unit_list (map f l).
Proof. intros Hf x H. apply in_map_iff in H. destruct H as (y & <- & _). apply Hf. Qed.

Lemma hann_len n : length (hann n) = n.
Proof.
  unfold hann. destruct (Nat.leb n 1); [apply repeat_length|]. rewrite map_length. exact (linspace_length RA (- PI) PI n).
Qed.
Lemma hann_unit n : unit_list (hann n).
Proof.
  unfold hann. destruct (Nat.leb n 1); [apply unit_ones|]. apply unit_map. intros x. pose proof (COS_bound x). lra.
Qed.
Lemma hann_first n : (2 <= n)%nat -> nth_error (hann n) 0 = Some 0.
Proof.
  intros Hn. unfold hann. replace (Nat.leb n 1) with false by (symmetry; apply Nat.leb_gt; lia).
  rewrite nth_error_map, linspace_R, grid_nth by lia. cbn [option_map]. f_equal.
  unfold grid_pt. cbn [INR]. replace (- PI + 0 * ((PI - - PI) / INR (n - 1))) with (- PI) by lra.
  rewrite cos_neg, cos_PI. lra.
Qed.
Lemma hann_last n : (2 <= n)%nat -> nth_error (hann n) (n - 1) = Some 0.
Proof.
  intros Hn. unfold hann. replace (Nat.leb n 1) with false by (symmetry; apply Nat.leb_gt; lia).
  rewrite nth_error_map, linspace_R, grid_nth by lia. cbn [option_map]. f_equal.
  destruct n as [|[|m]]; try lia. replace (S (S m) - 1)%nat with (S m) by lia. rewrite grid_pt_last, cos_PI. lra.
Qed.

Section Tukey.
Context (n : nat) (alpha : R) (Hn : (2 <= n)%nat) (H0 : 0 < alpha) (H1 : alpha < 1).
Let m := INR (n - 1).
Let width := Z.to_nat (Int_part (alpha * m / 2)).
Lemma m_pos : 0 < m. Proof. unfold m. apply lt_0_INR. lia. Qed.
Lemma width_eq : INR width <= alpha * m / 2 < INR width + 1.
Proof.
  unfold width. assert (Hp : 0 <= alpha * m / 2).
  { pose proof m_pos. assert (0 < alpha * m) by (apply Rmult_lt_0_compat; lra). lra. }
  destruct (base_Int_part (alpha * m / 2)) as [Ha Hb].
  assert (Hz : (0 <= Int_part (alpha * m / 2))%Z) by (assert (-1 < Int_part (alpha * m / 2))%Z; [apply lt_IZR; lra|lia]).
  rewrite INR_IZR_INZ, Z2Nat.id by exact Hz. lra.
Qed.
Lemma width_bound : (2 * (width + 1) <= n)%nat.
Proof.
  pose proof width_eq as [Hw _]. pose proof m_pos as Hm.
  assert (INR (2 * width) < INR (n - 1)).
  { rewrite mult_INR. change (INR 2) with 2. fold m. assert (alpha * m < 1 * m) by (apply Rmult_lt_compat_r; lra). lra. }
  apply INR_lt in H. lia.
Qed.
Lemma tukey_mid : tukey n alpha =
  map (fun k => / 2 * (1 + cos (PI * (-1 + 2 * INR k / alpha / m)))) (seq 0 (width + 1))
    ++ repeat 1 (n - 2 * (width + 1))
    ++ map (fun k => / 2 * (1 + cos (PI * (-2 / alpha + 1 + 2 * INR k / alpha / m)))) (seq (n - width - 1) (width + 1)).
Proof.
  unfold tukey. replace (Nat.leb n 1) with false by (symmetry; apply Nat.leb_gt; lia).
  replace (Rleb alpha 0) with false by (symmetry; apply Rleb_false; exact H0).
  replace (Rleb 1 alpha) with false by (symmetry; apply Rleb_false; exact H1). reflexivity.
Qed.
Lemma tukey_mid_len : length (tukey n alpha) = n.
Proof. rewrite tukey_mid, !app_length, !map_length, !seq_length, repeat_length. pose proof width_bound. lia. Qed.
Lemma tukey_mid_unit : unit_list (tukey n alpha).
Proof.
  rewrite tukey_mid. apply unit_app; [|apply unit_app; [apply unit_ones|]]; apply unit_map; intros k;
    match goal with |- context [cos ?a] => pose proof (COS_bound a) end; lra.
Qed.
Lemma tukey_mid_first : nth_error (tukey n alpha) 0 = Some 0.
Proof.
  rewrite tukey_mid. replace (width + 1)%nat with (S width) by lia. cbn [seq map app nth_error INR]. f_equal.
  replace (PI * (-1 + 2 * 0 / alpha / m)) with (- PI) by (field; pose proof m_pos; lra). rewrite cos_neg, cos_PI. lra.
Qed.
Lemma tukey_mid_last : nth_error (tukey n alpha) (n - 1) = Some 0.
Proof.
  rewrite tukey_mid. pose proof width_bound as Hw.
  rewrite !nth_error_app2 by (rewrite ?map_length, ?seq_length, ?repeat_length; lia).
  rewrite map_length, seq_length, repeat_length.
  replace (n - 1 - (width + 1) - (n - 2 * (width + 1)))%nat with width by lia.
  rewrite nth_error_map, (nth_error_nth' _ _ 0%nat) by (rewrite seq_length; lia). rewrite seq_nth by lia. cbn [option_map]. f_equal.
  replace (n - width - 1 + width)%nat with (n - 1)%nat by lia. fold m.
  replace (PI * (-2 / alpha + 1 + 2 * m / alpha / m)) with PI by (field; pose proof m_pos; lra). rewrite cos_PI. lra.
Qed.
End Tukey.

Lemma tukey_low n alpha : alpha <= 0 -> tukey n alpha = repeat 1 n.
Proof.
  intros H. unfold tukey. destruct (Nat.leb n 1); [reflexivity|]. replace (Rleb alpha 0) with true by (symmetry; apply Rleb_true; exact H).
  reflexivity.
Qed.
Lemma tukey_high n alpha : 1 <= alpha -> tukey n alpha = hann n.
Proof.
  intros H. unfold tukey, hann. destruct (Nat.leb n 1); [reflexivity|].
  replace (Rleb alpha 0) with false by (symmetry; apply Rleb_false; lra).
  replace (Rleb 1 alpha) with true by (symmetry; apply Rleb_true; exact H). reflexivity.
Qed.
Lemma tukey_short n alpha : (n <= 1)%nat -> tukey n alpha = repeat 1 n.
Proof. intros H. unfold tukey. replace (Nat.leb n 1) with true by (symmetry; apply Nat.leb_le; exact H). reflexivity. Qed.
Lemma tukey_len n alpha : length (tukey n alpha) = n.
Proof.
  destruct (Nat.le_gt_cases n 1) as [Hn|Hn]; [rewrite tukey_short by exact Hn; apply repeat_length|].
  destruct (Rle_lt_dec alpha 0) as [Ha|Ha]; [rewrite tukey_low by exact Ha; apply repeat_length|].
  destruct (Rle_lt_dec 1 alpha) as [Hb|Hb]; [rewrite tukey_high by exact Hb; apply hann_len|].
  apply tukey_mid_len; assumption.
Qed.
Lemma tukey_unit n alpha : unit_list (tukey n alpha).
Proof.
  destruct (Nat.le_gt_cases n 1) as [Hn|Hn]; [rewrite tukey_short by exact Hn; apply unit_ones|].
  destruct (Rle_lt_dec alpha 0) as [Ha|Ha]; [rewrite tukey_low by exact Ha; apply unit_ones|].
  destruct (Rle_lt_dec 1 alpha) as [Hb|Hb]; [rewrite tukey_high by exact Hb; apply hann_unit|].
  apply tukey_mid_unit; assumption.
Qed.
Lemma tukey_first n alpha : (2 <= n)%nat -> 0 < alpha -> nth_error (tukey n alpha) 0 = Some 0.
Proof.
  intros Hn Ha. destruct (Rle_lt_dec 1 alpha) as [Hb|Hb]; [rewrite tukey_high by exact Hb; apply hann_first; exact Hn|].
  apply tukey_mid_first; assumption.
Qed.
Lemma tukey_last n alpha : (2 <= n)%nat -> 0 < alpha -> nth_error (tukey n alpha) (n - 1) = Some 0.
Proof.
  intros Hn Ha. destruct (Rle_lt_dec 1 alpha) as [Hb|Hb]; [rewrite tukey_high by exact Hb; apply hann_last; exact Hn|].
  apply tukey_mid_last; assumption.
Qed.

(** the share of the window, a_t.py 36-39 *)
Definition taper_share (time : list R) (tp mid : R) : R :=
  if Rleb tp mid then INR (length (filter (fun t => Rleb t tp) time)) * 2 / INR (length time) else 1.
Lemma tukey_a_t_eq (time : list R) tp loc : time <> [] -> exists mid, nth_error time (length time / 2) = Some mid /\
  tukey_a_t time (Some tp) loc =
  let w := tukey (length time) (taper_share time tp mid) in
  let half := firstn (length time / 2) w ++ repeat 1 (length time - length time / 2) in
  Ok (match loc with LocBoth => w | LocLeft => half | LocRight => rev half | LocOther => repeat 1 (length time) end).
Proof.
  intros Hn. assert (Hl : (length time / 2 < length time)%nat).
  { destruct time as [|t l]; [tauto|]. apply Nat.div_lt; cbn; lia. }
  destruct (nth_error_lt _ _ Hl) as [mid E]. exists mid. split; [exact E|]. unfold tukey_a_t. rewrite E. reflexivity.
Qed.
Lemma half_len (time : list R) a : time <> [] -> length (firstn (length time / 2) (tukey (length time) a) ++ repeat 1 (length time - length time / 2)) = length time.
Proof.
  intros Hn. rewrite app_length, firstn_length, repeat_length, tukey_len.
  assert (Hl : (length time / 2 < length time)%nat) by (destruct time as [|t l]; [tauto|]; apply Nat.div_lt; cbn; lia). lia.
Qed.
Lemma tukey_a_t_bounds time taper loc : (taper <> None -> time <> []) ->
  exists w, tukey_a_t time taper loc = Ok w /\ length w = length time /\ (forall x, In x w -> 0 <= x <= 1).
Proof.
  intros Hn. destruct taper as [tp|].
  - destruct (tukey_a_t_eq time tp loc (Hn ltac:(discriminate))) as (mid & _ & ->). cbv zeta. eexists. split; [reflexivity|].
    assert (Hu : unit_list (firstn (length time / 2) (tukey (length time) (taper_share time tp mid)) ++ repeat 1 (length time - length time / 2))).
    { apply unit_app; [apply unit_firstn, tukey_unit | apply unit_ones]. }
    destruct loc; (split; [|try exact Hu; try (apply unit_rev; exact Hu); try apply tukey_unit; try apply unit_ones]).
    + apply half_len, Hn; discriminate.
    + rewrite rev_length. apply half_len, Hn; discriminate.
    + apply tukey_len.
    + apply repeat_length.
  - eexists. split; [reflexivity|]. split; [apply repeat_length | apply unit_ones].
Qed.
Lemma tukey_a_t_none time loc : tukey_a_t time None loc = Ok (repeat 1 (length time)).
Proof. reflexivity. Qed.
Lemma tukey_a_t_left time tp w : tukey_a_t time (Some tp) LocLeft = Ok w ->
  tukey_a_t time (Some tp) LocRight = Ok (rev w) /\
  (forall i, (length time / 2 <= i < length time)%nat -> nth_error w i = Some 1) /\
  exists b, tukey_a_t time (Some tp) LocBoth = Ok b /\ forall i, (i < length time / 2)%nat -> nth_error w i = nth_error b i.
Proof.
  intros E. assert (Hn : time <> []) by (intros ->; discriminate).
  destruct (tukey_a_t_eq time tp LocLeft Hn) as (mid & Em & E2). rewrite E in E2. injection E2 as Ew. change (fst (Nat.divmod (length time) 1 0 1)) with (length time / 2)%nat in Ew.
  assert (Hl : (length time / 2 < length time)%nat) by (destruct time as [|t l]; [tauto|]; apply Nat.div_lt; cbn; lia).
  pose proof (tukey_len (length time) (taper_share time tp mid)) as Hlen.
  split; [|split].
  - destruct (tukey_a_t_eq time tp LocRight Hn) as (mid' & Em' & ->). rewrite Em in Em'. injection Em' as <-. rewrite Ew. reflexivity.
  - intros i Hi. rewrite Ew. rewrite nth_error_app2 by (rewrite firstn_length, Hlen; lia). rewrite firstn_length, Hlen.
    rewrite (nth_error_nth' _ _ 1) by (rewrite repeat_length; lia). f_equal. apply nth_repeat.
  - exists (tukey (length time) (taper_share time tp mid)). split.
    + destruct (tukey_a_t_eq time tp LocBoth Hn) as (mid' & Em' & ->). rewrite Em in Em'. injection Em' as <-. reflexivity.
    + intros i Hi. rewrite Ew. rewrite nth_error_app1 by (rewrite firstn_length, Hlen; lia). apply nth_firstn. exact Hi.
Qed.
(** the tapered ends are 0 when some time is not later than the taper; no window at all otherwise *)
Lemma share_pos time tp mid : (2 <= length time)%nat -> (exists t, In t time /\ t <= tp) -> 0 < taper_share time tp mid.
Proof.
  intros Hn (t & Ht & Hle). unfold taper_share. destruct (Rleb tp mid); [|lra].
  assert (In t (filter (fun t => Rleb t tp) time)) as Hf by (apply filter_In; split; [exact Ht | apply Rleb_true; exact Hle]).
  assert (0 < INR (length (filter (fun t => Rleb t tp) time))).
  { apply lt_0_INR. destruct (filter (fun t => Rleb t tp) time); [destruct Hf | cbn; lia]. }
  assert (0 < INR (length time)) by (apply lt_0_INR; lia).
  unfold Rdiv. apply Rmult_lt_0_compat; [lra | apply Rinv_0_lt_compat; assumption].
Qed.
Lemma share_zero time tp mid : In mid time -> (forall t, In t time -> tp < t) -> taper_share time tp mid = 0.
Proof.
  intros Hm Ha. unfold taper_share. replace (Rleb tp mid) with true by (symmetry; apply Rleb_true; pose proof (Ha mid Hm); lra).
  replace (filter (fun t => Rleb t tp) time) with (@nil R); [cbn; unfold Rdiv; ring|].
  symmetry. clear Hm. induction time as [|t l IH]; [reflexivity|]. cbn [filter].
  replace (Rleb t tp) with false by (symmetry; apply Rleb_false; apply Ha; left; reflexivity).
  apply IH. intros u Hu. apply Ha. right. exact Hu.
Qed.
Lemma tukey_a_t_ends time tp loc w : (2 <= length time)%nat -> tukey_a_t time (Some tp) loc = Ok w ->
  ((exists t, In t time /\ t <= tp) ->
     (loc = LocLeft \/ loc = LocBoth -> nth_error w 0 = Some 0) /\
     (loc = LocRight \/ loc = LocBoth -> nth_error w (length time - 1) = Some 0)) /\
  ((forall t, In t time -> tp < t) -> w = repeat 1 (length time)).
Proof.
  intros Hn E. assert (Hne : time <> []) by (intros ->; cbn in Hn; lia).
  destruct (tukey_a_t_eq time tp loc Hne) as (mid & Em & E2). rewrite E in E2. injection E2 as Ew. change (fst (Nat.divmod (length time) 1 0 1)) with (length time / 2)%nat in Ew.
  assert (Hl : (0 < length time / 2 < length time)%nat).
  { split; [apply Nat.div_str_pos; lia | apply Nat.div_lt; lia]. }
  split.
  - intros Hx. pose proof (share_pos time tp mid Hn Hx) as Hs. split; intros [->| ->]; rewrite Ew.
    + rewrite nth_error_app1 by (rewrite firstn_length, tukey_len; lia). rewrite nth_firstn by lia. apply tukey_first; assumption.
    + apply tukey_first; assumption.
    + rewrite (nth_error_nth' _ _ 1) by (rewrite rev_length, half_len by exact Hne; lia). f_equal.
      rewrite rev_nth by (rewrite half_len by exact Hne; lia). rewrite half_len by exact Hne.
      replace (length time - S (length time - 1))%nat with 0%nat by lia. apply nth_nth_error.
      rewrite nth_error_app1 by (rewrite firstn_length, tukey_len; lia). rewrite nth_firstn by lia. apply tukey_first; assumption.
    + apply tukey_last; assumption.
  - intros Hx. pose proof (share_zero time tp mid (nth_error_In _ _ Em) Hx) as Hs. rewrite Hs in Ew.
    rewrite !(tukey_low (length time) 0 ltac:(lra)) in Ew.
    assert (Hh : firstn (length time / 2) (repeat 1 (length time)) ++ repeat 1 (length time - length time / 2) = repeat 1 (length time)).
    { replace (length time) with (length time / 2 + (length time - length time / 2))%nat at 2 by lia.
      rewrite repeat_app, firstn_app, repeat_length, Nat.sub_diag. cbn [firstn]. rewrite app_nil_r.
      rewrite firstn_all2 by (rewrite repeat_length; lia). rewrite <- repeat_app. f_equal. lia. }
    rewrite Hh in Ew. rewrite Ew. destruct loc; try reflexivity.
    apply nth_error_ext; [rewrite rev_length; reflexivity|]. intros i Hi. rewrite rev_length, repeat_length in Hi.
    rewrite (nth_error_nth' _ _ 1) by (rewrite rev_length, repeat_length; lia).
    rewrite (nth_error_nth' _ _ 1) by (rewrite repeat_length; lia). f_equal.
    rewrite rev_nth by (rewrite repeat_length; lia). rewrite !nth_repeat. reflexivity.
Qed.
