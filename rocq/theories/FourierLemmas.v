(** Signals and spectra over the reals: transforms on exact axes (C30-C33). *)
From Coq Require Import Reals ZArith List Bool Lia Lra.
From Coquelicot Require Import Complex.
From Verif Require Import Num Numpy Spec AxisModel RelModel HeapModel RLemmas AxisLemmas InterpLemmas VInst
  RelLemmas RelLemmas2 FourierSpec FourierModel DftLemmas.
Import ListNotations.
Local Open Scope R_scope.

(** *** fit, rfft, irfft *)
Lemma fit_length {T} (z : T) n l : length (fit z n l) = n.
Proof. unfold fit. rewrite app_length, firstn_length, repeat_length. lia. Qed.
Lemma fit_self {T} (z : T) n l : length l = n -> fit z n l = l.
Proof. intros <-. unfold fit. rewrite firstn_all, Nat.sub_diag. apply app_nil_r. Qed.

Lemma rfft_none x : (1 <= length x)%nat ->
  rfft x None = Ok (map (rfft_at (length x) (map fst x)) (seq 0 (length x / 2 + 1))).
Proof.
  intros H. unfold rfft. destruct (Z.ltb_spec (Z.of_nat (length x)) 1); [lia|].
  rewrite Nat2Z.id, fit_self by apply map_length. reflexivity.
Qed.
Lemma rfft_some x m : (1 <= m)%Z ->
  exists l, rfft x (Some m) = Ok l /\ length l = (Z.to_nat m / 2 + 1)%nat.
Proof.
  intros H. unfold rfft. destruct (Z.ltb_spec m 1); [lia|]. eexists. split; [reflexivity|].
  rewrite map_length, seq_length. reflexivity.
Qed.
Lemma irfft_some X n : (1 <= n)%nat -> length X = (n / 2 + 1)%nat ->
  irfft X (Some (Z.of_nat n)) = Ok (map (fun j => RtoC (irfft_at n X j)) (seq 0 n)).
Proof.
  intros H HX. unfold irfft. destruct (Z.ltb_spec (Z.of_nat n) 1); [lia|].
  rewrite Nat2Z.id, fit_self by exact HX. reflexivity.
Qed.
Lemma irfft_some_len X n : (1 <= n)%nat ->
  exists l, irfft X (Some (Z.of_nat n)) = Ok l /\ length l = n.
Proof.
  intros H. unfold irfft. destruct (Z.ltb_spec (Z.of_nat n) 1); [lia|]. eexists. split; [reflexivity|].
  rewrite map_length, seq_length, Nat2Z.id. reflexivity.
Qed.
Lemma nth_map_seq {T} (f : nat -> T) n k d : (k < n)%nat -> nth k (map f (seq 0 n)) d = f k.
Proof. intros H. apply nth_error_nth. rewrite nth_error_map_seq by exact H. reflexivity. Qed.

Definition turned (n : nat) (a : list R) (m : Z) : list R := map (fun j => per n a (Z.of_nat j - m)) (seq 0 n).
(** inverse transform of a modulated spectrum is a rotation *)
Lemma irfft_modulated n a m : (1 <= n)%nat ->
  irfft (map (fun k => modulate n m k (rfft_at n a k)) (seq 0 (n / 2 + 1))) (Some (Z.of_nat n))
  = Ok (reals (turned n a m)).
Proof.
  intros Hn. rewrite irfft_some by (rewrite ?map_length, ?seq_length; auto). f_equal.
  unfold reals, turned. rewrite map_map. apply map_ext. intros j. f_equal.
  apply irfft_shift; [exact Hn|]. intros k Hk. rewrite nth_map_seq by lia. reflexivity.
Qed.
Lemma modulate_0 n k z : modulate n 0 k z = z.
Proof.
  unfold modulate. replace (zang n k 0) with 0 by (unfold zang, Rdiv; ring).
  rewrite cos_0, sin_0, Ropp_0. apply Cmult_1_r.
Qed.
Lemma turned_length n a m : length (turned n a m) = n.
Proof. unfold turned. rewrite map_length, seq_length. reflexivity. Qed.
Lemma turned_rotated n a m : length a = n -> rotated_left (- m) a (turned n a m).
Proof.
  intros Ha. split; [rewrite turned_length; auto|]. intros i Hi. rewrite Ha in *.
  unfold turned. rewrite nth_error_map_seq by exact Hi. unfold per.
  replace (Z.of_nat i + - m)%Z with (Z.of_nat i - m)%Z by lia. symmetry. apply nth_error_nth'.
  pose proof (Z.mod_pos_bound (Z.of_nat i - m) (Z.of_nat n)). lia.
Qed.
Lemma rotated_unique {T} k (l a b : list T) : rotated_left k l a -> rotated_left k l b -> a = b.
Proof.
  intros [Ha Ha'] [Hb Hb']. apply nth_error_ext; [congruence|]. rewrite Ha. intros i Hi.
  rewrite Ha', Hb' by exact Hi. reflexivity.
Qed.
Lemma rotated_0 {T} (l : list T) : rotated_left 0 l l.
Proof.
  split; [reflexivity|]. intros i Hi. rewrite Z.add_0_r, Z.mod_small by lia. rewrite Nat2Z.id. reflexivity.
Qed.
Lemma rotated_trans {T} j k (l a b : list T) : rotated_left j l a -> rotated_left k a b -> rotated_left (j + k) l b.
Proof.
  intros [Ha Ha'] [Hb Hb']. split; [congruence|]. intros i Hi.
  rewrite Hb' by (rewrite Ha; exact Hi). rewrite Ha.
  pose proof (Z.mod_pos_bound (Z.of_nat i + k) (Z.of_nat (length l)) ltac:(lia)).
  rewrite Ha' by lia. rewrite Z2Nat.id by lia. rewrite Zplus_mod_idemp_l. do 3 f_equal. lia.
Qed.
Lemma rotated_map {S T} (f : S -> T) k l a : rotated_left k l a -> rotated_left k (map f l) (map f a).
Proof.
  intros [Ha Ha']. split; [rewrite !map_length; exact Ha|]. rewrite map_length. intros i Hi.
  rewrite !nth_error_map, Ha' by exact Hi. reflexivity.
Qed.
Lemma turned_0 n a : length a = n -> turned n a 0 = a.
Proof.
  intros H. eapply rotated_unique; [apply turned_rotated; exact H|]. apply rotated_0.
Qed.
Lemma irfft_rfft n a : (1 <= n)%nat -> length a = n ->
  irfft (map (rfft_at n a) (seq 0 (n / 2 + 1))) (Some (Z.of_nat n)) = Ok (reals a).
Proof.
  intros Hn Ha. rewrite <- (turned_0 n a Ha) at 2. rewrite <- irfft_modulated by exact Hn. f_equal.
  apply map_ext. intros k. symmetry. apply modulate_0.
Qed.

(** *** reorder *)
Definition rotl {T} (p : nat) (l : list T) : list T := skipn p l ++ firstn p l.
Lemma rotl_length {T} p (l : list T) : length (rotl p l) = length l.
Proof. unfold rotl. rewrite app_length, skipn_length, firstn_length. lia. Qed.
Lemma nth_error_skipn {T} (l : list T) k i : nth_error (skipn k l) i = nth_error l (k + i).
Proof. revert k; induction l as [|a l IH]; intros [|k]; try reflexivity; [destruct i; reflexivity|]. apply IH. Qed.
Lemma nth_error_firstn {T} (l : list T) k i : (i < k)%nat -> nth_error (firstn k l) i = nth_error l i.
Proof.
  revert k i; induction l as [|a l IH]; intros [|k] i H; try lia; [destruct i; reflexivity|].
  destruct i as [|i]; [reflexivity|]. apply IH. lia.
Qed.
Lemma rotl_rotated {T} p (l : list T) : (p <= length l)%nat -> rotated_left (Z.of_nat p) l (rotl p l).
Proof.
  intros Hp. split; [apply rotl_length|]. intros i Hi. unfold rotl.
  destruct (Nat.lt_ge_cases i (length l - p)) as [H|H].
  - rewrite nth_error_app1 by (rewrite skipn_length; exact H). rewrite nth_error_skipn.
    rewrite Z.mod_small by lia. f_equal. lia.
  - rewrite nth_error_app2 by (rewrite skipn_length; exact H). rewrite skipn_length.
    rewrite nth_error_firstn by lia. f_equal.
    replace (Z.of_nat i + Z.of_nat p)%Z with (Z.of_nat i + Z.of_nat p - Z.of_nat (length l) + 1 * Z.of_nat (length l))%Z by lia.
    rewrite Z.mod_add by lia. rewrite Z.mod_small by lia. lia.
Qed.
Lemma map_flags (P : R -> bool) (arr : list R) p b : (p <= length arr)%nat ->
  (forall i x, nth_error arr i = Some x -> P x = if Nat.ltb i p then b else negb b) ->
  map P arr = repeat b p ++ repeat (negb b) (length arr - p).
Proof.
  revert p; induction arr as [|a arr IH]; intros p Hp H.
  - cbn in Hp. assert (p = 0%nat) by lia. subst p. reflexivity.
  - pose proof (H 0%nat a eq_refl) as H0. destruct p as [|p].
    + cbn in H0. cbn [map repeat app length Nat.sub]. f_equal; [exact H0|].
      rewrite (IH 0%nat); [rewrite Nat.sub_0_r; reflexivity|lia|].
      intros i x Hx. apply (H (S i) x Hx).
    + cbn in H0. cbn [map repeat app length Nat.sub]. f_equal; [exact H0|].
      apply IH; [cbn in Hp; lia|]. intros i x Hx. apply (H (S i) x Hx).
Qed.
Lemma reorder_split t y arr p : axis_array RA t = Ok arr -> length arr = length y -> (p <= length y)%nat ->
  (forall i x, nth_error arr i = Some x -> (x < 0 <-> (i < p)%nat)) -> reorder t y = Ok (rotl p y).
Proof.
  intros Ha Hl Hp H. unfold reorder. rewrite Ha. cbn [bind]. rr. rewrite Hl, Nat.eqb_refl. f_equal.
  rewrite (map_flags (fun x => n_le RA 0 x) arr p false).
  2:{ rewrite Hl. exact Hp. }
  2:{ intros i x Hx. cbn [RA n_le n_lt negb]. specialize (H i x Hx). destruct (Nat.ltb_spec i p) as [L|L].
      - apply Rleb_false. apply H. exact L.
      - apply Rleb_true. destruct (Rle_dec 0 x); [assumption|]. exfalso. assert (x < 0) by lra. apply H in H0. lia. }
  rewrite (map_flags (fun x => n_lt RA x 0) arr p true).
  2:{ rewrite Hl. exact Hp. }
  2:{ intros i x Hx. cbn [RA n_le n_lt negb]. specialize (H i x Hx). destruct (Nat.ltb_spec i p) as [L|L].
      - apply Rltb_true. apply H. exact L.
      - apply Rltb_false. destruct (Rle_dec 0 x); [assumption|]. exfalso. assert (x < 0) by lra. apply H in H0. lia. }
  rewrite Hl. cbn [negb]. unfold rotl. f_equal.
  - pose proof (mask_block y p (length y - p) 0 ltac:(lia)) as E. cbn [repeat] in E. rewrite app_nil_r in E.
    rewrite E. apply firstn_all2. rewrite skipn_length. lia.
  - pose proof (mask_block y 0 p (length y - p) ltac:(lia)) as E. cbn [repeat app skipn] in E. exact E.
Qed.
Lemma reorder_len t y n : axis_size RA t = Ok n -> length y = n -> exists y', reorder t y = Ok y' /\ length y' = n.
Proof.
  intros Ht Hy. unfold reorder. rewrite (axis_array_size t n Ht). cbn [bind]. rr. rewrite grid_length, Hy, Nat.eqb_refl.
  eexists. split; [reflexivity|].
  assert (G : forall (g : list R) (y : list C), length g = length y ->
     length (mask (map (fun x => n_le RA 0 x) g) y ++ mask (map (fun x => n_lt RA x 0) g) y) = length y).
  { induction g as [|a g IH]; intros [|b z] Hz; try discriminate; [reflexivity|].
    cbn in Hz. injection Hz as Hz. specialize (IH z Hz). rewrite app_length in *.
    cbn [map mask length]. cbn [RA n_le n_lt] in *.
    destruct (Rleb 0 a) eqn:E1, (Rltb a 0) eqn:E2; rb; try lra; cbn [length]; rewrite <- IH; lia. }
  rewrite G by (rewrite grid_length; auto). exact Hy.
Qed.

(** *** exact axes *)
Lemma exact_array (x : raxis) m : exact_span (a_start x) (a_end x) (a_sample x) m ->
  axis_array RA x = Ok (arith_seq (a_start x) (a_sample x) (m + 1)).
Proof.
  intros H. rewrite (axis_array_size x (m + 1)) by (apply axis_size_exact; exact H). f_equal.
  destruct H as [Hd He]. rewrite <- grid_arith by lia. f_equal. replace (m + 1 - 1)%nat with m by lia. lra.
Qed.
Lemma reorder_exact (x : raxis) m p (y : list C) : exact_span (a_start x) (a_end x) (a_sample x) m ->
  length y = (m + 1)%nat -> (p <= m + 1)%nat -> negatives (a_start x) (a_sample x) (m + 1) p ->
  reorder x y = Ok (rotl p y).
Proof.
  intros Hx Hy Hp Hn. eapply reorder_split; [apply exact_array; exact Hx|rewrite arith_length; auto|lia|].
  intros i t Ht. apply arith_nth_inv in Ht. destruct Ht as [Hi ->]. apply Hn. exact Hi.
Qed.

(** the frequency axis *)
Definition faxis (n : nat) (d : R) : raxis := mkAxis (A:=RA) 0 (INR (n / 2) * (1 / (INR n * d))) (1 / (INR n * d)).
Lemma freq_pos n d : (1 <= n)%nat -> 0 < d -> 0 < 1 / (INR n * d).
Proof.
  intros Hn Hd. unfold Rdiv. rewrite Rmult_1_l. apply Rinv_0_lt_compat. apply Rmult_lt_0_compat; [|exact Hd].
  apply lt_0_INR. lia.
Qed.
Lemma half_pos n : (2 <= n)%nat -> (1 <= n / 2)%nat.
Proof. intros H. apply Nat.div_le_lower_bound; lia. Qed.
Lemma faxis_size n d : (2 <= n)%nat -> 0 < d -> axis_size RA (faxis n d) = Ok (n / 2 + 1)%nat.
Proof.
  intros Hn Hd. apply axis_size_exact. split; cbn; [apply freq_pos; [lia|exact Hd]|]. lra.
Qed.
Lemma rfftfreq_axis n d : (2 <= n)%nat -> d <> 0 ->
  (do f <- rfftfreq n d; axis_of_array RA (mkSeq (A:=RA) true f) false) = Ok (faxis n d).
Proof.
  intros Hn Hd. unfold rfftfreq. assert (HN : INR n <> 0) by (apply not_0_INR; lia).
  assert (E : Reqb (INR n * d) 0 = false) by (apply Reqb_false; apply Rmult_integral_contrapositive; split; assumption).
  rewrite E. cbn [bind].
  replace (map (fun k => INR k * (1 / (INR n * d))) (seq 0 (n / 2 + 1))) with (arith_seq 0 (1 / (INR n * d)) (n / 2 + 1)).
  2:{ unfold arith_seq. apply map_ext. intros k. ring. }
  pose proof (half_pos n Hn).
  rewrite (axis_of_arith 0 (1 / (INR n * d)) (n / 2 + 1) true false) by lia. cbn [andb bind]. unfold faxis. do 2 f_equal.
  replace (n / 2 + 1 - 1)%nat with (n / 2)%nat by lia. ring.
Qed.
Lemma rfftfreq_one d : d <> 0 ->
  (do f <- rfftfreq 1 d; axis_of_array RA (mkSeq (A:=RA) true f) false) = Err EValue.
Proof.
  intros Hd. unfold rfftfreq. assert (E : Reqb (INR 1 * d) 0 = false) by (apply Reqb_false; cbn; lra).
  rewrite E. reflexivity.
Qed.

(** *** the spectrum of a signal *)
Notation FC := fourier_config.
Definition dft (n : nat) (a : list R) : list C := map (rfft_at n a) (seq 0 (n / 2 + 1)).
Lemma dft_length n a : length (dft n a) = (n / 2 + 1)%nat.
Proof. unfold dft. rewrite map_length, seq_length. reflexivity. Qed.

Lemma calc_none (t : raxis) (y : list C) n y' : (2 <= n)%nat -> a_sample t <> 0 -> reorder t y = Ok y' -> length y' = n ->
  calculate_spectrum t y (DNone RA) = Ok (faxis n (a_sample t), dft n (map fst y')).
Proof.
  intros Hn Hd Hr Hy. unfold calculate_spectrum. cbn [fft_size bind]. rewrite Hr. cbn [bind].
  rewrite rfft_none by lia. rewrite Hy. cbn [bind].
  pose proof (rfftfreq_axis n (a_sample t) Hn Hd) as E.
  destruct (rfftfreq n (a_sample t)) as [f|]; cbn [bind] in *; [|discriminate].
  rewrite E. reflexivity.
Qed.
Lemma calc_int (t : raxis) (y : list C) n y' k : (2 <= n)%nat -> a_sample t <> 0 -> reorder t y = Ok y' -> length y' = n -> (1 <= k)%Z ->
  exists l, calculate_spectrum t y (DInt RA k) = Ok (faxis n (a_sample t), l) /\ length l = (Z.to_nat k / 2 + 1)%nat.
Proof.
  intros Hn Hd Hr Hy Hk. unfold calculate_spectrum. cbn [fft_size bind]. rewrite Hr. cbn [bind].
  destruct (rfft_some y' k Hk) as (l & -> & Hl). cbn [bind]. rewrite Hy.
  pose proof (rfftfreq_axis n (a_sample t) Hn Hd) as E.
  destruct (rfftfreq n (a_sample t)) as [f|]; cbn [bind] in *; [|discriminate].
  rewrite E. cbn [bind]. eauto.
Qed.
Lemma calc_axis (t : raxis) (y : list C) y' (a : raxis) m : reorder t y = Ok y' -> axis_size RA a = Ok m ->
  exists l, calculate_spectrum t y (DAxis RA a) = Ok (a, l) /\ length l = (m / 2 + 1)%nat.
Proof.
  intros Hr Ha. unfold calculate_spectrum. cbn [fft_size bind]. rewrite Ha. cbn [bind]. rewrite Hr. cbn [bind].
  assert (Hm : (0 < m)%nat) by (eapply axis_size_pos; exact Ha).
  destruct (rfft_some y' (Z.of_nat m)) as (l & -> & Hl); [lia|]. cbn [bind]. rewrite Nat2Z.id in Hl. eauto.
Qed.

(** an axis containing time 0 (or [is_start_zero]) is transformed as it is *)
Definition unextended (x : raxis) (z : bool) : Prop := z = true \/ (a_start x <= 0 /\ 0 <= a_end x).
Lemma s2s_plain (c : crel) d z : unextended (r_x c) z -> signal2spectrum c d z = calculate_spectrum (r_x c) (r_y c) d.
Proof.
  intros H. unfold signal2spectrum. destruct z; [reflexivity|]. destruct H as [H|[H1 H2]]; [discriminate|].
  assert (E1 : Rltb 0 (a_start (r_x c)) = false) by (apply Rltb_false; exact H1).
  assert (E2 : Rltb (a_end (r_x c)) 0 = false) by (apply Rltb_false; exact H2).
  rewrite E1, E2. reflexivity.
Qed.
Lemma make_CV (x : raxis) (y : list C) n : axis_size RA x = Ok n -> length y = n -> rel_make RA CV x y = Ok (mkRel (A:=RA) (V:=CV) x y).
Proof. intros H <-. apply rel_make_eq. exact H. Qed.

Lemma spectrum_exact (x : raxis) m p z (y : list C) : (1 <= m)%nat ->
  exact_span (a_start x) (a_end x) (a_sample x) m -> length y = (m + 1)%nat -> (p <= m + 1)%nat ->
  negatives (a_start x) (a_sample x) (m + 1) p -> unextended x z ->
  val_spectrum RA CV FC (mkRel (A:=RA) (V:=CV) x y) (DNone RA) z =
    Ok (mkRel (A:=RA) (V:=CV) (faxis (m + 1) (a_sample x)) (dft (m + 1) (map fst (rotl p y)))).
Proof.
  intros Hm Hx Hy Hp Hneg Hu. unfold val_spectrum. cbn [fourier_config hc_s2s].
  rewrite s2s_plain by exact Hu. cbn [r_x r_y].
  rewrite (calc_none x y (m + 1) (rotl p y)).
  - cbn [bind fst snd]. apply make_CV with (n := ((m + 1) / 2 + 1)%nat); [|apply dft_length].
    apply faxis_size; [lia|]. apply Hx.
  - lia.
  - destruct Hx; lra.
  - eapply reorder_exact; eassumption.
  - rewrite rotl_length. exact Hy.
Qed.

(** recomputing a signal on its own axis *)
Lemma signal_exact (x fx : raxis) m p (X : list C) (a : list R) (k : Z) :
  exact_span (a_start x) (a_end x) (a_sample x) m -> (p <= m + 1)%nat ->
  negatives (a_start x) (a_sample x) (m + 1) p ->
  X = map (fun j => modulate (m + 1) k j (rfft_at (m + 1) a j)) (seq 0 ((m + 1) / 2 + 1)) ->
  val_signal RA CV FC (mkRel (A:=RA) (V:=CV) fx X) (DAxis RA x) None =
    Ok (mkRel (A:=RA) (V:=CV) x (rotl p (reals (turned (m + 1) a k)))).
Proof.
  intros Hx Hp Hneg ->. unfold val_signal. cbn [fourier_config hc_sp2s]. unfold spectrum2signal.
  cbn [fft_size]. rewrite (axis_size_exact x m Hx). cbn [bind r_y r_x].
  rewrite irfft_modulated by lia. cbn [bind].
  rewrite (reorder_exact x m p); [|exact Hx| |exact Hp|exact Hneg].
  - cbn [bind fst snd]. eapply make_CV; [apply axis_size_exact; exact Hx|].
    rewrite rotl_length. unfold reals. rewrite map_length, turned_length. reflexivity.
  - unfold reals. rewrite map_length, turned_length. reflexivity.
Qed.

Lemma fst_reals u : map fst (reals u) = u.
Proof. unfold reals. rewrite map_map. cbn. apply map_id. Qed.
Lemma rotl_map {S T} (f : S -> T) p l : rotl p (map f l) = map f (rotl p l).
Proof. unfold rotl. rewrite skipn_map, firstn_map, map_app. reflexivity. Qed.

Lemma rotl_reals p u : rotl p (reals u) = reals (rotl p u).
Proof. apply rotl_map. Qed.

(** C31 (and C30 with p = 0) *)
Lemma round_trip (x : raxis) (u : list R) p z : (2 <= length u)%nat ->
  exact_span (a_start x) (a_end x) (a_sample x) (length u - 1) -> (p <= length u)%nat ->
  negatives (a_start x) (a_sample x) (length u) p -> unextended x z ->
  exists S w, val_spectrum RA CV FC (mkRel (A:=RA) (V:=CV) x (reals u)) (DNone RA) z = Ok S /\
    val_signal RA CV FC S (DAxis RA x) None = Ok (mkRel (A:=RA) (V:=CV) x (reals w)) /\
    rotated_left (2 * Z.of_nat p) u w.
Proof.
  intros Hu Hx Hp Hneg Hz. set (m := (length u - 1)%nat) in *.
  assert (Hm : length u = (m + 1)%nat) by lia. rewrite Hm in *.
  do 2 eexists. split; [|split].
  - apply (spectrum_exact x m p); try assumption; [lia|]. unfold reals. rewrite map_length. exact Hm.
  - rewrite rotl_reals, fst_reals.
    rewrite (signal_exact x _ m p _ (rotl p u) 0); [|exact Hx|exact Hp|exact Hneg|].
    + rewrite turned_0 by (rewrite rotl_length; exact Hm). rewrite rotl_reals. reflexivity.
    + unfold dft. apply map_ext. intros j. symmetry. apply modulate_0.
  - replace (2 * Z.of_nat p)%Z with (Z.of_nat p + Z.of_nat p)%Z by lia.
    eapply rotated_trans; [apply rotl_rotated; lia|]. apply rotl_rotated. rewrite rotl_length. lia.
Qed.
Lemma negatives_0 s d n : 0 <= s -> 0 < d -> negatives s d n 0.
Proof.
  intros Hs Hd i Hi. split; intros H; [exfalso|lia]. pose proof (pos_INR i).
  assert (0 <= INR i * d) by (apply Rmult_le_pos; lra). lra.
Qed.
Lemma round_trip_zero (x : raxis) (u : list R) z : (2 <= length u)%nat -> a_start x = 0 ->
  exact_span (a_start x) (a_end x) (a_sample x) (length u - 1) ->
  exists S, val_spectrum RA CV FC (mkRel (A:=RA) (V:=CV) x (reals u)) (DNone RA) z = Ok S /\
    val_signal RA CV FC S (DAxis RA x) None = Ok (mkRel (A:=RA) (V:=CV) x (reals u)).
Proof.
  intros Hu Hs Hx.
  destruct (round_trip x u 0 z) as (S & w & HS & Hw & Hr); try assumption; [lia| | |].
  - apply negatives_0; [lra|]. apply Hx.
  - right. split; [lra|]. destruct Hx as [Hd He]. pose proof (pos_INR (length u - 1)).
    assert (0 <= INR (length u - 1) * a_sample x) by (apply Rmult_le_pos; lra). lra.
  - exists S. split; [exact HS|]. cbn in Hr.
    rewrite (rotated_unique 0 u u w (rotated_0 u) Hr). exact Hw.
Qed.
(** a single sample has no spectrum *)
Lemma spectrum_single (x : raxis) (v : C) z : axis_size RA x = Ok 1%nat -> unextended x z ->
  val_spectrum RA CV FC (mkRel (A:=RA) (V:=CV) x [v]) (DNone RA) z = Err EValue.
Proof.
  intros Hx Hz. unfold val_spectrum. cbn [fourier_config hc_s2s]. rewrite s2s_plain by exact Hz. cbn [r_x r_y].
  unfold calculate_spectrum. cbn [fft_size bind].
  destruct (reorder_len x [v] 1 Hx eq_refl) as (y' & -> & Hy'). cbn [bind].
  rewrite rfft_none by lia. cbn [bind]. rewrite Hy'.
  pose proof (rfftfreq_one (a_sample x) (sample_nz x _ Hx)) as E.
  destruct (rfftfreq 1 (a_sample x)) as [f|e]; cbn [bind] in *; [rewrite E; reflexivity|].
  injection E as ->. reflexivity.
Qed.
