(** Property theorems for signal.py, spectrum.py and the Fourier part of defaults/methods.py:
    C28, C30-C33, C35-C39, about the values of signals and spectra.

    [val_spectrum .. c d z] is what [get_spectrum(d, z)] computes for a signal with content [c],
    [val_signal .. c d t0] what [get_signal(d, t0)] computes for a spectrum with content [c], with the default
    configuration [fourier_config] (FourierModel.v).  How objects, caches and sharing come in is the
    subject of PropsHeap.v.  All theorems are over exact real and complex numbers. *)
From Coq Require Import Reals ZArith List Bool Lia Lra.
From Coquelicot Require Import Complex.
From Verif Require Import Num Numpy Spec AxisModel RelModel HeapModel RLemmas AxisLemmas InterpLemmas VInst
  RelLemmas RelLemmas2 RelLemmas3 CorrLemmas FourierSpec FourierModel DftLemmas FourierLemmas FourierLemmas2
  SpectrumLemmas SpectrumLemmas2 FourierLemmas3 FourierLemmas4.
Import ListNotations.
Local Open Scope R_scope.
Notation get_spectrum := (val_spectrum RA CV fourier_config).
Notation get_signal := (val_signal RA CV fourier_config).
Notation content := (mkRel (A:=RA) (V:=CV)).
Notation ax := (mkAxis (A:=RA)).

(** [Signal.shift(d)]: through the signal's spectrum *)
Definition signal_shift (d : R) (z : bool) (c : crel) : result crel :=
  do sp <- get_spectrum c (DNone RA) z; val_sig_shift RA CV CF fourier_config d c sp.
(** [Signal.correlate] and [Signal.convolve] *)
Definition signal_lagged (comb : list C -> list C -> result (list C)) (z : bool) (c1 c2 : crel) : result crel :=
  do sp1 <- get_spectrum c1 (DNone RA) z; do sp2 <- get_spectrum c2 (DNone RA) z;
  val_sig_lagged RA CV CF fourier_config comb c1 sp1 c2 sp2.
Definition lagged_by (comb : list C -> list C -> result (list C)) : Prop :=
  comb = np_correlate RA CV \/ comb = np_convolve RA CV.

(** example axes: four points 0..3, and five points -2..2 *)
Definition ex4 : raxis := ax 0 3 1.
Definition ex5 : raxis := ax (-2) 2 1.
Lemma ex4_exact : exact_span (a_start ex4) (a_end ex4) (a_sample ex4) 3.
Proof. split; cbn; lra. Qed.
Lemma ex5_exact : exact_span (a_start ex5) (a_end ex5) (a_sample ex5) 4.
Proof. split; cbn; lra. Qed.
Lemma ex5_neg : negatives (a_start ex5) (a_sample ex5) 5 2.
Proof. intros [|[|[|[|[|i]]]]] Hi; cbn; split; intros; lra || lia || auto. Qed.

(** ** C28 correlation and convolution of signals *)
Theorem C28_equal_axes : forall comb (x : raxis) (y1 : list C) (y2 : list C) (z : bool) (n : nat), lagged_by comb ->
  axis_size RA x = Ok n -> length y1 = n -> length y2 = n -> (2 <= n)%nat -> 0 < a_sample x -> a_start x <= a_end x ->
  let fits := round_half_even (Rabs (2 * a_end x / a_sample x)) (Z.of_nat (2 * (n - 1))) in
  (fits -> exists y, signal_lagged comb z (content x y1) (content x y2) = Ok (content (ax (- a_end x) (a_end x) (a_sample x)) y)) /\
  (~ fits -> exists k, k <> (n + n - 1)%nat /\ signal_lagged comb z (content x y1) (content x y2) = Err (ENotEqual k (n + n - 1))).
Proof. intros comb x y1 y2 z n. exact (lagged_exactly comb x y1 y2 z n). Qed.
Print Assumptions C28_equal_axes.
Theorem C28_start_zero : forall comb (x : raxis) (u : list R) (v : list R) (z : bool), lagged_by comb -> (2 <= length u)%nat -> length v = length u -> a_start x = 0 ->
  exact_span (a_start x) (a_end x) (a_sample x) (length u - 1) ->
  exists y, comb (reals u) (reals v) = Ok y /\
    signal_lagged comb z (content x (reals u)) (content x (reals v)) = Ok (content (ax (- a_end x) (a_end x) (a_sample x)) y).
Proof. intros comb x u v z Hc Hu Hv Hs Hx. exact (sig_lagged_zero comb x u v z Hu Hv Hs (comb_len comb Hc) Hx). Qed.
Print Assumptions C28_start_zero.
(** the sums behind [comb] *)
Theorem C28_sums : forall (u v : list C), u <> [] -> v <> [] ->
  (exists y, np_correlate RA CV u v = Ok y /\ length y = (length u + length v - 1)%nat /\
     forall k, (k < length y)%nat -> nth k y (RtoC 0) = corr_at (V:=CV) u v (Z.of_nat k - (Z.of_nat (length v) - 1))) /\
  (exists y, np_convolve RA CV u v = Ok y /\ length y = (length u + length v - 1)%nat /\
     forall k, (k < length y)%nat -> nth k y (RtoC 0) = conv_at (V:=CV) u v (Z.of_nat k)).
Proof. intros u v Hu Hv. split; [exact (np_correlate_spec CV_laws CV_claws u v Hu Hv) | exact (np_convolve_spec CV_laws u v Hu Hv)]. Qed.
Print Assumptions C28_sums.
Theorem C28_other_start_fails : forall comb (x : raxis) (y1 : list C) (y2 : list C) (z : bool) (m : nat), lagged_by comb ->
  exact_span (a_start x) (a_end x) (a_sample x) m -> (1 <= m)%nat -> length y1 = (m + 1)%nat -> length y2 = (m + 1)%nat ->
  a_sample x / 2 <= a_start x \/ (a_start x <= - (a_sample x / 2) /\ - (a_sample x / 2) < a_end x) ->
  exists k, k <> (2 * m + 1)%nat /\ signal_lagged comb z (content x y1) (content x y2) = Err (ENotEqual k (2 * m + 1)).
Proof.
  intros comb x y1 y2 z m Hc Hx Hm L1 L2 Hs.
  assert (Hse : a_start x <= a_end x).
  { destruct Hx as [Hd He]. pose proof (Rmult_le_pos (INR m) (a_sample x) (pos_INR m)). lra. }
  destruct (lagged_exactly comb x y1 y2 z (m + 1) Hc (axis_size_exact x m Hx) L1 L2) as [_ H]; [lia|apply Hx|exact Hse|].
  replace (2 * m + 1)%nat with (m + 1 + (m + 1) - 1)%nat by lia. apply H.
  apply (lag_fits_no x m Hx). destruct Hs as [Hs|[H1 H2]]; auto.
Qed.
Print Assumptions C28_other_start_fails.
(** "every start away from 0 fails" is false: signals ending exactly one length before time 0 *)
Theorem C28_every_other_start_fails_refuted : forall comb (m : nat) (d : R) (y1 : list C) (y2 : list C) (z : bool), lagged_by comb -> (1 <= m)%nat -> 0 < d ->
  length y1 = (m + 1)%nat -> length y2 = (m + 1)%nat ->
  let x := ax (- (2 * INR m * d)) (- (INR m * d)) d in
  exists y, signal_lagged comb z (content x y1) (content x y2) = Ok (content (ax (INR m * d) (- (INR m * d)) d) y).
Proof.
  intros comb m d y1 y2 z Hc Hm Hd L1 L2 x.
  assert (Hx : exact_span (a_start x) (a_end x) (a_sample x) m) by (split; cbn; lra).
  pose proof (Rmult_le_pos (INR m) d (pos_INR m)).
  destruct (lagged_exactly comb x y1 y2 z (m + 1) Hc (axis_size_exact x m Hx) L1 L2) as [H0 _]; [lia|exact Hd|cbn; lra|].
  destruct (H0 (lagged_mirror x m Hx eq_refl)) as [y Hy]. exists y.
  unfold x in Hy at 3. cbn [a_end a_sample] in Hy. rewrite Ropp_involutive in Hy. exact Hy.
Qed.
Print Assumptions C28_every_other_start_fails_refuted.
Example C28_case : exists y, np_correlate RA CV (reals [1; 2; 4; 8]) (reals [1; 1; 0; 0]) = Ok y /\
  signal_lagged (np_correlate RA CV) false (content ex4 (reals [1; 2; 4; 8])) (content ex4 (reals [1; 1; 0; 0])) = Ok (content (ax (-3) 3 1) y).
Proof.
  destruct (C28_start_zero (np_correlate RA CV) ex4 [1; 2; 4; 8] [1; 1; 0; 0] false) as (y & H1 & H2);
    try (left; reflexivity); try reflexivity; try (cbn; lia); [exact ex4_exact|]. exists y. split; [exact H1|].
  rewrite H2. reflexivity.
Qed.
Example C28_case_fails : exists k, k <> 9%nat /\
  signal_lagged (np_convolve RA CV) true (content ex5 (reals [1; 2; 4; 8; 3])) (content ex5 (reals [1; 1; 0; 0; 1])) = Err (ENotEqual k 9).
Proof.
  apply (C28_other_start_fails (np_convolve RA CV) ex5 _ _ true 4); try (right; reflexivity); try reflexivity; [exact ex5_exact|lia|].
  right. cbn. lra.
Qed.

(** ** C30 round trip *)
Theorem C30_round_trip : forall (x : raxis) (u : list R) (z : bool), (2 <= length u)%nat -> a_start x = 0 ->
  exact_span (a_start x) (a_end x) (a_sample x) (length u - 1) ->
  exists S, get_spectrum (content x (reals u)) (DNone RA) z = Ok S /\
            get_signal S (DAxis RA x) None = Ok (content x (reals u)).
Proof. exact round_trip_zero. Qed.
Print Assumptions C30_round_trip.
(** Without an axis but with the original number of samples: the original samples come back (turned by the number of
    times before 0 when a start time is asked for), on the original spacing [d] for even lengths and on
    [n d / (n - 1)] for odd lengths.  For even lengths the number of samples need not be given. *)
Theorem C30_count : forall (x : raxis) (u : list R) (z : bool) (st : option R) (p : nat), (2 <= length u)%nat -> a_start x = 0 ->
  exact_span (a_start x) (a_end x) (a_sample x) (length u - 1) ->
  let n := length u in let s := match st with Some s => s | None => 0 end in
  let dt := if Nat.even n then a_sample x else INR n * a_sample x / INR (n - 1) in
  (p <= n)%nat -> negatives s dt n p ->
  exists S w, get_spectrum (content x (reals u)) (DNone RA) z = Ok S /\
    get_signal S (DInt RA (Z.of_nat n)) st = Ok (content (ax s (s + INR (n - 1) * dt) dt) (reals w)) /\
    rotated_left (Z.of_nat p) u w /\
    (Nat.even n = true -> get_signal S (DNone RA) st = get_signal S (DInt RA (Z.of_nat n)) st).
Proof. exact rebuilt_count. Qed.
Print Assumptions C30_count.
(** the whole signal comes back without any argument when the length is even *)
Theorem C30_no_axis : forall (x : raxis) (u : list R) (z : bool), (2 <= length u)%nat -> a_start x = 0 ->
  exact_span (a_start x) (a_end x) (a_sample x) (length u - 1) -> Nat.even (length u) = true ->
  exists S, get_spectrum (content x (reals u)) (DNone RA) z = Ok S /\ get_signal S (DNone RA) None = Ok (content x (reals u)).
Proof.
  intros x u z Hu Hs Hx He. assert (Hd : 0 < a_sample x) by apply Hx.
  destruct (C30_count x u z None 0 Hu Hs Hx) as (S & w & E1 & E2 & [Lw Rw] & E4); [lia| |].
  - apply negatives_0; [lra|]. rewrite He. exact Hd.
  - exists S. split; [exact E1|]. etransitivity; [exact (E4 He)|]. etransitivity; [exact E2|]. rewrite He.
    assert (Ew : w = u).
    { apply nth_error_ext; [exact Lw|]. intros i Hi. rewrite Rw by lia. f_equal. rewrite Z.mod_small by lia. lia. }
    rewrite Ew. destruct x as [s e d]. cbn [a_start a_end a_sample] in *. destruct Hx as [_ Hx]. do 3 f_equal. 1: lra.
    rewrite Hs in Hx. lra.
Qed.
Print Assumptions C30_no_axis.
(** and never when it is odd: one sample is lost and the spacing grows *)
Theorem C30_no_axis_odd_refuted : forall (x : raxis) (u : list R) (z : bool), (2 <= length u)%nat -> a_start x = 0 ->
  exact_span (a_start x) (a_end x) (a_sample x) (length u - 1) -> Nat.even (length u) = false ->
  let n := length u in let dt := INR n * a_sample x / INR (n - 1) in
  exists S y, get_spectrum (content x (reals u)) (DNone RA) z = Ok S /\
    get_signal S (DNone RA) None = Ok (content (ax 0 (INR (n - 2) * dt) dt) y) /\ length y = (n - 1)%nat /\ a_sample x < dt.
Proof.
  intros x u z Hu Hs Hx Ho n dt. assert (Hd : 0 < a_sample x) by apply Hx.
  assert (N1 : 0 < INR (n - 1)) by (apply lt_0_INR; unfold n; lia).
  assert (N2 : INR n = INR (n - 1) + 1) by (rewrite <- S_INR; f_equal; unfold n; lia).
  assert (Hlt : a_sample x < dt).
  { unfold dt. rewrite N2. replace ((INR (n - 1) + 1) * a_sample x / INR (n - 1)) with (a_sample x + a_sample x / INR (n - 1)) by (field; lra).
    assert (0 < a_sample x / INR (n - 1)) by (apply Rdiv_lt_0_compat; assumption). lra. }
  destruct (rebuilt_odd x u z None 0 Hu Hs Hx Ho) as (S & y & E1 & E2 & E3); [lia| |].
  - apply negatives_0; [lra|]. fold n dt. lra.
  - exists S, y. split; [exact E1|]. split; [|split; [exact E3|exact Hlt]]. etransitivity; [exact E2|]. do 3 f_equal. fold n dt. ring.
Qed.
Print Assumptions C30_no_axis_odd_refuted.
(** one sample is not enough *)
Theorem C30_one_sample : forall (x : raxis) (v : C) (z : bool), axis_size RA x = Ok 1%nat -> z = true \/ (a_start x <= 0 /\ 0 <= a_end x) ->
  get_spectrum (content x [v]) (DNone RA) z = Err EValue.
Proof. exact spectrum_single. Qed.
Print Assumptions C30_one_sample.
Example C30_case : exists S, get_spectrum (content ex4 (reals [1; 2; 4; 8])) (DNone RA) false = Ok S /\
  get_signal S (DAxis RA ex4) None = Ok (content ex4 (reals [1; 2; 4; 8])).
Proof. apply C30_round_trip; [cbn; lia|reflexivity|exact ex4_exact]. Qed.
Example C30_case_no_axis : exists S, get_spectrum (content ex4 (reals [1; 2; 4; 8])) (DNone RA) false = Ok S /\
  get_signal S (DNone RA) None = Ok (content ex4 (reals [1; 2; 4; 8])).
Proof. apply C30_no_axis; [cbn; lia|reflexivity|exact ex4_exact|reflexivity]. Qed.
Example C30_case_odd : exists S y, get_spectrum (content (ax 0 2 1) (reals [1; 2; 4])) (DNone RA) false = Ok S /\
  get_signal S (DNone RA) None = Ok (content (ax 0 (3 / 2) (3 / 2)) y) /\ length y = 2%nat.
Proof.
  destruct (C30_no_axis_odd_refuted (ax 0 2 1) [1; 2; 4] false) as (S & y & E1 & E2 & E3 & _);
    [cbn; lia|reflexivity|unfold exact_span; cbn; split; lra|reflexivity|]. exists S, y. split; [exact E1|]. split; [|exact E3].
  etransitivity; [exact E2|]. cbn [length Nat.sub INR a_sample]. do 3 f_equal; field.
Qed.
Example C30_case_single : axis_size RA (ax 0 0 1) = Ok 1%nat.
Proof. apply (axis_size_exact (ax 0 0 1) 0). split; cbn; lra. Qed.

(** ** C31 negative and late starts *)
Theorem C31_rotation : forall (x : raxis) (u : list R) (p : nat) (z : bool), (2 <= length u)%nat ->
  exact_span (a_start x) (a_end x) (a_sample x) (length u - 1) -> (p <= length u)%nat ->
  negatives (a_start x) (a_sample x) (length u) p -> z = true \/ (a_start x <= 0 /\ 0 <= a_end x) ->
  exists S w, get_spectrum (content x (reals u)) (DNone RA) z = Ok S /\
    get_signal S (DAxis RA x) None = Ok (content x (reals w)) /\ rotated_left (2 * Z.of_nat p) u w.
Proof. exact round_trip. Qed.
Print Assumptions C31_rotation.
(** the original comes back exactly when the samples have period 2p *)
Theorem C31_original_iff_periodic : forall (x : raxis) (u : list R) (p : nat) (z : bool), (2 <= length u)%nat ->
  exact_span (a_start x) (a_end x) (a_sample x) (length u - 1) -> (p <= length u)%nat ->
  negatives (a_start x) (a_sample x) (length u) p -> z = true \/ (a_start x <= 0 /\ 0 <= a_end x) ->
  (exists S, get_spectrum (content x (reals u)) (DNone RA) z = Ok S /\
     get_signal S (DAxis RA x) None = Ok (content x (reals u))) <-> rotated_left (2 * Z.of_nat p) u u.
Proof.
  intros x u p z Hu Hx Hp Hn Hz. destruct (round_trip x u p z Hu Hx Hp Hn Hz) as (S & w & H1 & H2 & H3). split.
  - intros (S' & H1' & H2'). assert (S' = S) by congruence. subst S'. rewrite H2 in H2'. injection H2' as E.
    unfold reals in E. assert (w = u); [|subst; exact H3].
    clear -E. revert u E. induction w as [|a w IH]; intros [|b u] E; try discriminate; [reflexivity|].
    cbn in E. injection E as E1 E2. f_equal; [exact E1|apply IH, E2].
  - intros H. exists S. split; [exact H1|]. rewrite H2. do 3 f_equal. exact (rotated_unique _ _ _ _ H3 H).
Qed.
Print Assumptions C31_original_iff_periodic.
Theorem C31_not_identity_refuted : exists S, get_spectrum (content ex5 (reals [1; 2; 3; 4; 5])) (DNone RA) false = Ok S /\
  get_signal S (DAxis RA ex5) None = Ok (content ex5 (reals [5; 1; 2; 3; 4])).
Proof.
  destruct (C31_rotation ex5 [1; 2; 3; 4; 5] 2 false) as (S & w & H1 & H2 & H3).
  1: cbn; lia. 1: exact ex5_exact. 1: cbn; lia. 1: exact ex5_neg. 1: right; cbn; lra.
  exists S. split; [exact H1|]. rewrite H2. do 3 f_equal. refine (rotated_unique _ _ _ _ H3 _).
  split; [reflexivity|]. intros [|[|[|[|[|i]]]]] Hi; try reflexivity. cbn in Hi. lia.
Qed.
Print Assumptions C31_not_identity_refuted.
(** A signal whose times start after 0 is transformed as if zeros came before it, back to time 0; one whose times end
    before 0 as if zeros came after it, up to time 0. *)
Theorem C31_zero_fill : forall (x : raxis) (y : list C) (d : dom RA) (N : nat), axis_size RA x = Ok (length y) -> a_start x <= a_end x ->
  (0 < a_start x -> axis_size RA (ax 0 (a_end x) (a_sample x)) = Ok N -> (length y <= N)%nat /\
     get_spectrum (content x y) d false =
     get_spectrum (content (ax 0 (a_end x) (a_sample x)) (repeat (RtoC 0) (N - length y) ++ y)) d true) /\
  (a_end x < 0 -> axis_size RA (ax (a_start x) 0 (a_sample x)) = Ok N -> (length y <= N)%nat /\
     get_spectrum (content x y) d false =
     get_spectrum (content (ax (a_start x) 0 (a_sample x)) (y ++ repeat (RtoC 0) (N - length y))) d true).
Proof.
  intros x y d N Hc Hse. split; intros H1 H2; [apply late_start|apply early_end]; assumption.
Qed.
Print Assumptions C31_zero_fill.
(** on an exact axis from k d the result is the transform of k zeros followed by the samples *)
Theorem C31_late_spectrum : forall (x : raxis) (u : list R) (k : nat), (1 <= length u)%nat -> (1 <= k)%nat ->
  exact_span (a_start x) (a_end x) (a_sample x) (length u - 1) -> a_start x = INR k * a_sample x ->
  exists S, get_spectrum (content x (reals u)) (DNone RA) false = Ok S /\ r_y S = fourier (repeat 0 k ++ u).
Proof.
  intros x u k Hu Hk Hx Hs. assert (Hd : 0 < a_sample x) by apply Hx.
  assert (Hk0 : 0 < INR k) by (apply lt_0_INR; lia). assert (Hkd : 0 < INR k * a_sample x) by (apply Rmult_lt_0_compat; lra).
  assert (Lr : length (reals u) = length u) by (unfold reals; apply map_length).
  assert (Hc : axis_size RA x = Ok (length (reals u))).
  { rewrite (axis_size_exact x _ Hx), Lr. f_equal. lia. }
  assert (Hse : a_start x <= a_end x).
  { destruct Hx as [_ Hx]. pose proof (pos_INR (length u - 1)). assert (0 <= INR (length u - 1) * a_sample x) by (apply Rmult_le_pos; lra). lra. }
  set (x0 := ax 0 (a_end x) (a_sample x)). set (u0 := repeat 0 k ++ u).
  assert (L0 : length u0 = (k + length u)%nat) by (unfold u0; rewrite app_length, repeat_length; reflexivity).
  assert (X0 : exact_span (a_start x0) (a_end x0) (a_sample x0) (length u0 - 1)).
  { unfold x0. cbn [a_start a_end a_sample]. split; [exact Hd|]. destruct Hx as [_ Hx]. rewrite L0.
    replace (k + length u - 1)%nat with (k + (length u - 1))%nat by lia. rewrite plus_INR. lra. }
  assert (N0 : axis_size RA x0 = Ok (k + length u)%nat) by (rewrite (axis_size_exact x0 _ X0); f_equal; lia).
  destruct (C31_zero_fill x (reals u) (DNone RA) (k + length u) Hc Hse) as [Z _]. destruct Z as [_ Z]; [lra|exact N0|].
  eexists. split; [etransitivity; [exact Z|]|].
  - replace (repeat (RtoC 0) (k + length u - length (reals u)) ++ reals u) with (reals u0).
    2:{ unfold u0, reals. rewrite map_app, map_repeat_val, map_length. do 2 f_equal. lia. }
    apply (spectrum_zero x0 u0 true); [lia|reflexivity|exact X0].
  - cbn [r_y]. apply fourier_dft.
Qed.
Print Assumptions C31_late_spectrum.
Example C31_case_late : exists S, get_spectrum (content (ax 2 4 1) (reals [5; 7; 9])) (DNone RA) false = Ok S /\ r_y S = fourier [0; 0; 5; 7; 9].
Proof. apply (C31_late_spectrum (ax 2 4 1) [5; 7; 9] 2); try (cbn; lia); [unfold exact_span|]; cbn; [split; lra|lra]. Qed.
(** a signal on 1, 2 comes back as a quarter and three quarters of its sum *)
Theorem C31_late_start_refuted : forall (a : R) (b : R), exists S,
  get_spectrum (content (ax 1 2 1) (reals [a; b])) (DNone RA) false = Ok S /\
  get_signal S (DAxis RA (ax 1 2 1)) None = Ok (content (ax 1 2 1) (reals [(a + b) / 4; 3 * (a + b) / 4])).
Proof. exact late_round_trip. Qed.
Print Assumptions C31_late_start_refuted.

(** ** C32 get_spectrum with a frequency argument *)
Theorem C32_axis : forall (c : crel) (z : bool) (a : raxis) (m : nat), axis_size RA (r_x c) = Ok (length (r_y c)) ->
  a_start (r_x c) <= a_end (r_x c) -> axis_size RA a = Ok m -> (2 < m)%nat ->
  get_spectrum c (DAxis RA a) z = Err (ENotEqual m (m / 2 + 1)).
Proof.
  intros c z a m Hc Hse Ha Hm. destruct (ext_size (r_x c) z _ Hc) as [N HN].
  exact (spectrum_axis c z N a m Hc Hse HN Ha Hm).
Qed.
Print Assumptions C32_axis.
(** [N]: number of points of the time axis after extending it to time 0 *)
Theorem C32_int : forall (c : crel) (z : bool) (k : Z), axis_size RA (r_x c) = Ok (length (r_y c)) -> 0 < a_sample (r_x c) ->
  a_start (r_x c) <= a_end (r_x c) -> (2 <= length (r_y c))%nat -> (1 <= k)%Z ->
  exists N, (length (r_y c) <= N)%nat /\
    axis_size RA (ax (ext_start z (a_start (r_x c))) (ext_end z (a_end (r_x c))) (a_sample (r_x c))) = Ok N /\
    ((Z.to_nat k / 2 <> N / 2)%nat -> get_spectrum c (DInt RA k) z = Err (ENotEqual (N / 2 + 1) (Z.to_nat k / 2 + 1))) /\
    ((Z.to_nat k / 2 = N / 2)%nat -> is_ok (get_spectrum c (DInt RA k) z) = true).
Proof.
  intros c z k Hc Hd Hse Hn Hk. destruct (ext_size (r_x c) z _ Hc) as [N HN]. exists N.
  pose proof (ext_size_ge (r_x c) z _ N Hse Hc HN) as Hge. split; [exact Hge|]. split; [exact HN|].
  destruct (spectrum_int c z N k Hc Hd Hse HN) as [H1 H2]; [lia|exact Hk|]. split; [exact H1|].
  intros E. destruct (H2 E) as [l ->]. reflexivity.
Qed.
Print Assumptions C32_int.
(** without an argument it always works for two or more samples *)
Theorem C32_none : forall (c : crel) (z : bool), axis_size RA (r_x c) = Ok (length (r_y c)) -> 0 < a_sample (r_x c) ->
  a_start (r_x c) <= a_end (r_x c) -> (2 <= length (r_y c))%nat -> is_ok (get_spectrum c (DNone RA) z) = true.
Proof.
  intros c z Hc Hd Hse Hn. destruct (ext_size (r_x c) z _ Hc) as [N HN].
  pose proof (ext_size_ge (r_x c) z _ N Hse Hc HN) as Hge.
  destruct (spectrum_any c z N Hc Hd Hse HN) as (l & _ & ->); [lia|reflexivity].
Qed.
Print Assumptions C32_none.
Lemma ex4_valid (u : list R) : length u = 4%nat -> axis_size RA (r_x (content ex4 (reals u))) = Ok (length (r_y (content ex4 (reals u)))).
Proof. intros H. cbn [r_x r_y]. unfold reals. rewrite map_length, H. apply (axis_size_exact ex4 3 ex4_exact). Qed.
Example C32_case : get_spectrum (content ex4 (reals [1; 2; 4; 8])) (DAxis RA ex4) false = Err (ENotEqual 4 3).
Proof.
  apply (C32_axis _ false ex4 4); [apply ex4_valid; reflexivity|cbn; lra| |lia].
  apply (axis_size_exact ex4 3 ex4_exact).
Qed.

(** ** C33 the spectrum is the discrete Fourier transform, hence linear *)
Theorem C33_fourier : forall (x : raxis) (u : list R) (z : bool), (2 <= length u)%nat -> a_start x = 0 ->
  exact_span (a_start x) (a_end x) (a_sample x) (length u - 1) ->
  let df := 1 / (INR (length u) * a_sample x) in
  get_spectrum (content x (reals u)) (DNone RA) z = Ok (content (ax 0 (INR (length u / 2) * df) df) (fourier u)).
Proof. intros x u z Hu Hs Hx df. rewrite <- fourier_dft. exact (spectrum_zero x u z Hu Hs Hx). Qed.
Print Assumptions C33_fourier.
Theorem C33_linear : forall (x : raxis) (u : list R) (v : list R) (w : list R) (a : R) (b : R) (z : bool), (2 <= length u)%nat -> length v = length u -> a_start x = 0 ->
  exact_span (a_start x) (a_end x) (a_sample x) (length u - 1) ->
  pointwise (fun p q => a * p + b * q) u v w ->
  let df := 1 / (INR (length u) * a_sample x) in
  let fx := ax 0 (INR (length u / 2) * df) df in
  exists yu yv yw,
    get_spectrum (content x (reals u)) (DNone RA) z = Ok (content fx yu) /\
    get_spectrum (content x (reals v)) (DNone RA) z = Ok (content fx yv) /\
    get_spectrum (content x (reals w)) (DNone RA) z = Ok (content fx yw) /\
    pointwise (fun p q => Cplus (Cmult (RtoC a) p) (Cmult (RtoC b) q)) yu yv yw.
Proof. exact spectrum_linear. Qed.
Print Assumptions C33_linear.
Example C33_case : pointwise (fun p q => 2 * p + 3 * q) [1; 2; 4; 8] [1; 1; 0; 0] [5; 7; 8; 16].
Proof.
  split; [reflexivity|]. intros [|[|[|[|i]]]] p q; cbn; intros [= <-] [= <-] || (destruct i; discriminate); f_equal; lra.
Qed.

(** ** C35 shift *)
Theorem C35_shift : forall (x : raxis) (u : list R) (z : bool) (m : Z), (2 <= length u)%nat -> a_start x = 0 ->
  exact_span (a_start x) (a_end x) (a_sample x) (length u - 1) ->
  exists w, signal_shift (IZR m * a_sample x) z (content x (reals u)) = Ok (content x (reals w)) /\ rotated_left (- m) u w.
Proof.
  intros x u z m Hu Hs Hx. destruct (shift_exact x u 0 z m Hu Hx) as (w & H1 & H2); [lia|apply negatives_0; [lra|apply Hx]| |].
  - right. split; [lra|]. destruct Hx as [Hd He]. pose proof (Rmult_le_pos (INR (length u - 1)) (a_sample x) (pos_INR _)). lra.
  - exists w. split; [exact H1|]. exact H2.
Qed.
Print Assumptions C35_shift.
Theorem C35_shift_zero : forall (x : raxis) (u : list R) (z : bool), (2 <= length u)%nat -> a_start x = 0 ->
  exact_span (a_start x) (a_end x) (a_sample x) (length u - 1) ->
  signal_shift 0 z (content x (reals u)) = Ok (content x (reals u)).
Proof.
  intros x u z Hu Hs Hx. destruct (C35_shift x u z 0 Hu Hs Hx) as (w & H1 & H2).
  rewrite Rmult_0_l in H1. rewrite H1. do 3 f_equal. refine (rotated_unique _ _ _ _ H2 _).
  split; [reflexivity|]. intros i Hi. rewrite Z.add_0_r, Z.mod_small by lia. rewrite Nat2Z.id. reflexivity.
Qed.
Print Assumptions C35_shift_zero.
(** with [p] negative points the rotation of C31 comes on top *)
Theorem C35_shift_negative_start : forall (x : raxis) (u : list R) (p : nat) (z : bool) (m : Z), (2 <= length u)%nat ->
  exact_span (a_start x) (a_end x) (a_sample x) (length u - 1) -> (p <= length u)%nat ->
  negatives (a_start x) (a_sample x) (length u) p -> z = true \/ (a_start x <= 0 /\ 0 <= a_end x) ->
  exists w, signal_shift (IZR m * a_sample x) z (content x (reals u)) = Ok (content x (reals w)) /\
            rotated_left (2 * Z.of_nat p - m) u w.
Proof. exact shift_exact. Qed.
Print Assumptions C35_shift_negative_start.
(** any shift keeps the axis *)
Theorem C35_axis_kept : forall (c : crel) (z : bool) (s : R), axis_size RA (r_x c) = Ok (length (r_y c)) -> 0 < a_sample (r_x c) ->
  a_start (r_x c) <= a_end (r_x c) -> (2 <= length (r_y c))%nat ->
  exists y, length y = length (r_y c) /\ signal_shift s z c = Ok (content (r_x c) y).
Proof.
  intros c z s Hc Hd Hse Hn. destruct (ext_size (r_x c) z _ Hc) as [N HN].
  pose proof (ext_size_ge (r_x c) z _ N Hse Hc HN) as Hge. apply (shift_any c z N s Hc Hd Hse HN). lia.
Qed.
Print Assumptions C35_axis_kept.
Example C35_case : signal_shift 1 false (content ex4 (reals [1; 2; 4; 8])) = Ok (content ex4 (reals [8; 1; 2; 4])).
Proof.
  destruct (C35_shift ex4 [1; 2; 4; 8] false 1) as (w & H1 & H2); [cbn; lia|reflexivity|exact ex4_exact|].
  replace (1 * a_sample ex4) with 1 in H1 by (cbn; lra). rewrite H1. do 3 f_equal. refine (rotated_unique _ _ _ _ H2 _).
  split; [reflexivity|]. intros [|[|[|[|i]]]] Hi; try reflexivity. cbn in Hi. lia.
Qed.

(** ** C36 amplitude and phase *)
Theorem C36_rebuild : forall (x : raxis) (y : list C), axis_size RA x = Ok (length y) ->
  (do am <- val_amp RA CV CF (content x y); do ph <- val_phase RA CV CF (content x y);
   val_from_amp_phase RA CV CF fourier_config am ph) = Ok (content x y).
Proof. exact amp_phase_rebuild. Qed.
Print Assumptions C36_rebuild.
Theorem C36_amplitude : forall (x : raxis) (y : list C), axis_size RA x = Ok (length y) ->
  val_amp RA CV CF (content x y) = Ok (content x (map (fun z => RtoC (Cmod z)) y)).
Proof. intros x y H. exact (amp_eq x y (length y) H eq_refl). Qed.
Print Assumptions C36_amplitude.
Example C36_case : axis_size RA ex4 = Ok (length ([(1, 2); (0, 0); (-3, 0); (0, -1)] : list C)).
Proof. apply (axis_size_exact ex4 3 ex4_exact). Qed.

(** ** C37 unwrapped phase *)
Theorem C37_phase : forall (x : raxis) (y : list C), axis_size RA x = Ok (length y) ->
  exists ph, val_phase RA CV CF (content x y) = Ok (content x (reals ph)) /\ length ph = length y /\
    (forall i z q, nth_error y i = Some z -> nth_error ph i = Some q -> cis q = phasor z) /\
    (forall i z q, nth_error y i = Some z -> nth_error ph i = Some q -> exists k : Z, q = Carg z + 2 * PI * IZR k) /\
    (forall i p q, nth_error ph i = Some p -> nth_error ph (S i) = Some q -> Rabs (q - p) <= PI) /\
    nth_error ph 0 = option_map Carg (nth_error y 0).
Proof.
  intros x y H. exists (phases y). split; [exact (phase_eq x y (length y) H eq_refl)|].
  destruct (unwrap_spec (map Carg y)) as (H1 & H2 & H3 & H4). unfold phases. rewrite map_length in H1.
  assert (K : forall i z q, nth_error y i = Some z -> nth_error (unwrap (map Carg y)) i = Some q -> exists k : Z, q = Carg z + 2 * PI * IZR k).
  { intros i z q Hz Hq. apply (H2 i); [rewrite nth_error_map, Hz; reflexivity|exact Hq]. }
  split; [exact H1|]. split; [|split; [exact K|split; [exact H3|rewrite H4; apply nth_error_map]]].
  intros i z q Hz Hq. destruct (K i z q Hz Hq) as [k ->]. rewrite cis_turn. apply arg_phasor.
Qed.
Print Assumptions C37_phase.
(** the principal angle *)
Theorem C37_angle : forall (z : C), - PI <= Carg z <= PI /\ Cmult (RtoC (Cmod z)) (cis (Carg z)) = z.
Proof. intros z. split; [apply arg_range|]. rewrite arg_phasor. apply mod_phasor. Qed.
Print Assumptions C37_angle.

(** ** C38 phase of another spectrum *)
Theorem C38_add_sub : forall (x : raxis) (y : list C) (w : list C), axis_size RA x = Ok (length y) -> length w = length y ->
  exists a b,
    val_spec_phase RA CV CF fourier_config ADD (content x y) (content x w) = Ok (content x a) /\
    val_spec_phase RA CV CF fourier_config SUB (content x y) (content x w) = Ok (content x b) /\
    pointwise (fun z t => Cmult z (phasor t)) y w a /\
    pointwise (fun z t => Cmult z (Cconj (phasor t))) y w b /\
    val_spec_phase RA CV CF fourier_config SUB (content x a) (content x w) = Ok (content x y) /\
    map Cmod a = map Cmod y /\ map Cmod b = map Cmod y.
Proof.
  intros x y w Hx Hw. exists (map2 (turn ADD) y w), (map2 (turn SUB) y w).
  pose proof (pointwise_map2 (turn ADD) y w (eq_sym Hw)) as PA. pose proof (pointwise_map2 (turn SUB) y w (eq_sym Hw)) as PS.
  split; [apply (spec_phase_eq ADD x y w (length y)); auto|].
  split; [apply (spec_phase_eq SUB x y w (length y)); auto|].
  split; [exact PA|]. split; [exact PS|].
  assert (KM : forall o, map Cmod (map2 (turn o) y w) = map Cmod y).
  { intros o. clear -Hw. revert w Hw. induction y as [|z y IH]; intros [|t w] Hw; try discriminate; [reflexivity|].
    cbn. f_equal; [apply turn_mod|apply IH; cbn in Hw; lia]. }
  split; [|split; apply KM].
  rewrite (spec_phase_eq SUB x _ w (length y)); auto; [|exact (proj1 PA)]. do 2 f_equal.
  clear -Hw. revert w Hw. induction y as [|z y IH]; intros [|t w] Hw; try discriminate; [reflexivity|].
  cbn. f_equal; [apply turn_back|apply IH; cbn in Hw; lia].
Qed.
Print Assumptions C38_add_sub.
Example C38_case : Cmult (3, 4) (phasor (0, 2)) = (-4, 3).
Proof.
  assert (E : Cmod (0, 2) = 2) by (unfold Cmod; cbn [fst snd]; replace (0 ^ 2 + 2 ^ 2) with (2 * 2) by ring; apply sqrt_square; lra).
  unfold phasor. rewrite E. destruct (Req_EM_T 2 0) as [H|_]; [lra|]. unfold Cdiv, Cmult, Cinv, RtoC. cbn. f_equal; field.
Qed.

(** ** C39 reverse filter *)
Theorem C39_whitens : forall (x : raxis) (y : list C) (percent : R), axis_size RA x = Ok (length y) -> (2 <= length y)%nat -> a_start x <= a_end x ->
  0 < percent -> (exists z, In z y /\ z <> RtoC 0) ->
  exists M f, (forall z, In z y -> Cmod z <= M) /\ (exists z, In z y /\ Cmod z = M) /\
    val_reverse_filter RA CV CF fourier_config percent true None None (content x y) = Ok (content x f) /\
    length f = length y /\
    forall i z q, nth_error y i = Some z -> nth_error f i = Some q ->
      let g := Cmod z / (Cmod z + M * percent / 100) in Cmult z q = RtoC g /\ 0 <= g < 1.
Proof.
  intros x y pc Hx Hn Hse Hpc (z0 & Hz0 & Nz0).
  destruct (reverse_filter_eq (content x y) x y pc true None None (select_all x y Hx Hn Hse) Hx) as (M & HM & Ha & ->).
  exists M, (map (filt true M pc) y). split; [exact HM|]. split; [exact Ha|]. split; [reflexivity|].
  split; [apply map_length|]. intros i z q Hz Hq. rewrite nth_error_map, Hz in Hq. cbn in Hq. injection Hq as <-.
  assert (HM0 : 0 < M).
  { pose proof (HM z0 Hz0). assert (0 < Cmod z0) by (apply Cmod_gt_0; exact Nz0). lra. }
  pose proof (Cmod_ge_0 z) as Hm. assert (0 < M * pc / 100) by (apply Rdiv_lt_0_compat; [apply Rmult_lt_0_compat; lra|lra]).
  cbn zeta. split; [apply filt_whiten; lra|]. split.
  - apply Rmult_le_pos; [lra|]. left. apply Rinv_0_lt_compat. lra.
  - apply Rmult_lt_reg_r with (Cmod z + M * pc / 100); [lra|]. unfold Rdiv at 1. rewrite Rmult_assoc, Rinv_l; lra.
Qed.
Print Assumptions C39_whitens.
Theorem C39_keeps_phase : forall (x : raxis) (y : list C) (percent : R), axis_size RA x = Ok (length y) -> (2 <= length y)%nat -> a_start x <= a_end x ->
  0 < percent -> (exists z, In z y /\ z <> RtoC 0) ->
  exists M f, (forall z, In z y -> Cmod z <= M) /\ (exists z, In z y /\ Cmod z = M) /\
    val_reverse_filter RA CV CF fourier_config percent false None None (content x y) = Ok (content x f) /\
    length f = length y /\
    forall i z q, nth_error y i = Some z -> nth_error f i = Some q ->
      q = Cmult (RtoC (/ (Cmod z + M * percent / 100))) (phasor z).
Proof.
  intros x y pc Hx Hn Hse Hpc (z0 & Hz0 & Nz0).
  destruct (reverse_filter_eq (content x y) x y pc false None None (select_all x y Hx Hn Hse) Hx) as (M & HM & Ha & ->).
  exists M, (map (filt false M pc) y). split; [exact HM|]. split; [exact Ha|]. split; [reflexivity|].
  split; [apply map_length|]. intros i z q Hz Hq. rewrite nth_error_map, Hz in Hq. cbn in Hq. injection Hq as <-.
  assert (HM0 : 0 < M).
  { pose proof (HM z0 Hz0). assert (0 < Cmod z0) by (apply Cmod_gt_0; exact Nz0). lra. }
  pose proof (Cmod_ge_0 z) as Hm. assert (0 < M * pc / 100) by (apply Rdiv_lt_0_compat; [apply Rmult_lt_0_compat; lra|lra]).
  apply filt_keep; lra.
Qed.
Print Assumptions C39_keeps_phase.
Example C39_case : exists z, In z (reals [0; 2; 0; 0]) /\ z <> RtoC 0.
Proof. exists (RtoC 2). split; [right; left; reflexivity|]. intros H. injection H. lra. Qed.
