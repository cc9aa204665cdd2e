(** Property theorems for prepared_sweeps/* and utility_functions/*: C50-C60.

    Random choices, the decomposition into intrinsic mode functions and scipy's table of feedback taps are
    quantified over.  Exact arithmetic throughout. *)
From Coq Require Import Reals ZArith List Bool Lia Lra QArith Permutation.
From Coquelicot Require Import Complex.
From Verif Require Import Num Numpy AxisModel RelModel HeapModel Spec RLemmas AxisLemmas InterpLemmas VInst RelLemmas RelLemmas2 RelLemmas3
  FourierSpec FourierModel DftLemmas FourierLemmas FourierLemmas2 SpectrumLemmas SpectrumLemmas2 FourierLemmas3 SweepModel PreparedModel PreparedSpec PreparedLemmas LogLemmas PreparedLemmas2 PreparedLemmas3
  PreparedLemmas4 PreparedLemmas5 PreparedLemmas6 PreparedLemmas7.
Import ListNotations.
Local Open Scope R_scope.

(** ** C50 linear frequency law *)
Theorem C50_array : forall (time : list R) (f0 f1 t0 t1 : R),
  nth_error time 0 = Some t0 -> nth_error time (length time - 1) = Some t1 -> t1 <> t0 ->
  f_t_linear_array RA time f0 f1 =
  Ok (map (fun t => f0 + t0 * (f1 - f0) / (t1 - t0) + (t - t0) * (f1 - f0) / (t1 - t0)) time).
Proof.
  intros time f0 f1 t0 t1 H0 H1 Hne.
  assert (E : last time t0 = t1).
  { assert (time <> []) as Hn by (destruct time; discriminate). pose proof (last_nth_error time t0 Hn). congruence. }
  rewrite (linear_array_eq time f0 f1 t0 H0), E. f_equal. apply map_ext. intros t. apply linear_value. exact Hne.
Qed.
Print Assumptions C50_array.
Theorem C50_function : forall t0 t1 f0 f1 t : R, t1 <> t0 ->
  f_t_linear_function RA t0 t1 f0 f1 t = f0 + t0 * (f1 - f0) / (t1 - t0) + (t - t0) * (f1 - f0) / (t1 - t0).
Proof. exact linear_value. Qed.
Print Assumptions C50_function.
(** the law meets the wanted frequencies only when the time starts at 0 (or the law is constant) *)
Theorem C50_ends : forall t0 t1 f0 f1 : R, t1 <> t0 ->
  let c := t0 * (f1 - f0) / (t1 - t0) in
  f_t_linear_function RA t0 t1 f0 f1 t0 = f0 + c /\ f_t_linear_function RA t0 t1 f0 f1 t1 = f1 + c /\
  (c = 0 <-> t0 = 0 \/ f0 = f1).
Proof. exact linear_ends. Qed.
Print Assumptions C50_ends.
(** asked for 10 to 20 Hz on 1 to 2 s, the law runs from 20 to 30 Hz *)
Theorem C50_wanted_ends_refuted : f_t_linear_array QA [1; 2]%Q 10%Q 20%Q = Ok [20; 30]%Q.
Proof. vm_compute. reflexivity. Qed.
Print Assumptions C50_wanted_ends_refuted.
Example C50_case : f_t_linear_array QA [0; 1; 2]%Q 10%Q 20%Q = Ok [10; 15; 20]%Q.
Proof. vm_compute. reflexivity. Qed.

(** ** C51 Tukey envelope *)
Theorem C51_bounds : forall (time : list R) (taper : option R) (loc : location), (taper <> None -> time <> []) ->
  exists w, tukey_a_t time taper loc = Ok w /\ length w = length time /\ unit_list w.
Proof. exact tukey_a_t_bounds. Qed.
Print Assumptions C51_bounds.
Theorem C51_none : forall time loc, tukey_a_t time None loc = Ok (repeat 1 (length time)).
Proof. exact tukey_a_t_none. Qed.
Print Assumptions C51_none.
(** 'left' is 'both' on the first half and 1 on the second; 'right' is its mirror image *)
Theorem C51_left_right : forall time tp w, tukey_a_t time (Some tp) LocLeft = Ok w ->
  tukey_a_t time (Some tp) LocRight = Ok (rev w) /\
  (forall i, (length time / 2 <= i < length time)%nat -> nth_error w i = Some 1) /\
  exists b, tukey_a_t time (Some tp) LocBoth = Ok b /\ forall i, (i < length time / 2)%nat -> nth_error w i = nth_error b i.
Proof. exact tukey_a_t_left. Qed.
Print Assumptions C51_left_right.
(** the tapered ends are 0 as soon as one time is not after the taper; otherwise there is no taper at all *)
Theorem C51_ends : forall time tp loc w, (2 <= length time)%nat -> tukey_a_t time (Some tp) loc = Ok w ->
  ((exists t, In t time /\ t <= tp) ->
   (loc = LocLeft \/ loc = LocBoth -> nth_error w 0 = Some 0) /\
   (loc = LocRight \/ loc = LocBoth -> nth_error w (length time - 1) = Some 0)) /\
  ((forall t, In t time -> tp < t) -> w = repeat 1 (length time)).
Proof. exact tukey_a_t_ends. Qed.
Print Assumptions C51_ends.
(** the taper is compared with the times themselves, not with their distance from the first one: on a time axis
    starting after the taper nothing is tapered *)
Example C51_case : tukey_a_t [5; 6; 7; 8] (Some 2) LocBoth = Ok [1; 1; 1; 1].
Proof.
  destruct (C51_bounds [5; 6; 7; 8] (Some 2) LocBoth) as (w & E & _); [discriminate|]. rewrite E.
  destruct (C51_ends [5; 6; 7; 8] 2 LocBoth w) as [_ H]; [cbn; lia | exact E|]. rewrite H; [reflexivity|].
  intros t [<-|[<-|[<-|[<-|[]]]]]; lra.
Qed.

(** ** C52 soft clip *)
Theorem C52_rows : forall limit percent c rows, rows <> [] ->
  soft_clip limit percent c rows = Ok (map (clip_row limit percent c) rows) /\
  forall d F, Rabs d <= limit * percent -> clip_row limit percent c (d, F) = (d, F).
Proof.
  intros limit percent c rows H. split; [destruct rows; [congruence | reflexivity]|].
  intros d F Hd. unfold clip_row. cbn [fst snd]. replace (Rleb (Rabs d) (limit * percent)) with true by (symmetry; apply Rleb_true; exact Hd). reflexivity.
Qed.
Print Assumptions C52_rows.
(** and it fails only for no rows at all *)
Theorem C52_no_rows : forall limit percent c rows e, soft_clip limit percent c rows = Err e <-> rows = [] /\ e = EValue.
Proof.
  intros limit percent c rows e. destruct rows as [|r rows]; cbn; split.
  - intros H. injection H as <-. split; reflexivity.
  - intros [_ ->]. reflexivity.
  - discriminate.
  - intros [H _]. discriminate.
Qed.
Print Assumptions C52_no_rows.
(** with coefficient 1 the force is multiplied by a positive factor that brings the displacement below the limit;
    the factor is above 1 between limit*percent and limit and below 1 beyond the limit *)
Theorem C52_factor : forall limit percent : R, 0 < limit -> 0 <= percent <= 1 -> forall d F : R,
  exists k, clip_row limit percent 1 (d, F) = (d, k * F) /\ 0 < k /\ k * Rabs d <= limit /\
    k * Rabs d = clipped limit percent (Rabs d) /\
    (Rabs d <= limit * percent -> k = 1) /\ (limit * percent < Rabs d < limit -> 1 < k) /\ (limit < Rabs d -> k < 1).
Proof.
  intros limit percent H1 H2 d F. destruct (clip_factor limit percent H1 H2 d F) as (k & E & K1 & K2 & K3).
  rewrite Rmax_left in K2 by lra. exists k. tauto.
Qed.
Print Assumptions C52_factor.
(** the compressed amplitude never decreases and is Lipschitz continuous *)
Theorem C52_monotone_continuous : forall limit percent : R, 0 < limit -> 0 <= percent <= 1 -> forall a b : R, 0 <= a <= b ->
  0 <= clipped limit percent b - clipped limit percent a <= PI / 2 * (b - a).
Proof. exact g_diff. Qed.
Print Assumptions C52_monotone_continuous.
(** "clipping never increases the force" is false: displacement 3/4 with limit 1 and percent 1/2 *)
Theorem C52_never_increases_refuted : exists k, clip_row 1 (1 / 2) 1 (3 / 4, 1) = (3 / 4, k) /\ 1 < k.
Proof.
  destruct (C52_factor 1 (1 / 2) ltac:(lra) ltac:(lra) (3 / 4) 1) as (k & E & _ & _ & _ & _ & H & _).
  exists (k * 1). split; [exact E|]. rewrite Rmult_1_r. apply H. rewrite Rabs_right by lra. lra.
Qed.
Print Assumptions C52_never_increases_refuted.
Example C52_case : clip_row 1 (1 / 2) 1 (4, 8) = (4, 2).
Proof.
  rewrite clip_row_eq by lra. unfold clipped. rewrite (Rabs_right 4) by lra.
  replace (Rleb 4 (1 * (1 / 2))) with false by (symmetry; apply Rleb_false; lra).
  replace (Rleb 1 4) with true by (symmetry; apply Rleb_true; lra). rewrite Rpow_py_1. f_equal. lra.
Qed.

(** ** C53 shuffled frequency law *)
Theorem C53_short_segment : forall shuffle (t : raxis) f_start f_end segment digits, segment <= a_sample t ->
  shuffle_law shuffle t f_start f_end segment digits = Err ESegment.
Proof. exact law_short. Qed.
Print Assumptions C53_short_segment.
(** exact description: raised cosines between consecutive frequencies of a permutation of the (rounded) grid *)
Theorem C53_law : forall shuffle (t : raxis) f_start f_end segment digits,
  (forall l, Permutation (shuffle l) l) -> 0 < a_sample t -> a_sample t < segment ->
  forall (n : Z) (per : nat),
  IZR n - 1 < a_end t / segment <= IZR n -> INR per - 1 < segment / a_sample t <= INR per -> (-1 <= n)%Z ->
  exists fs law,
    Permutation fs (map (fun f => match digits with Some k => if Z.eqb k 0 then f else round_digits k f | None => f end)
                        (grid f_start f_end (Z.to_nat (n + 1)))) /\
    shuffle_law shuffle t f_start f_end segment digits = Ok law /\
    length law = (Z.to_nat n * per - 2)%nat /\
    forall k j, (k * per + j < length law)%nat -> (j < per)%nat ->
      nth (k * per + j) law 0 = nth k fs 0 + (nth (S k) fs 0 - nth k fs 0) * ((1 - cos (PI * INR (S j) / INR per)) / 2).
Proof.
  intros shuffle t f_start f_end segment digits Hp Hd Hs n per Hn Hper Hn1.
  assert (En : n_segments t segment = n) by (apply Rceil_unique; lra).
  assert (Ep : per_segment t segment = per).
  { unfold per_segment. rewrite (Rceil_unique _ (Z.of_nat per)); [apply Nat2Z.id|]. rewrite <- INR_IZR_INZ. lra. }
  destruct (law_full shuffle t f_start f_end segment Hp Hd Hs digits) as (fs & law & P & E & L & H); [rewrite En; exact Hn1|].
  rewrite En, Ep in *. exists fs, law. split; [|split; [exact E|split; [exact L|exact H]]].
  unfold rounded in P. rewrite En in P. destruct digits as [k|]; [destruct (Z.eqb k 0)|]; rewrite ?map_id; exact P.
Qed.
Print Assumptions C53_law.
Theorem C53_in_band : forall shuffle (t : raxis) f_start f_end segment digits law,
  (forall l, Permutation (shuffle l) l) -> 0 < a_sample t ->
  shuffle_law shuffle t f_start f_end segment digits = Ok law ->
  (digits = None \/ digits = Some 0%Z -> forall x, In x law -> between f_start f_end x) /\
  (forall k, digits = Some k -> forall x, In x law ->
     Rmin f_start f_end - / 2 / powerRZ 10 k <= x <= Rmax f_start f_end + / 2 / powerRZ 10 k).
Proof.
  intros shuffle t f_start f_end segment digits law Hp Hd E.
  assert (Hs : a_sample t < segment).
  { destruct (Rle_lt_dec segment (a_sample t)) as [H|H]; [rewrite law_short in E by exact H; discriminate | exact H]. }
  split.
  - intros Hn. apply (law_bounds shuffle t f_start f_end segment Hp Hd Hs digits law (Rmin f_start f_end) (Rmax f_start f_end)); [|exact E].
    intros x Hx. exact (rounded_none _ _ _ _ _ x Hn Hx).
  - intros k ->. apply (law_bounds shuffle t f_start f_end segment Hp Hd Hs (Some k) law (Rmin f_start f_end - / 2 / powerRZ 10 k) (Rmax f_start f_end + / 2 / powerRZ 10 k)); [|exact E].
    intros x Hx. exact (rounded_some _ _ _ _ k x Hx).
Qed.
Print Assumptions C53_in_band.

(** rounding can leave the band: a constant law of 1.06 Hz rounded to one digit is 1.1 Hz everywhere *)
Theorem C53_rounding_refuted : exists law,
  shuffle_law (fun l => l) (mkAxis (A:=RA) 0 4 1) (53 / 50) (53 / 50) 2 (Some 1%Z) = Ok law /\ length law = 2%nat /\
  forall x, In x law -> x = 11 / 10 /\ ~ between (53 / 50) (53 / 50) x.
Proof.
  destruct (C53_law (fun l => l) (mkAxis (A:=RA) 0 4 1) (53 / 50) (53 / 50) 2 (Some 1%Z) (fun l => Permutation_refl l)
    ltac:(cbn; lra) ltac:(cbn; lra) 2 2) as (fs & law & _ & E & L & _); [cbn; lra | cbn; lra | lia|].
  exists law. split; [exact E|]. split; [exact L|].
  assert (Hr : forall x, In x (rounded (mkAxis (A:=RA) 0 4 1) (53 / 50) (53 / 50) 2 (Some 1%Z)) -> 11 / 10 <= x <= 11 / 10).
  { unfold rounded. intros x Hx. cbn [Z.eqb] in Hx. apply in_map_iff in Hx. destruct Hx as (f & <- & Hf).
    apply grid_between in Hf. unfold between in Hf. rewrite Rmin_left, Rmax_left in Hf by lra. replace f with (53 / 50) by lra.
    unfold round_digits. replace (powerRZ 10 1) with 10 by (symmetry; apply (powerRZ_1 10)). 
    rewrite (Rround_near _ 11) by (rewrite Rabs_left; lra). lra. }
  intros x Hx. pose proof (law_bounds (fun l => l) (mkAxis (A:=RA) 0 4 1) (53 / 50) (53 / 50) 2 (fun l => Permutation_refl l) ltac:(cbn; lra) ltac:(cbn; lra) _ _ _ _ Hr E x Hx) as H.
  split; [lra|]. unfold between. rewrite Rmin_left, Rmax_left by lra. lra.
Qed.
Print Assumptions C53_rounding_refuted.
(** 2 segments of 2 samples, frequencies 1, 3, 5 taken in the order 5, 1, 3 *)
Example C53_case : exists law, shuffle_law (fun l => match l with [a; b; c] => [c; a; b] | _ => l end) (mkAxis (A:=RA) 0 4 1) 1 5 2 None = Ok law /\
  law = [3; 1].
Proof.
  destruct (C53_law (fun l => match l with [a; b; c] => [c; a; b] | _ => l end) (mkAxis (A:=RA) 0 4 1) 1 5 2 None) with (n := 2%Z) (per := 2%nat)
    as (fs & law & P & E & L & H); [|cbn; lra|cbn; lra|cbn; lra|cbn; lra|lia|].
  { intros [|a [|b [|c [|d l]]]]; try apply Permutation_refl. apply Permutation_sym. exact (Permutation_cons_append [a; b] c) || (etransitivity; [apply perm_skip, perm_swap|apply perm_swap]). }
  exists law. split; [exact E|]. revert E. unfold shuffle_law.
  replace (Rleb 2 (a_sample (mkAxis (A:=RA) 0 4 1))) with false by (symmetry; apply Rleb_false; cbn; lra).
  rewrite (Rceil_unique (a_end (mkAxis (A:=RA) 0 4 1) / 2) 2) by (cbn; lra).
  rewrite (Rceil_unique (2 / a_sample (mkAxis (A:=RA) 0 4 1)) 2) by (cbn; lra). rewrite !linspace_R.
  unfold grid, grid_pt. cbn. intros [= <-].
  replace ((0 + 1 * ((2 - 0) / (1 + 1))) * PI / 2 - PI) with (- (PI / 2)) by field.
  replace ((0 + (1 + 1) * ((2 - 0) / (1 + 1))) * PI / 2 - PI) with 0 by field.
  rewrite cos_neg, cos_PI2, cos_0. repeat (f_equal; try lra).
Qed.

(** ** C54 length of m-sequence codes.  [clog] is what math.ceil(math.log(m, 2)) gives; at a power of two the
    rounded logarithm may lie above the exact one ([rounded_log], PreparedSpec.v). *)
Theorem C54_length : forall clog taps rnd (L : Z), rounded_log clog ->
  (4 <= L <= 2 ^ 32 + 1)%Z -> (L - 1 = 2 ^ 32 -> clog (L - 1) = 32)%Z ->
  exists c, get_m_sequence_code clog taps rnd L false = Ok c /\
    (~ power_of_two (L - 1) -> Z.of_nat (length c) = (L - 1)%Z) /\
    (forall k, (0 <= k)%Z -> (L - 1 = 2 ^ k)%Z ->
       (clog (L - 1) = k /\ Z.of_nat (length c) = L - 2)%Z \/ (clog (L - 1) = k + 1 /\ Z.of_nat (length c) = L - 1)%Z).
Proof. exact code_length. Qed.
Print Assumptions C54_length.
(** the full sequence has one element less than a power of two that is at least L-1 and is continued by no
    other call: the short code is its beginning *)
Theorem C54_full : forall clog taps rnd (L : Z), rounded_log clog ->
  (4 <= L <= 2 ^ 32 + 1)%Z -> (L - 1 = 2 ^ 32 -> clog (L - 1) = 32)%Z ->
  exists m, let k := clog (L - 1)%Z in
    get_m_sequence_code clog taps rnd L true = Ok m /\ Z.of_nat (length m) = (2 ^ k - 1)%Z /\ (2 ^ (k - 1) <= L - 1 <= 2 ^ k)%Z /\
    get_m_sequence_code clog taps rnd L false = Ok (firstn (Z.to_nat (L - 1)) m).
Proof.
  intros clog taps rnd L R HL H32. destruct (code_full clog taps rnd L R HL H32) as (m & E & Hl & E2). exists m. cbv zeta.
  destruct (bits_spec clog (L - 1) R ltac:(lia) H32) as (_ & Hc & Hs). rewrite <- Hc.
  split; [exact E|]. split; [|split; [exact Hs | exact E2]].
  rewrite Hl. rewrite Nat2Z.inj_sub by apply pow2_pos. rewrite pow2_Z. reflexivity.
Qed.
Print Assumptions C54_full.
(** IndexError for L = 2; ValueError for all other lengths out of range *)
Theorem C54_raises : forall clog taps rnd (L : Z) full, rounded_log clog ->
  (L < 4 \/ 2 ^ 32 + 1 < L \/ (L - 1 = 2 ^ 32 /\ clog (L - 1) <> 32))%Z ->
  exists e, get_m_sequence_code clog taps rnd L full = Err e /\ (e = EIndex <-> L = 2%Z) /\ (e = EValue <-> L <> 2%Z).
Proof. exact code_raises. Qed.
Print Assumptions C54_raises.
(** what the rounded logarithm gives, rounded up: the exact result, except that a power of two can give one more *)
Theorem C54_logarithm : forall clog (m : Z), rounded_log clog -> (1 <= m <= 2 ^ 33)%Z ->
  clog m = Z.log2_up m \/ (exists k, (0 <= k)%Z /\ m = 2 ^ k /\ clog m = k + 1)%Z.
Proof.
  intros clog m R Hm. destruct (Z.eq_dec m 1) as [->|H1]; [left; exact (clog_one clog R)|].
  pose proof (Z.log2_up_spec m ltac:(lia)) as Hs. rewrite <- Z.sub_1_r in Hs. pose proof (Z.log2_up_pos m ltac:(lia)).
  pose proof (Z.log2_up_le_mono m (2 ^ 33) ltac:(lia)) as Hu. rewrite Z.log2_up_pow2 in Hu by lia.
  destruct (clog_between clog m (Z.log2_up m) R ltac:(lia) Hs) as [E|[E1 E2]]; [left; exact E|right].
  exists (Z.log2_up m). split; [lia|]. split; assumption.
Qed.
Print Assumptions C54_logarithm.
(** the exact logarithm is such a [clog], and so is one that is rounded up at 2^29 *)
Example C54_case_log : rounded_log Z.log2_up /\ rounded_log (fun m => if (m =? 2 ^ 29)%Z then 30%Z else Z.log2_up m).
Proof. split; [exact exact_log|]. apply (rounded_up_at 29). lia. Qed.
(** scipy's taps for three bits *)
Example C54_case : get_m_sequence_code Z.log2_up (fun _ => [2]%nat) (fun _ => true) 8 false = Ok [true; true; true; false; true; false; false] /\
  get_m_sequence_code Z.log2_up (fun _ => [2]%nat) (fun _ => true) 9 false = Ok [true; true; true; false; true; false; false].
Proof. split; vm_compute; reflexivity. Qed.

(** ** C55 m-sequences on a time axis *)
Theorem C55_size : forall (A : Arith) (V : Vals A) cfg clog taps rnd (t : axis A) n, rounded_log clog -> axis_size A t = Ok n ->
  (4 <= n)%nat -> (Z.of_nat n <= 2 ^ 32 + 1)%Z -> (Z.of_nat n - 1 = 2 ^ 32 -> clog (Z.of_nat n - 1) = 32)%Z ->
  let short := exists k, n = (2 ^ k)%nat \/ (n = (2 ^ k + 1)%nat /\ clog (Z.of_nat n - 1)%Z = Z.of_nat k) in
  (short <-> exists m, get_relation_m_sequence A V cfg clog taps rnd (inl t) None false = Err (ENotEqual n m)) /\
  (~ short <->
     exists r, get_relation_m_sequence A V cfg clog taps rnd (inl t) None false = Ok r /\ r_x r = t /\ length (r_y r) = n).
Proof.
  intros A V cfg clog taps rnd t n R Hn H4 Hb H32 short.
  pose proof (bits_spec clog (Z.of_nat n - 1) R ltac:(lia) H32) as [Hk _].
  destruct (relation_code_size A V cfg clog taps rnd t n None _ Hn ltac:(lia) eq_refl) as [S1 S2]; [rewrite random_len; exact Hk|].
  rewrite random_len in S1, S2. unfold short. rewrite <- (bits_between clog n R H4 Hb H32).
  destruct (Nat.le_gt_cases (2 ^ bits clog (Z.of_nat n - 1)) n) as [H|H].
  - rewrite (S1 H). split; split; intros X; try (eexists; reflexivity); try exact H; try contradiction. destruct X as (r & E & _). discriminate.
  - destruct (S2 H) as (r & E & X1 & X2). rewrite E. split; split; intros X; try lia.
    + destruct X as (m & X). discriminate.
    + exists r. auto.
Qed.
Print Assumptions C55_size.
(** with a start sequence of b bits: NotEqualError exactly when the axis has at least 2^b points *)
Theorem C55_start : forall (A : Arith) (V : Vals A) cfg clog taps rnd (t : axis A) n st, axis_size A t = Ok n -> (2 <= n)%nat ->
  (2 <= length st <= 32)%nat ->
  ((2 ^ length st <= n)%nat -> get_relation_m_sequence A V cfg clog taps rnd (inl t) (Some st) false = Err (ENotEqual n (2 ^ length st - 1))) /\
  ((n < 2 ^ length st)%nat -> exists r, get_relation_m_sequence A V cfg clog taps rnd (inl t) (Some st) false = Ok r /\ r_x r = t /\ length (r_y r) = n).
Proof. intros. apply (relation_code_size A V cfg clog taps rnd t n (Some st) st); auto. Qed.
Print Assumptions C55_start.
Theorem C55_full : forall (V : Vals RA) cfg clog taps rnd (t : raxis) n, rounded_log clog -> axis_size RA t = Ok n ->
  (4 <= n)%nat -> (Z.of_nat n <= 2 ^ 32 + 1)%Z -> (Z.of_nat n - 1 = 2 ^ 32 -> clog (Z.of_nat n - 1) = 32)%Z ->
  exists r k, Z.of_nat k = clog (Z.of_nat n - 1)%Z /\ (n - 1 <= 2 ^ k)%nat /\
    get_relation_m_sequence RA V cfg clog taps rnd (inl t) None true = Ok r /\
    length (r_y r) = (2 ^ k - 1)%nat /\ axis_array RA (r_x r) = Ok (arith_seq 0 (a_sample t) (2 ^ k - 1)).
Proof.
  intros V cfg clog taps rnd t n R Hn H4 Hb H32. pose proof (bits_spec clog (Z.of_nat n - 1) R ltac:(lia) H32) as (Hk & Hc & _ & Hu).
  destruct (relation_code_full V cfg clog taps rnd t n None _ Hn ltac:(lia) eq_refl) as (r & E & H1 & H2); [rewrite random_len; exact Hk|].
  rewrite random_len in H1, H2. exists r, (bits clog (Z.of_nat n - 1)). split; [exact Hc|]. split; [|split; [exact E|split; assumption]].
  rewrite <- pow2_Z in Hu. lia.
Qed.
Print Assumptions C55_full.
(** the start sequence counts only through which of its elements are zero: a sequence "of -1 and 1", as the
    documentation asks for, is the same as all ones *)
Theorem C55_start_signs : forall (A : Arith) (V : Vals A) cfg clog taps rnd t s full, (forall z, In z s -> z = 1%Z \/ z = (-1)%Z) ->
  get_relation_m_sequence A V cfg clog taps rnd t (Some s) full =
  get_relation_m_sequence A V cfg clog taps rnd t (Some (repeat 1%Z (length s))) full.
Proof.
  intros A V cfg clog taps rnd t s full H. apply relation_code_bool. induction s as [|z s IH]; [reflexivity|]. cbn [map length repeat].
  rewrite IH by (intros; apply H; right; assumption). destruct (H z (or_introl eq_refl)) as [-> | ->]; reflexivity.
Qed.
Print Assumptions C55_start_signs.
(** a start sequence of zeros only is changed in the caller's array as well (its first element becomes 1); a second
    call with the same array gives the same as the first *)
Theorem C55_start_array : forall (A : Arith) (V : Vals A) cfg clog taps rnd t s s' full, nonzero_start s = Ok s' ->
  s' = (if forallb (Z.eqb 0) s then 1%Z :: tl s else s) /\
  get_relation_m_sequence A V cfg clog taps rnd t (Some s') full = get_relation_m_sequence A V cfg clog taps rnd t (Some s) full.
Proof.
  intros A V cfg clog taps rnd t s s' full H. split.
  - unfold nonzero_start in H. destruct (forallb (Z.eqb 0) s); [destruct s; [discriminate|]|]; injection H as <-; reflexivity.
  - assert (H' : nonzero_start s' = Ok s').
    { unfold nonzero_start in *. destruct (forallb (Z.eqb 0) s) eqn:E.
      - destruct s as [|z s]; [discriminate|]. injection H as <-. reflexivity.
      - injection H as <-. rewrite E. reflexivity. }
    unfold get_relation_m_sequence. rewrite H, H'. reflexivity.
Qed.
Print Assumptions C55_start_array.
(** an array of times stands for the axis made from it, with a rounded step *)
Theorem C55_time_array : forall (A : Arith) (V : Vals A) cfg clog taps rnd (l : seq_in A) start full,
  get_relation_m_sequence A V cfg clog taps rnd (inr l) start full =
  match axis_of_array A l true with
  | Ok x => get_relation_m_sequence A V cfg clog taps rnd (inl x) start full
  | Err e => Err e
  end.
Proof. intros. unfold get_relation_m_sequence. destruct (axis_of_array A l true); reflexivity. Qed.
Print Assumptions C55_time_array.
Definition q_mseq (n : nat) (full : bool) : result (list Q) :=
  do r <- get_relation_m_sequence QA QV (default_config QA QV) Z.log2_up (fun _ => [2]%nat) (fun _ => true)
    (inl (mkAxis (A:=QA) 0%Q (inject_Z (Z.of_nat n - 1)) 1%Q)) None full; Ok (r_y r).
Example C55_case : q_mseq 6 false = Ok [1; 1; 1; 0; 1; 0]%Q /\ q_mseq 8 false = Err (ENotEqual 8 7) /\ q_mseq 9 false = Err (ENotEqual 9 7) /\
  q_mseq 8 true = Ok [1; 1; 1; 0; 1; 0; 0]%Q.
Proof. repeat split; vm_compute; reflexivity. Qed.

(** ** C56 zinger codes *)
Theorem C56_code : forall (T : Type) (code : list T) (n : nat), get_code_zinger code (Z.of_nat n) = concat (repeat code n).
Proof. intros T code n. unfold get_code_zinger. rewrite Nat2Z.id. reflexivity. Qed.
Print Assumptions C56_code.
Theorem C56_code_empty : forall (T : Type) (code : list T) (n : Z), (n <= 0)%Z -> get_code_zinger code n = [].
Proof. intros T code n H. unfold get_code_zinger. replace (Z.to_nat n) with 0%nat by lia. reflexivity. Qed.
Print Assumptions C56_code_empty.
(** the first period counts twice: sample z of the result is sample z of the argument plus the sum of the samples
    z, z-q, ..., z-(n-1)q, where q samples make up the end of the argument ([at0] is 0 outside) *)
Theorem C56_relation : forall (V : Vals RA), VLaws V -> forall (r : rel RA V) (m q n : nat),
  exact_span (a_start (r_x r)) (a_end (r_x r)) (a_sample (r_x r)) m -> length (r_y r) = (m + 1)%nat ->
  a_end (r_x r) = INR q * a_sample (r_x r) -> (2 <= n)%nat ->
  exists r', get_code_zinger_relation RA V (default_config RA V) (rel_shift RA V) r (Z.of_nat n) = Ok r' /\
    a_start (r_x r') = a_start (r_x r) /\ a_end (r_x r') = INR n * a_end (r_x r) /\ a_sample (r_x r') = a_sample (r_x r) /\
    length (r_y r') = (m + 1 + (n - 1) * q)%nat /\
    forall z : Z, at0 (r_y r') z = v_add V (at0 (r_y r) z) (vsum (fun k => at0 (r_y r) (z - Z.of_nat (k * q))%Z) n).
Proof. intros V L. exact (zinger_relation L). Qed.
Print Assumptions C56_relation.
Theorem C56_one_period : forall (V : Vals RA) cfg shift (r : rel RA V) n, (n <= 1)%Z ->
  get_code_zinger_relation RA V cfg shift r n = Ok r.
Proof. intros V. exact zinger_one. Qed.
Print Assumptions C56_one_period.
Definition q_zinger (n : Z) : result (list Q) :=
  do r <- get_code_zinger_relation QA QV (default_config QA QV) (rel_shift QA QV)
    (mkRel (A:=QA) (V:=QV) (mkAxis (A:=QA) 0%Q 2%Q 1%Q) [1; 2; 3]%Q) n; Ok (map Qred (r_y r)).
Example C56_case : q_zinger 3 = Ok [2; 4; 7; 2; 4; 2; 3]%Q /\ q_zinger 1 = Ok [1; 2; 3]%Q.
Proof. split; vm_compute; reflexivity. Qed.

(** ** C57 segments *)
Theorem C57_relation : forall (V : Vals RA), VLaws V -> forall (r : rel RA V) (m q : nat) (code : list (val V)),
  exact_span (a_start (r_x r)) (a_end (r_x r)) (a_sample (r_x r)) m -> length (r_y r) = (m + 1)%nat ->
  a_end (r_x r) = INR q * a_sample (r_x r) -> code <> [] ->
  exists r', get_code_sweep_segments RA V (default_config RA V) (rel_shift RA V) code r = Ok r' /\
    a_start (r_x r') = a_start (r_x r) /\ a_sample (r_x r') = a_sample (r_x r) /\
    a_end (r_x r') = a_end (r_x r) + INR (seg_offset q (length code - 1)) * a_sample (r_x r) /\
    length (r_y r') = (m + 1 + seg_offset q (length code - 1))%nat /\
    forall z : Z, at0 (r_y r') z = vsum (fun k => v_mul V (at0 (r_y r) (z - Z.of_nat (seg_offset q k))%Z) (nth k code (v_of V 0))) (length code).
Proof. intros V L. exact (segments_relation L). Qed.
Print Assumptions C57_relation.
(** from the second segment on, the last sample of a segment and the first of the next fall on the same time
    (a base starting at 0 has m = q) *)
Theorem C57_overlap : forall q k : nat, (1 <= k)%nat -> (seg_offset q (S k) = seg_offset q k + q)%nat /\ (seg_offset q 1 = q + 1)%nat.
Proof. intros q k Hk. destruct k as [|k]; [lia|]. cbn [seg_offset]. split; lia. Qed.
Print Assumptions C57_overlap.
Theorem C57_empty_code : forall (V : Vals RA) cfg shift (r : rel RA V), get_code_sweep_segments RA V cfg shift [] r = Err EIndex.
Proof. reflexivity. Qed.
Print Assumptions C57_empty_code.
(** on a signal the axis of the base is kept *)
Theorem C57_signal_axis : forall (c : crel) (code : list C), axis_size RA (r_x c) = Ok (length (r_y c)) -> 0 < a_sample (r_x c) ->
  a_start (r_x c) <= a_end (r_x c) -> (2 <= length (r_y c))%nat -> code <> [] ->
  exists r, get_code_sweep_segments RA CV (default_config RA CV) (signal_shift RA CV CF fourier_config) code c = Ok r /\
    r_x r = r_x c /\ length (r_y r) = length (r_y c).
Proof.
  intros c [|c0 code] Hc Hd Hse Hn Hcode; [congruence|].
  destruct (ext_size (r_x c) false _ Hc) as [N HN]. pose proof (ext_size_ge (r_x c) false _ N Hse Hc HN) as Hge.
  pose (moved := fun d : R => match signal_shift RA CV CF fourier_config d c with Ok r => r_y r | Err _ => [] end).
  destruct (segments_signal CV_laws (signal_shift RA CV CF fourier_config) c moved c0 code) as (y & E & Hl & _).
  - exact Hc.
  - intros d. destruct (shift_any c false N d Hc Hd Hse HN ltac:(lia)) as (y & Hy & E).
    unfold moved. change (signal_shift RA CV CF fourier_config d c = Ok (mkRel (A:=RA) (V:=CV) (r_x c) y)) in E. rewrite E. split; [exact Hy | reflexivity].
  - exists (mkRel (r_x c) y). split; [exact E|]. split; [reflexivity | exact Hl].
Qed.
Print Assumptions C57_signal_axis.
(** ... and the segments are superposed: on a real signal starting at 0 the k-th segment (k >= 1) is the base
    rotated by k-1 samples to the left - the second segment lies exactly on the first *)
Theorem C57_signal_superposed : forall (x : raxis) (u : list R) (c0 : R) (code : list R), (2 <= length u)%nat -> a_start x = 0 ->
  exact_span (a_start x) (a_end x) (a_sample x) (length u - 1) ->
  exists w, get_code_sweep_segments RA CV (default_config RA CV) (signal_shift RA CV CF fourier_config) (reals (c0 :: code)) (mkRel (A:=RA) (V:=CV) x (reals u)) =
      Ok (mkRel (A:=RA) (V:=CV) x (reals w)) /\ length w = length u /\
    forall i, (i < length u)%nat -> nth i w 0 = nth i u 0 * c0 +
      vsum (V:=RV) (fun k => nth (Nat.modulo (i + k) (length u)) u 0 * nth k code 0) (length code).
Proof.
  intros x u c0 code Hu Hs Hx. set (n := length u) in *. set (c := mkRel (A:=RA) (V:=CV) x (reals u)).
  assert (Hlen : length (r_y c) = n) by (unfold c, reals; cbn [r_y]; apply map_length).
  pose proof Hx as [Hd He].
  assert (Hc : axis_size RA (r_x c) = Ok (length (r_y c))).
  { rewrite Hlen. unfold c. cbn [r_x]. rewrite (axis_size_exact x _ Hx). f_equal. lia. }
  assert (Hse : a_start x <= a_end x) by (pose proof (Rmult_le_pos (INR (n - 1)) (a_sample x) (pos_INR _)); lra).
  destruct (ext_size (r_x c) false _ Hc) as [N HN]. pose proof (ext_size_ge (r_x c) false _ N Hse Hc HN) as Hge.
  pose (moved := fun d : R => match signal_shift RA CV CF fourier_config d c with Ok r => r_y r | Err _ => [] end).
  destruct (segments_signal CV_laws (signal_shift RA CV CF fourier_config) c moved (RtoC c0) (reals code)) as (y & E & Hl & Hy).
  - exact Hc.
  - intros d. destruct (shift_any c false N d Hc Hd Hse HN ltac:(change (val CV) with C in *; lia)) as (y & Hy & E).
    unfold moved. change (signal_shift RA CV CF fourier_config d c = Ok (mkRel (A:=RA) (V:=CV) (r_x c) y)) in E. rewrite E. split; [exact Hy | reflexivity].
  - assert (Hm : forall k i, (i < n)%nat ->
        nth i (moved (INR (1 + k) * a_end x + a_sample x)) (RtoC 0) = RtoC (nth (Nat.modulo (i + k) n) u 0)).
    { intros k i Hi.
      destruct (shift_exact x u 0 false (Z.of_nat ((1 + k) * (n - 1) + 1))) as (w & E1 & [Hw1 Hw2]); [exact Hu|exact Hx|lia|apply negatives_0; [lra|apply Hx]|right; split; lra|].
      assert (Ed : IZR (Z.of_nat ((1 + k) * (n - 1) + 1)) * a_sample x = INR (1 + k) * a_end x + a_sample x).
      { rewrite <- INR_IZR_INZ, plus_INR, mult_INR. replace (a_end x) with (INR (n - 1) * a_sample x) by lra. cbn [INR]. ring. }
      rewrite Ed in E1. unfold moved, signal_shift. change (mk x (reals u)) with c in E1. rewrite E1. cbn [r_y].
      fold n in Hw1, Hw2. unfold reals. specialize (Hw2 i Hi). fold n in Hw2.
      assert (Ez : Z.to_nat ((Z.of_nat i + (2 * Z.of_nat 0 - Z.of_nat ((1 + k) * (n - 1) + 1))) mod Z.of_nat n) = Nat.modulo (i + k) n).
      { rewrite <- (Nat2Z.id (Nat.modulo (i + k) n)). f_equal. rewrite Nat2Z.inj_mod.
        replace (Z.of_nat i + (2 * Z.of_nat 0 - Z.of_nat ((1 + k) * (n - 1) + 1)))%Z with (Z.of_nat (i + k) + (- Z.of_nat (1 + k)) * Z.of_nat n)%Z by nia.
        apply Z_mod_plus_full. }
      rewrite Ez in Hw2. apply nth_nth_error. rewrite nth_error_map, Hw2.
      rewrite (nth_error_nth' u _ 0) by (apply Nat.mod_upper_bound; lia). reflexivity. }
    pose (w := map (fun i => nth i u 0 * c0 + vsum (V:=RV) (fun k => nth (Nat.modulo (i + k) n) u 0 * nth k code 0) (length code)) (seq 0 n)).
    assert (Hw : forall i, (i < n)%nat -> nth i w 0 = nth i u 0 * c0 + vsum (V:=RV) (fun k => nth (Nat.modulo (i + k) n) u 0 * nth k code 0) (length code)).
    { intros i Hi. apply nth_nth_error. unfold w. rewrite nth_error_map_seq by exact Hi. reflexivity. }
    assert (Hwl : length w = n) by (unfold w; rewrite map_length, seq_length; reflexivity).
    exists w. split; [|split; [exact Hwl | exact Hw]]. etransitivity; [exact E|]. do 2 f_equal.
    apply (nth_ext _ _ (RtoC 0) (RtoC 0)); [unfold reals; rewrite map_length; change (val CV) with C in *; lia|].
    intros i Hi. change (val CV) with C in *. rewrite Hl, Hlen in Hi. etransitivity; [exact (Hy i ltac:(lia))|].
    etransitivity; [|symmetry; exact (map_nth RtoC w 0 i)]. rewrite Hw by exact Hi.
    change (nth i (r_y c) (v_of CV 0)) with (nth i (map RtoC u) (RtoC 0)). rewrite (map_nth RtoC u 0).
    rewrite RtoC_plus, RtoC_mult. cbn [CV v_add v_mul]. f_equal. unfold reals. rewrite map_length.
    assert (Hv : forall m f g, (forall k, (k < m)%nat -> f k = RtoC (g k)) -> vsum (V:=CV) f m = RtoC (vsum (V:=RV) g m)).
    { intros m f g. induction m as [|m IH]; intros H; [reflexivity|]. cbn [vsum]. rewrite IH, (H m) by (intros; try apply H; lia).
      symmetry. apply RtoC_plus. }
    apply Hv. intros k Hk. change (a_end (r_x c)) with (a_end x). change (a_sample (r_x c)) with (a_sample x).
    rewrite RtoC_mult. etransitivity; [apply (f_equal2 Cmult); [exact (Hm k i Hi) | exact (map_nth RtoC code 0 k)]|]. reflexivity.
Qed.
Print Assumptions C57_signal_superposed.
(** the code [1, -1] on any such signal gives silence *)
Theorem C57_opposite_segments_refuted : forall (x : raxis) (u : list R), (2 <= length u)%nat -> a_start x = 0 ->
  exact_span (a_start x) (a_end x) (a_sample x) (length u - 1) ->
  get_code_sweep_segments RA CV (default_config RA CV) (signal_shift RA CV CF fourier_config) (reals [1; -1]) (mkRel (A:=RA) (V:=CV) x (reals u)) =
  Ok (mkRel (A:=RA) (V:=CV) x (reals (repeat 0 (length u)))).
Proof.
  intros x u Hu Hs Hx. destruct (C57_signal_superposed x u 1 [-1] Hu Hs Hx) as (w & E & Hl & Hw). rewrite E. do 3 f_equal.
  apply (nth_ext _ _ 0 0); [rewrite repeat_length; exact Hl|]. intros i Hi. rewrite Hl in Hi. rewrite (Hw i Hi).
  rewrite nth_repeat_lt by exact Hi. cbn [length vsum nth]. rewrite Nat.add_0_r, Nat.mod_small by exact Hi.
  cbn [RV v_add v_of]. lra.
Qed.
Print Assumptions C57_opposite_segments_refuted.
Definition q_segments (code : list Q) : result (list Q) :=
  do r <- get_code_sweep_segments QA QV (default_config QA QV) (rel_shift QA QV) code
    (mkRel (A:=QA) (V:=QV) (mkAxis (A:=QA) 0%Q 2%Q 1%Q) [1; 2; 3]%Q); Ok (map Qred (r_y r)).
Example C57_case : q_segments [1; 1; -1]%Q = Ok [1; 2; 3; 1; 2; 2; -2; -3]%Q.
Proof. vm_compute. reflexivity. Qed.

(** ** C58 frequency to time *)
Lemma f2t_facts (c : crel) (f : list R) : axis_array RA (r_x c) = Ok f -> length (r_y c) = length f ->
  a_start (r_x c) <= a_end (r_x c) -> valid c /\ xs_of c = f /\ (0 < length f)%nat /\ length (energies c) = length f /\
  never_decreasing (freq2time_time RA f (energies c)).
Proof.
  intros Ef Hl Hse. pose proof (axis_array_inv _ _ Ef) as [Hn _].
  assert (Hv : valid c) by (unfold valid; rewrite Hn; f_equal; symmetry; exact Hl).
  assert (Ex : xs_of c = f) by (pose proof (valid_array c Hv); congruence).
  assert (Hp : (0 < length f)%nat) by (rewrite <- Hl; apply valid_pos; exact Hv).
  assert (He : length (energies c) = length f) by (unfold energies; rewrite map_length; exact Hl).
  repeat split; try assumption. destruct (Nat.eq_dec (length f) 1) as [H1|H1].
  - destruct (f2t_spec f (energies c) He Hp) as (Ht & _). apply never_nth. intros i Hi. change (num RA) with R in *. lia.
  - apply f2t_never; [exact He|exact Hp| |].
    + rewrite <- Ex. apply incr_xs. destruct Hse as [H|H]; [exact H|]. exfalso. apply (axis_size_two (r_x c) (length (r_y c)) Hv); [rewrite Hl; lia | exact H].
    + intros i Hi. unfold energies. rewrite (map_at _ _ _ (RtoC 0)) by (change (val CV) with C in *; lia). apply pow_le, Cmod_ge_0.
Qed.
Theorem C58_simple : forall (c : crel) (f : list R), axis_array RA (r_x c) = Ok f -> length (r_y c) = length f ->
  a_start (r_x c) <= a_end (r_x c) ->
  exists t k, simple_freq2time RA CV CW CF (default_config RA CV) c = Ok (t, map RtoC f, repeat k (length f)) /\
    rel_norm RA CV (default_config RA CV) (mkRel (A:=RA) (V:=CV) (r_x c) (map (fun z => RtoC (Cmod z)) (r_y c))) = Ok k /\
    length t = length f /\ nth 0 t 0 = 0 /\ never_decreasing t /\
    forall i, (S i < length f)%nat ->
      nth (S i) t 0 - nth i t 0 = (nth (S i) (energies c) 0 + nth i (energies c) 0) / (nth (S i) f 0 - nth i f 0).
Proof.
  intros c f Ef Hl Hse. destruct (f2t_facts c f Ef Hl Hse) as (Hv & Ex & Hp & He & Hn).
  destruct (simple_ok c Hv) as (k & E & Ek). rewrite Ex in E. destruct (f2t_spec f (energies c) He Hp) as (H1 & H2 & H3).
  exists (freq2time_time RA f (energies c)), k. auto 10.
Qed.
Print Assumptions C58_simple.
Theorem C58_proportional : forall (c : crel) (f : list R), axis_array RA (r_x c) = Ok f -> length (r_y c) = length f ->
  a_start (r_x c) <= a_end (r_x c) ->
  exists t k, proportional_freq2time RA CV CW CF c = Ok (t, map RtoC f, repeat (RtoC k) (length f)) /\
    0 <= k /\ k * k = 2 * vsum (V:=RV) (fun i => (nth (S i) f 0 - nth i f 0) * (nth (S i) (energies c) 0 + nth i (energies c) 0) / 2) (length f - 1) /\
    length t = length f /\ nth 0 t 0 = 0 /\ never_decreasing t /\
    forall i, (S i < length f)%nat ->
      nth (S i) t 0 - nth i t 0 = (nth (S i) (energies c) 0 + nth i (energies c) 0) / (nth (S i) f 0 - nth i f 0).
Proof.
  intros c f Ef Hl Hse. destruct (f2t_facts c f Ef Hl Hse) as (Hv & Ex & Hp & He & Hn).
  destruct (proportional_ok c Hv Hse) as (k & E & Ek). rewrite Ex in E, Ek. destruct (f2t_spec f (energies c) He Hp) as (H1 & H2 & H3).
  exists (freq2time_time RA f (energies c)), k. tauto.
Qed.
Print Assumptions C58_proportional.
(** [dwell] on increasing positive frequencies [f] of the selected part [s], with amplitudes |y|, when p >= 2 of them
    are not above the cut-off [fc] *)
Theorem C58_dwell : forall (lo hi : option R) (fc : R) (c s : crel) (f : list R) (p : nat),
  rel_select RA CV lo hi c = Ok s -> axis_array RA (r_x s) = Ok f -> length (r_y s) = length f ->
  increasing f -> 0 < nth 0 f 0 -> fc <> 0 -> p = length (filter (fun x => Rleb x fc) f) -> (2 <= p)%nat ->
  exists t e, dwell lo hi (Some fc) c = Ok (t, map RtoC f, map RtoC e) /\ length t = length f /\ length e = length f /\
    nth 0 t 0 = 0 /\ never_decreasing t /\
    (forall i, (S i < p)%nat -> nth (S i) t 0 - nth i t 0 = (nth 0 f 0 / nth (S i) f 0) ^ 4 * nth i (energies s) 0) /\
    (forall i, (p <= S i < length f)%nat -> nth (S i) t 0 - nth i t 0 = (nth 0 f 0 / nth (p - 1) f 0) ^ 4 * nth (S i) (energies s) 0) /\
    (forall i, (i < p)%nat -> nth i e 0 = (nth i f 0 / nth 0 f 0) ^ 2) /\
    (forall i, (p <= i < length f)%nat -> nth i e 0 = (nth (p - 1) f 0 / nth 0 f 0) ^ 2).
Proof.
  intros lo hi fc c s f p Es Ef Hl Hi H0 Hc Ep Hp. pose proof (axis_array_inv _ _ Ef) as [Hn _].
  assert (Hv : valid s) by (unfold valid; rewrite Hn; f_equal; symmetry; exact Hl).
  assert (Ex : xs_of s = f) by (pose proof (valid_array s Hv); congruence).
  set (a := map (fun z : C => Cmod z) (r_y s)).
  assert (Ha : length a = length f) by (unfold a; rewrite map_length; exact Hl).
  destruct (dwell_data_ok f a fc Hi Ha H0 Hc ltac:(lia)) as (t & e & E & L1 & L2 & T0 & T1 & T2 & E1 & E2).
  exists t, e. rewrite (dwell_eq lo hi (Some fc) c s Es Hv), Ex. fold a. rewrite E. cbn [bind fst snd]. rewrite <- Ep in *.
  assert (Hen : forall i, (i < length f)%nat -> nth i (energies s) 0 = nth i a 0 ^ 2).
  { intros i Hif. unfold energies, a. change (val CV) with C in *. rewrite !(map_at _ _ _ (RtoC 0)) by lia. reflexivity. }
  assert (Hpf : (p <= length f)%nat).
  { rewrite Ep. clear. induction f as [|x g IH]; cbn; [lia|]. destruct (Rleb x fc); cbn; lia. }
  split; [reflexivity|]. split; [exact L1|]. split; [exact L2|]. split; [exact T0|].
  split; [exact (dwell_time_never f a t p Hi H0 L1 (conj Hp Hpf) T1 T2)|].
  split; [intros i Hx; rewrite Hen by lia; exact (T1 i Hx)|]. split; [intros i Hx; rewrite Hen by lia; exact (T2 i Hx)|].
  split; assumption.
Qed.
Print Assumptions C58_dwell.
Definition ex_spec : crel := mkRel (A:=RA) (V:=CV) (mkAxis (A:=RA) 1 3 1) [RtoC 1; RtoC 2; RtoC 3].
Lemma ex_spec_array : axis_array RA (r_x ex_spec) = Ok [1; 2; 3].
Proof.
  assert (E : [1; 2; 3] = arith_seq 1 1 3).
  { apply (nth_ext _ _ 0 0); [reflexivity|]. intros i Hi. cbn in Hi. destruct i as [|[|[|i]]]; [| | |lia]; cbn; lra. }
  rewrite E. apply (exact_array (r_x ex_spec) 2). unfold exact_span; cbn; split; lra.
Qed.
(** amplitudes 1, 2, 3 at 1, 2, 3 Hz: times 0, 1+4, 1+4+4+9 *)
Example C58_case : exists t k, proportional_freq2time RA CV CW CF ex_spec = Ok (t, reals [1; 2; 3], repeat (RtoC k) 3) /\ t = [0; 5; 18] /\ k * k = 18.
Proof.
  destruct (C58_proportional ex_spec [1; 2; 3] ex_spec_array eq_refl) as (t & k & E & _ & Hk & Hl & T0 & _ & T); [cbn; lra|].
  assert (Ee : energies ex_spec = [1; 4; 9]).
  { unfold energies, ex_spec. cbn [r_y map]. rewrite !Cmod_R, !Rabs_right by lra. repeat (f_equal; try lra). }
  rewrite Ee in *. exists t, k. split; [exact E|]. split.
  - destruct t as [|t0 [|t1 [|t2 [|t3 t]]]]; try discriminate.
    pose proof (T 0%nat ltac:(cbn; lia)) as A0. pose proof (T 1%nat ltac:(cbn; lia)) as A1. cbn in T0, A0, A1.
    replace t0 with 0 in * by lra. replace t1 with 5 in * by lra. replace t2 with 18 by lra. reflexivity.
  - rewrite Hk. cbn. lra.
Qed.

(** ** C59 dwell needs two frequencies under the cut-off *)
Theorem C59_dwell_raises : forall (lo hi fc : option R) (c s : crel) (f : list R) (f0 cut : R),
  rel_select RA CV lo hi c = Ok s -> axis_array RA (r_x s) = Ok f -> length (r_y s) = length f -> nth_error f 0 = Some f0 ->
  cut = (match fc with Some v => if Req_EM_T v 0 then f0 else v | None => f0 end) ->
  (length (filter (fun x => Rleb x cut) f) < 2)%nat -> dwell lo hi fc c = Err EIndex.
Proof.
  intros lo hi fc c s f f0 cut Es Ef Hl H0 Hc Hp. pose proof (axis_array_inv _ _ Ef) as [Hn _].
  assert (Hv : valid s) by (unfold valid; rewrite Hn; f_equal; symmetry; exact Hl).
  assert (Ex : xs_of s = f) by (pose proof (valid_array s Hv); congruence).
  rewrite (dwell_eq lo hi fc c s Es Hv), Ex. rewrite (dwell_data_short fc cut f _ f0 H0); [reflexivity| | |exact Hp].
  - rewrite map_length. exact Hl.
  - rewrite Hc. destruct fc as [v|]; [|reflexivity]. destruct (Req_EM_T v 0) as [->|Hz].
    + replace (Reqb 0 0) with true by (symmetry; apply Reqb_true; reflexivity). reflexivity.
    + replace (Reqb v 0) with false by (symmetry; apply Reqb_false; exact Hz). reflexivity.
Qed.
Print Assumptions C59_dwell_raises.
(** in particular without a cut-off, or with cut-off 0, always *)
Theorem C59_no_cut_off : forall (lo hi fc : option R) (c s : crel), rel_select RA CV lo hi c = Ok s -> axis_size RA (r_x s) = Ok (length (r_y s)) ->
  a_start (r_x s) <= a_end (r_x s) -> fc = None \/ fc = Some 0 -> dwell lo hi fc c = Err EIndex.
Proof.
  intros lo hi fc c s Es Hv Hse Hfc. pose proof (valid_array s Hv) as Ef. pose proof (valid_pos s Hv) as Hp.
  assert (Hx : length (r_y s) = length (xs_of s)) by (symmetry; apply xs_of_length).
  apply (C59_dwell_raises lo hi fc c s (xs_of s) (nth 0 (xs_of s) 0) (nth 0 (xs_of s) 0) Es Ef Hx).
  - apply nth_error_nth'. lia.
  - destruct Hfc as [-> | ->]; [reflexivity|]. destruct (Req_EM_T 0 0); [reflexivity|lra].
  - destruct (Rle_lt_or_eq_dec _ _ Hse) as [Hlt|Heq].
    + rewrite (first_only (xs_of s) _ (incr_xs s Hlt)); [lia|]. apply nth_error_nth'. lia.
    + assert (length (xs_of s) <= 1)%nat.
      { destruct (Nat.le_gt_cases (length (xs_of s)) 1) as [H|H]; [exact H|]. exfalso. apply (axis_size_two (r_x s) (length (r_y s)) Hv); [rewrite Hx; lia | exact Heq]. }
      assert (Hf : forall g : list R, (length (filter (fun x => Rleb x (nth 0 (xs_of s) 0%R)) g) <= length g)%nat).
      { induction g as [|x g IH]; cbn; [lia|]. destruct (Rleb x _); cbn; lia. }
      specialize (Hf (xs_of s)). lia.
Qed.
Print Assumptions C59_no_cut_off.
Example C59_case : dwell None None None ex_spec = Err EIndex /\ dwell None None (Some (3 / 2)) ex_spec = Err EIndex.
Proof.
  assert (Es : rel_select RA CV None None ex_spec = Ok ex_spec).
  { apply select_all; [exact (proj1 (axis_array_inv _ _ ex_spec_array)) | cbn; lia | cbn; lra]. }
  split.
  - apply (C59_no_cut_off None None None ex_spec ex_spec Es); [exact (proj1 (axis_array_inv _ _ ex_spec_array)) | cbn; lra | left; reflexivity].
  - apply (C59_dwell_raises None None (Some (3 / 2)) ex_spec ex_spec [1; 2; 3] 1 (3 / 2) Es ex_spec_array eq_refl eq_refl).
    + destruct (Req_EM_T (3 / 2) 0); [lra | reflexivity].
    + cbn [filter]. replace (Rleb 1 (3 / 2)) with true by (symmetry; apply Rleb_true; lra).
      replace (Rleb 2 (3 / 2)) with false by (symmetry; apply Rleb_false; lra).
      replace (Rleb 3 (3 / 2)) with false by (symmetry; apply Rleb_false; lra). cbn. lia.
Qed.

(** ** C60 correction for a source *)
(** [get_correction_for_source emd a fuel s] watches the loop for [fuel] passes: [Ok None] when it still runs *)
Theorem C60_passes : forall (emd : decomposition) (a : source_args) (s : rrel) (fuel : nat) (k : Z),
  so_iterations a = Some k -> (Z.max 1 k <= Z.of_nat fuel)%Z ->
  get_correction_for_source emd a fuel s <> Ok None /\
  forall p r, get_correction_for_source emd a fuel s = Ok (Some (p, r)) ->
    (Z.of_nat p <= Z.max 1 k)%Z /\ (so_limits a = None <-> p = 0%nat).
Proof. exact source_passes. Qed.
Print Assumptions C60_passes.
(** n = m+1 >= 5 samples on an exact axis: n-4 samples from start+3*sample to end-sample, mass times the second
    difference of the last displacement, which is below the limit or the passes are used up *)
Theorem C60_result : forall (emd : decomposition) (a : source_args) (s : rrel) (m : nat),
  keeps_length emd -> exact_rel s m -> (4 <= m)%nat -> forall fuel,
  exists out, get_correction_for_source emd a fuel s = Ok out /\
  match out with
  | Some (p, r) => (p <= fuel)%nat /\ exists nd : list R,
      r_x r = mkAxis (A:=RA) (a_start (r_x s) + 3 * a_sample (r_x s)) (a_end (r_x s) - a_sample (r_x s)) (a_sample (r_x s)) /\
      length (r_y r) = (m - 3)%nat /\ length nd = (m - 1)%nat /\
      (forall i, (i <= m - 4)%nat -> nth i (r_y r) 0 =
        (nth (S (S i)) nd 0 - 2 * nth (S i) nd 0 + nth i nd 0) / (a_sample (r_x s) * a_sample (r_x s)) * so_mass a) /\
      match so_limits a with
      | Some limit =>
          (1 <= p)%nat /\ nth 0 nd 0 = 0 /\ nth 1 nd 0 = 0 /\
          ((forall y, In y nd -> Rabs y < limit) \/ match so_iterations a with Some k => (k <= Z.of_nat p)%Z | None => False end) /\
          match so_iterations a with Some k => (Z.of_nat p <= Z.max 1 k)%Z | None => True end
      | None => p = 0%nat
      end
  | None => exists limit, so_limits a = Some limit /\
      (fuel = 0%nat \/ match so_iterations a with Some k => (Z.of_nat fuel < k)%Z | None => True end)
  end.
Proof.
  intros emd a s m Hk Hs Hm fuel. destruct (source_result emd a s m Hk Hs Hm fuel) as (out & E & H). exists out. split; [exact E|].
  destruct out as [[p r]|]; [|exact H]. destruct H as (Hp & nd & (C1 & C2 & C3 & C4) & H). split; [exact Hp|].
  exists (r_y nd). auto 10.
Qed.
Print Assumptions C60_result.
(** without a limit on the passes the loop need not end: a decomposition whose first component is always 2, limit 1 *)
Theorem C60_unlimited_refuted : exists emd, keeps_length emd /\ forall (a : source_args) (s : rrel) (m fuel : nat),
  exact_rel s m -> (4 <= m)%nat -> so_limits a = Some 1 -> so_iterations a = None -> get_correction_for_source emd a fuel s = Ok None.
Proof. exists stubborn. split; [exact stubborn_keeps | exact source_runs_on]. Qed.
Print Assumptions C60_unlimited_refuted.
(** the window that brings the displacement to 0 at the start: values in [0,1], 1 on the second half, 0 at the first
    point - unless the window ends before the first point, when it has no effect at all *)
Theorem C60_window : forall (a : source_args) (s : rrel) (m : nat), exact_rel s m -> (4 <= m)%nat ->
  exists w : list R, source_window a s = Ok (mkRel (A:=RA) (V:=RV) (source_time s) w) /\ length w = (m - 1)%nat /\ unit_list w /\
    (forall i, ((m - 1) / 2 <= i <= m - 2)%nat -> nth i w 0 = 1) /\
    (a_start (r_x s) + 2 * a_sample (r_x s) <= a_end (r_x s) * so_window a -> nth 0 w 0 = 0) /\
    (a_end (r_x s) * so_window a < a_start (r_x s) + 2 * a_sample (r_x s) -> w = repeat 1 (m - 1)).
Proof.
  intros a s m Hs Hm. destruct (window_exact a s m Hs Hm) as (w & E & Hx & [_ Hl] & H1 & H2 & H3 & H4).
  assert (Hl' : length (r_y w) = (m - 1)%nat) by (etransitivity; [exact Hl | lia]).
  exists (r_y w). split; [rewrite E; destruct w as [x y]; cbn [r_x r_y] in *; rewrite Hx; reflexivity|]. split; [exact Hl'|].
  split; [|split; [exact H2|split; [exact H3|]]].
  - intros y Hy. destruct (In_nth _ _ 0 Hy) as (i & Hi & <-). apply H1. change (val RV) with R in *. lia.
  - intros Hw. apply (nth_ext _ _ 0 0); [rewrite repeat_length; exact Hl'|]. intros i Hi. change (val RV) with R in *.
    rewrite (H4 Hw i ltac:(lia)), nth_repeat_lt by lia. reflexivity.
Qed.
Print Assumptions C60_window.
(** six samples, decomposition into the data itself, limit 1, at most three passes *)
Definition ex_force : rrel := mkRel (A:=RA) (V:=RV) (mkAxis (A:=RA) 0 5 1) [0; 1; 0; -1; 0; 1].
Example C60_case : exists p r,
  get_correction_for_source (fun y => Ok [y]) (mkSource 1 (Some 1) (1 / 2) (Some 3%Z) (1 / 2) (fun _ => 1)) 3 ex_force = Ok (Some (p, r)) /\
  (1 <= p <= 3)%nat /\ length (r_y r) = 2%nat /\ a_start (r_x r) = 3 /\ a_end (r_x r) = 4.
Proof.
  assert (Hk : keeps_length (fun y => Ok [y])).
  { intros y _. exists y, []. split; [reflexivity|]. intros z [<-|[]]. reflexivity. }
  assert (Hs : exact_rel ex_force 5) by (split; [unfold exact_span; cbn; split; lra | reflexivity]).
  destruct (C60_result (fun y => Ok [y]) (mkSource 1 (Some 1) (1 / 2) (Some 3%Z) (1 / 2) (fun _ => 1)) ex_force 5 Hk Hs ltac:(lia) 3)
    as ([[p r]|] & E & H).
  - exists p, r. split; [exact E|]. destruct H as (Hp & nd & Hx & Hl & _ & _ & H). cbn [so_limits] in H. destruct H as (H1 & _).
    split; [lia|]. split; [exact Hl|]. rewrite Hx. cbn. lra.
  - destruct H as (l & _ & [H|H]); [discriminate|]. cbn in H. lia.
Qed.
