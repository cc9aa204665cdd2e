(** Property theorems on the accuracy of sampled laws and of the numerical methods (methods.py 73-158, relation.py 251-274,
    336-378, 486-530, sweep_methods.py 223-257, uncalculated_sweep.py): C83.

    [smooth_on], [samples_of] and [resampling_error] are in AccuracySpec.v; [RInt] is the Riemann integral of Coquelicot. *)
From Coq Require Import Reals ZArith List Bool Lia Lra Psatz.
From Coquelicot Require Import Coquelicot.
From Verif Require Import Num Numpy Spec AxisModel RelModel RLemmas AxisLemmas InterpLemmas VInst RelLemmas RelLemmas2 RelLemmas3
  HeapModel FourierModel SweepModel SweepSpec SweepLemmas SweepLemmas2 SweepLemmas3 PreparedLemmas8 AccuracySpec AccuracyLemmas.
Import ListNotations.
Local Open Scope R_scope.

(** ** C83 accuracy of sampled laws and numerical methods *)

(** interpolated samples of a smooth function are near the function *)
Theorem C83_interpolation : forall (f f' : R -> R) M (r : rel RA RV) (nx : axis RA),
  valid r -> (2 <= length (r_y r))%nat -> a_start (r_x r) < a_end (r_x r) ->
  smooth_on f f' (a_start (r_x r)) (a_end (r_x r)) M ->
  r_y r = samples_of f (a_start (r_x r)) (a_end (r_x r)) (length (r_y r)) -> a_sample nx <> 0 ->
  exists arr r', axis_array RA nx = Ok arr /\ rel_interp RA RV (default_config RA RV) nx r = Ok r' /\ r_x r' = nx /\
    length (r_y r') = length arr /\
    forall i t v, nth_error arr i = Some t -> nth_error (r_y r') i = Some v -> a_start (r_x r) <= t <= a_end (r_x r) ->
      Rabs (v - f t) <= M / 8 * ((a_end (r_x r) - a_start (r_x r)) / INR (length (r_y r) - 1)) ^ 2.
Proof. exact interp_close. Qed.
Print Assumptions C83_interpolation.

(** [diff] of samples is near the derivative at the points of its axis *)
Theorem C83_diff : forall (f f' : R -> R) M (r : rel RA RV) m, (1 <= m)%nat ->
  exact_span (a_start (r_x r)) (a_end (r_x r)) (a_sample (r_x r)) m ->
  smooth_on f f' (a_start (r_x r)) (a_end (r_x r)) M ->
  r_y r = samples_of f (a_start (r_x r)) (a_end (r_x r)) (m + 1) ->
  exists r' arr, rel_diff RA RV (default_config RA RV) r = Ok r' /\ axis_array RA (r_x r') = Ok arr /\
    length (r_y r') = m /\ length arr = m /\
    forall i t v, nth_error arr i = Some t -> nth_error (r_y r') i = Some v ->
      Rabs (v - f' t) <= M / 4 * a_sample (r_x r).
Proof. exact diff_close. Qed.
Print Assumptions C83_diff.

(** [integrate] of samples is near the integral from the start to the points of its axis *)
Theorem C83_integrate : forall (f f' : R -> R) M (r : rel RA RV) m, (1 <= m)%nat ->
  exact_span (a_start (r_x r)) (a_end (r_x r)) (a_sample (r_x r)) m ->
  smooth_on f f' (a_start (r_x r)) (a_end (r_x r)) M ->
  r_y r = samples_of f (a_start (r_x r)) (a_end (r_x r)) (m + 1) ->
  exists r' arr, rel_integrate RA RV (default_config RA RV) r = Ok r' /\ axis_array RA (r_x r') = Ok arr /\
    length (r_y r') = m /\ length arr = m /\
    forall i t v, nth_error arr i = Some t -> nth_error (r_y r') i = Some v ->
      Rabs (v - RInt f (a_start (r_x r)) t) <= M / 12 * a_sample (r_x r) ^ 2 * (t - a_start (r_x r)).
Proof. exact int_close. Qed.
Print Assumptions C83_integrate.

(** [get_norm] times the step is near the energy, the integral of the square *)
Theorem C83_norm : forall (f g : R -> R) M (r : rel RA RV) m, (1 <= m)%nat ->
  exact_span (a_start (r_x r)) (a_end (r_x r)) (a_sample (r_x r)) m ->
  smooth_on (fun t => f t * f t) g (a_start (r_x r)) (a_end (r_x r)) M ->
  r_y r = samples_of f (a_start (r_x r)) (a_end (r_x r)) (m + 1) ->
  exists v, rel_norm RA RV (default_config RA RV) r = Ok v /\
    Rabs (v * a_sample (r_x r) - RInt (fun t => f t * f t) (a_start (r_x r)) (a_end (r_x r)))
      <= M / 12 * a_sample (r_x r) ^ 2 * (a_end (r_x r) - a_start (r_x r)).
Proof. exact norm_close. Qed.
Print Assumptions C83_norm.

(** A sweep made from sampled laws is near the sweep of the laws: [pf] and [pa] are the numbers of samples of the two laws and
    may differ from the number of points of the time axis. *)
Theorem C83_sweep : forall int sc (f f' al al' : R -> R) Mf Ma (x : axis RA) m pf pa tht0,
  (1 <= m)%nat -> (2 <= pf)%nat -> (2 <= pa)%nat ->
  a_start x = 0 -> exact_span 0 (a_end x) (a_sample x) m -> (forall c, sc_spectro RA RV sc c = Ok tt) ->
  smooth_on f f' 0 (a_end x) Mf -> smooth_on al al' 0 (a_end x) Ma ->
  exists g sw, us_new RA RV (default_config RA RV) int (UtAxis x) (LiArr (A:=RA) (V:=RV) (samples_of f 0 (a_end x) pf))
      (LiArr (A:=RA) (V:=RV) (samples_of al 0 (a_end x) pa)) = Ok g /\
    us_call RA RV RW (default_config RA RV) sc g UtNone tht0 = Ok sw /\
    r_x (sw_rel sw) = x /\ r_x (sw_ft sw) = x /\ r_x (sw_at sw) = x /\
    length (r_y (sw_rel sw)) = (m + 1)%nat /\ length (r_y (sw_ft sw)) = (m + 1)%nat /\ length (r_y (sw_at sw)) = (m + 1)%nat /\
    forall i, (i <= m)%nat -> let t := INR i * a_sample x in
      Rabs (nth i (r_y (sw_ft sw)) 0 - f t) <= resampling_error Mf (a_end x) pf (m + 1) /\
      Rabs (nth i (r_y (sw_at sw)) 0 - al t) <= resampling_error Ma (a_end x) pa (m + 1) /\
      Rabs (nth i (r_y (sw_rel sw)) 0 - nth i (r_y (sw_at sw)) 0 * sin (2 * PI * RInt f 0 t + tht0))
        <= Rabs (nth i (r_y (sw_at sw)) 0) * (2 * PI * t * (Mf / 12 * a_sample x ^ 2 + resampling_error Mf (a_end x) pf (m + 1))).
Proof. exact sweep_close. Qed.
Print Assumptions C83_sweep.

(** The bounds are attained: no smaller constants will do. *)
Theorem C83_interpolation_attained : exists (f f' : R -> R) M (r : rel RA RV) (nx : axis RA) arr r' i t v,
  valid r /\ (2 <= length (r_y r))%nat /\ a_start (r_x r) < a_end (r_x r) /\
  smooth_on f f' (a_start (r_x r)) (a_end (r_x r)) M /\
  r_y r = samples_of f (a_start (r_x r)) (a_end (r_x r)) (length (r_y r)) /\ a_sample nx <> 0 /\
  axis_array RA nx = Ok arr /\ rel_interp RA RV (default_config RA RV) nx r = Ok r' /\
  nth_error arr i = Some t /\ nth_error (r_y r') i = Some v /\ a_start (r_x r) <= t <= a_end (r_x r) /\
  Rabs (v - f t) = M / 8 * ((a_end (r_x r) - a_start (r_x r)) / INR (length (r_y r) - 1)) ^ 2 /\ 0 < Rabs (v - f t).
Proof. exact interp_attained. Qed.
Print Assumptions C83_interpolation_attained.
Theorem C83_diff_attained : exists (f f' : R -> R) M (r : rel RA RV) r' arr i t v,
  exact_span (a_start (r_x r)) (a_end (r_x r)) (a_sample (r_x r)) 1 /\
  smooth_on f f' (a_start (r_x r)) (a_end (r_x r)) M /\
  r_y r = samples_of f (a_start (r_x r)) (a_end (r_x r)) 2 /\
  rel_diff RA RV (default_config RA RV) r = Ok r' /\ axis_array RA (r_x r') = Ok arr /\
  nth_error arr i = Some t /\ nth_error (r_y r') i = Some v /\
  Rabs (v - f' t) = M / 4 * a_sample (r_x r) /\ 0 < Rabs (v - f' t).
Proof. exact diff_attained. Qed.
Print Assumptions C83_diff_attained.
(** for the samples of a square this is the error at every point *)
Theorem C83_integrate_attained : forall (r : rel RA RV) m, (1 <= m)%nat ->
  exact_span (a_start (r_x r)) (a_end (r_x r)) (a_sample (r_x r)) m ->
  r_y r = samples_of (fun t => t * t) (a_start (r_x r)) (a_end (r_x r)) (m + 1) ->
  smooth_on (fun t => t * t) (fun t => 2 * t) (a_start (r_x r)) (a_end (r_x r)) 2 /\
  exists r' arr, rel_integrate RA RV (default_config RA RV) r = Ok r' /\ axis_array RA (r_x r') = Ok arr /\
    forall i t v, nth_error arr i = Some t -> nth_error (r_y r') i = Some v ->
      v - RInt (fun t => t * t) (a_start (r_x r)) t = 2 / 12 * a_sample (r_x r) ^ 2 * (t - a_start (r_x r)).
Proof. exact int_attained. Qed.
Print Assumptions C83_integrate_attained.

(** samples of a square at the five points 0..4 *)
Example C83_relation_case : let r := mkRel (A:=RA) (V:=RV) (rx_ 0 4 1) (samples_of (fun t => t * t) 0 4 5) in
  valid r /\ smooth_on (fun t => t * t) (fun t => 2 * t) (a_start (r_x r)) (a_end (r_x r)) 2 /\
  exact_span (a_start (r_x r)) (a_end (r_x r)) (a_sample (r_x r)) 4 /\ r_y r = [0; 1; 4; 9; 16] /\
  exists r' arr, rel_integrate RA RV (default_config RA RV) r = Ok r' /\ axis_array RA (r_x r') = Ok arr /\
    forall i t v, nth_error arr i = Some t -> nth_error (r_y r') i = Some v -> v = (t * t * t) / 3 + t / 6.
Proof.
  intros r. assert (Sr : exact_span (a_start (r_x r)) (a_end (r_x r)) (a_sample (r_x r)) 4) by (apply span_rx; cbn [INR]; lra).
  destruct (exact_rel r (fun t => t * t) 4 ltac:(lia) Sr eq_refl) as (Hv & _). split; [exact Hv|]. split; [apply smooth_square|].
  split; [exact Sr|]. split. { unfold r, samples_of, grid, grid_pt. cbn. repeat f_equal; field. }
  destruct (C83_integrate_attained r 4 ltac:(lia) Sr eq_refl) as (_ & r' & arr & E & Ea & H). exists r', arr. split; [exact E|]. split; [exact Ea|].
  intros i t v Hi Hv'. specialize (H i t v Hi Hv'). rewrite square_integral in H. cbn [r r_x rx_ a_start a_sample] in H.
  change (val RV) with R in *. change (num RA) with R in *. lra.
Qed.
(** a quadratic frequency law given by 3 samples and a linear amplitude given by 2, on the time axis of the five points 0..4 *)
Example C83_sweep_case : forall int sc, (forall c, sc_spectro RA RV sc c = Ok tt) ->
  exists g sw, us_new RA RV (default_config RA RV) int (UtAxis (rx_ 0 4 1)) (LiArr (A:=RA) (V:=RV) (samples_of (fun t => t * t) 0 4 3))
      (LiArr (A:=RA) (V:=RV) (samples_of (fun t => 2 * t) 0 4 2)) = Ok g /\
    us_call RA RV RW (default_config RA RV) sc g UtNone 0 = Ok sw /\
    forall i, (i <= 4)%nat ->
      Rabs (nth i (r_y (sw_ft sw)) 0 - INR i * INR i) <= 1 /\ nth i (r_y (sw_at sw)) 0 = 2 * INR i /\
      Rabs (nth i (r_y (sw_rel sw)) 0 - 2 * INR i * sin (2 * PI * (INR i ^ 3 / 3))) <= 2 * INR i * (2 * PI * INR i * (1 / 6 + 1)).
Proof.
  intros int sc Hsc.
  assert (Sl : smooth_on (fun t => 2 * t) (fun _ => 2) 0 4 0).
  { split; [intros t _; auto_derive; [exact I|ring]|]. intros u v _ _. rewrite Rminus_eq_0, Rabs_R0. lra. }
  destruct (C83_sweep int sc (fun t => t * t) (fun t => 2 * t) (fun t => 2 * t) (fun _ => 2) 2 0 (rx_ 0 4 1) 4 3 2 0) as
    (g & sw & Eg & Es & _ & _ & _ & _ & _ & _ & H); try lia; try reflexivity; try assumption.
  - apply span_rx; cbn [INR]; lra.
  - apply smooth_square.
  - exists g, sw. split; [exact Eg|]. split; [exact Es|]. intros i Hi. specialize (H i Hi). cbv zeta in H.
    destruct H as (H1 & H2 & H3). rewrite square_integral in H3. unfold resampling_error in *. cbn [Nat.eqb Nat.add Nat.sub INR rx_ a_end a_sample] in *.
    replace (INR i * 1) with (INR i) in * by ring. change (val RV) with R in *. change (num RA) with R in *.
    assert (Z0 : 0 / 8 * (4 / 1) ^ 2 = 0) by field.
    assert (E2 : nth i (r_y (sw_at sw)) 0 = 2 * INR i).
    { apply Rminus_diag_uniq. apply Rabs_eq_0. apply Rle_antisym; [|apply Rabs_pos]. eapply Rle_trans; [exact H2|]. right. exact Z0. }
    split; [eapply Rle_trans; [exact H1|]; right; field|]. split; [exact E2|]. match type of H3 with _ <= Rabs ?q * _ => change (q = 2 * INR i) in E2 end. rewrite E2 in H3. pose proof (pos_INR i). rewrite (Rabs_right (2 * INR i)) in H3 by lra.
    replace (2 * PI * (INR i ^ 3 / 3)) with (2 * PI * ((INR i ^ 3 - 0 ^ 3) / 3) + 0) by field.
    eapply Rle_trans; [exact H3|]. right. field.
Qed.
