(** Property theorems on correlation with a source (relation.py 380-423, methods.py 184-225): C82.

    [delayed], [echoes] and [mix] are in DelaySpec.v, [corr_at] and [at0] in Spec.v. *)
From Coq Require Import Reals ZArith QArith List Bool Lia Lra.
From Coquelicot Require Import Complex.
From Verif Require Import Num Numpy Spec AxisModel RelModel RLemmas AxisLemmas InterpLemmas VInst RelLemmas RelLemmas2 RelLemmas3
  CorrLemmas DelaySpec DelayLemmas FourierSpec FourierModel DftLemmas FourierLemmas FourierLemmas2 SpectrumLemmas SpectrumLemmas2 FourierLemmas3 FourierLemmas4 HeapModel PropsRel PropsFourier.
Import ListNotations.
Local Open Scope R_scope.

(** ** C82 correlation with a source *)

(** where the two relations start does not matter, so a delay made with [Relation.shift] is not seen *)
Theorem C82_start_times : forall (V : Vals RA) cfg (d1 d2 : R) (r1 r2 s1 s2 : rel RA V),
  rel_shift RA V d1 r1 = Ok s1 -> rel_shift RA V d2 r2 = Ok s2 ->
  rel_correlate RA V cfg s1 s2 = rel_correlate RA V cfg r1 r2 /\
  rel_convolve RA V cfg s1 s2 = rel_convolve RA V cfg r1 r2.
Proof. intros V cfg d1 d2 r1 r2 s1 s2 H1 H2. split; exact (lagged_shifts cfg _ d1 d2 r1 r2 s1 s2 H1 H2). Qed.
Print Assumptions C82_start_times.

(** a record that superposes echoes of the source gives the same echoes of the autocorrelation *)
Theorem C82_echoes : forall (V : Vals RA) (L : VLaws V) (CL : CLaws V) es (s r a : rel RA V),
  valid s -> valid r -> r_x r = r_x s -> echoes es (r_y s) (r_y r) ->
  rel_correlate RA V (default_config RA V) s s = Ok a ->
  exists r', rel_correlate RA V (default_config RA V) r s = Ok r' /\ r_x r' = r_x a /\ echoes es (r_y a) (r_y r').
Proof.
  intros V L CL es s r a Vs Vr Hx He Ea. destruct (same_axis_ok L CL s r a Vs Vr Hx Ea) as [r' E].
  exists r'. split; [exact E|]. exact (correlate_echoes L CL es s r a r' Vs Vr Hx Ea E He).
Qed.
Print Assumptions C82_echoes.
(** in particular a delayed copy gives the delayed autocorrelation *)
Theorem C82_delay : forall (V : Vals RA) (L : VLaws V) (CL : CLaws V) k (s r a : rel RA V),
  valid s -> valid r -> r_x r = r_x s -> delayed k (r_y s) (r_y r) ->
  rel_correlate RA V (default_config RA V) s s = Ok a ->
  exists r', rel_correlate RA V (default_config RA V) r s = Ok r' /\ r_x r' = r_x a /\ delayed k (r_y a) (r_y r').
Proof.
  intros V L CL k s r a Vs Vr Hx Hd Ea.
  destruct (C82_echoes V L CL [(k, v_of V 1)] s r a Vs Vr Hx (delayed_mix L _ _ _ Hd) Ea) as (r' & E & X & H).
  exists r'. split; [exact E|]. split; [exact X|]. apply (mix_delayed L). exact H.
Qed.
Print Assumptions C82_delay.

(** the largest value stands at the delay and nowhere else *)
Theorem C82_peak_real : forall k (s r r' : rel RA RV), valid s -> valid r -> r_x r = r_x s ->
  delayed k (r_y s) (r_y r) -> (exists v, In v (r_y s) /\ v <> 0) ->
  rel_correlate RA RV (default_config RA RV) r s = Ok r' ->
  let n := length (r_y s) in let T := a_end (r_x s) - a_start (r_x s) in
  let E := vsum (V:=RV) (fun i => nth i (r_y s) 0 * nth i (r_y s) 0) n in
  exists p, Z.of_nat p = (Z.of_nat n - 1 + k)%Z /\ nth_error (r_y r') p = Some E /\
    (forall i v, nth_error (r_y r') i = Some v -> i <> p -> Rabs v < E) /\
    ((2 <= n)%nat -> exists xs, axis_array RA (r_x r') = Ok xs /\ nth_error xs p = Some (IZR k * (T / INR (n - 1)))).
Proof.
  intros k s r r' Vs Vr Hx Hd Hne E n T EE.
  assert (H0 : corr_at (V:=RV) (r_y s) (r_y s) 0 = EE) by apply (auto_peak_real _ 0).
  assert (Hp : 0 <= EE). { destruct (auto_peak_real (r_y s) 0) as [H1 _]. pose proof (Rabs_pos (corr_at (V:=RV) (r_y s) (r_y s) 0)). eapply Rle_trans; eassumption. }
  destruct (correlate_peak RV_laws RV_claws Rabs (fun y lag Hy Hl => Rlt_le_trans _ _ _ (auto_strict_real y lag Hy Hl) (Rle_abs _)) k s r r' Vs Vr Hx E Hd Hne) as (p & H1 & H2 & H3 & H4).
  rewrite H0 in H2, H3. rewrite (Rabs_right EE) in H3 by lra. exists p. split; [exact H1|]. split; [exact H2|]. split; [exact H3|exact H4].
Qed.
Print Assumptions C82_peak_real.
Theorem C82_peak_complex : forall k (s r r' : rel RA CV), valid s -> valid r -> r_x r = r_x s ->
  delayed k (r_y s) (r_y r) -> (exists v, In v (r_y s) /\ v <> RtoC 0) ->
  rel_correlate RA CV (default_config RA CV) r s = Ok r' ->
  let n := length (r_y s) in let T := a_end (r_x s) - a_start (r_x s) in
  let E := vsum (V:=RV) (fun i => Cmod (nth i (r_y s) (RtoC 0)) * Cmod (nth i (r_y s) (RtoC 0))) n in
  exists p, Z.of_nat p = (Z.of_nat n - 1 + k)%Z /\ nth_error (r_y r') p = Some (RtoC E) /\
    (forall i v, nth_error (r_y r') i = Some v -> i <> p -> Cmod v < E) /\
    ((2 <= n)%nat -> exists xs, axis_array RA (r_x r') = Ok xs /\ nth_error xs p = Some (IZR k * (T / INR (n - 1)))).
Proof.
  intros k s r r' Vs Vr Hx Hd Hne E n T EE.
  assert (H0 : corr_at (V:=CV) (r_y s) (r_y s) 0 = RtoC EE) by apply (auto_peak_complex _ 0).
  assert (Hp : 0 <= EE). { destruct (auto_peak_complex (r_y s) 0) as [H1 _]. pose proof (Cmod_ge_0 (corr_at (V:=CV) (r_y s) (r_y s) 0)). eapply Rle_trans; eassumption. }
  destruct (correlate_peak CV_laws CV_claws Cmod auto_strict_complex k s r r' Vs Vr Hx E Hd Hne) as (p & H1 & H2 & H3 & H4).
  rewrite H0 in H2, H3. rewrite Cmod_R, (Rabs_right EE) in H3 by lra. exists p. split; [exact H1|]. split; [exact H2|]. split; [exact H3|exact H4].
Qed.
Print Assumptions C82_peak_complex.

(** no correlation exceeds the geometric mean of the two energies *)
Theorem C82_bound_real : forall (r1 r2 r' : rel RA RV) v, valid r1 -> valid r2 -> r_x r1 = r_x r2 ->
  rel_correlate RA RV (default_config RA RV) r1 r2 = Ok r' -> In v (r_y r') ->
  v * v <= vsum (V:=RV) (fun i => nth i (r_y r1) 0 * nth i (r_y r1) 0) (length (r_y r1)) *
           vsum (V:=RV) (fun i => nth i (r_y r2) 0 * nth i (r_y r2) 0) (length (r_y r2)).
Proof. exact correlate_bound_real. Qed.
Print Assumptions C82_bound_real.
Theorem C82_bound_complex : forall (r1 r2 r' : rel RA CV) v, valid r1 -> valid r2 -> r_x r1 = r_x r2 ->
  rel_correlate RA CV (default_config RA CV) r1 r2 = Ok r' -> In v (r_y r') ->
  Cmod v * Cmod v <= vsum (V:=RV) (fun i => Cmod (nth i (r_y r1) (RtoC 0)) * Cmod (nth i (r_y r1) (RtoC 0))) (length (r_y r1)) *
                     vsum (V:=RV) (fun i => Cmod (nth i (r_y r2) (RtoC 0)) * Cmod (nth i (r_y r2) (RtoC 0))) (length (r_y r2)).
Proof. exact correlate_bound_complex. Qed.
Print Assumptions C82_bound_complex.

(** signals: here [shift] moves the samples, and a source that ends in enough zeros is found at the delay *)
Theorem C82_signal : forall (x : raxis) (u : list R) (z : bool) (m : nat), (2 <= length u)%nat -> a_start x = 0 ->
  exact_span (a_start x) (a_end x) (a_sample x) (length u - 1) ->
  (m <= length u)%nat -> (forall i, (length u - m <= i < length u)%nat -> nth_error u i = Some 0) -> (exists v, In v u /\ v <> 0) ->
  let E := vsum (V:=RV) (fun i => nth i u 0 * nth i u 0) (length u) in
  exists w y, signal_shift (INR m * a_sample x) z (content x (reals u)) = Ok (content x (reals w)) /\
    delayed (V:=RV) (Z.of_nat m) u w /\
    signal_lagged (np_correlate RA CV) z (content x (reals w)) (content x (reals u))
      = Ok (content (ax (- a_end x) (a_end x) (a_sample x)) y) /\
    nth_error y (length u - 1 + m) = Some (RtoC E) /\
    (forall i v, nth_error y i = Some v -> i <> (length u - 1 + m)%nat -> Cmod v < E).
Proof.
  intros x u z m Hu Hs Hx Hm Hz Hne E.
  destruct (C35_shift x u z (Z.of_nat m) Hu Hs Hx) as (w & Hw & Hr). rewrite <- INR_IZR_INZ in Hw.
  pose proof (rotated_delayed RV m u w Hm Hz Hr) as Hd.
  assert (Lw : @length R w = @length R u) by exact (proj1 Hd).
  destruct (C28_start_zero (np_correlate RA CV) x w u z (or_introl eq_refl)) as (y & Ey & Hl).
  { rewrite Lw. exact Hu. } { symmetry. exact Lw. } { exact Hs. } { rewrite Lw. exact Hx. }
  exists w, y. split; [exact Hw|]. split; [exact Hd|]. split; [exact Hl|].
  exact (signal_peak m u w y Hm Hd Hne Ey).
Qed.
Print Assumptions C82_signal.
(** without the zeros at the end the samples come round: the largest value is elsewhere *)
Theorem C82_signal_wraps_refuted :
  ~ (forall (x : raxis) (u : list R) (z : bool) (m : nat), (2 <= length u)%nat -> a_start x = 0 ->
     exact_span (a_start x) (a_end x) (a_sample x) (length u - 1) -> (m < length u)%nat -> (exists v, In v u /\ v <> 0) ->
     forall c r, signal_shift (INR m * a_sample x) z (content x (reals u)) = Ok c ->
       signal_lagged (np_correlate RA CV) z c (content x (reals u)) = Ok r ->
       nth_error (r_y r) (length u - 1 + m) = Some (RtoC (vsum (V:=RV) (fun i => nth i u 0 * nth i u 0) (length u)))).
Proof.
  intros H.
  assert (Hs : signal_shift (INR 1 * a_sample ex4) false (content ex4 (reals [0; 0; 0; 1])) = Ok (content ex4 (reals [1; 0; 0; 0]))).
  { destruct (C35_shift ex4 [0; 0; 0; 1] false 1) as (w & H1 & H2); [cbn; lia|reflexivity|exact ex4_exact|].
    rewrite INR_IZR_INZ. change (Z.of_nat 1) with 1%Z. rewrite H1. do 3 f_equal. refine (rotated_unique _ _ _ _ H2 _).
    split; [reflexivity|]. intros [|[|[|[|i]]]] Hi; try reflexivity. cbn in Hi. lia. }
  destruct (C28_start_zero (np_correlate RA CV) ex4 [1; 0; 0; 0] [0; 0; 0; 1] false (or_introl eq_refl)) as (y & Ey & Hl);
    [cbn; lia|reflexivity|reflexivity|exact ex4_exact|].
  specialize (H ex4 [0; 0; 0; 1] false 1%nat ltac:(cbn; lia) eq_refl ex4_exact ltac:(cbn; lia)).
  assert (Hne : exists v, In v [0; 0; 0; 1] /\ v <> 0) by (exists 1; split; [cbn; tauto | lra]).
  specialize (H Hne _ _ Hs Hl).
  destruct (C28_sums (reals [1; 0; 0; 0]) (reals [0; 0; 0; 1])) as [(y' & Ey' & Ly & Hy) _]; try discriminate.
  rewrite Ey in Ey'. injection Ey' as <-.
  cbn [r_y length Nat.sub Nat.add] in H. pose proof (nth_nth_error _ _ (RtoC 0) _ H) as H'. rewrite Hy in H' by (rewrite Ly; cbn; lia).
  unfold corr_at, at0, reals in H'. cbn in H'. unfold Pos.to_nat in H'.
  apply (f_equal fst) in H'. cbn in H'. lra.
Qed.
Print Assumptions C82_signal_wraps_refuted.

(** cases: a source of two samples, delayed by two places, and a record with two echoes *)
Example C82_case :
  ys_of (rel_correlate QA QV (default_config QA QV) (qrel 0 4 1 [0; 0; 1; 2; 0]%Q) (qrel 0 4 1 [1; 2; 0; 0; 0]%Q))
    = [0; 0; 0; 0; 0; 2; 5; 2; 0]%Q /\
  ys_of (rel_correlate QA QV (default_config QA QV) (qrel 0 4 1 [1; 2; 3; 6; 0]%Q) (qrel 0 4 1 [1; 2; 0; 0; 0]%Q))
    = [0; 0; 0; 2; 5; 8; 15; 6; 0]%Q /\
  ys_of (rel_correlate QA QV (default_config QA QV) (qrel 2 6 1 [1; 2; 0; 0; 0]%Q) (qrel 0 4 1 [1; 2; 0; 0; 0]%Q))
    = [0; 0; 0; 2; 5; 2; 0; 0; 0]%Q.
Proof. split; [|split]; vm_compute; reflexivity. Qed.
Example C82_case_delayed : delayed (V:=RV) 2 [1; 2; 0; 0; 0] [0; 0; 1; 2; 0] /\ echoes (V:=RV) [(0%Z, 1); (2%Z, 3)] [1; 2; 0; 0; 0] [1; 2; 3; 6; 0].
Proof.
  assert (D : delayed (V:=RV) 2 [1; 2; 0; 0; 0] [0; 0; 1; 2; 0]) by exact (delayed_pad (V:=RV) 2 [1; 2; 0]).
  split; [exact D|]. split; [reflexivity|]. intros z. cbn [mix]. destruct D as [_ D]. rewrite <- D, Z.sub_0_r.
  destruct (Z_le_dec 0 z) as [H0|H0]; [destruct (Z_lt_dec z 5) as [H1|H1]|].
  - assert (H : (z = 0 \/ z = 1 \/ z = 2 \/ z = 3 \/ z = 4)%Z) by lia.
    destruct H as [->|[->|[->|[->| ->]]]]; unfold at0; cbn; unfold Pos.to_nat; cbn; lra.
  - rewrite !(at0_out (V:=RV)) by (cbn; lia). cbn. lra.
  - rewrite !(at0_out (V:=RV)) by (cbn; lia). cbn. lra.
Qed.
