(** Property theorems C94: filters and reverse signals.  Notations as in PropsFourier.v. *)
From Coq Require Import Reals ZArith List Bool Lia Lra.
From Coquelicot Require Import Complex.
From Verif Require Import Num Numpy Spec AxisModel RelModel HeapModel RLemmas AxisLemmas InterpLemmas VInst
  RelLemmas RelLemmas2 FourierSpec FourierModel DftLemmas FourierLemmas FourierLemmas2 FourierLemmas3 FourierLemmas5
  SpectrumLemmas SpectrumLemmas2 DeconvSpec DeconvLemmas PropsFourier PropsFourier2.
Import ListNotations.
Local Open Scope R_scope.
(** [Signal.get_reverse_signal] of a signal with the given spectrum, phase subtracted *)
Notation reverse_signal := (fun percent lo hi signal spectrum => val_reverse_signal RA CV CF fourier_config percent true lo hi signal spectrum).

(** ** C94 filters and reverse signals *)
(** multiplying the spectrum of [u] by any filter is the circular convolution of [u] and the filter's signal *)
Theorem C94_filter : forall (x : raxis) (u : list R) (z same : bool) (S H : crel), (2 <= length u)%nat -> a_start x = 0 ->
  exact_span (a_start x) (a_end x) (a_sample x) (length u - 1) ->
  get_spectrum (content x (reals u)) (DNone RA) z = Ok S -> valid H -> r_x H = r_x S ->
  exists v w P, get_signal H (DAxis RA x) None = Ok (content x (reals v)) /\
    times same S H = Ok P /\ get_signal P (DAxis RA x) None = Ok (content x (reals w)) /\ circular u v w.
Proof. exact filter_circular. Qed.
Print Assumptions C94_filter.
(** a signal and its reverse signal: the circular convolution is a symmetric pulse at time 0 *)
Theorem C94_pulse : forall (x : raxis) (u : list R) (percent : R) (z : bool), (2 <= length u)%nat -> a_start x = 0 ->
  exact_span (a_start x) (a_end x) (a_sample x) (length u - 1) -> 0 < percent -> (exists t, In t u /\ t <> 0) ->
  exists S v w, get_spectrum (content x (reals u)) (DNone RA) z = Ok S /\
    reverse_signal percent None None (content x (reals u)) S = Ok (content x (reals v)) /\
    length v = length u /\ circular u v w /\ pulse w.
Proof. exact whole_pulse. Qed.
Print Assumptions C94_pulse.
(** the same for the frequencies up to [hi], when the signal has any of them *)
Theorem C94_pulse_up_to : forall (x : raxis) (u : list R) (percent hi : R) (z : bool) (k : nat), (2 <= length u)%nat -> a_start x = 0 ->
  exact_span (a_start x) (a_end x) (a_sample x) (length u - 1) -> 0 < percent ->
  (k <= length u / 2)%nat -> INR k / (INR (length u) * a_sample x) <= hi -> fourier_at u k <> RtoC 0 ->
  exists S v w, get_spectrum (content x (reals u)) (DNone RA) z = Ok S /\
    reverse_signal percent None (Some hi) (content x (reals u)) S = Ok (content x (reals v)) /\
    length v = length u /\ circular u v w /\ pulse w.
Proof. exact low_pulse. Qed.
Print Assumptions C94_pulse_up_to.
(** but not for the frequencies from [lo] on, although the signal has no others: the frequencies of the reverse
    signal are moved down to 0, and the convolution vanishes *)
Theorem C94_pulse_from_refuted : exists (x : raxis) (u : list R) (percent lo : R) (S : crel) (v w : list R),
  a_start x = 0 /\ length u = 2%nat /\ exact_span (a_start x) (a_end x) (a_sample x) (length u - 1) /\ 0 < percent /\
  (forall k, INR k / (INR (length u) * a_sample x) < lo -> fourier_at u k = RtoC 0) /\ (exists t, In t u /\ t <> 0) /\
  get_spectrum (content x (reals u)) (DNone RA) false = Ok S /\
  reverse_signal percent (Some lo) None (content x (reals u)) S = Ok (content x (reals v)) /\
  circular u v w /\ w = [0; 0].
Proof. exact from_refuted. Qed.
Print Assumptions C94_pulse_from_refuted.
Example C94_case : exists S v w, get_spectrum (content ex4 (reals [0; 2; -1; 0])) (DNone RA) false = Ok S /\
  reverse_signal 1 None None (content ex4 (reals [0; 2; -1; 0])) S = Ok (content ex4 (reals v)) /\
  length v = 4%nat /\ circular [0; 2; -1; 0] v w /\ pulse w.
Proof.
  apply (C94_pulse ex4 [0; 2; -1; 0] 1 false); [cbn; lia|reflexivity|exact ex4_exact|lra|]. exists 2. split; [right; left; reflexivity|lra].
Qed.
(** pulses are more than the constant 0 and less than everything *)
Example C94_case_pulse : pulse [/ 2; / 4; - / 8; / 4] /\ ~ pulse [0; 0; 0; 0] /\ ~ pulse [/ 4; / 2; / 2; / 2] /\ ~ pulse [/ 2; / 4; 0; 0].
Proof.
  split; [|split; [|split]].
  - split; [cbn; lra|]. split.
    + intros i Hi. cbn [length] in Hi. destruct i as [|[|[|[|i]]]]; cbn; try lra; lia.
    + intros i [H1 H2]. cbn [length] in H2. destruct i as [|[|[|[|i]]]]; cbn; try lra; lia.
  - intros [[H _] _]. cbn in H. lra.
  - intros (_ & H & _). specialize (H 1%nat ltac:(cbn; lia)). cbn in H. lra.
  - intros (_ & _ & H). specialize (H 1%nat ltac:(cbn; lia)). cbn in H. lra.
Qed.
