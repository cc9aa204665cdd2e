(** Theorems about errors in spectra and signals: C91. *)
From Coq Require Import Reals ZArith List Bool Lra Lia.
From Coquelicot Require Import Complex.
From Verif Require Import Num Numpy Spec AxisModel RelModel HeapModel VInst FourierSpec FourierModel FourierLemmas InexactSpec InexactLemmas.
Import ListNotations.
Local Open Scope R_scope.

(** ** C91 errors of samples and transforms *)
(** Signals of the same length on the same axis: no value of their spectra differs by more than the sum of the differences of the samples. *)
Theorem C91_get_spectrum : forall (x : axis RA) (y y' : list C) d z S, length y' = length y ->
  val_spectrum RA CV fourier_config (mkRel (V:=CV) x y) d z = Ok S ->
  exists S', val_spectrum RA CV fourier_config (mkRel (V:=CV) x y') d z = Ok S' /\ r_x S' = r_x S /\ off (distance y y') (r_y S) (r_y S').
Proof.
  intros x y y' d z S L. unfold val_spectrum. cbn [fourier_config hc_s2s].
  destruct (signal2spectrum (mkRel (V:=CV) x y) d z) as [[f w]|] eqn:E; [|discriminate]. cbn [bind fst snd]. intros M.
  destruct (s2s_off x y y' d z f w L E) as (w' & E' & O). rewrite E'. cbn [bind fst snd]. destruct (make_off _ _ _ _ _ O M) as [-> ->].
  eexists. split; [reflexivity|]. split; [reflexivity|exact O].
Qed.
Print Assumptions C91_get_spectrum.
(** The way back never enlarges an error: spectra off by at most [e] have signals off by at most [e]. *)
Theorem C91_get_signal : forall (x : axis RA) (X X' : list C) e d st w, 0 <= e -> off e X X' ->
  val_signal RA CV fourier_config (mkRel (V:=CV) x X) d st = Ok w ->
  exists w', val_signal RA CV fourier_config (mkRel (V:=CV) x X') d st = Ok w' /\ r_x w' = r_x w /\ off e (r_y w) (r_y w').
Proof.
  intros x X X' e d st w He O. unfold val_signal. cbn [fourier_config hc_sp2s].
  destruct (spectrum2signal (mkRel (V:=CV) x X) d st) as [[t v]|] eqn:E; [|discriminate]. cbn [bind fst snd]. intros M.
  destruct (sp2s_off e x X X' d st t v He O E) as (v' & E' & O'). rewrite E'. cbn [bind fst snd]. destruct (make_off _ _ _ _ _ O' M) as [-> ->].
  eexists. split; [reflexivity|]. split; [reflexivity|exact O'].
Qed.
Print Assumptions C91_get_signal.
(** With transforms that are off by [e1] and [e2] (rounding in a fast Fourier transform): where the exact ones succeed these do, on the same
    axes, and a signal taken to its spectrum and back is off by at most [e1 + e2]. *)
Theorem C91_there_and_back : forall e1 e2 cfg, inexact e1 e2 cfg -> forall c d z S d' st w,
  val_spectrum RA CV fourier_config c d z = Ok S -> val_signal RA CV fourier_config S d' st = Ok w ->
  exists S' w', val_spectrum RA CV cfg c d z = Ok S' /\ val_signal RA CV cfg S' d' st = Ok w' /\ r_x w' = r_x w /\
    off (e1 c + e2 S') (r_y w) (r_y w').
Proof. exact round_trip_inexact. Qed.
Print Assumptions C91_there_and_back.
Theorem C91_round_trip : forall e1 e2 cfg, inexact e1 e2 cfg -> forall (x : axis RA) (u : list R) z, (2 <= length u)%nat -> a_start x = 0 ->
  exact_span (a_start x) (a_end x) (a_sample x) (length u - 1) ->
  exists S' w', val_spectrum RA CV cfg (mkRel (V:=CV) x (map RtoC u)) (DNone RA) z = Ok S' /\
    val_signal RA CV cfg S' (DAxis RA x) None = Ok w' /\ r_x w' = x /\
    off (e1 (mkRel (V:=CV) x (map RtoC u)) + e2 S') (map RtoC u) (r_y w').
Proof.
  intros e1 e2 cfg HI x u z Hu Hs Hx. destruct (round_trip_zero x u z Hu Hs Hx) as (S & E1 & E2).
  destruct (round_trip_inexact e1 e2 cfg HI _ _ _ _ _ _ _ E1 E2) as (S' & w' & A & B & X & O). exists S', w'. auto.
Qed.
Print Assumptions C91_round_trip.
(** [Signal.shift] goes through amplitude and phase and back, and still is off by no more than the two transforms: [T] is the shifted
    spectrum, as large as the computed one at every frequency. *)
Theorem C91_shift : forall e1 e2 cfg, inexact e1 e2 cfg -> forall c z s S w,
  val_spectrum RA CV fourier_config c (DNone RA) z = Ok S -> val_sig_shift RA CV CF fourier_config s c S = Ok w ->
  exists (S' T w' : rel RA CV), val_spectrum RA CV cfg c (DNone RA) z = Ok S' /\ r_x T = r_x S' /\ map Cmod (r_y T) = map Cmod (r_y S') /\
    val_sig_shift RA CV CF cfg s c S' = Ok w' /\ r_x w' = r_x w /\ off (e1 c + e2 T) (r_y w) (r_y w').
Proof. exact shift_inexact. Qed.
Print Assumptions C91_shift.
(** amplitude spectra do not enlarge errors *)
Theorem C91_amplitude : forall e (S S' A0 : rel RA CV), r_x S' = r_x S -> off e (r_y S) (r_y S') -> val_amp RA CV CF S = Ok A0 ->
  exists A', val_amp RA CV CF S' = Ok A' /\ r_x A' = r_x A0 /\ off e (r_y A0) (r_y A').
Proof. exact amp_off. Qed.
Print Assumptions C91_amplitude.
(** phase spectra do: spectra as near as one likes may differ in phase by more than pi *)
Theorem C91_phase_refuted : forall e, 0 < e -> exists (x : axis RA) (X X' : list C) (p q : R), off e X X' /\
  val_phase RA CV CF (mkRel (V:=CV) x X) = Ok (mkRel (V:=CV) x [RtoC p]) /\
  val_phase RA CV CF (mkRel (V:=CV) x X') = Ok (mkRel (V:=CV) x [RtoC q]) /\ PI < p - q.
Proof. exact phase_unstable. Qed.
Print Assumptions C91_phase_refuted.

(** transforms that get every sample wrong by a tenth *)
Definition wrong (r : result (axis RA * list C)) : result (axis RA * list C) :=
  do p <- r; Ok (fst p, map (fun v => Cplus v (RtoC (/ 10))) (snd p)).
Definition c91_cfg : hconfig RA CV :=
  mkHconfig RA CV (default_config RA CV) (fun c d z => wrong (signal2spectrum c d z)) (fun c d st => wrong (spectrum2signal c d st)) None None.
Example C91_case : inexact (fun _ => / 10) (fun _ => / 10) c91_cfg.
Proof.
  assert (O : forall y, off (/ 10) y (map (fun v => Cplus v (RtoC (/ 10))) y)).
  { induction y as [|v y IH]; cbn [map]; constructor; [|exact IH]. replace (Cminus (Cplus v (RtoC (/ 10))) v) with (RtoC (/ 10)) by ring. rewrite Cmod_R, Rabs_right; lra. }
  split; [reflexivity|]. split; [intros; lra|]. split; [intros; lra|]. split.
  - intros c d z x y E. exists (map (fun v => Cplus v (RtoC (/ 10))) y). split; [|apply O]. cbn [c91_cfg hc_s2s]. unfold wrong. rewrite E. reflexivity.
  - intros c d st x y E. exists (map (fun v => Cplus v (RtoC (/ 10))) y). split; [|apply O]. cbn [c91_cfg hc_sp2s]. unfold wrong. rewrite E. reflexivity.
Qed.
