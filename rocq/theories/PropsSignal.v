(** C62: methods of signal and spectrum objects, in every reachable state, compute what the functions of
    FourierModel.v compute on the contents.  Together with the theorems on those functions (PropsFourier.v)
    this gives the effect of the methods on objects.  Remembered conversions are taken into account
    ([spectrum_seen], [argument_seen] in SignalSpec.v).  [chk] adds the checks of the constructor of Sweep. *)
From Coq Require Import ZArith QArith Reals List Bool Lia.
From Verif Require Import Num Numpy AxisModel RelModel HeapModel HeapSpec FourierModel SignalSpec
  HeapLemmas2 HeapLemmas5 HeapLemmas8.
Import ListNotations.

Notation one_out k v := (do c' <- v; Ok [(Some k, Some c')]).

Theorem C62_get_spectrum : forall A V F (h : heap A V) r k c cf d dv z, reachable A V F h ->
  rel_view A V h r = Some c -> cls_of A V h r = Some k -> is_sig k = true -> cfg_of A V h r = Some cf ->
  keeps_axis A V cf -> remembered A V h r = None \/ dom_true d = true -> arg_dom A V h d dv ->
  outcome A V F (OGetSpectrum A V r d z) h = one_out KSpec (val_spectrum A V cf c dv z).
Proof. exact get_spectrum_value. Qed.
Print Assumptions C62_get_spectrum.
Theorem C62_get_signal : forall A V F (h : heap A V) r c cf d dv st, reachable A V F h ->
  rel_view A V h r = Some c -> cls_of A V h r = Some KSpec -> cfg_of A V h r = Some cf ->
  keeps_axis A V cf -> remembered A V h r = None \/ dom_true d = true -> arg_dom A V h d dv ->
  outcome A V F (OGetSignal A V r d st) h = one_out KSig (val_signal A V cf c dv st).
Proof. exact get_signal_value. Qed.
Print Assumptions C62_get_signal.
Theorem C62_signal_spectra : forall A V F (h : heap A V) r k c, reachable A V F h ->
  rel_view A V h r = Some c -> cls_of A V h r = Some k -> is_sig k = true ->
  outcome A V F (OGetSpectrum A V r DaNone false) h = one_out KSpec (spectrum_seen A V h r) /\
  outcome A V F (OSigAmp A V r DaNone false) h = one_out KRel (do s <- spectrum_seen A V h r; val_amp A V F s) /\
  outcome A V F (OSigPhase A V r DaNone false) h = one_out KRel (do s <- spectrum_seen A V h r; val_phase A V F s).
Proof. exact signal_spectra. Qed.
Print Assumptions C62_signal_spectra.
Theorem C62_amplitude_phase : forall A V F (h : heap A V) r c, reachable A V F h ->
  rel_view A V h r = Some c -> cls_of A V h r = Some KSpec ->
  outcome A V F (OAmp A V r) h = one_out KRel (val_amp A V F c) /\
  outcome A V F (OPhase A V r) h = one_out KRel (val_phase A V F c) /\
  (forall percent subtract f0 f1, outcome A V F (OReverseFilter A V r percent subtract f0 f1) h =
     one_out KSpec (val_reverse_filter A V F (h_cfg h) percent subtract f0 f1 c)) /\
  (forall o r2 c2, rel_view A V h r2 = Some c2 -> o = ADD \/ o = SUB ->
     outcome A V F (match o with ADD => OAddPhase A V r (HRel r2) | _ => OSubPhase A V r (HRel r2) end) h =
     one_out KSpec (do t <- argument_seen A V h r2; val_spec_phase A V F (h_cfg h) o c t)).
Proof.
  intros A V F h r c R H1 H2. split; [exact (spectrum_amp A V F h r KSpec c R H1 H2 eq_refl)|].
  split; [exact (spectrum_phase A V F h r KSpec c R H1 H2 eq_refl)|].
  split; [intros; exact (spectrum_reverse A V F h r KSpec c R H1 H2 _ _ _ _ eq_refl)|].
  intros o r2 c2. exact (spectrum_moved A V F h r KSpec c R H1 H2 o r2 c2 eq_refl).
Qed.
Print Assumptions C62_amplitude_phase.
Theorem C62_from_amp_phase : forall A V F (h : heap A V) am ph a p, reachable A V F h ->
  rel_view A V h am = Some a -> rel_view A V h ph = Some p ->
  cls_of A V h am = Some KRel -> cls_of A V h ph = Some KRel ->
  cfg_of A V h am = Some (h_cfg h) -> cfg_of A V h ph = Some (h_cfg h) ->
  outcome A V F (OFromAmpPhase A V am ph) h = one_out KSpec (val_from_amp_phase A V F (h_cfg h) a p).
Proof. exact spectrum_rebuilt. Qed.
Print Assumptions C62_from_amp_phase.
Theorem C62_signal_methods : forall A V F (h : heap A V) r k c n, reachable A V F h ->
  rel_view A V h r = Some c -> cls_of A V h r = Some k -> is_sig k = true ->
  axis_size A (r_x c) = Ok n -> keeps_axis A V (h_cfg h) ->
  let out v := one_out k (chk A V k (h_scfg h) v) in
  (forall d, outcome A V F (OShift A V r d) h =
     out (do s <- spectrum_seen A V h r; val_sig_shift A V F (h_cfg h) d c s)) /\
  (forall percent subtract f0 f1, outcome A V F (OReverseSignal A V r percent subtract f0 f1) h =
     out (do s <- spectrum_seen A V h r; val_reverse_signal A V F (h_cfg h) percent subtract f0 f1 c s)) /\
  (forall o r2 c2, rel_view A V h r2 = Some c2 -> o = ADD \/ o = SUB ->
     outcome A V F (match o with ADD => OAddPhase A V r (HRel r2) | _ => OSubPhase A V r (HRel r2) end) h =
     out (do s <- spectrum_seen A V h r; do t <- argument_seen A V h r2; val_sig_phase A V F (h_cfg h) o c s t)).
Proof.
  intros A V F h r k c n R H1 H2 Hs Hn HK out. split; [intros d; exact (signal_shift A V F h r k c n R H1 H2 d Hs Hn HK)|].
  split; [intros; exact (signal_reverse A V F h r k c n R H1 H2 _ _ _ _ Hs Hn HK)|].
  intros o r2 c2. exact (signal_phase A V F h r k c n R H1 H2 o r2 c2 Hs Hn HK).
Qed.
Print Assumptions C62_signal_methods.
Theorem C62_correlate_convolve : forall A V F (h : heap A V) l r1 r2 c1 c2 n1 n2 sp1 sp2, reachable A V F h ->
  rel_view A V h r1 = Some c1 -> cls_of A V h r1 = Some KSig -> rel_view A V h r2 = Some c2 -> cls_of A V h r2 = Some KSig ->
  axis_size A (r_x c1) = Ok n1 -> axis_size A (r_x c2) = Ok n2 -> keeps_axis A V (h_cfg h) ->
  lag_method A V l (h_cfg h) = None -> spectrum_seen A V h r1 = Ok sp1 -> spectrum_seen A V h r2 = Ok sp2 ->
  outcome A V F (OLagged A V l KSig (HRel r1) (HRel r2)) h =
  one_out KSig (val_sig_lagged A V F (h_cfg h) (match l with LCorr => np_correlate A V | LConv => np_convolve A V end) c1 sp1 c2 sp2).
Proof. exact signal_lagged. Qed.
Print Assumptions C62_correlate_convolve.
(** the hypothesis on the methods holds for the default ones *)
Theorem C62_default_methods_keep_axis : keeps_axis RA CV fourier_config.
Proof. exact default_keeps_axis. Qed.
Print Assumptions C62_default_methods_keep_axis.

(** *** Case: a made-up invertible pair of conversions (samples doubled and halved), two signals on
    different axes, one of them with its conversion remembered and then changed *)
Definition sc : hconfig QA QV :=
  mkHconfig QA QV (default_config QA QV)
    (fun c d _ => Ok (match d with DAxis q => q | _ => r_x c end, map (fun v => v * 2)%Q (r_y c)))
    (fun c d _ => Ok (match d with DAxis q => q | _ => r_x c end, map (fun v => v / 2)%Q (r_y c))) None None.
Lemma sc_keeps : keeps_axis QA QV sc.
Proof. split; intros c q z p y [= <- _]; reflexivity. Qed.
Definition sF : vfun QA QV :=
  mkVfun QA QV (fun v => v) (fun l => l) (fun v => v) (fun f d => (f + d)%Q) (1:Q) (fun v p => (v * p / 100)%Q).
Definition sax (s e d : Q) : axis QA := mkAxis (A:=QA) s e d.
Definition s0 : heap QA QV := empty_heap QA QV sc (mkSconfig QA QV (fun c => Ok (r_y c)) (fun c => Ok (r_y c)) (fun _ => Ok tt)).
Definition s1 : heap QA QV := run QA QV sF
  [ONewAxis QA QV (sax 0 3 1); ONewAxis QA QV (sax 1 3 1);
   ONew QA QV KSig (XaAxis 0%nat) (Some [1;2;4;8]%Q); ONew QA QV KSig (XaAxis 1%nat) (Some [1;0;1]%Q);
   OGetSpectrum QA QV 0%nat DaNone false; OWriteY QA QV 0%nat 0%nat (5:Q)] s0.
Definition ys (x : result (list (option cls * option (rel QA QV)))) : result (list (option (list Q))) :=
  match x with Ok l => Ok (map (fun p => option_map (fun c : rel QA QV => map Qred (r_y c : list Q)) (snd p)) l) | Err e => Err e end.
Definition spectrum_y (h : heap QA QV) (r : loc) : option (list Q) :=
  match spectrum_seen QA QV h r with Ok s => Some (r_y s) | Err _ => None end.
Example C62_case :
  option_map r_y (rel_view QA QV s1 0%nat) = Some [5;2;4;8]%Q /\
  spectrum_y s1 0%nat = Some [2;4;8;16]%Q /\ spectrum_y s1 1%nat = Some [2;0;2]%Q /\
  remembered QA QV s1 1%nat = None /\ remembered QA QV s1 0%nat = Some 2%nat /\
  ys (outcome QA QV sF (OGetSpectrum QA QV 0%nat DaNone false) s1) = Ok [Some [2;4;8;16]%Q] /\
  ys (outcome QA QV sF (OGetSpectrum QA QV 0%nat (DaInt 4) false) s1) = Ok [Some [10;4;8;16]%Q] /\
  ys (outcome QA QV sF (OShift QA QV 0%nat (2:Q)) s1) = Ok [Some [4;14;48;168]%Q].
Proof. repeat split; vm_compute; reflexivity. Qed.
