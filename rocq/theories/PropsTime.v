(** Property theorems on the origin and the unit of time (methods.py 27-343, axis.py, relation.py 84-560, signal.py 86-261,
    spectrum.py 86-237, sweep_methods.py 173-257, uncalculated_sweep.py 64-165): C84.

    [retime], [retime_rel], [retime_p], [move_p], [retimed], [retime_dom] and [retime_sweep] are in TimeSpec.v. *)
From Coq Require Import Reals ZArith QArith List Bool Lia Lra Psatz.
From Coquelicot Require Import Coquelicot.
From Verif Require Import Num Numpy Spec AxisModel RelModel RLemmas AxisLemmas InterpLemmas VInst RelLemmas RelLemmas2 RelLemmas3
  HeapModel FourierModel SweepModel ProgModel ProgSpec PropsHeap PropsProg TimeSpec TimeLemmas TimeLemmas2.
Import ListNotations.
Local Open Scope R_scope.

(** ** C84 the origin and the unit of time do not matter *)

(** every operation on relations in the new time is the operation in the old time, converted *)
Theorem C84_operations : forall (V : Vals RA) (L : VLaws V) c d (r r1 r2 : rel RA V), 0 < c ->
  let K := default_config RA V in
  (forall nx, rel_interp RA V K (retime_axis c d nx) (retime_rel c d r) = res_map (retime_rel c d) (rel_interp RA V K nx r)) /\
  (forall same, rel_equalize RA V K same (retime_rel c d r1) (retime_rel c d r2)
     = res_map (fun p => (retime_rel c d (fst p), retime_rel c d (snd p))) (rel_equalize RA V K same r1 r2)) /\
  (forall o same, rel_op RA V K o same (retime_rel c d r1) (retime_rel c d r2) = res_map (retime_rel c d) (rel_op RA V K o same r1 r2)) /\
  (forall o b, rel_op_num RA V K o (retime_rel c d r) b = res_map (retime_rel c d) (rel_op_num RA V K o r b)) /\
  (forall s e, rel_select RA V (option_map (retime c d) s) (option_map (retime c d) e) (retime_rel c d r)
     = res_map (retime_rel c d) (rel_select RA V s e r)) /\
  (forall u, rel_shift RA V (c * u) (retime_rel c d r) = res_map (retime_rel c d) (rel_shift RA V u r)) /\
  (do q <- rel_diff RA V K (retime_rel c d r); rel_op_num RA V K MUL q (OVal (v_of V c))) = res_map (retime_rel c d) (rel_diff RA V K r) /\
  (do q <- rel_integrate RA V K (retime_rel c d r); rel_op_num RA V K TRUEDIV q (OVal (v_of V c)))
    = res_map (retime_rel c d) (rel_integrate RA V K r).
Proof.
  intros V L c d r r1 r2 Hc K. repeat split.
  - intros nx. apply (retime_interp L c d Hc).
  - intros same. apply (retime_equalize L c d Hc).
  - intros o same. apply (retime_op L c d Hc).
  - intros o b. apply (retime_op_num c d Hc).
  - intros s e. apply (retime_select c d Hc).
  - intros u. apply (retime_shift c d Hc).
  - apply (retime_diff L c d Hc).
  - apply (retime_int L c d Hc).
Qed.
Print Assumptions C84_operations.

(** what is read from a relation: the norm is the same number, indexing gives the same sample at the converted moment *)
Theorem C84_observations : forall (V : Vals RA) (L : VLaws V) c d (r : rel RA V), 0 < c ->
  rel_norm RA V (default_config RA V) (retime_rel c d r) = rel_norm RA V (default_config RA V) r /\
  (forall t, rel_getitem RA V (retime c d t) (retime_rel c d r) = res_map (opair (retime c d)) (rel_getitem RA V t r)) /\
  axis_array RA (r_x (retime_rel c d r)) = res_map (map (retime c d)) (axis_array RA (r_x r)).
Proof.
  intros V L c d r Hc. split; [apply (retime_norm L c d Hc)|]. split; [intros t; apply (retime_getitem c d Hc)|]. apply (retime_array c d Hc).
Qed.
Print Assumptions C84_observations.

(** correlation and convolution depend only on the unit, even when the operands have different origins *)
Theorem C84_lagged : forall (V : Vals RA) (L : VLaws V) c d1 d2 comb (r1 r2 : rel RA V), 0 < c ->
  rel_lagged RA V (default_config RA V) comb (retime_rel c d1 r1) (retime_rel c d2 r2)
  = res_map (retime_rel c 0) (rel_lagged RA V (default_config RA V) comb r1 r2).
Proof. intros V L c d1 d2 comb r1 r2 Hc. apply (retime_lagged L c d1 d2 Hc). Qed.
Print Assumptions C84_lagged.

(** whole programs: any sequence of operators, methods and loops, including where it stops *)
Theorem C84_programs : forall (V : Vals RA) (L : VLaws V) F c d p s s', 0 < c -> retimed V c d s s' ->
  snd (v_exec RA V F (default_config RA V) (retime_p V c d p) s') = snd (v_exec RA V F (default_config RA V) p s) /\
  retimed V c d (fst (v_exec RA V F (default_config RA V) p s)) (fst (v_exec RA V F (default_config RA V) (retime_p V c d p) s')).
Proof. intros V L F c d p s s' Hc. apply (exec_retime L F c d Hc). Qed.
Print Assumptions C84_programs.
(** for another origin only the bounds of [select_data] are converted *)
Theorem C84_origin : forall (V : Vals RA) (L : VLaws V) F d p s s', retimed V 1 d s s' ->
  snd (v_exec RA V F (default_config RA V) (move_p V d p) s') = snd (v_exec RA V F (default_config RA V) p s) /\
  retimed V 1 d (fst (v_exec RA V F (default_config RA V) p s)) (fst (v_exec RA V F (default_config RA V) (move_p V d p) s')).
Proof. intros V L F d p s s'. apply (exec_move L F d). Qed.
Print Assumptions C84_origin.
(** and for Python objects of the same or of another class, wherever they are in memory *)
Lemma retime_shifts V c d p : shifts RA V (retime_p V c d p) = shifts RA V p.
Proof.
  assert (H : forall e, shifts_e RA V (retime_e V c d e) = shifts_e RA V e).
  { induction e as [x|o e1 IH1 e2 IH2|o e IH v|m e IH]; cbn; [reflexivity|rewrite IH1, IH2; reflexivity|exact IH|].
    destruct m; cbn; try exact IH; reflexivity. }
  induction p as [| | | | |p IHp q IHq]; cbn; auto. unfold retime_p in *. rewrite IHp, IHq. reflexivity.
Qed.
Theorem C84_objects : forall (V : Vals RA) (L : VLaws V) F c d k1 cf1 k2 cf2 p s1 (h1 : heap RA V) v1 s2 (h2 : heap RA V) v2,
  0 < c -> k1 <> KSweep -> k2 <> KSweep -> hc_base cf1 = default_config RA V -> hc_base cf2 = default_config RA V ->
  (is_sig k1 = true \/ is_sig k2 = true -> shifts RA V p = false) ->
  reachable RA V F h1 -> h_cfg h1 = cf1 -> stand RA V k1 cf1 h1 s1 v1 ->
  reachable RA V F h2 -> h_cfg h2 = cf2 -> stand RA V k2 cf2 h2 s2 v2 -> retimed V c d v1 v2 ->
  let '(s1', h1', z1) := h_exec RA V F p (s1, h1) in
  let '(s2', h2', z2) := h_exec RA V F (retime_p V c d p) (s2, h2) in
  z1 = z2 /\ exists v1' v2', stand RA V k1 cf1 h1' s1' v1' /\ stand RA V k2 cf2 h2' s2' v2' /\ retimed V c d v1' v2'.
Proof.
  intros V L F c d k1 cf1 k2 cf2 p s1 h1 v1 s2 h2 v2 Hc K1 K2 D1 D2 Hs R1 C1 S1 R2 C2 S2 Hr.
  pose proof (C74_programs_by_value V L F k1 cf1 p s1 h1 v1 K1 D1 (fun e => Hs (or_introl e)) R1 C1 S1) as G1.
  pose proof (C74_programs_by_value V L F k2 cf2 (retime_p V c d p) s2 h2 v2 K2 D2
    (fun e => eq_trans (retime_shifts V c d p) (Hs (or_intror e))) R2 C2 S2) as G2.
  destruct (exec_retime L F c d Hc p v1 v2 Hr) as [E1 E2].
  destruct (h_exec RA V F p (s1, h1)) as [[s1' h1'] z1]. destruct (h_exec RA V F (retime_p V c d p) (s2, h2)) as [[s2' h2'] z2].
  destruct (v_exec RA V F (default_config RA V) p v1) as [v1' y1]. destruct (v_exec RA V F (default_config RA V) (retime_p V c d p) v2) as [v2' y2].
  cbn [fst snd] in *. destruct G1 as (G1 & -> & _), G2 as (G2 & -> & _). split; [congruence|]. exists v1', v2'. auto.
Qed.
Print Assumptions C84_objects.

(** spectra: in another unit of time the frequencies are counted in the reciprocal unit, and the samples are the same *)
Theorem C84_spectra : forall c (r : rel RA CV) d, 0 < c ->
  (forall zero, val_spectrum RA CV fourier_config (retime_rel c 0 r) (retime_dom (/ c) d) zero
     = res_map (retime_rel (/ c) 0) (val_spectrum RA CV fourier_config r d zero)) /\
  (forall st, val_signal RA CV fourier_config (retime_rel (/ c) 0 r) (retime_dom c d) (option_map (retime c 0) st)
     = res_map (retime_rel c 0) (val_signal RA CV fourier_config r d st)).
Proof. intros c r d Hc. split; [intros zero; apply (val_spectrum_unit c Hc)|intros st; apply (val_signal_unit c Hc)]. Qed.
Print Assumptions C84_spectra.
(** the methods of signals and of their spectra *)
Theorem C84_signals : forall c (r sp r2 sp2 : rel RA CV), 0 < c ->
  let t := retime_rel (V:=CV) c 0 in let f := retime_rel (V:=CV) (/ c) 0 in let K := fourier_config in
  (forall u, val_sig_shift RA CV CF K (c * u) (t r) (f sp) = res_map t (val_sig_shift RA CV CF K u r sp)) /\
  (forall o, val_sig_phase RA CV CF K o (t r) (f sp) (f sp2) = res_map t (val_sig_phase RA CV CF K o r sp sp2)) /\
  (forall comb, val_sig_lagged RA CV CF K comb (t r) (f sp) (t r2) (f sp2) = res_map t (val_sig_lagged RA CV CF K comb r sp r2 sp2)) /\
  (forall p sub f0 f1, val_reverse_filter RA CV CF K p sub (option_map (retime (/ c) 0) f0) (option_map (retime (/ c) 0) f1) (f sp)
     = res_map f (val_reverse_filter RA CV CF K p sub f0 f1 sp)) /\
  (forall p sub f0 f1, val_reverse_signal RA CV CF K p sub (option_map (retime (/ c) 0) f0) (option_map (retime (/ c) 0) f1) (t r) (f sp)
     = res_map t (val_reverse_signal RA CV CF K p sub f0 f1 r sp)).
Proof.
  intros c r sp r2 sp2 Hc t f K. repeat split; intros.
  - apply (sig_shift_unit c Hc).
  - apply (sig_phase_unit c Hc).
  - apply (sig_lagged_unit c Hc).
  - apply (reverse_filter_unit c Hc).
  - apply (reverse_signal_unit c Hc).
Qed.
Print Assumptions C84_signals.

(** sweeps from arrays: times multiplied and frequencies divided by [c] give the same samples, hence the same sweep *)
Theorem C84_sweeps : forall (V : Vals RA) (L : VLaws V) W c int1 int2 sc (x : axis RA) f am t tht0, 0 < c ->
  (forall arr, axis_array RA x = Ok arr -> last arr 0 <> 0) ->
  (forall r, sc_spectro RA V sc (retime_rel c 0 r) = sc_spectro RA V sc r) ->
  array_or_none am -> match t with UtSeq _ => False | _ => True end ->
  let K := default_config RA V in
  (do g <- us_new RA V K int1 (UtAxis (A:=RA) (retime_axis c 0 x)) (LiArr (A:=RA) (map (by_s (v_of V (/ c))) f)) am;
   us_call RA V W K sc g (retime_call c t) tht0)
  = res_map (retime_sweep c) (do g <- us_new RA V K int2 (UtAxis (A:=RA) x) (LiArr (A:=RA) f) am; us_call RA V W K sc g t tht0).
Proof. intros V L W c int1 int2 sc x f am t tht0 Hc Hx Hsc Ham Ht. apply (sweep_unit L W c Hc); assumption. Qed.
Print Assumptions C84_sweeps.

(** natural claim for relations made from arrays of times: it fails, because the sample of a float array is rounded
    (axis.py 133-134): 1.5 ms becomes 1/667 s when the array is in seconds and 2 ms when it is in milliseconds *)
Theorem C84_sequences_refuted : exists c l x x', 0 < c /\
  axis_of_array RA (mkSeq (A:=RA) true l) true = Ok x /\
  axis_of_array RA (mkSeq (A:=RA) true (map (retime c 0) l)) true = Ok x' /\ x' <> retime_axis c 0 x.
Proof.
  exists 1000, [0; 3/2000], (mkAxis (A:=RA) 0 (3/2000) (1/667)), (mkAxis (A:=RA) 0 (3/2) 2).
  split; [lra|].
  assert (R1 : Rround (1 / (3/2000 - 0)) = 667%Z).
  { apply Rround_iff. left. change (IZR 667) with 667. replace (1 / (3/2000 - 0) - 667) with (- (1/3)) by field. rewrite Rabs_left; lra. }
  assert (R2 : Rround (retime 1000 0 (3/2000) - retime 1000 0 0) = 2%Z).
  { apply Rround_iff. unfold retime. right. split; [|exists 1%Z; reflexivity]. change (IZR 2) with 2.
    replace (1000 * (3 / 2000) + 0 - (1000 * 0 + 0) - 2) with (- / 2) by field. rewrite Rabs_left; lra. }
  split; [|split].
  - unfold axis_of_array, actual_sample, round_sample, np_diff_num. cbn [s_data s_float diffs amin_num fold_left bind andb RA n_sub n_lt n_eq n_div n_of_Z n_round].
    replace (Rltb (3/2000 - 0) 1) with true by (symmetry; apply Rltb_true; lra).
    replace (Reqb (3/2000 - 0) 0) with false by (symmetry; apply Reqb_false; lra).
    rewrite R1. reflexivity.
  - unfold axis_of_array, actual_sample, round_sample, np_diff_num. cbn [map s_data s_float diffs amin_num fold_left bind andb RA n_sub n_lt n_eq n_div n_of_Z n_round].
    replace (Rltb _ 1) with false by (symmetry; apply Rltb_false; unfold retime; lra).
    rewrite R2. cbn [Z.eqb bind last]. unfold retime. f_equal. f_equal; field.
  - intros E. injection E. intros E1. lra.
Qed.
Print Assumptions C84_sequences_refuted.

(** the theorem at work: four samples 1 ms apart, in seconds and in milliseconds counted from 5 ms earlier *)
Definition q_ms (c d : Q) : env (rel QA QV) :=
  fun x => match x with
           | 0%nat => Some (mkRel (V:=QV) (mkAxis (A:=QA) (c * 0 + d) (c * (3#1000) + d) (c * (1#1000)))%Q [1; 2; 4; 8]%Q)
           | 1%nat => Some (mkRel (V:=QV) (mkAxis (A:=QA) (c * (1#1000) + d) (c * (2#1000) + d) (c * (1#2000)))%Q [1; 5; 9]%Q)
           | _ => None
           end.
Definition q_p (k : Q) : stmt QA QV :=
  SAssign QA QV 2%nat (EBin QA QV ADD (ENum QA QV MUL (EMeth QA QV (MDiff QA) (EName QA QV 0%nat)) k) (EName QA QV 1%nat)).
Definition q_seen (s : env (rel QA QV)) : option (list Q * list Q) :=
  match s 2%nat with
  | Some r => match axis_array QA (r_x r) with Ok a => Some (map Qred a, map Qred (r_y r)) | _ => None end
  | None => None
  end.
Example C84_case :
  q_seen (fst (v_exec QA QV qF (default_config QA QV) (q_p 1) (q_ms 1 0)))
    = Some ([1#2000; 1#1000; 3#2000; 1#500; 1#400], [1000; 1501; 2005; 3009; 4000])%Q /\
  q_seen (fst (v_exec QA QV qF (default_config QA QV) (q_p 1000) (q_ms 1000 5)))
    = Some ([11#2; 6; 13#2; 7; 15#2], [1000; 1501; 2005; 3009; 4000])%Q.
Proof. vm_compute. split; reflexivity. Qed.
(** a sweep whose laws are arrays meets the hypotheses of the theorem *)
Example C84_sweep_case : let x := mkAxis (A:=RA) 0 2 1 in
  (forall arr, axis_array RA x = Ok arr -> last arr 0 <> 0) /\ axis_array RA x = Ok [0; 1; 2] /\
  exists g, us_new RA RV (default_config RA RV) (fun _ _ => Err EBadInput) (UtAxis (A:=RA) x) (LiArr (A:=RA) (V:=RV) [5; 6; 7]) LiNone = Ok g.
Proof.
  intros x.
  assert (Hs : axis_size RA x = Ok 3%nat).
  { rewrite axis_size_nz by (cbn; lra). f_equal. cbn [x a_start a_end a_sample].
    replace (Rabs (2 - 0) / 1) with (IZR 2) by (rewrite Rabs_right by lra; field) || idtac.
    match goal with |- context [Rround ?a] => replace a with (IZR 2) end; [rewrite Rround_IZR; reflexivity|].
    rewrite Rabs_right; lra. }
  assert (Ha : axis_array RA x = Ok [0; 1; 2]).
  { unfold axis_array. rewrite Hs. cbn [bind]. f_equal. cbn.
    replace (Reqb ((2 - 0) / 2) 0) with false by (symmetry; apply Reqb_false; lra). f_equal; [field|f_equal; field]. }
  split; [|split; [exact Ha|]].
  - intros arr E. rewrite Ha in E. injection E as <-. cbn. lra.
  - unfold us_new, get_info_from_ftat, extract_x_t, resample, ia_new. cbn [bind default_law length]. rewrite Hs, Ha. cbn. eauto.
Qed.
