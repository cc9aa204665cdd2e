(** Proofs for C84: spectra, signals and sweeps follow a change of the unit of time. *)
From Coq Require Import Reals ZArith List Bool Lia Lra Psatz Field.
From Coquelicot Require Import Coquelicot.
From Verif Require Import Num Numpy Spec AxisModel RelModel RLemmas AxisLemmas InterpLemmas VInst RelLemmas RelLemmas2 RelLemmas3
  HeapModel FourierModel SweepModel ProgModel TimeSpec TimeLemmas.
Import ListNotations.
Local Open Scope R_scope.

Section Dir.
Context (c : R) (Hc : 0 < c).
Notation phi := (retime c 0).
Lemma phi0 : phi 0 = 0.
Proof. unfold retime. ring. Qed.
Lemma phi_mul a : phi a = c * a.
Proof. unfold retime. ring. Qed.
Lemma phi_le0 a : Rleb 0 (phi a) = Rleb 0 a.
Proof. rewrite <- (phi_le c 0 Hc 0 a), phi0. reflexivity. Qed.
Lemma phi_lt0 a : Rltb 0 (phi a) = Rltb 0 a.
Proof. rewrite <- (phi_lt c 0 Hc 0 a), phi0. reflexivity. Qed.
Lemma phi_gt0 a : Rltb (phi a) 0 = Rltb a 0.
Proof. rewrite <- (phi_lt c 0 Hc a 0), phi0. reflexivity. Qed.
Lemma mul_eq0 a : Reqb (c * a) 0 = Reqb a 0.
Proof. rewrite <- (phi_eq c 0 Hc a 0), phi0. unfold retime. f_equal. ring. Qed.

Lemma reorder_unit (t : axis RA) (y : list C) : reorder (retime_axis c 0 t) y = reorder t y.
Proof.
  unfold reorder. rewrite (retime_array c 0 Hc). destruct (axis_array RA t) as [arr|e]; [|reflexivity]. cbn [bind res_map].
  rr. rewrite map_length. destruct (Nat.eqb (length arr) (length y)); [|reflexivity]. rr. rewrite !map_map.
  do 3 f_equal; apply map_ext; intros x; [apply (phi_le0 x)|apply (phi_gt0 x)].
Qed.
Lemma diffs_unit (l : list R) : diffs Rminus (map phi l) = map (Rmult c) (diffs Rminus l).
Proof.
  induction l as [|a l IH]; [reflexivity|]. destruct l as [|b l]; [reflexivity|]. cbn in *. f_equal; [unfold retime; ring|exact IH].
Qed.
Lemma min_unit (l : list R) a : fold_left (fun m x => if Rltb x m then x else m) (map (Rmult c) l) (c * a)
  = c * fold_left (fun m x => if Rltb x m then x else m) l a.
Proof.
  revert a. induction l as [|b l IH]; intros a; [reflexivity|]. cbn [map fold_left]. rewrite (mul_lt c Hc).
  destruct (Rltb b a); apply IH.
Qed.
Lemma axis_of_array_unit (l : list R) :
  axis_of_array RA (mkSeq (A:=RA) true (map phi l)) false = res_map (retime_axis c 0) (axis_of_array RA (mkSeq (A:=RA) true l) false).
Proof.
  unfold axis_of_array, actual_sample, np_diff_num, amin_num. cbn [s_data s_float andb RA n_sub n_lt]. rr. rewrite diffs_unit.
  destruct (diffs Rminus l) as [|a m]; [reflexivity|]. cbn [map bind]. rewrite min_unit.
  destruct l as [|x0 l]; [reflexivity|]. cbn [map bind res_map]. f_equal. unfold retime_axis. cbn [a_start a_end a_sample].
  f_equal. change (phi x0 :: map phi l) with (map phi (x0 :: l)). apply last_map.
Qed.
End Dir.

Section Fourier.
Context (c : R) (Hc : 0 < c).
Notation k := (/ c).
Notation phi := (retime c 0).
Notation chi := (retime k 0).
Lemma Hk : 0 < k.
Proof. apply Rinv_0_lt_compat. exact Hc. Qed.
Lemma fft_size_unit u d : 0 < u -> fft_size (retime_dom u d) = fft_size d.
Proof. intros Hu. destruct d; [reflexivity..|]. cbn [retime_dom fft_size]. rewrite (retime_size u 0 Hu). reflexivity. Qed.
Lemma rfftfreq_unit n s : rfftfreq n (c * s) = res_map (map chi) (rfftfreq n s).
Proof.
  unfold rfftfreq. replace (INR n * (c * s)) with (c * (INR n * s)) by ring. rewrite (mul_eq0 c Hc).
  destruct (Reqb (INR n * s) 0) eqn:E; [reflexivity|]. cbn [res_map]. f_equal. rewrite map_map. apply map_ext. intros j.
  rb. unfold retime. set (q := INR n * s) in *. field. split; [exact E|lra].
Qed.
Lemma calculate_unit (t : axis RA) y d :
  calculate_spectrum (retime_axis c 0 t) y (retime_dom k d) = res_map (opair (retime_axis k 0)) (calculate_spectrum t y d).
Proof.
  unfold calculate_spectrum. rewrite (fft_size_unit k d Hk). destruct (fft_size d) as [sz|e]; [|reflexivity]. cbn [bind].
  rewrite (reorder_unit c Hc). destruct (reorder t y) as [y'|e]; [|reflexivity]. cbn [bind].
  destruct (rfft y' sz) as [sp|e]; [|reflexivity]. cbn [bind].
  assert (H : (do f <- rfftfreq (length y') (c * a_sample t); do x <- axis_of_array RA (mkSeq (A:=RA) true f) false; Ok (x, sp))
    = res_map (opair (retime_axis k 0)) (do f <- rfftfreq (length y') (a_sample t); do x <- axis_of_array RA (mkSeq (A:=RA) true f) false; Ok (x, sp))).
  { rewrite rfftfreq_unit. destruct (rfftfreq (length y') (a_sample t)) as [f|e]; [|reflexivity]. cbn [bind res_map].
    rewrite (axis_of_array_unit k Hk). destruct (axis_of_array RA (mkSeq (A:=RA) true f) false); reflexivity. }
  destruct d; [exact H..|reflexivity].
Qed.
Lemma signal2spectrum_unit (r : rel RA CV) d zero :
  signal2spectrum (retime_rel c 0 r) (retime_dom k d) zero = res_map (opair (retime_axis k 0)) (signal2spectrum r d zero).
Proof.
  unfold signal2spectrum. cbn [retime_rel r_x r_y]. destruct zero; [apply calculate_unit|].
  cbn [retime_axis a_start a_end]. rewrite (phi_lt0 c Hc), (phi_gt0 c Hc).
  assert (Es : set_start RA 0 (retime_axis c 0 (r_x r)) = retime_axis c 0 (set_start RA 0 (r_x r))).
  { unfold set_start, retime_axis. cbn [a_start a_end a_sample]. rewrite (phi0 c). reflexivity. }
  assert (Ee : set_end RA 0 (retime_axis c 0 (r_x r)) = retime_axis c 0 (set_end RA 0 (r_x r))).
  { unfold set_end, retime_axis. cbn [a_start a_end a_sample]. rewrite (phi0 c). reflexivity. }
  destruct (Rltb 0 (a_start (r_x r))).
  - change (mkAxis (A:=RA) _ _ _) with (retime_axis c 0 (r_x r)). rewrite Es, (retime_size c 0 Hc).
    destruct (axis_size RA (set_start RA 0 (r_x r))) as [n|e]; [|reflexivity]. cbn [bind].
    destruct (Nat.ltb n (length (r_y r))); [reflexivity|]. apply calculate_unit.
  - destruct (Rltb (a_end (r_x r)) 0).
    + change (mkAxis (A:=RA) _ _ _) with (retime_axis c 0 (r_x r)). rewrite Ee, (retime_size c 0 Hc).
      destruct (axis_size RA (set_end RA 0 (r_x r))) as [n|e]; [|reflexivity]. cbn [bind].
      destruct (Nat.ltb n (length (r_y r))); [reflexivity|]. apply calculate_unit.
    + apply calculate_unit.
Qed.
(** the signal of a spectrum whose frequencies are counted in units [c] times greater *)
Lemma spectrum2signal_unit (r : rel RA CV) d st :
  spectrum2signal (retime_rel k 0 r) (retime_dom c d) (option_map phi st) = res_map (opair (retime_axis c 0)) (spectrum2signal r d st).
Proof.
  unfold spectrum2signal. rewrite (fft_size_unit c d Hc). destruct (fft_size d) as [sz|e]; [|reflexivity]. cbn [bind retime_rel r_x r_y].
  destruct (irfft (r_y r) sz) as [y|e]; [|reflexivity]. cbn [bind].
  assert (H : forall a, (do y' <- reorder (retime_axis c 0 a) y; Ok (retime_axis c 0 a, y')) = res_map (opair (retime_axis c 0)) (do y' <- reorder a y; Ok (a, y'))).
  { intros a. rewrite (reorder_unit c Hc). destruct (reorder a y); reflexivity. }
  set (w := 2 * (a_end (r_x r) - a_start (r_x r))).
  assert (Ew : 2 * (a_end (retime_axis k 0 (r_x r)) - a_start (retime_axis k 0 (r_x r))) = k * w).
  { unfold w. cbn [retime_axis a_start a_end]. unfold retime. ring. }
  rewrite Ew, (mul_eq0 k Hk).
  destruct d; try apply (H a).
  - destruct (Reqb w 0) eqn:E; [reflexivity|]. rb. destruct st as [s|]; cbn [option_map bind].
    + rewrite <- (H (mkAxis (A:=RA) s (s + INR (length y - 1) * (1 / w)) (1 / w))).
      replace (retime_axis c 0 (mkAxis (A:=RA) s (s + INR (length y - 1) * (1 / w)) (1 / w)))
        with (mkAxis (A:=RA) (phi s) (phi s + INR (length y - 1) * (1 / (k * w))) (1 / (k * w))); [reflexivity|].
      unfold retime_axis, retime. cbn [a_start a_end a_sample]. f_equal; field; split; try lra; exact E.
    + rewrite <- (H (mkAxis (A:=RA) 0 (INR (length y - 1) * (1 / w)) (1 / w))).
      replace (retime_axis c 0 (mkAxis (A:=RA) 0 (INR (length y - 1) * (1 / w)) (1 / w)))
        with (mkAxis (A:=RA) 0 (INR (length y - 1) * (1 / (k * w))) (1 / (k * w))); [reflexivity|].
      unfold retime_axis, retime. cbn [a_start a_end a_sample]. f_equal; try ring; field; split; try lra; exact E.
  - destruct (Reqb w 0) eqn:E; [reflexivity|]. rb. destruct st as [s|]; cbn [option_map bind].
    + rewrite <- (H (mkAxis (A:=RA) s (s + INR (length y - 1) * (1 / w)) (1 / w))).
      replace (retime_axis c 0 (mkAxis (A:=RA) s (s + INR (length y - 1) * (1 / w)) (1 / w)))
        with (mkAxis (A:=RA) (phi s) (phi s + INR (length y - 1) * (1 / (k * w))) (1 / (k * w))); [reflexivity|].
      unfold retime_axis, retime. cbn [a_start a_end a_sample]. f_equal; field; split; try lra; exact E.
    + rewrite <- (H (mkAxis (A:=RA) 0 (INR (length y - 1) * (1 / w)) (1 / w))).
      replace (retime_axis c 0 (mkAxis (A:=RA) 0 (INR (length y - 1) * (1 / w)) (1 / w)))
        with (mkAxis (A:=RA) 0 (INR (length y - 1) * (1 / (k * w))) (1 / (k * w))); [reflexivity|].
      unfold retime_axis, retime. cbn [a_start a_end a_sample]. f_equal; try ring; field; split; try lra; exact E.
Qed.

Notation FC := fourier_config.
Notation cr := (retime_rel (V:=CV) c 0).
Notation kr := (retime_rel (V:=CV) k 0).
Lemma val_spectrum_unit (r : rel RA CV) d zero : val_spectrum RA CV FC (cr r) (retime_dom k d) zero = res_map kr (val_spectrum RA CV FC r d zero).
Proof.
  unfold val_spectrum. cbn [FC fourier_config hc_s2s]. rewrite signal2spectrum_unit.
  destruct (signal2spectrum r d zero) as [[x y]|e]; [|reflexivity]. cbn [bind res_map opair fst snd]. apply (retime_make k 0 Hk).
Qed.
Lemma val_signal_unit (r : rel RA CV) d st : val_signal RA CV FC (kr r) (retime_dom c d) (option_map phi st) = res_map cr (val_signal RA CV FC r d st).
Proof.
  unfold val_signal. cbn [FC fourier_config hc_sp2s]. rewrite spectrum2signal_unit.
  destruct (spectrum2signal r d st) as [[x y]|e]; [|reflexivity]. cbn [bind res_map opair fst snd]. apply (retime_make c 0 Hc).
Qed.
Lemma val_amp_unit (r : rel RA CV) : val_amp RA CV CF (kr r) = res_map kr (val_amp RA CV CF r).
Proof. apply (retime_map k 0 Hk). Qed.
Lemma val_phase_unit (r : rel RA CV) : val_phase RA CV CF (kr r) = res_map kr (val_phase RA CV CF r).
Proof. unfold val_phase. cbn [retime_rel r_x r_y]. apply (retime_make k 0 Hk). Qed.
Lemma from_amp_phase_unit (am ph : rel RA CV) :
  val_from_amp_phase RA CV CF FC (kr am) (kr ph) = res_map kr (val_from_amp_phase RA CV CF FC am ph).
Proof.
  unfold val_from_amp_phase. cbn [FC fourier_config hc_base]. rewrite (retime_op_num k 0 Hk).
  destruct (rel_op_num RA CV _ RMUL ph _) as [i|e]; [|reflexivity]. cbn [bind res_map]. rewrite (retime_map k 0 Hk).
  destruct (rel_map RA CV _ i) as [q|e]; [|reflexivity]. cbn [bind res_map]. apply (retime_op CV_laws k 0 Hk).
Qed.
Lemma spec_phase_unit o (r1 r2 : rel RA CV) : val_spec_phase RA CV CF FC o (kr r1) (kr r2) = res_map kr (val_spec_phase RA CV CF FC o r1 r2).
Proof.
  unfold val_spec_phase. rewrite val_amp_unit, !val_phase_unit. destruct (val_amp RA CV CF r1) as [am|e]; [|reflexivity]. cbn [bind res_map].
  destruct (val_phase RA CV CF r1) as [p1|e]; [|reflexivity]. cbn [bind res_map].
  destruct (val_phase RA CV CF r2) as [p2|e]; [|reflexivity]. cbn [bind res_map FC fourier_config hc_base].
  rewrite (retime_op CV_laws k 0 Hk). destruct (rel_op RA CV _ o false p1 p2) as [p|e]; [|reflexivity]. cbn [bind res_map].
  apply from_amp_phase_unit.
Qed.
Lemma reverse_filter_unit p sub f0 f1 (r : rel RA CV) :
  val_reverse_filter RA CV CF FC p sub (option_map chi f0) (option_map chi f1) (kr r) = res_map kr (val_reverse_filter RA CV CF FC p sub f0 f1 r).
Proof.
  unfold val_reverse_filter. rewrite (retime_select k 0 Hk). destruct (rel_select RA CV f0 f1 r) as [s|e]; [|reflexivity]. cbn [bind res_map].
  rewrite val_amp_unit. destruct (val_amp RA CV CF s) as [am|e]; [|reflexivity]. cbn [bind res_map].
  change (rel_max RA CV (kr am)) with (rel_max RA CV am). destruct (rel_max RA CV am) as [mx|e]; [|reflexivity]. cbn [bind FC fourier_config hc_base].
  rewrite (retime_op_num k 0 Hk). destruct (rel_op_num RA CV _ ADD am _) as [a2|e]; [|reflexivity]. cbn [bind res_map].
  rewrite (retime_op_num k 0 Hk). destruct (rel_op_num RA CV _ RTRUEDIV a2 _) as [inv|e]; [|reflexivity]. cbn [bind res_map].
  rewrite val_phase_unit. destruct (val_phase RA CV CF s) as [ph|e]; [|reflexivity]. cbn [bind res_map].
  rewrite (retime_op_num k 0 Hk). destruct (rel_op_num RA CV _ RMUL ph _) as [p2|e]; [|reflexivity]. cbn [bind res_map].
  apply from_amp_phase_unit.
Qed.
Lemma sig_phase_unit o (r sp ot : rel RA CV) :
  val_sig_phase RA CV CF FC o (cr r) (kr sp) (kr ot) = res_map cr (val_sig_phase RA CV CF FC o r sp ot).
Proof.
  unfold val_sig_phase. rewrite spec_phase_unit. destruct (val_spec_phase RA CV CF FC o sp ot) as [s|e]; [|reflexivity]. cbn [bind res_map].
  exact (val_signal_unit s (DAxis RA (r_x r)) None).
Qed.
Lemma sig_shift_unit u (r sp : rel RA CV) : val_sig_shift RA CV CF FC (c * u) (cr r) (kr sp) = res_map cr (val_sig_shift RA CV CF FC u r sp).
Proof.
  unfold val_sig_shift. cbn [retime_rel r_x]. change (mkRel (retime_axis k 0 (r_x sp)) (r_y sp)) with (kr sp).
  change (mkRel (retime_axis c 0 (r_x r)) (r_y r)) with (cr r).
  rewrite (retime_array k 0 Hk). destruct (axis_array RA (r_x sp)) as [arr|e]; [|reflexivity]. cbn [bind res_map].
  rewrite map_map. replace (map (fun f => vf_phasor RA CV CF (chi f) (c * u)) arr) with (map (fun f => vf_phasor RA CV CF f u) arr).
  2:{ apply map_ext. intros f. cbn [CF vf_phasor]. unfold retime. f_equal. unfold Cmult, Copp, RtoC, Ci. cbn [fst snd]. f_equal; field; lra. }
  rewrite (retime_make k 0 Hk). destruct (rel_make RA CV (r_x sp) _) as [sh|e]; [|reflexivity]. cbn [bind res_map]. apply sig_phase_unit.
Qed.
Lemma reverse_signal_unit p sub f0 f1 (r sp : rel RA CV) :
  val_reverse_signal RA CV CF FC p sub (option_map chi f0) (option_map chi f1) (cr r) (kr sp) = res_map cr (val_reverse_signal RA CV CF FC p sub f0 f1 r sp).
Proof.
  unfold val_reverse_signal. rewrite reverse_filter_unit. destruct (val_reverse_filter RA CV CF FC p sub f0 f1 sp) as [s|e]; [|reflexivity].
  cbn [bind res_map]. exact (val_signal_unit s (DAxis RA (r_x r)) None).
Qed.
Lemma sig_lagged_unit comb (r1 sp1 r2 sp2 : rel RA CV) :
  val_sig_lagged RA CV CF FC comb (cr r1) (kr sp1) (cr r2) (kr sp2) = res_map cr (val_sig_lagged RA CV CF FC comb r1 sp1 r2 sp2).
Proof.
  unfold val_sig_lagged. cbn [RA n_opp FC fourier_config hc_base]. rr.
  replace (- a_start (r_x (cr r1))) with (c * (- a_start (r_x r1))) by (cbn; unfold retime; ring).
  replace (- a_start (r_x (cr r2))) with (c * (- a_start (r_x r2))) by (cbn; unfold retime; ring).
  rewrite !sig_shift_unit. destruct (val_sig_shift RA CV CF FC _ r1 sp1) as [s1|e]; [|reflexivity]. cbn [bind res_map].
  destruct (val_sig_shift RA CV CF FC _ r2 sp2) as [s2|e]; [|reflexivity]. cbn [bind res_map]. rewrite (retime_equalize CV_laws c 0 Hc).
  destruct (rel_equalize RA CV _ false s1 s2) as [[e1 e2]|e]; [|reflexivity]. cbn [bind res_map fst snd]. cbn [retime_rel r_y r_x].
  destruct (comb (r_y e1) (r_y e2)) as [y|e]; [|reflexivity]. cbn [bind]. rewrite <- (retime_make c 0 Hc). f_equal.
  unfold retime_axis, retime. cbn [a_start a_end a_sample]. f_equal; rr; ring.
Qed.
End Fourier.

(** *** samples multiplied by a constant *)
Section Scaled.
Context {V : Vals RA} (L : VLaws V) (s : val V).
Notation rel := (rel RA V).
Notation DC := (default_config RA V).
Add Field VfieldS : (vl_field V L).
Notation by_s := (by_s (V:=V) s).
Lemma div_scaled a b : v_div V (by_s a) b = by_s (v_div V a b).
Proof.
  unfold TimeSpec.by_s. rewrite (Fdiv_def (vl_field V L) (v_mul V a s) b), (Fdiv_def (vl_field V L) a b). generalize (v_div V (v_of V 1) b). intros i. ring.
Qed.
Lemma add_scaled a b : v_add V (by_s a) (by_s b) = by_s (v_add V a b).
Proof. unfold TimeSpec.by_s. ring. Qed.
Lemma sub_scaled a b : v_sub V (by_s a) (by_s b) = by_s (v_sub V a b).
Proof. unfold TimeSpec.by_s. ring. Qed.
Lemma mul_scaled a b : v_mul V (by_s a) b = by_s (v_mul V a b).
Proof. unfold TimeSpec.by_s. ring. Qed.
Definition psnd (p : R * val V) : R * val V := (fst p, by_s (snd p)).
Lemma insert_scaled (p : R * val V) m : insert_pt RA V (psnd p) (map psnd m) = map psnd (insert_pt RA V p m).
Proof.
  induction m as [|q m IH]; [reflexivity|]. cbn [map insert_pt]. change (fst (psnd ?a)) with (fst a).
  cbn [RA n_lt]. rr. destruct (Rltb (fst q) (fst p)); [|reflexivity]. cbn [map]. f_equal. exact IH.
Qed.
Lemma sort_scaled (l : list (R * val V)) : sort_pts RA V (map psnd l) = map psnd (sort_pts RA V l).
Proof. induction l as [|p l IH]; [reflexivity|]. cbn [map]. unfold sort_pts in *. cbn [fold_right]. rewrite IH. apply insert_scaled. Qed.
Lemma interp_in_scaled (l : list (R * val V)) x : interp_in RA V (map psnd l) x = by_s (interp_in RA V l x).
Proof.
  induction l as [|[x0 y0] l IH].
  - cbn [map interp_in]. unfold TimeSpec.by_s. rr. change (n_of_Z RA 0) with 0. ring.
  - destruct l as [|[x1 y1] l]; [reflexivity|].
    change (interp_in RA V (map psnd ((x0, y0) :: (x1, y1) :: l)) x) with
      (if Rltb x x1 then if Reqb x0 x then by_s y0
         else v_add V (v_mul V (v_div V (v_sub V (by_s y1) (by_s y0)) (v_of V (x1 - x0))) (v_of V (x - x0))) (by_s y0)
       else interp_in RA V (map psnd ((x1, y1) :: l)) x).
    change (interp_in RA V ((x0, y0) :: (x1, y1) :: l) x) with
      (if Rltb x x1 then if Reqb x0 x then y0 else v_add V (v_mul V (v_div V (v_sub V y1 y0) (v_of V (x1 - x0))) (v_of V (x - x0))) y0
       else interp_in RA V ((x1, y1) :: l) x).
    destruct (Rltb x x1); [|exact IH]. destruct (Reqb x0 x); [reflexivity|].
    rewrite sub_scaled, div_scaled, mul_scaled, add_scaled. reflexivity.
Qed.
Lemma interp_at_scaled (l : list (R * val V)) x : interp_at RA V (map psnd l) x = by_s (interp_at RA V l x).
Proof.
  assert (H0 : by_s (v_of V 0) = v_of V 0) by (unfold TimeSpec.by_s; ring).
  destruct l as [|[x0 y0] l]; [symmetry; exact H0|].
  change (interp_at RA V (map psnd ((x0, y0) :: l)) x) with
    (if Rltb x x0 || Rltb (fst (last (map psnd ((x0, y0) :: l)) (x, v_of V 0))) x then v_of V 0 else interp_in RA V (map psnd ((x0, y0) :: l)) x).
  change (interp_at RA V ((x0, y0) :: l) x) with
    (if Rltb x x0 || Rltb (fst (last ((x0, y0) :: l) (x, v_of V 0))) x then v_of V 0 else interp_in RA V ((x0, y0) :: l) x).
  replace (x, v_of V 0) with (psnd (x, v_of V 0)) at 1 by (unfold psnd; cbn; rewrite H0; reflexivity).
  rewrite last_map. change (fst (psnd ?a)) with (fst a).
  match goal with |- (if ?b then _ else _) = _ => destruct b end; [symmetry; exact H0|]. apply interp_in_scaled.
Qed.
Lemma combine_map_r {S T U} (f : T -> U) (l : list S) (m : list T) : combine l (map f m) = map (fun p => (fst p, f (snd p))) (combine l m).
Proof. revert m. induction l as [|a l IH]; intros [|b m]; [reflexivity..|]. cbn. f_equal. apply IH. Qed.
Lemma interpolate_scaled (xs : list R) (y : list (val V)) (nx : axis RA) :
  interpolate_default RA V xs (map by_s y) nx = res_map (map by_s) (interpolate_default RA V xs y nx).
Proof.
  unfold interpolate_default, interp1d. rr. rewrite map_length. destruct (Nat.eqb (length xs) (length y)); [|reflexivity]. cbn [bind].
  destruct (axis_array RA nx) as [arr|e]; [|reflexivity]. cbn [bind res_map].
  rewrite combine_map_r. change (fun p : R * val V => (fst p, by_s (snd p))) with psnd. rr. rewrite sort_scaled, map_map.
  f_equal. apply map_ext. intros t. apply interp_at_scaled.
Qed.
Lemma cumul_from_scaled l a : cumul_from (v_add V) (by_s a) (map by_s l) = map by_s (cumul_from (v_add V) a l).
Proof.
  revert a. induction l as [|b l IH]; intros a; [reflexivity|]. cbn [map cumul_from].
  replace (v_add V (by_s a) (by_s b)) with (by_s (v_add V a b)) by (unfold TimeSpec.by_s; ring). f_equal. apply IH.
Qed.
Lemma cum_trapz_scaled (y : list (val V)) : cum_trapz RA V (map by_s y) = map by_s (cum_trapz RA V y).
Proof.
  unfold cum_trapz. set (tr := fun b a : val V => _).
  assert (E : diffs tr (map by_s y) = map by_s (diffs tr y)).
  { induction y as [|a y IH]; [reflexivity|]. destruct y as [|b y]; [reflexivity|]. cbn [map diffs]. f_equal; [|exact IH].
    unfold tr. rewrite add_scaled. apply div_scaled. }
  rewrite E. destruct (diffs tr y) as [|a l]; [reflexivity|]. cbn [map cumul]. f_equal. apply cumul_from_scaled.
Qed.
Lemma make_map (f : val V -> val V) (x : axis RA) y : rel_make RA V x (map f y) = res_map (fun r => mkRel (r_x r) (map f (r_y r))) (rel_make RA V x y).
Proof.
  unfold rel_make. rewrite map_length. destruct (axis_size RA x) as [n|e]; [|reflexivity]. cbn [bind].
  destruct (Nat.eqb n (length y)); reflexivity.
Qed.
End Scaled.

Section Sweeps.
Context {V : Vals RA} (L : VLaws V) (W : wfun RA V) (c : R) (Hc : 0 < c).
Notation rel := (rel RA V).
Notation DC := (default_config RA V).
Add Field VfieldW : (vl_field V L).
Notation phi := (retime c 0).
Notation cr := (retime_rel (V:=V) c 0).
Notation kappa := (v_of V (/ c)).
Notation slow := (by_s (V:=V) kappa).

Lemma law_axis_unit (t : axis RA) m : law_axis RA (retime_axis c 0 t) m = res_map (retime_axis c 0) (law_axis RA t m).
Proof.
  unfold law_axis. destruct (Nat.eqb m 1); [reflexivity|]. cbn [res_map]. f_equal. unfold retime_axis. cbn [a_start a_end a_sample]. f_equal.
  cbn [RA n_div n_sub]. unfold Rdiv, retime. rr. ring.
Qed.
Lemma resample_unit (f : val V -> val V) (t : axis RA) y :
  (forall xs y nx, interpolate_default RA V xs (map f y) nx = res_map (map f) (interpolate_default RA V xs y nx)) ->
  resample RA V DC (retime_axis c 0 t) (map f y) = res_map (map f) (resample RA V DC t y).
Proof.
  intros Hf. unfold resample. rewrite (retime_size c 0 Hc), map_length. destruct (axis_size RA t) as [n|e]; [|reflexivity]. cbn [bind].
  destruct (Nat.eqb n (length y)); [reflexivity|]. rewrite law_axis_unit. destruct (law_axis RA t (length y)) as [a|e]; [|reflexivity]. cbn [bind res_map].
  rewrite (retime_array c 0 Hc). destruct (axis_array RA a) as [arr|e]; [|reflexivity]. cbn [bind res_map default_config c_interp].
  rr. rewrite (retime_interpolate L c 0 Hc). apply Hf.
Qed.
Lemma stretch_unit (l : list R) (nx : axis RA) : (forall a, l <> [] -> last l a <> 0) ->
  stretch RA (map phi l) (retime_axis c 0 nx) = res_map (map phi) (stretch RA l nx).
Proof.
  intros H. destruct l as [|x0 l]; [reflexivity|]. specialize (H x0 ltac:(discriminate)).
  change (Ok (map (fun v : R => v * ((phi (a_end nx) - phi (a_start nx)) / last (map phi (x0 :: l)) (phi x0)) - phi x0 + phi (a_start nx)) (map phi (x0 :: l)))
    = Ok (map phi (map (fun v : R => v * ((a_end nx - a_start nx) / last (x0 :: l) x0) - x0 + a_start nx) (x0 :: l)))).
  rewrite (last_map phi (x0 :: l) x0). set (q := last (x0 :: l) x0) in *. clearbody q. set (m := x0 :: l). clearbody m.
  f_equal. rewrite !map_map. apply map_ext. intros v. unfold retime. field. split; [exact H|lra].
Qed.
Lemma ia_call_unit (f : val V -> val V) (l : list R) y (nx : axis RA) : (forall a, l <> [] -> last l a <> 0) ->
  (forall xs y nx, interpolate_default RA V xs (map f y) nx = res_map (map f) (interpolate_default RA V xs y nx)) ->
  ia_call RA V DC (mkIA (A:=RA) (map phi l) (map f y)) (retime_axis c 0 nx) = res_map (map f) (ia_call RA V DC (mkIA (A:=RA) l y) nx).
Proof.
  intros H Hf. unfold ia_call. cbn [ia_x ia_y]. rewrite (stretch_unit l nx H). rr. destruct (stretch RA l nx) as [xs|e]; [|reflexivity].
  cbn [bind res_map default_config c_interp]. rr. rewrite (retime_interpolate L c 0 Hc). apply Hf.
Qed.
Lemma array_tht_unit fy (x : axis RA) : array_tht RA V W DC (map slow fy) (retime_axis c 0 x) = array_tht RA V W DC fy x.
Proof.
  unfold array_tht. rewrite (make_map slow), (retime_make c 0 Hc). destruct (rel_make RA V x fy) as [r|e] eqn:Er; [|reflexivity]. cbn [bind res_map].
  apply make_ok in Er. destruct Er as [-> _]. cbn [retime_rel r_x r_y].
  rewrite !rel_int_eq. cbn [r_x r_y].
  assert (Ex : int_axis (retime_axis c 0 x) = retime_axis c 0 (int_axis x)).
  { unfold int_axis, retime_axis, retime. apply axis_eq; cbn [r_x a_start a_end a_sample]; [ring|reflexivity..]. }
  rewrite Ex.
  assert (Ey : map (fun v => v_mul V v (v_of V (a_sample (retime_axis c 0 x)))) (cum_trapz RA V (map slow fy))
    = map (fun v => v_mul V v (v_of V (a_sample x))) (cum_trapz RA V fy)).
  { rewrite (cum_trapz_scaled L), map_map. apply map_ext. intros v. cbn [retime_axis a_sample]. unfold TimeSpec.by_s. rr. rewrite (vl_of_mul V L).
    assert (E1 : v_mul V kappa (v_of V c) = v_of V 1) by (rewrite <- (vl_of_mul V L); f_equal; field; lra).
    transitivity (v_mul V (v_mul V v (v_mul V kappa (v_of V c))) (v_of V (a_sample x))); [ring|]. rewrite E1. ring. }
  rewrite Ey, (retime_make c 0 Hc). destruct (rel_make RA V (int_axis x) _); reflexivity.
Qed.

Lemma map_id_law : forall xs (y : list (val V)) (nx : axis RA),
  interpolate_default RA V xs (map (fun v => v) y) nx = res_map (map (fun v => v)) (interpolate_default RA V xs y nx).
Proof. intros xs y nx. rewrite map_id. destruct (interpolate_default RA V xs y nx); cbn [res_map]; rewrite ?map_id; reflexivity. Qed.

Lemma sweep_unit int1 int2 sc (x : axis RA) (f : list (val V)) (am : law_in RA V) t tht0 :
  (forall arr, axis_array RA x = Ok arr -> last arr 0 <> 0) ->
  (forall r, sc_spectro RA V sc (cr r) = sc_spectro RA V sc r) -> array_or_none am ->
  match t with UtSeq _ => False | _ => True end ->
  (do g <- us_new RA V DC int1 (UtAxis (A:=RA) (retime_axis c 0 x)) (LiArr (A:=RA) (map slow f)) am; us_call RA V W DC sc g (retime_call c t) tht0)
  = res_map (retime_sweep c) (do g <- us_new RA V DC int2 (UtAxis (A:=RA) x) (LiArr (A:=RA) f) am; us_call RA V W DC sc g t tht0).
Proof.
  intros Hx Hsc Ham Ht. unfold us_new, get_info_from_ftat. cbn [bind default_law]. unfold extract_x_t at 1 3. cbn [bind].
  rewrite (resample_unit slow x f (interpolate_scaled L kappa)). destruct (resample RA V DC x f) as [f'|e]; [|reflexivity]. cbn [bind res_map].
  unfold ia_new at 1 2. rewrite (retime_array c 0 Hc). destruct (axis_array RA x) as [arr|e] eqn:Ea; [|reflexivity]. cbn [bind res_map].
  assert (Hl : forall a, arr <> [] -> last arr a <> 0).
  { intros a Hn. rewrite (last_any arr a 0 Hn). exact (Hx arr eq_refl). }
  assert (HA : exists la la' : result (law RA V),
    extract_x_t RA V DC (TiAxis (A:=RA) (retime_axis c 0 x)) (default_law RA V (const_one RA V) am) = (do l <- la'; Ok (Some (retime_axis c 0 x), l)) /\
    extract_x_t RA V DC (TiAxis (A:=RA) x) (default_law RA V (const_one RA V) am) = (do l <- la; Ok (Some x, l)) /\
    match la, la' with
    | Ok l, Ok l' => forall nx, law_eval RA V DC l' (retime_axis c 0 nx) = law_eval RA V DC l nx
    | Err e, Err e' => e = e'
    | _, _ => False
    end).
  { destruct am as [| | | |y]; try contradiction.
    - exists (Ok (LawFun (A:=RA) (const_one RA V))), (Ok (LawFun (A:=RA) (const_one RA V))). repeat split; try reflexivity.
      intros nx. unfold law_eval. rewrite (retime_array c 0 Hc). destruct (axis_array RA nx) as [a|e]; [|reflexivity]. cbn [bind res_map const_one cl_arr].
      rewrite map_length. reflexivity.
    - exists (do y' <- resample RA V DC x y; Ok (LawArr (A:=RA) (mkIA (A:=RA) arr y'))),
        (do y' <- resample RA V DC x y; Ok (LawArr (A:=RA) (mkIA (A:=RA) (map phi arr) y'))).
      pose proof (resample_unit (fun v => v) x y map_id_law) as E. rewrite map_id in E.
      unfold extract_x_t. cbn [default_law bind]. rewrite E. unfold ia_new. rewrite (retime_array c 0 Hc), Ea.
      destruct (resample RA V DC x y) as [y'|e]; cbn [bind res_map]; rewrite ?map_id; repeat split; try reflexivity.
      intros nx. unfold law_eval.
      pose proof (ia_call_unit (fun v => v) arr y' nx Hl map_id_law) as E2. rewrite map_id in E2. rewrite E2.
      destruct (ia_call RA V DC _ nx); cbn [res_map]; rewrite ?map_id; reflexivity. }
  destruct HA as (la & la' & EA' & EA & Hlaw). change (num RA) with R in *. rewrite EA', EA.
  destruct la as [l|e], la' as [l'|e']; try contradiction; [|cbn [bind res_map]; rewrite Hlaw; reflexivity]. cbn [bind fst snd].
  unfold us_call. cbn [u_time u_f u_a u_int u_cfg].
  assert (HX : exists nx : axis RA, match t with UtAxis a => a = nx | _ => x = nx end).
  { destruct t; eexists; reflexivity. }
  destruct HX as [nx Hnx].
  assert (E1 : match t with UtAxis a => Ok a | UtSeq s => c_axis_from_array RA V DC s true | UtNone => Ok x end = Ok nx).
  { destruct t; [rewrite Hnx; reflexivity|rewrite Hnx; reflexivity|contradiction]. }
  assert (E2 : match retime_call c t with UtAxis a => Ok a | UtSeq s => c_axis_from_array RA V DC s true | UtNone => Ok (retime_axis c 0 x) end = Ok (retime_axis c 0 nx)).
  { destruct t; [cbn; rewrite Hnx; reflexivity|cbn; rewrite Hnx; reflexivity|contradiction]. }
  match goal with |- ?lhs = res_map _ ?rhs => 
    change lhs with (do x0 <- match retime_call c t with UtAxis a => Ok a | UtSeq s => c_axis_from_array RA V DC s true | UtNone => Ok (retime_axis c 0 x) end;
      do fy <- law_eval RA V DC (LawArr (A:=RA) (mkIA (A:=RA) (map phi arr) (map slow f'))) x0;
      do fr <- rel_make RA V x0 fy; do am <- law_eval RA V DC l' x0;
      do th <- law_tht RA V W DC int1 (LawArr (A:=RA) (mkIA (A:=RA) (map phi arr) (map slow f'))) x0;
      do _ <- rel_make RA V x0 th; do y <- wave RA V W tht0 am th; do ar <- rel_make RA V x0 am; do c <- rel_make RA V x0 y;
      val_sweep RA V sc c (Some fr) (Some ar));
    change rhs with (do x0 <- match t with UtAxis a => Ok a | UtSeq s => c_axis_from_array RA V DC s true | UtNone => Ok x end;
      do fy <- law_eval RA V DC (LawArr (A:=RA) (mkIA (A:=RA) arr f')) x0;
      do fr <- rel_make RA V x0 fy; do am <- law_eval RA V DC l x0;
      do th <- law_tht RA V W DC int2 (LawArr (A:=RA) (mkIA (A:=RA) arr f')) x0;
      do _ <- rel_make RA V x0 th; do y <- wave RA V W tht0 am th; do ar <- rel_make RA V x0 am; do c <- rel_make RA V x0 y;
      val_sweep RA V sc c (Some fr) (Some ar)) end.
  rewrite E1, E2. cbn [bind]. cbn [law_eval law_tht]. rewrite (ia_call_unit slow arr f' nx Hl (interpolate_scaled L kappa)).
  destruct (ia_call RA V DC _ nx) as [fy|e]; [|reflexivity]. cbn [bind res_map].
  rewrite (make_map slow), (retime_make c 0 Hc). destruct (rel_make RA V nx fy) as [fr|e] eqn:Efr; [|reflexivity]. cbn [bind res_map].
  rewrite Hlaw. destruct (law_eval RA V DC l nx) as [ay|e]; [|reflexivity]. cbn [bind].
  rewrite array_tht_unit. destruct (array_tht RA V W DC fy nx) as [th|e]; [|reflexivity]. cbn [bind].
  rewrite (retime_make c 0 Hc nx th). destruct (rel_make RA V nx th) as [u|e]; [|reflexivity]. cbn [bind res_map].
  destruct (wave RA V W tht0 ay th) as [y|e]; [|reflexivity]. cbn [bind].
  rewrite (retime_make c 0 Hc nx ay). destruct (rel_make RA V nx ay) as [ar|e]; [|reflexivity]. cbn [bind res_map].
  rewrite (retime_make c 0 Hc nx y). destruct (rel_make RA V nx y) as [cc|e]; [|reflexivity]. cbn [bind res_map].
  unfold val_sweep. cbn [bind]. rewrite Hsc. destruct (sc_spectro RA V sc cc); [|reflexivity]. cbn [bind res_map]. reflexivity.
Qed.
End Sweeps.
