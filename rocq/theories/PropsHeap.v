(** Property theorems about objects, sharing and histories: C03, C04, C08-C12, C29, C34, C45, C61.

    All of them hold for every number system [A] (reals, rationals, binary64, ...), every sample type [V],
    every configuration of numeric methods, and every state [h] a program can reach ([reachable]).
    The vocabulary ([rel_view], [ax_view], [ax_target], [along], ...) is in HeapSpec.v. *)
From Coq Require Import ZArith QArith List Bool Lia.
From Verif Require Import Num Numpy AxisModel RelModel HeapModel HeapSpec HeapLemmas5 HeapLemmas6.
Import ListNotations.

(** ** A small world for the cases: rational numbers, default methods, a made-up Fourier pair *)
Definition qc : hconfig QA QV :=
  mkHconfig QA QV (default_config QA QV)
    (fun c _ _ => Ok (r_x c, r_y c)) (fun c _ _ => Ok (r_x c, r_y c)) None None.
Definition qc2 : hconfig QA QV :=  (* another differentiation method and another common axis *)
  mkHconfig QA QV
    (mkConfig QA QV (c_axis_from_array QA QV (default_config QA QV)) (c_math QA QV (default_config QA QV))
       (c_interp QA QV (default_config QA QV)) (c_int_one QA QV (default_config QA QV))
       (c_integrate QA QV (default_config QA QV)) (fun c => Ok (r_x c, r_y c))
       (fun a b => a))
    (fun c _ _ => Ok (r_x c, r_y c)) (fun c _ _ => Ok (r_x c, r_y c))
    (Some (fun c1 c2 => Ok (r_x c1, r_y c1))) None.
Definition qsc : sconfig QA QV := mkSconfig QA QV (fun c => Ok (r_y c)) (fun c => Ok (r_y c)) (fun _ => Ok tt).
Definition qF : vfun QA QV :=
  mkVfun QA QV (fun v => v) (fun l => l) (fun v => v) (fun _ _ => (0:Q)) (0:Q) (fun v _ => v).
Definition q0 : heap QA QV := empty_heap QA QV qc qsc.
Definition qax (s e d : Q) : axis QA := mkAxis (A:=QA) s e d.
Notation qrun := (run QA QV qF).
(** axis 0 = (0, 3, 1); relations 0 and 1 on it; relation 2 a copy of relation 0; signal 3 with its own axis *)
Definition qops : list (op QA QV) :=
  [ONewAxis QA QV (qax 0 3 1); ONew QA QV KRel (XaAxis 0%nat) (Some [1;2;4;8]%Q);
   ONew QA QV KRel (XaAxis 0%nat) (Some [0;0;1;1]%Q); ONew QA QV KRel (XaRel 0%nat) None;
   ONew QA QV KSig (XaRel 0%nat) None].
Definition q1 : heap QA QV := qrun qops q0.
Lemma q1_reach : reachable QA QV qF q1.
Proof. exists qc, qsc, qops. reflexivity. Qed.
Lemma q_reach ops : reachable QA QV qF (qrun ops q1).
Proof. exists qc, qsc, (qops ++ ops). unfold q1, run. rewrite fold_left_app. reflexivity. Qed.

(** ** C03 axis array is never stale *)
Theorem C03_never_stale : forall A V F (h : heap A V) a p, reachable A V F h -> ax_view A V h a = Some p ->
  read_array A V h a = axis_array A p /\ read_size A V h a = axis_size A p /\
  read_actual A V h a = (do arr <- axis_array A p; actual_sample A arr).
Proof. exact never_stale. Qed.
Print Assumptions C03_never_stale.
Theorem C03_assignment_takes_effect : forall A V F (h : heap A V) f a v p, reachable A V F h -> ax_view A V h a = Some p ->
  ax_view A V (step A V F h (OSet A V f a v)) a = Some (set_field A f v p) /\
  read_array A V (step A V F h (OSet A V f a v)) a = axis_array A (set_field A f v p).
Proof. intros. split; [apply set_view; auto|apply set_read; auto]. Qed.
Print Assumptions C03_assignment_takes_effect.
(** non-vacuous: the axis was read (cached), re-dimensioned through one relation, then read again *)
Example C03_case : let h := qrun [OArray QA QV 0%nat; ORelSet QA QV FEnd 1%nat (4:Q); ODiff QA QV 0%nat] q1 in
  reachable QA QV qF h /\ ax_view QA QV h 0%nat = Some (qax 0 4 1) /\
  read_size QA QV q1 0%nat = Ok 4%nat /\ read_size QA QV h 0%nat = Ok 5%nat.
Proof. split; [apply q_reach|]. repeat split; vm_compute; reflexivity. Qed.

(** ** C04 axis copies *)
Theorem C04_assignments_independent : forall A V F (h : heap A V) a p c ops, reachable A V F h ->
  ax_view A V h a = Some p -> fst (ax_copy A V a h) = Ok c ->
  let h1 := step A V F h (OCopyAxis A V a) in
  ax_view A V h c = None /\ ax_view A V h1 c = Some p /\
  (along A V F (fun h o => ~ ax_target A V h o a) h1 ops -> ax_view A V (run A V F ops h1) a = Some p) /\
  (along A V F (fun h o => ~ ax_target A V h o c) h1 ops -> ax_view A V (run A V F ops h1) c = Some p).
Proof.
  intros A V F h a p c ops R H Hc h1. destruct (copy_view A V F h a p H) as (c' & E & _ & N & V1 & _).
  assert (c' = c) by congruence. subst c'. split; [exact N|]. split; [exact V1|]. exact (copy_independent A V F h a p c ops R H Hc).
Qed.
Print Assumptions C04_assignments_independent.
Theorem C04_copy_after_read_shares : forall A V F (h : heap A V) a p arr c i v, reachable A V F h ->
  ax_view A V h a = Some p -> axis_array A p = Ok arr ->
  let h1 := step A V F h (OArray A V a) in fst (ax_copy A V a h1) = Ok c ->
  let h2 := write_array A V c i v (step A V F h1 (OCopyAxis A V a)) in
  read_array A V h2 a = Ok (upd arr i v) /\ read_array A V h2 c = Ok (upd arr i v).
Proof. exact copy_shares_array. Qed.
Print Assumptions C04_copy_after_read_shares.
Theorem C04_copy_before_read_does_not : forall A V F (h : heap A V) f a p v0 arr c i v, reachable A V F h ->
  ax_view A V h a = Some p -> axis_array A (set_field A f v0 p) = Ok arr ->
  let h1 := step A V F h (OSet A V f a v0) in fst (ax_copy A V a h1) = Ok c ->
  let h2 := write_array A V c i v (step A V F h1 (OCopyAxis A V a)) in
  read_array A V h2 a = Ok arr /\ read_array A V h2 c = Ok (upd arr i v).
Proof. exact copy_unread. Qed.
Print Assumptions C04_copy_before_read_does_not.
(** the C03 property therefore fails after an in-place write to [.array]: the original reports an array that
    does not follow from its start, end and sample *)
Theorem C04_write_through_copy_refuted : exists (h : heap QA QV) a c i v p arr arr', reachable QA QV qF h /\
  ax_view QA QV h a = Some p /\ axis_array QA p = Ok arr /\ fst (ax_copy QA QV a h) = Ok c /\
  read_array QA QV (write_array QA QV c i v (step QA QV qF h (OCopyAxis QA QV a))) a = Ok arr' /\
  Qeq_bool (nth 2 arr (0:Q)) (nth 2 arr' (0:Q)) = false.
Proof.
  exists q1, 0%nat, (length (h_ax q1)), 2%nat, (7:Q), (qax 0 3 1). eexists. eexists.
  split; [apply q1_reach|]. split; [reflexivity|]. split; [vm_compute; reflexivity|]. split; [vm_compute; reflexivity|].
  split; vm_compute; reflexivity.
Qed.
Print Assumptions C04_write_through_copy_refuted.
Example C04_case : ax_view QA QV q1 0%nat = Some (qax 0 3 1) /\ exists c, fst (ax_copy QA QV 0%nat q1) = Ok c /\
  ax_view QA QV (qrun [OCopyAxis QA QV 0%nat; OSet QA QV FStart 0%nat (-1:Q)] q1) c = Some (qax 0 3 1) /\
  ax_view QA QV (qrun [OCopyAxis QA QV 0%nat; OSet QA QV FStart 0%nat (-1:Q)] q1) 0%nat = Some (qax (-1) 3 1).
Proof. split; [reflexivity|]. eexists. split; [vm_compute; reflexivity|]. repeat split; vm_compute; reflexivity. Qed.

(** ** C08 get_data *)
Theorem C08_equal_length_or_error : forall A V F (h : heap A V) r c, reachable A V F h -> rel_view A V h r = Some c ->
  let h' := snd (h_get_data A V r h) in
  match fst (h_get_data A V r h) with
  | Ok (fl, yl) => exists arr, axis_array A (r_x c) = Ok arr /\ length arr = length (r_y c) /\
      nth_error (h_farr h') fl = Some arr /\ nth_error (h_yarr h') yl = Some (r_y c) /\
      (forall a o, nth_error (h_ax h) a = Some o -> ao_cache o <> Some fl) /\
      (forall r' o, nth_error (h_rel h') r' = Some o -> ro_y o <> yl)
  | Err e => axis_array A (r_x c) = Err e \/
             exists arr, axis_array A (r_x c) = Ok arr /\ length arr <> length (r_y c) /\
                         e = ENotEqual (length arr) (length (r_y c))
  end.
Proof. exact get_data_cases. Qed.
Print Assumptions C08_equal_length_or_error.
Theorem C08_writing_the_copies_is_harmless : forall A V F (h : heap A V) r i v j w, reachable A V F h ->
  let h' := step A V F h (OGetDataWrite A V r i v j w) in
  (forall r0 c, rel_view A V h r0 = Some c -> rel_view A V h' r0 = Some c) /\
  (forall a p, ax_view A V h a = Some p -> ax_view A V h' a = Some p /\ read_array A V h' a = read_array A V h a).
Proof.
  intros A V F h r i v j w R h'.
  destruct (operands_kept A V F h (OGetDataWrite A V r i v j w) R (fun x => x)) as (H1 & H2 & _). split; auto.
Qed.
Print Assumptions C08_writing_the_copies_is_harmless.
Example C08_case :
  err_of (fst (h_get_data QA QV 0%nat q1)) = None /\
  err_of (fst (h_get_data QA QV 0%nat (qrun [ORelSet QA QV FEnd 1%nat (4:Q)] q1))) = Some (ENotEqual 5 4) /\
  err_of (fst (h_get_data QA QV 2%nat (qrun [ORelSet QA QV FEnd 1%nat (4:Q)] q1))) = None.
Proof. repeat split; vm_compute; reflexivity. Qed.

(** ** C09 operations never mutate their operands: any call except an assignment or a sample write *)
Theorem C09_operands_unchanged : forall A V F (h : heap A V) o, reachable A V F h -> ~ assigns A V o ->
  (forall r c, rel_view A V h r = Some c -> rel_view A V (step A V F h o) r = Some c) /\
  (forall a p, ax_view A V h a = Some p -> ax_view A V (step A V F h o) a = Some p /\
     read_array A V (step A V F h o) a = read_array A V h a) /\
  (forall r a, axis_of A V h r = Some a -> axis_of A V (step A V F h o) r = Some a) /\
  (forall r k, cls_of A V h r = Some k -> cls_of A V (step A V F h o) r = Some k).
Proof. exact operands_kept. Qed.
Print Assumptions C09_operands_unchanged.
Definition q_add : op QA QV := OOperator QA QV ADD 0%nat (HRel 1%nat).
Example C09_case : ~ assigns QA QV q_add /\ fst (exec QA QV qF q_add q1) = Ok [16%nat] /\
  option_map r_y (rel_view QA QV q1 0%nat) = Some [1;2;4;8]%Q /\
  option_map r_y (rel_view QA QV (qrun [q_add] q1) 0%nat) = Some [1;2;4;8]%Q /\
  option_map r_y (rel_view QA QV (qrun [q_add] q1) 16%nat) = Some [1;2;5;9]%Q /\ option_map r_y (rel_view QA QV q1 16%nat) = None.
Proof. split; [exact (fun x => x)|]. repeat split; vm_compute; reflexivity. Qed.

(** ** C10 results are independent objects *)
Theorem C10_results_are_new_objects : forall A V F (h : heap A V) o rs h', reachable A V F h ->
  ~ assigns A V o -> ~ sets_config A V o -> independent_result A V o ->
  exec A V F o h = (Ok rs, h') -> forall r, In r rs -> new_object A V h h' r.
Proof. exact results_new. Qed.
Print Assumptions C10_results_are_new_objects.
Theorem C10_assigning_to_results_spares_old_objects : forall A V F (h : heap A V) o rs h' ops r0 c, reachable A V F h ->
  ~ assigns A V o -> exec A V F o h = (Ok rs, h') -> rel_view A V h r0 = Some c ->
  along A V F (only_through A V h true) h' ops -> rel_view A V (run A V F ops h') r0 = Some c.
Proof. exact old_unchanged. Qed.
Print Assumptions C10_assigning_to_results_spares_old_objects.
Theorem C10_assigning_to_old_objects_spares_results : forall A V F (h : heap A V) o rs h' ops r c, reachable A V F h ->
  ~ assigns A V o -> ~ sets_config A V o -> independent_result A V o -> exec A V F o h = (Ok rs, h') -> In r rs ->
  rel_view A V h' r = Some c -> along A V F (only_through A V h false) h' ops -> rel_view A V (run A V F ops h') r = Some c.
Proof. exact result_unchanged. Qed.
Print Assumptions C10_assigning_to_old_objects_spares_results.
Lemma ot_set (h0 : heap QA QV) (b : bool) (h : heap QA QV) f r v a : axis_of QA QV h r = Some a ->
  (if b then nth_error (h_ax h0) a = None else nth_error (h_ax h0) a <> None) ->
  only_through QA QV h0 b h (ORelSet QA QV f r v).
Proof. intros H H0. split; cbn; intros x Hx; [|contradiction]. replace x with a by congruence. exact H0. Qed.
Lemma ot_write (h0 : heap QA QV) (b : bool) (h : heap QA QV) r i v : (if b then nth_error (h_rel h0) r = None else nth_error (h_rel h0) r <> None) ->
  only_through QA QV h0 b h (OWriteY QA QV r i v).
Proof. intros H0. split; cbn; intros x Hx; [contradiction|]. subst x. exact H0. Qed.
Lemma ot_diff (h0 : heap QA QV) (b : bool) (h : heap QA QV) r : only_through QA QV h0 b h (ODiff QA QV r).
Proof. split; cbn; intros x Hx; contradiction. Qed.
Example C10_case : independent_result QA QV q_add /\ fst (exec QA QV qF q_add q1) = Ok [16%nat] /\
  along QA QV qF (only_through QA QV q1 true) (qrun [q_add] q1)
    [ORelSet QA QV FStart 16%nat (-1:Q); OWriteY QA QV 16%nat 1%nat (7:Q); ODiff QA QV 16%nat] /\
  along QA QV qF (only_through QA QV q1 false) (qrun [q_add] q1)
    [ORelSet QA QV FStart 0%nat (-1:Q); OWriteY QA QV 0%nat 1%nat (7:Q)].
Proof.
  split; [exact I|]. split; [vm_compute; reflexivity|]. split.
  - split; [|split; [|split; [|exact I]]].
    + eapply ot_set; [vm_compute; reflexivity|]. apply nth_error_None. vm_compute. lia.
    + apply ot_write. apply nth_error_None. vm_compute. lia.
    + apply ot_diff.
  - split; [|split; [|exact I]].
    + eapply ot_set; [vm_compute; reflexivity|]. apply nth_error_Some. vm_compute. lia.
    + apply ot_write. apply nth_error_Some. vm_compute. lia.
Qed.

(** ** C11 relations built on one axis object share it *)
Theorem C11_constructor_keeps_the_axis_object : forall A V F (h : heap A V) k a y r h', reachable A V F h ->
  exec A V F (ONew A V k (XaAxis a) y) h = (Ok [r], h') -> axis_of A V h r = None /\ axis_of A V h' r = Some a.
Proof. exact built_on_axis. Qed.
Print Assumptions C11_constructor_keeps_the_axis_object.
Theorem C11_assignment_reaches_exactly_the_sharers : forall A V F (h : heap A V) f r v a r0 c0 a0, reachable A V F h ->
  axis_of A V h r = Some a -> rel_view A V h r0 = Some c0 -> axis_of A V h r0 = Some a0 ->
  rel_view A V (step A V F h (ORelSet A V f r v)) r0 =
    Some (if Nat.eqb a0 a then mkRel (set_field A f v (r_x c0)) (r_y c0) else c0).
Proof. exact assign_exact. Qed.
Print Assumptions C11_assignment_reaches_exactly_the_sharers.
Example C11_case : axis_of QA QV q1 0%nat = Some 0%nat /\ axis_of QA QV q1 1%nat = Some 0%nat /\ axis_of QA QV q1 2%nat = Some 1%nat /\
  option_map r_x (rel_view QA QV (qrun [ORelSet QA QV FStart 0%nat (-1:Q)] q1) 1%nat) = Some (qax (-1) 3 1) /\
  option_map r_x (rel_view QA QV (qrun [ORelSet QA QV FStart 0%nat (-1:Q)] q1) 2%nat) = Some (qax 0 3 1).
Proof. repeat split; vm_compute; reflexivity. Qed.

(** ** C12 configuration is captured at construction *)
Theorem C12_replacing_methods_spares_existing_objects : forall A V F (h : heap A V) c o, reachable A V F h ->
  uses_captured A V o -> outcome A V F o (step A V F h (OConfig A V c)) = outcome A V F o h.
Proof. exact captured. Qed.
Print Assumptions C12_replacing_methods_spares_existing_objects.
Theorem C12_get_norm_captured : forall A V F (h : heap A V) c r, reachable A V F h ->
  fst (h_norm A V r (step A V F h (OConfig A V c))) = fst (h_norm A V r h).
Proof. exact captured_norm. Qed.
Print Assumptions C12_get_norm_captured.
Theorem C12_new_objects_capture_the_current_methods : forall A V F (h : heap A V) k x y r h' ops, reachable A V F h ->
  k <> KSweep -> exec A V F (ONew A V k x y) h = (Ok [r], h') -> cfg_of A V (run A V F ops h') r = Some (h_cfg h).
Proof. exact captures_current. Qed.
Print Assumptions C12_new_objects_capture_the_current_methods.
Theorem C12_correlate_convolve_use_the_current_method : forall A V F (h : heap A V) l cfg f r1 r2 c1 c2, reachable A V F h ->
  rel_view A V h r1 = Some c1 -> rel_view A V h r2 = Some c2 -> lag_method A V l cfg = Some f ->
  outcome A V F (OLagged A V l KRel (HRel r1) (HRel r2)) (step A V F h (OConfig A V cfg)) =
  (do xy <- f c1 c2; do c <- rel_make A V (fst xy) (snd xy); Ok [(Some KRel, Some c)]).
Proof. exact lagged_current. Qed.
Print Assumptions C12_correlate_convolve_use_the_current_method.
Theorem C12_equalize_uses_the_current_common_axis : forall A V F (h : heap A V) cfg r1 r2 k1 k2 c1 c2 cf1 cf2 a1 a2, reachable A V F h ->
  rel_view A V h r1 = Some c1 -> rel_view A V h r2 = Some c2 -> cls_of A V h r1 = Some k1 -> cls_of A V h r2 = Some k2 ->
  k1 <> KSweep -> k2 <> KSweep ->
  cfg_of A V h r1 = Some cf1 -> cfg_of A V h r2 = Some cf2 -> axis_of A V h r1 = Some a1 -> axis_of A V h r2 = Some a2 ->
  outcome A V F (OEqualize A V r1 r2) (step A V F h (OConfig A V cfg)) =
  if Nat.eqb a1 a2 then Ok [(Some k1, Some c1); (Some k2, Some c2)]
  else let x := c_common_x A V (hc_base cfg) (r_x c1) (r_x c2) in
       do e1 <- rel_interp A V (hc_base cf1) x c1; do e2 <- rel_interp A V (hc_base cf2) x c2;
       Ok [(Some k1, Some e1); (Some k2, Some e2)].
Proof. exact equalize_current. Qed.
Print Assumptions C12_equalize_uses_the_current_common_axis.
Definition samples (x : result (list (option cls * option (rel QA QV)))) : result (list (option (list Q))) :=
  do l <- x; Ok (map (fun p => option_map r_y (snd p)) l).
Example C12_case :
  samples (outcome QA QV qF (ODiff QA QV 0%nat) q1) = Ok [Some [1; 2; 4]%Q] /\
  samples (outcome QA QV qF (ODiff QA QV 0%nat) (qrun [OConfig QA QV qc2] q1)) = Ok [Some [1; 2; 4]%Q] /\
  samples (outcome QA QV qF (ODiff QA QV 4%nat) (qrun [OConfig QA QV qc2; ONew QA QV KRel (XaRel 0%nat) None] q1))
    = Ok [Some [1; 2; 4; 8]%Q].
Proof. repeat split; vm_compute; reflexivity. Qed.

(** ** C29 result class and conversion errors *)
Theorem C29_result_classes : forall A V F (h : heap A V) o rs h', reachable A V F h -> ~ assigns A V o -> ~ sets_config A V o ->
  exec A V F o h = (Ok rs, h') ->
  Forall2 (fun P r => exists k, P k /\ cls_of A V h' r = Some k) (result_classes A V h o) rs.
Proof. exact result_class. Qed.
Print Assumptions C29_result_classes.
Theorem C29_signal_converts_spectrum_operand : forall A V F (h : heap A V) o r r2 k, reachable A V F h -> converting o = true ->
  cls_of A V h r = Some k -> is_sig k = true -> cls_of A V h r2 = Some KSpec ->
  (forall s h1, exec A V F (OGetSignal A V r2 DaNone None) h = (Ok [s], h1) ->
     exec A V F (OOperator A V o r (HRel r2)) h = exec A V F (OOperator A V o r (HRel s)) h1) /\
  (forall e h1, exec A V F (OGetSignal A V r2 DaNone None) h = (Err e, h1) ->
     exec A V F (OOperator A V o r (HRel r2)) h = (Err e, h1)).
Proof. exact signal_converts. Qed.
Print Assumptions C29_signal_converts_spectrum_operand.
Theorem C29_spectrum_converts_signal_operand : forall A V F (h : heap A V) o r r2 k, reachable A V F h -> converting o = true ->
  cls_of A V h r = Some KSpec -> cls_of A V h r2 = Some k -> is_sig k = true ->
  (forall s h1, exec A V F (OGetSpectrum A V r2 DaNone false) h = (Ok [s], h1) ->
     exec A V F (OOperator A V o r (HRel r2)) h = exec A V F (OOperator A V o r (HRel s)) h1) /\
  (forall e h1, exec A V F (OGetSpectrum A V r2 DaNone false) h = (Err e, h1) ->
     exec A V F (OOperator A V o r (HRel r2)) h = (Err e, h1)).
Proof. exact spectrum_converts. Qed.
Print Assumptions C29_spectrum_converts_signal_operand.
Theorem C29_spectrum_rejects_non_numbers : forall A V F (h : heap A V) o r k c b, reachable A V F h ->
  rel_view A V h r = Some c -> cls_of A V h r = Some k -> k = KSpec -> converting o = true -> (forall v, b <> OVal v) ->
  outcome A V F (OOperator A V o r (HVal b)) h = Err EConverting.
Proof. exact unsupported_spectrum. Qed.
Print Assumptions C29_spectrum_rejects_non_numbers.
Theorem C29_others_raise_type_error : forall A V F (h : heap A V) o r k c cf, reachable A V F h ->
  rel_view A V h r = Some c -> cls_of A V h r = Some k -> cfg_of A V h r = Some cf ->
  c_math A V (hc_base cf) = c_math A V (default_config A V) -> converting o = false \/ k <> KSpec ->
  outcome A V F (OOperator A V o r (HVal OBad)) h = Err ETypeFunc.
Proof. exact unsupported_operand. Qed.
Print Assumptions C29_others_raise_type_error.
Theorem C29_correlate_convolve_on_non_relations : forall A V F (h : heap A V) l k b b1 b2,
  fst (exec A V F (OLagged A V l KRel (HVal b) b2) h) = Err ETypeFunc /\
  fst (exec A V F (OLagged A V l KRel b1 (HVal b)) h) = Err ETypeFunc /\
  (k <> KRel -> fst (exec A V F (OLagged A V l k (HVal b) b2) h) = Err EConverting).
Proof. exact lagged_non_relation. Qed.
Print Assumptions C29_correlate_convolve_on_non_relations.
Definition q_sp : list (op QA QV) := [OGetSpectrum QA QV 3%nat DaNone false].
Definition classes (x : result (list (option cls * option (rel QA QV)))) : result (list (option cls)) :=
  do l <- x; Ok (map fst l).
Example C29_case : let h := qrun q_sp q1 in cls_of QA QV h 4%nat = Some KSpec /\ cls_of QA QV h 3%nat = Some KSig /\
  classes (outcome QA QV qF (OOperator QA QV ADD 3%nat (HRel 4%nat)) h) = Ok [Some KSig] /\
  classes (outcome QA QV qF (OOperator QA QV ADD 4%nat (HRel 3%nat)) h) = Ok [Some KSpec] /\
  classes (outcome QA QV qF (OOperator QA QV POW 4%nat (HRel 3%nat)) h) = Ok [Some KSpec] /\
  classes (outcome QA QV qF (OOperator QA QV ADD 0%nat (HRel 3%nat)) h) = Ok [Some KRel] /\
  classes (outcome QA QV qF (OOperator QA QV ADD 3%nat (HVal (OVal (A:=QA) (V:=QV) (1:Q)))) h) = Ok [Some KSig].
Proof. repeat split; vm_compute; reflexivity. Qed.

(** ** C34 conversions are remembered *)
(** A repeated call that asks for nothing in particular, by None or by the number 0, returns the object remembered. *)
Theorem C34_get_spectrum_returns_the_same_object : forall A V F (h : heap A V) r d z s h1 ops d' z', reachable A V F h -> d' = DaNone \/ d' = DaInt 0 ->
  exec A V F (OGetSpectrum A V r d z) h = (Ok [s], h1) ->
  along A V F (fun _ o => ~ link_target A V o r) h1 ops ->
  exec A V F (OGetSpectrum A V r d' z') (run A V F ops h1) = (Ok [s], run A V F ops h1).
Proof. exact same_spectrum. Qed.
Print Assumptions C34_get_spectrum_returns_the_same_object.
Theorem C34_get_signal_returns_the_same_object : forall A V F (h : heap A V) r d st s h1 ops d' st', reachable A V F h -> d' = DaNone \/ d' = DaInt 0 ->
  exec A V F (OGetSignal A V r d st) h = (Ok [s], h1) ->
  along A V F (fun _ o => ~ link_target A V o r) h1 ops ->
  exec A V F (OGetSignal A V r d' st') (run A V F ops h1) = (Ok [s], run A V F ops h1).
Proof. exact same_signal. Qed.
Print Assumptions C34_get_signal_returns_the_same_object.
Theorem C34_spectrum_remembers_its_signal : forall A V F (h : heap A V) r d z s h1 ops st, reachable A V F h ->
  exec A V F (OGetSpectrum A V r d z) h = (Ok [s], h1) -> cls_of A V h s = None ->
  along A V F (fun _ o => ~ link_target A V o s) h1 ops ->
  exec A V F (OGetSignal A V s DaNone st) (run A V F ops h1) = (Ok [r], run A V F ops h1).
Proof. exact back_to_signal. Qed.
Print Assumptions C34_spectrum_remembers_its_signal.
Theorem C34_signal_remembers_its_spectrum : forall A V F (h : heap A V) r d st s h1 ops z, reachable A V F h ->
  exec A V F (OGetSignal A V r d st) h = (Ok [s], h1) -> cls_of A V h s = None ->
  along A V F (fun _ o => ~ link_target A V o s) h1 ops ->
  exec A V F (OGetSpectrum A V s DaNone z) (run A V F ops h1) = (Ok [r], run A V F ops h1).
Proof. exact back_to_spectrum. Qed.
Print Assumptions C34_signal_remembers_its_spectrum.
Theorem C34_explicit_time_makes_and_remembers_a_new_signal : forall A V F (h : heap A V) r d st s h1 st', reachable A V F h ->
  d <> DaNone -> d <> DaInt 0 -> exec A V F (OGetSignal A V r d st) h = (Ok [s], h1) ->
  cls_of A V h s = None /\ exec A V F (OGetSignal A V r DaNone st') h1 = (Ok [s], h1).
Proof. exact explicit_domain_replaces. Qed.
Print Assumptions C34_explicit_time_makes_and_remembers_a_new_signal.
Theorem C34_explicit_frequency_makes_and_remembers_a_new_spectrum : forall A V F (h : heap A V) r d z s h1 z', reachable A V F h ->
  d <> DaNone -> d <> DaInt 0 -> exec A V F (OGetSpectrum A V r d z) h = (Ok [s], h1) ->
  cls_of A V h s = None /\ exec A V F (OGetSpectrum A V r DaNone z') h1 = (Ok [s], h1).
Proof. exact explicit_frequency_replaces. Qed.
Print Assumptions C34_explicit_frequency_makes_and_remembers_a_new_spectrum.
(** non-vacuous and stale: the samples change after the first conversion, the second returns the old result,
    a conversion of a fresh copy does not *)
Definition q_conv : heap QA QV := qrun [OGetSpectrum QA QV 3%nat DaNone false; OWriteY QA QV 3%nat 0%nat (9:Q)] q1.
Example C34_case_stale : exists s s2, 
  fst (exec QA QV qF (OGetSpectrum QA QV 3%nat DaNone true) q_conv) = Ok [s] /\
  option_map r_y (rel_view QA QV q_conv s) = Some [1;2;4;8]%Q /\
  option_map r_y (rel_view QA QV q_conv 3%nat) = Some [9;2;4;8]%Q /\
  fst (exec QA QV qF (OGetSpectrum QA QV 5%nat DaNone true) (qrun [ONew QA QV KSig (XaRel 3%nat) None] q_conv)) = Ok [s2] /\
  option_map r_y (rel_view QA QV (qrun [ONew QA QV KSig (XaRel 3%nat) None; OGetSpectrum QA QV 5%nat DaNone true] q_conv) s2) = Some [9;2;4;8]%Q.
Proof. exists 4%nat, 6%nat. repeat split; vm_compute; reflexivity. Qed.

(** ** C45 sweeps made by one generator share its time axis *)
Theorem C45_axis_of_a_called_sweep : forall A V F (h : heap A V) g t tht0 r h', reachable A V F h ->
  exec A V F (OCall A V g t tht0) h = (Ok [r], h') ->
  exists tl lf la, axis_of A V h' r = Some tl /\ cls_of A V h' r = Some KSweep /\
    laws_of A V h' r = Some (Some lf, Some la) /\ axis_of A V h' lf = Some tl /\ axis_of A V h' la = Some tl /\
    cls_of A V h r = None /\ cls_of A V h lf = None /\ cls_of A V h la = None /\
    match t with
    | TaAxis a => tl = a
    | TaSeq _ => ax_view A V h tl = None
    | TaNone => gen_axis A V h g = Some (Some tl)
    end.
Proof. exact call_axis. Qed.
Print Assumptions C45_axis_of_a_called_sweep.
Theorem C45_calls_without_time_share : forall A V F (h : heap A V) g t1 r1 h1 ops t2 r2 h2, reachable A V F h ->
  exec A V F (OCall A V g (TaNone A) t1) h = (Ok [r1], h1) ->
  exec A V F (OCall A V g (TaNone A) t2) (run A V F ops h1) = (Ok [r2], h2) ->
  exists tl, gen_axis A V h2 g = Some (Some tl) /\ axis_of A V h2 r1 = Some tl /\ axis_of A V h2 r2 = Some tl.
Proof. exact calls_share. Qed.
Print Assumptions C45_calls_without_time_share.
Theorem C45_assignment_reaches_all_of_them : forall A V F (h : heap A V) f q v tl p, reachable A V F h ->
  axis_of A V h q = Some tl -> ax_view A V h tl = Some p ->
  ax_view A V (step A V F h (ORelSet A V f q v)) tl = Some (set_field A f v p) /\
  (forall r c, axis_of A V h r = Some tl -> rel_view A V h r = Some c ->
     rel_view A V (step A V F h (ORelSet A V f q v)) r = Some (mkRel (set_field A f v p) (r_y c))).
Proof. exact assign_shared. Qed.
Print Assumptions C45_assignment_reaches_all_of_them.
Definition q_gen : list (op QA QV) :=
  [ONewGen QA QV (TaAxis QA 0%nat) (fun _ x => axis_array QA x) (fun _ x => axis_array QA x) (fun _ x => axis_array QA x)
     (fun _ a _ => Ok a); OCall QA QV 0%nat (TaNone QA) (0:Q); OCall QA QV 0%nat (TaNone QA) (1:Q)].
Example C45_case : let h := qrun q_gen q1 in
  reachable QA QV qF h /\ gen_axis QA QV h 0%nat = Some (Some 0%nat) /\
  map (axis_of QA QV h) [4;5;6;7;8;9;10;11]%nat = repeat (Some 0%nat) 8 /\ cls_of QA QV h 7%nat = Some KSweep /\
  cls_of QA QV h 11%nat = Some KSweep /\ laws_of QA QV h 11%nat = Some (Some 8%nat, Some 10%nat) /\
  option_map (fun c => r_x c) (rel_view QA QV (qrun [ORelSet QA QV FStart 8%nat (-1:Q)] h) 7%nat) = Some (qax (-1) 3 1).
Proof. split; [apply q_reach|]. repeat split; vm_compute; reflexivity. Qed.

(** ** C61 the object level refines the value level *)
Theorem C61_methods_by_value : forall A V F (h : heap A V) r k c cf, reachable A V F h ->
  rel_view A V h r = Some c -> cls_of A V h r = Some k -> cfg_of A V h r = Some cf -> k <> KSweep ->
  let out v := do c' <- v; Ok [(Some k, Some c')] in
  outcome A V F (ODiff A V r) h = out (rel_diff A V (hc_base cf) c) /\
  outcome A V F (OIntegrate A V r) h = out (rel_integrate A V (hc_base cf) c) /\
  (forall s e, outcome A V F (OSelect A V r s e) h = out (rel_select A V s e c)) /\
  (forall o v, outcome A V F (OOperator A V o r (HVal (OVal v))) h = out (rel_op_num A V (hc_base cf) o c (OVal v))) /\
  outcome A V F (OExp A V r) h = out (rel_map A V (vf_exp A V F) c) /\
  (is_sig k = false -> forall d, outcome A V F (OShift A V r d) h = out (rel_shift A V d c)) /\
  (forall a p, ax_view A V h a = Some p -> outcome A V F (OInterp A V r (XaAxis a)) h = out (rel_interp A V (hc_base cf) p c)) /\
  (forall s, outcome A V F (OInterp A V r (XaSeq s)) h =
     out (do p <- c_axis_from_array A V (hc_base cf) s false; rel_interp A V (hc_base cf) p c)) /\
  fst (h_norm A V r h) = rel_norm A V (hc_base cf) c /\
  (forall v, fst (h_getitem A V r v h) = rel_getitem A V v c).
Proof. exact methods_by_value. Qed.
Print Assumptions C61_methods_by_value.
Theorem C61_operators_by_value : forall A V F (h : heap A V) o r1 r2 k1 k2 c1 c2 cf a1 a2, reachable A V F h ->
  rel_view A V h r1 = Some c1 -> rel_view A V h r2 = Some c2 -> cls_of A V h r1 = Some k1 -> cls_of A V h r2 = Some k2 ->
  k1 <> KSweep -> k2 <> KSweep ->
  (converting o = true -> (is_sig k1 = true -> is_spec k2 = false) /\ (is_spec k1 = true -> is_sig k2 = false)) ->
  cfg_of A V h r1 = Some cf -> cfg_of A V h r2 = Some cf -> h_cfg h = cf ->
  axis_of A V h r1 = Some a1 -> axis_of A V h r2 = Some a2 ->
  outcome A V F (OOperator A V o r1 (HRel r2)) h =
  (do c <- rel_op A V (hc_base cf) o (Nat.eqb a1 a2) c1 c2; Ok [(Some k1, Some c)]).
Proof. exact operators_by_value. Qed.
Print Assumptions C61_operators_by_value.
Theorem C61_correlate_convolve_by_value : forall A V F (h : heap A V) l r1 r2 k1 k2 c1 c2, reachable A V F h ->
  rel_view A V h r1 = Some c1 -> rel_view A V h r2 = Some c2 -> cls_of A V h r1 = Some k1 -> cls_of A V h r2 = Some k2 ->
  is_sig k1 = false -> is_sig k2 = false -> lag_method A V l (h_cfg h) = None ->
  outcome A V F (OLagged A V l KRel (HRel r1) (HRel r2)) h =
  (do c <- match l with LCorr => rel_correlate | LConv => rel_convolve end A V (hc_base (h_cfg h)) c1 c2;
   Ok [(Some KRel, Some c)]).
Proof. exact lagged_by_value. Qed.
Print Assumptions C61_correlate_convolve_by_value.
Example C61_case :
  samples (outcome QA QV qF (OOperator QA QV SUB 0%nat (HRel 2%nat)) q1) = Ok [Some [0;0;0;0]%Q] /\
  samples (outcome QA QV qF (OLagged QA QV LCorr KRel (HRel 0%nat) (HRel 2%nat)) q1) = Ok [Some [8;20;42;85;42;20;8]%Q].
Proof. repeat split; vm_compute; reflexivity. Qed.
