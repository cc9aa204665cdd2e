(** Theorems about complete prepared sweeps: C63 dwell, C64 linear, C65 shuffled; C66 real samples stored as complex. *)
From Coq Require Import Reals ZArith List Bool Lra Lia Permutation.
From Coquelicot Require Import Hierarchy Complex RInt.
From Verif Require Import Num Numpy AxisModel RelModel HeapModel FourierModel Spec RLemmas AxisLemmas InterpLemmas FourierLemmas
  VInst RelLemmas RelLemmas2 RelLemmas3 SweepModel SweepSpec SweepLemmas SweepLemmas2 SweepLemmas3 PreparedModel PreparedSpec PreparedLemmas PreparedLemmas2
  PreparedLemmas3 PreparedLemmas4 PreparedLemmas5 PreparedLemmas6 PreparedLemmas7 TransferSpec TransferLemmas PreparedLemmas8 PropsPrepared.
Import ListNotations.
Local Open Scope R_scope.
Notation DR := (default_config RA RV).
Notation DC := (default_config RA CV).

(** ** C63 dwell sweep *)
(** whatever the a-priori data and the methods: the result is the normalised a-priori sweep times the Tukey window of
    the time axis, on that axis; its laws are estimated from these samples *)
Theorem C63_tapered : forall W cfg scfg int sc time f_start f_central f_end taper d s, hc_base cfg = DC ->
  get_dwell_sweep W cfg scfg int sc time f_start f_central f_end taper d = Ok s <->
  exists t arr win g sw,
    match time with inl a => Ok a | inr l => axis_of_array RA l true end = Ok t /\
    axis_array RA t = Ok arr /\ tukey_a_t arr taper LocBoth = Ok win /\
    ap_new RA CV cfg int (UtAxis t) d (dwell (Some f_start) (Some f_end) (Some f_central)) = Ok g /\
    ap_call RA CV W DC scfg sc (fst g) (snd g) UtNone 0 true = Ok sw /\
    val_sweep RA CV sc (mkRel (A:=RA) (V:=CV) t (map2 Cmult (r_y (sw_rel sw)) (map RtoC win))) None None = Ok s.
Proof. intros. apply dwell_sweep_exact. assumption. Qed.
Print Assumptions C63_tapered.
(** an array of times stands for the axis made from it, with a rounded step *)
Theorem C63_array : forall W cfg scfg int sc (l : seq_in RA) f_start f_central f_end taper d,
  get_dwell_sweep W cfg scfg int sc (inr l) f_start f_central f_end taper d =
  match axis_of_array RA l true with
  | Ok x => get_dwell_sweep W cfg scfg int sc (inl x) f_start f_central f_end taper d
  | Err e => Err e
  end.
Proof. intros. unfold get_dwell_sweep, time_axis. destruct (axis_of_array RA l true); reflexivity. Qed.
Print Assumptions C63_array.
(** a real a-priori signal whose spectrum has increasing positive frequencies [f] with nonzero amplitudes in the band, at
    least two of them under the cut-off: the sweep runs through the frequencies from the first to the last, its amplitude
    law stays between 1 and (f_p / f_0)^2, and the result has the norm of the signal before tapering *)
Theorem C63_design : forall cfg int int' sc (x : raxis) (n : nat) (c s : crel) (sg : rrel) f_start f_central f_end taper (f : list R) (p : nat),
  hc_base cfg = DC -> real_methods sc -> total_methods sc -> extends_integrator int int' ->
  axis_size RA x = Ok n -> (2 <= n)%nat -> a_start x < a_end x -> 0 < a_sample x -> ~ is_tie ((a_end x - a_start x) / a_sample x) ->
  rel_select RA CV (Some f_start) (Some f_end) c = Ok s -> axis_array RA (r_x s) = Ok f -> length (r_y s) = length f ->
  increasing f -> 0 < nth 0 f 0 -> f_central <> 0 -> p = length (filter (fun x => Rleb x f_central) f) -> (2 <= p)%nat ->
  (forall z, In z (r_y s) -> z <> RtoC 0) ->
  exists ys fy ay th win : list R,
    length ys = n /\ length fy = n /\ length ay = n /\ length th = n /\ tukey_a_t (grid (a_start x) (a_end x) n) taper LocBoth = Ok win /\
    (forall i, (i < n)%nat -> nth 0 f 0 <= nth i fy 0 <= last f 0) /\ nth 0 fy 0 = nth 0 f 0 /\ nth (n - 1) fy 0 = last f 0 /\
    (forall i, (i < n)%nat -> 1 <= nth i ay 0 <= (nth (p - 1) f 0 / nth 0 f 0) ^ 2) /\
    nth 0 th 0 = 0 /\
    (forall k, (S k < n)%nat -> nth (S k) th 0 - nth k th 0 = 2 * PI * a_sample x * ((nth k fy 0 + nth (S k) fy 0) / 2)) /\
    (forall i, (i < n)%nat -> nth i ys 0 = nth i ay 0 * sin (nth i th 0)) /\
    forall ns na, rel_norm RA RV DR (mkRel (A:=RA) (V:=RV) x ys) = Ok ns -> rel_norm RA RV DR sg = Ok na -> 0 < ns -> 0 <= na ->
    exists r, get_dwell_sweep CW cfg DC int' sc (inl x) f_start f_central f_end taper (AdSpec RA CV c (Ok (stored sg))) = Ok r /\
      sw_rel r = mkRel (A:=RA) (V:=CV) x (map RtoC (map2 Rmult (map (fun y => y * (sqrt na / sqrt ns)) ys) win)).
Proof.
  intros cfg int int' sc x n c s sg f_start f_central f_end taper f p Hb Hrm Htm Hint Hn H2 Hse Hd Ht Es Ef Hl Hi H0 Hc Ep Hp Hz.
  destruct (C58_dwell (Some f_start) (Some f_end) f_central c s f p Es Ef Hl Hi H0 Hc Ep Hp) as (tm & e & Ed & Lt & Le & T0 & Tn & T1 & T2 & E1 & E2).
  assert (Hpf : (p <= length f)%nat).
  { rewrite Ep. clear. induction f as [|y g IH]; cbn; [lia|]. destruct (Rleb y f_central); cbn; lia. }
  assert (Fm : forall i j, (i <= j < length f)%nat -> nth i f 0 <= nth j f 0).
  { intros i j Hij. destruct (Nat.eq_dec i j) as [->|Hne]; [lra|]. left.
    apply (Hi i j); [lia|apply List.nth_error_nth'; lia|apply List.nth_error_nth'; lia]. }
  assert (Fp : forall i, (i < length f)%nat -> 0 < nth i f 0) by (intros i Hif; specialize (Fm 0%nat i ltac:(lia)); lra).
  assert (En : forall i, (i < length f)%nat -> 0 < nth i (energies s) 0).
  { intros i Hif. unfold energies. change (val CV) with C in *. rewrite (map_at _ _ _ (RtoC 0)) by lia. apply pow_lt. apply Cmod_gt_0.
    apply Hz. apply nth_In. change (val CV) with C in *. lia. }
  assert (Step : forall i, (S i < length f)%nat -> nth i tm 0 < nth (S i) tm 0).
  { intros i Hif. destruct (Nat.lt_ge_cases (S i) p) as [Hlt|Hge].
    - specialize (T1 i Hlt). assert (0 < (nth 0 f 0 / nth (S i) f 0) ^ 4 * nth i (energies s) 0); [|lra].
      apply Rmult_lt_0_compat; [apply pow_lt, Rdiv_lt_0_compat; [exact H0 | apply Fp; lia] | apply En; lia].
    - specialize (T2 i ltac:(lia)). assert (0 < (nth 0 f 0 / nth (p - 1) f 0) ^ 4 * nth (S i) (energies s) 0); [|lra].
      apply Rmult_lt_0_compat; [apply pow_lt, Rdiv_lt_0_compat; [exact H0 | apply Fp; lia] | apply En; lia]. }
  assert (Ti : incr tm).
  { assert (G : forall k i, (i + S k < length f)%nat -> nth i tm 0 < nth (i + S k) tm 0).
    { induction k as [|k IH]; intros i Hif; [replace (i + 1)%nat with (S i) in * by lia; apply Step; lia|].
      eapply Rlt_trans; [apply (IH i); lia|]. replace (i + S (S k))%nat with (S (i + S k)) by lia. apply Step. lia. }
    intros i j a b Hij Ha Hb'. pose proof (nth_error_len _ _ _ Hb') as Hjl. apply (nth_nth_error _ _ 0) in Ha, Hb'. subst a b.
    specialize (G (j - S i)%nat i). replace (i + S (j - S i))%nat with j in G by lia. apply G. lia. }
  assert (Tne : tm <> []) by (intros ->; cbn in Lt; lia).
  assert (Tz : nth_error tm 0 = Some 0) by (rewrite <- T0; apply List.nth_error_nth'; lia).
  assert (Hlast : 0 < last tm 0).
  { pose proof (last_nth_error tm 0 Tne) as El. apply (nth_nth_error _ _ 0) in El. rewrite <- El, Lt.
    apply (Ti 0%nat (length f - 1)%nat); [lia|exact Tz|apply List.nth_error_nth'; lia]. }
  assert (Hsp : forall c0, sc_spectro RA RV (re_sconfig sc) c0 = Ok tt) by (intros c0; apply (Htm (stored c0))).
  destruct (laws_call int (re_sconfig sc) x n tm f e Hn H2 Hse Hd Ht Ti Tz Hlast (eq_sym Lt) ltac:(congruence) Hsp 0)
    as (ys & fy & ay & th & Ec & Lys & Lfy & Lay & Lth & Hlaw & Th0 & Thk & Hy).
  pose proof (axis_array_size x n Hn) as Harr.
  destruct (tukey_len (grid (a_start x) (a_end x) n) taper LocBoth) as (win & Ew & Lw & _); [rewrite grid_length; lia|]. rewrite grid_length in Lw.
  assert (Hfl : last f 0 = nth (length f - 1) f 0).
  { assert (Hne : f <> []) by (intros ->; cbn in *; lia). pose proof (last_nth_error f 0 Hne) as El. apply (nth_nth_error _ _ 0) in El. symmetry. exact El. }
  assert (Bf : forall z, In z f -> nth 0 f 0 <= z <= last f 0).
  { intros z Hz'. apply In_nth_error in Hz'. destruct Hz' as [i Hi']. pose proof (nth_error_len _ _ _ Hi'). apply (nth_nth_error _ _ 0) in Hi'. subst z.
    rewrite Hfl. split; apply Fm; lia. }
  assert (Be : forall z, In z e -> 1 <= z <= (nth (p - 1) f 0 / nth 0 f 0) ^ 2).
  { assert (R1 : forall i, (i < length f)%nat -> 1 <= nth i f 0 / nth 0 f 0).
    { intros i Hif. apply (Rmult_le_reg_r (nth 0 f 0)); [exact H0|]. unfold Rdiv. rewrite Rmult_assoc, Rinv_l by lra. specialize (Fm 0%nat i ltac:(lia)). lra. }
    assert (Sq : forall a b, 1 <= a <= b -> 1 <= a ^ 2 <= b ^ 2).
    { intros a b Hab. split; [replace 1 with (1 ^ 2) by ring|]; apply pow_incr; lra. }
    intros z Hz'. apply In_nth_error in Hz'. destruct Hz' as [i Hi']. pose proof (nth_error_len _ _ _ Hi') as Hil. apply (nth_nth_error _ _ 0) in Hi'. subst z.
    destruct (Nat.lt_ge_cases i p) as [Hlt|Hge].
    - rewrite E1 by exact Hlt. apply Sq. split; [apply R1; lia|]. apply Rmult_le_compat_r; [left; apply Rinv_0_lt_compat; exact H0 | apply Fm; lia].
    - rewrite E2 by lia. apply Sq. split; [apply R1; lia | lra]. }
  assert (Qi : forall i, (i < n)%nat -> 0 <= INR i / INR (n - 1) <= 1).
  { intros i Hin. assert (Hpos : 0 < INR (n - 1)) by (apply lt_0_INR; lia). split.
    - apply Rmult_le_pos; [apply pos_INR | left; apply Rinv_0_lt_compat; exact Hpos].
    - apply (Rmult_le_reg_r (INR (n - 1))); [exact Hpos|]. unfold Rdiv. rewrite Rmult_assoc, Rinv_l by lra. rewrite Rmult_1_r, Rmult_1_l. apply le_INR. lia. }
  exists ys, fy, ay, th, win. repeat (split; [assumption|]).
  split; [intros i Hin; destruct (Hlaw i Hin) as [A1 _]; apply (at_fraction_bounds tm f _ _ _ _ A1 Bf Tz); [lra | apply Qi; exact Hin]|].
  assert (U : forall j v, (j < length f)%nat -> pl_value (V:=RV) tm f (nth j tm 0) v -> v = nth j f 0).
  { intros j v Hj Hv. apply (pl_value_incr RV_laws) in Hv; [|exact Ti|exact Lt|exact Tne]. rewrite Hv. symmetry.
    apply (pl_value_incr RV_laws); [exact Ti|exact Lt|exact Tne|]. apply PL_point with j; apply List.nth_error_nth'; lia. }
  split.
  { apply (U 0%nat); [lia|]. destruct (Hlaw 0%nat ltac:(lia)) as [A1 _]. unfold at_fraction in A1. replace (INR 0 / INR (n - 1) * last tm 0) with (nth 0 tm 0) in A1; [exact A1|].
    rewrite T0. cbn [INR]. unfold Rdiv. ring. }
  split.
  { rewrite Hfl. apply (U (length f - 1)%nat); [lia|]. destruct (Hlaw (n - 1)%nat ltac:(lia)) as [A1 _]. unfold at_fraction in A1.
    pose proof (last_nth_error tm 0 Tne) as El. apply (nth_nth_error _ _ 0) in El. rewrite <- El, Lt in A1.
    replace (INR (n - 1) / INR (n - 1) * nth (length f - 1) tm 0) with (nth (length f - 1) tm 0) in A1; [exact A1|].
    field. apply not_0_INR. lia. }
  split; [intros i Hin; destruct (Hlaw i Hin) as [_ A2]; apply (at_fraction_bounds tm e _ _ _ _ A2 Be Tz); [lra | apply Qi; exact Hin]|].
  split; [exact Th0|]. split; [exact Thk|]. split; [intros i Hin; rewrite (Hy i Hin), Rplus_0_r; reflexivity|].
  intros ns na Hns Hna Hsp' Hap.
  set (g := laws_gen int x tm f e) in *.
  assert (Hsq : square_sweep (re_sconfig sc) (mkSweepv (mkRel (A:=RA) (V:=RV) x ys) (mkRel (A:=RA) (V:=RV) x fy) (mkRel (A:=RA) (V:=RV) x ay))).
  { pose proof Hns as Hq. unfold rel_norm in Hq. rewrite bind_ok in Hq. destruct Hq as (sq & Esq & _).
    assert (Nsq : axis_size RA (r_x sq) = Ok (length (map RtoC (r_y sq)))).
    { pose proof Esq as Eq. unfold rel_op_num in Eq. rewrite bind_ok in Eq. destruct Eq as (yq & _ & Eq). apply rel_make_any in Eq.
      destruct Eq as [-> Nq]. rewrite map_length. exact Nq. }
    destruct (val_sweep_total sc (r_x sq) _ Htm Nsq) as (s2 & Es2 & _).
    assert (Etr : rmap (hsweep (V:=RV) (V':=CV) RtoC) (val_sweep RA RV (re_sconfig sc) sq None None) = Ok s2).
    { rewrite <- Es2. symmetry.
      exact (tr_val_sweep hR (re_sconfig sc) sc (fun c => re_ft sc c Hrm) (fun c => re_at sc c Hrm) (fun _ => eq_refl) sq None None). }
    destruct (val_sweep RA RV (re_sconfig sc) sq None None) as [s3|er] eqn:Es3; [|discriminate].
    exists sq, s3. split; [exact Esq | exact Es3]. }
  destruct (ap_call_norm DR (re_sconfig sc) g sg UtNone 0 _ ns na Ec Hsq Hns Hna) as (G1 & _). destruct (G1 Hsp' Hap) as (cc & Xc & Yc & _ & Eap).
  cbn [sw_rel r_x r_y] in Xc, Yc. destruct cc as [xx yy]. cbn [r_x r_y] in Xc, Yc. subst xx yy.
  set (k := sqrt na / sqrt ns) in *.
  assert (Nk : axis_size RA x = Ok (length (map RtoC (map (fun y => y * k) ys)))) by (rewrite !map_length, Lys; exact Hn).
  destruct (val_sweep_total sc x (map RtoC (map (fun y => y * k) ys)) Htm Nk) as (s1 & Es1 & Xs1 & _).
  pose proof (stored_ap_call sc int int' g sg UtNone 0 true Hrm Hint eq_refl eq_refl) as Est. rewrite Eap in Est.
  assert (Esv : rmap (hsweep (V:=RV) (V':=CV) RtoC) (val_sweep RA RV (re_sconfig sc) (mkRel (A:=RA) (V:=RV) x (map (fun y => y * k) ys)) None None) = Ok s1).
  { rewrite <- Es1. symmetry.
    exact (tr_val_sweep hR (re_sconfig sc) sc (fun c => re_ft sc c Hrm) (fun c => re_at sc c Hrm) (fun _ => eq_refl)
      (mkRel (A:=RA) (V:=RV) x (map (fun y => y * k) ys)) None None). }
  change (val RV) with R in *. rewrite Esv in Est.
  assert (Nr : axis_size RA x = Ok (length (map2 Cmult (r_y (sw_rel s1)) (map RtoC win)))).
  { rewrite Xs1. cbn [r_y]. rewrite map2_len; rewrite !map_length; [rewrite Lys; exact Hn | congruence]. }
  destruct (val_sweep_total sc x _ Htm Nr) as (r & Er & Xr & _).
  exists r. split.
  - apply C63_tapered; [exact Hb|]. exists x, (grid (a_start x) (a_end x) n), win, (stored_gen int' g, stored sg), s1.
    split; [reflexivity|]. split; [exact Harr|]. split; [exact Ew|]. split; [apply laws_new; [exact Hb | exact Ed]|]. split; [exact Est | exact Er].
  - rewrite Xr, Xs1. cbn [r_y]. f_equal. apply map2_RtoC.
Qed.
Print Assumptions C63_design.
(** amplitudes 1 at 1 and 2 Hz, a sweep of two samples 1/4 s apart *)
Definition ex2_spec : crel := mkRel (A:=RA) (V:=CV) (mkAxis (A:=RA) 1 2 1) [RtoC 1; RtoC 1].
Definition ex2_time : raxis := mkAxis (A:=RA) 0 (1 / 4) (1 / 4).
Definition ex2_sig : rrel := mkRel (A:=RA) (V:=RV) ex2_time [1; 1].
Definition ex2_sc : sconfig RA CV := mkSconfig RA CV (fun c => Ok (map (fun _ => RtoC 0) (r_y c))) (fun c => Ok (map (fun _ => RtoC 0) (r_y c))) (fun _ => Ok tt).
Lemma ex2_array : axis_array RA (r_x ex2_spec) = Ok [1; 2].
Proof.
  rewrite (exact_array (r_x ex2_spec) 1) by (unfold exact_span; cbn; split; lra). unfold arith_seq. cbn. repeat f_equal; lra.
Qed.
Lemma ex2_select : rel_select RA CV (Some 1) (Some 2) ex2_spec = Ok ex2_spec.
Proof.
  unfold rel_select. rewrite ex2_array. cbn [bind map length r_y ex2_spec Nat.ltb Nat.leb]. cbn [RA n_le].
  replace (Rleb 1 1) with true by (symmetry; apply Rleb_true; lra). replace (Rleb 1 2) with true by (symmetry; apply Rleb_true; lra).
  replace (Rleb 2 2) with true by (symmetry; apply Rleb_true; lra). cbn [andb mask last r_x a_sample].
  apply (make_CV _ _ 2); [|reflexivity]. apply (axis_size_exact (mkAxis (A:=RA) 1 2 1) 1). unfold exact_span; cbn; split; lra.
Qed.
Definition ex2_quad (g : R -> R) (a b : R) : R := RInt (V := R_CompleteNormedModule) g a b.
Definition ex2_quadc (g : R -> C) (a b : R) : C := RtoC (ex2_quad (fun t => fst (g t)) a b).
Example C63_case : forall cfg, hc_base cfg = DC -> exists r,
  get_dwell_sweep CW cfg DC (integrate_function_default RA CV CW ex2_quadc) ex2_sc (inl ex2_time) 1 2 2 None
    (AdSpec RA CV ex2_spec (Ok (stored ex2_sig))) = Ok r /\ exists z, nth_error (r_y (sw_rel r)) 1 = Some (RtoC z) /\ 0 < z.
Proof.
  intros cfg Hb.
  assert (Hx : axis_size RA ex2_time = Ok 2%nat) by (apply (axis_size_exact ex2_time 1); unfold exact_span; cbn; split; lra).
  destruct (C63_design cfg (integrate_function_default RA RV RW ex2_quad) (integrate_function_default RA CV CW ex2_quadc) ex2_sc ex2_time 2 ex2_spec ex2_spec ex2_sig 1 2 2 None [1; 2] 2
    Hb)
    as (ys & fy & ay & th & win & Lys & Lfy & Lay & Lth & Ew & _ & F0 & F1 & Ba & T0 & Tk & Hy & Hr).
  - intros c ys [E|E] z Hz; injection E as <-; apply in_map_iff in Hz; destruct Hz as (? & <- & _); reflexivity.
  - intros c. split; [|split; [|reflexivity]]; eexists; (split; [reflexivity | apply map_length]).
  - apply default_extends. reflexivity.
  - exact Hx.
  - lia.
  - cbn. lra.
  - cbn. lra.
  - cbn [ex2_time a_end a_start a_sample]. replace ((1 / 4 - 0) / (1 / 4)) with (INR 1) by (cbn; field). apply not_tie_INR.
  - exact ex2_select.
  - exact ex2_array.
  - reflexivity.
  - intros i j a b Hij Ha Hb'. destruct i as [|[|i]]; destruct j as [|[|j]]; cbn in Ha, Hb'; try lia; try congruence;
      try (destruct j; discriminate); try (destruct i; discriminate). injection Ha as <-. injection Hb' as <-. lra.
  - cbn. lra.
  - lra.
  - cbn [filter]. replace (Rleb 1 2) with true by (symmetry; apply Rleb_true; lra). replace (Rleb 2 2) with true by (symmetry; apply Rleb_true; lra). reflexivity.
  - lia.
  - intros z [<-|[<-|[]]] E; injection E; lra.
  - cbn [nth last Nat.sub] in *. specialize (Tk 0%nat ltac:(lia)). cbn [ex2_time a_sample] in Tk. rewrite T0, F0, F1 in Tk.
    assert (T1 : nth 1 th 0 = 3 * (PI / 4)) by lra.
    pose proof PI_RGT_0 as Hpi.
    assert (Hs : 0 < sin (3 * (PI / 4))) by (apply sin_gt_0; lra).
    pose proof (Hy 0%nat ltac:(lia)) as Y0. pose proof (Hy 1%nat ltac:(lia)) as Y1. rewrite T0, sin_0, Rmult_0_r in Y0. rewrite T1 in Y1.
    pose proof (Ba 1%nat ltac:(lia)) as B1.
    assert (Hp : 0 < nth 1 ys 0) by (rewrite Y1; apply Rmult_lt_0_compat; lra).
    destruct ys as [|y0 [|y1 [|? ?]]]; try discriminate. cbn [nth] in Y0, Hp. subst y0.
    assert (Hv : valid (mkRel (A:=RA) (V:=RV) ex2_time [0; y1])) by exact Hx.
    assert (Hn : rel_norm RA RV DR (mkRel (A:=RA) (V:=RV) ex2_time [0; y1]) = Ok (y1 * y1 / 2)).
    { rewrite norm_eq by exact Hv. f_equal. cbn [ex2_time r_x r_y a_end a_start a_sample length Nat.sub INR]. unfold energy_sum. cbn. field. }
    assert (Hn2 : rel_norm RA RV DR ex2_sig = Ok 1).
    { rewrite norm_eq by exact Hx. f_equal. cbn [ex2_sig ex2_time r_x r_y a_end a_start a_sample length Nat.sub INR]. unfold energy_sum. cbn. field. }
    assert (Hpos : 0 < y1 * y1 / 2) by (assert (0 < y1 * y1) by (apply Rmult_lt_0_compat; lra); lra).
    destruct (Hr (y1 * y1 / 2) 1 Hn Hn2 Hpos ltac:(lra)) as (r & Er & Xr).
    exists r. split; [exact Er|]. rewrite Xr. cbn [r_y]. rewrite tukey_a_t_none in Ew. injection Ew as <-.
    cbn [length grid map seq repeat map2 nth_error]. eexists. split; [reflexivity|]. rewrite Rmult_1_r. apply Rmult_lt_0_compat; [exact Hp|].
    apply Rdiv_lt_0_compat; apply sqrt_lt_R0; lra.
Qed.

(** ** C64 linear sweep *)
(** on m steps from 0 to T: the frequency law is exactly the straight line from f0 to f1, and the samples are exactly the
    Tukey window times the chirp sin (2 pi (f0 t + (f1 - f0) t^2 / (2 T))) *)
Theorem C64_chirp : forall int sc (x : raxis) (m : nat) f0 f1 taper, (1 <= m)%nat -> a_start x = 0 ->
  exact_span 0 (a_end x) (a_sample x) m -> (forall c, sc_spectro RA RV sc c = Ok tt) ->
  exists (w ys : list R), tukey_a_t (grid 0 (a_end x) (m + 1)) taper LocBoth = Ok w /\ length w = (m + 1)%nat /\ length ys = (m + 1)%nat /\
    get_linear_sweep RW DR int sc (inl x) f0 f1 taper =
      Ok (mkSweepv (mkRel (A:=RA) (V:=RV) x ys)
                   (mkRel (A:=RA) (V:=RV) x (map (fun i => f0 + (f1 - f0) * (INR i / INR m)) (seq 0 (m + 1))))
                   (mkRel (A:=RA) (V:=RV) x w)) /\
    forall i, (i <= m)%nat -> let t := INR i * a_sample x in
      nth i ys 0 = nth i w 0 * sin (2 * PI * (f0 * t + (f1 - f0) / (2 * a_end x) * t ^ 2)).
Proof. exact linear_sweep_ok. Qed.
Print Assumptions C64_chirp.
(** a time array gives the same sweep when it is exactly the points of its axis *)
Theorem C64_time_array : forall W int sc s (x : raxis) f0 f1 taper, axis_of_array RA s true = Ok x -> axis_array RA x = Ok (s_data s) ->
  get_linear_sweep W DR int sc (inr s) f0 f1 taper = get_linear_sweep W DR int sc (inl x) f0 f1 taper.
Proof. exact linear_sweep_seq. Qed.
Print Assumptions C64_time_array.
Definition ex2_scr : sconfig RA RV := mkSconfig RA RV (fun c => Ok (r_y c)) (fun c => Ok (r_y c)) (fun _ => Ok tt).
(** from 1 to 2 Hz in 1 s, three samples, no taper: the middle one is sin (5 pi / 4) *)
Example C64_case : forall int, exists ys, get_linear_sweep RW DR int ex2_scr (inl (mkAxis (A:=RA) 0 1 (1 / 2))) 1 2 None =
  Ok (mkSweepv (mkRel (A:=RA) (V:=RV) (mkAxis (A:=RA) 0 1 (1 / 2)) ys) (mkRel (A:=RA) (V:=RV) (mkAxis (A:=RA) 0 1 (1 / 2)) [1; 3 / 2; 2])
               (mkRel (A:=RA) (V:=RV) (mkAxis (A:=RA) 0 1 (1 / 2)) [1; 1; 1])) /\ nth 1 ys 0 = sin (5 * PI / 4).
Proof.
  intros int. destruct (C64_chirp int ex2_scr (mkAxis (A:=RA) 0 1 (1 / 2)) 2 1 2 None) as (w & ys & Ew & _ & _ & E & H).
  - lia.
  - reflexivity.
  - unfold exact_span; cbn; split; lra.
  - reflexivity.
  - rewrite tukey_a_t_none, grid_length in Ew. injection Ew as <-. exists ys. split.
    + rewrite E. assert (L : map (fun i : nat => 1 + (2 - 1) * (INR i / INR 2)) (seq 0 (2 + 1)) = [1; 3 / 2; 2]).
      { cbn [Nat.add seq map INR]. apply f_equal2; [lra|]. apply f_equal2; [lra|]. apply f_equal2; [lra|reflexivity]. }
      change (val RV) with R. rewrite L. reflexivity.
    + rewrite H by lia. cbn [Nat.add repeat nth INR a_sample a_end]. rewrite Rmult_1_l. f_equal. field.
Qed.

(** ** C65 shuffled sweep *)
Theorem C65_in_band : forall shuffle int sc (x : raxis) (n : nat) f_start f_end segment taper law,
  (forall l, Permutation (shuffle l) l) ->
  axis_size RA x = Ok n -> (2 <= n)%nat -> a_start x = 0 -> 0 < a_end x -> 0 < a_sample x -> ~ is_tie (a_end x / a_sample x) ->
  (forall c, sc_spectro RA RV sc c = Ok tt) ->
  shuffle_law shuffle x f_start f_end segment None = Ok law -> (2 <= length law)%nat ->
  exists (ys fy w th : list R), get_shuffle RW DR int sc shuffle (inl x) f_start f_end segment None taper =
      Ok (mkSweepv (mkRel (A:=RA) (V:=RV) x ys) (mkRel (A:=RA) (V:=RV) x fy) (mkRel (A:=RA) (V:=RV) x w)) /\
    tukey_a_t (grid 0 (a_end x) n) taper LocBoth = Ok w /\
    length ys = n /\ length fy = n /\ length w = n /\ length th = n /\
    (forall f, In f fy -> between f_start f_end f) /\
    nth 0 th 0 = 0 /\
    (forall k, (S k < n)%nat -> nth (S k) th 0 - nth k th 0 = 2 * PI * a_sample x * ((nth k fy 0 + nth (S k) fy 0) / 2)) /\
    (forall i, (i < n)%nat -> nth i ys 0 = nth i w 0 * sin (nth i th 0) /\ Rabs (nth i ys 0) <= 1).
Proof.
  intros shuffle int sc x n f_start f_end segment taper law Hp Hn H2 H0 HT Hd Ht Hsc El Hl.
  destruct (C53_in_band shuffle x f_start f_end segment None law Hp Hd El) as [Hb _].
  destruct (shuffle_sweep_ok shuffle int sc x n f_start f_end segment None taper law (Rmin f_start f_end) (Rmax f_start f_end) Hn H2 H0 HT Hd Ht Hsc El Hl
    (Hb (or_introl eq_refl))) as (ys & fy & w & E & _ & Ew & L1 & L2 & L3 & Uw & Bf & th & L4 & T0 & Tk & Hy).
  exists ys, fy, w, th. repeat (split; [assumption|]). intros i Hi. split; [apply Hy; exact Hi|]. rewrite (Hy i Hi).
  eapply Rle_trans; [apply sin_bound|]. assert (Hw : 0 <= nth i w 0 <= 1) by (apply Uw, nth_In; lia). rewrite Rabs_right; lra.
Qed.
Print Assumptions C65_in_band.
(** the frequency law is the shuffled law stretched over the whole axis: it starts and ends with it *)
Theorem C65_stretched : forall shuffle int sc (x : raxis) (n : nat) f_start f_end segment digits taper law s,
  axis_size RA x = Ok n -> (2 <= n)%nat -> a_start x = 0 -> 0 < a_end x -> 0 < a_sample x -> ~ is_tie (a_end x / a_sample x) ->
  (forall c, sc_spectro RA RV sc c = Ok tt) ->
  shuffle_law shuffle x f_start f_end segment digits = Ok law -> (2 <= length law)%nat ->
  get_shuffle RW DR int sc shuffle (inl x) f_start f_end segment digits taper = Ok s ->
  length (r_y (sw_ft s)) = n /\ nth_error (r_y (sw_ft s)) 0 = nth_error law 0 /\
  nth_error (r_y (sw_ft s)) (n - 1) = nth_error law (length law - 1) /\
  forall i v, nth_error (r_y (sw_ft s)) i = Some v -> pl_value (V:=RV) (grid 0 (a_end x) (length law)) law (nth i (grid 0 (a_end x) n) 0) v.
Proof.
  intros shuffle int sc x n f_start f_end segment digits taper law s Hn H2 H0 HT Hd Ht Hsc El Hl Es.
  assert (HB : exists lo hi, forall y, In y law -> lo <= y <= hi).
  { clear. induction law as [|a l (lo & hi & IH)]; [exists 0, 0; intros ? []|]. exists (Rmin a lo), (Rmax a hi). intros y [<-|Hy].
    - split; [apply Rmin_l | apply Rmax_l].
    - specialize (IH y Hy). pose proof (Rmin_r a lo). pose proof (Rmax_r a hi). lra. }
  destruct HB as (lo & hi & HB).
  destruct (shuffle_sweep_ok shuffle int sc x n f_start f_end segment digits taper law lo hi Hn H2 H0 HT Hd Ht Hsc El Hl HB)
    as (ys & fy & w & E & Ef & _ & _ & L2 & _). rewrite E in Es. injection Es as <-. cbn [sw_ft r_y]. split; [exact L2|].
  destruct (Nat.eq_dec n (length law)) as [En|En].
  - rewrite (resample_own x law n Hn (eq_sym En)) in Ef. injection Ef as <-. split; [reflexivity|]. split; [rewrite En; reflexivity|].
    intros i v Hv. pose proof (nth_error_len _ _ _ Hv) as Hi. apply PL_point with i; [|exact Hv]. rewrite <- En.
    rewrite (nth_indep _ 0 (nth i (grid 0 (a_end x) n) 0)) by (rewrite grid_length; change (val RV) with R in *; lia). apply List.nth_error_nth'. rewrite grid_length. change (val RV) with R in *. lia.
  - destruct (resample_pl RV_laws x law n Hl ltac:(lra) Hn En) as (fy' & Ef' & _ & Hw & W0 & W1). rewrite Ef' in Ef. injection Ef as <-.
    split; [exact W0|]. split; [exact (W1 H2)|]. intros i v Hv. rewrite <- H0. apply (Hw i); [|exact Hv].
    pose proof (nth_error_len _ _ _ Hv) as Hi. apply List.nth_error_nth'. rewrite grid_length. change (val RV) with R in *. lia.
Qed.
Print Assumptions C65_stretched.
(** frequencies 1, 3, 5 taken in the order 5, 1, 3: the law 3, 1 of C53_case stretched over five samples *)
(** an array of times stands for the axis made from it, with a rounded step *)
Theorem C65_array : forall W cur int sc shuffle (l : seq_in RA) f_start f_end segment digits taper,
  get_shuffle W cur int sc shuffle (inr l) f_start f_end segment digits taper =
  match axis_of_array RA l true with
  | Ok x => get_shuffle W cur int sc shuffle (inl x) f_start f_end segment digits taper
  | Err e => Err e
  end.
Proof. intros. unfold get_shuffle, time_axis. destruct (axis_of_array RA l true); reflexivity. Qed.
Print Assumptions C65_array.
(** times 0 and 0.3: the step becomes 1/3 *)
Example C65_case_array : axis_of_array RA (mkSeq (A:=RA) true [0; 3 / 10]) true = Ok (mkAxis (A:=RA) 0 (3 / 10) (1 / 3)).
Proof.
  assert (R1 : Rround (1 / (3 / 10 - 0)) = 3%Z).
  { apply Rround_iff. left. change (IZR 3) with 3. replace (1 / (3 / 10 - 0) - 3) with (1 / 3) by field. rewrite Rabs_pos_eq; lra. }
  unfold axis_of_array, actual_sample, round_sample, np_diff_num. cbn [s_data s_float diffs amin_num fold_left bind andb RA n_sub n_lt n_eq n_div n_of_Z n_round].
  replace (Rltb (3 / 10 - 0) 1) with true by (symmetry; apply Rltb_true; lra).
  replace (Reqb (3 / 10 - 0) 0) with false by (symmetry; apply Reqb_false; lra).
  rewrite R1. reflexivity.
Qed.
Example C65_case : forall int, exists ys w, get_shuffle RW DR int ex2_scr (fun l => match l with [a; b; c] => [c; a; b] | _ => l end)
    (inl (mkAxis (A:=RA) 0 4 1)) 1 5 2 None None =
  Ok (mkSweepv (mkRel (A:=RA) (V:=RV) (mkAxis (A:=RA) 0 4 1) ys) (mkRel (A:=RA) (V:=RV) (mkAxis (A:=RA) 0 4 1) [3; 5 / 2; 2; 3 / 2; 1])
        (mkRel (A:=RA) (V:=RV) (mkAxis (A:=RA) 0 4 1) w)).
Proof.
  intros int. destruct C53_case as (law & El & ->).
  assert (Hx : axis_size RA (mkAxis (A:=RA) 0 4 1) = Ok 5%nat) by (apply (axis_size_exact (mkAxis (A:=RA) 0 4 1) 4); unfold exact_span; cbn; split; lra).
  assert (Ht : ~ is_tie (a_end (mkAxis (A:=RA) 0 4 1) / a_sample (mkAxis (A:=RA) 0 4 1))).
  { cbn [a_end a_sample]. replace (4 / 1) with (INR 4) by (cbn; lra). apply not_tie_INR. }
  destruct (shuffle_sweep_ok (fun l => match l with [a; b; c] => [c; a; b] | _ => l end) int ex2_scr (mkAxis (A:=RA) 0 4 1) 5 1 5 2 None None [3; 1] 1 3 Hx)
    as (ys & fy & w & E & Ef & _ & _ & L2 & _); try (cbn; lia); try (cbn; lra); try assumption; try reflexivity.
  { intros y [<-|[<-|[]]]; lra. }
  destruct (C65_stretched _ int ex2_scr (mkAxis (A:=RA) 0 4 1) 5 1 5 2 None None [3; 1] _ Hx ltac:(lia) eq_refl ltac:(cbn; lra) ltac:(cbn; lra) Ht
    (fun _ => eq_refl) El ltac:(cbn; lia) E) as (_ & _ & _ & H).
  exists ys, w. rewrite E. apply f_equal. apply (f_equal (fun z => mkSweepv _ (mkRel (A:=RA) (V:=RV) _ z) _)). cbn [sw_ft r_y] in H.
  assert (G0 : grid 0 (a_end (mkAxis (A:=RA) 0 4 1)) (length [3; 1]) = [0; 4]) by (unfold grid, grid_pt; cbn; repeat f_equal; lra).
  assert (G1 : grid 0 (a_end (mkAxis (A:=RA) 0 4 1)) 5 = [0; 1; 2; 3; 4]) by (unfold grid, grid_pt; cbn; repeat f_equal; lra).
  rewrite G0, G1 in H.
  assert (V : forall t v, 0 <= t <= 4 -> pl_value (V:=RV) [0; 4] [3; 1] t v -> v = 3 - t / 2).
  { intros t v Ht' Hv. destruct Hv as [i y Hi Hy|i x0 x1 y0 y1 A0 A1 B0 B1 _|_ Ho].
    - destruct i as [|[|[|i]]]; cbn in Hi, Hy; try discriminate; injection Hi as <-; injection Hy as <-; lra.
    - destruct i as [|[|[|i]]]; cbn in A0, A1, B0, B1; try discriminate. injection A0 as <-. injection A1 as <-. injection B0 as <-. injection B1 as <-.
      unfold line. cbn. field.
    - destruct Ho as [Ho|Ho]; [specialize (Ho 4 ltac:(cbn; tauto)) | specialize (Ho 0 ltac:(cbn; tauto))]; lra. }
  destruct fy as [|a [|b [|c [|d [|e [|? ?]]]]]]; try discriminate.
  pose proof (V 0 a ltac:(lra) (H 0%nat a eq_refl)) as E0. pose proof (V 1 b ltac:(lra) (H 1%nat b eq_refl)) as E1.
  pose proof (V 2 c ltac:(lra) (H 2%nat c eq_refl)) as E2. pose proof (V 3 d ltac:(lra) (H 3%nat d eq_refl)) as E3.
  pose proof (V 4 e ltac:(lra) (H 4%nat e eq_refl)) as E4. rewrite E0, E1, E2, E3, E4.
  repeat (apply f_equal2; [lra|]). reflexivity.
Qed.

(** ** C66 real samples stored as complex numbers *)
(** with the default methods every operation on relations whose samples are real numbers stored as complex numbers gives the
    result - or the exception - of the operation on the real numbers, stored as complex numbers *)
Notation storedv := (RtoC : val RV -> val CV).
Theorem C66_relation : forall (r1 r2 : rrel),
  (forall x y, rel_init RA CV DC (hx_in storedv x) (option_map (map storedv) y) = rmap stored (rel_init RA RV DR x y)) /\
  (forall o same, no_power o -> rel_op RA CV DC o same (stored r1) (stored r2) = rmap stored (rel_op RA RV DR o same r1 r2)) /\
  (forall o b, no_power o -> rel_op_num RA CV DC o (stored r1) (hoperand storedv b) = rmap stored (rel_op_num RA RV DR o r1 b)) /\
  rel_diff RA CV DC (stored r1) = rmap stored (rel_diff RA RV DR r1) /\
  rel_integrate RA CV DC (stored r1) = rmap stored (rel_integrate RA RV DR r1) /\
  (forall nx, rel_interp RA CV DC nx (stored r1) = rmap stored (rel_interp RA RV DR nx r1)) /\
  (forall s e, rel_select RA CV s e (stored r1) = rmap stored (rel_select RA RV s e r1)) /\
  (forall d, rel_shift RA CV d (stored r1) = rmap stored (rel_shift RA RV d r1)) /\
  (forall same, rel_equalize RA CV DC same (stored r1) (stored r2) = rmap (fun p => (stored (fst p), stored (snd p))) (rel_equalize RA RV DR same r1 r2)) /\
  rel_convolve RA CV DC (stored r1) (stored r2) = rmap stored (rel_convolve RA RV DR r1 r2) /\
  rel_correlate RA CV DC (stored r1) (stored r2) = rmap stored (rel_correlate RA RV DR r1 r2) /\
  rel_norm RA CV DC (stored r1) = rmap storedv (rel_norm RA RV DR r1) /\
  rel_max RA CV (stored r1) = rmap storedv (rel_max RA RV r1) /\ rel_min RA CV (stored r1) = rmap storedv (rel_min RA RV r1) /\
  (forall x, rel_getitem RA CV x (stored r1) = rmap (fun p => (fst p, RtoC (snd p))) (rel_getitem RA RV x r1)).
Proof.
  intros r1 r2.
  split; [exact (tr_init hR)|].
  split; [exact (fun o same => tr_rel_op hR hR_of hR_add hR_sub hR_mul hR_div o same r1 r2)|].
  split; [exact (fun o => tr_rel_op_num hR hR_add hR_sub hR_mul hR_div o r1)|].
  split; [exact (tr_diff hR hR_of hR_sub hR_div r1)|].
  split; [exact (tr_integrate hR hR_of hR_add hR_mul hR_div r1)|].
  split; [exact (fun nx => tr_interp hR hR_of hR_add hR_sub hR_mul hR_div nx r1)|].
  split; [exact (fun s e => tr_select hR s e r1)|].
  split; [exact (fun d => tr_shift hR d r1)|].
  split; [exact (fun same => tr_equalize hR hR_of hR_add hR_sub hR_mul hR_div same r1 r2)|].
  split; [exact (tr_lagged hR hR_of hR_add hR_sub hR_mul hR_div _ _ r1 r2 (tr_convolve hR hR_of hR_add hR_mul))|].
  split; [exact (tr_lagged hR hR_of hR_add hR_sub hR_mul hR_div _ _ r1 r2 (tr_correlate hR hR_of hR_add hR_mul hR_conj))|].
  split; [exact (tr_norm hR hR_of hR_add hR_mul hR_div hR_sq r1)|].
  split; [exact (tr_max hR hR_lt r1)|]. split; [exact (tr_min hR hR_lt r1)|].
  exact (fun x => tr_getitem hR x r1).
Qed.
Print Assumptions C66_relation.
(** the same for the generators *)
Theorem C66_generator : forall sc int int' (g : ugen RA RV) t tht0, real_methods sc -> extends_integrator int int' -> u_cfg g = DR -> u_int g = int ->
  us_call RA CV CW DC sc (stored_gen int' g) t tht0 = rmap (hsweep (V:=RV) (V':=CV) RtoC) (us_call RA RV RW DR (re_sconfig sc) g t tht0) /\
  forall sg nm, ap_call RA CV CW DC DC sc (stored_gen int' g) (stored sg) t tht0 nm =
    rmap (hsweep (V:=RV) (V':=CV) RtoC) (ap_call RA RV RW DR DR (re_sconfig sc) g sg t tht0 nm).
Proof.
  intros sc int int' g t tht0 H1 H2 H3 H4. split; [eapply stored_us_call; eassumption|]. intros. eapply stored_ap_call; eassumption.
Qed.
Print Assumptions C66_generator.
(** the default integration meets the hypothesis when the quadrature of a function with real values is its real quadrature *)
Theorem C66_default_integration : forall quad quad', (forall (g : R -> R) a b, quad' (fun t => RtoC (g t)) a b = RtoC (quad g a b)) ->
  extends_integrator (integrate_function_default RA RV RW quad) (integrate_function_default RA CV CW quad').
Proof. exact default_extends. Qed.
Print Assumptions C66_default_integration.
(** the product of 1, 2 and 3, 4 *)
Example C66_case : rel_op RA CV DC MUL true (stored (mkRel (A:=RA) (V:=RV) ex2_time [1; 2])) (stored (mkRel (A:=RA) (V:=RV) ex2_time [3; 4])) =
  Ok (mkRel (A:=RA) (V:=CV) ex2_time [RtoC 3; RtoC 8]).
Proof.
  destruct (C66_relation (mkRel (A:=RA) (V:=RV) ex2_time [1; 2]) (mkRel (A:=RA) (V:=RV) ex2_time [3; 4])) as (_ & H & _).
  rewrite H by exact I.
  assert (Hx : axis_size RA ex2_time = Ok 2%nat) by (apply (axis_size_exact ex2_time 1); unfold exact_span; cbn; split; lra).
  unfold rel_op, rel_equalize. cbn [bind fst snd default_config c_math math_operation r_x r_y length Nat.eqb map2].
  unfold rel_make. rewrite Hx. cbn [bind length Nat.eqb op_apply RV v_mul]. unfold hrel. cbn [rmap r_x r_y].
  replace (1 * 3) with 3 by lra. replace (2 * 4) with 8 by lra. reflexivity.
Qed.
