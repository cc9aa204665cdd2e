(** Lemmas about complete prepared sweeps: dwell sweep, linear sweep, shuffle sweep. *)
From Coq Require Import Reals ZArith List Bool Lra Lia.
From Coquelicot Require Import Complex.
From Verif Require Import Num Numpy AxisModel RelModel HeapModel FourierModel Spec RLemmas AxisLemmas InterpLemmas
  VInst RelLemmas RelLemmas2 RelLemmas3 SweepModel SweepSpec SweepLemmas SweepLemmas2 SweepLemmas3 PreparedModel PreparedSpec PreparedLemmas PreparedLemmas2 PreparedLemmas3 PreparedLemmas4 PreparedLemmas5 PreparedLemmas6 PreparedLemmas7 TransferSpec TransferLemmas.
Import ListNotations.
Local Open Scope R_scope.

Section Any.
Context (A : Arith) (V : Vals A) (W : wfun A V).
(** the axis of a sweep made by a generator with a time axis *)
Lemma us_new_time cur int x f a g : us_new A V cur int (UtAxis x) f a = Ok g -> u_time g = Some x.
Proof.
  unfold us_new. cbn [bind]. intros H. rewrite bind_ok in H. destruct H as (i & Ei & H). injection H as <-. cbn [u_time].
  unfold get_info_from_ftat in Ei. rewrite bind_ok in Ei. destruct Ei as (f' & _ & Ei). rewrite bind_ok in Ei. destruct Ei as (a' & _ & Ei).
  cbn [bind] in Ei. injection Ei as <-. reflexivity.
Qed.
Lemma ap_new_time cfg int x d m g : ap_new A V cfg int (UtAxis x) d m = Ok g -> u_time (fst g) = Some x.
Proof.
  unfold ap_new. intros H. rewrite bind_ok in H. destruct H as (i & _ & H). rewrite bind_ok in H. destruct H as (g0 & Eg & H).
  injection H as <-. exact (us_new_time _ _ _ _ _ _ Eg).
Qed.
Lemma us_call_axis cur sc (g : ugen A V) x tht0 s : u_time g = Some x -> us_call A V W cur sc g UtNone tht0 = Ok s ->
  r_x (sw_rel s) = x /\ axis_size A x = Ok (length (r_y (sw_rel s))).
Proof.
  intros Hx H. apply us_call_exact in H. destruct H as (x' & fy & am & th & Cx & _ & _ & _ & Nx & La & Lt & -> & _). cbn [sw_rel r_x r_y].
  rewrite Hx in Cx. inversion Cx; subst. replace x' with x in * by congruence. split; [reflexivity|]. rewrite map2_len; rewrite ?map_length; congruence.
Qed.
Lemma val_sweep_content sc c f a s : val_sweep A V sc c f a = Ok s -> sw_rel s = c.
Proof. unfold val_sweep. intros H. repeat (rewrite bind_ok in H; destruct H as (? & _ & H)). injection H as <-. reflexivity. Qed.
Lemma ap_call_axis cur scfg sc (g : ugen A V) sg x tht0 s : u_time g = Some x -> ap_call A V W cur scfg sc g sg UtNone tht0 true = Ok s ->
  r_x (sw_rel s) = x /\ axis_size A x = Ok (length (r_y (sw_rel s))).
Proof.
  intros Hx H. unfold ap_call in H. rewrite bind_ok in H. destruct H as (s0 & E0 & H). destruct (us_call_axis _ _ _ _ _ _ Hx E0) as [X0 _].
  do 6 (rewrite bind_ok in H; destruct H as (? & _ & H)). rewrite bind_ok in H. destruct H as (c & Ec & H).
  apply val_sweep_content in H. rewrite H. unfold rel_op_num in Ec. rewrite bind_ok in Ec. destruct Ec as (y & _ & Ec).
  apply rel_make_any in Ec. destruct Ec as [-> N]. cbn [r_x r_y]. rewrite X0 in *. auto.
Qed.
End Any.

(** *** dwell sweep *)
Section Dwell.
Context (W : wfun RA CV) (F : vfun RA CV) (scfg : config RA CV) (int : integrator RA CV) (sc : sconfig RA CV).
Notation DC := (default_config RA CV).
Lemma dwell_sweep_exact cfg time f_start f_central f_end taper d s : hc_base cfg = DC ->
  get_dwell_sweep W cfg scfg int sc time f_start f_central f_end taper d = Ok s <->
  exists t arr win g sw,
    time_axis time = Ok t /\ axis_array RA t = Ok arr /\ tukey_a_t arr taper LocBoth = Ok win /\
    ap_new RA CV cfg int (UtAxis t) d (dwell (Some f_start) (Some f_end) (Some f_central)) = Ok g /\
    ap_call RA CV W DC scfg sc (fst g) (snd g) UtNone 0 true = Ok sw /\
    val_sweep RA CV sc (mkRel (A:=RA) (V:=CV) t (map2 Cmult (r_y (sw_rel sw)) (map RtoC win))) None None = Ok s.
Proof.
  intros Hb. unfold get_dwell_sweep. rewrite Hb.
  assert (Key : forall t arr win g sw, axis_array RA t = Ok arr -> tukey_a_t arr taper LocBoth = Ok win ->
    ap_new RA CV cfg int (UtAxis t) d (dwell (Some f_start) (Some f_end) (Some f_central)) = Ok g ->
    ap_call RA CV W DC scfg sc (fst g) (snd g) UtNone 0 true = Ok sw ->
    rel_make RA CV t (map RtoC win) = Ok (mkRel (A:=RA) (V:=CV) t (map RtoC win)) /\
    rel_op RA CV DC MUL false (sw_rel sw) (mkRel (A:=RA) (V:=CV) t (map RtoC win)) = Ok (mkRel (A:=RA) (V:=CV) t (map2 Cmult (r_y (sw_rel sw)) (map RtoC win)))).
  { intros t arr win g sw Ea Ew Eg Es. pose proof (ap_new_time _ _ _ _ _ _ _ _ Eg) as Ht.
    destruct (ap_call_axis _ _ _ _ _ _ _ _ _ _ _ Ht Es) as [Ex Nx].
    assert (La : axis_size RA t = Ok (length arr)).
    { unfold axis_array in Ea. rewrite bind_ok in Ea. destruct Ea as (n & En & Ea). injection Ea as <-. rewrite linspace_R, grid_length. exact En. }
    assert (Hw : length win = length arr).
    { destruct taper as [tp|]; [|rewrite tukey_a_t_none in Ew; injection Ew as <-; apply repeat_length].
      destruct (tukey_a_t_bounds arr (Some tp) LocBoth) as (w & E & L & _); [|cbn [RA num] in *; change (num RA) with R in *; congruence].
      intros _ ->. discriminate. }
    assert (Em : rel_make RA CV t (map RtoC win) = Ok (mkRel (A:=RA) (V:=CV) t (map RtoC win))).
    { apply rel_make_any. split; [reflexivity|]. rewrite map_length, Hw. exact La. }
    split; [exact Em|].
    rewrite (rel_op_equal_axes CV_laws).
    - rewrite Ex. reflexivity.
    - unfold valid. rewrite Ex. exact Nx.
    - exact (rel_make_valid _ _ _ Em).
    - exact Ex. }
  split.
  - intros H. rewrite bind_ok in H. destruct H as (t & Et & H). rewrite bind_ok in H. destruct H as (g & Eg & H).
    rewrite bind_ok in H. destruct H as (arr & Ea & H). rewrite bind_ok in H. destruct H as (win & Ew & H).
    rewrite bind_ok in H. destruct H as (tw & Etw & H). rewrite bind_ok in H. destruct H as (sw & Es & H).
    rewrite bind_ok in H. destruct H as (p & Ep & H).
    destruct (Key t arr win g sw Ea Ew Eg Es) as [K1 K2]. rewrite K1 in Etw. injection Etw as <-. rewrite K2 in Ep. injection Ep as <-.
    exists t, arr, win, g, sw. auto 10.
  - intros (t & arr & win & g & sw & Et & Ea & Ew & Eg & Es & H).
    destruct (Key t arr win g sw Ea Ew Eg Es) as [K1 K2].
    rewrite Et. cbn [bind]. rewrite Eg. cbn [bind]. rewrite Ea. cbn [bind]. rewrite Ew. cbn [bind].
    rewrite K1. cbn [bind]. rewrite Es. cbn [bind]. rewrite K2. cbn [bind]. exact H.
Qed.
End Dwell.

(** *** generators given two arrays on an axis that starts at 0 *)

Lemma ia_call_own (x : axis RA) (n : nat) (y : list R) : a_start x = 0 -> 0 < a_end x -> axis_size RA x = Ok n -> (2 <= n)%nat -> length y = n ->
  ia_call RA RV DR (mkIA (A:=RA) (V:=RV) (grid (a_start x) (a_end x) n) y) x = Ok y.
Proof.
  intros H0 H1 Hn H2 Ly.
  assert (Hg0 : nth_error (grid (a_start x) (a_end x) n) 0 = Some 0) by (rewrite grid_first by lia; rewrite H0; reflexivity).
  assert (Hl : last (grid (a_start x) (a_end x) n) 0 = a_end x).
  { assert (Hne : grid (a_start x) (a_end x) n <> []) by (intros E; rewrite E in Hg0; discriminate).
    pose proof (last_nth_error (grid (a_start x) (a_end x) n) 0 Hne) as E. rewrite grid_length, grid_last in E by lia. congruence. }
  assert (Hi : incr (grid (a_start x) (a_end x) n)) by (apply grid_incr; lra).
  assert (Lg : length (grid (a_start x) (a_end x) n) = length y) by (rewrite grid_length; symmetry; exact Ly).
  destruct (stretch_zero RV_laws (grid (a_start x) (a_end x) n) y x n) as (w & Ew & Lw & Hw & _); try assumption.
  - rewrite Hl. exact H1.
  - lra.
  - rewrite Ew. f_equal. apply nth_error_ext; [change (val RV) with R in *; congruence|].
    intros i Hi'. destruct (nth_error_lt w i Hi') as [v Ev].
    assert (Hin : (i < n)%nat) by (change (val RV) with R in *; lia).
    pose proof (Hw i _ v (grid_nth _ _ _ _ Hin) Ev) as G. unfold at_fraction in G. rewrite Hl, H0 in G.
    replace ((grid_pt 0 (a_end x) n i - 0) / (a_end x - 0) * a_end x) with (grid_pt 0 (a_end x) n i) in G by (field; lra).
    destruct (nth_error_lt y i) as [v' Ev']; [lia|].
    rewrite Ev. change (val RV) with R in *. rewrite Ev'. f_equal.
    rewrite H0 in *. apply (pl_value_incr RV_laws) in G; [|assumption|exact Lg|intros E; rewrite E in Hg0; discriminate].
    rewrite G. symmetry. apply (pl_value_incr RV_laws); [assumption|exact Lg|intros E; rewrite E in Hg0; discriminate|].
    eapply PL_point; [apply grid_nth; exact Hin|exact Ev'].
Qed.
Lemma resample_own (x : axis RA) (y : list R) n : axis_size RA x = Ok n -> length y = n -> resample RA RV DR x y = Ok y.
Proof. intros Hn <-. exact (resample_same (V:=RV) x y Hn). Qed.
Lemma arrays_new int (x : axis RA) (law am fy ay : list R) n : axis_size RA x = Ok n ->
  resample RA RV DR x law = Ok fy -> resample RA RV DR x am = Ok ay ->
  us_new RA RV DR int (UtAxis x) (LiArr (A:=RA) (V:=RV) law) (LiArr (A:=RA) (V:=RV) am) =
  Ok (mkUgen RA RV (Some x) (LawArr (mkIA (A:=RA) (V:=RV) (grid (a_start x) (a_end x) n) fy))
        (LawArr (mkIA (A:=RA) (V:=RV) (grid (a_start x) (a_end x) n) ay)) DR int).
Proof.
  intros Hn Ef Ea. unfold us_new, get_info_from_ftat, extract_x_t. cbn [default_law bind fst snd].
  rewrite Ef. cbn [bind ia_new]. rewrite (axis_array_size x n Hn). cbn [bind fst snd]. rewrite Ea. cbn [bind fst snd].
  reflexivity.
Qed.
Lemma arrays_call int sc (x : axis RA) (fy ay : list R) n tht0 : a_start x = 0 -> 0 < a_end x -> axis_size RA x = Ok n -> (2 <= n)%nat ->
  0 < a_sample x -> ~ is_tie (a_end x / a_sample x) -> length fy = n -> length ay = n -> (forall c, sc_spectro RA RV sc c = Ok tt) ->
  exists (ys th : list R), length ys = n /\ length th = n /\
    us_call RA RV RW DR sc (mkUgen RA RV (Some x) (LawArr (mkIA (A:=RA) (V:=RV) (grid (a_start x) (a_end x) n) fy))
        (LawArr (mkIA (A:=RA) (V:=RV) (grid (a_start x) (a_end x) n) ay)) DR int) UtNone tht0 =
      Ok (mkSweepv (mkRel (A:=RA) (V:=RV) x ys) (mkRel (A:=RA) (V:=RV) x fy) (mkRel (A:=RA) (V:=RV) x ay)) /\
    (forall i, (i < n)%nat -> nth i ys 0 = nth i ay 0 * sin (nth i th 0 + tht0)) /\
    nth 0 th 0 = 0 /\
    (forall k, (S k < n)%nat -> nth (S k) th 0 - nth k th 0 = 2 * PI * a_sample x * ((nth k fy 0 + nth (S k) fy 0) / 2)).
Proof.
  intros H0 H1 Hn H2 Hd Ht Lf La Hsc.
  set (g := mkUgen RA RV _ _ _ _ _).
  assert (Lfy : law_on DR (u_f g) x fy) by (apply law_eval_on; apply ia_call_own; assumption).
  assert (Lay : law_on DR (u_a g) x ay) by (apply law_eval_on; apply ia_call_own; assumption).
  destruct (call_ok sc g UtNone tht0 x n fy ay) as [s Es]; try assumption.
  - constructor. reflexivity.
  - cbn [u_f g]. split; [exact Hd|]. split; [lra|]. split; [exact H2|]. rewrite H0, Rminus_0_r. exact Ht.
  - pose proof Es as Es'. apply us_call_exact in Es'. destruct Es' as (x' & fy' & am' & th & Cx & Lf' & La' & An & Nx & Na & Nt & E & _).
    inversion Cx as [| |a Ex]; subst a. cbn [u_time g] in Ex. injection Ex as <-.
    apply law_eval_on in Lfy, Lf', Lay, La'. rewrite Lfy in Lf'. rewrite Lay in La'. injection Lf' as <-. injection La' as <-.
    destruct (call_array sc g UtNone tht0 s _ Es eq_refl) as (th' & Lt' & Hy & T0 & Hk). subst s.
    cbn [sw_rel sw_ft sw_at r_x r_y] in *.
    set (ys := map2 _ _ _) in *. change (val RV) with R in *.
    assert (Lys : length ys = n) by (unfold ys; rewrite map2_len; rewrite ?map_length; change (val RV) with R in *; congruence).
    exists ys, th'. split; [exact Lys|]. split; [congruence|]. split; [exact Es|].
    split; [intros i Hi; apply Hy; change (val RV) with R in *; lia|]. split.
    + destruct th' as [|a l]; [discriminate|]. injection T0 as ->. reflexivity.
    + intros k Hk'. apply Hk. change (val RV) with R in *. lia.
Qed.

(** *** linear sweep *)
Lemma not_tie_INR m : ~ is_tie (INR m).
Proof.
  intros [k Hk]. rewrite INR_IZR_INZ in Hk. assert (E : IZR (2 * Z.of_nat m) = IZR (2 * k + 1)) by (rewrite plus_IZR, !mult_IZR; lra).
  apply eq_IZR in E. lia.
Qed.
Lemma tukey_len arr taper loc : (0 < length arr)%nat -> exists w, tukey_a_t arr taper loc = Ok w /\ length w = length arr /\ unit_list w.
Proof. intros H. apply tukey_a_t_bounds. intros _ E. rewrite E in H. cbn in H. lia. Qed.
Lemma linear_sweep_ok int sc (x : axis RA) (m : nat) f0 f1 taper : (1 <= m)%nat -> a_start x = 0 ->
  exact_span 0 (a_end x) (a_sample x) m -> (forall c, sc_spectro RA RV sc c = Ok tt) ->
  exists (w ys : list R), tukey_a_t (grid 0 (a_end x) (m + 1)) taper LocBoth = Ok w /\ length w = (m + 1)%nat /\ length ys = (m + 1)%nat /\
    get_linear_sweep RW DR int sc (inl x) f0 f1 taper =
      Ok (mkSweepv (mkRel (A:=RA) (V:=RV) x ys)
                   (mkRel (A:=RA) (V:=RV) x (map (fun i => f0 + (f1 - f0) * (INR i / INR m)) (seq 0 (m + 1))))
                   (mkRel (A:=RA) (V:=RV) x w)) /\
    forall i, (i <= m)%nat -> let t := INR i * a_sample x in
      nth i ys 0 = nth i w 0 * sin (2 * PI * (f0 * t + (f1 - f0) / (2 * a_end x) * t ^ 2)).
Proof.
  intros Hm H0 [Hd Hs] Hsc. rewrite Rminus_0_r in Hs.
  assert (Hmp : 0 < INR m) by (apply lt_0_INR; lia).
  assert (HT : 0 < a_end x) by (rewrite Hs; apply Rmult_lt_0_compat; assumption).
  assert (Hn : axis_size RA x = Ok (m + 1)%nat).
  { apply axis_size_exact. unfold exact_span. rewrite H0. split; [exact Hd|]. lra. }
  pose proof (axis_array_size x _ Hn) as Ha. rewrite H0 in Ha.
  destruct (tukey_len (grid 0 (a_end x) (m + 1)) taper LocBoth) as (w & Ew & Lw & _); [rewrite grid_length; lia|].
  rewrite grid_length in Lw.
  set (fy := map (fun i => f0 + (f1 - f0) * (INR i / INR m)) (seq 0 (m + 1))).
  assert (Lf : length fy = (m + 1)%nat) by (unfold fy; rewrite map_length; apply seq_length).
  assert (El : f_t_linear_array RA (grid 0 (a_end x) (m + 1)) f0 f1 = Ok fy).
  { rewrite (linear_array_eq _ f0 f1 0) by (apply grid_first; lia). f_equal. unfold fy, grid. rewrite map_map. apply map_ext_in.
    intros i Hi. apply in_seq in Hi.
    assert (E : last (map (grid_pt 0 (a_end x) (m + 1)) (seq 0 (m + 1))) 0 = a_end x).
    { fold (grid 0 (a_end x) (m + 1)). assert (Hne : grid 0 (a_end x) (m + 1) <> []) by (intros E; apply (f_equal (@length R)) in E; rewrite grid_length in E; cbn in E; lia).
      pose proof (last_nth_error (grid 0 (a_end x) (m + 1)) 0 Hne) as E. rewrite grid_length, grid_last in E by lia. congruence. }
    rewrite E, linear_value by lra. unfold grid_pt. replace (m + 1 - 1)%nat with m by lia. 
    destruct (m + 1)%nat as [|[|k]] eqn:Ek; try lia. field. lra. }
  destruct (arrays_call int sc x fy w (m + 1) 0) as (ys & th & Lys & Lth & Ec & Hy & T0 & Hk); try assumption; try lia.
  { replace (a_end x / a_sample x) with (INR m) by (rewrite Hs; field; lra). apply not_tie_INR. }
  exists w, ys. split; [exact Ew|]. split; [exact Lw|]. split; [exact Lys|]. split.
  { unfold get_linear_sweep. rewrite Ha. cbn [bind]. change (num RA) with R in *. rewrite El. cbn [bind]. rewrite Ew. cbn [bind].
    rewrite (arrays_new int x fy w fy w (m + 1)).
    2: exact Hn.
    2: exact (resample_own x fy _ Hn Lf).
    2: exact (resample_own x w _ Hn Lw).
    cbn [bind]. exact Ec. }
  intros i Hi t. rewrite Hy by lia. rewrite Rplus_0_r. f_equal. f_equal.
  assert (Nf : forall j, (j <= m)%nat -> nth j fy 0 = f0 + (f1 - f0) * (INR j / INR m)).
  { intros j Hj. unfold fy. apply nth_nth_error. rewrite nth_error_map, (List.nth_error_nth' (seq 0 (m + 1)) 0%nat (n:=j)) by (rewrite seq_length; lia).
    rewrite seq_nth by lia. reflexivity. }
  unfold t. clear t. induction i as [|i IH].
  - rewrite T0. cbn [INR]. ring.
  - specialize (IH ltac:(lia)). specialize (Hk i ltac:(lia)). rewrite !Nf in Hk by lia. rewrite S_INR in *.
    replace (nth (S i) th 0) with (nth i th 0 + (nth (S i) th 0 - nth i th 0)) by ring. rewrite Hk, IH.
    rewrite Hs. field. lra.
Qed.
(** time given as an array that is exactly the points of the axis built from it *)
Lemma linear_sweep_seq W int sc s (x : axis RA) f0 f1 taper : axis_of_array RA s true = Ok x -> axis_array RA x = Ok (s_data s) ->
  get_linear_sweep W DR int sc (inr s) f0 f1 taper = get_linear_sweep W DR int sc (inl x) f0 f1 taper.
Proof.
  intros Ex Ea. unfold get_linear_sweep. rewrite Ea. cbn [bind]. unfold us_new. cbn [default_config c_axis_from_array]. rewrite Ex. reflexivity.
Qed.

(** *** shuffle sweep *)
Lemma pl_bounds (xs ys : list R) t v lo hi x0 x1 : pl_value (V:=RV) xs ys t v -> (forall y, In y ys -> lo <= y <= hi) ->
  In x0 xs -> In x1 xs -> x0 <= t <= x1 -> lo <= v <= hi.
Proof.
  intros H Hy I0 I1 Ht. destruct H as [i y Hx Hi|i u0 u1 y0 y1 Hu0 Hu1 Hy0 Hy1 Hb|Hne Ho].
  - apply Hy. eapply nth_error_In. exact Hi.
  - pose proof (Hy _ (nth_error_In _ _ Hy0)) as B0. pose proof (Hy _ (nth_error_In _ _ Hy1)) as B1.
    unfold line. cbn [RV v_add v_mul v_sub v_of]. set (q := (t - u0) / (u1 - u0)). change (val RV) with R in *.
    assert (Hq : 0 <= q <= 1).
    { unfold q. destruct Hb as [Hb|Hb].
      - split; [apply Rmult_le_pos; [lra|left; apply Rinv_0_lt_compat; lra]|].
        apply (Rmult_le_reg_r (u1 - u0)); [lra|]. unfold Rdiv. rewrite Rmult_assoc, Rinv_l by lra. lra.
      - replace ((t - u0) / (u1 - u0)) with ((u0 - t) / (u0 - u1)) by (field; lra).
        split; [apply Rmult_le_pos; [lra|left; apply Rinv_0_lt_compat; lra]|].
        apply (Rmult_le_reg_r (u0 - u1)); [lra|]. unfold Rdiv. rewrite Rmult_assoc, Rinv_l by lra. lra. }
    assert (E : y0 + (y1 - y0) * q = (1 - q) * y0 + q * y1) by ring.
    match goal with |- _ <= ?z <= _ => change z with (y0 + (y1 - y0) * q) end. rewrite E.
    assert (A1 : (1 - q) * lo <= (1 - q) * y0 <= (1 - q) * hi) by (split; apply Rmult_le_compat_l; lra).
    assert (A2 : q * lo <= q * y1 <= q * hi) by (split; apply Rmult_le_compat_l; lra). lra.
  - destruct Ho as [Ho|Ho]; [specialize (Ho _ I1)|specialize (Ho _ I0)]; lra.
Qed.
Lemma resample_bounds (x : axis RA) (law fy : list R) n lo hi : axis_size RA x = Ok n -> a_start x < a_end x -> (forall y, In y law -> lo <= y <= hi) ->
  resample RA RV DR x law = Ok fy -> (2 <= length law)%nat -> length fy = n /\ forall y, In y fy -> lo <= y <= hi.
Proof.
  intros Hn Hse Hl E H2. destruct (Nat.eq_dec n (length law)) as [->|Hne].
  - rewrite resample_same in E by exact Hn. injection E as <-. auto.
  - destruct (resample_pl RV_laws x law n H2 ltac:(lra) Hn Hne) as (w & Ew & Lw & Hw & _). rewrite Ew in E. injection E as <-.
    split; [exact Lw|]. intros y Hy. apply In_nth_error in Hy. destruct Hy as [i Hi].
    assert (Hin : (i < n)%nat) by (pose proof (nth_error_len _ _ _ Hi); change (val RV) with R in *; lia).
    pose proof (Hw i _ y (grid_nth _ _ _ _ Hin) Hi) as G. change (val RV) with R in *.
    eapply (pl_bounds _ _ _ _ lo hi (a_start x) (a_end x) G Hl).
    + eapply nth_error_In. apply grid_first. lia.
    + eapply nth_error_In. apply grid_last. exact H2.
    + assert (In (grid_pt (a_start x) (a_end x) n i) (grid (a_start x) (a_end x) n)) as Hg by (eapply nth_error_In; apply grid_nth; exact Hin).
      apply grid_between in Hg. unfold between in Hg. rewrite Rmin_left, Rmax_right in Hg by lra. exact Hg.
Qed.
Lemma shuffle_sweep_ok shuffle int sc (x : axis RA) (n : nat) f_start f_end segment digits taper law lo hi :
  axis_size RA x = Ok n -> (2 <= n)%nat -> a_start x = 0 -> 0 < a_end x -> 0 < a_sample x -> ~ is_tie (a_end x / a_sample x) ->
  (forall c, sc_spectro RA RV sc c = Ok tt) ->
  shuffle_law shuffle x f_start f_end segment digits = Ok law -> (2 <= length law)%nat -> (forall y, In y law -> lo <= y <= hi) ->
  exists (ys fy w : list R), get_shuffle RW DR int sc shuffle (inl x) f_start f_end segment digits taper =
      Ok (mkSweepv (mkRel (A:=RA) (V:=RV) x ys) (mkRel (A:=RA) (V:=RV) x fy) (mkRel (A:=RA) (V:=RV) x w)) /\
    resample RA RV DR x law = Ok fy /\ tukey_a_t (grid 0 (a_end x) n) taper LocBoth = Ok w /\
    length ys = n /\ length fy = n /\ length w = n /\ unit_list w /\
    (forall y, In y fy -> lo <= y <= hi) /\
    exists th : list R, length th = n /\ nth 0 th 0 = 0 /\
      (forall k, (S k < n)%nat -> nth (S k) th 0 - nth k th 0 = 2 * PI * a_sample x * ((nth k fy 0 + nth (S k) fy 0) / 2)) /\
      (forall i, (i < n)%nat -> nth i ys 0 = nth i w 0 * sin (nth i th 0)).
Proof.
  intros Hn H2 H0 HT Hd Ht Hsc El Hl2 Hb.
  pose proof (axis_array_size x _ Hn) as Ha. rewrite H0 in Ha.
  destruct (tukey_len (grid 0 (a_end x) n) taper LocBoth) as (w & Ew & Lw & Uw); [rewrite grid_length; lia|]. rewrite grid_length in Lw.
  assert (Hr : exists fy, resample RA RV DR x law = Ok fy).
  { destruct (Nat.eq_dec n (length law)) as [->|Hne]; [eexists; apply resample_same; exact Hn|].
    destruct (resample_pl RV_laws x law n Hl2 ltac:(lra) Hn Hne) as (fy & Ef & _). eauto. }
  destruct Hr as [fy Ef]. destruct (resample_bounds x law fy n lo hi Hn ltac:(lra) Hb Ef Hl2) as [Lf Bf].
  destruct (arrays_call int sc x fy w n 0) as (ys & th & Lys & Lth & Ec & Hy & T0 & Hk); try assumption.
  exists ys, fy, w. split.
  { unfold get_shuffle. cbn [time_axis bind]. rewrite El. cbn [bind]. rewrite Ha. cbn [bind]. change (num RA) with R in *. rewrite Ew. cbn [bind].
    rewrite (arrays_new int x law w fy w n Hn Ef) by (exact (resample_own x w _ Hn Lw)).
    cbn [bind]. exact Ec. }
  repeat (split; [assumption|]). exists th. repeat (split; [assumption|]). intros i Hi. rewrite Hy by exact Hi. rewrite Rplus_0_r. reflexivity.
Qed.

(** *** generators made from a spectrum by a method that gives laws on times starting at 0 *)
Lemma at_fraction_bounds (x y : list R) q v lo hi : at_fraction (V:=RV) x y q v -> (forall z, In z y -> lo <= z <= hi) ->
  nth_error x 0 = Some 0 -> 0 <= last x 0 -> 0 <= q <= 1 -> lo <= v <= hi.
Proof.
  intros H Hy H0 Hl Hq. unfold at_fraction in H. assert (Hne : x <> []) by (intros ->; discriminate).
  eapply (pl_bounds x y _ v lo hi 0 (last x 0) H Hy).
  - eapply nth_error_In. exact H0.
  - apply last_In. exact Hne.
  - assert (0 * last x 0 <= q * last x 0 <= 1 * last x 0) by (split; apply Rmult_le_compat_r; lra). lra.
Qed.
Section Laws.
Context (int : integrator RA RV) (sc : sconfig RA RV) (x : axis RA) (n : nat) (tm f e : list R).
Context (Hn : axis_size RA x = Ok n) (H2 : (2 <= n)%nat) (Hse : a_start x < a_end x) (Hd : 0 < a_sample x)
  (Ht : ~ is_tie ((a_end x - a_start x) / a_sample x)) (Hi : incr tm) (H0 : nth_error tm 0 = Some 0) (Hlast : 0 < last tm 0)
  (Lf : length f = length tm) (Le : length e = length tm) (Hsc : forall c, sc_spectro RA RV sc c = Ok tt).
Definition laws_gen : ugen RA RV := mkUgen RA RV (Some x) (LawArr (mkIA (A:=RA) (V:=RV) tm f)) (LawArr (mkIA (A:=RA) (V:=RV) tm e)) DR int.
Lemma laws_call tht0 : exists ys fy ay th : list R,
  us_call RA RV RW DR sc laws_gen UtNone tht0 =
    Ok (mkSweepv (mkRel (A:=RA) (V:=RV) x ys) (mkRel (A:=RA) (V:=RV) x fy) (mkRel (A:=RA) (V:=RV) x ay)) /\
  length ys = n /\ length fy = n /\ length ay = n /\ length th = n /\
  (forall i, (i < n)%nat -> at_fraction (V:=RV) tm f (INR i / INR (n - 1)) (nth i fy 0) /\ at_fraction (V:=RV) tm e (INR i / INR (n - 1)) (nth i ay 0)) /\
  nth 0 th 0 = 0 /\
  (forall k, (S k < n)%nat -> nth (S k) th 0 - nth k th 0 = 2 * PI * a_sample x * ((nth k fy 0 + nth (S k) fy 0) / 2)) /\
  (forall i, (i < n)%nat -> nth i ys 0 = nth i ay 0 * sin (nth i th 0 + tht0)).
Proof.
  assert (Q : forall i, (i < n)%nat -> (grid_pt (a_start x) (a_end x) n i - a_start x) / (a_end x - a_start x) = INR i / INR (n - 1)).
  { intros i Hin. unfold grid_pt. assert (0 < INR (n - 1)) by (apply lt_0_INR; lia).
    destruct n as [|[|k]]; try lia. cbn [Nat.sub] in *. rewrite ?Nat.sub_0_r in *. field. split; lra. }
  assert (G : forall y : list R, length y = length tm -> exists w : list R, ia_call RA RV DR (mkIA (A:=RA) (V:=RV) tm y) x = Ok w /\ length w = n /\
    forall i, (i < n)%nat -> at_fraction (V:=RV) tm y (INR i / INR (n - 1)) (nth i w 0)).
  { intros y Ly. destruct (stretch_zero RV_laws tm y x n) as (w & Ew & Lw & Hw & _); try assumption; [symmetry; exact Ly|].
    exists w. split; [exact Ew|]. split; [exact Lw|]. intros i Hin.
    rewrite <- (Q i Hin). apply (Hw i); [apply grid_nth; exact Hin|]. change (val RV) with R in *. apply List.nth_error_nth'. lia. }
  destruct (G f Lf) as (fy & Ef & Nf & Hf). destruct (G e Le) as (ay & Ea & Na & Ha).
  destruct (call_ok sc laws_gen UtNone tht0 x n fy ay) as [s Es]; try assumption.
  - constructor. reflexivity.
  - apply law_eval_on. exact Ef.
  - apply law_eval_on. exact Ea.
  - cbn [u_f laws_gen]. split; [exact Hd|]. split; [lra|]. split; [exact H2|exact Ht].
  - pose proof Es as Es'. apply us_call_exact in Es'. destruct Es' as (x' & fy' & am' & th0 & Cx & Lf' & La' & An & Nx & Nam & Nt & E & _).
    inversion Cx as [| |a Ex]; subst a. cbn [u_time laws_gen] in Ex. injection Ex as <-.
    apply law_eval_on in Lf', La'. cbn [u_f u_a laws_gen law_eval] in Lf', La'. rewrite Ef in Lf'. rewrite Ea in La'. injection Lf' as <-. injection La' as <-.
    destruct (call_array sc laws_gen UtNone tht0 s _ Es eq_refl) as (th & Lt' & Hy & T0 & Hk). subst s.
    cbn [sw_rel sw_ft sw_at r_x r_y] in *. set (ys := map2 _ _ _) in *. change (val RV) with R in *.
    assert (Lys : length ys = n) by (unfold ys; rewrite map2_len; rewrite ?map_length; change (val RV) with R in *; congruence).
    exists ys, fy, ay, th. split; [exact Es|]. split; [exact Lys|]. split; [exact Nf|]. split; [exact Na|]. split; [congruence|].
    split; [intros i Hin; split; [apply Hf | apply Ha]; exact Hin|]. split; [destruct th as [|a l]; [discriminate|]; injection T0 as ->; reflexivity|].
    split; [intros k Hk'; apply Hk; change (val RV) with R in *; lia|]. intros i Hin. apply Hy. change (val RV) with R in *. lia.
Qed.
Lemma laws_new cfg int' c sg m : hc_base cfg = default_config RA CV -> m c = Ok (tm, map RtoC f, map RtoC e) ->
  ap_new RA CV cfg int' (UtAxis x) (AdSpec RA CV c (Ok sg)) m = Ok (stored_gen int' laws_gen, sg).
Proof.
  intros Hb Hm. unfold ap_new, get_info_from_a_prior_data, ap_pair, convert_freq2time. cbn [bind fst snd]. rewrite Hm. cbn [bind fst snd law_as_in].
  rewrite Hb. reflexivity.
Qed.
End Laws.
Lemma val_sweep_total sc (x : axis RA) (y : list C) : total_methods sc -> axis_size RA x = Ok (length y) ->
  exists s, val_sweep RA CV sc (mkRel (A:=RA) (V:=CV) x y) None None = Ok s /\ sw_rel s = mkRel (A:=RA) (V:=CV) x y /\
    r_x (sw_ft s) = x /\ r_x (sw_at s) = x /\
    sc_ft RA CV sc (sw_rel s) = Ok (r_y (sw_ft s)) /\ sc_at RA CV sc (sw_rel s) = Ok (r_y (sw_at s)).
Proof.
  intros Ht Hx. destruct (Ht (mkRel (A:=RA) (V:=CV) x y)) as ((lf & Ef & Lf) & (la & Ea & La) & Es). cbn [r_y] in *.
  assert (Em : forall l : list C, length l = length y -> rel_make RA CV x l = Ok (mkRel (A:=RA) (V:=CV) x l)).
  { intros l Hl. apply rel_make_any. split; [reflexivity|]. rewrite Hx. f_equal. symmetry. exact Hl. }
  eexists. split.
  - unfold val_sweep. rewrite Ef. cbn [bind r_x]. rewrite Em by exact Lf. cbn [bind]. rewrite Ea. cbn [bind]. rewrite Em by exact La. cbn [bind].
    rewrite Es. reflexivity.
  - cbn [sw_rel sw_ft sw_at r_x r_y]. auto 10.
Qed.
Lemma map2_RtoC (u w : list R) : map2 Cmult (map RtoC u) (map RtoC w) = map RtoC (map2 Rmult u w).
Proof. apply map2_map'. intros a b. symmetry. apply RtoC_mult. Qed.
