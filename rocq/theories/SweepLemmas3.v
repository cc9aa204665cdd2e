(** Success of generator calls (C40), normalisation (C46), spectrogram axes (C49). *)
From Coq Require Import Reals ZArith List Bool Lra Lia.
From Coquelicot Require Import Coquelicot.
From Verif Require Import Num Numpy AxisModel RelModel HeapModel FourierModel Spec RLemmas AxisLemmas InterpLemmas
  VInst RelLemmas RelLemmas2 RelLemmas3 SweepModel SweepSpec SweepLemmas SweepLemmas2.
Import ListNotations.
Local Open Scope R_scope.

Lemma call_ok sc (g : ugen RA RV) t tht0 (x : axis RA) n (fy am : list R) :
  calling_axis (u_cfg g) (u_time g) t x -> axis_size RA x = Ok n ->
  law_on DR (u_f g) x fy -> length fy = n -> law_on DR (u_a g) x am -> length am = n ->
  (forall c, sc_spectro RA RV sc c = Ok tt) ->
  match u_f g with
  | LawFun c => exists quad f, u_int g = integrate_function_default RA RV RW quad /\ cl_num c = Ok f
  | LawArr _ => 0 < a_sample x /\ a_start x <= a_end x /\ (2 <= n)%nat /\
                ~ is_tie ((a_end x - a_start x) / a_sample x)
  end ->
  exists s, us_call RA RV RW DR sc g t tht0 = Ok s.
Proof.
  intros Cx Hn Lf Nf La Na Hsp Hc.
  assert (An : exists th, angle_on RW DR (u_int g) (u_f g) x fy th /\ length th = n).
  { destruct (u_f g) as [c|f].
    - destruct Hc as (quad & f & Hi & Hf). destruct (integrate_ok quad c x n f Hn Hf) as [th Eth].
      exists th. split; [constructor; rewrite Hi; exact Eth|]. exact (proj1 (func_angle quad c x n th Hn Eth)).
    - destruct Hc as (Hd & Hse & H2 & Ht).
      destruct (int_ok RV_laws (mkRel (A:=RA) (V:=RV) x fy)) as (i & Ei & Vi & _ & Li & _).
      + unfold valid. cbn [r_x r_y]. rewrite Hn, <- Nf. reflexivity.
      + exact Hd.
      + exact Hse.
      + cbn [r_y]. change (val RV) with R in *. lia.
      + exact Ht.
      + eexists. split; [apply AO_arr; exact Ei|]. cbn [length]. rewrite map_length, Li. cbn [r_y].
        change (val RV) with R in *. lia. }
  destruct An as (th & An & Nt).
  eexists. apply us_call_exact. exists x, fy, am, th. change (val RV) with R in *.
  repeat (split; [first [assumption | congruence | reflexivity]|]). apply Hsp.
Qed.

(** ** normalisation *)
Lemma norm_mul (r : rrel) (k : R) : valid r -> exists r' N,
  rel_op_num RA RV DR MUL r (OVal (V:=RV) k) = Ok r' /\ r_x r' = r_x r /\ r_y r' = map (fun v => v * k) (r_y r) /\
  rel_norm RA RV DR r = Ok N /\ rel_norm RA RV DR r' = Ok (k * k * N).
Proof.
  intros Hv. eexists. eexists. split; [apply rel_op_num_generic; exact Hv|]. split; [reflexivity|].
  split; [reflexivity|]. split; [apply norm_eq; exact Hv|].
  rewrite norm_eq by (unfold valid; cbn [r_x r_y]; rewrite map_length; exact Hv).
  cbn [r_x r_y]. rewrite map_length. f_equal.
  replace (map (fun a => op_apply RA RV MUL a k) (r_y r)) with (map (fun a : R => k * a) (r_y r)).
  - rewrite energy_scale. ring.
  - apply map_ext. intros a. apply Rmult_comm.
Qed.
Lemma call_valid sc (g : ugen RA RV) t tht0 s : us_call RA RV RW DR sc g t tht0 = Ok s ->
  valid (sw_rel s) /\ valid (sw_ft s) /\ valid (sw_at s).
Proof.
  intros H. destruct (call_sample DR sc g t tht0 s H) as (x & fy & am & th & _ & _ & _ & _ & Nx & Na & Nt & Ex & -> & -> & Lr & _).
  unfold valid. cbn [r_x r_y]. rewrite Ex. change (val RV) with R in *. rewrite Lr, Na. auto.
Qed.
Lemma sqrt_ratio na ns : 0 < ns -> 0 <= na -> sqrt na / sqrt ns * (sqrt na / sqrt ns) * ns = na.
Proof.
  intros Hs Ha. pose proof (sqrt_lt_R0 ns Hs). pose proof (sqrt_sqrt na Ha) as E1. pose proof (sqrt_sqrt ns (Rlt_le _ _ Hs)) as E2.
  set (a := sqrt na) in *. set (s := sqrt ns) in *. rewrite <- E1, <- E2. field. lra.
Qed.
Lemma norm_ratio_ok na ns : 0 < ns -> 0 <= na -> norm_ratio RA RV RW na ns = Ok (sqrt na / sqrt ns).
Proof.
  intros Hs Ha. unfold norm_ratio. cbn [RW w_sqrt w_re RV v_div RA n_eq n_of_Z].
  replace (Rltb na 0) with false by (symmetry; apply Rltb_false; lra).
  replace (Rltb ns 0) with false by (symmetry; apply Rltb_false; lra). cbn [bind].
  replace (Reqb (sqrt ns) 0) with false; [reflexivity|]. symmetry. apply Reqb_false.
  pose proof (sqrt_lt_R0 ns Hs). lra.
Qed.

(** the square of a sweep can be made a sweep *)
Definition square_sweep (sc : sconfig RA RV) (s0 : sweepv RA RV) : Prop :=
  exists sq s1, rel_op_num RA RV DR POW (sw_rel s0) (OVal (A:=RA) (V:=RV) 2) = Ok sq /\ val_sweep RA RV sc sq None None = Ok s1.
Lemma ap_call_norm scfg sc (g : ugen RA RV) sg t tht0 s0 ns na :
  us_call RA RV RW DR sc g t tht0 = Ok s0 -> square_sweep sc s0 ->
  rel_norm RA RV DR (sw_rel s0) = Ok ns -> rel_norm RA RV scfg sg = Ok na ->
  (0 < ns -> 0 <= na -> exists c : rrel, r_x c = r_x (sw_rel s0) /\
     r_y c = map (fun v => v * (sqrt na / sqrt ns)) (r_y (sw_rel s0)) /\
     rel_norm RA RV DR c = Ok na /\
     ap_call RA RV RW DR scfg sc g sg t tht0 true = val_sweep RA RV sc c None None) /\
  (ns = 0 -> 0 <= na -> ap_call RA RV RW DR scfg sc g sg t tht0 true = Err EArith) /\
  (ns < 0 \/ na < 0 -> ap_call RA RV RW DR scfg sc g sg t tht0 true = Err EValue).
Proof.
  intros H0 (sq & s1 & Esq & Es1) Hns Hna. unfold ap_call. rewrite H0. cbn [bind]. cbn [RV v_of RA n_of_Z] in *. rewrite Esq. cbn [bind].
  rewrite Es1. cbn [bind]. rewrite Hns. cbn [bind]. rewrite Hna. cbn [bind].
  destruct (call_valid sc g t tht0 s0 H0) as (Vr & _ & Va). split; [|split].
  - intros Hs Ha. rewrite norm_ratio_ok by assumption. cbn [bind].
    destruct (norm_mul (sw_at s0) (sqrt na / sqrt ns) Va) as (at' & Na & Eat & _). cbn [RV val] in *. rewrite Eat. cbn [bind].
    destruct (norm_mul (sw_rel s0) (sqrt na / sqrt ns) Vr) as (c & N & Ec & Xc & Yc & EN & ENc). rewrite Ec. cbn [bind].
    exists c. split; [exact Xc|]. split; [exact Yc|]. split; [|reflexivity].
    rewrite ENc. rewrite Hns in EN. injection EN as <-. f_equal. apply sqrt_ratio; assumption.
  - intros -> Ha. unfold norm_ratio. cbn [RW w_sqrt w_re RV v_div RA n_eq n_of_Z].
    replace (Rltb na 0) with false by (symmetry; apply Rltb_false; lra).
    replace (Rltb 0 0) with false by (symmetry; apply Rltb_false; lra). cbn [bind].
    rewrite sqrt_0. replace (Reqb 0 0) with true; [reflexivity|]. symmetry. apply Reqb_true. reflexivity.
  - intros Hneg. unfold norm_ratio. cbn [RW w_sqrt w_re RV v_div RA n_eq n_of_Z].
    destruct (Rltb na 0) eqn:E; [reflexivity|]. apply Rltb_false in E. cbn [bind].
    replace (Rltb ns 0) with true; [reflexivity|]. symmetry. apply Rltb_true. lra.
Qed.
Lemma val_sweep_rel sc (c : rrel) f a s : val_sweep RA RV sc c f a = Ok s -> sw_rel s = c.
Proof.
  unfold val_sweep. intros H. repeat (rewrite bind_ok in H; destruct H as (? & _ & H)). injection H as <-. reflexivity.
Qed.
Lemma ap_call_same_norm scfg sc (g : ugen RA RV) sg t tht0 s :
  ap_call RA RV RW DR scfg sc g sg t tht0 true = Ok s ->
  rel_norm RA RV DR (sw_rel s) = rel_norm RA RV scfg sg.
Proof.
  intros H. pose proof H as H'. unfold ap_call in H'. rewrite bind_ok in H'. destruct H' as (s0 & H0 & H').
  rewrite bind_ok in H'. destruct H' as (sq & Hsq & H'). rewrite bind_ok in H'. destruct H' as (s1 & Hs1 & H').
  rewrite bind_ok in H'. destruct H' as (ns & Hns & H'). rewrite bind_ok in H'. destruct H' as (na & Hna & _).
  destruct (ap_call_norm scfg sc g sg t tht0 s0 ns na H0 (ex_intro _ sq (ex_intro _ s1 (conj Hsq Hs1))) Hns Hna) as (G1 & G2 & G3).
  change (val RV) with R in *.
  destruct (Rlt_le_dec na 0) as [Hn|Hn]; [rewrite G3 in H by tauto; discriminate|].
  destruct (Rlt_le_dec ns 0) as [Hs|Hs]; [rewrite G3 in H by tauto; discriminate|].
  destruct (Req_EM_T ns 0) as [E|E]; [rewrite G2 in H by assumption; discriminate|].
  destruct G1 as (c & _ & _ & Nc & Ec); [lra|exact Hn|]. rewrite Ec in H. apply val_sweep_rel in H. rewrite H, Hna. exact Nc.
Qed.

(** ** spectrogram axes *)
Lemma sg_image_kept (A : Arith) (V : Vals A) (cur : config A V) s p :
  get_spectrogram_axes A V cur s = Ok p -> sp_image p = sg_image s.
Proof.
  unfold get_spectrogram_axes. intros H. repeat (rewrite bind_ok in H; destruct H as (? & _ & H)).
  injection H as <-. reflexivity.
Qed.

Lemma arith_axis (x0 d : R) k : (2 <= k)%nat -> 0 < d -> exists d',
  rounded_spacing d d' /\
  axis_of_array RA (mkSeq (A:=RA) true (arith_seq x0 d k)) true = Ok (mkAxis (A:=RA) x0 (x0 + INR (k - 1) * d) d') /\
  forall m, axis_size RA (mkAxis (A:=RA) x0 (x0 + INR (k - 1) * d) d') = Ok m <->
    (0 < m)%nat /\ round_half_even (INR (k - 1) * (d / d')) (Z.of_nat m - 1).
Proof.
  intros Hk Hd. destruct (round_sample_spec d Hd) as (d' & E & H). exists d'. split; [exact H|].
  rewrite axis_of_arith by exact Hk. cbn [andb]. rr. rewrite E. split; [reflexivity|].
  assert (Hp : 0 < d').
  { destruct H as (j & Hj & H). assert (0 < IZR j) by (apply IZR_lt; lia).
    destruct H as [(_ & _ & ->)|(_ & _ & ->)]; [assumption|]. apply Rinv_0_lt_compat. assumption. }
  intros m. rewrite axis_size_iff by (cbn; lra). cbn [a_start a_end a_sample].
  replace (Rabs ((x0 + INR (k - 1) * d - x0) / d')) with (INR (k - 1) * (d / d')); [reflexivity|].
  rewrite Rabs_right; [field; lra|]. replace (x0 + INR (k - 1) * d - x0) with (INR (k - 1) * d) by ring.
  apply Rle_ge. unfold Rdiv. apply Rmult_le_pos; [apply Rmult_le_pos; [apply pos_INR|lra]|].
  apply Rlt_le, Rinv_0_lt_compat, Hp.
Qed.
Lemma one_axis (x0 : R) : axis_of_array RA (mkSeq (A:=RA) true [x0; x0 + 1]) true = Ok (mkAxis (A:=RA) x0 (x0 + 1) 1) /\
  axis_array RA (mkAxis (A:=RA) x0 (x0 + 1) 1) = Ok [x0; x0 + 1].
Proof.
  assert (E : [x0; x0 + 1] = arith_seq x0 1 2).
  { unfold arith_seq. cbn [seq map INR]. repeat f_equal; lra. }
  rewrite E. rewrite axis_of_arith by lia. cbn [andb]. pose proof (round_sample_whole 1 ltac:(lia)) as H.
  change (IZR 1) with 1 in H. rr. rewrite H. cbn [bind]. split; [repeat f_equal; cbn [INR Nat.sub]; lra|].
  assert (Hs : axis_size RA (mkAxis (A:=RA) x0 (x0 + 1) 1) = Ok 2%nat).
  { apply (axis_size_exact (mkAxis (A:=RA) x0 (x0 + 1) 1) 1). split; cbn; lra. }
  rewrite (axis_array_size _ _ Hs). f_equal. unfold grid, grid_pt, arith_seq. cbn [a_start a_end seq map INR Nat.sub].
  repeat f_equal; lra.
Qed.

Lemma nperseg_min n : nperseg n = seg_len n.
Proof. unfold nperseg, seg_len. destruct (Nat.ltb_spec n 256); [rewrite Nat.min_l by lia|rewrite Nat.min_r by lia]; reflexivity. Qed.
Lemma n_segments_cols n : n_segments n = seg_cols n.
Proof. unfold n_segments, seg_cols, seg_step. rewrite nperseg_min. reflexivity. Qed.
Lemma seg_step_pos n : (0 < n)%nat -> (0 < seg_step n)%nat.
Proof.
  intros H. unfold seg_step. assert (0 < seg_len n)%nat by (unfold seg_len; lia).
  pose proof (Nat.div_lt (seg_len n) 8 ltac:(lia) ltac:(lia)). lia.
Qed.
Lemma seg_cols_pos n : (0 < n)%nat -> (1 <= seg_cols n)%nat.
Proof.
  intros H. pose proof (seg_step_pos n H). unfold seg_cols. apply Nat.div_le_lower_bound; [lia|].
  unfold seg_step, seg_len in *. lia.
Qed.
Lemma seg_cols_one n : (0 < n)%nat -> (seg_cols n = 1%nat <-> (n < 480)%nat).
Proof.
  intros H. pose proof (seg_step_pos n H) as Hs. destruct (Nat.lt_ge_cases n 256) as [Hl|Hg].
  - split; [lia|]. intros _. unfold seg_cols, seg_step, seg_len in *. rewrite Nat.min_l in * by lia. apply Nat.div_same. lia.
  - assert (E : seg_cols n = ((n - 32) / 224)%nat).
    { unfold seg_cols, seg_step, seg_len. rewrite Nat.min_r by lia. reflexivity. }
    rewrite E. split; intros G.
    + destruct (Nat.lt_ge_cases n 480) as [|Hg']; [assumption|].
      assert (2 <= (n - 32) / 224)%nat by (apply Nat.div_le_lower_bound; lia). lia.
    + symmetry. apply (Nat.div_unique _ _ 1 (n - 32 - 224)); lia.
Qed.
Lemma segment_times_eq n dt : dt <> 0 -> segment_times RA n (1 / dt) =
  arith_seq (INR (seg_len n) / 2 * dt) (INR (seg_step n) * dt) (seg_cols n).
Proof.
  intros H. unfold segment_times. rewrite n_segments_cols. unfold arith_seq. apply map_ext. intros k.
  rewrite !n_of_nat_R, nperseg_min. fold (seg_step n). cbn [RA n_add n_div n_of_Z].
  match goal with |- @eq _ ?p ?q => change (@eq R p q) end. rewrite mult_INR. field. exact H.
Qed.
Lemma segment_freqs_eq n dt : dt <> 0 -> (0 < n)%nat -> segment_freqs RA n (1 / dt) =
  arith_seq 0 (1 / (INR (seg_len n) * dt)) (seg_rows n).
Proof.
  intros H Hn. unfold segment_freqs. rewrite nperseg_min. fold (seg_rows n). unfold arith_seq. apply map_ext. intros k.
  rewrite !n_of_nat_R. cbn [RA n_mul n_div n_of_Z].
  assert (INR (seg_len n) <> 0) by (apply not_0_INR; unfold seg_len; lia).
  match goal with |- @eq _ ?p ?q => change (@eq R p q) end. field. split; assumption.
Qed.
Lemma two_points_axis x0 d k : (1 <= k)%nat -> 0 < d -> exists a,
  (do l <- two_points RA (arith_seq x0 d k); axis_of_array RA (mkSeq (A:=RA) true l) true) = Ok a /\ spectro_axis x0 d k a.
Proof.
  intros Hk Hd. destruct k as [|[|k]]; [lia| |].
  - assert (E : arith_seq x0 d 1 = [x0]) by (unfold arith_seq; cbn [seq map INR]; f_equal; lra).
    rewrite E. cbn [two_points bind RA n_add n_of_Z]. destruct (one_axis x0) as [E1 E2].
    eexists. split; [exact E1|]. split; [intros _; exact E2 | lia].
  - destruct (arith_axis x0 d (S (S k)) ltac:(lia) Hd) as (d' & H1 & H2 & H3).
    assert (E : two_points RA (arith_seq x0 d (S (S k))) = Ok (arith_seq x0 d (S (S k)))).
    { unfold arith_seq. cbn [seq map two_points]. reflexivity. }
    rewrite E. cbn [bind]. eexists. split; [exact H2|]. split; [lia|]. intros _. exists d'. auto.
Qed.
Lemma spectrogram_axes (V : Vals RA) image (c : rel RA V) : (0 < length (r_y c))%nat -> 0 < a_sample (r_x c) ->
  let n := length (r_y c) in let dt := a_sample (r_x c) in
  exists p, sweep_spectrogram RA V (default_config RA V) image c = Ok p /\
    sp_image p = rev (image (seg_rows n) (seg_cols n)) /\
    spectro_axis (INR (seg_len n) / 2 * dt) (INR (seg_step n) * dt) (seg_cols n) (sp_time p) /\
    spectro_axis 0 (1 / (INR (seg_len n) * dt)) (seg_rows n) (sp_freq p).
Proof.
  intros Hn Hdt n dt. unfold sweep_spectrogram. fold n dt.
  replace (Nat.eqb n 0) with false by (symmetry; apply Nat.eqb_neq; lia). cbn [RA n_eq n_of_Z].
  replace (Reqb dt 0) with false by (symmetry; apply Reqb_false; unfold dt; rr; lra).
  cbn [RA n_div]. unfold get_spectrogram_axes. cbn [sg_time sg_freq sg_image].
  rewrite segment_times_eq by (unfold dt; rr; lra). rewrite segment_freqs_eq by (exact Hn || (unfold dt; rr; lra)).
  assert (Hl : 0 < INR (seg_len n)) by (apply lt_0_INR; unfold seg_len; lia).
  assert (Hst : 0 < INR (seg_step n)) by (apply lt_0_INR, seg_step_pos; exact Hn).
  destruct (two_points_axis (INR (seg_len n) / 2 * dt) (INR (seg_step n) * dt) (seg_cols n)) as (tx & Et & St).
  { apply seg_cols_pos. exact Hn. } { apply Rmult_lt_0_compat; assumption. }
  destruct (two_points_axis 0 (1 / (INR (seg_len n) * dt)) (seg_rows n)) as (fx & Ef & Sf).
  { unfold seg_rows. lia. } { apply Rdiv_lt_0_compat; [lra|]. apply Rmult_lt_0_compat; assumption. }
  rewrite bind_ok in Et, Ef. destruct Et as (tl & Et1 & Et2), Ef as (fl & Ef1 & Ef2).
  rr. rewrite Et1. cbn [bind]. rewrite Ef1. cbn [bind default_config c_axis_from_array]. rewrite Et2. cbn [bind]. rewrite Ef2.
  cbn [bind]. eexists. split; [reflexivity|]. cbn [sp_image sp_time sp_freq].
  rewrite nperseg_min, n_segments_cols. fold (seg_rows n). auto.
Qed.
