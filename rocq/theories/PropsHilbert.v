(** Theorems about the default estimates of frequency and amplitude: C48. *)
From Coq Require Import Reals ZArith List Bool Lra Lia.
From Coquelicot Require Import Complex.
From Verif Require Import Num Numpy AxisModel RelModel HeapModel FourierModel SweepModel HilbertModel FourierSpec HilbertSpec
  RLemmas HilbertLemmas.
Import ListNotations.
Local Open Scope R_scope.

(** ** C48 the analytic signal, the envelope and the instantaneous frequency *)
(** The transform computes the analytic signal of the samples (the real part is the signal, no negative frequencies);
    it fails exactly when there are no samples. *)
Theorem C48_analytic : forall (x : list R),
  (x = [] -> hilbert x = Err EValue) /\ (x <> [] -> exists z, hilbert x = Ok z /\ analytic x z).
Proof.
  intros x. split; [intros ->; reflexivity|]. intros H. rewrite (hilbert_ok x H). eexists. split; [reflexivity|].
  apply hilbert_analytic, hilbert_ok, H.
Qed.
Print Assumptions C48_analytic.
(** there is only one analytic signal, so the specification determines the result *)
Theorem C48_unique : forall (x : list R) (z z' : list C), analytic x z -> analytic x z' -> z = z'.
Proof. exact analytic_unique. Qed.
Print Assumptions C48_unique.

(** A sweep made from real samples without laws can always be made, as long as the spectrogram can. *)
Theorem C48_total : forall (sp : rel RA RV -> result unit) (c : rel RA RV),
  axis_size RA (r_x c) = Ok (length (r_y c)) -> r_y c <> [] -> sp c = Ok tt ->
  exists w, val_sweep RA RV (hilbert_sconfig sp) c None None = Ok w /\ sw_rel w = c.
Proof.
  intros sp c Hs Hn Hp. destruct (val_sweep_hilbert_ok sp c Hs Hn Hp) as [w Hw]. exists w. split; [exact Hw|].
  apply val_sweep_hilbert in Hw. tauto.
Qed.
Print Assumptions C48_total.

(** The envelope is the modulus of the analytic signal, on the axis of the sweep, and nowhere below the signal. *)
Theorem C48_envelope : forall (sp : rel RA RV -> result unit) (c : rel RA RV) w,
  val_sweep RA RV (hilbert_sconfig sp) c None None = Ok w ->
  r_x (sw_at w) = r_x c /\
  (forall z, analytic (r_y c) z -> r_y (sw_at w) = map Cmod z) /\
  length (r_y (sw_at w)) = length (r_y c) /\
  forall i (x a : R), nth_error (r_y c) i = Some x -> nth_error (r_y (sw_at w)) i = Some a -> Rabs x <= a.
Proof.
  intros sp c w H. apply val_sweep_hilbert in H. destruct H as (_ & _ & Hx & _ & Ha). split; [exact Hx|].
  unfold get_a_t in Ha. change (val RV) with R in *. destruct (hilbert (r_y c)) as [z|] eqn:Ez; [|discriminate Ha].
  cbn [bind] in Ha. injection Ha as Ha. assert (An := hilbert_analytic _ _ Ez). rewrite <- Ha. split; [|split].
  - intros z' Hz'. rewrite (analytic_unique _ _ _ An Hz'). reflexivity.
  - rewrite map_length. apply analytic_length. exact An.
  - intros i x a Hi Hm. rewrite nth_error_map in Hm. destruct An as (R1 & _). rewrite <- R1, nth_error_map in Hi.
    change (R * R)%type with C in *. destruct (nth_error z i) as [u|]; [|discriminate Hm]. cbn in Hi, Hm. injection Hi as <-. injection Hm as <-. apply fst_le_mod.
Qed.
Print Assumptions C48_envelope.

(** The first frequency is 0; every other one is the change of phase since the sample before, in turns per unit of
    time, with the change taken between half a turn back and half a turn forward. *)
Theorem C48_frequency : forall (sp : rel RA RV -> result unit) (c : rel RA RV) w,
  val_sweep RA RV (hilbert_sconfig sp) c None None = Ok w ->
  r_x (sw_ft w) = r_x c /\ length (r_y (sw_ft w)) = length (r_y c) /\ nth_error (r_y (sw_ft w)) 0 = Some 0 /\
  forall z, analytic (r_y c) z ->
  forall i z0 z1 (f : R), nth_error z i = Some z0 -> nth_error z (S i) = Some z1 -> nth_error (r_y (sw_ft w)) (S i) = Some f ->
  exists d, Rabs d <= PI /\ phasor z1 = Cmult (phasor z0) (cis d) /\ f = d / (2 * PI) / a_sample (r_x c).
Proof.
  intros sp c w H. apply val_sweep_hilbert in H. destruct H as (_ & Hx & _ & Hf & _).
  destruct (f_t_spec _ _ Hf) as (z & Ez & L & F0 & Fs). split; [exact Hx|]. split; [exact L|]. split; [exact F0|].
  intros z' Hz'. rewrite (analytic_unique _ _ _ Hz' (hilbert_analytic _ _ Ez)). exact Fs.
Qed.
Print Assumptions C48_frequency.
(** hence no estimate exceeds half the sampling rate *)
Theorem C48_nyquist : forall (sp : rel RA RV -> result unit) (c : rel RA RV) w,
  val_sweep RA RV (hilbert_sconfig sp) c None None = Ok w -> 0 < a_sample (r_x c) ->
  forall f : R, In f (r_y (sw_ft w)) -> Rabs f <= 1 / (2 * a_sample (r_x c)).
Proof.
  intros sp c w H Hs f Hin. apply val_sweep_hilbert in H. destruct H as (_ & _ & _ & Hf & _).
  destruct (f_t_spec _ _ Hf) as (z & Ez & L & F0 & Fs). assert (Lz := analytic_length _ _ (hilbert_analytic _ _ Ez)).
  assert (P := PI_RGT_0). change (num RA) with R in *. change (val RV) with R in *.
  assert (Pos : 0 < 1 / (2 * a_sample (r_x c))) by (apply Rdiv_lt_0_compat; lra).
  apply In_nth_error in Hin. destruct Hin as [i Hi]. destruct i as [|i].
  - rewrite F0 in Hi. injection Hi as <-. rewrite Rabs_R0. lra.
  - assert (I : (S i < length (r_y (sw_ft w)))%nat) by (apply nth_error_Some; intros E; change (val RV) with R in E; rewrite Hi in E; discriminate E).
    change (val RV) with R in *. rewrite L, <- Lz in I.
    destruct (nth_error z i) as [z0|] eqn:E0; [|apply nth_error_None in E0; lia].
    destruct (nth_error z (S i)) as [z1|] eqn:E1; [|apply nth_error_None in E1; lia].
    destruct (Fs i z0 z1 f E0 E1 Hi) as (d & D1 & _ & ->).
    replace (d / (2 * PI) / a_sample (r_x c)) with (d * / (2 * PI * a_sample (r_x c))) by (field; lra).
    assert (Q : 0 < / (2 * PI * a_sample (r_x c))) by (apply Rinv_0_lt_compat; apply Rmult_lt_0_compat; lra).
    rewrite Rabs_mult, (Rabs_right (/ _)) by lra.
    replace (1 / (2 * a_sample (r_x c))) with (PI * / (2 * PI * a_sample (r_x c))) by (field; lra).
    apply Rmult_le_compat_r; lra.
Qed.
Print Assumptions C48_nyquist.

(** A harmonic below half the sampling rate that makes whole turns over the record is recovered exactly: the envelope
    is its amplitude and the frequency, from the second sample on, is turns per record length. *)
Theorem C48_harmonic : forall (sp : rel RA RV -> result unit) (c : rel RA RV) w (n k : nat) (amp phi : R),
  (0 < k)%nat -> (2 * k < n)%nat -> 0 < amp -> r_y c = harmonic n k amp phi ->
  val_sweep RA RV (hilbert_sconfig sp) c None None = Ok w ->
  r_y (sw_at w) = repeat amp n /\ r_y (sw_ft w) = 0 :: repeat (INR k / (INR n * a_sample (r_x c))) (n - 1).
Proof.
  intros sp c w n k amp phi Hk Hn Ha Hy H. apply val_sweep_hilbert in H. destruct H as (_ & _ & _ & Hf & He). split.
  - unfold get_a_t in He. rewrite Hy, harmonic_hilbert in He by auto. cbn [bind] in He. injection He as He. rewrite <- He, map_map.
    apply (nth_ext _ _ 0 0); [rewrite map_length, seq_length, repeat_length; reflexivity|].
    intros j Hj. rewrite map_length, seq_length in Hj. rewrite nth_map_seq by auto. rewrite Cmod_phasor by lra.
    rewrite (nth_indep _ 0 amp) by (rewrite repeat_length; lia). rewrite nth_repeat. reflexivity.
  - exact (harmonic_f_t _ _ _ _ _ _ Hk Hn Ha Hy Hf).
Qed.
Print Assumptions C48_harmonic.
(** a constant signal has its absolute value as envelope and frequency 0 *)
Theorem C48_constant : forall (sp : rel RA RV -> result unit) (c : rel RA RV) w (n : nat) (v : R),
  (1 <= n)%nat -> r_y c = repeat v n -> val_sweep RA RV (hilbert_sconfig sp) c None None = Ok w ->
  r_y (sw_at w) = repeat (Rabs v) n /\ r_y (sw_ft w) = repeat 0 n.
Proof.
  intros sp c w n v Hn Hy H. apply val_sweep_hilbert in H. destruct H as (_ & _ & _ & Hf & He). split.
  - unfold get_a_t in He. rewrite Hy, const_hilbert in He by auto. cbn [bind] in He. injection He as He. rewrite <- He.
    clear. induction n; [reflexivity|]. cbn. rewrite IHn. f_equal. apply Cmod_R.
  - exact (const_f_t _ _ _ _ Hn Hy Hf).
Qed.
Print Assumptions C48_constant.
(** scaling the samples scales the envelope by the absolute value *)
Theorem C48_scaling : forall (sp : rel RA RV -> result unit) (c c' : rel RA RV) w w' (v : R),
  r_y c' = map (Rmult v) (r_y c) ->
  val_sweep RA RV (hilbert_sconfig sp) c None None = Ok w -> val_sweep RA RV (hilbert_sconfig sp) c' None None = Ok w' ->
  r_y (sw_at w') = map (Rmult (Rabs v)) (r_y (sw_at w)).
Proof.
  intros sp c c' w w' v Hy H H'. apply val_sweep_hilbert in H, H'. destruct H as (_ & _ & _ & _ & Ha), H' as (_ & _ & _ & _ & Ha').
  unfold get_a_t in *. change (val RV) with R in *. destruct (hilbert (r_y c)) as [z|] eqn:Ez; [|discriminate Ha].
  rewrite Hy, (hilbert_scale v _ _ Ez) in Ha'. cbn [bind] in Ha, Ha'. injection Ha as Ha. injection Ha' as Ha'. rewrite <- Ha, <- Ha', !map_map.
  apply map_ext. intros u. apply Cmod_scale.
Qed.
Print Assumptions C48_scaling.

(** Concrete case: 1, 0, -1, 0 over one second has envelope 1 and frequency 1 from the second sample on. *)
Definition ex_c : rel RA RV := mkRel (A:=RA) (V:=RV) (mkAxis (A:=RA) 0 (3 / 4) (1 / 4)) [1; 0; -1; 0].
Lemma ex_c_harmonic : r_y ex_c = harmonic 4 1 1 0.
Proof.
  unfold harmonic. cbn [r_y ex_c map seq]. assert (Q : forall t, 2 * PI * INR 1 * t / INR 4 + 0 = t * (PI / 2)) by (intros; cbn; field).
  rewrite !Q. cbn [INR]. replace (0 * (PI / 2)) with 0 by ring. replace (1 * (PI / 2)) with (PI / 2) by ring.
  replace ((1 + 1) * (PI / 2)) with PI by field. replace ((1 + 1 + 1) * (PI / 2)) with (3 * (PI / 2)) by ring.
  rewrite cos_0, cos_PI2, cos_PI, cos_3PI2. repeat (f_equal; [ring|]). f_equal; ring.
Qed.
Lemma ex_c_size : axis_size RA (r_x ex_c) = Ok (length (r_y ex_c)).
Proof.
  apply (axis_size_exact (r_x ex_c) 3). unfold Spec.exact_span. cbn. split; lra.
Qed.
Example C48_case : exists w, val_sweep RA RV (hilbert_sconfig (fun _ => Ok tt)) ex_c None None = Ok w /\
  r_y (sw_at w) = [1; 1; 1; 1] /\ r_y (sw_ft w) = [0; 1; 1; 1].
Proof.
  destruct (C48_total (fun _ => Ok tt) ex_c ex_c_size ltac:(discriminate) eq_refl) as (w & Hw & _). exists w. split; [exact Hw|].
  destruct (C48_harmonic _ _ _ 4 1 1 0 ltac:(lia) ltac:(lia) ltac:(lra) ex_c_harmonic Hw) as [-> ->]. split; [reflexivity|].
  cbn [repeat Nat.sub]. replace (INR 1 / (INR 4 * a_sample (r_x ex_c))) with 1 by (cbn; field). reflexivity.
Qed.
