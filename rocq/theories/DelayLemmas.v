(** Correlation with a source: start times, delays, echoes, bounds (C82). *)
From Coq Require Import Reals ZArith List Bool Lia Lra Psatz.
From Coquelicot Require Import Complex.
From Verif Require Import Num Numpy Spec AxisModel RelModel RLemmas AxisLemmas InterpLemmas VInst RelLemmas RelLemmas2 RelLemmas3
  CorrLemmas DelaySpec FourierSpec.
Import ListNotations.
Local Open Scope R_scope.

(** ** start times *)
Lemma shift_back {V : Vals RA} d (r s : rel RA V) : rel_shift RA V d r = Ok s ->
  rel_shift RA V (n_opp RA (a_start (r_x s))) s = rel_shift RA V (n_opp RA (a_start (r_x r))) r.
Proof.
  intros H. unfold rel_shift in H.
  apply rel_make_iff in H. destruct H as [E _]. subst s.
  unfold rel_shift, set_end, set_start. cbn [r_x r_y a_start a_end a_sample n_add n_opp RA].
  f_equal. f_equal; lra.
Qed.
Lemma lagged_shifts {V : Vals RA} cfg comb d1 d2 (r1 r2 s1 s2 : rel RA V) :
  rel_shift RA V d1 r1 = Ok s1 -> rel_shift RA V d2 r2 = Ok s2 ->
  rel_lagged RA V cfg comb s1 s2 = rel_lagged RA V cfg comb r1 r2.
Proof. intros H1 H2. unfold rel_lagged. rewrite (shift_back _ _ _ H1), (shift_back _ _ _ H2). reflexivity. Qed.

(** ** linearity *)
Section Lin.
Context {V : Vals RA} (L : VLaws V) (CL : CLaws V).
Notation val := (val V).
Add Field VfieldD : (vl_field V L).
Local Notation "0v" := (v_of V 0).

Lemma vsum_zero (f : nat -> val) n : (forall i, (i < n)%nat -> f i = 0v) -> vsum f n = 0v.
Proof.
  induction n as [|n IH]; intros H; [reflexivity|]. cbn [vsum].
  rewrite IH by (intros; apply H; lia). rewrite H by lia. ring.
Qed.
Lemma mix_ext es (f g : Z -> val) z : (forall z, f z = g z) -> mix es f z = mix es g z.
Proof. intros H. induction es as [|[k c] es IH]; cbn [mix]; [reflexivity|]. rewrite H, IH. reflexivity. Qed.
Lemma corr_mix es (s y : list val) b lag : (forall z, at0 y z = mix es (at0 s) z) ->
  corr_at y b lag = mix es (corr_at s b) lag.
Proof.
  revert y. unfold corr_at. intros y H.
  rewrite (vsum_ext _ (fun i => v_mul V (mix es (at0 s) (Z.of_nat i + lag)) (v_conj V (at0 b (Z.of_nat i)))))
    by (intros i _; rewrite H; reflexivity).
  clear H. induction es as [|[k c] es IH]; cbn [mix].
  - apply vsum_zero. intros i _. ring.
  - rewrite <- IH. rewrite <- (vsum_scal L), <- (vsum_add L). apply vsum_ext. intros i _.
    replace (Z.of_nat i + (lag - k))%Z with (Z.of_nat i + lag - k)%Z by lia. ring.
Qed.
Lemma corr_out (a b : list val) lag : ~ (- Z.of_nat (length b) < lag < Z.of_nat (length a))%Z -> corr_at a b lag = 0v.
Proof.
  intros H. unfold corr_at. apply vsum_zero. intros i Hi. rewrite (at0_out a) by lia. ring.
Qed.
Lemma delayed_mix k (s y : list val) : delayed k s y -> echoes [(k, v_of V 1)] s y.
Proof. intros [Hl H]. split; [exact Hl|]. intros z. rewrite H. cbn [mix]. ring. Qed.
Lemma mix_delayed k (s y : list val) : echoes [(k, v_of V 1)] s y -> delayed k s y.
Proof. intros [Hl H]. split; [exact Hl|]. intros z. rewrite H. cbn [mix]. ring. Qed.

(** correlating two relations on one axis, at every index *)
Lemma correlate_at0 (r1 r2 r' : rel RA V) : valid r1 -> valid r2 -> r_x r1 = r_x r2 ->
  rel_correlate RA V (default_config RA V) r1 r2 = Ok r' ->
  let T := a_end (r_x r1) - a_start (r_x r1) in let n := length (r_y r1) in
  r_x r' = mkAxis (A:=RA) (- T) T (a_sample (r_x r1)) /\ length (r_y r') = (2 * n - 1)%nat /\
  forall z, at0 (r_y r') z = corr_at (r_y r1) (r_y r2) (z - (Z.of_nat n - 1)).
Proof.
  intros V1 V2 Hx E T n. pose proof (valid_pos r1 V1) as Hp.
  assert (Ln : length (r_y r2) = n). { unfold valid in V1, V2. rewrite <- Hx in V2. unfold n. congruence. }
  destruct (correlate_equal_axes L CL r1 r2 V1 V2 Hx) as [Hok Hbad]. cbv zeta in Hok, Hbad. fold T n in Hok, Hbad.
  destruct (Rle_lt_dec (Rabs (Rabs (T / a_sample (r_x r1)) - INR (n - 1))) (/ 4)) as [Hle|Hlt].
  2:{ exfalso. specialize (Hbad Hlt). rewrite E in Hbad. discriminate. }
  destruct (Hok Hle) as (r2' & E2 & X & Ll & Hy). rewrite E in E2. injection E2 as <-.
  split; [exact X|]. split; [exact Ll|]. intros z.
  destruct (Z_le_dec 0 z) as [H0|H0]; [destruct (Z_lt_dec z (Z.of_nat (2 * n - 1))) as [H1|H1]|].
  - rewrite <- (Z2Nat.id z) by lia. rewrite at0_nat. rewrite Hy by lia. reflexivity.
  - rewrite at0_out by lia. symmetry. apply corr_out. fold n. rewrite Ln. lia.
  - rewrite at0_out by lia. symmetry. apply corr_out. fold n. rewrite Ln. lia.
Qed.
Lemma correlate_echoes es (s r a r' : rel RA V) : valid s -> valid r -> r_x r = r_x s ->
  rel_correlate RA V (default_config RA V) s s = Ok a -> rel_correlate RA V (default_config RA V) r s = Ok r' ->
  echoes es (r_y s) (r_y r) -> r_x r' = r_x a /\ echoes es (r_y a) (r_y r').
Proof.
  intros Vs Vr Hx Ea Er [Hl H].
  destruct (correlate_at0 s s a Vs Vs eq_refl Ea) as (Xa & La & Ha). cbv zeta in *.
  destruct (correlate_at0 r s r' Vr Vs Hx Er) as (Xr & Lr & Hr). cbv zeta in *.
  split; [rewrite Xr, Xa, Hx; reflexivity|]. split; [rewrite Lr, La, Hl; reflexivity|].
  intros z. rewrite Hr, (corr_mix es (r_y s)) by exact H. rewrite Hl. clear - Ha.
  induction es as [|[k c] es IH]; cbn [mix]; [reflexivity|]. rewrite Ha, IH.
  replace (z - k - (Z.of_nat (length (r_y s)) - 1))%Z with (z - (Z.of_nat (length (r_y s)) - 1) - k)%Z by lia. reflexivity.
Qed.
Lemma same_axis_ok (s r a : rel RA V) : valid s -> valid r -> r_x r = r_x s ->
  rel_correlate RA V (default_config RA V) s s = Ok a -> exists r', rel_correlate RA V (default_config RA V) r s = Ok r'.
Proof.
  intros Vs Vr Hx E.
  assert (Ln : length (r_y r) = length (r_y s)). { unfold valid in Vs, Vr. rewrite Hx in Vr. congruence. }
  destruct (correlate_equal_axes L CL s s Vs Vs eq_refl) as [_ Hbad]. cbv zeta in Hbad.
  destruct (correlate_equal_axes L CL r s Vr Vs Hx) as [Hok _]. cbv zeta in Hok. rewrite Hx, Ln in Hok.
  match type of Hok with ?P -> _ => destruct (Rle_lt_dec (Rabs (Rabs ((a_end (r_x s) - a_start (r_x s)) / a_sample (r_x s)) - INR (length (r_y s) - 1))) (/ 4)) as [Hle|Hlt] end.
  - destruct (Hok Hle) as (r' & E' & _). exists r'. exact E'.
  - specialize (Hbad Hlt). rewrite E in Hbad. discriminate.
Qed.
End Lin.

(** ** strict peak *)
Lemma Rsum_zero (f : nat -> R) n : (forall i, (i < n)%nat -> 0 <= f i) -> vsum (V:=RV) f n = 0 ->
  forall i, (i < n)%nat -> f i = 0.
Proof.
  induction n as [|n IH]; intros Hp H i Hi; [lia|]. cbn [vsum RV v_add v_of] in H.
  assert (H1 : 0 <= vsum (V:=RV) f n).
  { clear - Hp. induction n as [|n IHn]; cbn [vsum RV v_add v_of]; [cbn; lra|].
    pose proof (Hp n ltac:(lia)). assert (0 <= vsum (V:=RV) f n) by (apply IHn; intros; apply Hp; lia). cbn [RV val] in *. lra. }
  pose proof (Hp n ltac:(lia)). cbn [RV val] in *.
  destruct (Nat.eq_dec i n) as [->|Hne]; [lra|]. apply IH; [intros; apply Hp; lia | lra | lia].
Qed.
Lemma self_products_strict (g : Z -> R) n lag : (forall z, 0 <= g z) -> (forall z, ~ (0 <= z < Z.of_nat n)%Z -> g z = 0) ->
  (exists z, g z <> 0) -> lag <> 0%Z ->
  vsum (V:=RV) (fun i => g (Z.of_nat i + lag)%Z * g (Z.of_nat i)) n < vsum (V:=RV) (fun i => g (Z.of_nat i) * g (Z.of_nat i)) n.
Proof.
  intros Hp Hs [z0 Hz0] Hlag.
  destruct (Rle_lt_or_eq_dec _ _ (self_products g n lag Hp Hs)) as [H|Heq]; [exact H|exfalso].
  set (S2 := vsum (V:=RV) (fun i => g (Z.of_nat i) * g (Z.of_nat i)) n) in *.
  assert (H1 : vsum (V:=RV) (fun i => g (Z.of_nat i + lag)%Z * g (Z.of_nat i + lag)%Z) n <= S2).
  { pose proof (window_le (fun z => g z * g z) lag n n) as HW. unfold zsum in HW. unfold S2.
    rewrite (vsum_ext (V:=RV) (fun i => g (Z.of_nat i + lag)%Z * g (Z.of_nat i + lag)%Z) (fun i => g (lag + Z.of_nat i)%Z * g (lag + Z.of_nat i)%Z))
      by (intros i _; rewrite Z.add_comm; reflexivity).
    rewrite (vsum_ext (V:=RV) (fun i => g (Z.of_nat i) * g (Z.of_nat i)) (fun i => g (0 + Z.of_nat i)%Z * g (0 + Z.of_nat i)%Z))
      by (intros i _; reflexivity).
    apply HW; [intros z; apply Rle_0_sqr | intros z Hz; rewrite (Hs z Hz); ring]. }
  assert (H2 : vsum (V:=RV) (fun i => (g (Z.of_nat i + lag)%Z - g (Z.of_nat i)) * (g (Z.of_nat i + lag)%Z - g (Z.of_nat i))) n =
    vsum (V:=RV) (fun i => g (Z.of_nat i + lag)%Z * g (Z.of_nat i + lag)%Z) n + S2
      - 2 * vsum (V:=RV) (fun i => g (Z.of_nat i + lag)%Z * g (Z.of_nat i)) n).
  { unfold S2. clear. induction n as [|n IH]; cbn [vsum RV v_add v_of]; [cbn; ring|]. cbn [RV val] in *. rewrite IH. ring. }
  assert (H0 : forall i, (i < n)%nat -> g (Z.of_nat i + lag)%Z = g (Z.of_nat i)).
  { intros i Hi.
    assert (Hsum : forall f m, (forall j : nat, 0 <= f j) -> 0 <= vsum (V:=RV) f m).
    { clear. intros f m Hf. induction m as [|m IHm]; cbn [vsum RV v_add v_of]; [cbn; lra|]. pose proof (Hf m). cbn [RV val] in *. lra. }
    assert (E : (g (Z.of_nat i + lag)%Z - g (Z.of_nat i)) * (g (Z.of_nat i + lag)%Z - g (Z.of_nat i)) = 0).
    { refine (Rsum_zero (fun i => (g (Z.of_nat i + lag)%Z - g (Z.of_nat i)) * (g (Z.of_nat i + lag)%Z - g (Z.of_nat i))) n _ _ i Hi).
      - intros j _. apply Rle_0_sqr.
      - pose proof (Hsum (fun i => (g (Z.of_nat i + lag)%Z - g (Z.of_nat i)) * (g (Z.of_nat i + lag)%Z - g (Z.of_nat i))) n
          ltac:(intros j; apply Rle_0_sqr)) as Hge.
        cbn [RV val] in *. lra. }
    apply Rmult_integral in E. lra. }
  apply Hz0. destruct (Z_le_dec 0 z0) as [Ha|Ha]; [|apply Hs; lia].
  destruct (Z_lt_dec z0 (Z.of_nat n)) as [Hb|Hb]; [|apply Hs; lia].
  destruct (Z_lt_le_dec 0 lag) as [Hl|Hl].
  - assert (G : forall m z, (Z.of_nat n - Z.of_nat m <= z)%Z -> (0 <= z)%Z -> g z = 0).
    { induction m as [|m IH]; intros z Hz Hz'; [apply Hs; lia|].
      destruct (Z_lt_dec z (Z.of_nat n)) as [Hc|Hc]; [|apply Hs; lia].
      pose proof (H0 (Z.to_nat z) ltac:(lia)) as Hg. rewrite Z2Nat.id in Hg by lia. rewrite <- Hg. apply IH; lia. }
    apply (G n); lia.
  - assert (G : forall m z, (z < Z.of_nat m)%Z -> (z < Z.of_nat n)%Z -> g z = 0).
    { induction m as [|m IH]; intros z Hz Hz'; [apply Hs; lia|].
      destruct (Z_le_dec 0 z) as [Hc|Hc]; [|apply Hs; lia].
      pose proof (H0 (Z.to_nat z) ltac:(lia)) as Hg. rewrite Z2Nat.id in Hg by lia. rewrite <- Hg. apply IH; lia. }
    apply (G n); lia.
Qed.
Lemma nonzero_at0 {V : Vals RA} (y : list (val V)) v : In v y -> exists z, at0 y z = v.
Proof.
  intros H. destruct (In_nth_error _ _ H) as [i Hi]. exists (Z.of_nat i). rewrite at0_nat. apply nth_nth_error. exact Hi.
Qed.
Lemma auto_strict_real (y : list R) lag : (exists v, In v y /\ v <> 0) -> lag <> 0%Z ->
  Rabs (corr_at (V:=RV) y y lag) < corr_at (V:=RV) y y 0.
Proof.
  intros (v & Hv & Hne) Hlag. rewrite (proj2 (auto_peak_real y 0)).
  unfold corr_at. eapply Rle_lt_trans; [apply Rsum_abs|]. cbn [RV v_mul v_conj].
  rewrite (vsum_ext (V:=RV) _ (fun i => (fun z => Rabs (at0 (V:=RV) y z)) (Z.of_nat i + lag)%Z * (fun z => Rabs (at0 (V:=RV) y z)) (Z.of_nat i)))
    by (intros i _; apply Rabs_mult).
  eapply Rlt_le_trans; [apply (self_products_strict (fun z => Rabs (at0 (V:=RV) y z)))|].
  - intros z. apply Rabs_pos.
  - intros z Hz. rewrite (at0_out (V:=RV) y z Hz). apply Rabs_R0.
  - destruct (nonzero_at0 (V:=RV) y v Hv) as [z Hz]. exists z. cbn beta. rewrite Hz. apply Rabs_no_R0. exact Hne.
  - exact Hlag.
  - apply Req_le. apply (vsum_ext (V:=RV)). intros i _. rewrite <- Rabs_mult.
    rewrite (at0_nat (V:=RV)). apply Rabs_right. apply Rle_ge, Rle_0_sqr.
Qed.
Lemma auto_strict_complex (y : list C) lag : (exists v, In v y /\ v <> RtoC 0) -> lag <> 0%Z ->
  Cmod (corr_at (V:=CV) y y lag) < Cmod (corr_at (V:=CV) y y 0).
Proof.
  intros (v & Hv & Hne) Hlag. rewrite (proj2 (auto_peak_complex y 0)).
  eapply Rlt_le_trans; [|rewrite Cmod_R; apply Rle_abs].
  unfold corr_at. eapply Rle_lt_trans; [apply Csum_abs|].
  rewrite (vsum_ext (V:=RV) _ (fun i => (fun z => Cmod (at0 (V:=CV) y z)) (Z.of_nat i + lag)%Z * (fun z => Cmod (at0 (V:=CV) y z)) (Z.of_nat i))).
  2:{ intros i _. cbn [CV v_mul v_conj]. rewrite Cmod_mult, Cmod_conj. reflexivity. }
  eapply Rlt_le_trans; [apply (self_products_strict (fun z => Cmod (at0 (V:=CV) y z)))|].
  - intros z. apply Cmod_ge_0.
  - intros z Hz. rewrite (at0_out (V:=CV) y z Hz). apply Cmod_0.
  - destruct (nonzero_at0 (V:=CV) y v Hv) as [z Hz]. exists z. cbn beta. rewrite Hz. intros H0. apply Hne. apply Cmod_eq_0. exact H0.
  - exact Hlag.
  - apply Req_le. apply (vsum_ext (V:=RV)). intros i _. rewrite (at0_nat (V:=CV)). reflexivity.
Qed.

(** ** Cauchy-Schwarz *)
Lemma cauchy (f g : nat -> R) n :
  let S := vsum (V:=RV) (fun i => f i * g i) n in
  0 <= vsum (V:=RV) (fun i => f i * f i) n /\ 0 <= vsum (V:=RV) (fun i => g i * g i) n /\
  S * S <= vsum (V:=RV) (fun i => f i * f i) n * vsum (V:=RV) (fun i => g i * g i) n.
Proof.
  induction n as [|n IH]; cbv zeta in *; cbn [vsum RV v_add v_of]; [cbn; lra|]. cbn [RV val] in *.
  set (S := vsum (V:=RV) (fun i => f i * g i) n) in *. set (A := vsum (V:=RV) (fun i => f i * f i) n) in *.
  set (B := vsum (V:=RV) (fun i => g i * g i) n) in *. destruct IH as (HA & HB & HS). cbn [RV val] in *.
  generalize (f n) as u. generalize (g n) as v. intros v u.
  pose proof (Rle_0_sqr u) as Hu. pose proof (Rle_0_sqr v) as Hv. unfold Rsqr in Hu, Hv.
  split; [lra|]. split; [lra|].
  assert (H : 2 * S * u * v <= A * (v * v) + B * (u * u)).
  { apply Rsqr_incr_0_var.
    - unfold Rsqr. assert (0 <= (A * (v * v) - B * (u * u)) * (A * (v * v) - B * (u * u))) by apply Rle_0_sqr.
      assert (0 <= (A * B - S * S) * ((u * u) * (v * v))) by (apply Rmult_le_pos; [lra | apply Rmult_le_pos; assumption]). nra.
    - apply Rplus_le_le_0_compat; apply Rmult_le_pos; assumption. }
  nra.
Qed.
(** total of the squared moduli [g z] over a sequence, and over any window *)
Lemma corr_cauchy (g h : Z -> R) n lag : (forall z, ~ (0 <= z < Z.of_nat n)%Z -> g z = 0) ->
  forall s, Rabs s <= vsum (V:=RV) (fun i => g (Z.of_nat i + lag)%Z * h (Z.of_nat i)) n ->
  s * s <= vsum (V:=RV) (fun i => g (Z.of_nat i) * g (Z.of_nat i)) n * vsum (V:=RV) (fun i => h (Z.of_nat i) * h (Z.of_nat i)) n.
Proof.
  intros Hs s H.
  destruct (cauchy (fun i => g (Z.of_nat i + lag)%Z) (fun i => h (Z.of_nat i)) n) as (H1 & H2 & H3). cbv zeta in *.
  pose proof (window_le (fun z => g z * g z) lag n n) as HW. unfold zsum in HW.
  assert (HW' : vsum (V:=RV) (fun i => g (Z.of_nat i + lag)%Z * g (Z.of_nat i + lag)%Z) n <= vsum (V:=RV) (fun i => g (Z.of_nat i) * g (Z.of_nat i)) n).
  { rewrite (vsum_ext (V:=RV) (fun i => g (Z.of_nat i + lag)%Z * g (Z.of_nat i + lag)%Z) (fun i => g (lag + Z.of_nat i)%Z * g (lag + Z.of_nat i)%Z))
      by (intros i _; rewrite Z.add_comm; reflexivity).
    rewrite (vsum_ext (V:=RV) (fun i => g (Z.of_nat i) * g (Z.of_nat i)) (fun i => g (0 + Z.of_nat i)%Z * g (0 + Z.of_nat i)%Z))
      by (intros i _; reflexivity).
    apply HW; [intros z; apply Rle_0_sqr | intros z Hz; rewrite (Hs z Hz); ring]. }
  pose proof (Rabs_pos s) as Hp. rewrite <- (Rabs_right (s * s)) by (apply Rle_ge, Rle_0_sqr). rewrite Rabs_mult.
  set (X := vsum (V:=RV) (fun i => g (Z.of_nat i + lag)%Z * h (Z.of_nat i)) n) in *.
  set (A' := vsum (V:=RV) (fun i => g (Z.of_nat i + lag)%Z * g (Z.of_nat i + lag)%Z) n) in *.
  set (B := vsum (V:=RV) (fun i => h (Z.of_nat i) * h (Z.of_nat i)) n) in *.
  set (A := vsum (V:=RV) (fun i => g (Z.of_nat i) * g (Z.of_nat i)) n) in *. cbn [RV val] in *.
  apply Rle_trans with (X * X); [apply Rmult_le_compat; assumption|].
  apply Rle_trans with (A' * B); [exact H3|]. apply Rmult_le_compat_r; assumption.
Qed.

(** ** where the peak is *)
Lemma lagged_valid {V : Vals RA} cfg comb (r1 r2 r' : rel RA V) : rel_lagged RA V cfg comb r1 r2 = Ok r' -> valid r'.
Proof.
  unfold rel_lagged. intros H.
  destruct (rel_shift RA V _ r1) as [s1|]; cbn [bind] in H; [|discriminate].
  destruct (rel_shift RA V _ r2) as [s2|]; cbn [bind] in H; [|discriminate].
  destruct (rel_equalize RA V cfg false s1 s2) as [e|]; cbn [bind] in H; [|discriminate].
  destruct (comb _ _) as [y|]; cbn [bind] in H; [|discriminate].
  apply rel_make_iff in H. destruct H as (-> & arr & Ha & Hl). unfold valid. cbn [r_x r_y].
  unfold axis_array in Ha. destruct (axis_size RA _) as [n|]; cbn [bind] in Ha; [|discriminate].
  injection Ha as <-. rewrite linspace_R, grid_length in Hl. rewrite Hl. reflexivity.
Qed.
Section Peak.
Context {V : Vals RA} (L : VLaws V) (CL : CLaws V) (mag : val V -> R).
Hypothesis strict : forall (y : list (val V)) lag, (exists v, In v y /\ v <> v_of V 0) -> lag <> 0%Z ->
  mag (corr_at y y lag) < mag (corr_at y y 0).
Lemma delay_range k (s y : list (val V)) v : delayed k s y -> In v s -> v <> v_of V 0 ->
  (- Z.of_nat (length s) < k < Z.of_nat (length s))%Z.
Proof.
  intros [Hl H] Hv Hne. destruct (nonzero_at0 s v Hv) as [z Hz].
  destruct (at0_cases s z) as [Hr|Hr]; [|congruence].
  specialize (H (z + k)%Z). replace (z + k - k)%Z with z in H by lia.
  destruct (at0_cases y (z + k)) as [Hr'|Hr']; [|congruence]. rewrite Hl in Hr'. lia.
Qed.
(** indices of the peak of [corr_at y s] for a delayed [y] *)
Lemma delay_peak k (s y : list (val V)) : delayed k s y -> (exists v, In v s /\ v <> v_of V 0) ->
  corr_at y s k = corr_at s s 0 /\ forall lag, lag <> k -> mag (corr_at y s lag) < mag (corr_at s s 0).
Proof.
  intros Hd Hne.
  assert (E : forall lag, corr_at y s lag = corr_at s s (lag - k)).
  { intros lag. destruct (delayed_mix L k s y Hd) as [_ H].
    rewrite (corr_mix L [(k, v_of V 1)] s y s lag H). cbn [mix]. 
    pose proof (vl_field V L) as F. destruct F as [[Fadd0 Faddc Fadda Fm1 Fmc Fma Fd Fs Fo] _ _ _].
    cbn [RA n_of_Z num] in *. rewrite Fm1, Faddc, Fadd0. reflexivity. }
  split; [rewrite E, Z.sub_diag; reflexivity|]. intros lag Hl. rewrite E. apply strict; [exact Hne | lia].
Qed.
Lemma correlate_peak k (s r r' : rel RA V) : valid s -> valid r -> r_x r = r_x s ->
  rel_correlate RA V (default_config RA V) r s = Ok r' ->
  delayed k (r_y s) (r_y r) -> (exists v, In v (r_y s) /\ v <> v_of V 0) ->
  let n := length (r_y s) in let T := a_end (r_x s) - a_start (r_x s) in
  exists p, Z.of_nat p = (Z.of_nat n - 1 + k)%Z /\
    nth_error (r_y r') p = Some (corr_at (r_y s) (r_y s) 0) /\
    (forall i v, nth_error (r_y r') i = Some v -> i <> p -> mag v < mag (corr_at (r_y s) (r_y s) 0)) /\
    ((2 <= n)%nat -> exists xs, axis_array RA (r_x r') = Ok xs /\ nth_error xs p = Some (IZR k * (T / INR (n - 1)))).
Proof.
  intros Vs Vr Hx E Hd Hne n T.
  destruct (correlate_at0 L CL r s r' Vr Vs Hx E) as (X & Ll & Hat). cbv zeta in X, Ll, Hat.
  rewrite (proj1 Hd) in Ll, Hat. fold n in Ll, Hat. rewrite Hx in X. fold T in X.
  destruct Hne as (w & Hw & Hw0). pose proof (delay_range k _ _ w Hd Hw Hw0) as Hk. fold n in Hk.
  destruct (delay_peak k _ _ Hd (ex_intro _ w (conj Hw Hw0))) as [P1 P2].
  exists (Z.to_nat (Z.of_nat n - 1 + k)). set (p := Z.to_nat _). assert (Hp : Z.of_nat p = (Z.of_nat n - 1 + k)%Z) by lia.
  assert (Hnth : forall i v, nth_error (r_y r') i = Some v -> v = corr_at (r_y r) (r_y s) (Z.of_nat i - (Z.of_nat n - 1))).
  { intros i v Hi. rewrite <- Hat, at0_nat. symmetry. apply nth_nth_error. exact Hi. }
  split; [exact Hp|]. split; [|split].
  - destruct (nth_error (r_y r') p) as [v|] eqn:En.
    + rewrite (Hnth _ _ En). f_equal. rewrite <- P1. f_equal. lia.
    + apply nth_error_None in En. lia.
  - intros i v Hi Hne. rewrite (Hnth _ _ Hi). apply P2. lia.
  - intros Hn. pose proof (lagged_valid _ _ _ _ _ E) as Vr'. exists (xs_of r'). split; [apply valid_array; exact Vr'|].
    unfold xs_of. rewrite X, Ll. cbn [a_start a_end]. rewrite grid_nth by lia. f_equal. unfold grid_pt.
    replace (2 * n - 1 - 1)%nat with (2 * (n - 1))%nat by lia. rewrite mult_INR, INR_IZR_INZ, Hp.
    rewrite plus_IZR, minus_IZR, <- INR_IZR_INZ. rewrite minus_INR by lia. cbn [INR].
    assert (INR n - 1 <> 0). { apply Rgt_not_eq. apply (le_INR 2) in Hn. cbn in Hn. lra. }
    field. exact H.
Qed.
End Peak.

(** ** making delayed sequences *)
Lemma at0_app {V : Vals RA} (a b : list (val V)) z : at0 (a ++ b) z = if (z <? Z.of_nat (length a))%Z then at0 a z else at0 b (z - Z.of_nat (length a)).
Proof.
  unfold at0. destruct (Z.ltb_spec z (Z.of_nat (length a))) as [H|H].
  - destruct (Z.ltb_spec z 0); [reflexivity|]. rewrite nth_error_app1 by lia. reflexivity.
  - destruct (Z.ltb_spec z 0); [lia|]. destruct (Z.ltb_spec (z - Z.of_nat (length a)) 0); [lia|].
    rewrite nth_error_app2 by lia. replace (Z.to_nat z - length a)%nat with (Z.to_nat (z - Z.of_nat (length a))) by lia. reflexivity.
Qed.
Lemma at0_repeat {V : Vals RA} k z : at0 (repeat (v_of V 0) k) z = v_of V 0.
Proof.
  unfold at0. destruct (z <? 0)%Z; [reflexivity|]. destruct (nth_error _ _) as [v|] eqn:E; [|reflexivity].
  apply nth_error_In in E. apply repeat_spec in E. exact E.
Qed.
Lemma delayed_pad {V : Vals RA} k (s : list (val V)) :
  delayed (Z.of_nat k) (s ++ repeat (v_of V 0) k) (repeat (v_of V 0) k ++ s).
Proof.
  split; [rewrite !app_length; lia|]. intros z. rewrite !at0_app, !at0_repeat, repeat_length.
  destruct (Z.ltb_spec z (Z.of_nat k)); destruct (Z.ltb_spec (z - Z.of_nat k) (Z.of_nat (length s))); try reflexivity.
  - symmetry. apply at0_out. lia.
  - apply at0_out. lia.
Qed.

(** ** bounds *)
Lemma correlate_bound_real (r1 r2 r' : rel RA RV) v : valid r1 -> valid r2 -> r_x r1 = r_x r2 ->
  rel_correlate RA RV (default_config RA RV) r1 r2 = Ok r' -> In v (r_y r') ->
  v * v <= vsum (V:=RV) (fun i => nth i (r_y r1) 0 * nth i (r_y r1) 0) (length (r_y r1)) *
           vsum (V:=RV) (fun i => nth i (r_y r2) 0 * nth i (r_y r2) 0) (length (r_y r2)).
Proof.
  intros V1 V2 Hx E Hv. destruct (correlate_at0 RV_laws RV_claws r1 r2 r' V1 V2 Hx E) as (_ & _ & Hat). cbv zeta in Hat.
  assert (Ln : length (r_y r2) = length (r_y r1)). { unfold valid in V1, V2. rewrite <- Hx in V2. congruence. }
  destruct (nonzero_at0 (V:=RV) _ _ Hv) as [z Hz]. rewrite Hat in Hz. subst v. rewrite Ln.
  set (lag := (z - _)%Z).
  rewrite (vsum_ext (V:=RV) (fun i => nth i (r_y r1) 0 * nth i (r_y r1) 0)
    (fun i => (fun z => Rabs (at0 (V:=RV) (r_y r1) z)) (Z.of_nat i) * (fun z => Rabs (at0 (V:=RV) (r_y r1) z)) (Z.of_nat i))).
  2:{ intros i _. cbn beta. rewrite <- Rabs_mult, (at0_nat (V:=RV)). symmetry. apply Rabs_right, Rle_ge, Rle_0_sqr. }
  rewrite (vsum_ext (V:=RV) (fun i => nth i (r_y r2) 0 * nth i (r_y r2) 0)
    (fun i => (fun z => Rabs (at0 (V:=RV) (r_y r2) z)) (Z.of_nat i) * (fun z => Rabs (at0 (V:=RV) (r_y r2) z)) (Z.of_nat i))).
  2:{ intros i _. cbn beta. rewrite <- Rabs_mult, (at0_nat (V:=RV)). symmetry. apply Rabs_right, Rle_ge, Rle_0_sqr. }
  apply (corr_cauchy (fun z => Rabs (at0 (V:=RV) (r_y r1) z)) (fun z => Rabs (at0 (V:=RV) (r_y r2) z)) (length (r_y r1)) lag).
  - intros w Hw. cbn beta. rewrite (at0_out (V:=RV) _ w Hw). apply Rabs_R0.
  - unfold corr_at. rewrite Ln. eapply Rle_trans; [apply Rsum_abs|]. apply Req_le. apply (vsum_ext (V:=RV)).
    intros i _. cbn [RV v_mul v_conj]. apply Rabs_mult.
Qed.
Lemma correlate_bound_complex (r1 r2 r' : rel RA CV) v : valid r1 -> valid r2 -> r_x r1 = r_x r2 ->
  rel_correlate RA CV (default_config RA CV) r1 r2 = Ok r' -> In v (r_y r') ->
  Cmod v * Cmod v <= vsum (V:=RV) (fun i => Cmod (nth i (r_y r1) (RtoC 0)) * Cmod (nth i (r_y r1) (RtoC 0))) (length (r_y r1)) *
                     vsum (V:=RV) (fun i => Cmod (nth i (r_y r2) (RtoC 0)) * Cmod (nth i (r_y r2) (RtoC 0))) (length (r_y r2)).
Proof.
  intros V1 V2 Hx E Hv. destruct (correlate_at0 CV_laws CV_claws r1 r2 r' V1 V2 Hx E) as (_ & _ & Hat). cbv zeta in Hat.
  assert (Ln : length (r_y r2) = length (r_y r1)). { unfold valid in V1, V2. rewrite <- Hx in V2. congruence. }
  destruct (nonzero_at0 (V:=CV) _ _ Hv) as [z Hz]. rewrite Hat in Hz. subst v. rewrite Ln.
  set (lag := (z - _)%Z).
  rewrite (vsum_ext (V:=RV) (fun i => Cmod (nth i (r_y r1) (RtoC 0)) * Cmod (nth i (r_y r1) (RtoC 0)))
    (fun i => (fun z => Cmod (at0 (V:=CV) (r_y r1) z)) (Z.of_nat i) * (fun z => Cmod (at0 (V:=CV) (r_y r1) z)) (Z.of_nat i))).
  2:{ intros i _. cbn beta. rewrite (at0_nat (V:=CV)). reflexivity. }
  rewrite (vsum_ext (V:=RV) (fun i => Cmod (nth i (r_y r2) (RtoC 0)) * Cmod (nth i (r_y r2) (RtoC 0)))
    (fun i => (fun z => Cmod (at0 (V:=CV) (r_y r2) z)) (Z.of_nat i) * (fun z => Cmod (at0 (V:=CV) (r_y r2) z)) (Z.of_nat i))).
  2:{ intros i _. cbn beta. rewrite (at0_nat (V:=CV)). reflexivity. }
  apply (corr_cauchy (fun z => Cmod (at0 (V:=CV) (r_y r1) z)) (fun z => Cmod (at0 (V:=CV) (r_y r2) z)) (length (r_y r1)) lag).
  - intros w Hw. cbn beta. rewrite (at0_out (V:=CV) _ w Hw). apply Cmod_0.
  - rewrite (Rabs_right (Cmod _)) by (apply Rle_ge, Cmod_ge_0).
    unfold corr_at. rewrite Ln. eapply Rle_trans; [apply Csum_abs|]. apply Req_le. apply (vsum_ext (V:=RV)).
    intros i _. cbn [CV v_mul v_conj]. rewrite Cmod_mult, Cmod_conj. reflexivity.
Qed.

(** ** signals *)
Lemma rotated_delayed (V : Vals RA) (m : nat) (u w : list (val V)) : (m <= length u)%nat ->
  (forall i, (length u - m <= i < length u)%nat -> nth_error u i = Some (v_of V 0)) ->
  rotated_left (- Z.of_nat m) u w -> delayed (Z.of_nat m) u w.
Proof.
  intros Hm Hz [Hl H]. split; [exact Hl|]. intros z.
  assert (Ht : forall t, (Z.of_nat (length u) - Z.of_nat m <= t)%Z -> (0 <= t)%Z -> at0 u t = v_of V 0).
  { intros t Ht Ht0. destruct (Z_lt_dec t (Z.of_nat (length u))) as [Hc|Hc]; [|apply at0_out; lia].
    unfold at0. destruct (Z.ltb_spec t 0); [reflexivity|]. rewrite Hz by lia. reflexivity. }
  destruct (Z_le_dec 0 z) as [H0|H0]; [destruct (Z_lt_dec z (Z.of_nat (length u))) as [H1|H1]|].
  - unfold at0 at 1. destruct (Z.ltb_spec z 0); [lia|]. rewrite H by lia. rewrite Z2Nat.id by lia.
    destruct (Z_le_dec (Z.of_nat m) z) as [H7|H7].
    + rewrite Z.mod_small by lia. unfold at0. destruct (Z.ltb_spec (z - Z.of_nat m) 0); [lia|].
      replace (z + - Z.of_nat m)%Z with (z - Z.of_nat m)%Z by lia. reflexivity.
    + rewrite (at0_out u (z - Z.of_nat m)) by lia.
      replace ((z + - Z.of_nat m) mod Z.of_nat (length u))%Z with (z - Z.of_nat m + Z.of_nat (length u))%Z.
      * rewrite Hz by lia. reflexivity.
      * apply (Z.mod_unique _ _ (-1)); lia.
  - rewrite at0_out by lia. symmetry. apply Ht; lia.
  - rewrite at0_out by lia. symmetry. apply at0_out. lia.
Qed.
Lemma at0_reals (u : list R) z : at0 (V:=CV) (reals u) z = RtoC (at0 (V:=RV) u z).
Proof.
  unfold at0, reals. destruct (z <? 0)%Z; [reflexivity|]. rewrite nth_error_map.
  change (@nth_error (val RV) u) with (@nth_error R u). destruct (@nth_error R u (Z.to_nat z)); reflexivity.
Qed.
Lemma signal_peak m (u w : list R) (y : list C) : (m <= length u)%nat -> delayed (V:=RV) (Z.of_nat m) u w ->
  (exists v, In v u /\ v <> 0) -> np_correlate RA CV (reals w) (reals u) = Ok y ->
  let E := vsum (V:=RV) (fun i => nth i u 0 * nth i u 0) (length u) in
  nth_error y (length u - 1 + m) = Some (RtoC E) /\
  forall i v, nth_error y i = Some v -> i <> (length u - 1 + m)%nat -> Cmod v < E.
Proof.
  intros Hm Hd (v0 & Hv0 & Hne) Ey E.
  pose proof (delay_range (V:=RV) _ _ _ _ Hd Hv0 Hne) as Hk.
  assert (Lr : forall q : list R, length (reals q) = length q) by (intros q; apply map_length).
  assert (Hu : u <> []) by (destruct u; [destruct Hv0 | discriminate]).
  assert (Hw : w <> []) by (destruct Hd as [Hl _]; destruct w; [destruct u; [tauto|discriminate] | discriminate]).
  assert (Hdc : delayed (V:=CV) (Z.of_nat m) (reals u) (reals w)).
  { destruct Hd as [Hl H]. split; [exact (eq_trans (Lr w) (eq_trans Hl (eq_sym (Lr u))))|]. intros z. rewrite !at0_reals, H. reflexivity. }
  assert (Hnc : exists v, In v (reals u) /\ v <> RtoC 0).
  { exists (RtoC v0). split; [apply in_map; exact Hv0|]. intros H. apply Hne. exact (f_equal fst H). }
  destruct (delay_peak CV_laws Cmod auto_strict_complex _ _ _ Hdc Hnc) as [P1 P2].
  assert (HE : corr_at (V:=CV) (reals u) (reals u) 0 = RtoC E).
  { rewrite (proj2 (auto_peak_complex (reals u) 0)). f_equal. unfold E. rewrite Lr. apply (vsum_ext (V:=RV)). intros i _.
    change (RtoC 0) with (RtoC (id 0)). unfold reals. rewrite (map_nth RtoC). unfold id. rewrite Cmod_R, <- Rabs_mult.
    apply Rabs_right, Rle_ge, Rle_0_sqr. }
  assert (Hp : 0 <= E). { pose proof (Rabs_pos (corr_at (V:=RV) u u 0)). destruct (auto_peak_real u 0) as [H1 _]. unfold E. lra. }
  rewrite HE in P1, P2. rewrite Cmod_R, (Rabs_right E) in P2 by lra.
  destruct (np_correlate_spec CV_laws CV_claws (reals w) (reals u)) as (y' & Ey' & Ly & Hy).
  { destruct w; [tauto|discriminate]. } { destruct u; [tauto|discriminate]. }
  assert (Eyy : y' = y) by (assert (Ok y' = Ok y) as Q by (rewrite <- Ey, <- Ey'; reflexivity); injection Q as Q; exact Q). subst y'. clear Ey'.
  assert (Ly' : length y = (length u + length u - 1)%nat) by (pose proof (proj1 Hd) as Q1; pose proof (Lr u) as Q2; pose proof (Lr w) as Q3; cbn [RV CV val] in *; lia).
  assert (Hn : forall i, (i < length y)%nat -> nth i y (RtoC 0) = corr_at (V:=CV) (reals w) (reals u) (Z.of_nat i - (Z.of_nat (length u) - 1))).
  { intros i Hi. rewrite <- (Lr u). exact (Hy i Hi). }
  change (@length (val RV)) with (@length R) in *. change (@length (val CV)) with (@length C) in *.
  split.
  - rewrite (nth_error_nth' _ _ (RtoC 0)) by lia. f_equal. rewrite Hn by lia. rewrite <- P1. f_equal. lia.
  - intros i v Hi Hne'. pose proof (nth_nth_error _ _ (RtoC 0) _ Hi) as <-.
    assert (i < length y)%nat by (apply nth_error_Some; congruence). rewrite Hn by assumption. apply P2. lia.
Qed.
