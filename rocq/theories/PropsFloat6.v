(** Property theorems in IEEE binary64, continued: C92, linear frequency laws. *)
From Coq Require Import Reals ZArith List Bool Lia Lra SpecFloat.
From Verif Require Import Num Numpy Spec AxisModel RelModel HeapModel SweepModel PreparedModel FloatSpec CalcSpec FloatLawSpec
  FloatLemmas FloatLemmas2 FloatLemmas5 FloatLemmas11.
Import ListNotations.
Local Open Scope R_scope.

(** ** C92 linear frequency laws in binary64 *)
(** Each frequency of f_t_linear_array is finite and the exact straight line up to [line_error]. *)
Theorem C92_array : forall time f0 f1 t0 t1, nth_error time 0 = Some t0 -> nth_error time (length time - 1) = Some t1 ->
  f64_line t0 t1 f0 f1 -> Forall f64_ordinary time ->
  exists law : list spec_float, f_t_linear_array FA time f0 f1 = Ok law /\ length law = length time /\
    forall i t, nth_error time i = Some t -> exists v, nth_error law i = Some v /\ f64_fin v /\
      Rabs (f64_val v - line (f64_val t0) (f64_val t1) (f64_val f0) (f64_val f1) (f64_val t))
        <= line_error (f64_val f0) (line (f64_val t0) (f64_val t1) (f64_val f0) (f64_val f1) (f64_val t)).
Proof.
  intros time f0 f1 t0 t1 H0 H1 HL HO. exists (map (lin t0 t1 f0 f1) time). split; [exact (law_eq time f0 f1 t0 t1 H0 H1)|]. split; [apply map_length|].
  intros i t Hi. exists (lin t0 t1 f0 f1 t). split; [exact (map_nth_error _ _ _ Hi)|].
  assert (Ot : f64_ordinary t) by (rewrite Forall_forall in HO; apply HO; exact (nth_error_In _ _ Hi)).
  split; [apply (lin_ok t0 t1 f0 f1 HL t Ot)|exact (lin_near t0 t1 f0 f1 HL t Ot)].
Qed.
Print Assumptions C92_array.
(** So is each frequency of f_t_linear_function. *)
Theorem C92_function : forall ts te f0 f1 t, f64_line ts te f0 f1 -> f64_ordinary t ->
  f64_fin (f_t_linear_function FA ts te f0 f1 t) /\
  Rabs (f64_val (f_t_linear_function FA ts te f0 f1 t) - line (f64_val ts) (f64_val te) (f64_val f0) (f64_val f1) (f64_val t))
    <= line_error (f64_val f0) (line (f64_val ts) (f64_val te) (f64_val f0) (f64_val f1) (f64_val t)).
Proof. intros ts te f0 f1 t HL Ht. split; [apply (lin_ok ts te f0 f1 HL t Ht)|exact (lin_near ts te f0 f1 HL t Ht)]. Qed.
Print Assumptions C92_function.
(** Rounding never turns the law back: later times have frequencies at least as high in an upsweep, at most as high in a downsweep. *)
Theorem C92_monotone : forall time f0 f1 t0 t1 law, nth_error time 0 = Some t0 -> nth_error time (length time - 1) = Some t1 ->
  f64_line t0 t1 f0 f1 -> Forall f64_ordinary time -> f_t_linear_array FA time f0 f1 = Ok law ->
  forall i j t t' v v', nth_error time i = Some t -> nth_error time j = Some t' -> nth_error law i = Some v -> nth_error law j = Some v' ->
    f64_val t <= f64_val t' ->
    (f64_val f0 <= f64_val f1 -> f64_val v <= f64_val v') /\ (f64_val f1 <= f64_val f0 -> f64_val v' <= f64_val v).
Proof.
  intros time f0 f1 t0 t1 law H0 H1 HL HO E i j t t' v v' Hi Hj Hv Hv' Hle. rewrite (law_eq time f0 f1 t0 t1 H0 H1) in E. injection E as <-.
  pose proof (map_nth_error (lin t0 t1 f0 f1) _ _ Hi) as Ei. pose proof (map_nth_error (lin t0 t1 f0 f1) _ _ Hj) as Ej.
  pose proof (eq_trans (eq_sym Hv) Ei) as Q. injection Q as ->. clear Hv Ei. pose proof (eq_trans (eq_sym Hv') Ej) as Q. injection Q as ->.
  rewrite Forall_forall in HO. apply (lin_mono t0 t1 f0 f1 HL); [apply HO; exact (nth_error_In _ _ Hi)|apply HO; exact (nth_error_In _ _ Hj)|exact Hle].
Qed.
Print Assumptions C92_monotone.
(** At time 0 the law is exactly the first frequency, and at no later time is it on the other side of it. *)
Theorem C92_first : forall time f0 f1 t0 t1 law, nth_error time 0 = Some t0 -> nth_error time (length time - 1) = Some t1 ->
  f64_line t0 t1 f0 f1 -> Forall f64_ordinary time -> f_t_linear_array FA time f0 f1 = Ok law ->
  forall i t v, nth_error time i = Some t -> nth_error law i = Some v ->
    (f64_val t = 0 -> f64_val v = f64_val f0) /\
    (0 <= f64_val t -> (f64_val f0 <= f64_val f1 -> f64_val f0 <= f64_val v) /\ (f64_val f1 <= f64_val f0 -> f64_val v <= f64_val f0)).
Proof.
  intros time f0 f1 t0 t1 law H0 H1 HL HO E i t v Hi Hv. rewrite (law_eq time f0 f1 t0 t1 H0 H1) in E. injection E as <-.
  pose proof (map_nth_error (lin t0 t1 f0 f1) _ _ Hi) as Ei. pose proof (eq_trans (eq_sym Hv) Ei) as Q. injection Q as ->. clear Hv Ei.
  assert (Ot : f64_ordinary t) by (rewrite Forall_forall in HO; apply HO; exact (nth_error_In _ _ Hi)).
  split; [exact (lin_zero t0 t1 f0 f1 HL t Ot)|exact (lin_band t0 t1 f0 f1 HL t Ot)].
Qed.
Print Assumptions C92_first.
(** From time 0 on, with whole seconds and frequencies that differ by a whole number, the last frequency is exactly the one asked for. *)
Theorem C92_last_whole : forall time f0 f1 t0 t1 law (zl zd : Z), nth_error time 0 = Some t0 -> nth_error time (length time - 1) = Some t1 ->
  f64_line t0 t1 f0 f1 -> Forall f64_ordinary time -> f_t_linear_array FA time f0 f1 = Ok law ->
  f64_val t0 = 0 -> f64_val t1 = IZR zl -> f64_val f1 - f64_val f0 = IZR zd -> (zl * Z.abs zd <= 2 ^ 53)%Z -> (Z.abs zd <= 2 ^ 53)%Z -> (zl <= 2 ^ 53)%Z ->
  exists v, nth_error law (length time - 1) = Some v /\ f64_val v = f64_val f1.
Proof.
  intros time f0 f1 t0 t1 law zl zd H0 H1 HL HO E Z0 Z1 HD B Bd Bl. rewrite (law_eq time f0 f1 t0 t1 H0 H1) in E. injection E as <-.
  exists (lin t0 t1 f0 f1 t1). split; [exact (map_nth_error _ _ _ H1)|].
  assert (Ot : f64_ordinary t1) by (rewrite Forall_forall in HO; apply HO; exact (nth_error_In _ _ H1)).
  exact (lin_last t0 t1 f0 f1 HL zl zd Ot Z0 Z1 HD B Bd Bl).
Qed.
Print Assumptions C92_last_whole.
(** In general it is not: from 0 to 6 Hz in a tenth of a second the last frequency is above 6 Hz. *)
Definition tenths : list spec_float := map (fun i => f64 (Z.of_nat i) 100) (seq 0 11).
Definition above (l : result (list spec_float)) (f : spec_float) : bool := match l with Ok law => SFltb f (last law f) | Err _ => false end.
Theorem C92_last_refuted : above (f_t_linear_array FA tenths (f64 0 1) (f64 6 1)) (f64 6 1) = true.
Proof. vm_compute. reflexivity. Qed.
Print Assumptions C92_last_refuted.
(** the hypotheses of C92 hold there *)
Example C92_case : f64_line (f64 0 1) (f64 1 10) (f64 0 1) (f64 6 1) /\ Forall f64_ordinary tenths /\
  nth_error tenths 0 = Some (f64 0 1) /\ nth_error tenths (length tenths - 1) = Some (f64 1 10).
Proof.
  assert (Q : forall x, valid_binary 53 1024 x = true -> match x with S754_zero _ => true | S754_finite _ m e => (Zpos m <? 2 ^ 53)%Z && (e <=? 0)%Z | _ => false end = true -> f64_ordinary x).
  { exact small_ordinary. }
  split; [|split; [|split; reflexivity]].
  - repeat split; try (apply Q; reflexivity). change (f64 1 10) with (S754_finite false 7205759403792794 (-56)). change (f64 0 1) with (S754_zero false). cbn [f64_val].
    apply tenth_long.
  - repeat (constructor; [apply Q; reflexivity|]). constructor.
Qed.
(** with whole numbers the law ends where it should: 20 to 100 Hz in 10 s *)
Example C92_case_whole : match f_t_linear_array FA (map (fun i => f64 (Z.of_nat i) 1) (seq 0 11)) (f64 20 1) (f64 100 1) with
  | Ok law => (nth 0 law (f64 0 1) : spec_float, nth 5 law (f64 0 1) : spec_float, nth 10 law (f64 0 1) : spec_float) | Err _ => (f64 0 1, f64 0 1, f64 0 1) end
  = (f64 20 1, f64 60 1, f64 100 1).
Proof. vm_compute. reflexivity. Qed.
