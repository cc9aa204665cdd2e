(** Property theorems on superposition, and on what the samples do not influence (methods.py 27-343, relation.py 84-560,
    signal.py 86-105, spectrum.py 86-109): C85.

    [alike], [both], [alike_env], [mix], [mix_env], [res_mix], [linear_bin], [linear_num] and [linear_p] are in LinSpec.v. *)
From Coq Require Import Reals ZArith QArith List Bool Lia Lra.
From Coquelicot Require Import Complex.
From Verif Require Import Num Numpy Spec AxisModel RelModel RLemmas AxisLemmas InterpLemmas VInst RelLemmas RelLemmas2 RelLemmas3 CorrLemmas
  HeapModel FourierModel ProgModel ProgSpec PropsHeap PropsProg LinSpec LinLemmas LinLemmas2.
Import ListNotations.
Local Open Scope R_scope.

(** ** C85 superposition *)

(** what a program raises, and on which axes its results lie, does not depend on the samples it is given; for every
    number system, binary64 included *)
Theorem C85_shape : forall A (V : Vals A) F p (s1 s2 : env (rel A V)), alike_env A V s1 s2 ->
  snd (v_exec A V F (default_config A V) p s1) = snd (v_exec A V F (default_config A V) p s2) /\
  alike_env A V (fst (v_exec A V F (default_config A V) p s1)) (fst (v_exec A V F (default_config A V) p s2)).
Proof. intros A V F p s1 s2 H. apply exec_alike. exact H. Qed.
Print Assumptions C85_shape.
(** the same of interpolation, correlation, convolution and the Fourier transforms *)
Theorem C85_shape_lagged : forall A (V : Vals A) (r1 r2 q1 q2 : rel A V) nx, alike A V r1 r2 -> alike A V q1 q2 ->
  let K := default_config A V in
  both (alike A V) (rel_interp A V K nx r1) (rel_interp A V K nx r2) /\
  both (alike A V) (rel_convolve A V K r1 q1) (rel_convolve A V K r2 q2) /\
  both (alike A V) (rel_correlate A V K r1 q1) (rel_correlate A V K r2 q2).
Proof.
  intros A V r1 r2 q1 q2 nx H1 H2 K. split; [apply interp_alike; exact H1|].
  split; (apply lagged_alike; [exact H1|exact H2|]); intros; [apply convolve_alike|apply correlate_alike]; assumption.
Qed.
Print Assumptions C85_shape_lagged.
Theorem C85_shape_spectra : forall (r1 r2 : rel RA CV) d, alike RA CV r1 r2 ->
  (forall zero, both (alike RA CV) (val_spectrum RA CV fourier_config r1 d zero) (val_spectrum RA CV fourier_config r2 d zero)) /\
  (forall st, both (alike RA CV) (val_signal RA CV fourier_config r1 d st) (val_signal RA CV fourier_config r2 d st)).
Proof. intros r1 r2 d H. split; intros; [apply (spectrum_alike 1 1)|apply (signal_alike 1 1)]; exact H. Qed.
Print Assumptions C85_shape_spectra.

(** every linear operation of a combination of two relations is the combination of its results *)
Theorem C85_operations : forall (V : Vals RA) (L : VLaws V) a b (r1 r2 q1 q2 q : rel RA V), alike RA V r1 r2 -> alike RA V q1 q2 ->
  let K := default_config RA V in
  let M := mix RA V a b in
  let N := res_mix RA V a b in
  (forall nx, rel_interp RA V K nx (M r1 r2) = N (rel_interp RA V K nx r1) (rel_interp RA V K nx r2)) /\
  (forall o, linear_bin o = true -> rel_op RA V K o false (M r1 r2) (M q1 q2) = N (rel_op RA V K o false r1 q1) (rel_op RA V K o false r2 q2)) /\
  (forall o, linear_num o = true -> rel_op RA V K o false (M r1 r2) q = N (rel_op RA V K o false r1 q) (rel_op RA V K o false r2 q)) /\
  (forall o w, linear_num o = true -> rel_op_num RA V K o (M r1 r2) (OVal w) = N (rel_op_num RA V K o r1 (OVal w)) (rel_op_num RA V K o r2 (OVal w))) /\
  rel_diff RA V K (M r1 r2) = N (rel_diff RA V K r1) (rel_diff RA V K r2) /\
  rel_integrate RA V K (M r1 r2) = N (rel_integrate RA V K r1) (rel_integrate RA V K r2) /\
  (forall s e, rel_select RA V s e (M r1 r2) = N (rel_select RA V s e r1) (rel_select RA V s e r2)) /\
  (forall u, rel_shift RA V u (M r1 r2) = N (rel_shift RA V u r1) (rel_shift RA V u r2)).
Proof.
  intros V L a b r1 r2 q1 q2 q H1 H2 K M N. repeat split.
  - intros nx. apply (interp_mix L a b nx). exact H1.
  - intros o Ho. apply (op_mix L a b o); assumption.
  - intros o Ho. apply (op_first L a b o); assumption.
  - intros o w Ho. apply (op_num_mix L a b o w); assumption.
  - apply (diff_mix L a b). exact H1.
  - apply (int_mix L a b). exact H1.
  - intros s e. apply (select_mix a b). exact H1.
  - intros u. apply (shift_mix a b). exact H1.
Qed.
Print Assumptions C85_operations.

(** programs of such operations over names: run on a combination, they end as the combination of the two runs, and
    where one of them stops all of them stop, for the same reason *)
Theorem C85_programs : forall (V : Vals RA) (L : VLaws V) F a b p (s1 s2 s : env (rel RA V)),
  linear_p RA V p = true -> alike_env RA V s1 s2 -> (forall x, s x = mix_env RA V a b s1 s2 x) ->
  let '(t, z) := v_exec RA V F (default_config RA V) p s in
  let '(t1, z1) := v_exec RA V F (default_config RA V) p s1 in
  let '(t2, z2) := v_exec RA V F (default_config RA V) p s2 in
  z = z1 /\ z1 = z2 /\ alike_env RA V t1 t2 /\ (forall x, t x = mix_env RA V a b t1 t2 x).
Proof.
  intros V L F a b p s1 s2 s Hp Hs Es. destruct (exec_mix L F a b p Hp s1 s2 s Hs Es) as [E1 E2].
  destruct (exec_alike F p s1 s2 Hs) as [E3 E4].
  destruct (v_exec RA V F (default_config RA V) p s), (v_exec RA V F (default_config RA V) p s1), (v_exec RA V F (default_config RA V) p s2).
  cbn [fst snd] in *. auto.
Qed.
Print Assumptions C85_programs.
(** and the same of relations, signals and spectra as objects *)
Theorem C85_objects : forall (V : Vals RA) (L : VLaws V) F a b k cf p s1 (h1 : heap RA V) v1 s2 (h2 : heap RA V) v2 s (h : heap RA V) v,
  linear_p RA V p = true -> k <> KSweep -> hc_base cf = default_config RA V -> (is_sig k = true -> shifts RA V p = false) ->
  reachable RA V F h1 -> h_cfg h1 = cf -> stand RA V k cf h1 s1 v1 ->
  reachable RA V F h2 -> h_cfg h2 = cf -> stand RA V k cf h2 s2 v2 ->
  reachable RA V F h -> h_cfg h = cf -> stand RA V k cf h s v ->
  alike_env RA V v1 v2 -> (forall x, v x = mix_env RA V a b v1 v2 x) ->
  let '(s1', h1', z1) := h_exec RA V F p (s1, h1) in
  let '(s2', h2', z2) := h_exec RA V F p (s2, h2) in
  let '(s', h', z) := h_exec RA V F p (s, h) in
  z = z1 /\ z1 = z2 /\ exists v1' v2' v', stand RA V k cf h1' s1' v1' /\ stand RA V k cf h2' s2' v2' /\ stand RA V k cf h' s' v' /\
    alike_env RA V v1' v2' /\ (forall x, v' x = mix_env RA V a b v1' v2' x).
Proof.
  intros V L F a b k cf p s1 h1 v1 s2 h2 v2 s h v Hp Hk Hd Hs R1 C1 S1 R2 C2 S2 R C S Ha Hm.
  pose proof (C74_programs_by_value V L F k cf p s1 h1 v1 Hk Hd Hs R1 C1 S1) as G1.
  pose proof (C74_programs_by_value V L F k cf p s2 h2 v2 Hk Hd Hs R2 C2 S2) as G2.
  pose proof (C74_programs_by_value V L F k cf p s h v Hk Hd Hs R C S) as G.
  pose proof (C85_programs V L F a b p v1 v2 v Hp Ha Hm) as E.
  destruct (h_exec RA V F p (s1, h1)) as [[s1' h1'] z1]. destruct (h_exec RA V F p (s2, h2)) as [[s2' h2'] z2]. destruct (h_exec RA V F p (s, h)) as [[s' h'] z].
  destruct (v_exec RA V F (default_config RA V) p v) as [v' y]. destruct (v_exec RA V F (default_config RA V) p v1) as [v1' y1].
  destruct (v_exec RA V F (default_config RA V) p v2) as [v2' y2].
  destruct G1 as (G1 & -> & _), G2 as (G2 & -> & _), G as (G & -> & _), E as (-> & -> & E1 & E2).
  split; [reflexivity|]. split; [reflexivity|]. exists v1', v2', v'. auto.
Qed.
Print Assumptions C85_objects.

(** convolution is linear in either operand, correlation in its first; the factors of its second operand come out conjugated *)
Theorem C85_lagged : forall (V : Vals RA) (L : VLaws V) (CL : CLaws V) a b (r1 r2 q : rel RA V), alike RA V r1 r2 ->
  let K := default_config RA V in
  rel_convolve RA V K (mix RA V a b r1 r2) q = res_mix RA V a b (rel_convolve RA V K r1 q) (rel_convolve RA V K r2 q) /\
  rel_convolve RA V K q (mix RA V a b r1 r2) = res_mix RA V a b (rel_convolve RA V K q r1) (rel_convolve RA V K q r2) /\
  rel_correlate RA V K (mix RA V a b r1 r2) q = res_mix RA V a b (rel_correlate RA V K r1 q) (rel_correlate RA V K r2 q) /\
  rel_correlate RA V K q (mix RA V a b r1 r2) = res_mix RA V (v_conj V a) (v_conj V b) (rel_correlate RA V K q r1) (rel_correlate RA V K q r2).
Proof.
  intros V L CL a b r1 r2 q H K. unfold rel_convolve, rel_correlate. repeat split.
  - apply (lagged_first L a b); [exact H|intros; apply (convolve_first L a b); assumption|intros; apply convolve_alike; assumption].
  - apply (lagged_second L a b a b); [exact H|intros; apply (convolve_second L a b); assumption|intros; apply convolve_alike; assumption].
  - apply (lagged_first L a b); [exact H|intros; apply (correlate_first L a b); assumption|intros; apply correlate_alike; assumption].
  - apply (lagged_second L a b); [exact H|intros; apply (correlate_second L CL); assumption|intros; apply correlate_alike; assumption].
Qed.
Print Assumptions C85_lagged.

(** the spectrum of a real combination of signals, and the signal of a real combination of spectra: any axis, any requested
    axis or number of samples, any start *)
Theorem C85_spectra : forall p q (r1 r2 : rel RA CV) d, alike RA CV r1 r2 ->
  (forall zero, val_spectrum RA CV fourier_config (mix RA CV (RtoC p) (RtoC q) r1 r2) d zero
     = res_mix RA CV (RtoC p) (RtoC q) (val_spectrum RA CV fourier_config r1 d zero) (val_spectrum RA CV fourier_config r2 d zero)) /\
  (forall st, val_signal RA CV fourier_config (mix RA CV (RtoC p) (RtoC q) r1 r2) d st
     = res_mix RA CV (RtoC p) (RtoC q) (val_signal RA CV fourier_config r1 d st) (val_signal RA CV fourier_config r2 d st)).
Proof. intros p q r1 r2 d H. split; intros; [apply spectrum_mix|apply signal_mix]; exact H. Qed.
Print Assumptions C85_spectra.

(** not every program is linear: adding a number is not *)
Theorem C85_numbers_refuted : exists p (s1 s2 : env (rel RA RV)), alike_env RA RV s1 s2 /\
  forall F, let K := default_config RA RV in
  snd (v_exec RA RV F K p s1) = None /\ snd (v_exec RA RV F K p s2) = None /\
  fst (v_exec RA RV F K p (mix_env RA RV 1 1 s1 s2)) 0%nat
    <> mix_env RA RV 1 1 (fst (v_exec RA RV F K p s1)) (fst (v_exec RA RV F K p s2)) 0%nat.
Proof.
  set (x := mkAxis (A:=RA) 0 1 1). set (s := fun n : nat => match n with O => Some (mkRel (A:=RA) (V:=RV) x [0; 0]) | _ => None end).
  exists (SAugNum RA RV 0 ADD 1), s, s.
  assert (Hs : axis_size RA x = Ok 2%nat).
  { rewrite axis_size_nz by (cbn; lra). f_equal. cbn [x a_start a_end a_sample].
    replace ((1 - 0) / 1) with (IZR 1) by field. rewrite Rabs_right by lra. rewrite Rround_IZR. reflexivity. }
  assert (H : forall F (y1 y2 : R) t, t 0%nat = Some (mkRel (A:=RA) (V:=RV) x [y1; y2]) ->
    v_exec RA RV F (default_config RA RV) (SAugNum RA RV 0 ADD 1) t
    = (bind_name 0%nat (mkRel (A:=RA) (V:=RV) x [y1 + 1; y2 + 1]) t, None)).
  { intros F y1 y2 t Ht. cbn [v_exec v_eval]. rewrite Ht. cbn [v_bind]. unfold rel_op_num, rel_make.
    cbn [r_x r_y default_config c_math math_operation bind map length]. rewrite Hs. reflexivity. }
  split; [intros [|n]; cbn; auto; split; reflexivity|]. intros F K. subst K.
  rewrite (H F 0 0 s eq_refl), (H F (1 * 0 + 1 * 0) (1 * 0 + 1 * 0) (mix_env RA RV 1 1 s s) eq_refl).
  split; [reflexivity|]. split; [reflexivity|]. cbn [fst]. unfold bind_name, mix_env. cbn. intros E. injection E. intros E1 E2. lra.
Qed.
Print Assumptions C85_numbers_refuted.

(** the theorems at work: two pairs of relations on different axes, and twice the one plus three times the other *)
Definition q_env (y0 y1 : list Q) : env (rel QA QV) :=
  fun x => match x with
           | 0%nat => Some (mkRel (V:=QV) (mkAxis (A:=QA) 0 3 1)%Q y0)
           | 1%nat => Some (mkRel (V:=QV) (mkAxis (A:=QA) 1 2 (1#2))%Q y1)
           | _ => None
           end.
Definition q_lin : stmt QA QV :=
  SSeq QA QV (SAssign QA QV 2%nat (EBin QA QV SUB (EMeth QA QV (MIntegrate QA) (EName QA QV 0%nat)) (EName QA QV 1%nat)))
             (SAugNum QA QV 2%nat TRUEDIV 2%Q).
Definition q_out (s : env (rel QA QV)) : option (list Q) := match s 2%nat with Some r => Some (map Qred (r_y r)) | None => None end.
Example C85_case : linear_p QA QV q_lin = true /\
  q_out (fst (v_exec QA QV qF (default_config QA QV) q_lin (q_env [1; 2; 4; 8] [1; 5; 9])%Q)) = Some [1#4; -1; -(9#4); 15#4; 21#4]%Q /\
  q_out (fst (v_exec QA QV qF (default_config QA QV) q_lin (q_env [0; 1; 0; 0] [2; 0; 0])%Q)) = Some [-(3#4); 3#8; 1#2; 1#2; 1#2]%Q /\
  q_out (fst (v_exec QA QV qF (default_config QA QV) q_lin (q_env [2; 7; 8; 16] [8; 10; 18])%Q)) = Some [-(7#4); -(7#8); -3; 9; 12]%Q.
Proof. vm_compute. repeat split. Qed.
