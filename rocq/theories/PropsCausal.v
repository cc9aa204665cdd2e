(** Property theorems: C89, which samples a result depends on. *)
From Coq Require Import Reals ZArith List Bool Lia Lra QArith.
From Coquelicot Require Import Coquelicot.
From Verif Require Import Num Numpy Spec AxisModel RelModel HeapModel FourierModel RLemmas AxisLemmas InterpLemmas VInst LinSpec SweepModel SweepSpec
  CausalSpec CausalLemmas FourierSpec FourierLemmas PropsFourier.
Import ListNotations.
Local Open Scope R_scope.

(** ** C89 causality and locality *)
(** In every number system, binary64 included: operations with a number, element-wise functions, shifting, and operations of relations
    sharing their axis.  Where the first [m] samples of the operands are the same, so are the first [m] of the results, and where the one
    computation fails so does the other, for the same reason *)
Theorem C89_samplewise : forall A (V : Vals A) m (r r' q q' : rel A V), early A V m r r' -> early A V m q q' -> length (r_y r) = length (r_y q) ->
  let K := default_config A V in
  (forall o v, both (early A V m) (rel_op_num A V K o r (OVal v)) (rel_op_num A V K o r' (OVal v))) /\
  (forall f, both (early A V m) (rel_map A V f r) (rel_map A V f r')) /\
  (forall u, both (early A V m) (rel_shift A V u r) (rel_shift A V u r')) /\
  (forall o, both (early A V m) (rel_op A V K o true r q) (rel_op A V K o true r' q')).
Proof.
  intros A V m r r' q q' H G E K. split; [intros; apply early_num; exact H|]. split; [intros; apply early_map; exact H|].
  split; [intros; apply early_shift; exact H|]. intros. apply early_op; assumption.
Qed.
Print Assumptions C89_samplewise.

(** [diff] and [integrate] have one sample less: their first [m] samples depend on the first [m + 1] *)
Theorem C89_diff_integrate : forall A (V : Vals A) m (r r' : rel A V), early A V (S m) r r' ->
  let K := default_config A V in
  both (early A V m) (rel_diff A V K r) (rel_diff A V K r') /\ both (early A V m) (rel_integrate A V K r) (rel_integrate A V K r').
Proof. intros A V m r r' H K. split; [apply early_diff|apply early_int]; exact H. Qed.
Print Assumptions C89_diff_integrate.

(** [select_data(s, e)] depends on the samples between [s] and [e] only *)
Theorem C89_window : forall A (V : Vals A) s e (r r' : rel A V), same_where (fun x => n_le A s x = true /\ n_le A x e = true) r r' ->
  rel_select A V (Some s) (Some e) r = rel_select A V (Some s) (Some e) r'.
Proof. intros A V s e r r' H. apply window_select. exact H. Qed.
Print Assumptions C89_window.

(** the convolution of arrays depends, up to any sample, on the arrays up to that sample; correlation with a given array likewise *)
Theorem C89_arrays : forall A (V : Vals A) m (a a' v v' : list (val V)), length a = length a' -> length v = length v' -> upto m a a' ->
  let P := both (fun y y' : list (val V) => length y = length y' /\ upto m y y') in
  (upto m v v' -> P (np_convolve A V a v) (np_convolve A V a' v')) /\ P (np_correlate A V a v) (np_correlate A V a' v).
Proof.
  intros A V m a a' v v' Ea Ev Ha P. split; [intros Hv; apply early_np_convolve; assumption|].
  apply early_np_convolve; try assumption; [reflexivity|]. intros i Hi. reflexivity.
Qed.
Print Assumptions C89_arrays.
(** and so do convolutions and correlations of relations on equal axes *)
Theorem C89_lagged : forall (V : Vals RA) (L : VLaws V) m (r r' q q' : rel RA V), valid r -> valid q -> r_x r = r_x q -> early RA V m r r' -> early RA V m q q' ->
  let K := default_config RA V in
  both (early RA V m) (rel_convolve RA V K r q) (rel_convolve RA V K r' q') /\ both (early RA V m) (rel_correlate RA V K r q) (rel_correlate RA V K r' q).
Proof.
  intros V L m r r' q q' Vr Vq E H G K. destruct (C89_arrays RA V m (r_y r) (r_y r') (r_y q) (r_y q')) as [C1 C2]; try apply H; try apply G.
  split; (apply (early_lagged L); try assumption); [apply G|apply C1, G|split; reflexivity].
Qed.
Print Assumptions C89_lagged.

(** An interpolated value depends on the samples at that time and next to it: no sample further away than the spacing matters *)
Theorem C89_interpolation : forall (V : Vals RA) (L : VLaws V) nx (r r' q q' : rel RA V) arr i t, valid r ->
  rel_interp RA V (default_config RA V) nx r = Ok q -> rel_interp RA V (default_config RA V) nx r' = Ok q' ->
  axis_array RA nx = Ok arr -> nth_error arr i = Some t -> same_where (beside (r_x r) (length (r_y r)) t) r r' ->
  nth_error (r_y q) i = nth_error (r_y q') i.
Proof. intros V L nx r r' q q' arr i t. apply (interp_local L). Qed.
Print Assumptions C89_interpolation.
(** so does the result of an operation of relations on different axes *)
Theorem C89_across_axes : forall (V : Vals RA) (L : VLaws V) o (r r' s s' q q' : rel RA V) arr i t, valid r -> valid s ->
  rel_op RA V (default_config RA V) o false r s = Ok q -> rel_op RA V (default_config RA V) o false r' s' = Ok q' ->
  axis_array RA (r_x q) = Ok arr -> nth_error arr i = Some t ->
  same_where (beside (r_x r) (length (r_y r)) t) r r' -> same_where (beside (r_x s) (length (r_y s)) t) s s' -> nth_error (r_y q) i = nth_error (r_y q') i.
Proof. intros V L o r r' s s' q q' arr i t. apply (op_local L). Qed.
Print Assumptions C89_across_axes.

(** Sweeps are designed forwards in time.  Laws given by points, in every number system: the first [m] samples of a sweep are determined
    by its axis, the start phase and the first [m] samples of its frequency and amplitude laws *)
Theorem C89_sweep_points : forall A (V : Vals A) W sc sc' (g g' : ugen A V) t t' tht0 s s' m f f',
  us_call A V W (default_config A V) sc g t tht0 = Ok s -> us_call A V W (default_config A V) sc' g' t' tht0 = Ok s' ->
  u_f g = LawArr f -> u_f g' = LawArr f' -> r_x (sw_rel s) = r_x (sw_rel s') ->
  upto m (r_y (sw_ft s)) (r_y (sw_ft s')) -> upto m (r_y (sw_at s)) (r_y (sw_at s')) -> upto m (r_y (sw_rel s)) (r_y (sw_rel s')).
Proof. intros A V W sc sc' g g' t t' tht0 s s' m f f'. apply early_sweep. Qed.
Print Assumptions C89_sweep_points.
(** laws given by functions: changing them after the time [T] leaves the sweep and its frequencies up to [T] as they were *)
Theorem C89_sweep_function : forall quad cur sc sc' (g g' : ugen RA RV) t t' tht0 s s' c c' f f' T,
  quad_local quad -> us_call RA RV RW cur sc g t tht0 = Ok s -> us_call RA RV RW cur sc' g' t' tht0 = Ok s' ->
  u_f g = LawFun c -> u_f g' = LawFun c' -> by_element c f -> by_element c' f' ->
  u_int g = integrate_function_default RA RV RW quad -> u_int g' = integrate_function_default RA RV RW quad ->
  r_x (sw_rel s) = r_x (sw_rel s') -> a_start (r_x (sw_rel s)) <= a_end (r_x (sw_rel s)) ->
  (forall u, a_start (r_x (sw_rel s)) <= u <= T -> f u = f' u) ->
  same_where (A:=RA) (V:=RV) (fun u => u <= T) (sw_at s) (sw_at s') ->
  same_where (A:=RA) (V:=RV) (fun u => u <= T) (sw_ft s) (sw_ft s') /\ same_where (A:=RA) (V:=RV) (fun u => u <= T) (sw_rel s) (sw_rel s').
Proof. exact sweep_fun_local. Qed.
Print Assumptions C89_sweep_function.
Example C89_quad_case : quad_local (fun (g : R -> R) a b => RInt g a b).
Proof. intros g g' a b Hab H. apply RInt_ext. intros x Hx. apply H. rewrite Rmin_left, Rmax_right in Hx by exact Hab. lra. Qed.

(** [diff] looks ahead: its sample [m] is not determined by the first [m + 1] samples *)
Theorem C89_diff_ahead_refuted : exists (r r' q q' : rel QA QV), early QA QV 2 r r' /\
  rel_diff QA QV (default_config QA QV) r = Ok q /\ rel_diff QA QV (default_config QA QV) r' = Ok q' /\ upto 1 (r_y q) (r_y q') /\ ~ upto 2 (r_y q) (r_y q').
Proof.
  pose (r := mkRel (V:=QV) (mkAxis (A:=QA) 0 3 1)%Q [1; 2; 4; 8]%Q). pose (r' := mkRel (V:=QV) (mkAxis (A:=QA) 0 3 1)%Q [1; 2; 5; 8]%Q).
  pose (ys := fun v : rel QA QV => match rel_diff QA QV (default_config QA QV) v with Ok q => map Qred (r_y q) | Err _ => [] end).
  assert (E : ys r = [1; 2; 4]%Q) by (vm_compute; reflexivity). assert (E' : ys r' = [1; 3; 3]%Q) by (vm_compute; reflexivity).
  assert (U : (match rel_diff QA QV (default_config QA QV) r, rel_diff QA QV (default_config QA QV) r' with
               | Ok q, Ok q' => nth_error (r_y q : list Q) 0 = nth_error (r_y q' : list Q) 0 | _, _ => True end)) by (vm_compute; reflexivity).
  unfold ys in E, E'.
  destruct (rel_diff QA QV (default_config QA QV) r) as [q|] eqn:D; [|discriminate E].
  destruct (rel_diff QA QV (default_config QA QV) r') as [q'|] eqn:D'; [|discriminate E'].
  exists r, r', q, q'. split; [split; [split; reflexivity|intros [|[|i]] Hi; try reflexivity; lia]|]. split; [exact D|]. split; [exact D'|].
  split; [intros [|i] Hi; [exact U|lia]|]. intros H. specialize (H 1%nat ltac:(lia)).
  assert (M : nth_error (map Qred (r_y q)) 1 = nth_error (map Qred (r_y q')) 1) by (rewrite !nth_error_map; exact (f_equal (option_map Qred) H)).
  rewrite E, E' in M. discriminate M.
Qed.
Print Assumptions C89_diff_ahead_refuted.
(** what goes through the spectrum is not causal: delaying a signal puts its last sample first *)
Theorem C89_signal_shift_refuted : exists (r r' q q' : crel), early RA CV 3 r r' /\
  signal_shift 1 false r = Ok q /\ signal_shift 1 false r' = Ok q' /\ nth_error (r_y q) 0 <> nth_error (r_y q') 0.
Proof.
  exists (mkRel (A:=RA) (V:=CV) ex4 (reals [1; 2; 4; 8])), (mkRel (A:=RA) (V:=CV) ex4 (reals [1; 2; 4; 9])), (mkRel (A:=RA) (V:=CV) ex4 (reals [8; 1; 2; 4])), (mkRel (A:=RA) (V:=CV) ex4 (reals [9; 1; 2; 4])).
  split; [split; [split; reflexivity|intros [|[|[|i]]] Hi; try reflexivity; lia]|]. split; [exact C35_case|]. split.
  - destruct (C35_shift ex4 [1; 2; 4; 9] false 1) as (w & H1 & H2); [cbn; lia|reflexivity|exact ex4_exact|].
    replace (1 * a_sample ex4) with 1 in H1 by (cbn; lra). rewrite H1. do 3 f_equal. refine (rotated_unique _ _ _ _ H2 _).
    split; [reflexivity|]. intros [|[|[|[|i]]]] Hi; try reflexivity. cbn in Hi. lia.
  - cbn. intros E. injection E. intros. lra.
Qed.
Print Assumptions C89_signal_shift_refuted.

(** two relations that differ in the last sample only: integrals and convolutions differ in the last samples only *)
Example C89_case : let r y := mkRel (V:=QV) (mkAxis (A:=QA) 0 3 1)%Q y in
  let K := default_config QA QV in
  let out (q : result (rel QA QV)) := match q with Ok p => map Qred (r_y p) | Err _ => [] end in
  early QA QV 3 (r [1; 2; 4; 8]%Q) (r [1; 2; 4; 9]%Q) /\
  (out (rel_integrate QA QV K (r [1; 2; 4; 8]%Q)), out (rel_integrate QA QV K (r [1; 2; 4; 9]%Q))) = ([3#2; 9#2; 21#2], [3#2; 9#2; 11])%Q /\
  (out (rel_convolve QA QV K (r [1; 2; 4; 8]%Q) (r [1; 1; 0; 0]%Q)), out (rel_convolve QA QV K (r [1; 2; 4; 9]%Q) (r [1; 1; 0; 0]%Q)))
    = ([1; 3; 6; 12; 8; 0; 0], [1; 3; 6; 13; 9; 0; 0])%Q.
Proof. cbv zeta. split; [split; [split; reflexivity|intros [|[|[|i]]] Hi; try reflexivity; lia]|]. vm_compute. auto. Qed.
