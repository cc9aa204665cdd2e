(** Property theorems in IEEE binary64, continued: C90, sweeps. *)
From Coq Require Import Reals ZArith List Bool Lia Lra SpecFloat.
From Flocq Require Import Core.
From Verif Require Import Num Numpy Spec AxisModel RelModel HeapModel SweepModel SweepSpec FloatSpec CalcSpec FloatSweepSpec FloatLemmas FloatLemmas2
  FloatLemmas3 FloatLemmas4 FloatLemmas5 FloatLemmas9 FloatLemmas10.
Import ListNotations.
Local Open Scope R_scope.

(** ** C90 sweeps in binary64 *)
(** A sweep whose frequency is given by points, with a sine good to [eps] and numpy's 2 pi: sample [k] is finite, in size at most the
    amplitude, and the amplitude times the sine of the exact trapezoid phase up to [sample_error]. *)
Theorem C90_points : forall (W : wfun FA FV) eps sc (g : ugen FA FV) t (tht0 : spec_float) s f sx ex d m,
  sin_within eps (w_sin FA FV W) -> near_2pi (w_2pi FA FV W) ->
  us_call FA FV W (default_config FA FV) sc g t tht0 = Ok s -> u_f g = LawArr f -> f64_ordinary tht0 ->
  r_x (sw_rel s) = mkAxis (A:=FA) sx ex d -> f64_forward sx ex d (m + 1) ->
  Forall f64_ordinary (r_y (sw_ft s)) -> Forall f64_ordinary (r_y (sw_at s)) ->
  length (r_y (sw_rel s)) = (m + 2)%nat /\ length (r_y (sw_at s)) = (m + 2)%nat /\
  forall k w a, nth_error (r_y (sw_rel s)) k = Some w -> nth_error (r_y (sw_at s)) k = Some a ->
    f64_fin w /\ Rabs (f64_val w) <= Rabs (f64_val a) /\
    Rabs (f64_val w - f64_val a * sin (2 * PI * periods (f64_val d) (mean (vals (r_y (sw_ft s)))) k + f64_val tht0))
      <= sample_error (f64_val a) eps (angle_error (periods (f64_val d) (mean (vals (r_y (sw_ft s)))) k)
           (periods_error (f64_val d) (mean (vals (r_y (sw_ft s)))) k) (f64_val tht0)).
Proof. intros W eps sc g t tht0 s f sx ex d m HS HP. exact (sweep_arr W eps HS HP sc g t tht0 s f sx ex d m). Qed.
Print Assumptions C90_points.

(** A sweep whose frequency is a function, integrated by a quadrature that is off by at most [q k] at time [k]: the same, with the true
    number of periods [I k]. *)
Theorem C90_function : forall (W : wfun FA FV) eps quad sc (g : ugen FA FV) t (tht0 : spec_float) s c gf ts (I q : nat -> R),
  sin_within eps (w_sin FA FV W) -> near_2pi (w_2pi FA FV W) ->
  us_call FA FV W (default_config FA FV) sc g t tht0 = Ok s -> u_f g = LawFun c -> u_int g = integrate_function_default FA FV W quad ->
  cl_num c = Ok gf -> axis_array FA (r_x (sw_rel s)) = Ok ts -> f64_ordinary tht0 -> Forall f64_ordinary (r_y (sw_at s)) -> I 0%nat = 0 -> q 0%nat = 0 ->
  (forall k u, nth_error ts (S k) = Some u -> f64_fin (quad gf (a_start (r_x (sw_rel s))) u) /\
     Rabs (f64_val (quad gf (a_start (r_x (sw_rel s))) u) - I (S k)) <= q (S k) /\ Rabs (I (S k)) + q (S k) <= powerRZ 2 700) ->
  forall k w a, nth_error (r_y (sw_rel s)) k = Some w -> nth_error (r_y (sw_at s)) k = Some a ->
    f64_fin w /\ Rabs (f64_val w) <= Rabs (f64_val a) /\
    Rabs (f64_val w - f64_val a * sin (2 * PI * I k + f64_val tht0)) <= sample_error (f64_val a) eps (angle_error (I k) (q k) (f64_val tht0)).
Proof. intros W eps quad sc g t tht0 s c gf ts I q HS HP. exact (sweep_fun W eps HS HP quad sc g t tht0 s c gf ts I q). Qed.
Print Assumptions C90_function.

(** numpy's [2 * np.pi] is as near to 2 pi as C90 asks *)
Theorem C90_two_pi : near_2pi (S754_finite false 7074237752028440 (-50)).
Proof. exact np_2pi_near. Qed.
Print Assumptions C90_two_pi.

(** a sine as C90 asks exists *)
Example C90_sine_case : sin_within (/ 2 ^ 51) sin64.
Proof. exact sin64_within. Qed.

(** a sweep of 21 samples, frequency 0 to 20, that meets the hypotheses of C90_points *)
Definition c90_gen : result (ugen FA FV) :=
  us_new FA FV (default_config FA FV) (fun _ _ => Err EType) (UtAxis (mkAxis (A:=FA) (f64 0 1) (f64 2 1) (f64 1 10)))
    (LiArr (V:=FV) (map (fun i => f64 (Z.of_nat i) 1) (seq 0 21))) (LiArr (V:=FV) (repeat (f64 3 1) 21)).
Example C90_case : forall W : wfun FA FV,
  match c90_gen with
  | Ok g => match us_call FA FV W (default_config FA FV) (mkSconfig FA FV (fun _ => Err EType) (fun _ => Err EType) (fun _ => Ok tt)) g UtNone (f64 1 2) with
            | Ok s => (a_start (r_x (sw_rel s)), a_end (r_x (sw_rel s)), a_sample (r_x (sw_rel s)), r_y (sw_ft s), r_y (sw_at s))
            | Err _ => (f64 0 1, f64 0 1, f64 0 1, [], []) end
  | Err _ => (f64 0 1, f64 0 1, f64 0 1, [], []) end
  = ((f64 0 1, f64 2 1, f64 1 10, map (fun i => f64 (Z.of_nat i) 1) (seq 0 21), repeat (f64 3 1) 21)
     : spec_float * spec_float * spec_float * list spec_float * list spec_float) /\
  match c90_gen with Ok g => match u_f g with LawArr _ => true | _ => false end | Err _ => false end = true.
Proof. intros W. split; vm_compute; reflexivity. Qed.
