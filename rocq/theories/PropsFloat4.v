(** Property theorems in IEEE binary64, continued: C88, sequences of numbers as axes. *)
From Coq Require Import Reals ZArith List Bool Lia Lra SpecFloat.
From Flocq Require Import Core.
From Verif Require Import Num Numpy Spec AxisModel RelModel FloatSpec CalcSpec FloatLemmas FloatLemmas2 FloatLemmas3 FloatLemmas4
  FloatLemmas5 FloatLemmas9.
Import ListNotations.
Local Open Scope R_scope.

(** ** C88 sequences of numbers as axes *)
(** A sequence of times near [X0, X0 + 1/k, X0 + 2/k, ...], each off by at most 1/(16 k^2) (rounding, or clock jitter): its axis starts
    and ends with the sequence's own numbers, has as its sample the number nearest to 1/k, has as many points as the sequence, and
    each of its points is the given one up to twice the displacement and a rounding.  [Relation(xs, y)] accepts exactly the [y] as
    long as the sequence. *)
Theorem C88_reciprocal : forall (xs : list spec_float) (n k : nat) (X0 eta : R),
  length xs = (n + 1)%nat -> (1 <= n)%nat -> INR n <= 2 ^ 44 -> (1 <= k)%nat -> INR k <= 2 ^ 40 -> Rabs X0 <= 2 ^ 44 * / INR k ->
  eta <= / 16 * (/ INR k * / INR k) -> near_grid xs X0 (/ INR k) eta ->
  exists x0 x1 d xs', nth_error xs 0 = Some x0 /\ nth_error xs n = Some x1 /\ f64_nearest (/ INR k) d /\
    axis_of_array FA (mkSeq (A:=FA) true xs) true = Ok (mkAxis (A:=FA) x0 x1 d) /\
    axis_array FA (mkAxis (A:=FA) x0 x1 d) = Ok xs' /\ length xs' = (n + 1)%nat /\
    (forall i x x', nth_error xs i = Some x -> nth_error xs' i = Some x' -> f64_fin x' /\
      Rabs (f64_val x' - f64_val x) <= 2 * eta + / 2 ^ 50 * Rmax (Rabs (f64_val x0)) (Rabs (f64_val x1))) /\
    forall y, rel_init FA FV (default_config FA FV) (XSeq (mkSeq (A:=FA) true xs)) (Some y) =
      if Nat.eqb (length y) (n + 1) then Ok (mkRel (A:=FA) (V:=FV) (mkAxis (A:=FA) x0 x1 d) y) else Err (ENotEqual (n + 1) (length y)).
Proof.
  intros xs n k X0 eta L Hn HN K1 K2 HX He G. destruct (seq_reciprocal xs n k X0 eta L Hn HN K1 K2 HX He G) as (x0 & x1 & H0 & H1 & E).
  destruct (k_div k K1 K2) as [Dn De]. pose proof (k_inv k K1 K2) as I.
  assert (I2 : / INR k * / INR k <= 1 * / INR k) by (apply Rmult_le_compat_r; lra).
  destruct (sq_array xs n X0 (/ INR k) eta L Hn HN (inv_bounds k K1 K2) HX ltac:(lra) G x0 x1 _ H0 H1 (proj1 Dn) De) as (xs' & S & X & L' & P).
  exists x0, x1, (SFdiv 53 1024 (f64_of_Z 1) (f64_of_Z (Z.of_nat k))), xs'.
  split; [exact H0|]. split; [exact H1|]. split; [exact Dn|]. split; [exact E|]. split; [exact X|]. split; [exact L'|]. split; [exact P|].
  intros y. apply init_seq; assumption.
Qed.
Print Assumptions C88_reciprocal.

(** The same with a whole spacing [k]: the sample is [k] exactly, for displacements up to a sixteenth *)
Theorem C88_whole : forall (xs : list spec_float) (n k : nat) (X0 eta : R),
  length xs = (n + 1)%nat -> (1 <= n)%nat -> INR n <= 2 ^ 44 -> (1 <= k)%nat -> INR k <= 2 ^ 40 -> Rabs X0 <= 2 ^ 44 * INR k ->
  eta <= / 16 -> near_grid xs X0 (INR k) eta ->
  exists x0 x1 d xs', nth_error xs 0 = Some x0 /\ nth_error xs n = Some x1 /\ f64_fin d /\ f64_val d = INR k /\
    axis_of_array FA (mkSeq (A:=FA) true xs) true = Ok (mkAxis (A:=FA) x0 x1 d) /\
    axis_array FA (mkAxis (A:=FA) x0 x1 d) = Ok xs' /\ length xs' = (n + 1)%nat /\
    (forall i x x', nth_error xs i = Some x -> nth_error xs' i = Some x' -> f64_fin x' /\
      Rabs (f64_val x' - f64_val x) <= 2 * eta + / 2 ^ 50 * Rmax (Rabs (f64_val x0)) (Rabs (f64_val x1))) /\
    forall y, rel_init FA FV (default_config FA FV) (XSeq (mkSeq (A:=FA) true xs)) (Some y) =
      if Nat.eqb (length y) (n + 1) then Ok (mkRel (A:=FA) (V:=FV) (mkAxis (A:=FA) x0 x1 d) y) else Err (ENotEqual (n + 1) (length y)).
Proof.
  intros xs n k X0 eta L Hn HN K1 K2 HX He G. destruct (seq_whole xs n k X0 eta L Hn HN K1 K2 HX He G) as (x0 & x1 & H0 & H1 & E).
  destruct (k_fin k K1 K2) as [Fd Vd]. pose proof (k_one k K1) as O. pose proof uu_pos as U.
  destruct (sq_array xs n X0 (INR k) eta L Hn HN (whole_bounds k K1 K2) HX ltac:(lra) G x0 x1 _ H0 H1 Fd) as (xs' & S & X & L' & P).
  { rewrite Vd, Rminus_diag_eq, Rabs_R0 by reflexivity. assert (0 <= uu * INR k) by (apply Rmult_le_pos; lra). lra. }
  exists x0, x1, (f64_of_Z (Z.of_nat k)), xs'.
  split; [exact H0|]. split; [exact H1|]. split; [exact Fd|]. split; [exact Vd|]. split; [exact E|]. split; [exact X|]. split; [exact L'|]. split; [exact P|].
  intros y. apply init_seq; assumption.
Qed.
Print Assumptions C88_whole.

(** A relation rebuilt from what [get_data] returns is the relation itself, on an everyday axis whose sample is [1/k] or [k] as Python
    computes it and whose span is [n] such samples to within the tolerance (a start -0.0 may become 0.0) *)
Theorem C88_own_data : forall s e d n k xs (y : list spec_float), f64_tame s e d n -> (1 <= n)%nat -> INR n <= 2 ^ 44 -> (1 <= k)%nat -> INR k <= 2 ^ 40 ->
  (d = SFdiv 53 1024 (f64_of_Z 1) (f64_of_Z (Z.of_nat k)) /\ Rabs (f64_val s) <= 2 ^ 44 * / INR k /\
     Rabs (f64_val e - f64_val s - INR n * / INR k) + / 2 ^ 50 * Rmax (Rabs (f64_val s)) (Rabs (f64_val e)) <= / 16 * (/ INR k * / INR k) \/
   d = f64_of_Z (Z.of_nat k) /\ Rabs (f64_val s) <= 2 ^ 44 * INR k /\
     Rabs (f64_val e - f64_val s - INR n * INR k) + / 2 ^ 50 * Rmax (Rabs (f64_val s)) (Rabs (f64_val e)) <= / 16) ->
  rel_get_data FA FV (mkRel (A:=FA) (V:=FV) (mkAxis (A:=FA) s e d) y) = Ok (xs, y) ->
  exists s', f64_fin s' /\ f64_val s' = f64_val s /\
    rel_init FA FV (default_config FA FV) (XSeq (mkSeq (A:=FA) true xs)) (Some y) = Ok (mkRel (A:=FA) (V:=FV) (mkAxis (A:=FA) s' e d) y).
Proof.
  intros s e d n k xs y HT Hn HN K1 K2 HD HG. unfold rel_get_data in HG. cbn [r_x r_y] in HG. pose proof (tame_axis _ _ _ _ HT) as HA.
  rewrite (proj1 (f64_size _ _ _ _ HA)) in HG. cbn [bind] in HG. change (@length (val FV) y) with (@length spec_float y) in HG. destruct (Nat.eqb_spec (n + 1) (length y)) as [Ly|]; [|discriminate].
  destruct (axis_array FA (mkAxis (A:=FA) s e d)) as [xs0|] eqn:X; [|discriminate]. injection HG as <-.
  assert (Fin : forall s' , nth_error xs0 0 = Some s' -> length xs0 = (n + 1)%nat -> nth_error xs0 n = Some e -> f64_fin s' /\ f64_val s' = f64_val s).
  { intros s' H _ _. destruct (f64_array _ _ _ _ HA) as (xs2 & X2 & _ & _ & P & _). rewrite X in X2. injection X2 as <-. destruct (P 0%nat s' H) as (F & V & _). auto. }
  destruct HD as [(-> & HX & HE)|(-> & HX & HE)].
  - destruct (own_near _ _ _ _ _ (/ INR k) HT Hn X) as (G & L & EE & _).
    destruct (C88_reciprocal xs0 n k _ _ L Hn HN K1 K2 HX HE G) as (x0 & x1 & d' & xs' & H0 & H1 & _ & E & _ & _ & _ & R).
    destruct (seq_reciprocal xs0 n k _ _ L Hn HN K1 K2 HX HE G) as (x0' & x1' & H0' & H1' & E'). rewrite E in E'. injection E' as <- <- ->.
    change (num FA) with spec_float in *. rewrite EE in H1. injection H1 as <-. destruct (Fin x0 H0 L EE) as [F V]. exists x0. split; [exact F|]. split; [exact V|]. rewrite R. change (@length (val FV) y) with (@length spec_float y). rewrite <- Ly, Nat.eqb_refl. reflexivity.
  - destruct (own_near _ _ _ _ _ (INR k) HT Hn X) as (G & L & EE & _).
    destruct (C88_whole xs0 n k _ _ L Hn HN K1 K2 HX HE G) as (x0 & x1 & d' & xs' & H0 & H1 & _ & _ & E & _ & _ & _ & R).
    destruct (seq_whole xs0 n k _ _ L Hn HN K1 K2 HX HE G) as (x0' & x1' & H0' & H1' & E'). rewrite E in E'. injection E' as <- <- ->.
    change (num FA) with spec_float in *. rewrite EE in H1. injection H1 as <-. destruct (Fin x0 H0 L EE) as [F V]. exists x0. split; [exact F|]. split; [exact V|]. rewrite R. change (@length (val FV) y) with (@length spec_float y). rewrite <- Ly, Nat.eqb_refl. reflexivity.
Qed.
Print Assumptions C88_own_data.

(** The tolerance matters: six times an eighth of a second apart, one of them an eighth of a sample early.  The shortest gap sets the
    sample to 1/9, the axis gets 7 points and no six samples are accepted *)
Theorem C88_jitter_refuted : exists xs : list spec_float, length xs = 6%nat /\ near_grid xs 0 (/ INR 8) (/ 64) /\
  forall y : list spec_float, length y = 6%nat ->
    rel_init FA FV (default_config FA FV) (XSeq (mkSeq (A:=FA) true xs)) (Some y) = Err (ENotEqual 7 6).
Proof.
  exists [f64 0 1; f64 7 64; f64 2 8; f64 3 8; f64 4 8; f64 5 8]. split; [reflexivity|]. split.
  - replace (f64 7 64) with (S754_finite false 7881299347898368 (-56)) by (vm_compute; reflexivity).
    replace (f64 2 8) with (S754_finite false 4503599627370496 (-54)) by (vm_compute; reflexivity).
    replace (f64 3 8) with (S754_finite false 6755399441055744 (-54)) by (vm_compute; reflexivity).
    replace (f64 4 8) with (S754_finite false 4503599627370496 (-53)) by (vm_compute; reflexivity).
    replace (f64 5 8) with (S754_finite false 5629499534213120 (-53)) by (vm_compute; reflexivity).
    replace (f64 0 1) with (S754_zero false) by (vm_compute; reflexivity).
    intros i x Hx. do 6 (destruct i as [|i]; [injection Hx as <-; split; [vm_compute; auto|cbn [f64_val]; rewrite ?powerRZ_bpow; cbn [INR]; cbn; apply Rabs_le; lra]|cbn [nth_error] in Hx]).
    destruct i; discriminate.
  - intros y Hy. rewrite (init_seq _ (mkAxis (A:=FA) (f64 0 1) (f64 5 8) (f64 1 9)) 7 y); [|apply (seq_axis _ 5 _ _ _ (f64 7 64)); vm_compute; reflexivity|vm_compute; reflexivity]. rewrite Hy. reflexivity.
Qed.
Print Assumptions C88_jitter_refuted.

(** a case: the times 0, 0.1, 0.2, 0.3 as floats, the last being 0.30000000000000004 *)
Example C88_case : near_grid [f64 0 1; f64 1 10; f64 2 10; f64 30000000000000004 100000000000000000] 0 (/ INR 10) (/ 2 ^ 50) /\
  / 2 ^ 50 <= / 16 * (/ INR 10 * / INR 10) /\
  axis_of_array FA (mkSeq (A:=FA) true [f64 0 1; f64 1 10; f64 2 10; f64 30000000000000004 100000000000000000]) true =
    Ok (mkAxis (A:=FA) (f64 0 1) (f64 30000000000000004 100000000000000000) (f64 1 10)).
Proof.
  split; [|split; [cbn [INR]; lra|apply (seq_axis _ 3 _ _ _ (f64 1 10)); vm_compute; reflexivity]].
  replace (f64 1 10) with (S754_finite false 7205759403792794 (-56)) by (vm_compute; reflexivity).
  replace (f64 2 10) with (S754_finite false 7205759403792794 (-55)) by (vm_compute; reflexivity).
  replace (f64 30000000000000004 100000000000000000) with (S754_finite false 5404319552844596 (-54)) by (vm_compute; reflexivity).
  replace (f64 0 1) with (S754_zero false) by (vm_compute; reflexivity).
  intros i x Hx. do 4 (destruct i as [|i]; [injection Hx as <-; split; [vm_compute; auto|cbn [f64_val]; rewrite ?powerRZ_bpow; cbn [INR]; cbn; apply Rabs_le; lra]|cbn [nth_error] in Hx]).
  destruct i; discriminate.
Qed.
