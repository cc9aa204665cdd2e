(** Property theorems C67 and C68: the product of spectra and the energy of a spectrum.
    Notations as in PropsFourier.v. *)
From Coq Require Import Reals ZArith List Bool Lia Lra.
From Coquelicot Require Import Complex.
From Verif Require Import Num Numpy Spec AxisModel RelModel HeapModel RLemmas AxisLemmas InterpLemmas VInst
  RelLemmas RelLemmas2 FourierSpec FourierModel DftLemmas FourierLemmas FourierLemmas2 FourierLemmas3 FourierLemmas5 PropsFourier.
Import ListNotations.
Local Open Scope R_scope.
Notation times := (rel_op RA CV (default_config RA CV) MUL).
Notation divided_by := (rel_op RA CV (default_config RA CV) TRUEDIV).
(** the spectrum of [x] is that of the samples alone: nothing is added to reach time 0 *)
Definition reaches_zero (x : raxis) (z : bool) : Prop := z = true \/ (a_start x <= 0 /\ 0 <= a_end x).

(** evaluate the sums of a concrete circular convolution *)
Ltac sums := cbn [length tsum];
  repeat match goal with |- context[Z.to_nat ?e] => let v := eval vm_compute in (Z.to_nat e) in change (Z.to_nat e) with v end;
  cbn [nth]; lra.

(** ** C67 multiplying spectra *)
(** [(signal1.get_spectrum() * signal2.get_spectrum()).get_signal(x)]; [same] tells whether the axis objects are
    identical, [p] counts the samples at negative times *)
Theorem C67_product : forall (x : raxis) (u v : list R) (p : nat) (z1 z2 same : bool), (2 <= length u)%nat -> length v = length u ->
  exact_span (a_start x) (a_end x) (a_sample x) (length u - 1) -> (p <= length u)%nat ->
  negatives (a_start x) (a_sample x) (length u) p -> reaches_zero x z1 -> reaches_zero x z2 ->
  exists S1 S2 P w w', get_spectrum (content x (reals u)) (DNone RA) z1 = Ok S1 /\
    get_spectrum (content x (reals v)) (DNone RA) z2 = Ok S2 /\ times same S1 S2 = Ok P /\
    get_signal P (DAxis RA x) None = Ok (content x (reals w')) /\
    circular u v w /\ rotated_left (3 * Z.of_nat p) w w'.
Proof. intros x u v p z1 z2 same Hu Hv Hx Hp Hn H1 H2. exact (spectra_product x u v p z1 z2 Hu Hv Hx Hp Hn H1 H2 same). Qed.
Print Assumptions C67_product.
(** from time 0 on: the circular convolution itself *)
Theorem C67_start_zero : forall (x : raxis) (u v w : list R) (z1 z2 same : bool), (2 <= length u)%nat -> length v = length u -> a_start x = 0 ->
  exact_span (a_start x) (a_end x) (a_sample x) (length u - 1) -> circular u v w ->
  exists S1 S2 P, get_spectrum (content x (reals u)) (DNone RA) z1 = Ok S1 /\
    get_spectrum (content x (reals v)) (DNone RA) z2 = Ok S2 /\ times same S1 S2 = Ok P /\
    get_signal P (DAxis RA x) None = Ok (content x (reals w)).
Proof.
  intros x u v w z1 z2 same Hu Hv Hs Hx Hw.
  assert (Hr : forall z, reaches_zero x z).
  { intros z. right. destruct Hx as [Hd He]. pose proof (Rmult_le_pos (INR (length u - 1)) (a_sample x) (pos_INR _)). lra. }
  destruct (C67_product x u v 0 z1 z2 same Hu Hv Hx ltac:(lia)) as (S1 & S2 & P & w0 & w' & H1 & H2 & H3 & H4 & H5 & H6); auto.
  - apply negatives_0; [lra|apply Hx].
  - exists S1, S2, P. repeat split; auto. rewrite H4. do 3 f_equal.
    rewrite (circular_unique u v w w0 Hw H5). eapply rotated_unique; [exact H6|apply rotated_0].
Qed.
Print Assumptions C67_start_zero.
(** dividing the product by a factor without zeros gives the other factor: the convolution is undone *)
Theorem C67_divided : forall (S1 S2 P : crel) (same same' : bool), valid S1 -> valid S2 -> r_x S1 = r_x S2 ->
  (forall z, In z (r_y S2) -> z <> RtoC 0) -> times same S1 S2 = Ok P -> divided_by same' P S2 = Ok S1.
Proof. exact product_divided. Qed.
Print Assumptions C67_divided.
(** the signals' convolution, unlike their spectra's product, is not circular: the product of the spectra of a
    two sample signal with itself does not give the samples of [np.convolve] *)
Theorem C67_is_convolve_refuted : exists (x : raxis) (u w : list R), length u = 2%nat /\ circular u u w /\
  (exists y, np_convolve RA CV (reals u) (reals u) = Ok y /\ firstn 2 y <> reals w) /\
  exists S P, get_spectrum (content x (reals u)) (DNone RA) false = Ok S /\ times true S S = Ok P /\
    get_signal P (DAxis RA x) None = Ok (content x (reals w)).
Proof.
  exists (ax 0 1 1), [1; 1], [2; 2]. split; [reflexivity|].
  assert (Hc : circular [1; 1] [1; 1] [2; 2]).
  { split; [reflexivity|]. intros [|[|i]] Hi; cbn [length] in Hi; try lia; sums. }
  split; [exact Hc|]. split.
  - destruct (C28_sums (reals [1; 1]) (reals [1; 1])) as [_ (y & H1 & H2 & H3)]; try discriminate.
    exists y. split; [exact H1|]. destruct y as [|a [|b y]]; try discriminate. intros E. injection E as E1 E2.
    specialize (H3 0%nat ltac:(cbn; lia)). cbn [nth] in H3. rewrite E1 in H3. cbn in H3.
    apply (f_equal fst) in H3. cbn in H3. lra.
  - destruct (C67_start_zero (ax 0 1 1) [1; 1] [1; 1] [2; 2] false false true) as (S1 & S2 & P & H1 & H2 & H3 & H4);
      try reflexivity; try (cbn; lia); [split; cbn; lra|exact Hc|].
    rewrite H1 in H2. injection H2 as <-. exists S1, P. auto.
Qed.
Print Assumptions C67_is_convolve_refuted.
(** delaying four samples by one: multiplying by the spectrum of a unit impulse at the second sample *)
Example C67_case : exists S1 S2 P, get_spectrum (content ex4 (reals [1; 2; 4; 8])) (DNone RA) false = Ok S1 /\
  get_spectrum (content ex4 (reals [0; 1; 0; 0])) (DNone RA) true = Ok S2 /\ times false S1 S2 = Ok P /\
  get_signal P (DAxis RA ex4) None = Ok (content ex4 (reals [8; 1; 2; 4])).
Proof.
  apply C67_start_zero; try reflexivity; try (cbn; lia); [exact ex4_exact|].
  split; [reflexivity|]. intros [|[|[|[|i]]]] Hi; cbn [length] in Hi; try lia; sums.
Qed.
(** five samples from time -2 on: the factors are turned by two samples each and the result once more *)
Example C67_case_negative : exists S1 S2 P w w', get_spectrum (content ex5 (reals [1; 2; 4; 8; 3])) (DNone RA) false = Ok S1 /\
  get_spectrum (content ex5 (reals [0; 1; 0; 0; 5])) (DNone RA) false = Ok S2 /\ times false S1 S2 = Ok P /\
  get_signal P (DAxis RA ex5) None = Ok (content ex5 (reals w')) /\
  circular [1; 2; 4; 8; 3] [0; 1; 0; 0; 5] w /\ rotated_left 6 w w'.
Proof.
  apply (C67_product ex5 [1; 2; 4; 8; 3] [0; 1; 0; 0; 5] 2 false false false);
    [cbn; lia|reflexivity|exact ex5_exact|cbn; lia|exact ex5_neg|right; cbn; lra|right; cbn; lra].
Qed.

(** ** C68 energy *)
Theorem C68_energy : forall (x : raxis) (u : list R) (p : nat) (z : bool), (2 <= length u)%nat ->
  exact_span (a_start x) (a_end x) (a_sample x) (length u - 1) -> (p <= length u)%nat ->
  negatives (a_start x) (a_sample x) (length u) p -> reaches_zero x z ->
  exists S, get_spectrum (content x (reals u)) (DNone RA) z = Ok S /\
    INR (length u) * tsum (fun i => nth i u 0 * nth i u 0) (length u) = half_energy (length u) (r_y S).
Proof. intros x u p z Hu Hx Hp Hn Hz. exact (spectrum_energy x u u p z Hu eq_refl Hx Hp Hn Hz). Qed.
Print Assumptions C68_energy.
(** so only the zero signal has the zero spectrum *)
Theorem C68_zero : forall (x : raxis) (u : list R) (p : nat) (z : bool), (2 <= length u)%nat ->
  exact_span (a_start x) (a_end x) (a_sample x) (length u - 1) -> (p <= length u)%nat ->
  negatives (a_start x) (a_sample x) (length u) p -> reaches_zero x z ->
  exists S, get_spectrum (content x (reals u)) (DNone RA) z = Ok S /\
    ((forall X, In X (r_y S) -> X = RtoC 0) -> forall t, In t u -> t = 0).
Proof.
  intros x u p z Hu Hx Hp Hn Hz. destruct (C68_energy x u p z Hu Hx Hp Hn Hz) as (S & H1 & H2).
  exists S. split; [exact H1|]. intros H0. exact (energy_zero u (r_y S) Hu H2 H0).
Qed.
Print Assumptions C68_zero.
Example C68_case : exists S, get_spectrum (content ex4 (reals [1; 2; 4; 8])) (DNone RA) false = Ok S /\ half_energy 4 (r_y S) = 340.
Proof.
  destruct (C68_energy ex4 [1; 2; 4; 8] 0 false) as (S & H1 & H2);
    [cbn; lia|exact ex4_exact|cbn; lia|apply negatives_0; cbn; lra|right; cbn; lra|].
  exists S. split; [exact H1|]. cbn in H2. cbn. lra.
Qed.
