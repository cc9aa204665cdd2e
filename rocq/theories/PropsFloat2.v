(** Property theorems in IEEE binary64, continued: C86, how far diff, integrate, interpolation, the integral over the whole axis
    and the norm can be from the exact ones. *)
From Coq Require Import Reals ZArith List Bool Lia Lra Permutation SpecFloat.
From Flocq Require Import Core.
From Verif Require Import Num Numpy Spec AxisModel RelModel FloatSpec CalcSpec FloatLemmas FloatLemmas2 FloatLemmas3 FloatLemmas4
  FloatLemmas5 FloatLemmas6 FloatLemmas7 PropsFloat.
Import ListNotations.
Local Open Scope R_scope.

(** ** C86 calculus *)
(** [diff] succeeds and has one sample less; its points lie half a sample inside, its samples are the difference quotients up to one
    part in 2^51 *)
Theorem C86_diff : forall s e d m (y : list spec_float), f64_forward s e d (m + 1) -> length y = (m + 2)%nat -> Forall f64_ordinary y ->
  exists s' e' z xs, rel_diff FA FV (default_config FA FV) (mkRel (A:=FA) (V:=FV) (mkAxis (A:=FA) s e d) y) =
      Ok (mkRel (A:=FA) (V:=FV) (mkAxis (A:=FA) s' e' d) z) /\
    length z = (m + 1)%nat /\ axis_array FA (mkAxis (A:=FA) s' e' d) = Ok xs /\ length xs = (m + 1)%nat /\
    (forall i x, nth_error xs i = Some x -> f64_fin x /\
      Rabs (f64_val x - grid_pt (f64_val s + f64_val d / 2) (f64_val e - f64_val d / 2) (m + 1) i)
        <= / 2 ^ 48 * (Rmax (Rabs (f64_val s)) (Rabs (f64_val e)) + f64_val d)) /\
    (forall i w, nth_error z i = Some w -> f64_fin w /\
      let q := (nth (S i) (vals y) 0 - nth i (vals y) 0) / f64_val d in
      Rabs (f64_val w - q) <= / 2 ^ 51 * Rabs q + powerRZ 2 (-1075)).
Proof. intros s e d m y HF L O. rewrite powerRZ_bpow. exact (f64_diff_rel s e d m y HF L O). Qed.
Print Assumptions C86_diff.

(** [integrate] succeeds and has one sample less; sample [k] is the sample distance times the sum of the first [k+1] means, up to [k+3]
    parts in 2^52 of the same sum of absolute means *)
Theorem C86_integrate : forall s e d m (y : list spec_float), f64_forward s e d (m + 1) -> length y = (m + 2)%nat -> Forall f64_ordinary y ->
  exists s' z xs, rel_integrate FA FV (default_config FA FV) (mkRel (A:=FA) (V:=FV) (mkAxis (A:=FA) s e d) y) =
      Ok (mkRel (A:=FA) (V:=FV) (mkAxis (A:=FA) s' e d) z) /\
    length z = (m + 1)%nat /\ axis_array FA (mkAxis (A:=FA) s' e d) = Ok xs /\ length xs = (m + 1)%nat /\
    (forall i x, nth_error xs i = Some x -> f64_fin x /\
      Rabs (f64_val x - grid_pt (f64_val s + f64_val d) (f64_val e) (m + 1) i)
        <= / 2 ^ 48 * (Rmax (Rabs (f64_val s)) (Rabs (f64_val e)) + f64_val d)) /\
    (forall k w, nth_error z k = Some w -> f64_fin w /\
      Rabs (f64_val w - f64_val d * upto (mean (vals y)) k)
        <= (INR k + 3) / 2 ^ 52 * (f64_val d * upto (fun i => Rabs (mean (vals y) i)) k) + (INR k + 2) * (f64_val d + 1) * powerRZ 2 (-1074)).
Proof. exact f64_integrate_rel. Qed.
Print Assumptions C86_integrate.

(** interpolation: zero outside, the very samples at the old points, and in between the straight line up to one part in 2^49 of the larger
    neighbour *)
Theorem C86_interpolation : forall s e d n (y : list spec_float) (nx : axis FA) n' xs',
  f64_forward s e d n -> length y = (n + 1)%nat -> Forall f64_ordinary y ->
  axis_size FA nx = Ok n' -> axis_array FA nx = Ok xs' -> length xs' = n' -> Forall f64_fin xs' ->
  exists xs z, axis_array FA (mkAxis (A:=FA) s e d) = Ok xs /\ length xs = (n + 1)%nat /\
    rel_interp FA FV (default_config FA FV) nx (mkRel (A:=FA) (V:=FV) (mkAxis (A:=FA) s e d) y) = Ok (mkRel (A:=FA) (V:=FV) nx z) /\
    length z = n' /\
    forall j t w, nth_error xs' j = Some t -> nth_error z j = Some w ->
      (f64_val t < f64_val (nth 0 xs (n_of_Z FA 0)) \/ f64_val (nth n xs (n_of_Z FA 0)) < f64_val t -> w = n_of_Z FA 0) /\
      (forall i x v, nth_error xs i = Some x -> nth_error y i = Some v -> f64_val t = f64_val x -> w = v) /\
      (forall i x0 x1 v0 v1, nth_error xs i = Some x0 -> nth_error xs (S i) = Some x1 -> nth_error y i = Some v0 -> nth_error y (S i) = Some v1 ->
        f64_val x0 < f64_val t < f64_val x1 -> f64_fin w /\
        Rabs (f64_val w - (f64_val v0 + (f64_val v1 - f64_val v0) / (f64_val x1 - f64_val x0) * (f64_val t - f64_val x0)))
          <= / 2 ^ 49 * Rmax (Rabs (f64_val v0)) (Rabs (f64_val v1)) + (f64_val x1 - f64_val x0 + 1) * powerRZ 2 (-1074)).
Proof. exact f64_interp_rel. Qed.
Print Assumptions C86_interpolation.
(** every axis of ordinary size is such a new axis *)
Theorem C86_new_axes : forall s e d n, f64_axis s e d n ->
  exists xs, axis_size FA (mkAxis (A:=FA) s e d) = Ok (n + 1)%nat /\ axis_array FA (mkAxis (A:=FA) s e d) = Ok xs /\ length xs = (n + 1)%nat /\ Forall f64_fin xs.
Proof.
  intros s e d n HA. destruct (f64_array _ _ _ _ HA) as (xs & X & L & _ & P & _). exists xs. split; [apply (f64_size _ _ _ _ HA)|]. split; [exact X|].
  split; [exact L|]. apply Forall_forall. intros x Hx. apply In_nth_error in Hx as [i Hi]. apply (P i x Hi).
Qed.
Print Assumptions C86_new_axes.
(** an interpolated value can exceed both its neighbours *)
Theorem C86_between_neighbours_refuted :
  let t := S754_finite false 7205759403792793 (-56) in
  let r := mkRel (A:=FA) (V:=FV) (mkAxis (A:=FA) (f64 0 1) (f64 1 10) (f64 1 10)) [f64 (-8) 10; f64 4 10] in
  n_lt FA (f64 0 1) t = true /\ n_lt FA t (f64 1 10) = true /\
  match rel_interp FA FV (default_config FA FV) (mkAxis (A:=FA) t t (f64 1 10)) r with
  | Ok q => match r_y q : list spec_float with [v] => n_lt FA (f64 4 10) v | _ => false end
  | Err _ => false end = true.
Proof. cbv zeta. split; [|split]; vm_compute; reflexivity. Qed.
Print Assumptions C86_between_neighbours_refuted.

(** the integral over the whole axis: the areas of the panels, added up in whatever order, up to [n+2] parts in 2^51 *)
Theorem C86_integral : forall s e d n (y : list spec_float), f64_forward s e d n -> length y = (n + 1)%nat -> Forall f64_ordinary y ->
  exists xs v, axis_array FA (mkAxis (A:=FA) s e d) = Ok xs /\ length xs = (n + 1)%nat /\
    one_integrate FA FV (mkRel (A:=FA) (V:=FV) (mkAxis (A:=FA) s e d) y) = Ok v /\ added (trapz_terms FA FV y xs) v /\
    forall v', added (trapz_terms FA FV y xs) v' ->
      let p := panels (vals xs) (vals y) in
      f64_fin v' /\ Rabs (f64_val v' - total p) <= (INR n + 2) / 2 ^ 51 * total (map Rabs p) + INR n * powerRZ 2 (-1073) /\
      (Forall (fun v => 0 <= f64_val v) y -> 0 <= f64_val v').
Proof. exact f64_integral. Qed.
Print Assumptions C86_integral.
(** the order does matter *)
Theorem C86_one_sum_refuted : exists l v v', added l v /\ added l v' /\ Forall f64_fin l /\ n_eq FA v v' = false.
Proof.
  exists [f64 1 10; f64 2 10; f64 3 10], (SFadd 53 1024 (SFadd 53 1024 (f64 1 10) (f64 2 10)) (f64 3 10)), (SFadd 53 1024 (f64 1 10) (SFadd 53 1024 (f64 2 10) (f64 3 10))).
  split; [apply (added_two [f64 1 10; f64 2 10] [f64 3 10]); [apply (added_two [f64 1 10] [f64 2 10])|]; apply added_one|].
  split; [apply (added_two [f64 1 10] [f64 2 10; f64 3 10]); [|apply (added_two [f64 2 10] [f64 3 10])]; apply added_one|].
  split; [|vm_compute; reflexivity]. repeat constructor; (vm_compute; reflexivity) || (vm_compute; exact I).
Qed.
Print Assumptions C86_one_sum_refuted.

(** [get_norm]: finite, never negative, and the exact norm up to [n+3] parts in 2^51, in whatever order the panels are added *)
Theorem C86_norm : forall s e d n (y : list spec_float), f64_forward s e d n -> length y = (n + 1)%nat -> Forall f64_ordinary y ->
  exists xs v, axis_array FA (mkAxis (A:=FA) s e d) = Ok xs /\ length xs = (n + 1)%nat /\
    rel_norm FA FV (default_config FA FV) (mkRel (A:=FA) (V:=FV) (mkAxis (A:=FA) s e d) y) = Ok (SFdiv 53 1024 v d) /\
    added (trapz_terms FA FV (map (fun a => SFmul 53 1024 a a) y) xs) v /\
    forall v', added (trapz_terms FA FV (map (fun a => SFmul 53 1024 a a) y) xs) v' ->
      let w := SFdiv 53 1024 v' d in
      let N := total (panels (vals xs) (map (fun a => a * a) (vals y))) / f64_val d in
      f64_fin w /\ 0 <= f64_val w /\
      Rabs (f64_val w - N) <= (INR n + 3) / 2 ^ 51 * N + (INR n + 1) * (1 + / f64_val d) * powerRZ 2 (-1072).
Proof. exact f64_norm. Qed.
Print Assumptions C86_norm.
(** samples other than zero may have norm zero *)
Theorem C86_norm_definite_refuted :
  let tiny := S754_finite false 4503599627370496 (-652) in
  let r := mkRel (A:=FA) (V:=FV) (mkAxis (A:=FA) (f64 0 1) (f64 2 1) (f64 1 1)) [tiny; tiny; tiny] in
  n_lt FA (f64 0 1) tiny = true /\ rel_norm FA FV (default_config FA FV) r = Ok (f64 0 1).
Proof. cbv zeta. split; vm_compute; reflexivity. Qed.
Print Assumptions C86_norm_definite_refuted.

(** the axis 0, 0.1, ..., 2 and the samples 0, 1, ..., 20 *)
Example C86_case :
  let x := mkAxis (A:=FA) (f64 0 1) (f64 2 1) (f64 1 10) in
  let y := map (fun i => f64 (Z.of_nat i) 1) (seq 0 21) in
  let r := mkRel (A:=FA) (V:=FV) x y in
  f64_forward (f64 0 1) (f64 2 1) (f64 1 10) 20 /\ length y = 21%nat /\ Forall f64_ordinary y /\
  match rel_diff FA FV (default_config FA FV) r with Ok q => map (fun v => SFeqb v (f64 10 1)) (r_y q) | Err _ => [] end = repeat true 20 /\
  match rel_integrate FA FV (default_config FA FV) r with Ok q => Some (last (r_y q) (f64 0 1) : spec_float) | Err _ => None end = Some (f64 20 1) /\
  match rel_norm FA FV (default_config FA FV) r with Ok v => Some (n_lt FA (f64 26699 10) v, n_lt FA v (f64 26701 10)) | Err _ => None end = Some (true, true).
Proof.
  cbv zeta. split; [|split; [reflexivity|split; [|split; [|split]]]].
  - split; [exact case_tame|]. rewrite !powerRZ_bpow.
    replace (f64 0 1) with (S754_zero false) by (vm_compute; reflexivity).
    replace (f64 2 1) with (S754_finite false 4503599627370496 (-51)) by (vm_compute; reflexivity).
    replace (f64 1 10) with (S754_finite false 7205759403792794 (-56)) by (vm_compute; reflexivity).
    assert (V2 : f64_val (S754_finite false 4503599627370496 (-51)) = 2) by (cbn [f64_val]; rewrite powerRZ_bpow; cbn; lra).
    assert (V1 : f64_val (S754_finite false 7205759403792794 (-56)) = 7205759403792794 / 72057594037927936) by (cbn [f64_val]; rewrite pow_neg; reflexivity).
    assert (V0 : f64_val (S754_zero false) = 0) by reflexivity. rewrite V0, V1, V2. split; [split|lra].
    + apply Rle_trans with (bpow radix2 (-4)); [apply bpow_le; lia|]. replace (bpow radix2 (-4)) with (/ 16) by (cbn; lra). lra.
    + apply Rle_trans with (bpow radix2 0); [|apply bpow_le; lia]. replace (bpow radix2 0) with 1 by reflexivity. lra.
  - apply Forall_map, Forall_forall. intros i Hi. apply in_seq in Hi.
    assert (E : f64 (Z.of_nat i) 1 = n_of_Z FA (Z.of_nat i)).
    { do 21 (destruct i as [|i]; [vm_compute; reflexivity|]). lia. }
    rewrite E. destruct (f64_Z_exact (Z.of_nat i)) as [F V]; [apply Z.le_trans with 20%Z; [lia|vm_compute; discriminate]|]. split; [exact F|].
    change (n_of_Z FA) with f64_of_Z. rewrite V, powerRZ_bpow, <- abs_IZR. apply Rle_trans with (IZR (2 ^ 5)); [apply IZR_le; lia|].
    change (2 ^ 5)%Z with (Zpower radix2 5). rewrite IZR_Zpower by lia. apply bpow_le. lia.
  - vm_compute. reflexivity.
  - vm_compute. reflexivity.
  - vm_compute. reflexivity.
Qed.
