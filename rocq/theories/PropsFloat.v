(** Property theorems in IEEE binary64, the arithmetic the program really uses: C77 (axes) and C78
    (relations).  [FA] is the arithmetic of the standard library's [SpecFloat]; [f64_val] (FloatSpec.v)
    is the real number a binary64 number stands for. *)
From Coq Require Import Reals ZArith List Bool Lia Lra SpecFloat.
From Flocq Require Import Core.
From Verif Require Import Num Numpy Spec AxisModel RelModel FloatSpec FloatLemmas FloatLemmas2 FloatLemmas3 FloatLemmas4.
Import ListNotations.
Local Open Scope R_scope.

(** ** C77 axes *)
(** the four operations of the model give a nearest binary64 number *)
Theorem C77_operations : forall x y : spec_float, f64_fin x -> f64_fin y ->
  let X := f64_val x in let Y := f64_val y in
  (Rabs (X + Y) <= powerRZ 2 1023 -> f64_nearest (X + Y) (n_add FA x y)) /\
  (Rabs (X - Y) <= powerRZ 2 1023 -> f64_nearest (X - Y) (n_sub FA x y)) /\
  (Rabs (X * Y) <= powerRZ 2 1023 -> f64_nearest (X * Y) (n_mul FA x y)) /\
  (Y <> 0 -> Rabs (X / Y) <= powerRZ 2 1023 -> f64_nearest (X / Y) (n_div FA x y)) /\
  f64_val (n_abs FA x) = Rabs X /\
  (n_le FA x y = true <-> X <= Y) /\ (n_lt FA x y = true <-> X < Y) /\ (n_eq FA x y = true <-> X = Y) /\
  exists k, n_round FA x = Some k /\ round_half_even X k.
Proof.
  intros x y Fx Fy. cbv zeta. rewrite !powerRZ_bpow.
  split; [intros H; apply frnd_nearest; apply (f64_add x y Fx Fy H)|].
  split; [intros H; apply frnd_nearest; apply (f64_sub x y Fx Fy H)|].
  split; [intros H; apply frnd_nearest; apply (f64_mul x y Fx Fy H)|].
  split; [intros Hz H; apply frnd_nearest; apply (f64_div x y Fx Fy Hz H)|].
  split; [apply (f64_abs x Fx)|]. split; [apply (f64_leb x y Fx Fy)|]. split; [apply (f64_ltb x y Fx Fy)|].
  split; [apply (f64_eqb x y Fx Fy)|].
  exists (Rround (f64_val x)). split; [apply (f64_round_fin x Fx)|]. apply RLemmas.Rround_spec.
Qed.
Print Assumptions C77_operations.

(** an axis of ordinary size has as many points in binary64 as in real numbers *)
Theorem C77_size : forall s e d n, f64_axis s e d n ->
  axis_size FA (mkAxis (A:=FA) s e d) = Ok (n + 1)%nat /\
  axis_size RA (mkAxis (A:=RA) (f64_val s) (f64_val e) (f64_val d)) = Ok (n + 1)%nat.
Proof. exact f64_size. Qed.
Print Assumptions C77_size.

(** its points start at start, end exactly at end, never go back, and are the points of the
    real-number axis (C01) up to 2^-50 of the larger end *)
Theorem C77_array : forall s e d n, f64_axis s e d n ->
  exists arr, axis_array FA (mkAxis (A:=FA) s e d) = Ok arr /\ length arr = (n + 1)%nat /\
    nth_error arr n = Some (if Nat.eqb n 0 then s else e) /\
    (forall i x, nth_error arr i = Some x -> f64_fin x /\ (i = 0%nat -> f64_val x = f64_val s) /\
      Rabs (f64_val x - grid_pt (f64_val s) (f64_val e) (n + 1) i)
        <= / 2 ^ 50 * Rmax (Rabs (f64_val s)) (Rabs (f64_val e))) /\
    (forall i j x y, (i <= j)%nat -> nth_error arr i = Some x -> nth_error arr j = Some y ->
      (f64_val s <= f64_val e -> f64_val x <= f64_val y) /\
      (f64_val e <= f64_val s -> f64_val y <= f64_val x)).
Proof. exact f64_array. Qed.
Print Assumptions C77_array.

(** the points of an everyday axis are different numbers *)
Theorem C77_distinct : forall s e d n xs i j x y, f64_tame s e d n ->
  axis_array FA (mkAxis (A:=FA) s e d) = Ok xs -> (i < j)%nat -> nth_error xs i = Some x -> nth_error xs j = Some y ->
  (f64_val s < f64_val e -> f64_val x < f64_val y) /\ (f64_val e < f64_val s -> f64_val y < f64_val x) /\
  f64_val s <> f64_val e.
Proof. exact f64_strict. Qed.
Print Assumptions C77_distinct.
Theorem C77_everyday : forall s e d n, f64_tame s e d n -> f64_axis s e d n.
Proof. exact tame_axis. Qed.
Print Assumptions C77_everyday.

(** 0 to 2 in steps of 0.1: 21 points; the third is 0.2, the fourth 0.30000000000000004 *)
Lemma pow_neg : powerRZ 2 (-56) = / 72057594037927936.
Proof. rewrite powerRZ_bpow. cbn. reflexivity. Qed.
Lemma case_tame : f64_tame (f64 0 1) (f64 2 1) (f64 1 10) 20.
Proof.
  replace (f64 0 1) with (S754_zero false) by (vm_compute; reflexivity).
  replace (f64 2 1) with (S754_finite false 4503599627370496 (-51)) by (vm_compute; reflexivity).
  replace (f64 1 10) with (S754_finite false 7205759403792794 (-56)) by (vm_compute; reflexivity).
  assert (V2 : f64_val (S754_finite false 4503599627370496 (-51)) = 2).
  { cbn [f64_val]. rewrite powerRZ_bpow. cbn. lra. }
  assert (V1 : f64_val (S754_finite false 7205759403792794 (-56)) = 7205759403792794 / 72057594037927936).
  { cbn [f64_val]. rewrite pow_neg. reflexivity. }
  assert (V0 : f64_val (S754_zero false) = 0) by reflexivity.
  unfold f64_tame. rewrite V0, V1, V2, !powerRZ_bpow.
  rewrite Rabs_R0, (Rabs_right 2), (Rabs_right (2 - 0)), (Rabs_right (7205759403792794 / 72057594037927936)) by lra.
  split; [split; [reflexivity|exact I]|]. split; [split; [reflexivity|exact I]|]. split; [split; [reflexivity|exact I]|].
  split; [split|].
  - apply Rle_trans with (bpow radix2 (-4)); [apply bpow_le; lia|]. cbn. lra.
  - apply Rle_trans with (bpow radix2 0); [cbn; lra|apply bpow_le; lia].
  - split; [lra|]. split; [lra|]. cbn [INR].
    apply Rabs_le. lra.
Qed.
Example C77_case : f64_tame (f64 0 1) (f64 2 1) (f64 1 10) 20 /\
  match axis_array FA (mkAxis (A:=FA) (f64 0 1) (f64 2 1) (f64 1 10)) with
  | Ok l => Some (length l, nth_error l 2 : option spec_float, nth_error l 3 : option spec_float)
  | Err _ => None end = Some (21%nat, Some (f64 2 10), Some (SFadd 53 1024 (f64 1 10) (f64 2 10))).
Proof. split; [exact case_tame|]. vm_compute. reflexivity. Qed.

(** ** C78 relations *)
Theorem C78_accepted : forall (V : Vals FA) s e d n (y : list (val V)), f64_axis s e d n ->
  rel_make FA V (mkAxis (A:=FA) s e d) y =
  if Nat.eqb (length y) (n + 1) then Ok (mkRel (A:=FA) (V:=V) (mkAxis (A:=FA) s e d) y)
  else Err (ENotEqual (n + 1) (length y)).
Proof.
  intros V s e d n y HA. unfold rel_make. rewrite (proj1 (f64_size s e d n HA)). cbn [bind].
  rewrite Nat.eqb_sym. reflexivity.
Qed.
Print Assumptions C78_accepted.

(** indexing: no point is nearer than the one found, up to one part in 2^51 *)
Theorem C78_nearest_sample : forall (V : Vals FA) s e d n (y : list (val V)) v,
  f64_axis s e d n -> length y = (n + 1)%nat -> f64_fin v -> Rabs (f64_val v) <= powerRZ 2 1000 ->
  exists xs i x z, axis_array FA (mkAxis (A:=FA) s e d) = Ok xs /\
    rel_getitem FA V v (mkRel (A:=FA) (mkAxis (A:=FA) s e d) y) = Ok (x, z) /\
    nth_error xs i = Some x /\ nth_error y i = Some z /\
    forall x', In x' xs -> Rabs (f64_val x - f64_val v) <= (1 + / 2 ^ 51) * Rabs (f64_val x' - f64_val v).
Proof. exact f64_getitem. Qed.
Print Assumptions C78_nearest_sample.

(** select_data on everyday axes: the limits may be any binary64 numbers, infinities included *)
Theorem C78_select : forall (V : Vals FA) s e d n (y : list (val V)) lo hi,
  f64_tame s e d n -> length y = (n + 1)%nat ->
  let a := match lo with Some v => v | None => s end in
  let b := match hi with Some v => v | None => e end in
  valid_binary 53 1024 a = true -> valid_binary 53 1024 b = true ->
  exists xs, axis_array FA (mkAxis (A:=FA) s e d) = Ok xs /\ length xs = length y /\
  let wanted := filter (fun p => SFleb a (fst p) && SFleb (fst p) b) (combine xs y) in
  let r := mkRel (A:=FA) (mkAxis (A:=FA) s e d) y in
  (wanted = [] -> rel_select FA V lo hi r = Err EIndex) /\
  (forall w ws, wanted = w :: ws -> exists xs',
    rel_select FA V lo hi r = Ok (mkRel (A:=FA) (mkAxis (A:=FA) (fst w) (fst (last wanted w)) d) (map snd wanted)) /\
    axis_array FA (mkAxis (A:=FA) (fst w) (fst (last wanted w)) d) = Ok xs' /\ length xs' = length wanted /\
    forall j x p, nth_error xs' j = Some x -> nth_error wanted j = Some p ->
      Rabs (f64_val x - f64_val (fst p)) <= / 2 ^ 48 * Rmax (Rabs (f64_val s)) (Rabs (f64_val e))).
Proof. exact f64_select. Qed.
Print Assumptions C78_select.

(** shift of everyday axes by at most 2^46 samples (C21_binary64_refuted: not for every axis) *)
Theorem C78_shift : forall (V : Vals FA) s e d n (y : list (val V)) t,
  f64_tame s e d n -> length y = (n + 1)%nat ->
  f64_fin t -> Rabs (f64_val t) <= 2 ^ 46 * Rabs (f64_val d) ->
  exists s' e' xs xs',
    rel_shift FA V t (mkRel (A:=FA) (mkAxis (A:=FA) s e d) y) = Ok (mkRel (A:=FA) (mkAxis (A:=FA) s' e' d) y) /\
    f64_nearest (f64_val s + f64_val t) s' /\ f64_nearest (f64_val e + f64_val t) e' /\
    axis_array FA (mkAxis (A:=FA) s e d) = Ok xs /\ axis_array FA (mkAxis (A:=FA) s' e' d) = Ok xs' /\
    length xs = length y /\ length xs' = length y /\
    forall i x x', nth_error xs i = Some x -> nth_error xs' i = Some x' ->
      Rabs (f64_val x' - (f64_val x + f64_val t))
        <= / 2 ^ 48 * Rmax (Rmax (Rabs (f64_val s)) (Rabs (f64_val e))) (Rabs (f64_val t)).
Proof. exact f64_shift. Qed.
Print Assumptions C78_shift.

(** shifting there and back need not restore the axis: 0.1 + 0.7 - 0.7 is not 0.1 *)
Theorem C78_shift_inverse_refuted :
  let x := mkAxis (A:=FA) (f64 1 10) (f64 2 1) (f64 1 10) in
  let r := mkRel (A:=FA) (V:=FV) x (repeat (f64 1 1) 20) in
  match (do r1 <- rel_shift FA FV (f64 7 10) r; rel_shift FA FV (SFopp (f64 7 10)) r1) with
  | Ok r2 => a_start (r_x r2) <> f64 1 10
  | Err _ => False
  end.
Proof.
  cbv zeta.
  assert (E : match (do r1 <- rel_shift FA FV (f64 7 10) (mkRel (A:=FA) (V:=FV) (mkAxis (A:=FA) (f64 1 10) (f64 2 1) (f64 1 10)) (repeat (f64 1 1) 20));
                     rel_shift FA FV (SFopp (f64 7 10)) r1) with
              | Ok r2 => Some (SFeqb (a_start (r_x r2)) (f64 1 10)) | Err _ => None end = Some false)
    by (vm_compute; reflexivity).
  destruct (do r1 <- rel_shift FA FV (f64 7 10) _; rel_shift FA FV (SFopp (f64 7 10)) r1) as [r2|ex]; [|discriminate].
  intros Q. rewrite Q in E. vm_compute in E. discriminate.
Qed.
Print Assumptions C78_shift_inverse_refuted.

(** interpolating a relation on its own axis returns its samples unchanged, bit for bit *)
Theorem C78_same_points_identity : forall (V : Vals FA) s e d n (y : list (val V)),
  f64_tame s e d n -> length y = (n + 1)%nat ->
  let r := mkRel (A:=FA) (V:=V) (mkAxis (A:=FA) s e d) y in
  rel_interp FA V (default_config FA V) (mkAxis (A:=FA) s e d) r = Ok r.
Proof. exact f64_interp_own. Qed.
Print Assumptions C78_same_points_identity.

(** hence operators on equal axes combine the samples one by one, whether or not the two relations
    share the axis object *)
Theorem C78_equal_axes : forall (V : Vals FA) s e d n (y1 y2 : list (val V)) o same, f64_tame s e d n ->
  length y1 = (n + 1)%nat -> length y2 = (n + 1)%nat ->
  let x := mkAxis (A:=FA) s e d in
  rel_op FA V (default_config FA V) o same (mkRel (A:=FA) (V:=V) x y1) (mkRel (A:=FA) (V:=V) x y2) =
  Ok (mkRel (A:=FA) (V:=V) x (map2 (op_apply FA V o) y1 y2)).
Proof. exact f64_op_equal. Qed.
Print Assumptions C78_equal_axes.

(** addition and multiplication commute in binary64, NaN and infinities included; addition is not
    associative *)
Theorem C78_commutative : forall s e d n (y1 y2 : list spec_float) o same, f64_tame s e d n -> (o = ADD \/ o = MUL) ->
  length y1 = (n + 1)%nat -> length y2 = (n + 1)%nat ->
  let x := mkAxis (A:=FA) s e d in
  let r1 := mkRel (A:=FA) (V:=FV) x y1 in let r2 := mkRel (A:=FA) (V:=FV) x y2 in
  rel_op FA FV (default_config FA FV) o same r1 r2 = rel_op FA FV (default_config FA FV) o same r2 r1.
Proof. exact f64_op_comm. Qed.
Print Assumptions C78_commutative.
Theorem C78_associative_refuted :
  let x := mkAxis (A:=FA) (f64 0 1) (f64 1 1) (f64 1 1) in
  let r v := mkRel (A:=FA) (V:=FV) x [v; v] in
  let plus := rel_op FA FV (default_config FA FV) ADD true in
  let ys (q : result (rel FA FV)) := match q with Ok r => r_y r : list spec_float | Err _ => [] end in
  ys (do a <- plus (r (f64 1 10)) (r (f64 2 10)); plus a (r (f64 3 10))) <>
  ys (do b <- plus (r (f64 2 10)) (r (f64 3 10)); plus (r (f64 1 10)) b) /\
  length (ys (do a <- plus (r (f64 1 10)) (r (f64 2 10)); plus a (r (f64 3 10)))) = 2%nat.
Proof. cbv zeta. split; [|vm_compute; reflexivity]. vm_compute. discriminate. Qed.
Print Assumptions C78_associative_refuted.

(** the everyday axis of C77_case: indexing at 0.26, selection from 0.35 to infinity, shift by 0.3 *)
Example C78_case :
  let x := mkAxis (A:=FA) (f64 0 1) (f64 2 1) (f64 1 10) in
  let y := map (fun i => f64 (Z.of_nat i) 1) (seq 0 21) in
  let r := mkRel (A:=FA) (V:=FV) x y in
  f64_tame (f64 0 1) (f64 2 1) (f64 1 10) 20 /\ length y = 21%nat /\
  f64_fin (f64 26 100) /\ valid_binary 53 1024 (S754_infinity false) = true /\
  match rel_getitem FA FV (f64 26 100) r with Ok (_, v) => Some (v : spec_float) | Err _ => None end = Some (f64 3 1) /\
  match rel_select FA FV (Some (f64 35 100)) (Some (S754_infinity false)) r with
  | Ok q => length (r_y q) | Err _ => 0%nat end = 17%nat /\
  match rel_shift FA FV (f64 3 10) r with Ok q => Some (a_end (r_x q) : spec_float) | Err _ => None end = Some (f64 23 10).
Proof.
  cbv zeta. split; [exact case_tame|]. split; [reflexivity|]. split; [split; [vm_compute; reflexivity|vm_compute; exact I]|].
  split; [reflexivity|]. split; [vm_compute; reflexivity|]. split; vm_compute; reflexivity.
Qed.
