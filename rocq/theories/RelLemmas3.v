(** Finite sums; values of diff and integrate (C22, C23); get_norm (C24). *)
From Coq Require Import Reals ZArith List Bool Lia Lra Psatz.
From Coquelicot Require Import Complex.
From Verif Require Import Num Numpy Spec AxisModel RelModel RLemmas AxisLemmas InterpLemmas VInst RelLemmas RelLemmas2.
Import ListNotations.
Local Open Scope R_scope.

Lemma nth_nth_error {T} (l : list T) i d a : nth_error l i = Some a -> nth i l d = a.
Proof. revert i; induction l as [|x l IH]; intros [|i] H; try discriminate; cbn in *; [congruence | auto]. Qed.
Lemma nth_error_nth' {T} (l : list T) i d : (i < length l)%nat -> nth_error l i = Some (nth i l d).
Proof. revert i; induction l as [|x l IH]; intros [|i] H; cbn in *; try lia; [reflexivity | apply IH; lia]. Qed.

(** *** sums *)
Section Sums.
Context {V : Vals RA} (L : VLaws V).
Notation val := (val V).
Add Field Vfield3 : (vl_field V L).
Local Notation "0v" := (v_of V 0).

Lemma vsum_ext (f g : nat -> val) n : (forall i, (i < n)%nat -> f i = g i) -> vsum f n = vsum g n.
Proof.
  induction n as [|n IH]; intros H; [reflexivity|]. cbn. rewrite IH by (intros; apply H; lia).
  rewrite H by lia. reflexivity.
Qed.
Lemma v_sum_app (l : list val) a : v_sum RA V (l ++ [a]) = v_add V (v_sum RA V l) a.
Proof. unfold v_sum. rewrite fold_left_app. reflexivity. Qed.
Lemma v_sum_map (f : nat -> val) n : v_sum RA V (map f (seq 0 n)) = vsum f n.
Proof.
  induction n as [|n IH]; [reflexivity|]. rewrite seq_S, map_app. cbn [map].
  rewrite v_sum_app, IH. reflexivity.
Qed.
Lemma map_nth_seq (l : list val) : map (fun i => nth i l 0v) (seq 0 (length l)) = l.
Proof.
  apply nth_error_ext; [rewrite map_length, seq_length; reflexivity|].
  intros i Hi. rewrite map_length, seq_length in Hi. rewrite nth_error_map_seq by exact Hi.
  symmetry. apply nth_error_nth'. exact Hi.
Qed.
Lemma v_sum_vsum (l : list val) : v_sum RA V l = vsum (fun i => nth i l 0v) (length l).
Proof. rewrite <- v_sum_map, map_nth_seq. reflexivity. Qed.
Lemma vsum_add (f g : nat -> val) n : vsum (fun i => v_add V (f i) (g i)) n = v_add V (vsum f n) (vsum g n).
Proof. induction n as [|n IH]; cbn; [ring|]. rewrite IH. ring. Qed.
Lemma vsum_scal c (f : nat -> val) n : vsum (fun i => v_mul V c (f i)) n = v_mul V c (vsum f n).
Proof. induction n as [|n IH]; cbn; [ring|]. rewrite IH. ring. Qed.
Lemma vsum_zero n : vsum (fun _ => 0v) n = 0v.
Proof. induction n as [|n IH]; cbn; [reflexivity|]. rewrite IH. ring. Qed.

(** cumulative trapezoids as sums *)
Lemma cumul_vsum (l : list val) k : (k < length l)%nat ->
  nth_error (cumul (v_add V) l) k = Some (vsum (fun i => nth i l 0v) (S k)).
Proof.
  induction k as [|k IH]; intros Hk.
  - rewrite (cumul_nth0 _ l (nth 0 l 0v)); [cbn; f_equal; ring | apply nth_error_nth'; exact Hk].
  - rewrite (cumul_nthS _ l k (nth (S k) l 0v) _ (IH ltac:(lia))); [reflexivity | apply nth_error_nth'; exact Hk].
Qed.
Lemma cum_trapz_nth (y : list val) k : (S k < length y)%nat ->
  nth_error (cum_trapz RA V y) k =
  Some (vsum (fun i => v_div V (v_add V (nth (S i) y 0v) (nth i y 0v)) (v_of V 2)) (S k)).
Proof.
  intros Hk. unfold cum_trapz. rewrite cumul_vsum by (rewrite diffs_length; lia).
  f_equal. apply vsum_ext. intros i Hi. apply nth_nth_error.
  apply diffs_nth. exists (nth i y 0v), (nth (S i) y 0v).
  split; [apply nth_error_nth'; lia|]. split; [apply nth_error_nth'; lia | reflexivity].
Qed.
End Sums.

Lemma tie_minus_one q : is_tie (q - 1) <-> is_tie q.
Proof.
  split; intros [k E].
  - exists (k + 1)%Z. rewrite plus_IZR. lra.
  - exists (k - 1)%Z. rewrite minus_IZR. lra.
Qed.

Section DiffInt.
Context {V : Vals RA} (L : VLaws V).
Notation val := (val V).
Notation rel := (rel RA V).
Notation DC := (default_config RA V).
Add Field Vfield4 : (vl_field V L).
Local Notation "0v" := (v_of V 0).

Definition qspan (r : rel) : R := (a_end (r_x r) - a_start (r_x r)) / a_sample (r_x r).

(** C22 with values *)
Lemma diff_ok (r : rel) : valid r -> 0 < a_sample (r_x r) -> a_start (r_x r) <= a_end (r_x r) ->
  (2 <= length (r_y r))%nat -> ~ is_tie (qspan r) ->
  exists r', rel_diff RA V DC r = Ok r' /\ valid r' /\ r_x r' = diff_axis (r_x r) /\
    length (r_y r') = (length (r_y r) - 1)%nat /\
    forall i, (S i < length (r_y r))%nat ->
      nth i (r_y r') 0v = v_div V (v_sub V (nth (S i) (r_y r) 0v) (nth i (r_y r) 0v)) (v_of V (a_sample (r_x r))).
Proof.
  intros Hv Hd Hse H2 Ht. destruct (diff_int_ok r Hv Hd Hse H2) as [H _]. destruct (H Ht) as [HD _].
  eexists. split; [exact HD|]. split; [rewrite rel_diff_eq in HD; exact (rel_make_valid _ _ _ HD)|].
  split; [reflexivity|]. cbn [r_y]. split; [rewrite map_length, diff_len; reflexivity|].
  intros i Hi. apply nth_nth_error. apply diff_nth; apply nth_error_nth'; lia.
Qed.
Lemma int_ok (r : rel) : valid r -> 0 < a_sample (r_x r) -> a_start (r_x r) <= a_end (r_x r) ->
  (2 <= length (r_y r))%nat -> ~ is_tie (qspan r) ->
  exists r', rel_integrate RA V DC r = Ok r' /\ valid r' /\ r_x r' = int_axis (r_x r) /\
    length (r_y r') = (length (r_y r) - 1)%nat /\
    forall k, (S k < length (r_y r))%nat ->
      nth k (r_y r') 0v = v_mul V (v_of V (a_sample (r_x r)))
        (vsum (fun i => v_div V (v_add V (nth i (r_y r) 0v) (nth (S i) (r_y r) 0v)) (v_of V 2)) (S k)).
Proof.
  intros Hv Hd Hse H2 Ht. destruct (diff_int_ok r Hv Hd Hse H2) as [H _]. destruct (H Ht) as [_ HD].
  eexists. split; [exact HD|]. split; [rewrite rel_int_eq in HD; exact (rel_make_valid _ _ _ HD)|].
  split; [reflexivity|]. cbn [r_y]. split; [rewrite map_length, cum_trapz_len; reflexivity|].
  intros k Hk. apply nth_nth_error. rewrite nth_error_map, (cum_trapz_nth L) by exact Hk. cbn [option_map].
  f_equal. rewrite (vsum_ext _ (fun i => v_div V (v_add V (nth i (r_y r) 0v) (nth (S i) (r_y r) 0v)) (v_of V 2))).
  - ring.
  - intros i _. f_equal. ring.
Qed.

Lemma qspan_ge (r : rel) : valid r -> 0 < a_sample (r_x r) -> a_start (r_x r) <= a_end (r_x r) ->
  (3 <= length (r_y r))%nat -> 3 / 2 <= qspan r.
Proof.
  intros Hv Hd Hse H3. unfold valid in Hv.
  apply axis_size_iff in Hv; [|rr; lra]. destruct Hv as [_ Hr]. unfold qspan.
  set (q := (a_end (r_x r) - a_start (r_x r)) / a_sample (r_x r)) in *.
  assert (Hq : 0 <= q) by (unfold q; apply Rmult_le_pos; [rr; lra | apply Rlt_le, Rinv_0_lt_compat; exact Hd]).
  assert (HZ : 2 <= IZR (Z.of_nat (length (r_y r)) - 1)) by (apply (IZR_le 2); lia).
  assert (HA : Rabs (Rabs q - IZR (Z.of_nat (length (r_y r)) - 1)) <= / 2).
  { destruct Hr as [H|[H _]]; rr; lra. }
  rewrite (Rabs_right q) in HA by lra. unfold Rabs in HA. destruct Rcase_abs in HA; lra.
Qed.
Lemma span_of_q (r : rel) : 0 < a_sample (r_x r) -> 1 <= qspan r ->
  a_start (r_x r) + a_sample (r_x r) <= a_end (r_x r).
Proof.
  intros Hd Hq. unfold qspan in Hq. rr. apply (Rmult_le_compat_r (a_sample (r_x r))) in Hq; [|lra].
  unfold Rdiv in Hq. rewrite Rmult_assoc, Rinv_l in Hq by lra. lra.
Qed.

(** C23 *)
Lemma int_diff (r : rel) : valid r -> 0 < a_sample (r_x r) -> a_start (r_x r) <= a_end (r_x r) ->
  (3 <= length (r_y r))%nat -> ~ is_tie (qspan r) ->
  exists r', (do i <- rel_integrate RA V DC r; rel_diff RA V DC i) = Ok r' /\
    a_start (r_x r') = a_start (r_x r) + 3 / 2 * a_sample (r_x r) /\
    a_end (r_x r') = a_end (r_x r) - 1 / 2 * a_sample (r_x r) /\ a_sample (r_x r') = a_sample (r_x r) /\
    length (r_y r') = (length (r_y r) - 2)%nat /\
    forall k, (S (S k) < length (r_y r))%nat ->
      nth k (r_y r') 0v = v_div V (v_add V (nth (S k) (r_y r) 0v) (nth (S (S k)) (r_y r) 0v)) (v_of V 2).
Proof.
  intros Hv Hd Hse H3 Ht. pose proof (qspan_ge r Hv Hd Hse H3) as Hq.
  pose proof (span_of_q r Hd ltac:(lra)) as Hsp.
  destruct (int_ok r Hv Hd Hse ltac:(lia) Ht) as (r1 & E1 & V1 & X1 & L1 & Y1).
  destruct (diff_ok r1) as (r2 & E2 & V2 & X2 & L2 & Y2).
  - exact V1.
  - rewrite X1. exact Hd.
  - rewrite X1. cbn [int_axis a_start a_end]. exact Hsp.
  - lia.
  - unfold qspan. rewrite X1. cbn [int_axis a_start a_end a_sample]. rr.
    replace ((a_end (r_x r) - (a_start (r_x r) + a_sample (r_x r))) / a_sample (r_x r)) with (qspan r - 1)
      by (unfold qspan; rr; field; lra).
    rewrite tie_minus_one. exact Ht.
  - exists r2. rewrite E1. cbn [bind]. split; [exact E2|]. rewrite X2, X1.
    cbn [diff_axis int_axis a_start a_end a_sample]. rr.
    split; [lra|]. split; [lra|]. split; [reflexivity|]. split; [lia|].
    intros k Hk. rewrite Y2 by lia. rewrite !Y1 by lia. rewrite X1. cbn [int_axis a_sample].
    set (f := fun i => _). cbn [vsum]. subst f. cbv beta. field.
    split; apply (vof_nz L); rr; lra.
Qed.
Lemma diff_int (r : rel) : valid r -> 0 < a_sample (r_x r) -> a_start (r_x r) <= a_end (r_x r) ->
  (3 <= length (r_y r))%nat -> ~ is_tie (qspan r) ->
  exists r', (do i <- rel_diff RA V DC r; rel_integrate RA V DC i) = Ok r' /\
    a_start (r_x r') = a_start (r_x r) + 3 / 2 * a_sample (r_x r) /\
    a_end (r_x r') = a_end (r_x r) - 1 / 2 * a_sample (r_x r) /\ a_sample (r_x r') = a_sample (r_x r) /\
    length (r_y r') = (length (r_y r) - 2)%nat /\
    forall k, (S (S k) < length (r_y r))%nat ->
      nth k (r_y r') 0v =
      v_sub V (v_div V (v_add V (nth (S k) (r_y r) 0v) (nth (S (S k)) (r_y r) 0v)) (v_of V 2))
              (v_div V (v_add V (nth 0 (r_y r) 0v) (nth 1 (r_y r) 0v)) (v_of V 2)).
Proof.
  intros Hv Hd Hse H3 Ht. pose proof (qspan_ge r Hv Hd Hse H3) as Hq.
  pose proof (span_of_q r Hd ltac:(lra)) as Hsp.
  destruct (diff_ok r Hv Hd Hse ltac:(lia) Ht) as (r1 & E1 & V1 & X1 & L1 & Y1).
  destruct (int_ok r1) as (r2 & E2 & V2 & X2 & L2 & Y2).
  - exact V1.
  - rewrite X1. exact Hd.
  - rewrite X1. cbn [diff_axis a_start a_end]. rr. lra.
  - lia.
  - unfold qspan. rewrite X1. cbn [diff_axis a_start a_end a_sample]. rr.
    replace ((a_end (r_x r) - a_sample (r_x r) / 2 - (a_start (r_x r) + a_sample (r_x r) / 2)) / a_sample (r_x r)) with (qspan r - 1)
      by (unfold qspan; rr; field; lra).
    rewrite tie_minus_one. exact Ht.
  - exists r2. rewrite E1. cbn [bind]. split; [exact E2|]. rewrite X2, X1.
    cbn [diff_axis int_axis a_start a_end a_sample]. rr.
    split; [lra|]. split; [lra|]. split; [reflexivity|]. split; [lia|].
    assert (Hdz : v_of V (a_sample (r_x r)) <> 0v) by (apply (vof_nz L); rr; lra).
    assert (H2z : v_of V 2 <> 0v) by (apply (vof_nz L); lra).
    induction k as [|k IH]; intros Hk.
    + rewrite Y2 by lia. rewrite X1. cbn [vsum diff_axis a_sample]. rewrite !Y1 by lia. field. split; assumption.
    + specialize (IH ltac:(lia)). rewrite Y2 in IH |- * by lia. rewrite X1 in IH |- *.
      cbn [diff_axis a_sample] in IH |- *.
      set (f := fun i => v_div V (v_add V (nth i (r_y r1) 0v) (nth (S i) (r_y r1) 0v)) (v_of V 2)) in *.
      change (vsum f (S (S k))) with (v_add V (vsum f (S k)) (f (S k))).
      replace (v_mul V (v_of V (a_sample (r_x r))) (v_add V (vsum f (S k)) (f (S k))))
        with (v_add V (v_mul V (v_of V (a_sample (r_x r))) (vsum f (S k))) (v_mul V (v_of V (a_sample (r_x r))) (f (S k)))) by ring.
      rewrite IH. unfold f. rewrite !Y1 by lia. field. split; assumption.
Qed.
End DiffInt.

(** *** C24 *)
Lemma Rpow_py_2 b : Rpow_py b 2 = b * b.
Proof.
  unfold Rpow_py, Rnat_of.
  assert (E : Int_part 2 = 2%Z).
  { destruct (base_Int_part 2) as [H1 H2]. assert (Int_part 2 <= 2)%Z by (apply le_IZR; lra).
    assert (1 < Int_part 2)%Z by (apply lt_IZR; lra). lia. }
  rewrite E. destruct (Req_EM_T 2 (IZR 2)) as [_|H]; [|exfalso; apply H; reflexivity]. change (pow b 2 = b * b). ring.
Qed.

Definition energy_sum (y : list R) (n : nat) : R :=
  vsum (V:=RV) (fun i => (nth i y 0 * nth i y 0 + nth (S i) y 0 * nth (S i) y 0) / 2) n.

Lemma trapz_vsum (V : Vals RA) (y : list (val V)) (x : list R) : length x = length y ->
  trapz RA V y x = vsum (fun i => v_div V (v_mul V (v_of V (nth (S i) x 0 - nth i x 0))
                      (v_add V (nth (S i) y (v_of V 0)) (nth i y (v_of V 0)))) (v_of V 2)) (length y - 1).
Proof.
  intros Hl. unfold trapz. rewrite v_sum_vsum.
  assert (G : forall (y : list (val V)) (x : list R), length x = length y ->
     length (trapz_terms RA V y x) = (length y - 1)%nat /\
     forall i, (S i < length y)%nat -> nth i (trapz_terms RA V y x) (v_of V 0) =
       v_div V (v_mul V (v_of V (nth (S i) x 0 - nth i x 0))
                      (v_add V (nth (S i) y (v_of V 0)) (nth i y (v_of V 0)))) (v_of V 2)).
  { clear. induction y as [|a y IH]; intros x Hl; [split; [reflexivity | cbn; lia]|].
    destruct x as [|x0 x]; [discriminate|].
    destruct y as [|b y]; [split; [reflexivity | cbn; lia]|].
    destruct x as [|x1 x]; [discriminate|].
    destruct (IH (x1 :: x)) as [H1 H2]; [cbn in *; lia|].
    change (trapz_terms RA V (a :: b :: y) (x0 :: x1 :: x)) with
      (v_div V (v_mul V (v_of V (x1 - x0)) (v_add V b a)) (v_of V 2) :: trapz_terms RA V (b :: y) (x1 :: x)).
    split.
    - cbn [length] in *. rewrite H1. lia.
    - intros [|i] Hi; [reflexivity|]. cbn [nth]. cbn [length] in Hi. rewrite H2 by (cbn [length]; lia). reflexivity. }
  destruct (G y x Hl) as [G1 G2]. rewrite G1. apply vsum_ext. intros i Hi. apply G2. lia.
Qed.

Lemma norm_eq (r : rel RA RV) : valid r ->
  rel_norm RA RV (default_config RA RV) r =
  Ok ((a_end (r_x r) - a_start (r_x r)) / INR (length (r_y r) - 1) / a_sample (r_x r)
      * energy_sum (r_y r) (length (r_y r) - 1)).
Proof.
  intros Hv. unfold rel_norm. rewrite rel_op_num_generic by exact Hv. cbn [bind].
  cbn [default_config c_int_one]. unfold one_integrate, rel_get_data. cbn [r_x r_y].
  unfold valid in Hv. rr. rewrite Hv. cbn [bind]. rewrite map_length, Nat.eqb_refl.
  change (axis_array RA (r_x r)) with (axis_array RA (r_x r)).
  rewrite (axis_array_size (r_x r) _ Hv). cbn [bind fst snd].
  set (n := length (r_y r)) in *. set (g := grid _ _ n). rr.
  rewrite (trapz_vsum RV) by (rewrite map_length; apply grid_length). rewrite map_length. fold n.
  cbn [RV v_div v_of]. f_equal.
  set (h := (a_end (r_x r) - a_start (r_x r)) / INR (n - 1)).
  assert (E : vsum (V:=RV) (fun i => v_div RV (v_mul RV (v_of RV (nth (S i) g 0 - nth i g 0))
     (v_add RV (nth (S i) (map (fun a => op_apply RA RV POW a (v_of RV (n_of_Z RA 2))) (r_y r)) (v_of RV 0))
               (nth i (map (fun a => op_apply RA RV POW a (v_of RV (n_of_Z RA 2))) (r_y r)) (v_of RV 0)))) (v_of RV 2)) (n - 1)
     = vsum (V:=RV) (fun i => h * ((nth i (r_y r) 0 * nth i (r_y r) 0 + nth (S i) (r_y r) 0 * nth (S i) (r_y r) 0) / 2)) (n - 1)).
  { apply vsum_ext. intros i Hi. cbn [RV v_div v_mul v_of v_add op_apply RA n_of_Z].
    assert (HY : forall j, (j < n)%nat -> nth j (map (fun a : R => Rpow_py a 2) (r_y r)) 0 = nth j (r_y r) 0 * nth j (r_y r) 0).
    { intros j Hj. apply nth_nth_error. rewrite nth_error_map. change (val RV) with R in *.
      rewrite (@nth_error_nth' R (r_y r) j 0) by exact Hj. cbn [option_map]. f_equal. apply Rpow_py_2. }
    cbn [v_pow]. rewrite !HY by lia.
    assert (HG : forall j, (j < n)%nat -> nth j g 0 = a_start (r_x r) + INR j * h).
    { intros j Hj. apply nth_nth_error. unfold g. rewrite grid_nth by exact Hj. reflexivity. }
    rewrite !HG by lia. rewrite S_INR. cbn [RV val]. rr. match goal with |- @eq _ ?a ?b => change (@eq R a b) end. field. }
  rr. etransitivity. { apply (f_equal (fun z => z / a_sample (r_x r))). exact E. }
  rewrite (vsum_scal RV_laws). unfold energy_sum. cbn [RV v_mul]. match goal with |- h * ?x / _ = _ * ?y => change y with x; generalize x end. intros s. change (val RV) with R in *. rr. unfold Rdiv. ring.
Qed.

Lemma energy_nonneg y n : 0 <= energy_sum y n.
Proof.
  unfold energy_sum. induction n as [|n IH]; [cbn; lra|]. cbn [vsum RV v_add]. cbn [RV v_add] in IH.
  pose proof (Rle_0_sqr (nth n y 0)). pose proof (Rle_0_sqr (nth (S n) y 0)). unfold Rsqr in *. lra.
Qed.
Lemma energy_zero y n : energy_sum y n = 0 -> forall i, (i < n)%nat -> nth i y 0 = 0 /\ nth (S i) y 0 = 0.
Proof.
  induction n as [|n IH]; intros H i Hi; [lia|]. pose proof (energy_nonneg y n) as Hp.
  unfold energy_sum in *. cbn [vsum RV v_add] in *.
  set (s := vsum (V:=RV) _ n) in *.
  pose proof (Rle_0_sqr (nth n y 0)). pose proof (Rle_0_sqr (nth (S n) y 0)). unfold Rsqr in *.
  destruct (Nat.eq_dec i n) as [->|Hne].
  - split; nra.
  - apply IH; [lra | lia].
Qed.
Lemma energy_scale c y n : energy_sum (map (fun a => c * a) y) n = c * c * energy_sum y n.
Proof.
  unfold energy_sum. rewrite <- (vsum_scal RV_laws). apply (vsum_ext (V:=RV)). intros i _.
  assert (E : forall j, nth j (map (fun a => c * a) y) 0 = c * nth j y 0).
  { intros j. rewrite <- (Rmult_0_r c) at 1. apply (map_nth (fun a => c * a)). }
  rewrite !E. cbn [RV v_mul]. match goal with |- @eq _ ?a ?b => change (@eq R a b) end. field.
Qed.
Lemma norm_scale (r : rel RA RV) c : valid r -> exists r' N,
  rel_op_num RA RV (default_config RA RV) RMUL r (OVal c) = Ok r' /\
  rel_norm RA RV (default_config RA RV) r = Ok N /\
  rel_norm RA RV (default_config RA RV) r' = Ok (c * c * N).
Proof.
  intros Hv. eexists. eexists. split; [apply rel_op_num_generic; exact Hv|]. split; [apply norm_eq; exact Hv|].
  rewrite norm_eq by (unfold valid; cbn [r_x r_y]; rewrite map_length; exact Hv).
  cbn [r_x r_y]. rewrite map_length. f_equal.
  change (op_apply RA RV RMUL) with (fun a b : R => b * a). cbv beta.
  rewrite energy_scale. ring.
Qed.
Lemma norm_nonneg (r : rel RA RV) : valid r ->
  0 <= (a_end (r_x r) - a_start (r_x r)) / a_sample (r_x r) ->
  exists N, rel_norm RA RV (default_config RA RV) r = Ok N /\ 0 <= N.
Proof.
  intros Hv Hq. eexists. split; [apply norm_eq; exact Hv|].
  apply Rmult_le_pos; [|apply energy_nonneg].
  replace ((a_end (r_x r) - a_start (r_x r)) / INR (length (r_y r) - 1) / a_sample (r_x r))
    with ((a_end (r_x r) - a_start (r_x r)) / a_sample (r_x r) * / INR (length (r_y r) - 1)) by (unfold Rdiv; rr; ring).
  destruct (length (r_y r) - 1)%nat as [|m].
  - cbn [INR]. rewrite Rinv_0. rr. lra.
  - apply Rmult_le_pos; [exact Hq|]. apply Rlt_le, Rinv_0_lt_compat, lt_0_INR. lia.
Qed.
Lemma norm_zero (r : rel RA RV) : valid r ->
  0 < (a_end (r_x r) - a_start (r_x r)) / a_sample (r_x r) -> (2 <= length (r_y r))%nat ->
  (rel_norm RA RV (default_config RA RV) r = Ok 0 <-> forall y, In y (r_y r) -> y = 0).
Proof.
  intros Hv Hq Hn. rewrite norm_eq by exact Hv.
  assert (HN : 0 < INR (length (r_y r) - 1)) by (apply lt_0_INR; lia).
  assert (Hc : 0 < (a_end (r_x r) - a_start (r_x r)) / INR (length (r_y r) - 1) / a_sample (r_x r)).
  { replace ((a_end (r_x r) - a_start (r_x r)) / INR (length (r_y r) - 1) / a_sample (r_x r))
      with ((a_end (r_x r) - a_start (r_x r)) / a_sample (r_x r) * / INR (length (r_y r) - 1)) by (unfold Rdiv; rr; ring).
    apply Rmult_lt_0_compat; [exact Hq | apply Rinv_0_lt_compat; exact HN]. }
  rr. set (c := _ / _ / _) in *. split.
  - intros E. injection E as E. apply Rmult_integral in E. destruct E as [E|E]; [lra|].
    intros y Hy. destruct (In_nth_error _ _ Hy) as [i Hi].
    assert (Hil : (i < length (r_y r))%nat) by (apply nth_error_Some; congruence).
    apply (nth_nth_error _ _ 0) in Hi. rewrite <- Hi.
    destruct (Nat.lt_ge_cases i (length (r_y r) - 1)) as [Hlt|Hge].
    + exact (proj1 (energy_zero _ _ E i Hlt)).
    + change (val RV) with R in *. destruct (energy_zero _ _ E (i - 1)%nat) as [_ H]; [lia|].
      replace (S (i - 1)) with i in H by lia. exact H.
  - intros H. f_equal. replace (energy_sum (r_y r) (length (r_y r) - 1)) with 0; [apply Rmult_0_r|].
    symmetry. unfold energy_sum. rewrite (vsum_ext (V:=RV) _ (fun _ => 0)).
    + apply (vsum_zero RV_laws).
    + intros i Hi.
      assert (HZ : forall j, nth j (r_y r) 0 = 0).
      { intros j. destruct (Nat.lt_ge_cases j (length (r_y r))) as [Hlt|Hge].
        - apply H. apply nth_In. exact Hlt.
        - apply nth_overflow. exact Hge. }
      rewrite !HZ. match goal with |- @eq _ ?a ?b => change (@eq R a b) end. field.
Qed.

Lemma Cpow_py_2 (b : C) : Cpow_py b (RtoC 2) = Cmult b b.
Proof.
  unfold Cpow_py, RtoC. cbn [fst snd]. destruct (Req_EM_T 0 0) as [_|H]; [|tauto].
  assert (E : Rnat_of 2 = Some 2%nat).
  { unfold Rnat_of. assert (E : Int_part 2 = 2%Z).
    { destruct (base_Int_part 2) as [H1 H2]. assert (Int_part 2 <= 2)%Z by (apply le_IZR; lra).
      assert (1 < Int_part 2)%Z by (apply lt_IZR; lra). lia. }
    rewrite E. destruct (Req_EM_T 2 (IZR 2)) as [_|H]; [reflexivity|exfalso; apply H; reflexivity]. }
  rewrite E. cbn [Cpow]. ring.
Qed.
Lemma norm_complex :
  rel_norm RA CV (default_config RA CV) (mkRel (A:=RA) (V:=CV) (mkAxis (A:=RA) 0 1 1) [Ci; Ci]) = Ok (RtoC (-1)).
Proof.
  assert (Hs : axis_size RA (mkAxis (A:=RA) 0 1 1) = Ok 2%nat).
  { rewrite axis_size_nz by (cbn; lra). cbn [a_start a_end a_sample].
    replace (Rabs ((1 - 0) / 1)) with (INR 1) by (rewrite Rabs_right; cbn; lra). rewrite Rround_INR. reflexivity. }
  unfold rel_norm. rewrite rel_op_num_generic by exact Hs. cbn [bind default_config c_int_one].
  unfold one_integrate, rel_get_data. cbn [r_x r_y map length]. rewrite Hs. cbn [bind Nat.eqb].
  rewrite (axis_array_size _ 2 Hs). cbn [bind fst snd].
  cbn [op_apply CV v_pow v_of RA n_of_Z]. rewrite !Cpow_py_2.
  unfold grid, grid_pt. cbn [map seq a_start a_end Nat.sub]. unfold trapz. cbn [trapz_terms]. unfold v_sum.
  cbn [fold_left CV v_add v_mul v_div v_of a_sample RA n_of_Z n_sub]. f_equal.
  unfold Cdiv, Cinv, Cmult, Cplus, Ci, RtoC. cbn [fst snd INR]. f_equal; field; lra.
Qed.
