(** Lemmas on codes composed of moved copies. *)
From Coq Require Import Reals ZArith List Bool Lia Lra.
From Coquelicot Require Import Complex.
From Verif Require Import Num Numpy AxisModel RelModel HeapModel Spec RLemmas AxisLemmas InterpLemmas VInst RelLemmas RelLemmas2 RelLemmas3
  FourierModel SweepModel PreparedModel PreparedSpec PreparedLemmas.
Import ListNotations.
Local Open Scope R_scope.

Section Copies.
Context {V : Vals RA} (L : VLaws V).
Notation val := (val V).
Notation DC := (default_config RA V).
Notation rel := (rel RA V).
Add Field VfieldP4 : (vl_field V L).

(** samples [y] at s + q d, s + (q+1) d, ... *)
Definition onlat (s d : R) (q : nat) (y : list val) : rel :=
  mkRel (A:=RA) (V:=V) (mkAxis (A:=RA) (s + INR q * d) (s + INR (q + (length y - 1)) * d) d) y.
Lemma lat_exact s d q (y : list val) : 0 < d -> exact_span (s + INR q * d) (s + INR (q + (length y - 1)) * d) d (length y - 1).
Proof. intros Hd. split; [exact Hd|]. rewrite plus_INR. ring. Qed.
Lemma lat_valid s d q (y : list val) : 0 < d -> y <> [] -> valid (onlat s d q y).
Proof.
  intros Hd Hy. unfold valid, onlat. cbn [r_x r_y]. rewrite (axis_size_exact _ (length y - 1)) by (apply lat_exact; exact Hd).
  f_equal. destruct y; [congruence | cbn; lia].
Qed.
Lemma lat_xs s d q (y : list val) : y <> [] -> xs_of (onlat s d q y) = arith_seq (s + INR q * d) d (length y).
Proof.
  intros Hy. unfold xs_of, onlat. cbn [r_x r_y a_start a_end].
  replace (s + INR (q + (length y - 1)) * d) with (s + INR q * d + INR (length y - 1) * d) by (rewrite plus_INR; ring).
  apply grid_arith. destruct y; [congruence | cbn; lia].
Qed.
Lemma seq_pt x0 d n i : (i < n)%nat -> nth_error (arith_seq x0 d n) i = Some (x0 + INR i * d).
Proof. intros H. unfold arith_seq. rewrite nth_error_map_seq by exact H. reflexivity. Qed.
Lemma lat_ev s d q (y : list val) i : 0 < d -> y <> [] ->
  ev (onlat s d q y) (s + INR i * d) = at0 y (Z.of_nat i - Z.of_nat q).
Proof.
  intros Hd Hy. pose proof (lat_valid s d q y Hd Hy) as Hv. unfold at0. destruct (Z.ltb_spec (Z.of_nat i - Z.of_nat q) 0) as [Hz|Hz].
  - symmetry. apply (ev_pl L _ _ _ Hv). apply PL_outside; [apply valid_ne; exact Hv|]. right. intros x Hx.
    rewrite lat_xs in Hx by exact Hy. apply In_nth_error in Hx. destruct Hx as [k Hk].
    pose proof (nth_error_len _ _ _ Hk) as Hl. unfold arith_seq in Hl. rewrite map_length, seq_length in Hl.
    rewrite seq_pt in Hk by exact Hl. injection Hk as <-. assert (INR i < INR q) by (apply lt_INR; lia).
    pose proof (Rmult_le_pos (INR k) d (pos_INR k) ltac:(lra)). pose proof (Rmult_lt_compat_r d (INR i) (INR q) Hd ltac:(assumption)). lra.
  - replace (Z.to_nat (Z.of_nat i - Z.of_nat q)) with (i - q)%nat by lia.
    destruct (nth_error y (i - q)) as [v|] eqn:E.
    + apply (ev_point L _ (i - q) _ v Hv); [|exact E].
      rewrite lat_xs by exact Hy. rewrite seq_pt by (eapply nth_error_len; exact E). f_equal. rewrite minus_INR by lia. ring.
    + symmetry. apply (ev_pl L _ _ _ Hv). apply PL_outside; [apply valid_ne; exact Hv|]. left. intros x Hx.
      apply nth_error_None in E.
      rewrite lat_xs in Hx by exact Hy. apply In_nth_error in Hx. destruct Hx as [k Hk].
      pose proof (nth_error_len _ _ _ Hk) as Hl. unfold arith_seq in Hl. rewrite map_length, seq_length in Hl.
      rewrite seq_pt in Hk by exact Hl. injection Hk as <-.
      assert (Hq : INR (q + k) < INR i) by (apply lt_INR; lia). rewrite plus_INR in Hq.
      pose proof (Rmult_lt_compat_r d _ _ Hd Hq). lra.
Qed.

Definition sum_list (y1 y2 : list val) (q : nat) : list val :=
  map (fun i => v_add V (at0 y1 (Z.of_nat i)) (at0 y2 (Z.of_nat i - Z.of_nat q))) (seq 0 (Nat.max (length y1) (q + length y2))).
Lemma at0_out (y : list val) z : (z < 0 \/ Z.of_nat (length y) <= z)%Z -> at0 y z = v_of V 0.
Proof.
  intros H. unfold at0. destruct (Z.ltb_spec z 0); [reflexivity|]. destruct H as [H|H]; [lia|].
  replace (nth_error y (Z.to_nat z)) with (@None val); [reflexivity|]. symmetry. apply nth_error_None. lia.
Qed.
Lemma sum_list_at y1 y2 q z : at0 (sum_list y1 y2 q) z = v_add V (at0 y1 z) (at0 y2 (z - Z.of_nat q)).
Proof.
  destruct (Z.ltb_spec z 0) as [Hz|Hz].
  - rewrite !at0_out by lia. ring.
  - destruct (Z.ltb_spec z (Z.of_nat (Nat.max (length y1) (q + length y2)))) as [Hm|Hm].
    + unfold at0 at 1. replace (z <? 0)%Z with false by (symmetry; apply Z.ltb_ge; exact Hz).
      unfold sum_list. rewrite nth_error_map_seq by lia. rewrite Z2Nat.id by exact Hz. reflexivity.
    + rewrite !at0_out; [ring|lia|lia|]. unfold sum_list. rewrite map_length, seq_length. lia.
Qed.
Lemma sum_list_len y1 y2 q : length (sum_list y1 y2 q) = Nat.max (length y1) (q + length y2).
Proof. unfold sum_list. rewrite map_length, seq_length. reflexivity. Qed.

Definition op_list (o : mathop) (y1 y2 : list val) (q : nat) : list val :=
  map (fun i => op_apply RA V o (at0 y1 (Z.of_nat i)) (at0 y2 (Z.of_nat i - Z.of_nat q))) (seq 0 (Nat.max (length y1) (q + length y2))).
Lemma op_list_len o y1 y2 q : length (op_list o y1 y2 q) = Nat.max (length y1) (q + length y2).
Proof. unfold op_list. rewrite map_length, seq_length. reflexivity. Qed.
Lemma lat_op o s d q (y1 y2 : list val) : 0 < d -> y1 <> [] -> y2 <> [] ->
  rel_op RA V DC o false (onlat s d 0 y1) (onlat s d q y2) = Ok (onlat s d 0 (op_list o y1 y2 q)).
Proof.
  intros Hd H1 H2. pose proof (lat_valid s d 0 y1 Hd H1) as V1. pose proof (lat_valid s d q y2 Hd H2) as V2.
  set (n := Nat.max (length y1) (q + length y2)).
  assert (Hn1 : (1 <= length y1)%nat) by (destruct y1; [congruence | cbn; lia]).
  assert (Hn2 : (1 <= length y2)%nat) by (destruct y2; [congruence | cbn; lia]).
  assert (Hc : common_x_default RA (r_x (onlat s d 0 y1)) (r_x (onlat s d q y2)) = mkAxis (A:=RA) (s + INR 0 * d) (s + INR (0 + (n - 1)) * d) d).
  { destruct (common_x_spec (r_x (onlat s d 0 y1)) (r_x (onlat s d q y2))) as (A1 & A2 & A3).
    apply axis_eq; [rewrite A1|rewrite A2|rewrite A3]; unfold onlat; cbn [r_x a_start a_end a_sample].
    - apply Rmin_left. cbn [INR]. pose proof (Rmult_le_pos (INR q) d (pos_INR q) ltac:(lra)). lra.
    - destruct (Nat.le_ge_cases (length y1) (q + length y2)) as [Hl|Hl].
      + replace n with (q + length y2)%nat by (unfold n; lia). rewrite Rmax_right.
        * do 3 f_equal. lia.
        * apply Rplus_le_compat_l, Rmult_le_compat_r; [lra|]. apply le_INR. lia.
      + replace n with (length y1) by (unfold n; lia). apply Rmax_left.
        apply Rplus_le_compat_l, Rmult_le_compat_r; [lra|]. apply le_INR. lia.
    - apply Rmin_left. lra. }
  assert (Hs : axis_size RA (common_x_default RA (r_x (onlat s d 0 y1)) (r_x (onlat s d q y2))) = Ok n).
  { rewrite Hc. rewrite (axis_size_exact _ (n - 1)); [f_equal; unfold n; lia|]. split; [exact Hd|]. cbn [a_start a_end a_sample INR Nat.add]. ring. }
  rewrite (rel_op_eq o _ _ n V1 V2 Hs). rewrite Hc. f_equal. unfold onlat. rewrite op_list_len. fold n. f_equal.
  cbn [a_start a_end]. unfold op_list. fold n.
  replace (s + INR (0 + (n - 1)) * d) with (s + INR 0 * d + INR (n - 1) * d) by (cbn [INR Nat.add]; ring).
  rewrite grid_arith by (unfold n; lia). unfold arith_seq. rewrite map_map. apply map_ext. intros i.
  replace (s + INR 0 * d + INR i * d) with (s + INR i * d) by (cbn [INR]; ring).
  fold (onlat s d 0 y1). fold (onlat s d q y2). rewrite !lat_ev by assumption. rewrite Z.sub_0_r. reflexivity.
Qed.
Lemma lat_add s d q (y1 y2 : list val) : 0 < d -> y1 <> [] -> y2 <> [] ->
  rel_op RA V DC ADD false (onlat s d 0 y1) (onlat s d q y2) = Ok (onlat s d 0 (sum_list y1 y2 q)).
Proof. intros Hd H1 H2. exact (lat_op ADD s d q y1 y2 Hd H1 H2). Qed.

Lemma lat_shift s d q k (y : list val) : 0 < d -> y <> [] -> rel_shift RA V (INR k * d) (onlat s d q y) = Ok (onlat s d (q + k) y).
Proof.
  intros Hd Hy. rewrite (shift_eq _ _ (lat_valid s d q y Hd Hy)). f_equal. unfold onlat, moved. cbn [r_x r_y a_start a_end a_sample].
  f_equal. apply axis_eq; cbn [a_start a_end a_sample]; rewrite ?plus_INR; try reflexivity; cbn; ring.
Qed.
Lemma lat_of (r : rel) m : exact_span (a_start (r_x r)) (a_end (r_x r)) (a_sample (r_x r)) m -> length (r_y r) = (m + 1)%nat ->
  r = onlat (a_start (r_x r)) (a_sample (r_x r)) 0 (r_y r).
Proof.
  intros [Hd He] Hl. destruct r as [x y]. unfold onlat. cbn [r_x r_y] in *. f_equal. apply axis_eq; cbn [a_start a_end a_sample]; try reflexivity.
  - cbn [INR]. symmetry. rewrite Rmult_0_l. apply Rplus_0_r.
  - replace (0 + (length y - 1))%nat with m by lia. lra.
Qed.
Lemma lat_scale s d q (y : list val) c : 0 < d -> y <> [] ->
  rel_op_num RA V DC MUL (onlat s d q y) (OVal c) = Ok (onlat s d q (map (fun v => v_mul V v c) y)).
Proof.
  intros Hd Hy. rewrite (rel_op_num_generic RA V MUL _ c (lat_valid s d q y Hd Hy)). unfold onlat. cbn [r_x r_y]. rewrite map_length. reflexivity.
Qed.
Lemma at0_map (y : list val) c z : at0 (map (fun v => v_mul V v c) y) z = v_mul V (at0 y z) c.
Proof.
  unfold at0. destruct (z <? 0)%Z; [ring|]. rewrite nth_error_map. destruct (nth_error y (Z.to_nat z)); cbn; [reflexivity | ring].
Qed.
Lemma ne_len (y : list val) n : length y = (n + 1)%nat -> y <> [].
Proof. intros H E. rewrite E in H. cbn in H. lia. Qed.

Lemma shift_r (r : rel) m k : exact_span (a_start (r_x r)) (a_end (r_x r)) (a_sample (r_x r)) m -> length (r_y r) = (m + 1)%nat ->
  rel_shift RA V (INR k * a_sample (r_x r)) r = Ok (onlat (a_start (r_x r)) (a_sample (r_x r)) k (r_y r)).
Proof.
  intros Hx Hl. pose proof (lat_of r m Hx Hl) as Er. pose proof (lat_shift (a_start (r_x r)) (a_sample (r_x r)) 0 k (r_y r) (proj1 Hx) (ne_len _ _ Hl)) as H.
  rewrite <- Er in H. exact H.
Qed.
Lemma scale_r (r : rel) m c : exact_span (a_start (r_x r)) (a_end (r_x r)) (a_sample (r_x r)) m -> length (r_y r) = (m + 1)%nat ->
  rel_op_num RA V DC MUL r (OVal c) = Ok (onlat (a_start (r_x r)) (a_sample (r_x r)) 0 (map (fun v => v_mul V v c) (r_y r))).
Proof.
  intros Hx Hl. pose proof (lat_of r m Hx Hl) as Er. pose proof (lat_scale (a_start (r_x r)) (a_sample (r_x r)) 0 (r_y r) c (proj1 Hx) (ne_len _ _ Hl)) as H.
  rewrite <- Er in H. exact H.
Qed.

(** *** zinger code *)
Lemma zinger_fold (r : rel) (m q : nat) : exact_span (a_start (r_x r)) (a_end (r_x r)) (a_sample (r_x r)) m -> length (r_y r) = (m + 1)%nat ->
  a_end (r_x r) = INR q * a_sample (r_x r) -> forall n : nat,
  exists y, fold_left (zinger_step RA V DC (fun d r => rel_shift RA V d r) r) (seq 0 n) (Ok r) = Ok (onlat (a_start (r_x r)) (a_sample (r_x r)) 0 y) /\
    length y = (m + 1 + (n - 1) * q)%nat /\
    forall z, at0 y z = v_add V (at0 (r_y r) z) (vsum (fun k => at0 (r_y r) (z - Z.of_nat (k * q))) n).
Proof.
  intros Hx Hl He n. pose proof (lat_of r m Hx Hl) as Er. pose proof (ne_len _ _ Hl) as Hne. pose proof Hx as [Hd _].
  induction n as [|n IH].
  - exists (r_y r). split; [cbn [seq fold_left]; f_equal; exact Er|]. split; [cbn; lia|]. intros z. cbn [vsum]. ring.
  - destruct IH as (y & E1 & E2 & E3). rewrite seq_S, fold_left_app. rewrite E1. cbn [fold_left Nat.add]. unfold zinger_step at 1. cbn [bind].
    assert (Es : n_mul RA (a_end (r_x r)) (n_of_Z RA (Z.of_nat n)) = INR (n * q) * a_sample (r_x r) :> R).
    { cbn [RA n_mul n_of_Z]. rewrite <- INR_IZR_INZ, mult_INR. rewrite He. ring. }
    rewrite Es, (shift_r r m _ Hx Hl). cbn [bind].
    assert (Hny : y <> []) by (intros E; rewrite E in E2; cbn [length] in E2; revert E2; generalize ((n - 1) * q)%nat; intros; lia).
    exists (sum_list y (r_y r) (n * q)). split; [apply lat_add; assumption|]. split.
    + rewrite sum_list_len, E2, Hl. replace (S n - 1)%nat with n by lia.
      assert (Hle : ((n - 1) * q <= n * q)%nat) by (apply Nat.mul_le_mono_r; lia). revert Hle.
      generalize ((n - 1) * q)%nat (n * q)%nat. intros; lia.
    + intros z. rewrite sum_list_at, E3. cbn [vsum]. ring.
Qed.
Lemma zinger_relation (r : rel) (m q n : nat) : exact_span (a_start (r_x r)) (a_end (r_x r)) (a_sample (r_x r)) m -> length (r_y r) = (m + 1)%nat ->
  a_end (r_x r) = INR q * a_sample (r_x r) -> (2 <= n)%nat ->
  exists r', get_code_zinger_relation RA V DC (fun d r => rel_shift RA V d r) r (Z.of_nat n) = Ok r' /\
    a_start (r_x r') = a_start (r_x r) /\ a_end (r_x r') = INR n * a_end (r_x r) /\ a_sample (r_x r') = a_sample (r_x r) /\
    length (r_y r') = (m + 1 + (n - 1) * q)%nat /\
    forall z, at0 (r_y r') z = v_add V (at0 (r_y r) z) (vsum (fun k => at0 (r_y r) (z - Z.of_nat (k * q))) n).
Proof.
  intros Hx Hl He Hn. destruct (zinger_fold r m q Hx Hl He n) as (y & E1 & E2 & E3).
  unfold get_code_zinger_relation. replace (1 <? Z.of_nat n)%Z with true by (symmetry; apply Z.ltb_lt; lia). rewrite Nat2Z.id.
  exists (onlat (a_start (r_x r)) (a_sample (r_x r)) 0 y). split; [exact E1|]. unfold onlat. cbn [r_x r_y a_start a_end a_sample].
  destruct Hx as [Hd Hs]. split; [cbn [INR]; rewrite Rmult_0_l; apply Rplus_0_r|]. split; [|split; [reflexivity|split; [exact E2|exact E3]]].
  match goal with |- @eq _ ?p ?q => change (p = q :> R) end.
  replace (0 + (length y - 1))%nat with (m + (n - 1) * q)%nat by (rewrite E2; generalize ((n - 1) * q)%nat; intros; lia). rewrite plus_INR, mult_INR, minus_INR by lia. cbn [INR].
  replace (a_start (r_x r)) with (a_end (r_x r) - INR m * a_sample (r_x r)) by lra. rewrite He. ring.
Qed.
Lemma zinger_one (cfg : config RA V) shift (r : rel) (n : Z) : (n <= 1)%Z -> get_code_zinger_relation RA V cfg shift r n = Ok r.
Proof. intros H. unfold get_code_zinger_relation. replace (1 <? n)%Z with false by (symmetry; apply Z.ltb_ge; lia). reflexivity. Qed.

(** *** code segments *)
Lemma segments_fold (r : rel) (m q : nat) : exact_span (a_start (r_x r)) (a_end (r_x r)) (a_sample (r_x r)) m -> length (r_y r) = (m + 1)%nat ->
  a_end (r_x r) = INR q * a_sample (r_x r) -> forall (code : list val) (cnt : nat) (y : list val), (1 <= cnt)%nat -> y <> [] ->
  exists y', segments RA V DC (fun d r => rel_shift RA V d r) r cnt code (onlat (a_start (r_x r)) (a_sample (r_x r)) 0 y) =
      Ok (onlat (a_start (r_x r)) (a_sample (r_x r)) 0 y') /\
    length y' = Nat.max (length y) (if Nat.eqb (length code) 0 then 0 else (cnt + length code - 1) * q + 1 + (m + 1)) /\
    forall z, at0 y' z = v_add V (at0 y z) (vsum (fun k => v_mul V (at0 (r_y r) (z - Z.of_nat (seg_offset q (cnt + k)))) (nth k code (v_of V 0))) (length code)).
Proof.
  intros Hx Hl He. pose proof (lat_of r m Hx Hl) as Er. pose proof (ne_len _ _ Hl) as Hne. pose proof Hx as [Hd _].
  induction code as [|c code IH]; intros cnt y Hc Hy.
  - exists y. split; [reflexivity|]. split; [cbn; lia|]. intros z. cbn [length vsum]. ring.
  - cbn [segments].
    assert (Es : n_add RA (n_mul RA (n_of_Z RA (Z.of_nat cnt)) (a_end (r_x r))) (a_sample (r_x r)) = INR (cnt * q + 1) * a_sample (r_x r) :> R).
    { cbn [RA n_mul n_add n_of_Z]. rewrite <- INR_IZR_INZ, plus_INR, mult_INR. rewrite He. cbn [INR]. ring. }
    rewrite Es, (shift_r r m _ Hx Hl). cbn [bind]. rewrite lat_scale by assumption. cbn [bind].
    assert (Hm : map (fun v => v_mul V v c) (r_y r) <> []) by (destruct (r_y r); [congruence | discriminate]).
    rewrite lat_add by assumption. cbn [bind].
    destruct (IH (S cnt) (sum_list y (map (fun v => v_mul V v c) (r_y r)) (cnt * q + 1)) ltac:(lia)) as (y' & E1 & E2 & E3).
    { intros E. apply (f_equal (@length val)) in E. rewrite sum_list_len, map_length, Hl in E. cbn in E. lia. }
    exists y'. split; [exact E1|]. split.
    + rewrite E2, sum_list_len, map_length, Hl. cbn [length Nat.eqb]. destruct (Nat.eqb_spec (length code) 0) as [E|E].
      * rewrite E. replace (cnt + 1 - 1)%nat with cnt by lia. lia.
      * replace (S cnt + length code - 1)%nat with (cnt + S (length code) - 1)%nat by lia.
        assert ((cnt * q <= (cnt + S (length code) - 1) * q)%nat) by (apply Nat.mul_le_mono_r; lia). lia.
    + intros z. rewrite E3, sum_list_at, at0_map. cbn [length].
      assert (Hsum : forall (g : nat -> val) n, vsum g (S n) = v_add V (g 0%nat) (vsum (fun k => g (S k)) n)).
      { intros g n; induction n as [|n IHn]; [cbn [vsum]; ring|]. cbn [vsum] in *. rewrite IHn. ring. }
      rewrite Hsum. cbn [nth]. rewrite Nat.add_0_r.
      replace (seg_offset q cnt) with (cnt * q + 1)%nat by (destruct cnt; [lia | reflexivity]).
      rewrite (vsum_ext (V:=V) (fun k => v_mul V (at0 (r_y r) (z - Z.of_nat (seg_offset q (cnt + S k)))) (nth k code (v_of V 0)))
                 (fun k => v_mul V (at0 (r_y r) (z - Z.of_nat (seg_offset q (S cnt + k)))) (nth k code (v_of V 0)))).
      * ring.
      * intros k _. replace (cnt + S k)%nat with (S cnt + k)%nat by lia. reflexivity.
Qed.
Lemma segments_relation (r : rel) (m q : nat) (code : list val) : exact_span (a_start (r_x r)) (a_end (r_x r)) (a_sample (r_x r)) m -> length (r_y r) = (m + 1)%nat ->
  a_end (r_x r) = INR q * a_sample (r_x r) -> code <> [] ->
  exists r', get_code_sweep_segments RA V DC (fun d r => rel_shift RA V d r) code r = Ok r' /\
    a_start (r_x r') = a_start (r_x r) /\ a_sample (r_x r') = a_sample (r_x r) /\
    a_end (r_x r') = a_end (r_x r) + INR (seg_offset q (length code - 1)) * a_sample (r_x r) /\
    length (r_y r') = (m + 1 + seg_offset q (length code - 1))%nat /\
    forall z, at0 (r_y r') z = vsum (fun k => v_mul V (at0 (r_y r) (z - Z.of_nat (seg_offset q k))) (nth k code (v_of V 0))) (length code).
Proof.
  intros Hx Hl He Hc. destruct code as [|c0 code]; [congruence|]. cbn [get_code_sweep_segments].
  pose proof (lat_of r m Hx Hl) as Er. pose proof (ne_len _ _ Hl) as Hne. pose proof Hx as [Hd Hs].
  rewrite (scale_r r m _ Hx Hl). cbn [bind].
  assert (Hm : map (fun v => v_mul V v c0) (r_y r) <> []) by (destruct (r_y r); [congruence | discriminate]).
  destruct (segments_fold r m q Hx Hl He code 1 _ ltac:(lia) Hm) as (y' & E1 & E2 & E3).
  exists (onlat (a_start (r_x r)) (a_sample (r_x r)) 0 y'). split; [exact E1|]. unfold onlat. cbn [r_x r_y a_start a_end a_sample].
  assert (Ely : length y' = (m + 1 + seg_offset q (length (c0 :: code) - 1))%nat).
  { rewrite E2, map_length, Hl. cbn [length]. replace (S (length code) - 1)%nat with (length code) by lia. destruct (length code) as [|k]; cbn [Nat.eqb seg_offset]; [lia|].
    replace (1 + S k - 1)%nat with (S k) by lia. lia. }
  split; [cbn [INR]; rewrite Rmult_0_l; apply Rplus_0_r|]. split; [reflexivity|]. split; [|split; [exact Ely|]].
  - match goal with |- @eq _ ?p ?q => change (p = q :> R) end. rewrite Ely. replace (0 + (m + 1 + seg_offset q (length (c0 :: code) - 1) - 1))%nat with (m + seg_offset q (length (c0 :: code) - 1))%nat by lia.
    rewrite plus_INR. lra.
  - intros z. rewrite E3, at0_map. cbn [length].
    assert (Hsum : forall (g : nat -> val) n, vsum g (S n) = v_add V (g 0%nat) (vsum (fun k => g (S k)) n)).
    { intros g n; induction n as [|n IHn]; [cbn [vsum]; ring|]. cbn [vsum] in *. rewrite IHn. ring. }
    rewrite Hsum. cbn [nth seg_offset Nat.add]. rewrite Z.sub_0_r. reflexivity.
Qed.

(** a base whose shift keeps the axis *)
Lemma segments_kept (shift : R -> rel -> result rel) (r : rel) (moved_by : R -> list val) : valid r ->
  (forall d, length (moved_by d) = length (r_y r) /\ shift d r = Ok (mkRel (A:=RA) (V:=V) (r_x r) (moved_by d))) ->
  forall (code : list val) (cnt : nat) (y : list val), length y = length (r_y r) ->
  exists y', segments RA V DC shift r cnt code (mkRel (A:=RA) (V:=V) (r_x r) y) = Ok (mkRel (A:=RA) (V:=V) (r_x r) y') /\ length y' = length (r_y r) /\
    forall i, (i < length (r_y r))%nat -> nth i y' (v_of V 0) =
      v_add V (nth i y (v_of V 0)) (vsum (fun k => v_mul V (nth i (moved_by (INR (cnt + k) * a_end (r_x r) + a_sample (r_x r))) (v_of V 0)) (nth k code (v_of V 0))) (length code)).
Proof.
  intros Hv Hs. induction code as [|c code IH]; intros cnt y Hy.
  - exists y. split; [reflexivity|]. split; [exact Hy|]. intros i _. cbn [length vsum]. ring.
  - cbn [segments]. set (D := n_add RA (n_mul RA (n_of_Z RA (Z.of_nat cnt)) (a_end (r_x r))) (a_sample (r_x r))).
    assert (ED : D = INR cnt * a_end (r_x r) + a_sample (r_x r)) by (unfold D; cbn [RA n_mul n_add n_of_Z]; rewrite <- INR_IZR_INZ; reflexivity).
    destruct (Hs D) as [HD1 HD2]. rewrite HD2. cbn [bind].
    rewrite (rel_op_num_generic RA V MUL _ c) by (cbn [r_x r_y]; rewrite HD1; exact Hv). cbn [bind r_x r_y].
    rewrite (rel_op_equal_axes L ADD false) by (try reflexivity; unfold valid; cbn [r_x r_y]; rewrite ?map_length, ?HD1, ?Hy; exact Hv). cbn [bind r_x r_y].
    set (y2 := map2 (op_apply RA V ADD) y (map (fun a => op_apply RA V MUL a c) (moved_by D))).
    assert (Hy2 : length y2 = length (r_y r)) by (unfold y2; rewrite map2_length; [exact Hy | rewrite map_length, HD1; exact Hy]).
    destruct (IH (S cnt) y2 Hy2) as (y' & E1 & E2 & E3). exists y'. split; [exact E1|]. split; [exact E2|]. intros i Hi. rewrite (E3 i Hi).
    assert (En : nth i y2 (v_of V 0) = v_add V (nth i y (v_of V 0)) (v_mul V (nth i (moved_by D) (v_of V 0)) c)).
    { apply nth_nth_error. unfold y2. rewrite (map2_nth _ _ _ _ (nth i y (v_of V 0)) (v_mul V (nth i (moved_by D) (v_of V 0)) c)); [reflexivity| |].
      - apply nth_error_nth'. lia.
      - rewrite nth_error_map, (nth_error_nth' (moved_by D) i (v_of V 0)) by lia. reflexivity. }
    rewrite En. cbn [length].
    assert (Hsum : forall (g : nat -> val) n, vsum g (S n) = v_add V (g 0%nat) (vsum (fun k => g (S k)) n)).
    { intros g n; induction n as [|n IHn]; [cbn [vsum]; ring|]. cbn [vsum] in *. rewrite IHn. ring. }
    rewrite Hsum. cbn [nth]. rewrite Nat.add_0_r, <- ED.
    rewrite (vsum_ext (V:=V) (fun k => v_mul V (nth i (moved_by (INR (cnt + S k) * a_end (r_x r) + a_sample (r_x r))) (v_of V 0)) (nth k code (v_of V 0)))
               (fun k => v_mul V (nth i (moved_by (INR (S cnt + k) * a_end (r_x r) + a_sample (r_x r))) (v_of V 0)) (nth k code (v_of V 0)))).
    + ring.
    + intros k _. replace (cnt + S k)%nat with (S cnt + k)%nat by lia. reflexivity.
Qed.
Lemma segments_signal (shift : R -> rel -> result rel) (r : rel) (moved_by : R -> list val) c0 (code : list val) : valid r ->
  (forall d, length (moved_by d) = length (r_y r) /\ shift d r = Ok (mkRel (A:=RA) (V:=V) (r_x r) (moved_by d))) ->
  exists y', get_code_sweep_segments RA V DC shift (c0 :: code) r = Ok (mkRel (A:=RA) (V:=V) (r_x r) y') /\ length y' = length (r_y r) /\
    forall i, (i < length (r_y r))%nat -> nth i y' (v_of V 0) =
      v_add V (v_mul V (nth i (r_y r) (v_of V 0)) c0)
        (vsum (fun k => v_mul V (nth i (moved_by (INR (1 + k) * a_end (r_x r) + a_sample (r_x r))) (v_of V 0)) (nth k code (v_of V 0))) (length code)).
Proof.
  intros Hv Hs. cbn [get_code_sweep_segments]. rewrite (rel_op_num_generic RA V MUL r c0 Hv). cbn [bind].
  destruct (segments_kept shift r moved_by Hv Hs code 1 (map (fun a => op_apply RA V MUL a c0) (r_y r)) (map_length _ _)) as (y' & E1 & E2 & E3).
  exists y'. split; [exact E1|]. split; [exact E2|]. intros i Hi. rewrite (E3 i Hi). f_equal. apply nth_nth_error.
  rewrite nth_error_map, (nth_error_nth' (r_y r) i (v_of V 0) Hi). reflexivity.
Qed.
End Copies.
