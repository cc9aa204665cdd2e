(** Proofs of C77: sizes and arrays of axes in binary64. *)
From Coq Require Import Reals ZArith List Bool Lia Lra SpecFloat Psatz.
From Flocq Require Import Core.
From Verif Require Import Num Numpy Spec AxisModel RelModel RLemmas AxisLemmas FloatSpec FloatLemmas.
Import ListNotations.
Local Open Scope R_scope.

Lemma powerRZ_bpow e : powerRZ 2 e = bpow radix2 e.
Proof. rewrite bpow_powerRZ. reflexivity. Qed.

Lemma f64_round_fin x : f64_fin x -> f64_round x = Some (Rround (f64_val x)).
Proof.
  intros [_ F]. destruct x as [s|s| |s m e]; try contradiction; cbn [f64_round f64_val].
  - f_equal. symmetry. apply (Rround_iff 0 0). left. rewrite Rminus_0_r, Rabs_R0. lra.
  - set (z := if s then Z.neg m else Z.pos m).
    replace (if s then - IZR (Z.pos m) else IZR (Z.pos m)) with (IZR z) by (destruct s; reflexivity).
    f_equal. symmetry. apply Rround_iff. destruct e as [|p|p].
    + left. cbn. replace (IZR z * 1 - IZR z) with 0 by ring. rewrite Rabs_R0. lra.
    + left. rewrite mult_IZR. cbn [powerRZ].
      replace (IZR (Z.pow_pos 2 p)) with (2 ^ Pos.to_nat p).
      { rewrite Rminus_diag_eq by reflexivity. rewrite Rabs_R0. lra. }
      change 2 with (IZR 2). rewrite pow_IZR. f_equal. rewrite positive_nat_Z. reflexivity.
    + set (d := Z.pow_pos 2 p).
      assert (Hd : (0 < d)%Z) by (apply (Z.pow_pos_nonneg 2 (Z.pos p)); lia).
      assert (Hv : powerRZ 2 (Z.neg p) = / IZR d).
      { cbn [powerRZ]. f_equal. change 2 with (IZR 2). rewrite pow_IZR. f_equal. rewrite positive_nat_Z. reflexivity. }
      rewrite Hv. pose proof (Z.mod_pos_bound z d Hd) as Hm.
      pose proof (Z.div_mod z d ltac:(lia)) as Hz. set (f := (z / d)%Z) in *.
      set (r := (z mod d)%Z) in *. assert (HD : 0 < IZR d) by (apply IZR_lt; lia).
      assert (Er : (z - f * d = r)%Z) by lia. rewrite Er.
      assert (Ev : IZR z * / IZR d = IZR f + IZR r * / IZR d).
      { rewrite Hz. rewrite plus_IZR, mult_IZR. field. lra. }
      rewrite Ev. set (q := IZR r * / IZR d).
      assert (Hq : 0 <= q < 1).
      { unfold q. split.
        - apply Rmult_le_pos; [apply IZR_le; lia|left; apply Rinv_0_lt_compat; exact HD].
        - apply Rmult_lt_reg_r with (IZR d); [exact HD|]. rewrite Rmult_assoc, Rinv_l by lra.
          rewrite Rmult_1_r, Rmult_1_l. apply IZR_lt. lia. }
      assert (Hc : forall c, (2 * r ?= d)%Z = c -> match c with Lt => q < / 2 | Eq => q = / 2 | Gt => / 2 < q end).
      { intros c E. assert (Er2 : IZR r = q * IZR d) by (unfold q; field; lra).
        destruct c.
        - apply Z.compare_eq in E. apply (f_equal IZR) in E. rewrite mult_IZR in E. nra.
        - rewrite Z.compare_lt_iff in E. apply IZR_lt in E. rewrite mult_IZR in E. nra.
        - rewrite Z.compare_gt_iff in E. apply IZR_lt in E. rewrite mult_IZR in E. nra. }
      specialize (Hc _ eq_refl). destruct (2 * r ?= d)%Z; cbn [half_even].
      * destruct (Z.even f) eqn:Ef.
        -- right. split; [rewrite Hc; replace (IZR f + / 2 - IZR f) with (/ 2) by ring; rewrite Rabs_right; lra|].
           apply Z.even_spec. exact Ef.
        -- right. rewrite plus_IZR. split; [rewrite Hc; replace (IZR f + / 2 - (IZR f + 1)) with (- / 2) by field; rewrite Rabs_Ropp, Rabs_right; lra|].
           apply Z.even_spec. rewrite Z.even_add, Ef. reflexivity.
      * left. replace (IZR f + q - IZR f) with q by ring. rewrite Rabs_right; lra.
      * left. rewrite plus_IZR. replace (IZR f + q - (IZR f + 1)) with (q - 1) by ring. rewrite Rabs_left1; lra.
Qed.

Lemma uu_pos : 0 < uu. Proof. unfold uu. lra. Qed.
Lemma tiny : 0 < bpow radix2 (-1075) <= uu / 16.
Proof.
  split; [apply bpow_gt_0|]. apply Rle_trans with (bpow radix2 (-57)); [apply bpow_le; lia|].
  unfold uu. cbn. lra.
Qed.
Lemma two51 : / 2 ^ 51 = 4 * uu.
Proof. unfold uu. lra. Qed.

Lemma Rabs_near a b c : Rabs (a - b) <= c -> Rabs (Rabs a - Rabs b) <= c.
Proof. intros H. pose proof (Rabs_triang_inv2 a b). lra. Qed.

(** what the bundle of hypotheses says about real numbers *)
Lemma axis_real s e d n : f64_axis s e d n ->
  let S := f64_val s in let E := f64_val e in let D := f64_val d in
  fmt S /\ fmt E /\ fmt D /\ Rabs S <= bpow radix2 1000 /\ Rabs E <= bpow radix2 1000 /\
  bpow radix2 (-1000) <= Rabs D /\ INR n + 1 <= bpow radix2 50 /\
  Rabs (Rabs (E - S) / Rabs D - INR n) <= / 2 - (INR n + 1) * (4 * uu).
Proof.
  intros (Fs & Fe & Fd & Bs & Be & Bd & H). cbv zeta. rewrite !powerRZ_bpow in *. rewrite two51 in H.
  rewrite plus_INR in H. cbn [INR] in H.
  repeat split; try assumption; try (apply fin_fmt; assumption).
  pose proof (Rabs_pos (Rabs (f64_val e - f64_val s) / Rabs (f64_val d) - INR n)) as P.
  unfold uu in H. cbn. lra.
Qed.

Lemma linspace_more (A : Arith) (s e : num A) n : (1 <= n)%nat -> linspace A s e (n + 1) =
  map (fun i => n_add A (if n_eq A (n_div A (n_sub A e s) (n_of_nat A n)) (n_of_Z A 0)
                         then n_mul A (n_div A (n_of_nat A i) (n_of_nat A n)) (n_sub A e s)
                         else n_mul A (n_of_nat A i) (n_div A (n_sub A e s) (n_of_nat A n))) s) (seq 0 n) ++ [e].
Proof. intros H. rewrite Nat.add_comm. destruct n as [|m]; [lia|]. reflexivity. Qed.

Section Size.
Context (s e d : spec_float) (n : nat) (HA : f64_axis s e d n).
Let S := f64_val s. Let E := f64_val e. Let D := f64_val d.

Lemma ax_d_nz : D <> 0.
Proof.
  destruct (axis_real _ _ _ _ HA) as (_ & _ & _ & _ & _ & H & _). fold D in H. intros X.
  rewrite X, Rabs_R0 in H. pose proof (bpow_gt_0 radix2 (-1000)). lra.
Qed.
Lemma ax_span : Rabs (E - S) <= bpow radix2 1001.
Proof.
  destruct (axis_real _ _ _ _ HA) as (_ & _ & _ & H1 & H2 & _). fold S in H1. fold E in H2.
  change 1001%Z with (1 + 1000)%Z. rewrite bpow_plus. change (bpow radix2 1) with 2.
  pose proof (Rabs_triang E (- S)). rewrite Rabs_Ropp in H. unfold Rminus. lra.
Qed.
Lemma ax_delta : f64_fin (SFsub 53 1024 e s) /\ f64_val (SFsub 53 1024 e s) = frnd (E - S).
Proof.
  destruct HA as (Fs & Fe & _). apply f64_sub; try assumption.
  eapply Rle_trans; [exact ax_span|apply bpow_le; lia].
Qed.
Lemma ax_delta_err : Rabs (frnd (E - S) - (E - S)) <= uu * Rabs (E - S).
Proof. destruct HA as (Fs & Fe & _). apply frnd_err_sub; apply fin_fmt; assumption. Qed.

Lemma ax_ratio : Rabs (E - S) / Rabs D <= INR n + / 2 /\ INR n - / 2 < Rabs (E - S) / Rabs D.
Proof.
  destruct (axis_real _ _ _ _ HA) as (_ & _ & _ & _ & _ & _ & _ & H). fold S E D in H.
  pose proof (pos_INR n). pose proof uu_pos. assert (0 < (INR n + 1) * (4 * uu)) by nra.
  apply Rabs_le_inv in H. lra.
Qed.

Lemma ax_quot : let q := SFdiv 53 1024 (SFsub 53 1024 e s) d in
  f64_fin q /\ Rabs (Rabs (f64_val q) - INR n) < / 2.
Proof.
  cbv zeta. destruct HA as (_ & _ & Fd & _). destruct ax_delta as [Fdl Edl]. pose proof ax_delta_err as Edr.
  pose proof ax_d_nz as Dz. pose proof ax_ratio as [R1 R2].
  destruct (axis_real _ _ _ _ HA) as (_ & _ & _ & _ & _ & _ & Hn & H). fold S E D in H.
  pose proof uu_pos as U. assert (U1 : uu <= / 1024) by (unfold uu; lra). pose proof tiny as T. pose proof (pos_INR n) as Pn.
  set (Q := Rabs (E - S) / Rabs D) in *. assert (HQ0 : 0 <= Q) by (unfold Q; apply Rmult_le_pos; [apply Rabs_pos|left; apply Rinv_0_lt_compat, Rabs_pos_lt, Dz]).
  set (dl := frnd (E - S)) in *.
  assert (HQ : Q = Rabs ((E - S) / D)) by (unfold Q; symmetry; apply Rabs_div'; exact Dz).
  assert (H1 : Rabs (dl / D - (E - S) / D) <= uu * Q).
  { replace (dl / D - (E - S) / D) with ((dl - (E - S)) / D) by (field; exact Dz).
    rewrite Rabs_div' by exact Dz. unfold Q, Rdiv. rewrite <- Rmult_assoc. apply Rmult_le_compat_r; [left; apply Rinv_0_lt_compat, Rabs_pos_lt, Dz|exact Edr]. }
  assert (H2 : Rabs (Rabs (dl / D) - Q) <= uu * Q) by (rewrite HQ at 1; apply Rabs_near, H1).
  apply Rabs_le_inv in H2.
  assert (Hb : Rabs (dl / D) <= bpow radix2 1023).
  { apply Rle_trans with (bpow radix2 52); [|apply bpow_le; lia].
    replace (bpow radix2 52) with (4 * bpow radix2 50) by (cbn; lra). nra. }
  destruct (f64_div _ d Fdl Fd) as [Fq Eq].
  { fold D. exact Dz. } { rewrite Edl. exact Hb. }
  split; [exact Fq|]. rewrite Eq, Edl. fold D dl.
  pose proof (frnd_err (dl / D)) as He. apply Rabs_near in He. apply Rabs_le_inv in He.
  apply Rabs_le_inv in H. apply Rabs_lt.
  assert (uu * Q <= uu * (INR n + / 2)) by (apply Rmult_le_compat_l; lra).
  assert (uu * Rabs (dl / D) <= uu * (2 * (INR n + / 2))) by (apply Rmult_le_compat_l; nra).
  split; nra.
Qed.

Lemma near_round x k : Rabs (x - INR k) < / 2 -> Rround x = Z.of_nat k.
Proof. intros H. apply Rround_iff. left. rewrite <- INR_IZR_INZ. exact H. Qed.

Lemma ax_nonzero : n_eq FA d (n_of_Z FA 0) = false.
Proof.
  cbn. destruct HA as (_ & _ & Fd & _). apply not_true_is_false. intros X.
  destruct (f64_Z_exact 0 ltac:(cbn; lia)) as [F0 E0].
  apply (f64_eqb d (f64_of_Z 0) Fd F0) in X. rewrite E0 in X. exact (ax_d_nz X).
Qed.

Lemma f64_size : axis_size FA (mkAxis (A:=FA) s e d) = Ok (n + 1)%nat /\
  axis_size RA (mkAxis (A:=RA) S E D) = Ok (n + 1)%nat.
Proof.
  split.
  - unfold axis_size. cbn [a_sample a_start a_end]. rewrite ax_nonzero.
    destruct ax_quot as [Fq Hq]. cbn [n_round n_abs n_div n_sub FA].
    destruct (f64_abs _ Fq) as [Fa Ea]. rewrite (f64_round_fin _ Fa), Ea.
    rewrite (near_round _ n Hq), Nat2Z.id. reflexivity.
  - rewrite axis_size_nz by (cbn; exact ax_d_nz). cbn.
    rewrite (near_round _ n); [rewrite Nat2Z.id; reflexivity|].
    rewrite Rabs_div' by exact ax_d_nz.
    pose proof (axis_real _ _ _ _ HA) as (_ & _ & _ & _ & _ & _ & _ & H). fold S E D in H.
    pose proof (pos_INR n). pose proof uu_pos. assert (0 < (INR n + 1) * (4 * uu)) by nra. lra.
Qed.

(** *** the points *)
Context (Hn1 : (1 <= n)%nat).
Let H := (E - S) / INR n.
Let dl := frnd (E - S).
Let st := frnd (dl / INR n).
Let M := Rmax (Rabs S) (Rabs E).

Lemma n_pos : 1 <= INR n. Proof. apply (le_INR 1). exact Hn1. Qed.
Lemma n_small : INR n <= bpow radix2 50.
Proof. destruct (axis_real _ _ _ _ HA) as (_ & _ & _ & _ & _ & _ & Hs & _). lra. Qed.
Lemma n_u : INR n * (8 * uu) <= 1.
Proof. pose proof n_small as X. cbn in X. unfold uu. lra. Qed.
Lemma of_nat_fin i : (i <= n)%nat -> f64_fin (n_of_nat FA i) /\ f64_val (n_of_nat FA i) = INR i.
Proof.
  intros Hi. unfold n_of_nat. cbn [n_of_Z FA]. rewrite INR_IZR_INZ. apply f64_Z_exact.
  apply le_IZR. rewrite abs_IZR, <- INR_IZR_INZ, Rabs_right by (apply Rle_ge, pos_INR).
  apply le_INR in Hi. pose proof n_small as X. cbn in X. apply Rle_trans with (INR n); [exact Hi|].
  apply Rle_trans with 1125899906842624; [exact X|]. apply IZR_le. discriminate.
Qed.
Lemma H_abs : Rabs (E - S) = INR n * Rabs H.
Proof.
  unfold H. pose proof n_pos. rewrite Rabs_div' by lra. rewrite (Rabs_right (INR n)) by lra. field. lra.
Qed.
Lemma H_big : bpow radix2 (-1001) <= Rabs H.
Proof.
  pose proof ax_ratio as [_ R2]. pose proof n_pos as P. pose proof ax_d_nz as Dz.
  destruct (axis_real _ _ _ _ HA) as (_ & _ & _ & _ & _ & B & _). fold D in B.
  assert (PD : 0 < Rabs D) by (apply Rabs_pos_lt; exact Dz).
  rewrite H_abs in R2. apply (Rmult_lt_compat_r (Rabs D)) in R2; [|exact PD].
  unfold Rdiv in R2. rewrite Rmult_assoc, Rinv_l, Rmult_1_r in R2 by lra.
  replace (bpow radix2 (-1000)) with (2 * bpow radix2 (-1001)) in B.
  2:{ change (-1000)%Z with (1 + -1001)%Z. rewrite bpow_plus. reflexivity. }
  pose proof (bpow_gt_0 radix2 (-1001)). nra.
Qed.
Lemma dl_H : Rabs (dl / INR n - H) <= uu * Rabs H.
Proof.
  pose proof n_pos. unfold H. replace (dl / INR n - (E - S) / INR n) with ((dl - (E - S)) / INR n) by (field; lra).
  rewrite !Rabs_div' by lra. unfold Rdiv. rewrite <- Rmult_assoc. apply Rmult_le_compat_r.
  - left. apply Rinv_0_lt_compat, Rabs_pos_lt. lra.
  - exact ax_delta_err.
Qed.
Lemma uu_small : uu <= / 1024. Proof. unfold uu. lra. Qed.
Lemma quarter k : bpow radix2 k = 4 * bpow radix2 (k - 2).
Proof. replace k with (2 + (k - 2))%Z at 1 by lia. rewrite bpow_plus. cbn. lra. Qed.
Lemma span_H : Rabs H <= bpow radix2 1001.
Proof.
  pose proof ax_span as X. rewrite H_abs in X. pose proof n_pos. pose proof (Rabs_pos H). nra.
Qed.
Lemma st_ok : let x := SFdiv 53 1024 (SFsub 53 1024 e s) (n_of_nat FA n) in
  f64_fin x /\ f64_val x = st /\ Rabs (st - H) <= 17 / 8 * uu * Rabs H.
Proof.
  cbv zeta. destruct ax_delta as [F1 E1]. destruct (of_nat_fin n (le_n n)) as [F2 E2].
  pose proof n_pos. pose proof dl_H as X. pose proof H_big as HB. pose proof uu_small. pose proof uu_pos.
  pose proof (Rabs_triang_inv2 (dl / INR n) H) as Y. pose proof span_H as HS.
  assert (Z : Rabs (Rabs (dl / INR n) - Rabs H) <= uu * Rabs H) by lra. apply Rabs_le_inv in Z.
  assert (L : Rabs (dl / INR n) <= bpow radix2 1003).
  { rewrite (quarter 1003). change (1003 - 2)%Z with 1001%Z. pose proof (Rabs_pos H). nra. }
  destruct (f64_div _ (n_of_nat FA n) F1 F2) as [F3 E3].
  - rewrite E2. lra.
  - rewrite E1, E2. eapply Rle_trans; [exact L|apply bpow_le; lia].
  - split; [exact F3|]. rewrite E3, E1, E2. split; [reflexivity|].
    fold dl. fold st.
    assert (G : Rabs (st - dl / INR n) <= uu * Rabs (dl / INR n)).
    { apply frnd_err_normal. apply Rle_trans with (bpow radix2 (-1003)); [apply bpow_le; lia|].
      pose proof (quarter (-1001)) as Q. change (-1001 - 2)%Z with (-1003)%Z in Q.
      pose proof (bpow_gt_0 radix2 (-1003)). nra. }
    replace (st - H) with ((st - dl / INR n) + (dl / INR n - H)) by ring.
    eapply Rle_trans; [apply Rabs_triang|].
    assert (UH : uu * Rabs H <= / 1024 * Rabs H) by (apply Rmult_le_compat_r; [apply Rabs_pos|lra]).
    assert (uu * Rabs (dl / INR n) <= uu * (1025 / 1024 * Rabs H)) by (apply Rmult_le_compat_l; lra). lra.
Qed.
Lemma st_bounds : Rabs H / 2 <= Rabs st <= 9 / 8 * Rabs H.
Proof.
  destruct st_ok as (_ & _ & X). pose proof (Rabs_triang_inv2 st H) as Y. pose proof uu_small. pose proof uu_pos. pose proof (Rabs_pos H).
  assert (Z : Rabs (Rabs st - Rabs H) <= 17 / 8 * uu * Rabs H) by lra. apply Rabs_le_inv in Z. nra.
Qed.
Lemma st_nz : st <> 0.
Proof.
  intros X. pose proof st_bounds as B. rewrite X, Rabs_R0 in B. pose proof H_big. pose proof (bpow_gt_0 radix2 (-1001)). lra.
Qed.

Let pp (i : nat) : R := frnd (INR i * st).
Let aa (i : nat) : R := frnd (pp i + S).

Lemma pp_err i : (i <= n)%nat -> Rabs (pp i - INR i * H) <= 13 / 4 * uu * (INR i * Rabs H).
Proof.
  intros Hi. destruct st_ok as (_ & _ & X). pose proof st_bounds as B. pose proof (pos_INR i) as Pi.
  pose proof uu_small. pose proof uu_pos. pose proof H_big as HB. unfold pp. destruct i as [|j].
  - cbn [INR]. rewrite !Rmult_0_l. rewrite frnd_fmt by apply generic_format_0. rewrite Rminus_0_r, Rabs_R0. lra.
  - set (i := Datatypes.S j) in *. assert (P1 : 1 <= INR i) by (apply (le_INR 1); unfold i; lia).
    assert (G : Rabs (frnd (INR i * st) - INR i * st) <= uu * Rabs (INR i * st)).
    { apply frnd_err_normal. rewrite Rabs_mult, (Rabs_right (INR i)) by lra.
      apply Rle_trans with (bpow radix2 (-1003)); [apply bpow_le; lia|].
      pose proof (quarter (-1001)) as Q. change (-1001 - 2)%Z with (-1003)%Z in Q.
      pose proof (bpow_gt_0 radix2 (-1003)). nra. }
    rewrite Rabs_mult, (Rabs_right (INR i)) in G by lra.
    replace (frnd (INR i * st) - INR i * H) with ((frnd (INR i * st) - INR i * st) + INR i * (st - H)) by ring.
    eapply Rle_trans; [apply Rabs_triang|]. rewrite Rabs_mult, (Rabs_right (INR i)) by lra.
    destruct st_ok as (_ & _ & X2).
    assert (Bs : Rabs st <= (1 + 17 / 8 * uu) * Rabs H).
    { pose proof (Rabs_triang_inv st H) as Y. lra. }
    assert (INR i * Rabs (st - H) <= INR i * (17 / 8 * uu * Rabs H)) by (apply Rmult_le_compat_l; lra).
    assert (INR i * Rabs st <= INR i * ((1 + 17 / 8 * uu) * Rabs H)) by (apply Rmult_le_compat_l; lra).
    assert (uu * (INR i * Rabs st) <= uu * (INR i * ((1 + 17 / 8 * uu) * Rabs H))) by (apply Rmult_le_compat_l; lra).
    set (w := INR i * Rabs H) in *.
    assert (Pw : 0 <= w) by (apply Rmult_le_pos; [lra|apply Rabs_pos]).
    assert (Pu : 0 <= uu * w) by (apply Rmult_le_pos; lra).
    assert (Uw : uu * (uu * w) <= / 1024 * (uu * w)) by (apply Rmult_le_compat_r; lra).
    replace (uu * (INR i * ((1 + 17 / 8 * uu) * Rabs H))) with (uu * w + 17 / 8 * (uu * (uu * w))) in * by (unfold w; ring).
    replace (INR i * (17 / 8 * uu * Rabs H)) with (17 / 8 * (uu * w)) in * by (unfold w; ring).
    lra.
Qed.
Lemma iH i : (i <= n)%nat -> INR i * Rabs H <= Rabs (E - S).
Proof.
  intros Hi. rewrite H_abs. apply Rmult_le_compat_r; [apply Rabs_pos|apply le_INR; exact Hi].
Qed.
Lemma span_M : Rabs (E - S) <= 2 * M.
Proof.
  unfold M. pose proof (Rmax_l (Rabs S) (Rabs E)). pose proof (Rmax_r (Rabs S) (Rabs E)).
  pose proof (Rabs_triang E (- S)) as X. rewrite Rabs_Ropp in X. unfold Rminus. lra.
Qed.
Lemma M_big : M <= bpow radix2 1000.
Proof. destruct (axis_real _ _ _ _ HA) as (_ & _ & _ & B1 & B2 & _). apply Rmax_lub; assumption. Qed.
Lemma between i : (i <= n)%nat -> Rabs (S + INR i * H) <= M.
Proof.
  intros Hi. pose proof n_pos. apply le_INR in Hi. pose proof (pos_INR i).
  set (t := INR i / INR n). assert (Ht : 0 <= t <= 1).
  { unfold t. split; [apply Rmult_le_pos; [lra|left; apply Rinv_0_lt_compat; lra]|].
    apply Rmult_le_reg_r with (INR n); [lra|]. unfold Rdiv. rewrite Rmult_assoc, Rinv_l by lra. lra. }
  replace (S + INR i * H) with ((1 - t) * S + t * E) by (unfold t, H; field; lra).
  unfold M. pose proof (Rmax_l (Rabs S) (Rabs E)). pose proof (Rmax_r (Rabs S) (Rabs E)).
  eapply Rle_trans; [apply Rabs_triang|]. rewrite !Rabs_mult, (Rabs_right (1 - t)), (Rabs_right t) by lra. nra.
Qed.
Lemma aa_err i : (i <= n)%nat -> Rabs (aa i - (S + INR i * H)) <= 8 * uu * M.
Proof.
  intros Hi. pose proof (pp_err i Hi) as X. pose proof (iH i Hi) as Y. pose proof span_M as Z. pose proof (between i Hi) as B.
  pose proof uu_small. pose proof uu_pos.
  assert (P : Rabs (pp i - INR i * H) <= 13 / 2 * uu * M) by nra.
  assert (FS : fmt S) by (destruct (axis_real _ _ _ _ HA) as (FS & _); exact FS).
  pose proof (frnd_err_add (pp i) S (fmt_frnd _) FS) as G. fold (aa i) in G.
  replace (aa i - (S + INR i * H)) with ((aa i - (pp i + S)) + (pp i - INR i * H)) by ring.
  eapply Rle_trans; [apply Rabs_triang|].
  assert (Q : Rabs (pp i + S) <= M + 13 / 2 * uu * M).
  { replace (pp i + S) with ((S + INR i * H) + (pp i - INR i * H)) by ring.
    eapply Rle_trans; [apply Rabs_triang|]. lra. }
  assert (PM : 0 <= M) by (pose proof (Rabs_pos (S + INR i * H)); lra).
  assert (Pw : 0 <= uu * M) by (apply Rmult_le_pos; lra).
  assert (Uw : uu * (uu * M) <= / 1024 * (uu * M)) by (apply Rmult_le_compat_r; lra).
  assert (G2 : uu * Rabs (pp i + S) <= uu * (M + 13 / 2 * uu * M)) by (apply Rmult_le_compat_l; lra).
  replace (uu * (M + 13 / 2 * uu * M)) with (uu * M + 13 / 2 * (uu * (uu * M))) in G2 by ring. lra.
Qed.
Lemma st_sign : (S <= E -> 0 <= st) /\ (E <= S -> st <= 0).
Proof.
  pose proof n_pos as P. assert (I : 0 < / INR n) by (apply Rinv_0_lt_compat; lra).
  split; intros X; unfold st.
  - apply frnd_ge_fmt; [apply generic_format_0|]. apply Rmult_le_pos; [|lra].
    apply frnd_ge_fmt; [apply generic_format_0|lra].
  - apply frnd_le_fmt; [apply generic_format_0|].
    assert (dl <= 0) by (apply frnd_le_fmt; [apply generic_format_0|lra]). unfold Rdiv. nra.
Qed.
Lemma aa_mono i j : (i <= j)%nat -> (S <= E -> aa i <= aa j) /\ (E <= S -> aa j <= aa i).
Proof.
  intros Hij. apply le_INR in Hij. destruct st_sign as [S1 S2].
  split; intros X; apply frnd_le, Rplus_le_compat_r, frnd_le.
  - specialize (S1 X). nra.
  - specialize (S2 X). nra.
Qed.
Lemma aa_last i : (i < n)%nat -> (S <= E -> aa i <= E) /\ (E <= S -> E <= aa i).
Proof.
  intros Hi. pose proof (pp_err i ltac:(lia)) as X. pose proof n_u as U. pose proof uu_pos. pose proof n_pos.
  assert (FE : fmt E) by (destruct (axis_real _ _ _ _ HA) as (_ & FE & _); exact FE).
  assert (HI : INR i + 1 <= INR n) by (rewrite <- S_INR; apply le_INR; lia). pose proof (pos_INR i).
  assert (K : INR i * Rabs H + 13 / 4 * uu * (INR i * Rabs H) <= Rabs (E - S)).
  { rewrite H_abs. pose proof (Rabs_pos H).
    assert (INR i * (13 / 4 * uu) <= 1) by nra. nra. }
  apply Rabs_le_inv in X.
  assert (HH : E - S = INR n * H) by (unfold H; field; lra).
  split; intros Y.
  - apply frnd_le_fmt; [exact FE|].
    assert (0 <= H) by nra. rewrite (Rabs_right H), (Rabs_right (E - S)) in * by lra. lra.
  - apply frnd_ge_fmt; [exact FE|].
    assert (H <= 0) by nra. rewrite (Rabs_left1 H), (Rabs_left1 (E - S)) in * by lra. lra.
Qed.
Lemma aa_zero : aa 0 = S.
Proof.
  unfold aa, pp. cbn [INR]. rewrite Rmult_0_l. rewrite (frnd_fmt 0) by apply generic_format_0. rewrite Rplus_0_l.
  apply frnd_fmt. destruct (axis_real _ _ _ _ HA) as (FS & _); exact FS.
Qed.

(** the point as computed *)
Lemma point_ok i : (i <= n)%nat ->
  let x := SFadd 53 1024 (SFmul 53 1024 (n_of_nat FA i) (SFdiv 53 1024 (SFsub 53 1024 e s) (n_of_nat FA n))) s in
  f64_fin x /\ f64_val x = aa i.
Proof.
  intros Hi. cbv zeta. destruct st_ok as (F1 & E1 & _). destruct (of_nat_fin i Hi) as [F2 E2].
  pose proof st_bounds as B. pose proof (iH i Hi) as Y. pose proof span_M. pose proof M_big. pose proof (pos_INR i).
  assert (FS : f64_fin s) by (destruct HA as (FS & _); exact FS).
  pose proof (quarter 1002) as Q. change (1002 - 2)%Z with 1000%Z in Q.
  destruct (f64_mul _ _ F2 F1) as [F3 E3].
  { rewrite E1, E2. apply Rle_trans with (bpow radix2 1002); [|apply bpow_le; lia].
    rewrite Rabs_mult, (Rabs_right (INR i)) by lra. nra. }
  rewrite E1, E2 in E3. fold (pp i) in E3.
  destruct (f64_add _ s F3 FS) as [F4 E4].
  { rewrite E3. fold S. pose proof (pp_err i Hi) as P. pose proof uu_small. pose proof uu_pos. pose proof (between i Hi).
    replace (pp i + S) with ((S + INR i * H) + (pp i - INR i * H)) by ring.
    apply Rle_trans with (bpow radix2 1002); [|apply bpow_le; lia].
    eapply Rle_trans; [apply Rabs_triang|].
    assert (13 / 4 * uu * (INR i * Rabs H) <= M).
    { assert (0 <= M) by (pose proof (Rabs_pos (S + INR i * H)); lra). nra. }
    pose proof (bpow_gt_0 radix2 1000). lra. }
  split; [exact F4|]. rewrite E4, E3. reflexivity.
Qed.
Lemma step_eqb : n_eq FA (SFdiv 53 1024 (SFsub 53 1024 e s) (n_of_nat FA n)) (n_of_Z FA 0) = false.
Proof.
  destruct st_ok as (F1 & E1 & _). destruct (f64_Z_exact 0 ltac:(cbn; lia)) as [F0 E0].
  apply not_true_is_false. intros X. apply (f64_eqb _ (f64_of_Z 0) F1 F0) in X. rewrite E0, E1 in X. exact (st_nz X).
Qed.
Definition f64_pts : list spec_float :=
  map (fun i => SFadd 53 1024 (SFmul 53 1024 (n_of_nat FA i) (SFdiv 53 1024 (SFsub 53 1024 e s) (n_of_nat FA n))) s)
    (seq 0 n) ++ [e].
Lemma f64_array_eq : axis_array FA (mkAxis (A:=FA) s e d) = Ok f64_pts.
Proof.
  unfold axis_array. rewrite (proj1 f64_size). cbn [bind a_start a_end]. rewrite linspace_more by exact Hn1.
  pose proof step_eqb as X. cbn [n_sub n_div n_add n_mul FA] in *. rewrite X. reflexivity.
Qed.
Lemma pts_nth i x : nth_error f64_pts i = Some x ->
  (i <= n)%nat /\ f64_fin x /\ f64_val x = (if Nat.ltb i n then aa i else E) /\ (i = n -> x = e).
Proof.
  unfold f64_pts. intros Hx. destruct (Nat.ltb_spec i n) as [L|L].
  - rewrite nth_error_app1 in Hx by (rewrite map_length, seq_length; exact L).
    rewrite nth_error_map, (nth_error_nth' _ 0%nat) in Hx by (rewrite seq_length; exact L).
    rewrite seq_nth in Hx by exact L. cbn [option_map Nat.add] in Hx. injection Hx as <-.
    destruct (point_ok i ltac:(lia)) as [F V]. split; [lia|split; [exact F|split; [exact V|lia]]].
  - rewrite nth_error_app2 in Hx by (rewrite map_length, seq_length; exact L).
    rewrite map_length, seq_length in Hx. destruct (i - n)%nat as [|k] eqn:Ek; cbn in Hx.
    + injection Hx as <-. destruct HA as (_ & FE & _). split; [lia|split; [exact FE|split; [reflexivity|reflexivity]]].
    + destruct k; discriminate.
Qed.
Lemma pts_length : length f64_pts = (n + 1)%nat.
Proof. unfold f64_pts. rewrite app_length, map_length, seq_length. reflexivity. Qed.
End Size.

Lemma f64_array s e d n : f64_axis s e d n ->
  exists arr, axis_array FA (mkAxis (A:=FA) s e d) = Ok arr /\ length arr = (n + 1)%nat /\
    nth_error arr n = Some (if Nat.eqb n 0 then s else e) /\
    (forall i x, nth_error arr i = Some x -> f64_fin x /\ (i = 0%nat -> f64_val x = f64_val s) /\
      Rabs (f64_val x - grid_pt (f64_val s) (f64_val e) (n + 1) i)
        <= / 2 ^ 50 * Rmax (Rabs (f64_val s)) (Rabs (f64_val e))) /\
    (forall i j x y, (i <= j)%nat -> nth_error arr i = Some x -> nth_error arr j = Some y ->
      (f64_val s <= f64_val e -> f64_val x <= f64_val y) /\
      (f64_val e <= f64_val s -> f64_val y <= f64_val x)).
Proof.
  intros HA. destruct n as [|m].
  - exists [s]. unfold axis_array. rewrite (proj1 (f64_size s e d 0 HA)). cbn [Nat.add bind linspace a_start a_end].
    split; [reflexivity|]. split; [reflexivity|]. split; [reflexivity|]. split.
    + intros i x Hx. destruct i as [|i]; [|destruct i; discriminate]. injection Hx as <-.
      split; [apply HA|]. split; [auto|]. unfold grid_pt. cbn [INR]. rewrite Rmult_0_l.
      replace (f64_val s - (f64_val s + 0)) with 0 by ring. rewrite Rabs_R0.
      apply Rmult_le_pos; [lra|]. eapply Rle_trans; [apply Rabs_pos|apply Rmax_l].
    + intros i j x y _ Hx Hy. destruct i as [|i]; [|destruct i; discriminate]. destruct j as [|j]; [|destruct j; discriminate].
      injection Hx as <-. injection Hy as <-. lra.
  - set (n := S m) in *. assert (Hn : (1 <= n)%nat) by (unfold n; lia).
    exists (f64_pts s e n). split; [apply (f64_array_eq s e d n HA Hn)|]. split; [apply pts_length|].
    replace (Nat.eqb n 0) with false by reflexivity. split.
    { unfold f64_pts. rewrite nth_error_app2 by (rewrite map_length, seq_length; lia).
      rewrite map_length, seq_length, Nat.sub_diag. reflexivity. }
    split.
    + intros i x Hx. apply (pts_nth s e d n HA Hn) in Hx as (Hi & F & V & Z). split; [exact F|].
      replace (/ 2 ^ 50) with (8 * uu) by (unfold uu; lra).
      replace (grid_pt (f64_val s) (f64_val e) (n + 1) i) with (f64_val s + INR i * ((f64_val e - f64_val s) / INR n)).
      2:{ unfold grid_pt. replace (n + 1 - 1)%nat with n by lia. reflexivity. }
      destruct (Nat.ltb_spec i n) as [L|L]; rewrite V.
      * split; [intros ->; apply (aa_zero s e d n HA)|]. apply (aa_err s e d n HA Hn). lia.
      * split; [lia|]. replace i with n by lia. pose proof (n_pos n Hn).
        replace (f64_val e - (f64_val s + INR n * ((f64_val e - f64_val s) / INR n))) with 0 by (field; lra).
        rewrite Rabs_R0. pose proof uu_pos. apply Rmult_le_pos; [lra|]. eapply Rle_trans; [apply Rabs_pos|apply Rmax_l].
    + intros i j x y Hij Hx Hy. apply (pts_nth s e d n HA Hn) in Hx as (Hi & _ & V & _).
      apply (pts_nth s e d n HA Hn) in Hy as (Hj & _ & W & _). rewrite V, W.
      destruct (Nat.ltb_spec i n) as [L|L]; destruct (Nat.ltb_spec j n) as [L2|L2]; try lia.
      * apply (aa_mono s e n Hn). exact Hij.
      * apply (aa_last s e d n HA Hn). exact L.
      * lra.
Qed.
