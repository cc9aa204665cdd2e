(** Proofs for axis.py (properties C01, C02, C05, C06). *)
From Coq Require Import Reals ZArith List Bool Lia Lra.
From Verif Require Import Num Numpy Spec AxisModel RelModel RLemmas.
Import ListNotations.
Local Open Scope R_scope.

Lemma Rabs_div' a b : b <> 0 -> Rabs (a / b) = Rabs a / Rabs b.
Proof. intros H. unfold Rdiv. rewrite Rabs_mult, Rabs_inv. reflexivity. Qed.

(** *** C01 *)
Lemma axis_array_zero (s e : R) : axis_array RA (mkAxis (A:=RA) s e 0) = Err EArith.
Proof. unfold axis_array. rewrite axis_size_zero; reflexivity. Qed.

Lemma grid_step s e n i : grid_pt s e n (S i) - grid_pt s e n i = (e - s) / INR (n - 1).
Proof. unfold grid_pt. rewrite S_INR. lra. Qed.

Lemma axis_array_shape (s e d : R) : d <> 0 ->
  exists n arr, axis_size RA (mkAxis (A:=RA) s e d) = Ok n /\ axis_array RA (mkAxis (A:=RA) s e d) = Ok arr /\
    length arr = n /\ (1 <= n)%nat /\
    round_half_even (Rabs (e - s) / Rabs d) (Z.of_nat n - 1) /\
    nth_error arr 0 = Some s /\
    ((2 <= n)%nat -> nth_error arr (n - 1) = Some e) /\
    (forall i x y, nth_error arr i = Some x -> nth_error arr (S i) = Some y ->
       y - x = (e - s) / INR (n - 1)).
Proof.
  intros Hd. pose (a := mkAxis (A:=RA) s e d).
  destruct (axis_size RA a) as [n|ex] eqn:E.
  2:{ unfold a in E. rewrite axis_size_nz in E by exact Hd. discriminate. }
  exists n, (grid s e n). split; [exact E|]. split; [exact (axis_array_size a n E)|].
  split; [apply grid_length|].
  pose proof (axis_size_pos a n E) as Hp. split; [lia|].
  split. { apply axis_size_iff in E; [|exact Hd]. destruct E as [_ E]. cbn in E.
           rewrite Rabs_div' in E by exact Hd. exact E. }
  split. { rewrite grid_nth by lia. unfold grid_pt. cbn [INR]. f_equal. lra. }
  split. { intros H2. rewrite grid_nth by lia. destruct n as [|[|m]]; try lia.
           replace (S (S m) - 1)%nat with (S m) by lia. rewrite grid_pt_last. reflexivity. }
  intros i x y Hx Hy. apply grid_nth_inv in Hx, Hy. destruct Hx as [_ ->], Hy as [_ ->]. apply grid_step.
Qed.

(** *** C02 *)
Lemma axis_spacing (s e d : R) n : d <> 0 -> axis_size RA (mkAxis (A:=RA) s e d) = Ok n -> (2 <= n)%nat ->
  let h := Rabs (e - s) / INR (n - 1) in
  Rabs (h - Rabs d) <= Rabs d / (2 * INR (n - 1)) /\
  (h = Rabs d <-> exists m : nat, Rabs (e - s) = INR m * Rabs d).
Proof.
  intros Hd Hn H2 h.
  apply axis_size_iff in Hn; [|exact Hd]. destruct Hn as [_ Hr]. cbn in Hr.
  rewrite Rabs_div' in Hr by exact Hd.
  set (D := Rabs d) in *. assert (HD : 0 < D) by (apply Rabs_pos_lt; exact Hd).
  set (S := Rabs (e - s)) in *.
  replace (Z.of_nat n - 1)%Z with (Z.of_nat (n - 1)) in Hr by lia.
  set (m := (n - 1)%nat) in *. assert (Hm : (1 <= m)%nat) by lia.
  assert (HM : 0 < INR m) by (apply lt_0_INR; lia).
  assert (Hle : Rabs (S / D - INR m) <= / 2).
  { rewrite INR_IZR_INZ. destruct Hr as [H|[H _]]; lra. }
  split.
  - replace (h - D) with ((S / D - INR m) * (D / INR m)) by (unfold h; field; lra).
    rewrite Rabs_mult. rewrite (Rabs_right (D / INR m)).
    2:{ apply Rle_ge, Rlt_le, Rdiv_lt_0_compat; lra. }
    replace (D / (2 * INR m)) with (/ 2 * (D / INR m)) by (field; lra).
    apply Rmult_le_compat_r; [|exact Hle]. apply Rlt_le, Rdiv_lt_0_compat; lra.
  - split.
    + intros Hh. exists m. unfold h in Hh. rewrite <- Hh. field. lra.
    + intros [k Hk]. unfold h. rewrite Hk in *.
      replace (INR k * D / D) with (INR k) in Hle by (field; lra).
      rewrite !INR_IZR_INZ in Hle.
      assert (Z.of_nat k = Z.of_nat m) by (apply IZR_close; lra).
      assert (k = m) by lia. subst k. field. lra.
Qed.

(** *** C06 *)
Lemma diffs_nth {T U} (sub : T -> T -> U) l i z :
  nth_error (diffs sub l) i = Some z <->
  exists a b, nth_error l i = Some a /\ nth_error l (S i) = Some b /\ z = sub b a.
Proof.
  revert i; induction l as [|x [|y l] IH]; intros i.
  - split; [destruct i; discriminate | intros (a & b & H & _); destruct i; discriminate].
  - split; [destruct i; discriminate | intros (a & b & _ & H & _); destruct i; discriminate].
  - destruct i as [|i].
    + cbn. split.
      * intros H; injection H as <-. exists x, y. auto.
      * intros (a & b & Ha & Hb & ->). congruence.
    + change (diffs sub (x :: y :: l)) with (sub y x :: diffs sub (y :: l)).
      cbn [nth_error]. rewrite IH. reflexivity.
Qed.
Lemma diffs_length {T U} (sub : T -> T -> U) l : length (diffs sub l) = (length l - 1)%nat.
Proof.
  induction l as [|x [|y l] IH]; [reflexivity|reflexivity|].
  change (diffs sub (x :: y :: l)) with (sub y x :: diffs sub (y :: l)). cbn [length] in *. lia.
Qed.

Lemma fold_min_spec (t : list R) (a : R) :
  let m := fold_left (fun m x => if Rltb x m then x else m) t a in
  (m = a \/ In m t) /\ m <= a /\ (forall x, In x t -> m <= x).
Proof.
  revert a; induction t as [|b t IH]; intros a; cbn [fold_left].
  - repeat split; [left; reflexivity | lra | intros x []].
  - destruct (Rltb b a) eqn:E; rb.
    + destruct (IH b) as (H1 & H2 & H3). repeat split.
      * right. cbn. destruct H1 as [->|H1]; auto.
      * lra.
      * intros x [<-|Hx]; [exact H2 | exact (H3 x Hx)].
    + destruct (IH a) as (H1 & H2 & H3). repeat split.
      * destruct H1 as [->|H1]; [left; reflexivity | right; right; exact H1].
      * exact H2.
      * intros x [<-|Hx]; [lra | exact (H3 x Hx)].
Qed.

Lemma amin_num_spec (l : list R) m :
  amin_num RA l = Some m <-> In m l /\ (forall x, In x l -> m <= x).
Proof.
  destruct l as [|a t]; cbn [amin_num].
  - split; [discriminate | intros [[] _]].
  - pose proof (fold_min_spec t a) as HS. cbn zeta in HS. destruct HS as (H1 & H2 & H3).
    cbn [RA n_lt]. change (num RA) with R in *.
    remember (fold_left (fun m x : R => if Rltb x m then x else m) t a) as m0 eqn:Em. clear Em.
    assert (Hm0 : In m0 (a :: t)) by (destruct H1 as [H1|H1]; [left; auto | right; auto]).
    split.
    + intros H; injection H as <-. split; [exact Hm0|].
      intros x [<-|Hx]; [exact H2 | exact (H3 x Hx)].
    + intros [Hin Hmin]. f_equal. apply Rle_antisym.
      * destruct Hin as [<-|Hin]; [exact H2 | exact (H3 m Hin)].
      * apply Hmin. exact Hm0.
Qed.

Lemma actual_sample_spec (l : list R) d : actual_sample RA l = Ok d <-> smallest_gap l d.
Proof.
  unfold actual_sample, smallest_gap.
  assert (E : forall m, amin_num RA (np_diff_num RA l) = Some m <->
     (exists i a b, nth_error l i = Some a /\ nth_error l (S i) = Some b /\ b - a = m) /\
     (forall i a b, nth_error l i = Some a -> nth_error l (S i) = Some b -> m <= b - a)).
  { intros m. rewrite amin_num_spec. unfold np_diff_num. cbn [RA n_sub]. split; intros [H1 H2]; split.
    - apply In_nth_error in H1. destruct H1 as [i H1]. apply diffs_nth in H1.
      destruct H1 as (a & b & Ha & Hb & ->). exists i, a, b. auto.
    - intros i a b Ha Hb. apply H2. apply (nth_error_In _ i). apply diffs_nth. exists a, b. auto.
    - destruct H1 as (i & a & b & Ha & Hb & <-). apply (nth_error_In _ i). apply diffs_nth. exists a, b. auto.
    - intros x Hx. apply In_nth_error in Hx. destruct Hx as [i Hx]. apply diffs_nth in Hx.
      destruct Hx as (a & b & Ha & Hb & ->). exact (H2 i a b Ha Hb). }
  rewrite <- E. destruct (amin_num RA (np_diff_num RA l)); split; intros H; congruence.
Qed.
Lemma actual_sample_err (l : list R) : actual_sample RA l = Err EValue <-> (length l < 2)%nat.
Proof.
  unfold actual_sample. pose proof (diffs_length (n_sub RA) l) as HL.
  unfold np_diff_num. destruct (diffs (n_sub RA) l) as [|x t]; cbn in *; split; intros H;
    try discriminate; try lia; reflexivity.
Qed.

(** *** C05 *)
Lemma arith_length x0 d n : length (arith_seq x0 d n) = n.
Proof. unfold arith_seq. rewrite map_length, seq_length. reflexivity. Qed.
Lemma arith_nth x0 d n i : (i < n)%nat -> nth_error (arith_seq x0 d n) i = Some (x0 + INR i * d).
Proof. intros H. unfold arith_seq. rewrite nth_error_map_seq by exact H. reflexivity. Qed.
Lemma arith_nth_inv x0 d n i t : nth_error (arith_seq x0 d n) i = Some t -> (i < n)%nat /\ t = x0 + INR i * d.
Proof.
  intros H. assert (Hi : (i < n)%nat) by (rewrite <- (arith_length x0 d n); eapply nth_error_len; exact H).
  rewrite arith_nth in H by exact Hi. split; [exact Hi | congruence].
Qed.
Lemma arith_gap x0 d n : (2 <= n)%nat -> actual_sample RA (arith_seq x0 d n) = Ok d.
Proof.
  intros Hn. apply actual_sample_spec. split.
  - exists 0%nat, x0, (x0 + d). rewrite !arith_nth by lia. cbn [INR].
    split; [f_equal; lra|]. split; [f_equal; lra | lra].
  - intros i a b Ha Hb. apply arith_nth_inv in Ha, Hb. destruct Ha as [_ ->], Hb as [_ ->].
    rewrite S_INR. lra.
Qed.
Lemma arith_ends x0 d n : (1 <= n)%nat -> exists t, arith_seq x0 d n = x0 :: t /\
  last (arith_seq x0 d n) x0 = x0 + INR (n - 1) * d.
Proof.
  intros Hn. pose proof (arith_nth x0 d n 0 ltac:(lia)) as H0.
  pose proof (last_nth_error (arith_seq x0 d n) x0) as HL. rewrite arith_length in HL.
  destruct (arith_seq x0 d n) as [|a t] eqn:E; [discriminate|].
  cbn in H0. injection H0 as ->. exists t.
  replace (x0 + 0 * d) with x0 in * by lra. split; [reflexivity|].
  rewrite <- E in *. rewrite arith_nth in HL by lia.
  assert (Some (x0 + INR (n - 1) * d) = Some (last (arith_seq x0 d n) x0)) as HS by (apply HL; rewrite E; discriminate).
  injection HS as <-. reflexivity.
Qed.

(** grid of an axis whose end point is (n-1) steps away *)
Lemma grid_arith x0 d n : (1 <= n)%nat -> grid x0 (x0 + INR (n - 1) * d) n = arith_seq x0 d n.
Proof.
  intros Hn. apply map_ext_in. intros i Hi. apply in_seq in Hi. unfold grid_pt.
  destruct (Nat.eq_dec n 1) as [->|H1].
  - assert (i = 0)%nat by lia. subst i. cbn [INR]. lra.
  - field. apply not_0_INR. lia.
Qed.

Lemma axis_of_arith (x0 d : R) n fl rd : (2 <= n)%nat ->
  axis_of_array RA (mkSeq (A:=RA) fl (arith_seq x0 d n)) rd =
  (do d' <- (if rd && fl then round_sample RA d else Ok d);
   Ok (mkAxis (A:=RA) x0 (x0 + INR (n - 1) * d) d')).
Proof.
  intros Hn. unfold axis_of_array. cbn [s_data s_float]. rewrite arith_gap by exact Hn. cbn [bind].
  match goal with |- bind ?r _ = bind ?r' _ => change r' with r; destruct r as [d'|ex] end; [|reflexivity].
  cbn [bind].
  destruct (arith_ends x0 d n ltac:(lia)) as (t & Ht & Hl). rr. rewrite Ht in *. rewrite Hl. reflexivity.
Qed.

Lemma size_exact_any (x0 d : R) n : (2 <= n)%nat -> d <> 0 ->
  axis_size RA (mkAxis (A:=RA) x0 (x0 + INR (n - 1) * d) d) = Ok n.
Proof.
  intros Hn Hd. rewrite axis_size_nz by exact Hd. cbn.
  replace ((x0 + INR (n - 1) * d - x0) / d) with (INR (n - 1)) by (field; exact Hd).
  rewrite Rabs_right by (apply Rle_ge, pos_INR). rewrite Rround_INR, Nat2Z.id. f_equal. lia.
Qed.

Lemma round_sample_whole k : (1 <= k)%Z -> round_sample RA (IZR k) = Ok (IZR k).
Proof.
  intros Hk. unfold round_sample. cbn [RA n_lt n_of_Z n_round].
  replace (Rltb (IZR k) 1) with false; [rewrite Rround_IZR; reflexivity|].
  symmetry. apply Rltb_false. apply IZR_le. exact Hk.
Qed.
Lemma round_sample_recip k : k <> 0%Z -> k <> 1%Z -> round_sample RA (/ IZR k) = Ok (/ IZR k).
Proof.
  intros Hk Hk1. unfold round_sample. cbn [RA n_lt n_of_Z n_round n_eq n_div].
  assert (Hz : IZR k <> 0) by (apply not_0_IZR; exact Hk).
  assert (Hlt : / IZR k < 1).
  { destruct (Z_lt_le_dec k 0) as [Hn|Hp].
    - apply Rlt_trans with 0; [|lra]. apply Rinv_lt_0_compat. apply (IZR_lt k 0). exact Hn.
    - rewrite <- Rinv_1. apply Rinv_lt_contravar; [|apply (IZR_lt 1); lia].
      rewrite Rmult_1_l. apply (IZR_lt 0). lia. }
  replace (Rltb (/ IZR k) 1) with true by (symmetry; apply Rltb_true; exact Hlt).
  replace (Reqb (/ IZR k) 0) with false by (symmetry; apply Reqb_false; apply Rinv_neq_0_compat; exact Hz).
  replace (1 / / IZR k) with (IZR k) by (field; exact Hz).
  rewrite Rround_IZR. replace (k =? 0)%Z with false by (symmetry; apply Z.eqb_neq; exact Hk).
  f_equal. unfold Rdiv. apply Rmult_1_l.
Qed.

Lemma axis_of_array_exact (x0 d : R) n fl rd : (2 <= n)%nat -> d <> 0 ->
  (rd = false \/ fl = false \/ (exists k, (1 <= k)%Z /\ d = IZR k) \/ (exists k, k <> 0%Z /\ d = / IZR k)) ->
  exists a, axis_of_array RA (mkSeq (A:=RA) fl (arith_seq x0 d n)) rd = Ok a /\
            axis_array RA a = Ok (arith_seq x0 d n) /\ a_sample a = d.
Proof.
  intros Hn Hd Hc. exists (mkAxis (A:=RA) x0 (x0 + INR (n - 1) * d) d).
  rewrite axis_of_arith by exact Hn.
  assert (E : (if rd && fl then round_sample RA d else Ok d) = Ok d).
  { destruct rd; [|reflexivity]. destruct fl; [|reflexivity]. cbn [andb].
    destruct Hc as [H|[H|[(k & Hk & ->)|(k & Hk & ->)]]]; try discriminate.
    - apply round_sample_whole; exact Hk.
    - destruct (Z.eq_dec k 1) as [->|H1].
      + rewrite Rinv_1. apply (round_sample_whole 1). lia.
      + apply round_sample_recip; assumption. }
  rewrite E. cbn [bind]. split; [reflexivity|]. split; [|reflexivity].
  rewrite (axis_array_size _ n) by (apply size_exact_any; assumption). cbn [a_start a_end].
  rewrite grid_arith by lia. reflexivity.
Qed.

Lemma round_ge_one x k : 1 <= x -> round_half_even x k -> (1 <= k)%Z.
Proof.
  intros Hx [H|[H E]].
  - assert (0 < k)%Z; [|lia]. apply lt_IZR. unfold Rabs in H; destruct Rcase_abs in H; lra.
  - assert (0 < k)%Z; [|lia]. apply lt_IZR. unfold Rabs in H; destruct Rcase_abs in H; lra.
Qed.

Lemma round_sample_spec d : 0 < d -> exists d', round_sample RA d = Ok d' /\ rounded_spacing d d'.
Proof.
  intros Hd. unfold round_sample. cbn [RA n_lt n_of_Z n_round n_eq n_div].
  destruct (Rltb d 1) eqn:E; rb.
  - replace (Reqb d 0) with false by (symmetry; apply Reqb_false; lra).
    replace (1 / d) with (/ d) by (unfold Rdiv; lra).
    assert (Hi : 1 <= / d).
    { rewrite <- Rinv_1 at 1. apply Rlt_le. apply Rinv_lt_contravar; lra. }
    pose proof (Rround_spec (/ d)) as Hr. pose proof (round_ge_one _ _ Hi Hr) as Hk.
    replace (Rround (/ d) =? 0)%Z with false by (symmetry; apply Z.eqb_neq; lia).
    eexists; split; [reflexivity|]. exists (Rround (/ d)). split; [exact Hk|]. right.
    split; [lra|]. split; [exact Hr|]. unfold Rdiv. apply Rmult_1_l.
  - pose proof (Rround_spec d) as Hr. pose proof (round_ge_one _ _ E Hr) as Hk.
    eexists; split; [reflexivity|]. exists (Rround d). split; [exact Hk|]. left. auto.
Qed.
Lemma rounded_spacing_pos d d' : rounded_spacing d d' -> 0 < d'.
Proof.
  intros (k & Hk & [(_ & _ & ->)|(_ & _ & ->)]).
  - apply (IZR_lt 0). lia.
  - apply Rinv_0_lt_compat. apply (IZR_lt 0). lia.
Qed.

(** exact condition for [Relation(x, y)] on an equally spaced float sequence *)
Lemma rel_init_arith (V : Vals RA) (x0 d : R) n (y : list (val V)) : (2 <= n)%nat -> 0 < d -> length y = n ->
  exists d', rounded_spacing d d' /\
    ((exists r, rel_init RA V (default_config RA V) (XSeq (mkSeq (A:=RA) true (arith_seq x0 d n))) (Some y) = Ok r)
      <-> round_half_even (INR (n - 1) * (d / d')) (Z.of_nat n - 1)) /\
    (forall e, rel_init RA V (default_config RA V) (XSeq (mkSeq (A:=RA) true (arith_seq x0 d n))) (Some y) = Err e ->
       exists m, e = ENotEqual m n /\ m <> n).
Proof.
  intros Hn Hd Hy. destruct (round_sample_spec d Hd) as (d' & E & Hd'). exists d'. split; [exact Hd'|].
  pose proof (rounded_spacing_pos _ _ Hd') as Hp.
  unfold rel_init. cbn [c_axis_from_array default_config]. rewrite axis_of_arith by exact Hn.
  cbn [andb]. rewrite E. cbn [bind]. unfold rel_make.
  set (a := mkAxis (A:=RA) x0 (x0 + INR (n - 1) * d) d').
  assert (Hz : a_sample a <> 0) by (cbn; lra).
  pose proof (axis_size_iff a n Hz) as Hi. cbn in Hi.
  replace (Rabs ((x0 + INR (n - 1) * d - x0) / d')) with (INR (n - 1) * (d / d')) in Hi.
  2:{ rewrite Rabs_right. { field; lra. }
      apply Rle_ge. replace ((x0 + INR (n - 1) * d - x0) / d') with (INR (n - 1) * (d / d')) by (field; lra).
      apply Rmult_le_pos; [apply pos_INR|]. apply Rlt_le, Rdiv_lt_0_compat; lra. }
  destruct (axis_size RA a) as [m|ex] eqn:Es.
  2:{ rewrite axis_size_nz in Es by exact Hz; discriminate. }
  cbn [bind]. rewrite Hy. destruct (Nat.eqb_spec m n) as [->|Hne].
  - split.
    + split; [intros _; apply Hi; reflexivity | intros _; eexists; reflexivity].
    + intros e H; discriminate.
  - split.
    + split; [intros [r H]; discriminate|]. intros H. exfalso. apply Hne.
      assert (Ok m = Ok n) as Hmn by (apply Hi; split; [lia|exact H]). congruence.
    + intros e H; injection H as <-. exists m. auto.
Qed.

Lemma rounded_spacing_nice d d' : rounded_spacing d d' -> nice_spacing d'.
Proof. intros (k & Hk & [(_ & _ & ->)|(_ & _ & ->)]); [left|right]; exists k; auto. Qed.

(** spacings that are neither whole nor reciprocals of whole numbers fail for all long sequences *)
Lemma rel_init_long_fails (V : Vals RA) d : 0 < d -> ~ nice_spacing d ->
  exists N, forall n x0 (y : list (val V)), (N <= n)%nat -> length y = n ->
    exists m, rel_init RA V (default_config RA V) (XSeq (mkSeq (A:=RA) true (arith_seq x0 d n))) (Some y)
      = Err (ENotEqual m n) /\ m <> n.
Proof.
  intros Hd Hnn. destruct (round_sample_spec d Hd) as (d' & Es & Hd').
  pose proof (rounded_spacing_pos _ _ Hd') as Hp.
  assert (Hne : d <> d') by (intros ->; apply Hnn; eapply rounded_spacing_nice; exact Hd').
  set (c := Rabs (d / d' - 1)).
  assert (Hc : 0 < c).
  { apply Rabs_pos_lt. intros H. apply Hne. assert (d / d' = 1) by lra.
    apply (f_equal (fun z => z * d')) in H0. unfold Rdiv in H0. rewrite Rmult_assoc, Rinv_l in H0 by lra. lra. }
  destruct (archimed (/ c)) as [Har _].
  set (K := up (/ c)) in *.
  assert (HK : (0 < K)%Z).
  { apply lt_IZR. apply Rlt_trans with (/ c); [apply Rinv_0_lt_compat; exact Hc | exact Har]. }
  exists (Z.to_nat K + 2)%nat. intros n x0 y Hn Hy.
  destruct (rel_init RA V (default_config RA V) (XSeq (mkSeq (A:=RA) true (arith_seq x0 d n))) (Some y)) as [r|e] eqn:Er.
  - exfalso. destruct (rel_init_arith V x0 d n y ltac:(lia) Hd Hy) as (d'' & Hd'' & Hiff & _).
    assert (d'' = d').
    { (* rounded spacing is unique *)
      destruct Hd' as (k & Hk & H1), Hd'' as (k'' & Hk'' & H2).
      destruct H1 as [(A1 & B1 & ->)|(A1 & B1 & ->)], H2 as [(A2 & B2 & ->)|(A2 & B2 & ->)]; try lra.
      - f_equal. eapply round_half_even_unique; eassumption.
      - f_equal. f_equal. eapply round_half_even_unique; eassumption. }
    subst d''. destruct Hiff as [Hiff _]. specialize (Hiff (ex_intro _ r Er)).
    assert (Hle : Rabs (INR (n - 1) * (d / d') - INR (n - 1)) <= / 2).
    { rewrite (INR_IZR_INZ (n - 1)). replace (Z.of_nat (n - 1)) with (Z.of_nat n - 1)%Z by lia.
      rewrite INR_IZR_INZ in Hiff. replace (Z.of_nat (n - 1)) with (Z.of_nat n - 1)%Z in Hiff by lia.
      destruct Hiff as [H|[H _]]; lra. }
    replace (INR (n - 1) * (d / d') - INR (n - 1)) with (INR (n - 1) * (d / d' - 1)) in Hle by lra.
    rewrite Rabs_mult in Hle. fold c in Hle.
    rewrite Rabs_right in Hle by (apply Rle_ge, pos_INR).
    assert (Hb : / c < INR (n - 1)).
    { apply Rlt_le_trans with (IZR K); [exact Har|]. rewrite INR_IZR_INZ. apply IZR_le. lia. }
    assert (1 < INR (n - 1) * c).
    { apply Rmult_lt_compat_r with (r := c) in Hb; [|exact Hc]. rewrite Rinv_l in Hb by lra. exact Hb. }
    lra.
  - destruct (rel_init_arith V x0 d n y ltac:(lia) Hd Hy) as (_ & _ & _ & Hf).
    destruct (Hf e Er) as (m & -> & Hm). exists m. auto.
Qed.
