(** Correlation and convolution of relations (C25, C26, C27). *)
From Coq Require Import Reals ZArith List Bool Lia Lra Psatz.
From Coquelicot Require Import Complex.
From Verif Require Import Num Numpy Spec AxisModel RelModel RLemmas AxisLemmas InterpLemmas VInst RelLemmas RelLemmas2 RelLemmas3.
Import ListNotations.
Local Open Scope R_scope.

Section ZSums.
Context {V : Vals RA} (L : VLaws V).
Notation val := (val V).
Add Field Vfield5 : (vl_field V L).
Local Notation "0v" := (v_of V 0).

Lemma vsum_head (f : nat -> val) n : vsum f (S n) = v_add V (f 0%nat) (vsum (fun i => f (S i)) n).
Proof.
  induction n as [|n IH]; [cbn; ring|].
  change (vsum f (S (S n))) with (v_add V (vsum f (S n)) (f (S n))). rewrite IH.
  change (vsum (fun i => f (S i)) (S n)) with (v_add V (vsum (fun i => f (S i)) n) (f (S n))). ring.
Qed.
Lemma vsum_rev (f : nat -> val) n : vsum f n = vsum (fun i => f (n - 1 - i)%nat) n.
Proof.
  induction n as [|n IH]; [reflexivity|].
  rewrite (vsum_head (fun i => f (S n - 1 - i)%nat)). cbn [vsum]. rewrite IH at 1. rewrite (vsum_ext (fun i => f (S n - 1 - S i)%nat) (fun i => f (n - 1 - i)%nat)).
  - replace (S n - 1 - 0)%nat with n by lia. ring.
  - intros i Hi. f_equal. lia.
Qed.
(** sum of F over lo, lo+1, ..., lo+len-1 *)
Definition zsum (F : Z -> val) (lo : Z) (len : nat) : val := vsum (fun i => F (lo + Z.of_nat i)%Z) len.
Lemma zsum_ext F G lo len : (forall z, (lo <= z < lo + Z.of_nat len)%Z -> F z = G z) -> zsum F lo len = zsum G lo len.
Proof. intros H. apply vsum_ext. intros i Hi. apply H. lia. Qed.
Lemma zsum_pad_right F lo len k : (forall z, (lo + Z.of_nat len <= z < lo + Z.of_nat (len + k))%Z -> F z = 0v) ->
  zsum F lo (len + k) = zsum F lo len.
Proof.
  induction k as [|k IH]; intros H; [rewrite Nat.add_0_r; reflexivity|].
  rewrite Nat.add_succ_r. unfold zsum in *. cbn [vsum].
  rewrite IH by (intros; apply H; lia). rewrite H by lia. ring.
Qed.
Lemma zsum_pad_left F lo len k : (forall z, (lo - Z.of_nat k <= z < lo)%Z -> F z = 0v) ->
  zsum F (lo - Z.of_nat k) (k + len) = zsum F lo len.
Proof.
  revert lo; induction k as [|k IH]; intros lo H.
  - cbn [Nat.add]. rewrite Z.sub_0_r. reflexivity.
  - unfold zsum in *. cbn [Nat.add]. rewrite vsum_head. rewrite H by lia.
    rewrite <- (IH lo) by (intros; apply H; lia).
    rewrite (vsum_ext _ (fun i => F (lo - Z.of_nat k + Z.of_nat i)%Z)) by (intros i _; f_equal; lia). ring.
Qed.
(** two windows that both cover the support of F give the same sum *)
Lemma zsum_windows F lo len lo' len' :
  (forall z, ~ ((lo <= z < lo + Z.of_nat len)%Z /\ (lo' <= z < lo' + Z.of_nat len')%Z) -> F z = 0v) ->
  zsum F lo len = zsum F lo' len'.
Proof.
  intros Hz.
  assert (G : forall lo len lo' len', (lo <= lo')%Z ->
     (forall z, ~ ((lo <= z < lo + Z.of_nat len)%Z /\ (lo' <= z < lo' + Z.of_nat len')%Z) -> F z = 0v) ->
     zsum F lo len = zsum F lo' len').
  { clear Hz lo len lo' len'. intros lo len lo' len' Hle Hz.
    set (k := Z.to_nat (lo' - lo)).
    rewrite <- (zsum_pad_left F lo' len' k) by (intros z Hz'; apply Hz; lia).
    replace (lo' - Z.of_nat k)%Z with lo by lia.
    destruct (Nat.le_ge_cases len (k + len')) as [Hc|Hc].
    - replace (k + len')%nat with (len + (k + len' - len))%nat by lia.
      symmetry. apply zsum_pad_right. intros z Hr. apply Hz. lia.
    - replace len with ((k + len') + (len - (k + len')))%nat by lia.
      apply zsum_pad_right. intros z Hr. apply Hz. lia. }
  destruct (Z.le_ge_cases lo lo') as [Hle|Hge].
  - apply G; assumption.
  - symmetry. apply G; [exact Hge|]. intros z Hn. apply Hz. tauto.
Qed.

Lemma at0_out (l : list val) z : ~ (0 <= z < Z.of_nat (length l))%Z -> at0 l z = 0v.
Proof.
  intros H. unfold at0. destruct (Z.ltb_spec z 0); [reflexivity|].
  destruct (nth_error l (Z.to_nat z)) eqn:E; [|reflexivity]. apply nth_error_len in E. lia.
Qed.
Lemma at0_nat (l : list val) i : at0 l (Z.of_nat i) = nth i l 0v.
Proof.
  unfold at0. destruct (Z.ltb_spec (Z.of_nat i) 0); [lia|]. rewrite Nat2Z.id.
  destruct (nth_error l i) eqn:E; [symmetry; apply nth_nth_error; exact E|].
  symmetry. apply nth_overflow. apply nth_error_None. exact E.
Qed.

(** numpy.convolve is [conv_at] *)
Lemma conv_full_nth (a v : list val) k : (k < length a + length v - 1)%nat ->
  nth_error (convolve_full RA V a v) k = Some (conv_at a v (Z.of_nat k)).
Proof.
  intros Hk. unfold convolve_full. rewrite nth_error_map_seq by exact Hk. f_equal.
  rewrite v_sum_map. unfold conv_at. apply vsum_ext. intros j Hj. unfold conv_term.
  rewrite at0_nat. rewrite (nth_error_nth' a j 0v) by exact Hj.
  destruct (Nat.leb_spec j k) as [Hle|Hlt].
  - replace (Z.of_nat k - Z.of_nat j)%Z with (Z.of_nat (k - j)) by lia. rewrite at0_nat.
    destruct (nth_error v (k - j)) eqn:E.
    + rewrite (nth_nth_error v (k - j) 0v _ E). reflexivity.
    + rewrite (nth_overflow v) by (apply nth_error_None; exact E). cbn [RA n_of_Z]. ring.
  - rewrite (at0_out v) by lia. cbn [RA n_of_Z]. ring.
Qed.
Lemma conv_full_length (a v : list val) : length (convolve_full RA V a v) = (length a + length v - 1)%nat.
Proof. unfold convolve_full. rewrite map_length, seq_length. reflexivity. Qed.

Lemma at0_cases (l : list val) z : (0 <= z < Z.of_nat (length l))%Z \/ at0 l z = 0v.
Proof.
  destruct (Z_le_dec 0 z); [destruct (Z_lt_dec z (Z.of_nat (length l))); [left; lia|]|]; right; apply at0_out; lia.
Qed.

Lemma conv_comm (a b : list val) k : conv_at a b k = conv_at b a k.
Proof.
  set (F := fun z => v_mul V (at0 a z) (at0 b (k - z))).
  transitivity (zsum F 0 (length a)).
  { unfold conv_at, zsum. apply vsum_ext. intros i _. unfold F. repeat f_equal; lia. }
  transitivity (zsum F (k - Z.of_nat (length b) + 1) (length b)).
  { apply zsum_windows. intros z Hz. unfold F.
    destruct (at0_cases a z) as [H1|H1]; [|rewrite H1; ring].
    destruct (at0_cases b (k - z)) as [H2|H2]; [lia|rewrite H2; ring]. }
  unfold zsum, conv_at. rewrite vsum_rev. apply vsum_ext. intros i Hi. unfold F.
  replace (k - (k - Z.of_nat (length b) + 1 + Z.of_nat (length b - 1 - i)))%Z with (Z.of_nat i) by lia.
  replace (k - Z.of_nat (length b) + 1 + Z.of_nat (length b - 1 - i))%Z with (k - Z.of_nat i)%Z by lia. ring.
Qed.

Context (CL : CLaws V).
Lemma conj_0 : v_conj V 0v = 0v.
Proof. exact (cl_of V CL 0). Qed.
Lemma at0_rev_conj (b : list val) z :
  at0 (rev (map (v_conj V) b)) z = v_conj V (at0 b (Z.of_nat (length b) - 1 - z)).
Proof.
  destruct (Z_le_dec 0 z) as [H0|H0]; [destruct (Z_lt_dec z (Z.of_nat (length b))) as [H1|H1]|].
  - unfold at0. destruct (Z.ltb_spec z 0); [lia|]. destruct (Z.ltb_spec (Z.of_nat (length b) - 1 - z) 0); [lia|].
    rewrite nth_error_rev by (rewrite map_length; lia). rewrite map_length, nth_error_map.
    replace (Z.to_nat (Z.of_nat (length b) - 1 - z)) with (length b - 1 - Z.to_nat z)%nat by lia.
    destruct (nth_error b (length b - 1 - Z.to_nat z)); cbn; [reflexivity | symmetry; apply conj_0].
  - rewrite (at0_out b) by lia. rewrite at0_out by (rewrite rev_length, map_length; lia). symmetry. apply conj_0.
  - rewrite (at0_out b) by lia. rewrite at0_out by (rewrite rev_length, map_length; lia). symmetry. apply conj_0.
Qed.

Lemma corr_conv (a b : list val) k :
  conv_at a (rev (map (v_conj V) b)) k = corr_at a b (k - (Z.of_nat (length b) - 1)).
Proof.
  set (lag := (k - (Z.of_nat (length b) - 1))%Z).
  set (F := fun z => v_mul V (at0 a z) (v_conj V (at0 b (z - lag)))).
  transitivity (zsum F 0 (length a)).
  { unfold conv_at, zsum. apply vsum_ext. intros i _. unfold F. rewrite at0_rev_conj.
    f_equal. f_equal. f_equal. unfold lag. lia. }
  transitivity (zsum F lag (length b)).
  { apply zsum_windows. intros z Hz. unfold F.
    destruct (at0_cases a z) as [H1|H1]; [|rewrite H1; ring].
    destruct (at0_cases b (z - lag)) as [H2|H2]; [lia|rewrite H2, conj_0; ring]. }
  unfold zsum, corr_at. apply vsum_ext. intros i Hi. unfold F. f_equal; [f_equal; lia|].
  f_equal. f_equal. lia.
Qed.
Lemma vsum_conj (f : nat -> val) n : v_conj V (vsum f n) = vsum (fun i => v_conj V (f i)) n.
Proof. induction n as [|n IH]; cbn; [apply conj_0|]. rewrite (cl_add V CL), IH. reflexivity. Qed.
Lemma corr_mirror (a b : list val) lag : corr_at b a (- lag) = v_conj V (corr_at a b lag).
Proof.
  unfold corr_at at 2. rewrite vsum_conj.
  set (F := fun z => v_mul V (v_conj V (at0 a z)) (at0 b (z - lag))).
  transitivity (zsum F 0 (length a)).
  { unfold corr_at, zsum. apply vsum_ext. intros i _. unfold F. 
    replace (0 + Z.of_nat i - lag)%Z with (Z.of_nat i + - lag)%Z by lia.
    replace (0 + Z.of_nat i)%Z with (Z.of_nat i) by lia. ring. }
  transitivity (zsum F lag (length b)).
  { apply zsum_windows. intros z Hz. unfold F.
    destruct (at0_cases a z) as [H1|H1]; [|rewrite H1, conj_0; ring].
    destruct (at0_cases b (z - lag)) as [H2|H2]; [lia|rewrite H2; ring]. }
  unfold zsum. apply vsum_ext. intros i Hi. unfold F. rewrite (cl_mul V CL), (cl_inv V CL).
  f_equal; [f_equal; f_equal; lia | f_equal; lia].
Qed.
Lemma np_correlate_spec (a b : list val) : a <> [] -> b <> [] ->
  exists c, np_correlate RA V a b = Ok c /\ length c = (length a + length b - 1)%nat /\
    forall k, (k < length c)%nat -> nth k c 0v = corr_at a b (Z.of_nat k - (Z.of_nat (length b) - 1)).
Proof.
  intros Ha Hb. exists (convolve_full RA V a (rev (map (v_conj V) b))). unfold np_correlate, np_convolve.
  split.
  - destruct a as [|a0 a]; [tauto|]. destruct (rev (map (v_conj V) b)) eqn:E; [|reflexivity].
    apply (f_equal (@length val)) in E. rewrite rev_length, map_length in E. destruct b; [tauto | discriminate].
  - rewrite conv_full_length, rev_length, map_length. split; [reflexivity|]. intros k Hk.
    apply nth_nth_error. rewrite conv_full_nth by (rewrite rev_length, map_length; exact Hk).
    f_equal. apply corr_conv.
Qed.
Lemma np_convolve_spec (a b : list val) : a <> [] -> b <> [] ->
  exists c, np_convolve RA V a b = Ok c /\ length c = (length a + length b - 1)%nat /\
    forall k, (k < length c)%nat -> nth k c 0v = conv_at a b (Z.of_nat k).
Proof.
  intros Ha Hb. exists (convolve_full RA V a b). split.
  - destruct a as [|a0 a]; [tauto|]. destruct b as [|b0 b]; [tauto|]. reflexivity.
  - rewrite conv_full_length. split; [reflexivity|]. intros k Hk. apply nth_nth_error. apply conv_full_nth. exact Hk.
Qed.
Lemma np_convolve_comm (a b : list val) : np_convolve RA V a b = np_convolve RA V b a.
Proof.
  destruct a as [|a0 a]; [destruct b; reflexivity|]. destruct b as [|b0 b]; [reflexivity|].
  unfold np_convolve. f_equal. apply nth_error_ext.
  - rewrite !conv_full_length. lia.
  - intros k Hk. rewrite conv_full_length in Hk. rewrite !conv_full_nth by lia. f_equal. apply conv_comm.
Qed.
End ZSums.

Lemma double_round q k : 0 <= q -> round_half_even q k ->
  (round_half_even (2 * q) (2 * k) <-> Rabs (q - IZR k) <= / 4).
Proof.
  intros Hq Hk. unfold round_half_even at 1. rewrite mult_IZR.
  replace (2 * q - 2 * IZR k) with (2 * (q - IZR k)) by ring.
  rewrite Rabs_mult, (Rabs_right 2) by lra. split.
  - intros [H|[H _]]; lra.
  - intros H. destruct (Req_dec (Rabs (q - IZR k)) (/ 4)) as [E|E]; [right | left; lra].
    split; [lra|]. exists k. lia.
Qed.

Section Lagged.
Context {V : Vals RA} (L : VLaws V).
Notation val := (val V).
Notation rel := (rel RA V).
Notation DC := (default_config RA V).
Add Field Vfield6 : (vl_field V L).
Local Notation "0v" := (v_of V 0).

Definition zeroed (r : rel) : rel := mkRel (moved (- a_start (r_x r)) (r_x r)) (r_y r).
Lemma zeroed_valid (r : rel) : valid r -> valid (zeroed r).
Proof. intros Hv. unfold valid, zeroed. cbn [r_x r_y]. rewrite moved_size. exact Hv. Qed.
Definition lag_T (r1 r2 : rel) : R :=
  Rmax (a_end (r_x r1) - a_start (r_x r1)) (a_end (r_x r2) - a_start (r_x r2)).
Definition lag_d (r1 r2 : rel) : R := Rmin (a_sample (r_x r1)) (a_sample (r_x r2)).
Lemma zeroed_common (r1 r2 : rel) :
  common_x_default RA (r_x (zeroed r1)) (r_x (zeroed r2)) = mkAxis (A:=RA) 0 (lag_T r1 r2) (lag_d r1 r2).
Proof.
  destruct (common_x_spec (r_x (zeroed r1)) (r_x (zeroed r2))) as (H1 & H2 & H3). apply axis_eq.
  - rewrite H1. cbn. rr. rewrite !Rplus_opp_r. apply Rmin_left. lra.
  - rewrite H2. cbn. reflexivity.
  - rewrite H3. reflexivity.
Qed.
Lemma lag_size (r1 r2 : rel) : valid r1 -> valid r2 ->
  exists n, axis_size RA (mkAxis (A:=RA) 0 (lag_T r1 r2) (lag_d r1 r2)) = Ok n.
Proof.
  intros H1 H2. rewrite <- zeroed_common. eapply common_size; apply zeroed_valid; eassumption.
Qed.
Definition lag_y (r : rel) (T : R) (n : nat) : list val := map (ev (zeroed r)) (grid 0 T n).

Lemma lagged_eq comb (r1 r2 : rel) n : valid r1 -> valid r2 ->
  axis_size RA (mkAxis (A:=RA) 0 (lag_T r1 r2) (lag_d r1 r2)) = Ok n ->
  rel_lagged RA V DC comb r1 r2 =
  do y <- comb (lag_y r1 (lag_T r1 r2) n) (lag_y r2 (lag_T r1 r2) n);
  rel_make RA V (mkAxis (A:=RA) (- lag_T r1 r2) (lag_T r1 r2) (lag_d r1 r2)) y.
Proof.
  intros H1 H2 Hn. unfold rel_lagged.
  change (n_opp RA (a_start (r_x r1))) with (- a_start (r_x r1)).
  change (n_opp RA (a_start (r_x r2))) with (- a_start (r_x r2)).
  rewrite (shift_eq r1 _ H1), (shift_eq r2 _ H2). cbn [bind].
  fold (zeroed r1) (zeroed r2).
  rewrite (rel_equalize_eq (zeroed r1) (zeroed r2) n).
  - cbn [bind fst snd r_x r_y]. rewrite zeroed_common. reflexivity.
  - apply zeroed_valid; exact H1.
  - apply zeroed_valid; exact H2.
  - rewrite zeroed_common. exact Hn.
Qed.
Lemma lag_y_from_zero (r : rel) T n : valid r -> from_zero (xs_of r) (r_y r) T n (lag_y r T n).
Proof.
  intros Hv. split; [unfold lag_y; rewrite map_length; apply grid_length|].
  intros i t v Ht Hv'. unfold lag_y in Hv'. rewrite nth_error_map, Ht in Hv'. cbn in Hv'. injection Hv' as <-.
  pose proof (zeroed_valid r Hv) as Hz. pose proof (proj2 (ev_pl L (zeroed r) t _ Hz) eq_refl) as HP.
  replace (map (fun x => x - nth 0 (xs_of r) 0) (xs_of r)) with (xs_of (zeroed r)); [exact HP|].
  unfold zeroed, xs_of at 1. cbn [r_x r_y moved a_start a_end]. rr. rewrite moved_grid.
  apply map_ext. intros x.
  assert (E : nth 0 (xs_of r) 0 = a_start (r_x r)).
  { apply nth_nth_error. unfold xs_of. rewrite grid_nth by (apply valid_pos; exact Hv).
    f_equal. unfold grid_pt. cbn [INR]. rr. lra. }
  rewrite E. rr. lra.
Qed.

Lemma lagged_spec comb (r1 r2 : rel) : valid r1 -> valid r2 ->
  (forall a b, a <> [] -> b <> [] -> exists c, comb a b = Ok c /\ length c = (length a + length b - 1)%nat) ->
  exists n, axis_size RA (mkAxis (A:=RA) 0 (lag_T r1 r2) (lag_d r1 r2)) = Ok n /\ (1 <= n)%nat /\
  let y1 := lag_y r1 (lag_T r1 r2) n in let y2 := lag_y r2 (lag_T r1 r2) n in
  exists c, comb y1 y2 = Ok c /\ length c = (2 * n - 1)%nat /\
  (Rabs (Rabs (lag_T r1 r2 / lag_d r1 r2) - INR (n - 1)) <= / 4 ->
     rel_lagged RA V DC comb r1 r2 = Ok (mkRel (mkAxis (A:=RA) (- lag_T r1 r2) (lag_T r1 r2) (lag_d r1 r2)) c)) /\
  (/ 4 < Rabs (Rabs (lag_T r1 r2 / lag_d r1 r2) - INR (n - 1)) ->
     exists m, m <> (2 * n - 1)%nat /\ rel_lagged RA V DC comb r1 r2 = Err (ENotEqual m (2 * n - 1))).
Proof.
  intros H1 H2 Hc. destruct (lag_size r1 r2 H1 H2) as [n Hn]. exists n. split; [exact Hn|].
  pose proof (axis_size_pos _ _ Hn) as Hp. split; [exact Hp|]. intros y1 y2.
  assert (L1 : length y1 = n) by (unfold y1, lag_y; rewrite map_length; apply grid_length).
  assert (L2 : length y2 = n) by (unfold y2, lag_y; rewrite map_length; apply grid_length).
  destruct (Hc y1 y2) as (c & Ec & Lc).
  { intros E. rewrite E in L1. cbn in L1. lia. }
  { intros E. rewrite E in L2. cbn in L2. lia. }
  exists c. split; [exact Ec|]. split; [lia|].
  rewrite (lagged_eq comb r1 r2 n H1 H2 Hn). fold y1 y2. rewrite Ec. cbn [bind].
  set (T := lag_T r1 r2) in *. set (d := lag_d r1 r2) in *.
  pose proof (sample_nz _ _ Hn) as Hz. cbn [a_sample] in Hz.
  apply axis_size_iff in Hn; [|exact Hz]. destruct Hn as [_ Hr]. cbn [a_start a_end a_sample] in Hr.
  rewrite Rminus_0_r in Hr.
  assert (HS : forall m, axis_size RA (mkAxis (A:=RA) (- T) T d) = Ok m <->
      (1 <= m)%nat /\ round_half_even (2 * Rabs (T / d)) (Z.of_nat m - 1)).
  { intros m. rewrite axis_size_iff by exact Hz. cbn [a_start a_end a_sample].
    replace (Rabs ((T - - T) / d)) with (2 * Rabs (T / d)); [reflexivity|].
    replace ((T - - T) / d) with (2 * (T / d)) by (field; exact Hz). rewrite Rabs_mult, (Rabs_right 2); lra. }
  assert (HK : (Z.of_nat (2 * n - 1) - 1 = 2 * (Z.of_nat n - 1))%Z) by lia.
  assert (HN : INR (n - 1) = IZR (Z.of_nat n - 1)).
  { rewrite INR_IZR_INZ. f_equal. lia. }
  assert (HD := double_round (Rabs (T / d)) (Z.of_nat n - 1) (Rabs_pos _) Hr).
  rewrite HN.
  split.
  - intros Hle. apply rel_make_eq. rewrite Lc, L1, L2.
    replace (n + n - 1)%nat with (2 * n - 1)%nat by lia. apply HS. split; [lia|]. rewrite HK. apply HD. exact Hle.
  - intros Hlt. unfold rel_make.
    rewrite axis_size_nz by exact Hz. cbn [bind]. set (m := (Z.to_nat _ + 1)%nat).
    assert (Hm : axis_size RA (mkAxis (A:=RA) (- T) T d) = Ok m) by (rewrite axis_size_nz by exact Hz; reflexivity).
    assert (Hne : m <> (2 * n - 1)%nat).
    { intros E. rewrite E in Hm. apply HS in Hm. destruct Hm as [_ Hm]. rewrite HK in Hm. apply HD in Hm. lra. }
    exists m. split; [exact Hne|]. rewrite Lc, L1, L2. replace (n + n - 1)%nat with (2 * n - 1)%nat by lia.
    apply Nat.eqb_neq in Hne. rewrite Hne. reflexivity.
Qed.

(** on equal axes the samples used are the samples themselves *)
Lemma lag_y_self (r : rel) (r2 : rel) : valid r -> r_x r = r_x r2 ->
  lag_T r r2 = a_end (r_x r) - a_start (r_x r) /\ lag_d r r2 = a_sample (r_x r) /\
  axis_size RA (mkAxis (A:=RA) 0 (lag_T r r2) (lag_d r r2)) = Ok (length (r_y r)) /\
  lag_y r (lag_T r r2) (length (r_y r)) = r_y r.
Proof.
  intros Hv Hx. assert (HT : lag_T r r2 = a_end (r_x r) - a_start (r_x r)).
  { unfold lag_T. rewrite <- Hx. apply Rmax_left. rr. lra. }
  assert (Hd : lag_d r r2 = a_sample (r_x r)).
  { unfold lag_d. rewrite <- Hx. apply Rmin_left. rr. lra. }
  split; [exact HT|]. split; [exact Hd|].
  assert (Ex : mkAxis (A:=RA) 0 (lag_T r r2) (lag_d r r2) = r_x (zeroed r)).
  { rewrite HT, Hd. unfold zeroed, moved. cbn [r_x]. apply axis_eq; cbn; rr; lra. }
  pose proof (zeroed_valid r Hv) as Hz. split; [rewrite Ex; exact Hz|].
  unfold lag_y. change (r_y r) with (r_y (zeroed r)) at 2.
  transitivity (map (ev (zeroed r)) (xs_of (zeroed r))); [|apply (ev_map_xs L (zeroed r) Hz)].
  f_equal. unfold xs_of. rewrite <- Ex. reflexivity.
Qed.
End Lagged.

Section Final.
Context {V : Vals RA} (L : VLaws V) (CL : CLaws V).
Notation val := (val V).
Notation rel := (rel RA V).
Notation DC := (default_config RA V).
Add Field Vfield7 : (vl_field V L).
Local Notation "0v" := (v_of V 0).

Lemma correlate_full (r1 r2 : rel) xs1 xs2 :
  axis_array RA (r_x r1) = Ok xs1 -> length xs1 = length (r_y r1) ->
  axis_array RA (r_x r2) = Ok xs2 -> length xs2 = length (r_y r2) ->
  let T := Rmax (a_end (r_x r1) - a_start (r_x r1)) (a_end (r_x r2) - a_start (r_x r2)) in
  let d := Rmin (a_sample (r_x r1)) (a_sample (r_x r2)) in
  exists n y1 y2, axis_size RA (mkAxis (A:=RA) 0 T d) = Ok n /\
    from_zero xs1 (r_y r1) T n y1 /\ from_zero xs2 (r_y r2) T n y2 /\
    (Rabs (Rabs (T / d) - INR (n - 1)) <= / 4 ->
       exists r', rel_correlate RA V DC r1 r2 = Ok r' /\ r_x r' = mkAxis (A:=RA) (- T) T d /\
         length (r_y r') = (2 * n - 1)%nat /\
         forall k, (k < 2 * n - 1)%nat -> nth k (r_y r') 0v = corr_at y1 y2 (Z.of_nat k - (Z.of_nat n - 1))) /\
    (/ 4 < Rabs (Rabs (T / d) - INR (n - 1)) ->
       exists m, m <> (2 * n - 1)%nat /\ rel_correlate RA V DC r1 r2 = Err (ENotEqual m (2 * n - 1))).
Proof.
  intros A1 L1 A2 L2 T d.
  assert (V1 : valid r1) by (apply axis_array_inv in A1; destruct A1 as [A1 _]; unfold valid; rewrite <- L1; exact A1).
  assert (V2 : valid r2) by (apply axis_array_inv in A2; destruct A2 as [A2 _]; unfold valid; rewrite <- L2; exact A2).
  assert (E1 : xs1 = xs_of r1) by (rewrite (valid_array r1 V1) in A1; congruence).
  assert (E2 : xs2 = xs_of r2) by (rewrite (valid_array r2 V2) in A2; congruence).
  destruct (lagged_spec (np_correlate RA V) r1 r2 V1 V2) as (n & Hn & Hp & c & Ec & Lc & Hok & Hbad).
  { intros a b Ha Hb. destruct (np_correlate_spec L CL a b Ha Hb) as (c & H1 & H2 & _). eauto. }
  change (lag_T r1 r2) with T in *. change (lag_d r1 r2) with d in *.
  exists n, (lag_y r1 T n), (lag_y r2 T n). subst xs1 xs2.
  split; [exact Hn|]. split; [apply (lag_y_from_zero L); exact V1|]. split; [apply (lag_y_from_zero L); exact V2|].
  split; [|exact Hbad].
  intros Hle. eexists. split; [exact (Hok Hle)|]. split; [reflexivity|]. cbn [r_y]. split; [exact Lc|].
  intros k Hk.
  assert (Ly : forall r : rel, length (lag_y r T n) = n) by (intros r; unfold lag_y; rewrite map_length; apply grid_length).
  destruct (np_correlate_spec L CL (lag_y r1 T n) (lag_y r2 T n)) as (c' & Ec' & Lc' & Hc').
  { intros E. specialize (Ly r1). rewrite E in Ly. cbn in Ly. lia. }
  { intros E. specialize (Ly r2). rewrite E in Ly. cbn in Ly. lia. }
  rewrite Ec in Ec'. injection Ec' as <-. rewrite Hc' by lia. rewrite Ly. reflexivity.
Qed.

(** equal axes *)
Lemma correlate_equal_axes (r1 r2 : rel) : valid r1 -> valid r2 -> r_x r1 = r_x r2 ->
  let T := a_end (r_x r1) - a_start (r_x r1) in let d := a_sample (r_x r1) in let n := length (r_y r1) in
  (Rabs (Rabs (T / d) - INR (n - 1)) <= / 4 ->
     exists r', rel_correlate RA V DC r1 r2 = Ok r' /\ r_x r' = mkAxis (A:=RA) (- T) T d /\
       length (r_y r') = (2 * n - 1)%nat /\
       forall k, (k < 2 * n - 1)%nat -> nth k (r_y r') 0v = corr_at (r_y r1) (r_y r2) (Z.of_nat k - (Z.of_nat n - 1))) /\
  (/ 4 < Rabs (Rabs (T / d) - INR (n - 1)) -> is_ok (rel_correlate RA V DC r1 r2) = false).
Proof.
  intros V1 V2 Hx T d n.
  assert (Ln : length (r_y r2) = n). { unfold valid in V1, V2. rewrite <- Hx in V2. unfold n. congruence. }
  destruct (lag_y_self L r1 r2 V1 Hx) as (HT & Hd & Hs & Hy1).
  assert (Hy2 : lag_y r2 (lag_T r1 r2) n = r_y r2).
  { destruct (lag_y_self L r2 r1 V2 (eq_sym Hx)) as (HT' & _ & _ & Hy). rewrite Ln in Hy.
    rewrite HT. rewrite HT' in Hy. rewrite <- Hx in Hy. exact Hy. }
  destruct (lagged_spec (np_correlate RA V) r1 r2 V1 V2) as (n' & Hn & Hp & c & Ec & Lc & Hok & Hbad).
  { intros a b Ha Hb. destruct (np_correlate_spec L CL a b Ha Hb) as (c & H1 & H2 & _). eauto. }
  assert (n' = n) by (rewrite Hs in Hn; injection Hn as Hn; unfold n; congruence). subst n'.
  rewrite Hy2 in Ec. fold n in Hy1. rewrite Hy1 in Ec. rewrite HT, Hd in Hok, Hbad. fold T d in Hok, Hbad.
  split.
  - intros Hle. eexists. split; [exact (Hok Hle)|]. split; [reflexivity|]. cbn [r_y]. split; [exact Lc|].
    intros k Hk. destruct (np_correlate_spec L CL (r_y r1) (r_y r2)) as (c' & Ec' & Lc' & Hc').
    { intros E. unfold n in Hp. rewrite E in Hp. cbn in Hp. lia. }
    { intros E. rewrite E in Ln. cbn in Ln. lia. }
    rewrite Ec in Ec'. injection Ec' as <-. rewrite Hc' by lia. rewrite Ln. reflexivity.
  - intros Hlt. destruct (Hbad Hlt) as (m & _ & E). unfold rel_correlate. rr. rewrite E. reflexivity.
Qed.

(** swapping the arguments mirrors and conjugates *)
Lemma correlate_swap (r1 r2 r' r'' : rel) : valid r1 -> valid r2 ->
  rel_correlate RA V DC r1 r2 = Ok r' -> rel_correlate RA V DC r2 r1 = Ok r'' ->
  r_x r'' = r_x r' /\ r_y r'' = map (v_conj V) (rev (r_y r')).
Proof.
  intros V1 V2 E1 E2.
  pose proof (valid_array r1 V1) as A1. pose proof (valid_array r2 V2) as A2.
  assert (C1 : forall a b : list val, a <> [] -> b <> [] ->
      exists c, np_correlate RA V a b = Ok c /\ length c = (length a + length b - 1)%nat).
  { intros a b Ha Hb. destruct (np_correlate_spec L CL a b Ha Hb) as (c & H1 & H2 & _). eauto. }
  destruct (lagged_spec (np_correlate RA V) r1 r2 V1 V2 C1) as (n & Hn & Hp & c & Ec & Lc & Hok & Hbad).
  destruct (lagged_spec (np_correlate RA V) r2 r1 V2 V1 C1) as (n' & Hn' & Hp' & c' & Ec' & Lc' & Hok' & Hbad').
  assert (ET : lag_T r2 r1 = lag_T r1 r2) by (unfold lag_T; apply Rmax_comm).
  assert (Ed : lag_d r2 r1 = lag_d r1 r2) by (unfold lag_d; apply Rmin_comm).
  rewrite ET, Ed in *. rewrite Hn in Hn'. injection Hn' as <-.
  set (T := lag_T r1 r2) in *. set (d := lag_d r1 r2) in *.
  destruct (Rle_lt_dec (Rabs (Rabs (T / d) - INR (n - 1))) (/ 4)) as [Hle|Hlt].
  2:{ exfalso. destruct (Hbad Hlt) as (m & _ & E). unfold rel_correlate in E1. congruence. }
  specialize (Hok Hle). specialize (Hok' Hle). unfold rel_correlate in E1, E2.
  assert (r' = mkRel (mkAxis (A:=RA) (- T) T d) c) by congruence.
  assert (r'' = mkRel (mkAxis (A:=RA) (- T) T d) c') by congruence. subst r' r''. cbn [r_x r_y].
  split; [reflexivity|].
  assert (Ly : forall r : rel, length (lag_y r T n) = n) by (intros r; unfold lag_y; rewrite map_length; apply grid_length).
  assert (Hne : forall r : rel, lag_y r T n <> []).
  { intros r E. specialize (Ly r). rewrite E in Ly. cbn in Ly. lia. }
  destruct (np_correlate_spec L CL (lag_y r1 T n) (lag_y r2 T n) (Hne r1) (Hne r2)) as (d1 & Ed1 & _ & Hd1).
  destruct (np_correlate_spec L CL (lag_y r2 T n) (lag_y r1 T n) (Hne r2) (Hne r1)) as (d2 & Ed2 & _ & Hd2).
  assert (d1 = c) by congruence. assert (d2 = c') by congruence. subst d1 d2.
  apply nth_error_ext; [rewrite map_length, rev_length; lia|].
  intros k Hk. rewrite nth_error_map, nth_error_rev by lia.
  rewrite (nth_error_nth' c' k 0v) by lia. rewrite (nth_error_nth' c _ 0v) by lia. cbn [option_map].
  f_equal. rewrite Hd2, Hd1 by lia. rewrite <- (corr_mirror L CL). rewrite !Ly. f_equal. lia.
Qed.

(** C27 *)
Lemma convolve_comm (r1 r2 : rel) : valid r1 -> valid r2 ->
  rel_convolve RA V DC r1 r2 = rel_convolve RA V DC r2 r1.
Proof.
  intros V1 V2. destruct (lag_size r1 r2 V1 V2) as [n Hn].
  assert (ET : lag_T r2 r1 = lag_T r1 r2) by (unfold lag_T; apply Rmax_comm).
  assert (Ed : lag_d r2 r1 = lag_d r1 r2) by (unfold lag_d; apply Rmin_comm).
  unfold rel_convolve. rewrite (lagged_eq _ r1 r2 n V1 V2 Hn).
  rewrite (lagged_eq _ r2 r1 n V2 V1) by (rewrite ET, Ed; exact Hn). rewrite ET, Ed.
  rewrite (np_convolve_comm L). reflexivity.
Qed.
Lemma convolve_full_spec (r1 r2 : rel) xs1 xs2 :
  axis_array RA (r_x r1) = Ok xs1 -> length xs1 = length (r_y r1) ->
  axis_array RA (r_x r2) = Ok xs2 -> length xs2 = length (r_y r2) ->
  let T := Rmax (a_end (r_x r1) - a_start (r_x r1)) (a_end (r_x r2) - a_start (r_x r2)) in
  let d := Rmin (a_sample (r_x r1)) (a_sample (r_x r2)) in
  exists n y1 y2, axis_size RA (mkAxis (A:=RA) 0 T d) = Ok n /\
    from_zero xs1 (r_y r1) T n y1 /\ from_zero xs2 (r_y r2) T n y2 /\
    (Rabs (Rabs (T / d) - INR (n - 1)) <= / 4 ->
       exists r', rel_convolve RA V DC r1 r2 = Ok r' /\ r_x r' = mkAxis (A:=RA) (- T) T d /\
         length (r_y r') = (2 * n - 1)%nat /\
         forall k, (k < 2 * n - 1)%nat -> nth k (r_y r') 0v = conv_at y1 y2 (Z.of_nat k)) /\
    (/ 4 < Rabs (Rabs (T / d) - INR (n - 1)) ->
       exists m, m <> (2 * n - 1)%nat /\ rel_convolve RA V DC r1 r2 = Err (ENotEqual m (2 * n - 1))).
Proof.
  intros A1 L1 A2 L2 T d.
  assert (V1 : valid r1) by (apply axis_array_inv in A1; destruct A1 as [A1 _]; unfold valid; rewrite <- L1; exact A1).
  assert (V2 : valid r2) by (apply axis_array_inv in A2; destruct A2 as [A2 _]; unfold valid; rewrite <- L2; exact A2).
  assert (E1 : xs1 = xs_of r1) by (rewrite (valid_array r1 V1) in A1; congruence).
  assert (E2 : xs2 = xs_of r2) by (rewrite (valid_array r2 V2) in A2; congruence).
  destruct (lagged_spec (np_convolve RA V) r1 r2 V1 V2) as (n & Hn & Hp & c & Ec & Lc & Hok & Hbad).
  { intros a b Ha Hb. destruct (np_convolve_spec L a b Ha Hb) as (c & H1 & H2 & _). eauto. }
  change (lag_T r1 r2) with T in *. change (lag_d r1 r2) with d in *.
  exists n, (lag_y r1 T n), (lag_y r2 T n). subst xs1 xs2.
  split; [exact Hn|]. split; [apply (lag_y_from_zero L); exact V1|]. split; [apply (lag_y_from_zero L); exact V2|].
  split; [|exact Hbad].
  intros Hle. eexists. split; [exact (Hok Hle)|]. split; [reflexivity|]. cbn [r_y]. split; [exact Lc|].
  intros k Hk.
  assert (Ly : forall r : rel, length (lag_y r T n) = n) by (intros r; unfold lag_y; rewrite map_length; apply grid_length).
  destruct (np_convolve_spec L (lag_y r1 T n) (lag_y r2 T n)) as (c' & Ec' & Lc' & Hc').
  { intros E. specialize (Ly r1). rewrite E in Ly. cbn in Ly. lia. }
  { intros E. specialize (Ly r2). rewrite E in Ly. cbn in Ly. lia. }
  rewrite Ec in Ec'. injection Ec' as <-. apply Hc'. lia.
Qed.

(** convolution with a unit impulse on the same axis: the samples of [r], then zeros *)
Lemma conv_impulse (y : list val) k : (1 <= length y)%nat ->
  conv_at y (v_of V 1 :: repeat 0v (length y - 1)) (Z.of_nat k) = nth k y 0v.
Proof.
  intros Hn. rewrite (conv_comm L). unfold conv_at. cbn [length]. rewrite repeat_length.
  rewrite (vsum_head L). 
  rewrite (vsum_ext _ (fun _ => 0v)).
  - rewrite (vsum_zero L). change (Z.of_nat 0) with 0%Z. rewrite Z.sub_0_r, (at0_nat y).
    change (at0 (v_of V 1 :: repeat 0v (length y - 1)) 0) with (v_of V 1). ring.
  - intros i Hi. rewrite at0_nat. cbn [nth].
    assert (E : nth i (repeat 0v (length y - 1)) 0v = 0v).
    { apply nth_nth_error. clear -Hi. revert i Hi; induction (length y - 1)%nat as [|m IH]; intros i Hi; [lia|].
      destruct i as [|i]; [reflexivity|]. cbn. apply IH. lia. }
    rewrite E. ring.
Qed.
Lemma convolve_impulse (r : rel) (m : nat) : valid r -> exact_span (a_start (r_x r)) (a_end (r_x r)) (a_sample (r_x r)) m ->
  a_start (r_x r) = 0 ->
  exists r', rel_convolve RA V DC r (mkRel (r_x r) (v_of V 1 :: repeat 0v (length (r_y r) - 1))) = Ok r' /\
    r_x r' = mkAxis (A:=RA) (- a_end (r_x r)) (a_end (r_x r)) (a_sample (r_x r)) /\
    r_y r' = r_y r ++ repeat 0v (length (r_y r) - 1).
Proof.
  intros Hv [Hd He] Hs0. set (imp := mkRel (r_x r) (v_of V 1 :: repeat 0v (length (r_y r) - 1))).
  pose proof (valid_pos r Hv) as Hp.
  assert (Vi : valid imp).
  { unfold valid, imp. cbn [r_x r_y length]. rewrite repeat_length.
    replace (S (length (r_y r) - 1)) with (length (r_y r)) by lia. exact Hv. }
  destruct (lag_y_self L r imp Hv eq_refl) as (HT & Hdd & Hs & Hy1).
  assert (Ln : length (r_y imp) = length (r_y r)) by (unfold imp; cbn [r_y length]; rewrite repeat_length; lia).
  assert (Hy2 : lag_y imp (lag_T r imp) (length (r_y r)) = r_y imp).
  { destruct (lag_y_self L imp r Vi eq_refl) as (HT' & _ & _ & Hy). rewrite Ln in Hy.
    rewrite HT. rewrite HT' in Hy. exact Hy. }
  destruct (lagged_spec (np_convolve RA V) r imp Hv Vi) as (n' & Hn & _ & c & Ec & Lc & Hok & _).
  { intros a b Ha Hb. destruct (np_convolve_spec L a b Ha Hb) as (c & H1 & H2 & _). eauto. }
  assert (n' = length (r_y r)) by (rewrite Hs in Hn; injection Hn as Hn; congruence). subst n'.
  rewrite Hy1, Hy2 in Ec. rewrite HT, Hdd in Hok.
  set (n := length (r_y r)) in *. rr.
  assert (Hq : (a_end (r_x r) - a_start (r_x r)) / a_sample (r_x r) = INR m) by (rewrite He; field; lra).
  assert (Hm : (n = m + 1)%nat).
  { unfold valid in Hv. rewrite axis_size_nz in Hv by (rr; lra). rr. rewrite Hq in Hv.
    rewrite Rabs_right in Hv by (apply Rle_ge, pos_INR). rewrite Rround_INR in Hv. injection Hv as Hv. unfold n. lia. }
  eexists. split.
  - apply Hok. rewrite Hq. rewrite (Rabs_right (INR m)) by (apply Rle_ge, pos_INR).
    rewrite Hm. replace (m + 1 - 1)%nat with m by lia. rewrite Rminus_eq_0, Rabs_R0. lra.
  - cbn [r_x r_y]. rewrite Hs0, Rminus_0_r. split; [reflexivity|].
    destruct (np_convolve_spec L (r_y r) (r_y imp)) as (c' & Ec' & Lc' & Hc').
    { intros E. unfold n in Hp. rewrite E in Hp. cbn in Hp. lia. }
    { intros E. rewrite E in Ln. cbn in Ln. lia. }
    assert (c' = c) by congruence. subst c'.
    apply nth_error_ext; [rewrite app_length, repeat_length; fold n; lia|].
    intros k Hk. rewrite (nth_error_nth' c k 0v) by lia. rewrite Hc' by lia.
    unfold imp. cbn [r_y]. unfold n. rewrite conv_impulse by (fold n; lia). fold n.
    destruct (Nat.lt_ge_cases k n) as [Hlt|Hge].
    + rewrite nth_error_app1 by exact Hlt. rewrite (nth_error_nth' (r_y r) k 0v) by exact Hlt. reflexivity.
    + rewrite nth_error_app2 by exact Hge. rewrite nth_overflow by exact Hge.
      assert (Hr : (k - length (r_y r) < n - 1)%nat) by (fold n; lia). clear -Hr.
      revert Hr; generalize (k - length (r_y r))%nat as i. induction (n - 1)%nat as [|j IH]; intros i Hi; [lia|].
      destruct i as [|i]; [reflexivity|]. cbn. apply IH. lia.
Qed.
End Final.

(** C26 *)
Lemma Rsum_le (f g : nat -> R) n : (forall i, (i < n)%nat -> f i <= g i) -> vsum (V:=RV) f n <= vsum (V:=RV) g n.
Proof.
  induction n as [|n IH]; intros H; cbn [vsum RV v_add v_of]; [lra|].
  apply Rplus_le_compat; [apply IH; intros; apply H; lia | apply H; lia].
Qed.
Lemma window_le (F : Z -> R) lo len n : (forall z, 0 <= F z) -> (forall z, ~ (0 <= z < Z.of_nat n)%Z -> F z = 0) ->
  zsum (V:=RV) F lo len <= zsum (V:=RV) F 0 n.
Proof.
  intros Hp Hs.
  set (G := fun z => if ((lo <=? z) && (z <? lo + Z.of_nat len))%Z then F z else 0).
  assert (E : zsum (V:=RV) F lo len = zsum (V:=RV) G lo len).
  { apply (zsum_ext (V:=RV)). intros z Hz. unfold G.
    replace ((lo <=? z) && (z <? lo + Z.of_nat len))%Z with true; [reflexivity|].
    symmetry. apply andb_true_iff. split; [apply Z.leb_le | apply Z.ltb_lt]; lia. }
  rewrite E. rewrite (zsum_windows RV_laws G lo len 0 n).
  - apply Rsum_le. intros i Hi. unfold G. destruct ((_ && _)%bool); [lra | apply Hp].
  - intros z Hz. unfold G. destruct ((lo <=? z) && (z <? lo + Z.of_nat len))%Z eqn:Eb; [|reflexivity].
    apply andb_true_iff in Eb. destruct Eb as [E1 E2]. apply Z.leb_le in E1. apply Z.ltb_lt in E2.
    apply Hs. lia.
Qed.
Lemma Rsum_abs (f : nat -> R) n : Rabs (vsum (V:=RV) f n) <= vsum (V:=RV) (fun i => Rabs (f i)) n.
Proof.
  induction n as [|n IH]; cbn [vsum RV v_add v_of]; [rewrite Rabs_R0; lra|].
  eapply Rle_trans; [apply Rabs_triang|]. apply Rplus_le_compat_r. exact IH.
Qed.
Lemma Csum_abs (f : nat -> C) n : Cmod (vsum (V:=CV) f n) <= vsum (V:=RV) (fun i => Cmod (f i)) n.
Proof.
  induction n as [|n IH]; cbn [vsum RV CV v_add v_of].
  - change (n_of_Z RA 0) with 0. rewrite Cmod_0. lra.
  - eapply Rle_trans; [apply Cmod_triangle|]. apply Rplus_le_compat_r. exact IH.
Qed.
(** sum of products of a sequence with its shifted self *)
Lemma self_products (g : Z -> R) n lag : (forall z, 0 <= g z) -> (forall z, ~ (0 <= z < Z.of_nat n)%Z -> g z = 0) ->
  vsum (V:=RV) (fun i => g (Z.of_nat i + lag)%Z * g (Z.of_nat i)) n <= vsum (V:=RV) (fun i => g (Z.of_nat i) * g (Z.of_nat i)) n.
Proof.
  intros Hp Hs.
  set (S2 := vsum (V:=RV) (fun i => g (Z.of_nat i) * g (Z.of_nat i)) n).
  assert (H1 : vsum (V:=RV) (fun i => g (Z.of_nat i + lag)%Z * g (Z.of_nat i + lag)%Z) n <= S2).
  { pose proof (window_le (fun z => g z * g z) lag n n) as HW.
    unfold zsum in HW. unfold S2.
    rewrite (vsum_ext (V:=RV) (fun i => g (Z.of_nat i + lag)%Z * g (Z.of_nat i + lag)%Z) (fun i => g (lag + Z.of_nat i)%Z * g (lag + Z.of_nat i)%Z))
      by (intros i _; rewrite Z.add_comm; reflexivity).
    rewrite (vsum_ext (V:=RV) (fun i => g (Z.of_nat i) * g (Z.of_nat i)) (fun i => g (0 + Z.of_nat i)%Z * g (0 + Z.of_nat i)%Z))
      by (intros i _; reflexivity).
    apply HW.
    - intros z. apply Rle_0_sqr.
    - intros z Hz. rewrite (Hs z Hz). ring. }
  assert (H2 : vsum (V:=RV) (fun i => g (Z.of_nat i + lag)%Z * g (Z.of_nat i)) n <=
     vsum (V:=RV) (fun i => v_mul RV (/ 2) (v_add RV (g (Z.of_nat i + lag)%Z * g (Z.of_nat i + lag)%Z) (g (Z.of_nat i) * g (Z.of_nat i)))) n).
  { apply Rsum_le. intros i _. cbn [RV v_mul v_add].
    pose proof (Rle_0_sqr (g (Z.of_nat i + lag)%Z - g (Z.of_nat i))) as Hsq. unfold Rsqr in Hsq. lra. }
  rewrite (vsum_scal RV_laws), (vsum_add RV_laws) in H2. cbn [RV v_mul v_add] in H2. unfold S2 in *.
  cbn [RV val] in *. lra.
Qed.
Lemma auto_peak_real (y : list R) lag :
  Rabs (corr_at (V:=RV) y y lag) <= vsum (V:=RV) (fun i => nth i y 0 * nth i y 0) (length y) /\
  corr_at (V:=RV) y y 0 = vsum (V:=RV) (fun i => nth i y 0 * nth i y 0) (length y).
Proof.
  split.
  - unfold corr_at. eapply Rle_trans; [apply Rsum_abs|].
    cbn [RV v_mul v_conj].
    rewrite (vsum_ext (V:=RV) _ (fun i => (fun z => Rabs (at0 (V:=RV) y z)) (Z.of_nat i + lag)%Z * (fun z => Rabs (at0 (V:=RV) y z)) (Z.of_nat i)))
      by (intros i _; apply Rabs_mult).
    eapply Rle_trans; [apply (self_products (fun z => Rabs (at0 (V:=RV) y z)))|].
    + intros z. apply Rabs_pos.
    + intros z Hz. rewrite (at0_out (V:=RV) y z Hz). apply Rabs_R0.
    + apply Req_le. apply (vsum_ext (V:=RV)). intros i _. rewrite <- Rabs_mult.
      rewrite (at0_nat (V:=RV)). apply Rabs_right. apply Rle_ge, Rle_0_sqr.
  - unfold corr_at. apply (vsum_ext (V:=RV)). intros i _. rewrite Z.add_0_r, (at0_nat (V:=RV)). reflexivity.
Qed.
Lemma Cmod_conj z : Cmod (Cconj z) = Cmod z.
Proof. destruct z as [a b]. unfold Cmod, Cconj. cbn [fst snd]. f_equal. ring. Qed.
Lemma Cmult_conj_mod (z : C) : Cmult z (Cconj z) = RtoC (Cmod z * Cmod z).
Proof.
  destruct z as [a b]. unfold Cmod, Cmult, Cconj, RtoC. cbn [fst snd].
  rewrite sqrt_sqrt by nra. f_equal; ring.
Qed.
Lemma auto_peak_complex (y : list C) lag :
  Cmod (corr_at (V:=CV) y y lag) <= vsum (V:=RV) (fun i => Cmod (nth i y (RtoC 0)) * Cmod (nth i y (RtoC 0))) (length y) /\
  corr_at (V:=CV) y y 0 = RtoC (vsum (V:=RV) (fun i => Cmod (nth i y (RtoC 0)) * Cmod (nth i y (RtoC 0))) (length y)).
Proof.
  split.
  - unfold corr_at. eapply Rle_trans; [apply Csum_abs|].
    rewrite (vsum_ext (V:=RV) _ (fun i => (fun z => Cmod (at0 (V:=CV) y z)) (Z.of_nat i + lag)%Z * (fun z => Cmod (at0 (V:=CV) y z)) (Z.of_nat i))).
    2:{ intros i _. cbn [CV v_mul v_conj]. rewrite Cmod_mult, Cmod_conj. reflexivity. }
    eapply Rle_trans; [apply (self_products (fun z => Cmod (at0 (V:=CV) y z)))|].
    + intros z. apply Cmod_ge_0.
    + intros z Hz. rewrite (at0_out (V:=CV) y z Hz). apply Cmod_0.
    + apply Req_le. apply (vsum_ext (V:=RV)). intros i _. rewrite (at0_nat (V:=CV)). reflexivity.
  - unfold corr_at. change (@length C y) with (@length (val CV) y). generalize (@length (val CV) y) as m.
    induction m as [|n IH]; [reflexivity|]. cbn [vsum CV RV v_add]. rewrite RtoC_plus.
    f_equal; [exact IH|]. rewrite Z.add_0_r, (at0_nat (V:=CV)). exact (Cmult_conj_mod _).
Qed.

Lemma auto_real (r r' : rel RA RV) : valid r ->
  rel_correlate RA RV (default_config RA RV) r r = Ok r' ->
  let E := vsum (V:=RV) (fun i => nth i (r_y r) 0 * nth i (r_y r) 0) (length (r_y r)) in
  nth_error (r_y r') (length (r_y r) - 1) = Some E /\ forall v, In v (r_y r') -> Rabs v <= E.
Proof.
  intros Hv HE E. pose proof (valid_pos r Hv) as Hp.
  destruct (correlate_equal_axes RV_laws RV_claws r r Hv Hv eq_refl) as [Hok Hbad]. cbv zeta in Hok, Hbad.
  set (n := length (r_y r)) in *.
  match type of Hok with ?P -> _ => destruct (Rle_lt_dec (Rabs (Rabs ((a_end (r_x r) - a_start (r_x r)) / a_sample (r_x r)) - INR (n - 1))) (/ 4)) as [Hle|Hlt] end.
  2:{ exfalso. specialize (Hbad Hlt). rewrite HE in Hbad. discriminate. }
  destruct (Hok Hle) as (r2 & E2 & _ & Ln & Hy). rewrite HE in E2. injection E2 as <-. split.
  - rewrite (nth_error_nth' _ _ (v_of RV 0)) by lia. f_equal. rewrite Hy by lia.
    replace (Z.of_nat (n - 1) - (Z.of_nat n - 1))%Z with 0%Z by lia. apply auto_peak_real. exact 0%Z.
  - intros v Hv'. destruct (In_nth_error _ _ Hv') as [k Hk].
    assert (Hkl : (k < 2 * n - 1)%nat) by (rewrite <- Ln; apply nth_error_Some; congruence).
    apply (nth_nth_error _ _ (v_of RV 0)) in Hk. rewrite <- Hk, Hy by exact Hkl. apply auto_peak_real.
Qed.
Lemma auto_complex (r r' : rel RA CV) : valid r ->
  rel_correlate RA CV (default_config RA CV) r r = Ok r' ->
  let E := vsum (V:=RV) (fun i => Cmod (nth i (r_y r) (RtoC 0)) * Cmod (nth i (r_y r) (RtoC 0))) (length (r_y r)) in
  nth_error (r_y r') (length (r_y r) - 1) = Some (RtoC E) /\ forall v, In v (r_y r') -> Cmod v <= E.
Proof.
  intros Hv HE E. pose proof (valid_pos r Hv) as Hp.
  destruct (correlate_equal_axes CV_laws CV_claws r r Hv Hv eq_refl) as [Hok Hbad]. cbv zeta in Hok, Hbad.
  set (n := length (r_y r)) in *.
  match type of Hok with ?P -> _ => destruct (Rle_lt_dec (Rabs (Rabs ((a_end (r_x r) - a_start (r_x r)) / a_sample (r_x r)) - INR (n - 1))) (/ 4)) as [Hle|Hlt] end.
  2:{ exfalso. specialize (Hbad Hlt). rewrite HE in Hbad. discriminate. }
  destruct (Hok Hle) as (r2 & E2 & _ & Ln & Hy). rewrite HE in E2. injection E2 as <-. split.
  - rewrite (nth_error_nth' _ _ (v_of CV 0)) by lia. f_equal. rewrite Hy by lia.
    replace (Z.of_nat (n - 1) - (Z.of_nat n - 1))%Z with 0%Z by lia. apply auto_peak_complex. exact 0%Z.
  - intros v Hv'. destruct (In_nth_error _ _ Hv') as [k Hk].
    assert (Hkl : (k < 2 * n - 1)%nat) by (rewrite <- Ln; apply nth_error_Some; congruence).
    apply (nth_nth_error _ _ (v_of CV 0)) in Hk. rewrite <- Hk, Hy by exact Hkl. apply auto_peak_complex.
Qed.
