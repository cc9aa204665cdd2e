(** Lemmas on the shuffled frequency law. *)
From Coq Require Import Reals ZArith List Bool Lia Lra Permutation.
From Coquelicot Require Import Complex.
From Verif Require Import Num Numpy AxisModel RelModel HeapModel Spec RLemmas AxisLemmas InterpLemmas VInst RelLemmas RelLemmas2 RelLemmas3
  FourierModel SweepModel PreparedModel PreparedSpec PreparedLemmas PreparedLemmas2 PreparedLemmas3.
Import ListNotations.
Local Open Scope R_scope.


Lemma Rceil_spec x : x <= IZR (Rceil x) < x + 1.
Proof. unfold Rceil. rewrite opp_IZR. destruct (base_Int_part (- x)) as [H1 H2]. lra. Qed.
Lemma Rceil_unique x k : x <= IZR k < x + 1 -> Rceil x = k.
Proof.
  intros H. pose proof (Rceil_spec x) as H2. assert (IZR (Rceil x) < IZR (k + 1)) by (rewrite plus_IZR; lra).
  assert (IZR k < IZR (Rceil x + 1)) by (rewrite plus_IZR; lra). apply lt_IZR in H0, H1. lia.
Qed.
Lemma grid_between s e n x : In x (grid s e n) -> between s e x.
Proof.
  intros H. apply In_nth_error in H. destruct H as [i Hi]. apply grid_nth_inv in Hi. destruct Hi as [Hi ->].
  unfold between, grid_pt. destruct (Nat.eq_dec (n - 1) 0) as [E|E].
  - assert (i = 0)%nat by lia. subst i. cbn [INR]. unfold Rmin, Rmax. destruct (Rle_dec s e); lra.
  - assert (H0 : 0 < INR (n - 1)) by (apply lt_0_INR; lia). assert (H1 : INR i <= INR (n - 1)) by (apply le_INR; lia).
    pose proof (pos_INR i) as H2. set (q := INR i / INR (n - 1)).
    replace (INR i * ((e - s) / INR (n - 1))) with (q * (e - s)) by (unfold q; field; lra).
    assert (Hq : 0 <= q <= 1).
    { unfold q. split; [unfold Rdiv; apply Rmult_le_pos; [lra | left; apply Rinv_0_lt_compat; lra]|].
      apply (Rmult_le_reg_r (INR (n - 1))); [lra|]. unfold Rdiv. rewrite Rmult_assoc, Rinv_l by lra. lra. }
    unfold Rmin, Rmax. destruct (Rle_dec s e); split; nra.
Qed.

(** list of blocks of equal length *)
Lemma concat_len {T} (l : list (list T)) m : (forall b, In b l -> length b = m) -> length (concat l) = (length l * m)%nat.
Proof.
  induction l as [|b l IH]; intros H; [reflexivity|]. cbn. rewrite app_length, (H b (or_introl eq_refl)), IH; [reflexivity|].
  intros; apply H; right; assumption.
Qed.
Lemma concat_nth {T} (l : list (list T)) m k j d : (forall b, In b l -> length b = m) -> (k < length l)%nat -> (j < m)%nat ->
  nth (k * m + j) (concat l) d = nth j (nth k l []) d.
Proof.
  revert k. induction l as [|b l IH]; intros k H Hk Hj; [cbn in Hk; lia|]. cbn [concat].
  pose proof (H b (or_introl eq_refl)) as Hb. destruct k as [|k].
  - cbn [Nat.mul Nat.add nth]. rewrite app_nth1 by lia. reflexivity.
  - rewrite app_nth2 by (rewrite Hb; cbn [Nat.mul]; lia). rewrite Hb. replace (S k * m + j - m)%nat with (k * m + j)%nat by (cbn [Nat.mul]; lia).
    rewrite IH; [reflexivity | intros; apply H; right; assumption | cbn in Hk; lia | exact Hj].
Qed.

Lemma first_nth {T} (l : list T) i k d : (i < k)%nat -> nth i (firstn k l) d = nth i l d.
Proof.
  revert l i; induction k as [|k IH]; intros l i H; [lia|]. destruct l as [|x l]; [reflexivity|].
  destruct i as [|i]; [reflexivity|]. cbn. apply IH. lia.
Qed.
Section Law.
Context (shuffle : list R -> list R) (t : axis RA) (f_start f_end segment : R).
Hypothesis Hperm : forall l, Permutation (shuffle l) l.

Lemma law_short digits : segment <= a_sample t -> shuffle_law shuffle t f_start f_end segment digits = Err ESegment.
Proof. intros H. unfold shuffle_law. replace (Rleb segment (a_sample t)) with true by (symmetry; apply Rleb_true; exact H). reflexivity. Qed.

Hypothesis (Hd : 0 < a_sample t) (Hseg : a_sample t < segment).
(** samples per segment *)
Definition per_segment : nat := Z.to_nat (Rceil (segment / a_sample t)).
Lemma per_segment_Z : Z.of_nat per_segment = Rceil (segment / a_sample t) /\ (2 <= per_segment)%nat.
Proof.
  unfold per_segment. pose proof (Rceil_spec (segment / a_sample t)) as [H1 H2].
  assert (1 < segment / a_sample t).
  { apply (Rmult_lt_reg_r (a_sample t)); [exact Hd|]. unfold Rdiv. rewrite Rmult_assoc, Rinv_l by lra. lra. }
  assert (1 < IZR (Rceil (segment / a_sample t))) by lra. apply lt_IZR in H0. lia.
Qed.
Definition n_segments : Z := Rceil (a_end t / segment).

Definition cosines : list R := tl (map (fun v => cos (v * PI / segment - PI) / 2 + 1 / 2) (linspace RA 0 segment (S per_segment))).
Lemma cosines_len : length cosines = per_segment.
Proof. unfold cosines. rewrite linspace_R. destruct (grid 0 segment (S per_segment)) eqn:E; apply (f_equal (@length R)) in E; rewrite grid_length in E; cbn in *; [lia|]. rewrite map_length. lia. Qed.
Lemma cosines_nth j : (j < per_segment)%nat -> nth j cosines 0 = (1 - cos (PI * INR (S j) / INR per_segment)) / 2.
Proof.
  intros Hj. unfold cosines. rewrite linspace_R.
  assert (Ht : forall (l : list R) k, nth k (tl l) 0 = nth (S k) l 0) by (intros [|x l] k; [destruct k|]; reflexivity).
  rewrite Ht. apply nth_nth_error. rewrite nth_error_map, (grid_nth 0 segment (S per_segment) (S j)) by lia. cbn [option_map]. f_equal.
  unfold grid_pt. replace (S per_segment - 1)%nat with per_segment by lia. destruct per_segment_Z as [_ Hp].
  assert (0 < INR per_segment) by (apply lt_0_INR; lia).
  replace ((0 + INR (S j) * ((segment - 0) / INR per_segment)) * PI / segment - PI) with (- (PI - PI * INR (S j) / INR per_segment)) by (field; lra).
  rewrite cos_neg, Rtrigo_facts.cos_pi_minus. lra.
Qed.
Lemma cosines_unit c : In c cosines -> 0 <= c <= 1.
Proof.
  intros H. unfold cosines in H.
  assert (Hin : In c (map (fun v => cos (v * PI / segment - PI) / 2 + 1 / 2) (linspace RA 0 segment (S per_segment)))).
  { revert H. generalize (map (fun v => cos (v * PI / segment - PI) / 2 + 1 / 2) (linspace RA 0 segment (S per_segment))). intros [|x l]; [intros []|]. cbn. tauto. }
  apply in_map_iff in Hin. destruct Hin as (v & <- & _). destruct (COS_bound (v * PI / segment - PI)). lra.
Qed.

Definition rounded (digits : option Z) : list R :=
  let f0 := grid f_start f_end (Z.to_nat (n_segments + 1)) in
  match digits with Some k => if Z.eqb k 0 then f0 else map (round_digits k) f0 | None => f0 end.
Lemma rounded_len digits : length (rounded digits) = Z.to_nat (n_segments + 1).
Proof. unfold rounded. destruct digits as [k|]; [destruct (Z.eqb k 0)|]; rewrite ?map_length; apply grid_length. Qed.
Definition blocks (fs : list R) : list (list R) := diffs (fun f2 f1 => map (fun c => c * (f2 - f1) + f1) cosines) fs.
Lemma law_eq digits : (-1 <= n_segments)%Z ->
  shuffle_law shuffle t f_start f_end segment digits =
  Ok (firstn (length (concat (blocks (shuffle (rounded digits)))) - 2) (concat (blocks (shuffle (rounded digits))))).
Proof.
  intros Hn. unfold shuffle_law. replace (Rleb segment (a_sample t)) with false by (symmetry; apply Rleb_false; exact Hseg).
  change (Rceil (a_end t / segment)) with n_segments.
  replace (n_segments + 1 <? 0)%Z with false by (symmetry; apply Z.ltb_ge; lia).
  destruct per_segment_Z as [Hp Hp2]. change (a_sample t) with (a_sample t : R) in *. rewrite <- Hp.
  replace (Z.of_nat per_segment + 1 <? 0)%Z with false by (symmetry; apply Z.ltb_ge; lia).
  replace (Z.to_nat (Z.of_nat per_segment + 1)) with (S per_segment) by lia. rewrite !linspace_R.
  fold (rounded digits). unfold blocks, cosines. rewrite linspace_R.
  assert (E : forall l : list R, diffs (fun f2 f1 : R => tl (map (fun c : R => c * (f2 - f1) + f1) (map (fun v => cos (v * PI / segment - PI) / 2 + 1 / 2) (grid 0 segment (S per_segment))))) l =
     diffs (fun f2 f1 : R => map (fun c : R => c * (f2 - f1) + f1) (tl (map (fun v => cos (v * PI / segment - PI) / 2 + 1 / 2) (grid 0 segment (S per_segment))))) l).
  { intros l. destruct (map (fun v => cos (v * PI / segment - PI) / 2 + 1 / 2) (grid 0 segment (S per_segment))); reflexivity. }
  change (num RA) with R. rewrite E. reflexivity.
Qed.
Lemma law_negative digits : (n_segments < -1)%Z -> shuffle_law shuffle t f_start f_end segment digits = Err EValue.
Proof.
  intros Hn. unfold shuffle_law. replace (Rleb segment (a_sample t)) with false by (symmetry; apply Rleb_false; exact Hseg).
  change (Rceil (a_end t / segment)) with n_segments.
  replace (n_segments + 1 <? 0)%Z with true by (symmetry; apply Z.ltb_lt; lia). reflexivity.
Qed.
Lemma blocks_len fs b : In b (blocks fs) -> length b = per_segment.
Proof.
  intros H. apply In_nth_error in H. destruct H as [i Hi]. apply diffs_nth in Hi. destruct Hi as (x & y & _ & _ & ->).
  rewrite map_length. apply cosines_len.
Qed.
Lemma law_full digits : (-1 <= n_segments)%Z -> exists fs law, Permutation fs (rounded digits) /\
  shuffle_law shuffle t f_start f_end segment digits = Ok law /\ length law = (Z.to_nat n_segments * per_segment - 2)%nat /\
  forall k j, (k * per_segment + j < length law)%nat -> (j < per_segment)%nat ->
    nth (k * per_segment + j) law 0 = nth k fs 0 + (nth (S k) fs 0 - nth k fs 0) * ((1 - cos (PI * INR (S j) / INR per_segment)) / 2).
Proof.
  intros Hn. exists (shuffle (rounded digits)), (firstn (length (concat (blocks (shuffle (rounded digits)))) - 2) (concat (blocks (shuffle (rounded digits))))).
  split; [apply Hperm|]. split; [apply law_eq; exact Hn|].
  assert (Hfs : length (shuffle (rounded digits)) = Z.to_nat (n_segments + 1)) by (rewrite (Permutation_length (Hperm _)); apply rounded_len).
  set (fs := shuffle (rounded digits)) in *.
  assert (Hb : length (blocks fs) = Z.to_nat n_segments) by (unfold blocks; rewrite diffs_length, Hfs; lia).
  assert (Hc : length (concat (blocks fs)) = (Z.to_nat n_segments * per_segment)%nat) by (rewrite (concat_len _ per_segment), Hb; [reflexivity | apply blocks_len]).
  assert (Hlen : length (firstn (length (concat (blocks fs)) - 2) (concat (blocks fs))) = (Z.to_nat n_segments * per_segment - 2)%nat) by (rewrite firstn_length, Hc; lia).
  split; [exact Hlen|]. rewrite Hlen. intros k j Hkj Hj.
  assert (Hk : (k < Z.to_nat n_segments)%nat).
  { destruct (Nat.lt_ge_cases k (Z.to_nat n_segments)) as [H|H]; [exact H|]. exfalso.
    pose proof (Nat.mul_le_mono_r _ _ per_segment H). lia. }
  assert (Hfn : nth (k * per_segment + j) (firstn (length (concat (blocks fs)) - 2) (concat (blocks fs))) 0 = nth (k * per_segment + j) (concat (blocks fs)) 0).
  { apply first_nth. rewrite Hc. lia. }
  rewrite Hfn. rewrite (concat_nth _ per_segment) by (try apply blocks_len; lia).
  assert (Eb : nth k (blocks fs) [] = map (fun c => c * (nth (S k) fs 0 - nth k fs 0) + nth k fs 0) cosines).
  { apply nth_nth_error. apply diffs_nth. exists (nth k fs 0), (nth (S k) fs 0).
    split; [apply nth_error_nth'; lia|]. split; [apply nth_error_nth'; lia | reflexivity]. }
  rewrite Eb. rewrite (map_at _ _ _ 0) by (rewrite cosines_len; exact Hj). rewrite cosines_nth by exact Hj. ring.
Qed.
(** every value lies between any bounds of the (rounded) segment frequencies *)
Lemma law_bounds digits law lo hi : (forall x, In x (rounded digits) -> lo <= x <= hi) ->
  shuffle_law shuffle t f_start f_end segment digits = Ok law -> forall x, In x law -> lo <= x <= hi.
Proof.
  intros Hb E x Hx. destruct (Z.lt_ge_cases n_segments (-1)) as [H|H]; [rewrite (law_negative digits H) in E; discriminate|].
  rewrite (law_eq digits H) in E. injection E as <-.
  assert (Hin : In x (concat (blocks (shuffle (rounded digits))))).
  { rewrite <- (firstn_skipn (length (concat (blocks (shuffle (rounded digits)))) - 2)). apply in_or_app. left. exact Hx. }
  apply in_concat in Hin. destruct Hin as (b & Hbl & Hxb). apply In_nth_error in Hbl. destruct Hbl as [i Hi]. apply diffs_nth in Hi.
  destruct Hi as (f1 & f2 & H1 & H2 & ->). apply in_map_iff in Hxb. destruct Hxb as (c & <- & Hc). apply cosines_unit in Hc.
  assert (B1 : lo <= f1 <= hi) by (apply Hb, (Permutation_in _ (Hperm _)); eapply nth_error_In; exact H1).
  assert (B2 : lo <= f2 <= hi) by (apply Hb, (Permutation_in _ (Hperm _)); eapply nth_error_In; exact H2).
  change (num RA) with R in *. split; nra.
Qed.
Lemma rounded_none digits x : digits = None \/ digits = Some 0%Z -> In x (rounded digits) -> Rmin f_start f_end <= x <= Rmax f_start f_end.
Proof. intros [-> | ->] H; exact (grid_between _ _ _ _ H). Qed.
Lemma round_digits_err k x : Rabs (round_digits k x - x) <= / 2 / powerRZ 10 k.
Proof.
  unfold round_digits. assert (H10 : 0 < powerRZ 10 k) by (apply powerRZ_lt; lra).
  pose proof (Rround_half (x * powerRZ 10 k)) as H.
  replace (IZR (Rround (x * powerRZ 10 k)) / powerRZ 10 k - x) with ((IZR (Rround (x * powerRZ 10 k)) - x * powerRZ 10 k) / powerRZ 10 k) by (field; lra).
  unfold Rdiv. rewrite Rabs_mult, (Rabs_right (/ powerRZ 10 k)) by (left; apply Rinv_0_lt_compat; exact H10).
  apply Rmult_le_compat_r; [left; apply Rinv_0_lt_compat; exact H10|]. rewrite Rabs_minus_sym. exact H.
Qed.
Lemma rounded_some k x : In x (rounded (Some k)) -> Rmin f_start f_end - / 2 / powerRZ 10 k <= x <= Rmax f_start f_end + / 2 / powerRZ 10 k.
Proof.
  assert (H10 : 0 < powerRZ 10 k) by (apply powerRZ_lt; lra).
  assert (H0 : 0 < / 2 / powerRZ 10 k) by (unfold Rdiv; apply Rmult_lt_0_compat; [lra | apply Rinv_0_lt_compat; exact H10]).
  unfold rounded. destruct (Z.eqb k 0).
  - intros H. apply grid_between in H. unfold between in H. lra.
  - intros H. apply in_map_iff in H. destruct H as (y & <- & Hy). apply grid_between in Hy. unfold between in Hy.
    pose proof (round_digits_err k y) as He. unfold Rabs in He. destruct Rcase_abs in He; lra.
Qed.
End Law.
