(** Proofs about select_data, indexing, shift, diff, integrate and get_norm (C19-C24). *)
From Coq Require Import Reals ZArith List Bool Lia Lra Psatz.
From Verif Require Import Num Numpy Spec AxisModel RelModel RLemmas AxisLemmas InterpLemmas VInst RelLemmas.
Import ListNotations.
Local Open Scope R_scope.

(** *** masks of convex boolean lists *)
Definition convex (m : list bool) : Prop :=
  forall i j k, (i <= j <= k)%nat -> nth_error m i = Some true -> nth_error m k = Some true ->
    nth_error m j = Some true.
Lemma convex_tail b m : convex (b :: m) -> convex m.
Proof. intros H i j k Hij Hi Hk. apply (H (S i) (S j) (S k)); [lia|exact Hi|exact Hk]. Qed.

Lemma mask_false {T} (l : list T) n : mask (repeat false n) l = [].
Proof. revert l; induction n as [|n IH]; intros [|a l]; try reflexivity. cbn. apply IH. Qed.
Lemma all_false (m : list bool) : (forall i, nth_error m i <> Some true) -> m = repeat false (length m).
Proof.
  induction m as [|b m IH]; intros H; [reflexivity|]. cbn. f_equal.
  - destruct b; [exfalso; apply (H 0%nat); reflexivity | reflexivity].
  - apply IH. intros i. apply (H (S i)).
Qed.
(** a convex list starting with true is a run of trues followed by falses *)
Lemma convex_true m : convex (true :: m) -> exists c z, true :: m = repeat true (S c) ++ repeat false z.
Proof.
  induction m as [|b m IH]; intros H.
  - exists 0%nat, 0%nat. reflexivity.
  - destruct b.
    + destruct IH as (c & z & E).
      * intros i j k Hij Hi Hk. apply (convex_tail _ _ H) with i k; assumption.
      * exists (S c), z. cbn [repeat app] in E |- *. rewrite E. reflexivity.
    + exists 0%nat, (S (length m)). cbn. f_equal. f_equal.
      apply all_false. intros i Hi.
      assert (Hf : nth_error (true :: false :: m) 1 = Some true).
      { apply (H 0%nat 1%nat (S (S i))); [lia|reflexivity|exact Hi]. }
      discriminate.
Qed.
Lemma convex_block m : convex m ->
  (forall i, nth_error m i <> Some true) \/
  exists k c z, m = repeat false k ++ repeat true (S c) ++ repeat false z.
Proof.
  induction m as [|b m IH]; intros H.
  - left. intros [|i]; discriminate.
  - destruct b.
    + right. destruct (convex_true m H) as (c & z & E). exists 0%nat, c, z. exact E.
    + destruct (IH (convex_tail _ _ H)) as [Hn|(k & c & z & E)].
      * left. intros [|i]; [discriminate | apply Hn].
      * right. exists (S k), c, z. cbn [repeat app]. rewrite E. reflexivity.
Qed.
Lemma mask_block {T} (l : list T) k c z : length l = (k + c + z)%nat ->
  mask (repeat false k ++ repeat true c ++ repeat false z) l = firstn c (skipn k l).
Proof.
  revert l; induction k as [|k IH]; intros l Hl.
  - cbn [repeat app skipn]. revert l Hl; induction c as [|c IHc]; intros l Hl.
    + cbn [repeat app firstn]. apply mask_false.
    + destruct l as [|a l]; [cbn in Hl; lia|]. cbn. f_equal. apply IHc. cbn in Hl. lia.
  - destruct l as [|a l]; [cbn in Hl; lia|]. cbn. apply IH. cbn in Hl. lia.
Qed.
Lemma mask_filter {S T} (p : S -> bool) (xs : list S) (ys : list T) : length xs = length ys ->
  combine (mask (map p xs) xs) (mask (map p xs) ys) = filter (fun q => p (fst q)) (combine xs ys).
Proof.
  revert ys; induction xs as [|x xs IH]; intros [|y ys] H; try discriminate; [reflexivity|].
  cbn. destruct (p x); cbn; [f_equal|]; apply IH; cbn in H; lia.
Qed.
Lemma mask_length {S T} (m : list bool) (xs : list S) (ys : list T) : length xs = length ys ->
  length (mask m xs) = length (mask m ys).
Proof.
  revert xs ys; induction m as [|b m IH]; intros [|x xs] [|y ys] H; try discriminate; try reflexivity.
  cbn. cbn in H. destruct b; cbn; rewrite (IH xs ys) by lia; reflexivity.
Qed.
Lemma nth_firstn {T} (l : list T) c i : (i < c)%nat -> nth_error (firstn c l) i = nth_error l i.
Proof.
  revert l i; induction c as [|c IH]; intros l i H; [lia|].
  destruct l as [|a l]; [destruct i; reflexivity|]. destruct i as [|i]; [reflexivity|]. cbn. apply IH. lia.
Qed.
Lemma nth_skipn {T} (l : list T) k i : nth_error (skipn k l) i = nth_error l (k + i)%nat.
Proof.
  revert l; induction k as [|k IH]; intros l; [reflexivity|].
  destruct l as [|a l]; [destruct i; reflexivity|]. cbn. apply IH.
Qed.
Lemma nth_firstn_skipn {T} (l : list T) k c i : (i < c)%nat ->
  nth_error (firstn c (skipn k l)) i = nth_error l (k + i)%nat.
Proof. intros H. rewrite nth_firstn by exact H. apply nth_skipn. Qed.

(** a run of [j+1] neighbouring points of an axis again has [j+1] points at the same sample *)
Lemma sub_size (a : axis RA) n j : axis_size RA a = Ok n -> (j < n)%nat ->
  forall x0 : R,
  axis_size RA (mkAxis (A:=RA) x0 (x0 + INR j * ((a_end a - a_start a) / INR (n - 1))) (a_sample a)) = Ok (j + 1)%nat.
Proof.
  intros Hn Hj x0. pose proof (sample_nz a n Hn) as Hz.
  apply axis_size_iff in Hn; [|exact Hz]. destruct Hn as [_ Hr].
  apply axis_size_iff; [exact Hz|]. split; [lia|]. cbn [a_start a_end a_sample].
  replace (Z.of_nat (j + 1) - 1)%Z with (Z.of_nat j) by lia.
  replace (Z.of_nat n - 1)%Z with (Z.of_nat (n - 1)) in Hr by lia.
  rr. set (w := a_end a - a_start a) in *. set (d := a_sample a) in *.
  replace (x0 + INR j * (w / INR (n - 1)) - x0) with (INR j * (w / INR (n - 1))) by lra.
  destruct (Nat.eq_dec j 0) as [->|Hj0].
  { left. replace (INR 0 * (w / INR (n - 1)) / d) with 0 by (cbn [INR]; unfold Rdiv; ring).
    rewrite Rabs_R0. cbn. rewrite Rminus_0_r, Rabs_R0. lra. }
  assert (HN : 0 < INR (n - 1)) by (apply lt_0_INR; lia).
  assert (HJ : 0 < INR j) by (apply lt_0_INR; lia).
  replace (INR j * (w / INR (n - 1)) / d) with ((INR j / INR (n - 1)) * (w / d)) by (field; split; [lra|exact Hz]).
  rewrite Rabs_mult. rewrite (Rabs_right (INR j / INR (n - 1))) by (apply Rle_ge, Rlt_le, Rdiv_lt_0_compat; lra).
  set (q := Rabs (w / d)) in *.
  destruct (Nat.eq_dec j (n - 1)) as [->|Hne].
  { replace (INR (n - 1) / INR (n - 1) * q) with q by (field; lra). exact Hr. }
  unfold round_half_even in Hr. left. rewrite <- !INR_IZR_INZ in *.
  replace (INR j / INR (n - 1) * q - INR j) with (INR j / INR (n - 1) * (q - INR (n - 1))) by (field; lra).
  rewrite Rabs_mult. rewrite (Rabs_right (INR j / INR (n - 1))) by (apply Rle_ge, Rlt_le, Rdiv_lt_0_compat; lra).
  assert (Hq : Rabs (q - INR (n - 1)) <= / 2) by (destruct Hr as [H|[H _]]; lra).
  assert (Hf : 0 < INR j / INR (n - 1) < 1).
  { split; [apply Rdiv_lt_0_compat; lra|]. apply (Rmult_lt_reg_r (INR (n - 1))); [lra|].
    unfold Rdiv. rewrite Rmult_assoc, Rinv_l by lra. rewrite Rmult_1_r, Rmult_1_l. apply lt_INR. lia. }
  pose proof (Rabs_pos (q - INR (n - 1))). nra.
Qed.

Lemma interval_convex (l : list R) lo hi : incr l \/ decr l -> convex (map (fun x => Rleb lo x && Rleb x hi) l).
Proof.
  intros Hm i j k Hij Hi Hk. rewrite nth_error_map in *.
  destruct (nth_error l i) as [a|] eqn:Ea; [|discriminate].
  destruct (nth_error l k) as [c|] eqn:Ec; [|discriminate].
  destruct (nth_error_lt l j) as [b Eb]; [apply nth_error_len in Ec; lia|]. rewrite Eb. cbn in *.
  injection Hi as Hi. injection Hk as Hk. apply andb_true_iff in Hi, Hk.
  destruct Hi as [H1 H2], Hk as [H3 H4]. rb. f_equal. apply andb_true_iff. split; apply Rleb_true.
  - destruct (Nat.eq_dec i j) as [->|Hne1]; [assert (a = b) by congruence; lra|].
    destruct (Nat.eq_dec j k) as [->|Hne2]; [assert (b = c) by congruence; lra|].
    destruct Hm as [Hm|Hm].
    + pose proof (Hm i j a b ltac:(lia) Ea Eb). lra.
    + pose proof (Hm j k b c ltac:(lia) Eb Ec). lra.
  - destruct (Nat.eq_dec i j) as [->|Hne1]; [assert (a = b) by congruence; lra|].
    destruct (Nat.eq_dec j k) as [->|Hne2]; [assert (b = c) by congruence; lra|].
    destruct Hm as [Hm|Hm].
    + pose proof (Hm j k b c ltac:(lia) Eb Ec). lra.
    + pose proof (Hm i j a b ltac:(lia) Ea Eb). lra.
Qed.

Section R2.
Context {V : Vals RA}.
Notation val := (val V).
Notation rel := (rel RA V).
Notation DC := (default_config RA V).

(** C19 *)
Lemma select_unf (r : rel) (lo hi : option R) : valid r ->
  rel_select RA V lo hi r =
  let a := match lo with Some v => v | None => a_start (r_x r) end in
  let b := match hi with Some v => v | None => a_end (r_x r) end in
  let p := fun x : R => Rleb a x && Rleb x b in
  match mask (map p (xs_of r)) (xs_of r) with
  | [] => Err EIndex
  | x0 :: _ => rel_make RA V (mkAxis (A:=RA) x0 (last (mask (map p (xs_of r)) (xs_of r)) x0) (a_sample (r_x r)))
                 (mask (map p (xs_of r)) (r_y r))
  end.
Proof.
  intros Hv. unfold rel_select. rewrite (valid_array r Hv). cbn [bind]. rewrite map_length.
  pose proof (xs_of_length r) as E. apply Nat.eqb_eq in E.
  match goal with |- context [if ?b then _ else _] => replace b with true by (symmetry; exact E) end.
  reflexivity.
Qed.
Lemma select_spec (r : rel) (lo hi : option R) : valid r ->
  let a := match lo with Some v => v | None => a_start (r_x r) end in
  let b := match hi with Some v => v | None => a_end (r_x r) end in
  let wanted := filter (fun p => Rleb a (fst p) && Rleb (fst p) b) (combine (xs_of r) (r_y r)) in
  (wanted = [] -> rel_select RA V lo hi r = Err EIndex) /\
  (wanted <> [] -> exists r' xs', rel_select RA V lo hi r = Ok r' /\
      axis_array RA (r_x r') = Ok xs' /\ length xs' = length (r_y r') /\
      combine xs' (r_y r') = wanted /\ a_sample (r_x r') = a_sample (r_x r)).
Proof.
  intros Hv a b wanted. rewrite (select_unf r lo hi Hv). cbv zeta. fold a b. rr.
  set (p := fun x : R => Rleb a x && Rleb x b).
  pose proof (xs_of_length r) as Hlen.
  assert (HW : wanted = combine (mask (map p (xs_of r)) (xs_of r)) (mask (map p (xs_of r)) (r_y r))).
  { symmetry. apply (mask_filter p). exact Hlen. }
  assert (HL : length (mask (map p (xs_of r)) (xs_of r)) = length (mask (map p (xs_of r)) (r_y r))).
  { apply mask_length. exact Hlen. }
  destruct (convex_block (map p (xs_of r)) (interval_convex (xs_of r) a b (valid_mono r Hv)))
    as [Hnone|(k & c & z & Hblk)].
  - assert (E : mask (map p (xs_of r)) (xs_of r) = []).
    { rewrite (all_false _ Hnone). apply mask_false. }
    rewrite E in *. split; [reflexivity|]. intros Hne. exfalso. apply Hne. rewrite HW. reflexivity.
  - assert (Hn : length (r_y r) = (k + S c + z)%nat).
    { rewrite <- Hlen. pose proof (f_equal (@length bool) Hblk) as H. rewrite map_length in H.
      rewrite H, !app_length, !repeat_length. lia. }
    assert (Hmask : forall T (l : list T), length l = length (r_y r) ->
              mask (map p (xs_of r)) l = firstn (S c) (skipn k l)).
    { intros T l Hl. rewrite Hblk. apply mask_block. lia. }
    set (n := length (r_y r)) in *.
    set (h := (a_end (r_x r) - a_start (r_x r)) / INR (n - 1)).
    set (x0 := a_start (r_x r) + INR k * h).
    assert (Hpt : forall i, (i < n)%nat -> nth_error (xs_of r) i = Some (a_start (r_x r) + INR i * h)).
    { intros i Hi. unfold xs_of. rewrite grid_nth by exact Hi. reflexivity. }
    assert (Hsel : mask (map p (xs_of r)) (xs_of r) = arith_seq x0 h (S c)).
    { rewrite Hmask by exact Hlen. apply nth_error_ext.
      - rewrite arith_length, firstn_length, skipn_length, Hlen. lia.
      - intros i Hi. rewrite firstn_length, skipn_length, Hlen in Hi.
        rewrite nth_firstn_skipn by lia. rewrite Hpt by lia. rewrite arith_nth by lia.
        f_equal. unfold x0. rewrite plus_INR. lra. }
    split.
    { intros Hnil. exfalso. rewrite HW, Hsel in Hnil. rewrite Hsel, arith_length in HL.
      destruct (mask (map p (xs_of r)) (r_y r)); [cbn in HL; lia|].
      unfold arith_seq in Hnil. cbn in Hnil. discriminate. }
    intros _. destruct (arith_ends x0 h (S c) ltac:(lia)) as (t & Ht & Hl).
    rewrite Hsel. rewrite Ht in *. rewrite Hl. rewrite <- Ht in *.
    replace (S c - 1)%nat with c by lia.
    set (x' := mkAxis (A:=RA) x0 (x0 + INR c * h) (a_sample (r_x r))).
    set (y' := mask (map p (xs_of r)) (r_y r)) in *.
    assert (Hy' : length y' = S c) by (rewrite <- HL, Hsel; apply arith_length).
    assert (Hsz : axis_size RA x' = Ok (S c)).
    { replace (S c) with (c + 1)%nat by lia. apply (sub_size (r_x r) n c Hv). lia. }
    exists (mkRel x' y'), (arith_seq x0 h (S c)).
    split; [apply rel_make_eq; rewrite Hy'; exact Hsz|]. cbn [r_x r_y].
    split. { rewrite (axis_array_size x' (S c) Hsz). cbn [a_start a_end x'].
             pose proof (grid_arith x0 h (S c) ltac:(lia)) as HG.
             replace (S c - 1)%nat with c in HG by lia. rewrite HG. reflexivity. }
    split; [rewrite arith_length, Hy'; reflexivity|].
    split; [rewrite HW, Hsel; reflexivity | reflexivity].
Qed.

(** C20 *)
Lemma argmin_from_spec (l pre : list R) (best : nat) (m : R) :
  nth_error (pre ++ l) best = Some m -> (best < length pre)%nat ->
  (forall j x, (j < length pre)%nat -> nth_error pre j = Some x -> m <= x /\ ((j < best)%nat -> m < x)) ->
  let i := argmin_from RA (length pre) best m l in
  exists v, nth_error (pre ++ l) i = Some v /\
    forall j x, nth_error (pre ++ l) j = Some x -> v <= x /\ ((j < i)%nat -> v < x).
Proof.
  revert pre best m; induction l as [|a l IH]; intros pre best m Hb Hlt Hpre; cbn [argmin_from].
  - exists m. split; [exact Hb|]. rewrite app_nil_r. intros j x Hj.
    apply Hpre; [eapply nth_error_len; exact Hj | exact Hj].
  - cbn [RA n_lt].
    assert (Eapp : pre ++ a :: l = (pre ++ [a]) ++ l) by (rewrite <- app_assoc; reflexivity).
    assert (Elen : S (length pre) = length (pre ++ [a])) by (rewrite app_length; cbn; lia).
    rewrite Eapp in *. rewrite Elen.
    destruct (Rltb a m) eqn:E; rb.
    + apply IH.
      * rewrite <- Eapp, nth_error_app2 by lia. rewrite Nat.sub_diag. reflexivity.
      * rewrite app_length; cbn; lia.
      * intros j x Hj Hx. rewrite app_length in Hj; cbn in Hj.
        destruct (Nat.eq_dec j (length pre)) as [->|Hne].
        -- rewrite nth_error_app2, Nat.sub_diag in Hx by lia. cbn in Hx. injection Hx as <-.
           split; [lra|lia].
        -- rewrite nth_error_app1 in Hx by lia. destruct (Hpre j x ltac:(lia) Hx) as [H1 _].
           split; [lra|intros; lra].
    + apply IH.
      * exact Hb.
      * rewrite app_length; cbn; lia.
      * intros j x Hj Hx. rewrite app_length in Hj; cbn in Hj.
        destruct (Nat.eq_dec j (length pre)) as [->|Hne].
        -- rewrite nth_error_app2, Nat.sub_diag in Hx by lia. cbn in Hx. injection Hx as <-.
           split; [lra|lia].
        -- rewrite nth_error_app1 in Hx by lia. exact (Hpre j x ltac:(lia) Hx).
Qed.
Lemma argmin_spec (l : list R) : l <> [] -> exists i v, argmin RA l = Some i /\ nth_error l i = Some v /\
  forall j x, nth_error l j = Some x -> v <= x /\ ((j < i)%nat -> v < x).
Proof.
  destruct l as [|a l]; intros H; [tauto|]. cbn [argmin].
  destruct (argmin_from_spec l [a] 0 a) as (v & Hv & Hmin).
  - reflexivity.
  - cbn; lia.
  - intros j x Hj Hx. cbn in Hj. assert (j = 0)%nat by lia. subst j. cbn in Hx. injection Hx as <-.
    split; [lra|lia].
  - cbn [length app] in *. exists (argmin_from RA 1 0 a l), v. auto.
Qed.
Lemma getitem_spec (r : rel) (v : R) : valid r ->
  exists i x y, rel_getitem RA V v r = Ok (x, y) /\
    nth_error (xs_of r) i = Some x /\ nth_error (r_y r) i = Some y /\
    forall j x', nth_error (xs_of r) j = Some x' ->
      Rabs (x - v) <= Rabs (x' - v) /\ ((j < i)%nat -> Rabs (x - v) < Rabs (x' - v)).
Proof.
  intros Hv. unfold rel_getitem. rewrite (valid_array r Hv). cbn [bind RA n_abs n_sub].
  change (fun x : R => Rabs (x - v)) with (fun x => Rabs (x - v)). rr.
  destruct (argmin_spec (map (fun x => Rabs (x - v)) (xs_of r))) as (i & m & Hi & Hm & Hmin).
  { intros E. apply map_eq_nil in E. apply (valid_ne r Hv). exact E. }
  rr. rewrite Hi. rewrite nth_error_map in Hm.
  destruct (nth_error (xs_of r) i) as [x|] eqn:Ex; [|discriminate]. cbn in Hm. injection Hm as <-.
  destruct (nth_error_lt (r_y r) i) as [y Hy]; [rewrite <- xs_of_length; eapply nth_error_len; exact Ex|].
  rewrite Hy. exists i, x, y. split; [reflexivity|]. split; [exact Ex|]. split; [exact Hy|].
  intros j x' Hj. apply Hmin. rewrite nth_error_map, Hj. reflexivity.
Qed.

(** C21 *)
Definition moved (d : R) (x : axis RA) : axis RA :=
  mkAxis (A:=RA) (a_start x + d) (a_end x + d) (a_sample x).
Lemma moved_size d x : axis_size RA (moved d x) = axis_size RA x.
Proof.
  unfold axis_size. cbn. replace (a_end x + d - (a_start x + d)) with (a_end x - a_start x) by (rr; lra).
  reflexivity.
Qed.
Lemma shift_eq (r : rel) d : valid r -> rel_shift RA V d r = Ok (mkRel (moved d (r_x r)) (r_y r)).
Proof.
  intros Hv. unfold rel_shift. change (rel_make RA V (moved d (r_x r)) (r_y r) = Ok (mkRel (moved d (r_x r)) (r_y r))).
  apply rel_make_eq. rewrite moved_size. exact Hv.
Qed.
Lemma moved_grid s e d n : grid (s + d) (e + d) n = map (fun x => x + d) (grid s e n).
Proof.
  unfold grid. rewrite map_map. apply map_ext. intros i. unfold grid_pt.
  replace (e + d - (s + d)) with (e - s) by lra. lra.
Qed.
Lemma shift_spec (r : rel) d : valid r -> exists r' xs,
  rel_shift RA V d r = Ok r' /\ r_y r' = r_y r /\ axis_array RA (r_x r) = Ok xs /\
  axis_array RA (r_x r') = Ok (map (fun x => x + d) xs) /\
  a_start (r_x r') = a_start (r_x r) + d /\ a_end (r_x r') = a_end (r_x r) + d /\
  a_sample (r_x r') = a_sample (r_x r).
Proof.
  intros Hv. exists (mkRel (moved d (r_x r)) (r_y r)), (xs_of r).
  split; [apply shift_eq; exact Hv|]. split; [reflexivity|]. split; [apply valid_array; exact Hv|].
  split; [|auto]. cbn [r_x]. rewrite (axis_array_size _ (length (r_y r))) by (rewrite moved_size; exact Hv).
  cbn [a_start a_end moved]. rewrite moved_grid. reflexivity.
Qed.
Lemma moved_moved a b x : moved b (moved a x) = moved (a + b) x.
Proof. apply axis_eq; cbn; rr; lra. Qed.
Lemma moved_0 x : moved 0 x = x.
Proof. apply axis_eq; cbn; rr; lra. Qed.
Lemma shift_shift (r : rel) a b : valid r ->
  (do r1 <- rel_shift RA V a r; rel_shift RA V b r1) = rel_shift RA V (a + b) r.
Proof.
  intros Hv. rewrite (shift_eq r a Hv), (shift_eq r (a + b) Hv). cbn [bind].
  rewrite shift_eq by (unfold valid; cbn [r_x r_y]; rewrite moved_size; exact Hv).
  cbn [r_x r_y]. rewrite moved_moved. reflexivity.
Qed.
Lemma shift_back (r : rel) d : valid r ->
  (do r1 <- rel_shift RA V d r; rel_shift RA V (- d) r1) = Ok r.
Proof.
  intros Hv. rewrite shift_shift by exact Hv. replace (d + - d) with 0 by lra.
  rewrite shift_eq by exact Hv. rewrite moved_0. destruct r; reflexivity.
Qed.

(** C22 *)
Lemma size_minus_one (s e d s' e' : R) n : 0 < d -> s <= e -> e' - s' = e - s - d ->
  axis_size RA (mkAxis (A:=RA) s e d) = Ok n -> (2 <= n)%nat ->
  (axis_size RA (mkAxis (A:=RA) s' e' d) = Ok (n - 1)%nat <-> ~ is_tie ((e - s) / d)) /\
  exists m, axis_size RA (mkAxis (A:=RA) s' e' d) = Ok m.
Proof.
  intros Hd Hse Hspan Hn H2.
  rewrite axis_size_nz in * by (cbn; lra). cbn [a_start a_end a_sample] in *. rr.
  set (q := (e - s) / d) in *.
  assert (Hq : 0 <= q) by (apply Rmult_le_pos; [lra | apply Rlt_le, Rinv_0_lt_compat; lra]).
  rewrite Rabs_right in Hn by lra.
  replace ((e' - s') / d) with (q - 1) by (unfold q; rewrite Hspan; field; lra).
  split; [|eexists; reflexivity].
  injection Hn as Hn. pose proof (Rround_nonneg q Hq) as Hr0.
  assert (Hk : Rround q = Z.of_nat (n - 1)) by lia.
  destruct (Rle_lt_dec 1 q) as [H1|H1].
  - rewrite Rabs_right by lra. pose proof (Rround_nonneg (q - 1) ltac:(lra)) as Hr1. split.
    + intros E. injection E as E. intros Ht. apply (Rround_minus_one_tie q Ht). lia.
    + intros Ht. rewrite (Rround_minus_one q Ht). f_equal. lia.
  - (* q < 1 : then the axis has two points and q > 1/2 *)
    assert (Hhalf : Rabs (q - IZR (Rround q)) <= / 2) by apply Rround_half.
    rewrite Hk in Hhalf. rewrite <- INR_IZR_INZ in Hhalf.
    assert (INR 1 <= INR (n - 1)) by (apply le_INR; lia). cbn [INR] in *.
    assert (INR (n - 1) < 2) by (unfold Rabs in Hhalf; destruct Rcase_abs in Hhalf; lra).
    assert (n = 2)%nat.
    { assert (n - 1 < 2)%nat by (apply INR_lt; cbn; lra). lia. }
    assert (Hk1 : Rround q = 1%Z) by lia.
    assert (Hn1 : (n - 1 = 1)%nat) by lia. rewrite Hn1.
    assert (Hq2 : / 2 < q).
    { destruct (Rround_spec q) as [H5|[H5 He]]; rewrite Hk1 in *.
      - unfold Rabs in H5; destruct Rcase_abs in H5; lra.
      - destruct He as [x Hx]. lia. }
    assert (Hnt : ~ is_tie q).
    { intros [k E]. assert (k = 0)%Z.
      { assert (-1 < k)%Z by (apply lt_IZR; lra). assert (k < 1)%Z by (apply lt_IZR; lra). lia. }
      subst k. cbn in E. lra. }
    split; [intros _; exact Hnt|]. intros _.
    replace (Rround (Rabs (q - 1))) with 0%Z; [reflexivity|].
    symmetry. apply Rround_near. rewrite (Rabs_left1 (q - 1)) by lra. rewrite Rabs_right; lra.
Qed.

Lemma diff_len (y : list val) : length (np_diff_val RA V y) = (length y - 1)%nat.
Proof. apply diffs_length. Qed.
Lemma cumul_from_len {T} (op : T -> T -> T) acc l : length (cumul_from op acc l) = length l.
Proof. revert acc; induction l as [|a l IH]; intros acc; [reflexivity|]. cbn. rewrite IH. reflexivity. Qed.
Lemma cumul_len {T} (op : T -> T -> T) l : length (cumul op l) = length l.
Proof. destruct l; [reflexivity|]. cbn. rewrite cumul_from_len. reflexivity. Qed.
Lemma cum_trapz_len (y : list val) : length (cum_trapz RA V y) = (length y - 1)%nat.
Proof. unfold cum_trapz. rewrite cumul_len. apply diffs_length. Qed.

Definition diff_axis (x : axis RA) : axis RA :=
  mkAxis (A:=RA) (a_start x + a_sample x / 2) (a_end x - a_sample x / 2) (a_sample x).
Definition int_axis (x : axis RA) : axis RA := mkAxis (A:=RA) (a_start x + a_sample x) (a_end x) (a_sample x).
Lemma rel_diff_eq (r : rel) : rel_diff RA V DC r =
  rel_make RA V (diff_axis (r_x r)) (map (fun v => v_div V v (v_of V (a_sample (r_x r)))) (np_diff_val RA V (r_y r))).
Proof. reflexivity. Qed.
Lemma rel_int_eq (r : rel) : rel_integrate RA V DC r =
  rel_make RA V (int_axis (r_x r)) (map (fun v => v_mul V v (v_of V (a_sample (r_x r)))) (cum_trapz RA V (r_y r))).
Proof. reflexivity. Qed.

Lemma axis_eta (x : axis RA) : x = mkAxis (A:=RA) (a_start x) (a_end x) (a_sample x).
Proof. destruct x; reflexivity. Qed.

Lemma diff_int_ok (r : rel) : valid r -> 0 < a_sample (r_x r) -> a_start (r_x r) <= a_end (r_x r) ->
  (2 <= length (r_y r))%nat ->
  let q := (a_end (r_x r) - a_start (r_x r)) / a_sample (r_x r) in
  let n := length (r_y r) in
  (~ is_tie q ->
     rel_diff RA V DC r = Ok (mkRel (diff_axis (r_x r)) (map (fun v => v_div V v (v_of V (a_sample (r_x r)))) (np_diff_val RA V (r_y r)))) /\
     rel_integrate RA V DC r = Ok (mkRel (int_axis (r_x r)) (map (fun v => v_mul V v (v_of V (a_sample (r_x r)))) (cum_trapz RA V (r_y r))))) /\
  (is_tie q ->
     (exists m, m <> (n - 1)%nat /\ rel_diff RA V DC r = Err (ENotEqual m (n - 1))) /\
     (exists m, m <> (n - 1)%nat /\ rel_integrate RA V DC r = Err (ENotEqual m (n - 1)))).
Proof.
  intros Hv Hd Hse H2 q n. unfold valid in Hv. rewrite (axis_eta (r_x r)) in Hv.
  assert (HD := size_minus_one _ _ _ (a_start (diff_axis (r_x r))) (a_end (diff_axis (r_x r))) _ Hd Hse ltac:(cbn; rr; lra) Hv H2).
  assert (HI := size_minus_one _ _ _ (a_start (int_axis (r_x r))) (a_end (int_axis (r_x r))) _ Hd Hse ltac:(cbn; rr; lra) Hv H2).
  cbn [a_start a_end diff_axis int_axis] in HD, HI. fold (diff_axis (r_x r)) in HD. fold (int_axis (r_x r)) in HI.
  fold q n in HD, HI. rewrite rel_diff_eq, rel_int_eq.
  destruct HD as [HD1 [md HD2]], HI as [HI1 [mi HI2]].
  split.
  - intros Ht. split; apply rel_make_eq; rewrite map_length, ?diff_len, ?cum_trapz_len.
    + apply HD1, Ht.
    + apply HI1, Ht.
  - intros Ht. split.
    + exists md. assert (Hne : md <> (n - 1)%nat) by (intros ->; apply HD1 in HD2; contradiction).
      split; [exact Hne|]. unfold rel_make. rr. rewrite HD2. cbn [bind]. rewrite map_length, diff_len.
      fold n. apply Nat.eqb_neq in Hne. rewrite Hne. reflexivity.
    + exists mi. assert (Hne : mi <> (n - 1)%nat) by (intros ->; apply HI1 in HI2; contradiction).
      split; [exact Hne|]. unfold rel_make. rr. rewrite HI2. cbn [bind]. rewrite map_length, cum_trapz_len.
      fold n. apply Nat.eqb_neq in Hne. rewrite Hne. reflexivity.
Qed.
(** single-point relations: any axis, any sample *)
Lemma diff_int_single (r : rel) : valid r -> length (r_y r) = 1%nat ->
  (exists m, rel_diff RA V DC r = Err (ENotEqual m 0)) /\ (exists m, rel_integrate RA V DC r = Err (ENotEqual m 0)).
Proof.
  intros Hv H1. pose proof (sample_nz _ _ Hv) as Hz. rewrite rel_diff_eq, rel_int_eq.
  assert (G : forall (x : axis RA) (y : list val), a_sample x <> 0 -> length y = 0%nat ->
     exists m, rel_make RA V x y = Err (ENotEqual m 0)).
  { intros x y Hzx Hy. unfold rel_make. rewrite axis_size_nz by exact Hzx. cbn [bind]. rewrite Hy.
    replace (_ + 1 =? 0)%nat with false by (symmetry; apply Nat.eqb_neq; lia). eexists. reflexivity. }
  split; apply G; try exact Hz.
  - rewrite map_length, diff_len, H1. reflexivity.
  - rewrite map_length, cum_trapz_len, H1. reflexivity.
Qed.

(** values of diff and integrate *)
Lemma diff_nth (y : list val) i a b d : nth_error y i = Some a -> nth_error y (S i) = Some b ->
  nth_error (map (fun v => v_div V v (v_of V d)) (np_diff_val RA V y)) i = Some (v_div V (v_sub V b a) (v_of V d)).
Proof.
  intros Ha Hb. rewrite nth_error_map.
  assert (E : nth_error (np_diff_val RA V y) i = Some (v_sub V b a)) by (apply diffs_nth; eauto).
  rewrite E. reflexivity.
Qed.
Lemma cumul_from_nth {T} (op : T -> T -> T) acc l i a : nth_error l i = Some a ->
  exists prev, (match i with O => Some acc | S j => nth_error (cumul_from op acc l) j end) = Some prev /\
    nth_error (cumul_from op acc l) i = Some (op prev a).
Proof.
  revert acc i; induction l as [|x l IH]; intros acc i Hi; [destruct i; discriminate|].
  destruct i as [|i].
  - cbn in Hi. injection Hi as ->. exists acc. split; reflexivity.
  - cbn [nth_error cumul_from] in *. destruct (IH (op acc x) i Hi) as (prev & Hp & Hn).
    destruct i as [|i]; exists prev; split; assumption.
Qed.
Lemma cumul_nth0 {T} (op : T -> T -> T) l a : nth_error l 0 = Some a -> nth_error (cumul op l) 0 = Some a.
Proof. destruct l; [discriminate|]. intros H; exact H. Qed.
Lemma cumul_nthS {T} (op : T -> T -> T) l i a p : nth_error (cumul op l) i = Some p ->
  nth_error l (S i) = Some a -> nth_error (cumul op l) (S i) = Some (op p a).
Proof.
  destruct l as [|x l]; [destruct i; discriminate|]. cbn [cumul nth_error]. intros Hp Ha.
  destruct (cumul_from_nth op x l i a Ha) as (prev & Hprev & Hn). destruct i as [|i]; cbn in Hp, Hprev; congruence.
Qed.
End R2.
