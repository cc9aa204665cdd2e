(** Proofs about relations used as sequences (C75). *)
From Coq Require Import Reals ZArith List Bool Lia Lra.
From Verif Require Import Num Numpy Spec AxisModel RelModel RLemmas AxisLemmas InterpLemmas VInst RelLemmas RelLemmas2
  HeapModel HeapSpec HeapLemmas HeapLemmas2 HeapLemmas5 HeapLemmas6 ProgSpec SeqModel.
Import ListNotations.

Section Gen.
Context (A : Arith) (V : Vals A).
Notation rel := (rel A V).
Notation fits := (fits A V).

Lemma size_positive (x : axis A) n : axis_size A x = Ok n -> 0 < n.
Proof.
  unfold axis_size. destruct (n_eq A _ _); [discriminate|]. destruct (n_round A _); [|discriminate].
  intros [= <-]. lia.
Qed.
Lemma bool_true r b : rel_bool A V r = Ok b -> b = true.
Proof.
  unfold rel_bool, rel_len. destruct (axis_size A (r_x r)) as [n|e] eqn:E; [|discriminate]. apply size_positive in E.
  cbn. intros [= <-]. destruct n; [lia|reflexivity].
Qed.
Lemma argmin_from_lt l i best m : best < i -> argmin_from A i best m l < i + length l.
Proof.
  revert i best m; induction l as [|a l IH]; intros i best m H; cbn; [lia|].
  destruct (n_lt A a m).
  - specialize (IH (S i) i a). lia.
  - specialize (IH (S i) best m). lia.
Qed.
Lemma argmin_lt l i : argmin A l = Some i -> i < length l.
Proof.
  destruct l as [|a l]; [discriminate|]. cbn [argmin]. intros [= <-].
  pose proof (argmin_from_lt l 1 0 a). cbn [length]. lia.
Qed.
Lemma getitem_fits r v : fits r -> exists p, rel_getitem A V v r = Ok p.
Proof.
  unfold ProgSpec.fits. intros H. unfold rel_getitem, axis_array. rewrite H. cbn [bind].
  set (arr := linspace A (a_start (r_x r)) (a_end (r_x r)) (length (r_y r))).
  assert (Hl : length arr = length (r_y r)) by apply linspace_length.
  apply size_positive in H.
  destruct (argmin A (map (fun x => n_abs A (n_sub A x v)) arr)) as [i|] eqn:E.
  - apply argmin_lt in E. rewrite map_length in E.
    destruct (nth_error arr i) as [x|] eqn:Ex; [|apply nth_error_None in Ex; lia].
    destruct (nth_error (r_y r) i) as [y|] eqn:Ey; [|apply nth_error_None in Ey; lia]. eauto.
  - destruct arr; [cbn in Hl; lia|discriminate].
Qed.
Lemma steps_from_all n i r : (forall j, exists p, rel_item A V j r = Ok p) ->
  exists items, steps_from A V n i r = (items, Running) /\ length items = n /\
    forall j, j < n -> exists p, nth_error items j = Some p /\ rel_item A V (i + j) r = Ok p.
Proof.
  intros H. revert i; induction n as [|n IH]; intros i; cbn [steps_from].
  - exists []. repeat split; auto. intros; lia.
  - destruct (H i) as [p Hp]. rewrite Hp. destruct (IH (S i)) as (items & -> & Hl & Hi). exists (p :: items).
    split; [reflexivity|]. split; [cbn; congruence|]. intros [|j] Hj; cbn [nth_error].
    + exists p. rewrite Nat.add_0_r. auto.
    + destruct (Hi j ltac:(lia)) as (q & H1 & H2). exists q. split; auto. rewrite Nat.add_succ_comm in H2. auto.
Qed.
Lemma back_from_all n r : (forall j, exists p, rel_item A V j r = Ok p) ->
  exists items, back_from A V n r = (items, Ended) /\ length items = n /\
    forall j, j < n -> exists p, nth_error items j = Some p /\ rel_item A V (n - 1 - j) r = Ok p.
Proof.
  intros H. induction n as [|n IH]; cbn [back_from].
  - exists []. repeat split; auto. intros; lia.
  - destruct (H n) as [p Hp]. rewrite Hp. destruct IH as (items & -> & Hl & Hi). exists (p :: items).
    split; [reflexivity|]. split; [cbn; congruence|]. intros [|j] Hj; cbn [nth_error].
    + exists p. replace (S n - 1 - 0) with n by lia. auto.
    + destruct (Hi j ltac:(lia)) as (q & H1 & H2). exists q. split; auto. replace (S n - 1 - S j) with (n - 1 - j) by lia. auto.
Qed.
(** up to the first IndexError *)
Lemma steps_from_end n i k r : (forall j, j < k -> exists p, rel_item A V (i + j) r = Ok p) -> rel_item A V (i + k) r = Err EIndex ->
  k < n -> exists items, steps_from A V n i r = (items, Ended) /\ length items = k /\
    forall j, j < k -> exists p, nth_error items j = Some p /\ rel_item A V (i + j) r = Ok p.
Proof.
  revert i k; induction n as [|n IH]; intros i k H He Hk; [lia|]. cbn [steps_from]. destruct k as [|k].
  - rewrite Nat.add_0_r in He. rewrite He. exists []. repeat split; auto. intros; lia.
  - destruct (H 0 ltac:(lia)) as [p Hp]. rewrite Nat.add_0_r in Hp. rewrite Hp.
    destruct (IH (S i) k) as (items & -> & Hl & Hi).
    + intros j Hj. destruct (H (S j) ltac:(lia)) as [q Hq]. exists q. rewrite Nat.add_succ_comm. auto.
    + rewrite Nat.add_succ_comm. auto.
    + lia.
    + exists (p :: items). split; [reflexivity|]. split; [cbn; congruence|]. intros [|j] Hj; cbn [nth_error].
      * exists p. rewrite Nat.add_0_r. auto.
      * destruct (Hi j ltac:(lia)) as (q & H1 & H2). exists q. split; auto. rewrite Nat.add_succ_comm in H2. auto.
Qed.
Lemma len_view F h r c : reachable A V F h -> rel_view A V h r = Some c -> fst (h_len A V r h) = rel_len A V c.
Proof.
  intros R H. destruct (isrel_view A V h r c H) as (k & x & y & cf & (o & ax & H1 & H2 & H3 & H4 & H5 & H6 & H7 & H8) & _).
  unfold h_len, bindM, get_rel, rd. rewrite H1. rewrite H3.
  assert (Hv : ax_view A V h x = Some (r_x c)). { unfold ax_view. rewrite H6. cbn. congruence. }
  destruct (never_stale A V F h x (r_x c) R Hv) as (_ & G & _). exact G.
Qed.
End Gen.

Section Real.
Local Open Scope R_scope.
Context {V : Vals RA}.
Notation rel := (rel RA V).
Lemma of_nat_R i : n_of_Z RA (Z.of_nat i) = INR i.
Proof. cbn. symmetry. apply INR_IZR_INZ. Qed.
Lemma item_nearest (r : rel) i xs : axis_array RA (r_x r) = Ok xs -> length xs = length (r_y r) ->
  exists k x y, rel_item RA V i r = Ok (x, y) /\ nth_error xs k = Some x /\ nth_error (r_y r) k = Some y /\
    forall j x', nth_error xs j = Some x' -> Rabs (x - INR i) <= Rabs (x' - INR i) /\
      ((j < k)%nat -> Rabs (x - INR i) < Rabs (x' - INR i)).
Proof.
  intros Hx Hl.
  assert (Hv : valid r) by (apply axis_array_inv in Hx; destruct Hx as [Hx _]; unfold valid; rewrite <- Hl; exact Hx).
  rewrite (valid_array r Hv) in Hx. injection Hx as <-. unfold rel_item. rewrite of_nat_R.
  exact (RelLemmas2.getitem_spec r (INR i) Hv).
Qed.
Lemma item_last (r : rel) i xs x0 y0 : axis_array RA (r_x r) = Ok xs -> length xs = length (r_y r) ->
  In (x0, y0) (combine xs (r_y r)) -> (forall x, In x xs -> x <= x0) -> x0 <= INR i ->
  rel_item RA V i r = Ok (x0, y0).
Proof.
  intros Hx Hl Hin Hmax Hi. destruct (item_nearest r i xs Hx Hl) as (k & x & y & E & Ex & Ey & Hn).
  assert (Hv : valid r) by (apply axis_array_inv in Hx; destruct Hx as [Hx' _]; unfold valid; rewrite <- Hl; exact Hx').
  destruct (In_nth_error _ _ Hin) as [j Hj].
  assert (Hj2 : nth_error xs j = Some x0 /\ nth_error (r_y r) j = Some y0).
  { clear -Hj. revert Hj. generalize (r_y r). revert j. induction xs as [|a xs IH]; intros [|j] [|b l]; cbn; try discriminate.
    - intros [= -> ->]. auto.
    - apply IH. }
  destruct Hj2 as [J1 J2]. destruct (Hn j x0 J1) as [L1 _].
  assert (G : x <= x0) by (apply Hmax; eapply nth_error_In; eauto).
  rewrite !Rabs_left1 in L1 by lra. assert (x = x0) by lra. subst x.
  assert (k = j).
  { pose proof (valid_mono r Hv) as M. rewrite (valid_array r Hv) in Hx. injection Hx as <-.
    destruct (Nat.lt_trichotomy k j) as [C|[C|C]]; auto; exfalso; destruct M as [M|M].
    - pose proof (M k j _ _ C Ex J1); lra.
    - pose proof (M k j _ _ C Ex J1); lra.
    - pose proof (M j k _ _ C J1 Ex); lra.
    - pose proof (M j k _ _ C J1 Ex); lra. }
  subst k. rewrite E. congruence.
Qed.
(** more points than samples: the iteration ends *)
Lemma item_beyond (r : rel) i xs : axis_array RA (r_x r) = Ok xs -> incr xs -> (length (r_y r) < length xs)%nat ->
  (forall x, In x xs -> x <= INR i) -> rel_item RA V i r = Err EIndex.
Proof.
  intros Hx Hi Hl Hb. unfold rel_item, rel_getitem. rewrite Hx, of_nat_R. cbn [bind RA n_abs n_sub].
  destruct (argmin_spec (map (fun x => Rabs (x - INR i)) xs)) as (k & m & Hk & Hm & Hmin).
  { intros E. apply map_eq_nil in E. subst. cbn in Hl. lia. }
  rr. rewrite Hk. rewrite nth_error_map in Hm. destruct (nth_error xs k) as [x|] eqn:Ex; [|discriminate].
  cbn in Hm. injection Hm as <-.
  destruct (nth_error_lt xs (length xs - 1)) as [z Hz]; [lia|].
  assert (Hk2 : k = (length xs - 1)%nat).
  { pose proof (nth_error_len _ _ _ Ex). destruct (Nat.eq_dec k (length xs - 1)) as [|N]; auto. exfalso.
    destruct (Hmin (length xs - 1)%nat (Rabs (z - INR i))) as [L _]; [rewrite nth_error_map, Hz; reflexivity|].
    pose proof (Hb x (nth_error_In _ _ Ex)). pose proof (Hb z (nth_error_In _ _ Hz)).
    rewrite !Rabs_left1 in L by lra. pose proof (Hi k (length xs - 1)%nat x z ltac:(lia) Ex Hz). lra. }
  destruct (nth_error (r_y r) k) as [y|] eqn:Ey; [|reflexivity]. apply nth_error_len in Ey. lia.
Qed.
Lemma axis_incr (x : axis RA) xs : axis_array RA x = Ok xs -> a_start x < a_end x -> incr xs.
Proof.
  intros H Hs. apply axis_array_inv in H. destruct H as [_ H]. rewrite H. apply grid_incr. exact Hs.
Qed.
Lemma item_ok_or_index (r : rel) i xs : axis_array RA (r_x r) = Ok xs -> (exists p, rel_item RA V i r = Ok p) \/ rel_item RA V i r = Err EIndex.
Proof.
  intros Hx. unfold rel_item, rel_getitem. rewrite Hx. cbn [bind].
  destruct xs as [|a xs]. { apply axis_array_inv in Hx. destruct Hx as [Hx _]. apply size_positive in Hx. cbn in Hx. lia. }
  cbn [map argmin]. destruct (nth_error (a :: xs) _); [|auto]. destruct (nth_error (r_y r) _); eauto.
Qed.
Lemma iteration_ends (r : rel) xs : axis_array RA (r_x r) = Ok xs -> a_start (r_x r) < a_end (r_x r) ->
  (length (r_y r) < length xs)%nat ->
  exists k items, length items = k /\ (forall n, (k < n)%nat -> steps RA V n r = (items, Ended)) /\
    (forall i, (i < k)%nat -> exists p, nth_error items i = Some p /\ rel_item RA V i r = Ok p).
Proof.
  intros Hx Hs Hl. pose proof (axis_incr _ _ Hx Hs) as Hi.
  assert (Hex : exists i, rel_item RA V i r = Err EIndex).
  { assert (Hu : exists i, last xs 0 < INR i).
    { generalize (last xs 0). intros z. change (num RA) with R in z. destruct (archimed (Rmax 0 z)) as [Ha _].
      exists (Z.to_nat (up (Rmax 0 z))). pose proof (Rmax_l 0 z). pose proof (Rmax_r 0 z).
      assert (0 < up (Rmax 0 z))%Z by (apply lt_IZR; lra).
      rewrite INR_IZR_INZ, Z2Nat.id by lia. lra. }
    destruct Hu as [i Hb]. exists i. apply item_beyond with (xs := xs); auto.
    intros x Hin. destruct (In_nth_error _ _ Hin) as [j Hj].
    assert (x <= last xs 0); [|lra]. pose proof (nth_error_len _ _ _ Hj).
    destruct (nth_error_lt xs (length xs - 1)) as [z Hz]; [lia|].
    assert (El : last xs 0 = z).
    { destruct (exists_last (l := xs)) as (l' & b & ->); [intros ->; cbn in *; lia|]. rewrite last_last.
      rewrite app_length in Hz. cbn in Hz. rewrite nth_error_app2 in Hz by lia.
      match type of Hz with nth_error _ ?q = _ => replace q with 0%nat in Hz by lia end. injection Hz as ->. reflexivity. }
    rewrite El. destruct (Nat.eq_dec j (length xs - 1)) as [->|N]; [rewrite Hj in Hz; injection Hz as ->; lra|].
    left. apply (Hi j (length xs - 1)%nat); auto. lia. }
  destruct Hex as [i0 H0].
  assert (Hk : exists k, rel_item RA V k r = Err EIndex /\ forall j, (j < k)%nat -> exists p, rel_item RA V j r = Ok p).
  { revert H0. induction i0 as [i0 IH] using (well_founded_induction lt_wf). intros H0.
    destruct (forallb (fun j => match rel_item RA V j r with Ok _ => true | Err _ => false end) (seq 0 i0)) eqn:E.
    - exists i0. split; auto. intros j Hj. rewrite forallb_forall in E. specialize (E j ltac:(apply in_seq; lia)).
      destruct (rel_item RA V j r); [eauto|discriminate].
    - assert (Hj : exists j, (j < i0)%nat /\ rel_item RA V j r = Err EIndex).
      { clear -E Hx. apply not_true_iff_false in E. destruct (existsb (fun j => match rel_item RA V j r with Ok _ => false | Err _ => true end) (seq 0 i0)) eqn:G.
        - apply existsb_exists in G. destruct G as (j & Hj & G). apply in_seq in Hj. exists j. split; [lia|].
          destruct (item_ok_or_index r j xs Hx) as [[p Hp]|]; auto. rewrite Hp in G. discriminate.
        - exfalso. apply E. apply forallb_forall. intros j Hj. destruct (rel_item RA V j r) eqn:Q; auto.
          assert (existsb (fun j => match rel_item RA V j r with Ok _ => false | Err _ => true end) (seq 0 i0) = true);
            [|congruence]. apply existsb_exists. exists j. rewrite Q. auto. }
      destruct Hj as (j & Hj & Ej). exact (IH j Hj Ej). }
  destruct Hk as (k & Hk & Hb). destruct (steps_from_end RA V (S k) 0 k r Hb Hk ltac:(lia)) as (items & E & El & Hn).
  exists k, items. split; auto. split; [|exact Hn]. intros n Hn'.
  destruct (steps_from_end RA V n 0 k r Hb Hk Hn') as (items' & E' & El' & Hn2). unfold steps. rewrite E'. f_equal.
  apply nth_error_ext; [congruence|]. intros j Hj. rewrite El' in Hj.
  destruct (Hn j Hj) as (p & P1 & P2). destruct (Hn2 j Hj) as (p' & Q1 & Q2). rewrite P1, Q1. congruence.
Qed.
(** the axis 0, 1, ..., n-1 *)
Lemma item_whole (y : list (val V)) i b : nth_error y i = Some b ->
  let r := mkRel (A:=RA) (V:=V) (mkAxis (A:=RA) 0 (INR (length y - 1)) 1) y in rel_item RA V i r = Ok (INR i, b).
Proof.
  intros Hi r. pose proof (nth_error_len _ _ _ Hi) as Hlen.
  assert (Hv : axis_size RA (r_x r) = Ok (length y)).
  { replace (length y) with (length y - 1 + 1)%nat at 1 by lia. apply axis_size_exact. split; cbn; lra. }
  assert (Hx : axis_array RA (r_x r) = Ok (xs_of r)) by (apply valid_array; exact Hv).
  assert (Hp : forall j, (j < length y)%nat -> nth_error (xs_of r) j = Some (INR j)).
  { intros j Hj. unfold xs_of. cbn [r_x r_y a_start a_end r]. rewrite grid_nth by lia. unfold grid_pt. f_equal.
    destruct (Nat.eq_dec (length y) 1) as [E|E].
    - assert (j = 0)%nat by lia. subst j. cbn [INR]. lra.
    - replace ((INR (length y - 1) - 0) / INR (length y - 1)) with 1; [lra|].
      field. apply not_0_INR. lia. }
  destruct (item_nearest r i _ Hx (xs_of_length r)) as (k & x & b' & E & Ex & Ey & Hn).
  destruct (Hn i (INR i) (Hp i Hlen)) as [L _]. replace (INR i - INR i) with 0 in L by ring. rewrite Rabs_R0 in L.
  assert (x = INR i). { pose proof (Rabs_pos (x - INR i)). assert (Rabs (x - INR i) = 0) by lra.
    destruct (Req_dec (x - INR i) 0) as [|N]; [lra|]. apply Rabs_pos_lt in N. lra. }
  subst x. assert (k = i).
  { pose proof (nth_error_len _ _ _ Ex) as C. rewrite xs_of_length in C. assert (E2 : Some (INR k) = Some (INR i)) by exact (eq_trans (eq_sym (Hp k C)) Ex). apply INR_eq. injection E2; auto. }
  subst k. assert (E3 : Some b' = Some b) by exact (eq_trans (eq_sym Ey) Hi). injection E3 as ->. exact E.
Qed.
End Real.
