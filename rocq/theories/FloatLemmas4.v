(** Proofs of C78, continued: points of everyday axes are distinct in binary64, so interpolating a
    relation on its own axis changes nothing, and operators on equal axes act sample by sample. *)
From Coq Require Import Reals ZArith List Bool Lia Lra SpecFloat Psatz.
From Flocq Require Import Core.
From Verif Require Import Num Numpy Spec AxisModel RelModel RLemmas AxisLemmas InterpLemmas RelLemmas RelLemmas2
  FloatSpec FloatLemmas FloatLemmas2 FloatLemmas3.
Import ListNotations.
Local Open Scope R_scope.

Lemma f64_strict s e d n xs i j x y : f64_tame s e d n -> axis_array FA (mkAxis (A:=FA) s e d) = Ok xs ->
  (i < j)%nat -> nth_error xs i = Some x -> nth_error xs j = Some y ->
  (f64_val s < f64_val e -> f64_val x < f64_val y) /\ (f64_val e < f64_val s -> f64_val y < f64_val x) /\
  f64_val s <> f64_val e.
Proof.
  intros HT X Hij Hx Hy. pose proof (tame_axis s e d n HT) as HA. pose proof (tame_D s e d n HT) as PD.
  pose proof (tame_M s e d n HT) as BM.
  destruct (f64_array _ _ _ _ HA) as (xs2 & X2 & L & _ & P & _). rewrite X in X2. injection X2 as <-.
  pose proof (nth_error_len _ _ _ Hy) as Lj. rewrite L in Lj.
  destruct (P i x Hx) as (_ & _ & Ei). destruct (P j y Hy) as (_ & _ & Ej).
  pose proof HT as (_ & _ & _ & _ & _ & _ & Q).
  set (S := f64_val s) in *. set (E := f64_val e) in *. set (D := f64_val d) in *.
  set (M := Rmax (Rabs S) (Rabs E)) in *. rewrite two50 in Ei, Ej. pose proof uu_pos as U.
  assert (EM : 8 * uu * M <= / 16 * Rabs D).
  { apply Rle_trans with (8 * uu * (2 ^ 46 * Rabs D)); [apply Rmult_le_compat_l; lra|].
    replace (8 * uu * (2 ^ 46 * Rabs D)) with (8 * (uu * 2 ^ 46) * Rabs D) by ring. rewrite uu46. lra. }
  assert (Pn : 1 <= INR n) by (apply (le_INR 1); lia).
  set (N := INR n) in *.
  assert (SP : 3 / 4 * Rabs D * N <= Rabs (E - S)).
  { apply Rabs_le_inv in Q. assert (Q1 : N - / 4 <= Rabs (E - S) / Rabs D) by lra.
    apply (Rmult_le_compat_r (Rabs D)) in Q1; [|lra]. unfold Rdiv in Q1. rewrite Rmult_assoc, Rinv_l in Q1 by lra. nra. }
  assert (G : grid_pt S E (n + 1) j - grid_pt S E (n + 1) i = (INR j - INR i) * ((E - S) / N)).
  { unfold grid_pt, N. replace (n + 1 - 1)%nat with n by lia. ring. }
  assert (Hd : 1 <= INR j - INR i).
  { assert (INR i + 1 <= INR j) by (rewrite <- S_INR; apply le_INR; lia). lra. }
  apply Rabs_le_inv in Ei, Ej.
  split; [|split].
  - intros O. rewrite (Rabs_right (E - S)) in SP by lra.
    assert (3 / 4 * Rabs D <= (E - S) / N).
    { apply Rmult_le_reg_r with N; [lra|]. unfold Rdiv. rewrite (Rmult_assoc (E - S)), Rinv_l by lra. lra. }
    assert (3 / 4 * Rabs D <= (INR j - INR i) * ((E - S) / N)) by nra. lra.
  - intros O. rewrite (Rabs_left (E - S)) in SP by lra.
    assert ((E - S) / N <= - (3 / 4 * Rabs D)).
    { apply Rmult_le_reg_r with N; [lra|]. unfold Rdiv. rewrite (Rmult_assoc (E - S)), Rinv_l by lra. lra. }
    assert ((INR j - INR i) * ((E - S) / N) <= - (3 / 4 * Rabs D)) by nra. lra.
  - intros O. rewrite O in SP. rewrite Rminus_diag_eq, Rabs_R0 in SP by reflexivity. nra.
Qed.

Section Interp.
Context (V : Vals FA).
Notation pt := (num FA * val V)%type.
Definition keys (P : list pt) : list R := map (fun p => f64_val (fst p)) P.
Definition fins (P : list pt) : Prop := forall p, In p P -> f64_fin (fst p).

Lemma ltb_true_fin a b : f64_fin a -> f64_fin b -> f64_val a < f64_val b -> SFltb a b = true.
Proof. intros Fa Fb H. apply (f64_ltb a b Fa Fb). exact H. Qed.
Lemma ltb_false_fin a b : f64_fin a -> f64_fin b -> f64_val b <= f64_val a -> SFltb a b = false.
Proof. intros Fa Fb H. apply not_true_is_false. intros X. apply (f64_ltb a b Fa Fb) in X. lra. Qed.

Lemma finsert_front (p : pt) l : fins (p :: l) -> (forall q, In q l -> f64_val (fst p) < f64_val (fst q)) ->
  insert_pt FA V p l = p :: l.
Proof.
  destruct l as [|q l]; [reflexivity|]. intros F H. cbn [insert_pt FA n_lt].
  rewrite ltb_false_fin; [reflexivity| | |].
  - apply F. right. left. reflexivity.
  - apply F. left. reflexivity.
  - apply Rlt_le, H. left. reflexivity.
Qed.
Lemma finsert_back (p : pt) l : fins (p :: l) -> (forall q, In q l -> f64_val (fst q) < f64_val (fst p)) ->
  insert_pt FA V p l = l ++ [p].
Proof.
  induction l as [|q l IH]; [reflexivity|]. intros F H. cbn [insert_pt FA n_lt].
  rewrite ltb_true_fin; [| | |].
  - cbn [app]. f_equal. apply IH; [intros r [<-|Hr]; apply F; [left; reflexivity|right; right; exact Hr]|].
    intros r Hr. apply H. right. exact Hr.
  - apply F. right. left. reflexivity.
  - apply F. left. reflexivity.
  - apply H. left. reflexivity.
Qed.
Lemma fsort_incr P : fins P -> incr (keys P) -> sort_pts FA V P = P.
Proof.
  induction P as [|p P IH]; intros F H; [reflexivity|].
  change (sort_pts FA V (p :: P)) with (insert_pt FA V p (sort_pts FA V P)).
  rewrite IH; [|intros q Hq; apply F; right; exact Hq|eapply incr_tail; exact H]. apply finsert_front; [exact F|].
  intros q Hq. eapply incr_head; [exact H|]. apply (in_map (fun p => f64_val (fst p))). exact Hq.
Qed.
Lemma fsort_decr P : fins P -> decr (keys P) -> sort_pts FA V P = rev P.
Proof.
  induction P as [|p P IH]; intros F H; [reflexivity|].
  change (sort_pts FA V (p :: P)) with (insert_pt FA V p (sort_pts FA V P)).
  rewrite IH; [|intros q Hq; apply F; right; exact Hq|eapply decr_tail; exact H]. cbn [rev]. apply finsert_back.
  - intros q [<-|Hq]; apply F; [left; reflexivity|right; apply in_rev; exact Hq].
  - intros q Hq. apply in_rev in Hq. eapply decr_head; [exact H|]. apply (in_map (fun p => f64_val (fst p))). exact Hq.
Qed.
Lemma feq_refl t : f64_fin t -> SFeqb t t = true.
Proof. intros F. apply (f64_eqb t t F F). reflexivity. Qed.

Lemma finterp_in P i t y : fins P -> incr (keys P) -> nth_error P i = Some (t, y) -> interp_in FA V P t = y.
Proof.
  revert i; induction P as [|[x0 y0] P IH]; intros i F Hinc Hn; [destruct i; discriminate|].
  destruct P as [|[x1 y1] P].
  - destruct i as [|[|i]]; try discriminate. injection Hn as -> ->. reflexivity.
  - assert (Ft : f64_fin t) by (apply (F (t, y)); eapply nth_error_In; exact Hn).
    assert (F1 : f64_fin x1) by (apply (F (x1, y1)); right; left; reflexivity).
    cbn [interp_in n_lt n_eq FA]. destruct i as [|i].
    + injection Hn as -> ->.
      assert (Hlt : f64_val t < f64_val x1) by (apply (Hinc 0%nat 1%nat); [lia|reflexivity|reflexivity]).
      rewrite (ltb_true_fin t x1 Ft F1 Hlt). rewrite feq_refl by exact Ft. reflexivity.
    + cbn [nth_error] in Hn.
      assert (f64_val x1 <= f64_val t).
      { destruct i as [|i]; [injection Hn as -> _; lra|]. apply Rlt_le.
        apply (Hinc 1%nat (S (S i))); [lia|reflexivity|].
        exact (map_nth_error (fun p => f64_val (fst p)) i P Hn). }
      rewrite ltb_false_fin by assumption.
      change (interp_in FA V ((x1, y1) :: P) t = y).
      apply (IH i); [intros q Hq; apply F; right; exact Hq|eapply incr_tail; exact Hinc|exact Hn].
Qed.
Lemma finterp_at P i t y : fins P -> incr (keys P) -> nth_error P i = Some (t, y) -> interp_at FA V P t = y.
Proof.
  intros F Hinc Hn. transitivity (interp_in FA V P t); [|exact (finterp_in P i t y F Hinc Hn)].
  destruct P as [|[x0 y0] P]; [destruct i; discriminate|]. cbn [interp_at FA n_lt].
  assert (Ft : f64_fin t) by (apply (F (t, y)); eapply nth_error_In; exact Hn).
  set (w := last ((x0, y0) :: P) (t, v_of V (n_of_Z FA 0))).
  assert (Hw : In w ((x0, y0) :: P)) by (apply last_In; discriminate).
  assert (A1 : f64_val x0 <= f64_val t).
  { destruct i as [|i]; [injection Hn as -> _; lra|]. apply Rlt_le. apply (Hinc 0%nat (S i)); [lia|reflexivity|].
    exact (map_nth_error (fun p => f64_val (fst p)) (S i) _ Hn). }
  assert (A2 : f64_val t <= f64_val (fst w)).
  { pose proof (last_nth_error ((x0, y0) :: P) (t, v_of V (n_of_Z FA 0)) ltac:(discriminate)) as HL. fold w in HL.
    pose proof (nth_error_len _ _ _ Hn) as Li.
    destruct (Nat.eq_dec i (length ((x0, y0) :: P) - 1)) as [->|Hne].
    - rewrite HL in Hn. injection Hn as ->. cbn. lra.
    - apply Rlt_le. apply (Hinc i (length ((x0, y0) :: P) - 1)%nat); [lia| |].
      + exact (map_nth_error (fun p => f64_val (fst p)) _ _ Hn).
      + exact (map_nth_error (fun p => f64_val (fst p)) _ _ HL). }
  rewrite (ltb_false_fin t x0), (ltb_false_fin (fst w) t); try assumption; [reflexivity| |].
  - apply F, Hw.
  - apply (F (x0, y0)). left. reflexivity.
Qed.
Lemma incr_rev_keys P : decr (keys P) -> incr (keys (rev P)).
Proof. intros H. unfold keys. rewrite map_rev. apply decr_rev. exact H. Qed.
Lemma finterp P i t y : fins P -> incr (keys P) \/ decr (keys P) -> nth_error P i = Some (t, y) ->
  interp_at FA V (sort_pts FA V P) t = y.
Proof.
  intros F [H|H] Hn.
  - rewrite fsort_incr by assumption. eapply finterp_at; eassumption.
  - rewrite fsort_decr by assumption.
    pose proof (nth_error_In _ _ Hn) as Hin. apply in_rev in Hin. apply In_nth_error in Hin as [j Hj].
    eapply finterp_at; [|apply incr_rev_keys; exact H|exact Hj]. intros q Hq. apply F, in_rev. exact Hq.
Qed.

(** interpolation on the own axis *)
Lemma f64_interp_own s e d n (y : list (val V)) : f64_tame s e d n -> length y = (n + 1)%nat ->
  let r := mkRel (A:=FA) (V:=V) (mkAxis (A:=FA) s e d) y in
  rel_interp FA V (default_config FA V) (mkAxis (A:=FA) s e d) r = Ok r.
Proof.
  intros HT Hy r. pose proof (tame_axis s e d n HT) as HA.
  destruct (f64_array _ _ _ _ HA) as (xs & X & L & _ & P & _).
  unfold rel_interp. cbn [r_x r_y r]. rewrite X. cbn [bind default_config c_interp].
  unfold interpolate_default, interp1d.
  assert (Hl : length xs = length y) by lia.
  match goal with |- context [Nat.eqb ?a ?b] => replace (Nat.eqb a b) with true by (symmetry; apply Nat.eqb_eq; exact Hl) end.
  cbn [bind]. rewrite X. cbn [bind].
  set (Q := combine xs y).
  assert (EM : map (interp_at FA V (sort_pts FA V Q)) xs = y).
  { apply nth_error_ext; [rewrite map_length; exact Hl|]. intros i Hi. rewrite map_length in Hi. rewrite nth_error_map.
    destruct (nth_error xs i) as [x|] eqn:Ex; [|apply nth_error_None in Ex; lia].
    destruct (nth_error y i) as [z|] eqn:Ez; [|apply nth_error_None in Ez; lia].
    cbn [option_map]. f_equal. apply (finterp Q i).
    - intros p Hp. unfold Q in Hp. destruct p as [a b]. apply in_combine_l in Hp. cbn [fst].
      apply In_nth_error in Hp as [j Hj]. apply (P j a Hj).
    - assert (K : keys Q = map f64_val xs).
      { unfold keys, Q. rewrite <- (map_map fst f64_val). rewrite map_fst_combine by exact Hl. reflexivity. }
      rewrite K.
      assert (St : forall i j a b, (i < j)%nat -> nth_error (map f64_val xs) i = Some a -> nth_error (map f64_val xs) j = Some b ->
        (f64_val s < f64_val e -> a < b) /\ (f64_val e < f64_val s -> b < a) /\ f64_val s <> f64_val e).
      { intros i0 j0 a b Hij Ha Hb. rewrite nth_error_map in Ha, Hb.
        change (num FA) with spec_float in *.
        destruct (nth_error xs i0) as [xa|] eqn:Ea; [|discriminate]. destruct (nth_error xs j0) as [xb|] eqn:Eb; [|discriminate].
        injection Ha as <-. injection Hb as <-. exact (f64_strict s e d n xs i0 j0 xa xb HT X Hij Ea Eb). }
      destruct (Rlt_le_dec (f64_val s) (f64_val e)) as [O|O].
      + left. intros i0 j0 a b Hij Ha Hb. apply (St i0 j0 a b Hij Ha Hb). exact O.
      + right. intros i0 j0 a b Hij Ha Hb. destruct (St i0 j0 a b Hij Ha Hb) as (_ & S2 & S3). apply S2. lra.
    - unfold Q. apply nth_combine. split; assumption. }
  rewrite EM. unfold rel_make. rewrite (proj1 (f64_size _ _ _ _ HA)). cbn [bind]. rewrite Hy, Nat.eqb_refl. reflexivity.
Qed.

(** operators on equal axes, whether or not they are the same object *)
Lemma f64_common s e d n : f64_tame s e d n ->
  common_x_default FA (mkAxis (A:=FA) s e d) (mkAxis (A:=FA) s e d) = mkAxis (A:=FA) s e d.
Proof.
  intros _. unfold common_x_default. cbn [a_start a_end a_sample].
  destruct (n_le FA s s), (n_le FA e e), (n_le FA d d); reflexivity.
Qed.
Lemma map2_length {T U W} (f : T -> U -> W) l m : length l = length m -> length (map2 f l m) = length l.
Proof. revert m; induction l as [|a l IH]; intros [|b m] H; try discriminate; [reflexivity|]. cbn. f_equal. apply IH. cbn in H. lia. Qed.
Lemma f64_op_equal s e d n (y1 y2 : list (val V)) o same : f64_tame s e d n ->
  length y1 = (n + 1)%nat -> length y2 = (n + 1)%nat ->
  let x := mkAxis (A:=FA) s e d in
  rel_op FA V (default_config FA V) o same (mkRel (A:=FA) (V:=V) x y1) (mkRel (A:=FA) (V:=V) x y2) =
  Ok (mkRel (A:=FA) (V:=V) x (map2 (op_apply FA V o) y1 y2)).
Proof.
  intros HT L1 L2 x. pose proof (tame_axis s e d n HT) as HA.
  assert (E : rel_equalize FA V (default_config FA V) same (mkRel (A:=FA) (V:=V) x y1) (mkRel (A:=FA) (V:=V) x y2) =
    Ok (mkRel (A:=FA) (V:=V) x y1, mkRel (A:=FA) (V:=V) x y2)).
  { unfold rel_equalize. destruct same; [reflexivity|]. cbv zeta. cbn [r_x default_config c_common_x].
    unfold x. rewrite (f64_common s e d n HT).
    rewrite (f64_interp_own s e d n y1 HT L1), (f64_interp_own s e d n y2 HT L2). reflexivity. }
  unfold rel_op. rewrite E. cbn [bind fst snd r_x r_y default_config c_math]. unfold math_operation.
  rewrite L1, L2, Nat.eqb_refl. cbn [bind]. unfold rel_make, x. rewrite (proj1 (f64_size _ _ _ _ HA)). cbn [bind].
  rewrite map2_length by lia. rewrite L1, Nat.eqb_refl. reflexivity.
Qed.
End Interp.

(** commutativity of binary64 *)
Lemma SFadd_comm x y : SFadd 53 1024 x y = SFadd 53 1024 y x.
Proof.
  destruct x as [sx|sx| |sx mx ex], y as [sy|sy| |sy my ey]; cbn; try reflexivity.
  - destruct sx, sy; reflexivity.
  - destruct sx, sy; reflexivity.
  - rewrite Z.min_comm, Z.add_comm. reflexivity.
Qed.
Lemma SFmul_comm x y : SFmul 53 1024 x y = SFmul 53 1024 y x.
Proof.
  destruct x as [sx|sx| |sx mx ex], y as [sy|sy| |sy my ey]; cbn; try reflexivity; try (rewrite xorb_comm; reflexivity).
  rewrite xorb_comm, Pos.mul_comm, Z.add_comm. reflexivity.
Qed.
Lemma map2_comm {T W} (f : T -> T -> W) l m : (forall a b, f a b = f b a) -> map2 f l m = map2 f m l.
Proof. intros H. revert m; induction l as [|a l IH]; intros [|b m]; try reflexivity. cbn. rewrite H, IH. reflexivity. Qed.
Lemma f64_op_comm s e d n (y1 y2 : list spec_float) o same : f64_tame s e d n -> (o = ADD \/ o = MUL) ->
  length y1 = (n + 1)%nat -> length y2 = (n + 1)%nat ->
  let x := mkAxis (A:=FA) s e d in
  let r1 := mkRel (A:=FA) (V:=FV) x y1 in let r2 := mkRel (A:=FA) (V:=FV) x y2 in
  rel_op FA FV (default_config FA FV) o same r1 r2 = rel_op FA FV (default_config FA FV) o same r2 r1.
Proof.
  intros HT Ho L1 L2 x r1 r2. unfold r1, r2, x.
  rewrite (f64_op_equal FV s e d n y1 y2 o same HT L1 L2), (f64_op_equal FV s e d n y2 y1 o same HT L2 L1).
  f_equal. f_equal. apply map2_comm. intros a b.
  destruct Ho as [-> | ->]; [apply SFadd_comm|apply SFmul_comm].
Qed.
