(** Lemmas on the correction for a source. *)
From Coq Require Import Reals ZArith List Bool Lia Lra Permutation.
From Coquelicot Require Import Complex.
From Verif Require Import Num Numpy AxisModel RelModel HeapModel Spec RLemmas AxisLemmas InterpLemmas VInst RelLemmas RelLemmas2 RelLemmas3
  FourierModel SweepModel PreparedModel PreparedSpec PreparedLemmas PreparedLemmas2 PreparedLemmas4.
Import ListNotations.
Local Open Scope R_scope.

(** *** the loop *)
Section Loop.
Context (pass : nat -> result rrel) (limit : R).
Definition below (nd : rrel) : Prop := forall y : R, In y (r_y nd) -> Rabs y < limit.
Lemma below_forallb (nd : rrel) : forallb (fun y => Rltb (Rabs y) limit) (r_y nd) = true <-> below nd.
Proof.
  unfold below. rewrite forallb_forall. split; intros H y Hy; [apply Rltb_true, H, Hy | apply Rltb_true, H, Hy].
Qed.
Definition out_of_passes (it : option Z) (p : nat) : Prop := match it with Some m => (m <= Z.of_nat p)%Z | None => False end.
Lemma out_bool it p : (match it with Some m => (m <? Z.of_nat p + 1)%Z | None => false end) = true <-> out_of_passes it p.
Proof. destruct it as [m|]; cbn; [rewrite Z.ltb_lt; lia | split; [discriminate | tauto]]. Qed.
Definition goes_on it p : Prop := exists nd, pass p = Ok nd /\ ~ below nd /\ ~ out_of_passes it p.
Lemma loop_some it fuel cnt p nd : correction_loop pass limit it fuel cnt = Ok (Some (p, nd)) ->
  (cnt < p <= cnt + fuel)%nat /\ pass p = Ok nd /\ (below nd \/ out_of_passes it p) /\
  forall j, (cnt < j < p)%nat -> goes_on it j.
Proof.
  revert cnt. induction fuel as [|fuel IH]; intros cnt E; [discriminate|]. cbn [correction_loop] in E.
  destruct (pass (S cnt)) as [nd1|e] eqn:Ep; [|discriminate]. cbn [bind] in E.
  destruct (forallb (fun y => Rltb (Rabs y) limit) (r_y nd1)) eqn:Ef.
  { injection E as <- <-. split; [lia|]. split; [exact Ep|]. split; [left; apply below_forallb; exact Ef|]. intros j Hj. lia. }
  destruct (match it with Some m => (m <? Z.of_nat (S cnt) + 1)%Z | None => false end) eqn:Eo.
  { injection E as <- <-. split; [lia|]. split; [exact Ep|]. split; [right; apply out_bool; exact Eo|]. intros j Hj. lia. }
  destruct (IH (S cnt) E) as (H1 & H2 & H3 & H4). split; [lia|]. split; [exact H2|]. split; [exact H3|].
  intros j Hj. destruct (Nat.eq_dec j (S cnt)) as [->|Hne]; [|apply H4; lia].
  exists nd1. split; [exact Ep|]. split.
  - rewrite <- below_forallb, Ef. discriminate.
  - rewrite <- out_bool, Eo. discriminate.
Qed.
Lemma loop_none it fuel cnt : correction_loop pass limit it fuel cnt = Ok None <-> forall j, (cnt < j <= cnt + fuel)%nat -> goes_on it j.
Proof.
  revert cnt. induction fuel as [|fuel IH]; intros cnt.
  - split; [intros _ j Hj; lia | reflexivity].
  - cbn [correction_loop]. split.
    + intros E. destruct (pass (S cnt)) as [nd1|e] eqn:Ep; [|discriminate]. cbn [bind] in E.
      destruct (forallb (fun y => Rltb (Rabs y) limit) (r_y nd1)) eqn:Ef; [discriminate|]. destruct (match it with Some m => (m <? Z.of_nat (S cnt) + 1)%Z | None => false end) eqn:Eo; [discriminate|].
      intros j Hj. destruct (Nat.eq_dec j (S cnt)) as [->|Hne]; [|apply (proj1 (IH (S cnt)) E); lia].
      exists nd1. split; [exact Ep|]. split.
      * rewrite <- below_forallb, Ef. discriminate.
      * rewrite <- out_bool, Eo. discriminate.
    + intros H. destruct (H (S cnt) ltac:(lia)) as (nd1 & Ep & Hb & Ho). rewrite Ep. cbn [bind].
      destruct (forallb (fun y => Rltb (Rabs y) limit) (r_y nd1)) eqn:Ef; [apply below_forallb in Ef; contradiction|].
      destruct (match it with Some m => (m <? Z.of_nat (S cnt) + 1)%Z | None => false end) eqn:Eo; [apply out_bool in Eo; contradiction|].
      apply IH. intros j Hj. apply H. lia.
Qed.
Lemma loop_err it fuel cnt e : correction_loop pass limit it fuel cnt = Err e ->
  exists p, (cnt < p <= cnt + fuel)%nat /\ pass p = Err e /\ forall j, (cnt < j < p)%nat -> goes_on it j.
Proof.
  revert cnt. induction fuel as [|fuel IH]; intros cnt E; [discriminate|]. cbn [correction_loop] in E.
  destruct (pass (S cnt)) as [nd1|e1] eqn:Ep.
  2:{ cbn in E. injection E as ->. exists (S cnt). split; [lia|]. split; [exact Ep|]. intros j Hj; lia. }
  cbn [bind] in E. destruct (forallb (fun y => Rltb (Rabs y) limit) (r_y nd1)) eqn:Ef; [discriminate|]. destruct (match it with Some m => (m <? Z.of_nat (S cnt) + 1)%Z | None => false end) eqn:Eo; [discriminate|].
  destruct (IH (S cnt) E) as (p & H1 & H2 & H3). exists p. split; [lia|]. split; [exact H2|].
  intros j Hj. destruct (Nat.eq_dec j (S cnt)) as [->|Hne]; [|apply H3; lia].
  exists nd1. split; [exact Ep|]. split.
  - rewrite <- below_forallb, Ef. discriminate.
  - rewrite <- out_bool, Eo. discriminate.
Qed.
End Loop.

(** *** shapes *)
Lemma map_nth_lt (f : R -> R) l i : (i < length l)%nat -> nth i (map f l) 0 = f (nth i l 0).
Proof. intros H. apply nth_nth_error. rewrite nth_error_map, (nth_error_nth' l i 0) by exact H. reflexivity. Qed.
Lemma nth_repeat_lt (x : R) n i : (i < n)%nat -> nth i (repeat x n) 0 = x.
Proof. revert i; induction n as [|n IH]; intros i Hi; [lia|]. destruct i as [|i]; [reflexivity|]. cbn. apply IH. lia. Qed.
Lemma exact_valid r m : exact_rel r m -> valid r.
Proof. intros [Hx Hl]. unfold valid. rewrite (axis_size_exact _ m Hx). congruence. Qed.
Lemma exact_no_tie r m : exact_rel r m -> ~ is_tie (qspan r).
Proof.
  intros [[Hd He] _] [k Hk]. unfold qspan in Hk. rewrite He in Hk.
  replace (INR m * a_sample (r_x r) / a_sample (r_x r)) with (INR m) in Hk by (field; lra). rewrite INR_IZR_INZ in Hk.
  assert (H : IZR (2 * Z.of_nat m) = IZR (2 * k + 1)) by (rewrite mult_IZR, plus_IZR, mult_IZR; lra). apply eq_IZR in H. lia.
Qed.
Lemma exact_le r m : exact_rel r m -> 0 < a_sample (r_x r) /\ a_start (r_x r) <= a_end (r_x r).
Proof. intros [[Hd He] _]. split; [exact Hd|]. pose proof (Rmult_le_pos (INR m) (a_sample (r_x r)) (pos_INR m) ltac:(lra)). lra. Qed.
Lemma int_exact r m : exact_rel r (S m) -> exists r', rel_integrate RA RV DRC r = Ok r' /\ r_x r' = int_axis (r_x r) /\ exact_rel r' m.
Proof.
  intros He. destruct (exact_le r _ He) as [Hd Hse]. pose proof He as [[_ Hx] Hl].
  destruct (int_ok RV_laws r (exact_valid _ _ He) Hd Hse ltac:(lia) (exact_no_tie _ _ He)) as (r' & E1 & _ & E3 & E4 & _).
  exists r'. split; [exact E1|]. split; [exact E3|]. split; [|lia]. rewrite E3. unfold int_axis. cbn [a_start a_end a_sample].
  split; [exact Hd|]. rewrite S_INR in Hx. rr. lra.
Qed.
Lemma diff_exact r m : exact_rel r (S m) -> exists r', rel_diff RA RV DRC r = Ok r' /\ r_x r' = diff_axis (r_x r) /\ exact_rel r' m /\
  forall i, (i <= m)%nat -> nth i (r_y r') 0 = (nth (S i) (r_y r) 0 - nth i (r_y r) 0) / a_sample (r_x r).
Proof.
  intros He. destruct (exact_le r _ He) as [Hd Hse]. pose proof He as [[_ Hx] Hl].
  destruct (diff_ok r (exact_valid _ _ He) Hd Hse ltac:(lia) (exact_no_tie _ _ He)) as (r' & E1 & _ & E3 & E4 & E5).
  exists r'. split; [exact E1|]. split; [exact E3|]. split.
  - split; [|lia]. rewrite E3. unfold diff_axis. cbn [a_start a_end a_sample]. split; [exact Hd|]. rewrite S_INR in Hx. rr. lra.
  - intros i Hi. exact (E5 i ltac:(lia)).
Qed.
Lemma num_exact o r m k : exact_rel r m -> exists r', rel_op_num RA RV DRC o r (OVal (V:=RV) k) = Ok r' /\ r_x r' = r_x r /\ exact_rel r' m /\
  r_y r' = map (fun v => op_apply RA RV o v k) (r_y r).
Proof.
  intros He. eexists. split; [exact (rel_op_num_generic RA RV o r k (exact_valid _ _ He))|]. split; [reflexivity|]. split; [|reflexivity].
  destruct He as [Hx Hl]. split; [exact Hx|]. cbn [r_y]. rewrite map_length. exact Hl.
Qed.
Lemma displacement_exact mass r m : exact_rel r (S (S m)) -> exists r', displacement_of mass r = Ok r' /\
  r_x r' = mkAxis (A:=RA) (a_start (r_x r) + 2 * a_sample (r_x r)) (a_end (r_x r)) (a_sample (r_x r)) /\ exact_rel r' m.
Proof.
  intros He. unfold displacement_of. destruct (int_exact _ _ He) as (r1 & E1 & X1 & H1). rewrite E1. cbn [bind].
  destruct (int_exact _ _ H1) as (r2 & E2 & X2 & H2). rewrite E2. cbn [bind].
  destruct (num_exact TRUEDIV r2 m mass H2) as (r3 & E3 & X3 & H3 & _). exists r3. split; [exact E3|]. split; [|exact H3].
  rewrite X3, X2, X1. apply axis_eq; cbn [int_axis a_start a_end a_sample]; try reflexivity. rr. lra.
Qed.

Lemma imfs_ok (x : axis RA) l n : axis_size RA x = Ok n -> (forall z, In z l -> length z = n) -> imfs_on x l = Ok (map (mkRel (A:=RA) (V:=RV) x) l).
Proof.
  intros Hn. induction l as [|y l IH]; intros Hl; [reflexivity|]. cbn [imfs_on].
  rewrite (rel_make_eq (V:=RV) x y) by (rewrite Hn; f_equal; symmetry; apply Hl; left; reflexivity). cbn [bind].
  rewrite IH by (intros; apply Hl; right; assumption). reflexivity.
Qed.
Lemma first_exact emd r m : keeps_length emd -> exact_rel r m -> exists r', first_imf emd r = Ok r' /\ r_x r' = r_x r /\ exact_rel r' m /\
  exists others, emd (r_y r) = Ok (r_y r' :: others).
Proof.
  intros Hk He. pose proof He as [Hx Hl]. destruct (Hk (r_y r)) as (f & o & E & Ho).
  { intros E. rewrite E in Hl. cbn in Hl. lia. }
  unfold first_imf. rewrite E. cbn [bind]. rewrite (imfs_ok (r_x r) (f :: o) (m + 1)); [|apply axis_size_exact; exact Hx|].
  2:{ intros z Hz. rewrite <- Hl. apply Ho. exact Hz. }
  cbn [bind map]. eexists. split; [reflexivity|]. split; [reflexivity|]. split; [|exists o; reflexivity].
  split; [exact Hx|]. cbn [r_y]. rewrite <- Hl. apply Ho. left. reflexivity.
Qed.

(** product with a window which starts [q] samples earlier *)
Lemma mul_exact (r w : rrel) m q : exact_rel r m -> exact_rel w (q + m) -> a_sample (r_x w) = a_sample (r_x r) ->
  a_start (r_x r) = a_start (r_x w) + INR q * a_sample (r_x r) ->
  exists r', rel_op RA RV DRC MUL false r w = Ok r' /\ r_x r' = r_x w /\ exact_rel r' (q + m) /\
    (forall i, (i < q)%nat -> nth i (r_y r') 0 = 0) /\
    forall i, (i <= m)%nat -> nth (q + i) (r_y r') 0 = nth i (r_y r) 0 * nth (q + i) (r_y w) 0.
Proof.
  intros Hr Hw Hd Hs. pose proof Hr as [Hxr Hlr]. pose proof Hw as [Hxw Hlw].
  rewrite (rel_op_comm RV_laws MUL false r w (or_intror eq_refl) (exact_valid _ _ Hr) (exact_valid _ _ Hw)) by discriminate.
  pose proof (lat_of w (q + m) Hxw Hlw) as Ew.
  assert (Er : r = onlat (V:=RV) (a_start (r_x w)) (a_sample (r_x w)) q (r_y r)).
  { destruct r as [x y]. unfold onlat. cbn [r_x r_y] in *. f_equal. rewrite Hd. apply axis_eq; cbn [a_start a_end a_sample]; try reflexivity.
    - exact Hs.
    - destruct Hxr as [_ He]. rewrite plus_INR. replace (length y - 1)%nat with m by lia. rr. lra. }
  assert (Hnw : r_y w <> []) by (intros E; rewrite E in Hlw; cbn in Hlw; lia).
  assert (Hnr : r_y r <> []) by (intros E; rewrite E in Hlr; cbn in Hlr; lia).
  pose proof (lat_op RV_laws MUL (a_start (r_x w)) (a_sample (r_x w)) q (r_y w) (r_y r) (proj1 Hxw) Hnw Hnr) as E.
  rewrite <- Ew, <- Er in E. rewrite E. eexists. split; [reflexivity|].
  assert (Hlen : length (op_list (V:=RV) MUL (r_y w) (r_y r) q) = (q + m + 1)%nat) by (rewrite op_list_len; change (val RV) with R in *; lia).
  assert (Hax : r_x (onlat (V:=RV) (a_start (r_x w)) (a_sample (r_x w)) 0 (op_list (V:=RV) MUL (r_y w) (r_y r) q)) = r_x w).
  { unfold onlat. cbn [r_x]. rewrite Hlen. destruct Hxw as [_ Hxw]. apply axis_eq; cbn [a_start a_end a_sample]; try reflexivity.
    - cbn [INR]. rewrite Rmult_0_l. apply Rplus_0_r.
    - replace (0 + (q + m + 1 - 1))%nat with (q + m)%nat by lia. rr. lra. }
  split; [exact Hax|]. split; [split; [rewrite Hax; exact Hxw | exact Hlen]|].
  assert (Hn : forall i, (i < q + m + 1)%nat -> nth i (op_list (V:=RV) MUL (r_y w) (r_y r) q) 0 = at0 (V:=RV) (r_y w) (Z.of_nat i) * at0 (V:=RV) (r_y r) (Z.of_nat i - Z.of_nat q)).
  { intros i Hi. apply nth_nth_error. unfold op_list. rewrite nth_error_map_seq; [reflexivity|]. change (val RV) with R in *. lia. }
  assert (Ha : forall (l : list R) i, (i < length l)%nat -> at0 (V:=RV) l (Z.of_nat i) = nth i l 0).
  { intros l i Hi. unfold at0. replace (Z.of_nat i <? 0)%Z with false by (symmetry; apply Z.ltb_ge; lia). rewrite Nat2Z.id.
    change (val RV) with R. rewrite (nth_error_nth' l i 0 Hi). reflexivity. }
  cbn [onlat r_y]. split.
  - intros i Hi. rewrite Hn by lia. rewrite (at0_out (V:=RV) (r_y r)) by lia. cbn. lra.
  - intros i Hi. rewrite Hn by lia. replace (Z.of_nat (q + i) - Z.of_nat q)%Z with (Z.of_nat i) by lia.
    rewrite !Ha by (change (val RV) with R in *; lia). apply Rmult_comm.
Qed.

Lemma second_exact mass r m : exact_rel r (S (S m)) -> exists r', second_difference mass r = Ok r' /\
  r_x r' = mkAxis (A:=RA) (a_start (r_x r) + a_sample (r_x r)) (a_end (r_x r) - a_sample (r_x r)) (a_sample (r_x r)) /\ exact_rel r' m /\
  forall i, (i <= m)%nat -> nth i (r_y r') 0 =
    (nth (S (S i)) (r_y r) 0 - 2 * nth (S i) (r_y r) 0 + nth i (r_y r) 0) / (a_sample (r_x r) * a_sample (r_x r)) * mass.
Proof.
  intros He. destruct (exact_le _ _ He) as [Hd _]. unfold second_difference.
  destruct (diff_exact _ _ He) as (r1 & E1 & X1 & H1 & V1). rewrite E1. cbn [bind].
  destruct (diff_exact _ _ H1) as (r2 & E2 & X2 & H2 & V2). rewrite E2. cbn [bind].
  destruct (num_exact MUL r2 m mass H2) as (r3 & E3 & X3 & H3 & V3). exists r3. split; [exact E3|]. split; [|split; [exact H3|]].
  - rewrite X3, X2, X1. apply axis_eq; cbn [diff_axis a_start a_end a_sample]; try reflexivity; rr; lra.
  - intros i Hi. rewrite V3. cbn [op_apply RV v_mul].
    etransitivity; [exact (map_nth_lt (fun v : R => v * mass) (r_y r2) i ltac:(destruct H2 as [_ H2]; change (val RV) with R in *; lia))|].
    pose proof (V2 i Hi) as F2. pose proof (V1 i ltac:(lia)) as F1. pose proof (V1 (S i) ltac:(lia)) as F0. rewrite X1 in F2. cbn [diff_axis a_sample] in F2.
    change (val RV) with R in *. rewrite F2, F1, F0. field. rr. lra.
Qed.

(** the intermediate values: window, first displacement *)
Section Source.
Context (emd : decomposition) (a : source_args) (s : rrel) (m : nat) (Hk : keeps_length emd) (Hs : exact_rel s m) (Hm : (4 <= m)%nat).
Lemma time_exact : source_time s = mkAxis (A:=RA) (a_start (r_x s) + 2 * a_sample (r_x s)) (a_end (r_x s)) (a_sample (r_x s)).
Proof. reflexivity. Qed.
Lemma window_exact : exists w, source_window a s = Ok w /\ r_x w = source_time s /\ exact_rel w (m - 2) /\
  (forall i, (i <= m - 2)%nat -> 0 <= nth i (r_y w) 0 <= 1) /\
  (forall i, ((m - 1) / 2 <= i <= m - 2)%nat -> nth i (r_y w) 0 = 1) /\
  (a_start (r_x s) + 2 * a_sample (r_x s) <= a_end (r_x s) * so_window a -> nth 0 (r_y w) 0 = 0) /\
  (a_end (r_x s) * so_window a < a_start (r_x s) + 2 * a_sample (r_x s) -> forall i, (i <= m - 2)%nat -> nth i (r_y w) 0 = 1).
Proof.
  pose proof Hs as [[Hd He] Hl].
  assert (Hx : exact_span (a_start (source_time s)) (a_end (source_time s)) (a_sample (source_time s)) (m - 2)).
  { cbn [source_time set_start a_start a_end a_sample]. split; [exact Hd|]. rewrite minus_INR by lia. cbn [INR]. rr. lra. }
  unfold source_window. pose proof (axis_size_exact _ _ Hx) as Hsz. rewrite (axis_array_size _ _ Hsz). cbn [bind].
  set (g := grid (a_start (source_time s)) (a_end (source_time s)) (m - 2 + 1)).
  assert (Hg : length g = (m - 1)%nat) by (unfold g; rewrite grid_length; lia).
  assert (Hgne : g <> []) by (intros E; rewrite E in Hg; cbn in Hg; lia).
  destruct (tukey_a_t_bounds g (Some (a_end (r_x s) * so_window a)) LocLeft (fun _ => Hgne)) as (w & Ew & Hw & Hu).
  cbn [RA n_mul] in *. rewrite Ew. cbn [bind]. rewrite (rel_make_eq (V:=RV) (source_time s) w) by (rewrite Hsz; f_equal; change (val RV) with R; rewrite Hw; lia).
  exists (mkRel (A:=RA) (V:=RV) (source_time s) w). split; [reflexivity|]. split; [reflexivity|].
  split; [split; [exact Hx | cbn [r_y]; change (val RV) with R; rewrite Hw; lia]|]. cbn [r_y].
  destruct (tukey_a_t_left g _ w Ew) as (_ & Hones & _). destruct (tukey_a_t_ends g _ LocLeft w ltac:(lia) Ew) as [Hz Ho].
  assert (Hfirst : nth_error g 0 = Some (a_start (r_x s) + 2 * a_sample (r_x s))).
  { unfold g. replace (m - 2 + 1)%nat with (S (m - 2)) by lia. cbn. f_equal. unfold grid_pt. cbn [INR]. rr. lra. }
  split; [intros i Hi; apply Hu, nth_In; change (val RV) with R in *; lia|].
  split; [intros i Hi; apply nth_nth_error, Hones; rewrite Hg; lia|].
  split.
  - intros Hle. apply nth_nth_error. apply Hz; [|left; reflexivity]. exists (a_start (r_x s) + 2 * a_sample (r_x s)). split; [|exact Hle].
    eapply nth_error_In; exact Hfirst.
  - intros Hlt i Hi. rewrite Ho.
    + apply nth_repeat_lt. lia.
    + intros t Ht. apply In_nth_error in Ht. destruct Ht as [k Hk']. unfold g in Hk'. apply grid_nth_inv in Hk'. destruct Hk' as [Hk1 ->].
      unfold grid_pt. cbn [source_time set_start a_start a_end].
      assert (0 <= INR k * ((a_end (r_x s) - (a_start (r_x s) + 2 * a_sample (r_x s))) / INR (m - 2 + 1 - 1))).
      { apply Rmult_le_pos; [apply pos_INR|]. unfold Rdiv. apply Rmult_le_pos.
        - assert (INR 4 <= INR m) by (apply le_INR; lia). cbn [INR] in *. rr. nra.
        - left. apply Rinv_0_lt_compat, lt_0_INR. lia. }
      cbn [RA n_add n_mul n_of_Z] in *. rr. lra.
Qed.
End Source.
