(** The displacements in the correction for a source (C72), and correct_sweep (C73). *)
From Coq Require Import Reals ZArith List Bool Lia Lra.
From Coquelicot Require Import Complex.
From Verif Require Import Num Numpy AxisModel RelModel HeapModel Spec RLemmas AxisLemmas InterpLemmas VInst RelLemmas RelLemmas2 RelLemmas3
  FourierSpec FourierModel SweepModel PreparedModel PreparedSpec PreparedLemmas PreparedLemmas2 PreparedLemmas4 PreparedLemmas5 PreparedLemmas6.
Import ListNotations.
Local Open Scope R_scope.

Lemma vsum_tsum (g : nat -> R) n : vsum (V:=RV) g n = tsum g n.
Proof. induction n as [|n IH]; [reflexivity|]. cbn [vsum tsum]. rewrite IH. reflexivity. Qed.
Lemma tsum_ext' (f g : nat -> R) n : (forall i, (i < n)%nat -> f i = g i) -> tsum f n = tsum g n.
Proof. induction n as [|n IH]; intros H; [reflexivity|]. cbn [tsum]. rewrite IH, H by (intros; try apply H; lia). reflexivity. Qed.
Lemma area_ext d f g i : (forall j, (j <= S i)%nat -> f j = g j) -> area d f i = area d g i.
Proof. intros H. unfold area. f_equal. apply tsum_ext'. intros j Hj. rewrite !H by lia. reflexivity. Qed.
(** integration with its values *)
Lemma int_values r m : exact_rel r (S m) -> exists r', rel_integrate RA RV DRC r = Ok r' /\ r_x r' = int_axis (r_x r) /\ exact_rel r' m /\
  forall i, (i <= m)%nat -> nth i (r_y r') 0 = area (a_sample (r_x r)) (fun j => nth j (r_y r) 0) i.
Proof.
  intros He. destruct (exact_le r _ He) as [Hd Hse]. pose proof He as [[_ Hx] Hl].
  destruct (int_ok RV_laws r (exact_valid _ _ He) Hd Hse ltac:(lia) (exact_no_tie _ _ He)) as (r' & E1 & _ & E3 & E4 & E5).
  exists r'. split; [exact E1|]. split; [exact E3|]. split.
  - split; [|lia]. rewrite E3. unfold int_axis. cbn [a_start a_end a_sample]. split; [exact Hd|]. rewrite S_INR in Hx. rr. lra.
  - intros i Hi. specialize (E5 i ltac:(lia)). cbn [RV v_mul v_of v_div v_add RA n_of_Z] in E5. etransitivity; [exact E5|]. unfold area. f_equal.
    exact (vsum_tsum (fun j => (nth j (r_y r) 0 + nth (S j) (r_y r) 0) / 2) (S i)).
Qed.
Lemma displacement_values mass r m : exact_rel r (S (S m)) -> exists r', displacement_of mass r = Ok r' /\
  r_x r' = mkAxis (A:=RA) (a_start (r_x r) + 2 * a_sample (r_x r)) (a_end (r_x r)) (a_sample (r_x r)) /\ exact_rel r' m /\
  displaces (a_sample (r_x r)) mass (r_y r) (r_y r').
Proof.
  intros He. unfold displacement_of. destruct (int_values _ _ He) as (r1 & E1 & X1 & H1 & V1). rewrite E1. cbn [bind].
  destruct (int_values _ _ H1) as (r2 & E2 & X2 & H2 & V2). rewrite E2. cbn [bind].
  destruct (num_exact TRUEDIV r2 m mass H2) as (r3 & E3 & X3 & H3 & V3). exists r3. split; [exact E3|]. split; [|split; [exact H3|]].
  - rewrite X3, X2, X1. apply axis_eq; cbn [int_axis a_start a_end a_sample]; try reflexivity. rr. lra.
  - destruct H3 as [_ L3]. destruct He as [_ Le]. destruct H2 as [_ L2]. change (val RV) with R in *. split; [rewrite L3, Le; lia|].
    intros i Hi. rewrite V3. change (val RV) with R. rewrite (nth_indep _ 0 (op_apply RA RV TRUEDIV 0 mass)) by (rewrite map_length; lia).
    rewrite (map_nth (fun v => op_apply RA RV TRUEDIV v mass)). rewrite V2 by lia. cbn [op_apply RV v_div].
    f_equal. rewrite X1. cbn [int_axis a_sample]. apply area_ext. intros j Hj. apply V1. lia.
Qed.
(** clipping *)
Lemma clip_suppression limit percent c row : clip_row limit percent c row = (fst row, suppression limit percent c (Rabs (fst row)) * snd row).
Proof.
  unfold clip_row, suppression, clipped, Rleb. destruct row as [x f]. cbn [fst snd]. destruct (Rle_dec (Rabs x) (limit * percent)) as [H|H]; [f_equal; ring|].
  destruct (Rle_dec limit (Rabs x)); reflexivity.
Qed.
Lemma repeat_suppression n limit percent c rows : rows <> [] ->
  repeat_clip n limit percent c rows = Ok (map (fun p => (fst p, suppression limit percent c (Rabs (fst p)) ^ n * snd p)) rows).
Proof.
  revert rows. induction n as [|n IH]; intros rows Hr.
  - cbn [repeat_clip pow]. f_equal. rewrite <- (map_id rows) at 1. apply map_ext. intros [x f]. cbn. f_equal. ring.
  - cbn [repeat_clip]. unfold soft_clip. destruct rows as [|x rows]; [congruence|]. cbn [bind]. rewrite IH by discriminate. f_equal.
    rewrite map_map. apply map_ext. intros y. rewrite clip_suppression. cbn [fst snd pow]. f_equal. ring.
Qed.
Lemma products_nth u v i : (i < length u)%nat -> (i < length v)%nat -> nth i (products u v) 0 = nth i u 0 * nth i v 0.
Proof.
  revert v i. induction u as [|x u IH]; intros v i Hu Hv; [cbn in Hu; lia|]. destruct v as [|y v]; [cbn in Hv; lia|].
  destruct i as [|i]; [reflexivity|]. cbn. apply IH; cbn in *; lia.
Qed.
Lemma products_length u v : length (products u v) = Nat.min (length u) (length v).
Proof. unfold products. rewrite map_length, combine_length. reflexivity. Qed.
Lemma nth_list_ext (u v : list R) : length u = length v -> (forall i, (i < length u)%nat -> nth i u 0 = nth i v 0) -> u = v.
Proof. intros H1 H2. apply (nth_ext u v 0 0 H1 H2). Qed.
Lemma skipn_nth n (l : list R) i : nth i (skipn n l) 0 = nth (n + i) l 0.
Proof. revert l. induction n as [|n IH]; intros l; [reflexivity|]. destruct l as [|x l]; [destruct i; reflexivity|]. cbn. apply IH. Qed.
Section Source.
Context (emd : decomposition) (a : source_args) (s : rrel) (m : nat) (Hk : keeps_length emd) (Hs : exact_rel s m) (Hm : (4 <= m)%nat).
Notation d := (a_sample (r_x s)).
Lemma pass_values limit window rows cnt nd : r_x window = source_time s -> exact_rel window (m - 2) -> length rows = (m - 1)%nat ->
  correction_round emd (so_mass a) limit (so_percent a) (so_coefficient a) (source_time s) window rows cnt = Ok nd ->
  passed emd d (so_mass a) (r_y window) (map (fun p => suppression limit (so_percent a) (so_coefficient a cnt) (Rabs (fst p)) ^ cnt * snd p) rows) (r_y nd).
Proof.
  intros Hxw Hw Hr E. unfold correction_round in E.
  rewrite repeat_suppression in E by (intros E0; rewrite E0 in Hr; cbn in Hr; lia). cbn [bind] in E. rewrite map_map in E. cbn [snd] in E.
  set (f := map (fun p : R * R => suppression limit (so_percent a) (so_coefficient a cnt) (Rabs (fst p)) ^ cnt * snd p) rows) in *.
  assert (Hf' : length f = (m - 1)%nat) by (unfold f; rewrite map_length; exact Hr).
  assert (Hx : exact_span (a_start (source_time s)) (a_end (source_time s)) (a_sample (source_time s)) (m - 2)) by (rewrite <- Hxw; apply Hw).
  rewrite (rel_make_eq (V:=RV) (source_time s) f) in E.
  2:{ rewrite (axis_size_exact _ _ Hx). f_equal. change (val RV) with R. rewrite Hf'. lia. }
  cbn [bind] in E. set (force := mkRel (A:=RA) (V:=RV) (source_time s) f) in *.
  assert (Hf : exact_rel force (S (S (m - 4)))).
  { replace (S (S (m - 4))) with (m - 2)%nat by lia. split; [exact Hx|]. unfold force. cbn [r_y]. change (val RV) with R. rewrite Hf'. lia. }
  destruct (displacement_values (so_mass a) force (m - 4) Hf) as (D & Ed & Xd & HD & VD). rewrite Ed in E. cbn [bind] in E.
  destruct (first_exact emd D (m - 4) Hk HD) as (i & Ei & Xi & Hi & others & Eo). rewrite Ei in E. cbn [bind] in E.
  destruct (mul_exact i window (m - 4) 2 Hi) as (nd' & En & Xn & Hn & Z1 & Z2).
  { replace (2 + (m - 4))%nat with (m - 2)%nat by lia. exact Hw. }
  { rewrite Xi, Xd, Hxw. reflexivity. }
  { rewrite Xi, Xd, Hxw. cbn [a_start a_sample force r_x INR]. rr. lra. }
  rewrite En in E. injection E as <-. exists (r_y D), (r_y i), others. split; [exact VD|]. split; [exact Eo|].
  destruct Hi as [_ Li]. destruct Hw as [_ Lw]. destruct Hn as [_ Ln]. change (val RV) with R in *.
  apply nth_list_ext.
  - rewrite Ln. cbn [length]. rewrite products_length, skipn_length, Li, Lw. lia.
  - intros k Hk'. destruct k as [|[|k]]; [apply Z1; lia|apply Z1; lia|]. cbn [nth]. rewrite Ln in Hk'.
    rewrite products_nth by (rewrite ?skipn_length; lia). change (S (S k)) with (2 + k)%nat. rewrite Z2 by lia. f_equal.
    symmetry. apply skipn_nth.
Qed.
Lemma source_values fuel p r : get_correction_for_source emd a fuel s = Ok (Some (p, r)) ->
  exists w D i o nd, source_window a s = Ok (mkRel (A:=RA) (V:=RV) (source_time s) w) /\ displaces d (so_mass a) (r_y s) D /\ emd D = Ok (i :: o) /\
    corrected a s m nd r /\
    match so_limits a with
    | None => p = 0%nat /\ r_y nd = products i w
    | Some limit => (1 <= p)%nat /\
        passed emd d (so_mass a) w (suppressed limit (so_percent a) (so_coefficient a p) p (products i w) (butlast (tl (r_y s)))) (r_y nd) /\
        ((forall y, In y (r_y nd) -> Rabs y < limit) \/ match so_iterations a with Some k => (k <= Z.of_nat p)%Z | None => False end) /\
        forall c, (1 <= c < p)%nat -> (match so_iterations a with Some k => (Z.of_nat c < k)%Z | None => True end) /\ exists ndc,
          passed emd d (so_mass a) w (suppressed limit (so_percent a) (so_coefficient a c) c (products i w) (butlast (tl (r_y s)))) ndc /\
          exists y, In y ndc /\ limit <= Rabs y
    end.
Proof.
  unfold get_correction_for_source. destruct (window_exact a s m Hs Hm) as (w & Ew & Xw & Hw & _). rewrite Ew. cbn [bind].
  assert (Hs' : exact_rel s (S (S (m - 2)))) by (replace (S (S (m - 2))) with m by lia; exact Hs).
  destruct (displacement_values (so_mass a) s (m - 2) Hs') as (D & Ed & Xd & Hd & VD). rewrite Ed. cbn [bind].
  destruct (first_exact emd D (m - 2) Hk Hd) as (i & Ei & Xi & Hi & o & Eo). rewrite Ei. cbn [bind].
  destruct (mul_exact i w (m - 2) 0 Hi) as (imf & Em & Xm & Him & _ & Zv).
  { exact Hw. } { rewrite Xi, Xd, Xw. reflexivity. } { rewrite Xi, Xd, Xw. cbn [INR source_time set_start a_start a_sample RA n_add n_mul n_of_Z]. rr. lra. }
  rewrite Em. cbn [bind]. rewrite Xw in Xm. cbn [Nat.add] in Him, Zv.
  assert (Hl1 : length (r_y imf) = (m - 1)%nat) by (destruct Him as [_ H]; etransitivity; [exact H|lia]).
  assert (Hl2 : length (butlast (tl (r_y s))) = (m - 1)%nat) by (destruct Hs as [_ H]; etransitivity; [apply inner_len|]; change (val RV) with R in *; lia).
  change (val RV) with R in *. rewrite Hl1, Hl2, Nat.eqb_refl. cbn [negb].
  assert (Ep : r_y imf = products (r_y i) (r_y w)).
  { destruct Hi as [_ Li]. destruct Hw as [_ Lw]. change (val RV) with R in *. apply nth_list_ext; [rewrite products_length; lia|].
    intros k Hk'. rewrite products_nth by lia. apply Zv. lia. }
  assert (Ew' : Ok w = Ok (mkRel (A:=RA) (V:=RV) (source_time s) (r_y w))) by (rewrite <- Xw; destruct w; reflexivity).
  match goal with |- context [combine ?x ?y] => set (rows := combine x y) end.
  assert (Hrows : length rows = (m - 1)%nat) by (unfold rows; rewrite combine_length; change (val RV) with R in *; lia).
  destruct (so_limits a) as [limit|].
  2:{ cbn [bind]. destruct (corrected_ok a s m Hm imf Xm Him) as (r' & Er & Hr). rewrite Er. cbn [bind]. intros E. injection E as <- <-.
      exists (r_y w), (r_y D), (r_y i), o, imf. repeat split; auto; try apply Hr; try apply VD. }
  match goal with |- context [correction_loop ?x] => set (pass := x) end.
  assert (Hpass : forall c nd, pass c = Ok nd -> r_x nd = source_time s /\ exact_rel nd (m - 2) /\
    passed emd d (so_mass a) (r_y w) (suppressed limit (so_percent a) (so_coefficient a c) c (products (r_y i) (r_y w)) (butlast (tl (r_y s)))) (r_y nd)).
  { intros c nd E. destruct (pass_exact emd a s m Hk Hm limit w rows c Xw Hw Hrows) as (nd' & H1 & H2 & H3 & _). change (pass c = Ok nd') in H1. rewrite H1 in E.
    injection E as <-. split; [exact H2|]. split; [exact H3|]. unfold suppressed. rewrite <- Ep. exact (pass_values limit w rows c nd' Xw Hw Hrows H1). }
  destruct (correction_loop pass limit (so_iterations a) fuel 0) as [[[q nd]|]|e] eqn:El; cbn [bind]; try discriminate.
  apply loop_some in El. destruct El as (H1 & H2 & H3 & H4). destruct (Hpass q nd H2) as (P1 & P2 & P3).
  destruct (corrected_ok a s m Hm nd P1 P2) as (r' & Er & Hr). rewrite Er. cbn [bind]. intros E. injection E as <- <-.
  exists (r_y w), (r_y D), (r_y i), o, nd. split; [exact Ew'|]. split; [exact VD|]. split; [exact Eo|]. split; [exact Hr|].
  split; [lia|]. split; [exact P3|]. split; [exact H3|]. intros c Hc. destruct (H4 c ltac:(lia)) as (ndc & G1 & G2 & G3).
  split; [unfold out_of_passes in G3; destruct (so_iterations a) as [k|]; [lia|exact I]|].
  exists (r_y ndc). split; [apply (Hpass c ndc G1)|].
  destruct (existsb (fun y => Rleb limit (Rabs y)) (r_y ndc)) eqn:Eb.
  - apply existsb_exists in Eb. destruct Eb as (y & Hy & Hb). exists y. split; [exact Hy|]. apply Rleb_true. exact Hb.
  - exfalso. apply G2. intros y Hy. apply Rnot_le_lt. intros Hle.
    assert (existsb (fun y => Rleb limit (Rabs y)) (r_y ndc) = true) by (apply existsb_exists; exists y; split; [exact Hy|apply Rleb_true; exact Hle]). congruence.
Qed.
End Source.
(** *** correct_sweep *)
Section Correct.
Context (emd : decomposition) (s : rrel) (m : nat) (Hk : keeps_length emd) (Hs : exact_rel s m) (Hm : (4 <= m)%nat).
Notation d := (a_sample (r_x s)).
Definition shown (u : list R) (r : rrel) : Prop :=
  r_x r = mkAxis (A:=RA) (a_start (r_x s) + 3 * d) (a_end (r_x s) - d) d /\ bends d u (r_y r).
Lemma twice_diff nd : r_x nd = source_time s -> exact_rel nd (m - 2) ->
  exists r, (do a <- rel_diff RA RV DRC nd; rel_diff RA RV DRC a) = Ok r /\ shown (r_y nd) r.
Proof.
  intros Hx He. assert (He' : exact_rel nd (S (S (m - 4)))) by (replace (S (S (m - 4))) with (m - 2)%nat by lia; exact He).
  destruct (exact_le _ _ He') as [Hd _].
  destruct (diff_exact _ _ He') as (r1 & E1 & X1 & H1 & V1). rewrite E1. cbn [bind].
  destruct (diff_exact _ _ H1) as (r2 & E2 & X2 & H2 & V2). exists r2. split; [exact E2|].
  assert (Sx : a_sample (r_x nd) = d) by (rewrite Hx; reflexivity). split.
  - rewrite X2, X1, Hx. apply axis_eq; cbn [diff_axis source_time set_start a_start a_end a_sample RA n_add n_mul n_of_Z]; try reflexivity; rr; lra.
  - destruct H2 as [_ L2]. destruct He' as [_ L0]. change (val RV) with R in *. split; [rewrite L2, L0; lia|]. intros i Hi. rewrite V2 by lia. rewrite !V1 by lia.
    rewrite X1. cbn [diff_axis a_sample]. rewrite Sx in *. field. lra.
Qed.
Lemma double_integral : exists D, (do i <- rel_integrate RA RV DRC s; rel_integrate RA RV DRC i) = Ok D /\ r_x D = source_time s /\ exact_rel D (m - 2) /\
  displaces d 1 (r_y s) (r_y D).
Proof.
  assert (Hs' : exact_rel s (S (S (m - 2)))) by (replace (S (S (m - 2))) with m by lia; exact Hs).
  destruct (int_values _ _ Hs') as (r1 & E1 & X1 & H1 & V1). rewrite E1. cbn [bind].
  destruct (int_values _ _ H1) as (r2 & E2 & X2 & H2 & V2). exists r2. split; [exact E2|]. split; [|split; [exact H2|]].
  - rewrite X2, X1. apply axis_eq; cbn [int_axis source_time set_start a_start a_end a_sample RA n_add n_mul n_of_Z]; try reflexivity. rr. lra.
  - destruct Hs' as [_ Le]. destruct H2 as [_ L2]. change (val RV) with R in *. split; [rewrite L2, Le; lia|].
    intros i Hi. rewrite V2 by lia. rewrite X1. cbn [int_axis a_sample]. unfold Rdiv. rewrite Rinv_1, Rmult_1_r.
    apply area_ext. intros j Hj. apply V1. lia.
Qed.
Notation times := (arith_seq (a_start (r_x s) + 2 * d) d (m - 1)).
Lemma correct_unfold sw : exists D i o, displaces d 1 (r_y s) D /\ emd D = Ok (i :: o) /\ exact_rel (mkRel (A:=RA) (V:=RV) (source_time s) i) (m - 2) /\
  correct_sweep emd sw s =
    (do nd <- (match sw with
               | Some tw => do win <- tukey_a_t times (Some tw) LocLeft;
                   do ws <- rel_init RA RV DRC (XSeq (mkSeq (A:=RA) true times)) (Some win);
                   rel_op RA RV DRC MUL false (mkRel (A:=RA) (V:=RV) (source_time s) i) ws
               | None => Ok (mkRel (A:=RA) (V:=RV) (source_time s) i) end);
     do a <- rel_diff RA RV DRC nd; rel_diff RA RV DRC a).
Proof.
  destruct double_integral as (D & ED & XD & HD & VD). unfold correct_sweep.
  destruct (rel_integrate RA RV DRC s) as [i1|e]; [|discriminate]. cbn [bind] in ED |- *. rewrite ED. cbn [bind].
  pose proof HD as [HxD LD]. rewrite (axis_array_size _ _ (axis_size_exact _ _ HxD)). cbn [bind].
  destruct (first_exact emd D (m - 2) Hk HD) as (i & Ei & Xi & Hi & o & Eo). rewrite Ei. cbn [bind].
  assert (Eg : grid (a_start (r_x D)) (a_end (r_x D)) (m - 2 + 1) = times).
  { replace (m - 2 + 1)%nat with (m - 1)%nat by lia. rewrite XD in *.
    assert (Ee : a_end (source_time s) = a_start (r_x s) + 2 * d + INR (m - 1 - 1) * d).
    { destruct HxD as [_ He]. replace (m - 1 - 1)%nat with (m - 2)%nat by lia. cbn [source_time set_start a_start a_end a_sample RA n_add n_mul n_of_Z] in He |- *. rr. lra. }
    rewrite Ee. apply grid_arith. lia. }
  assert (Ei' : i = mkRel (A:=RA) (V:=RV) (source_time s) (r_y i)) by (rewrite <- XD, <- Xi; destruct i; reflexivity).
  exists (r_y D), (r_y i), o. split; [exact VD|]. split; [exact Eo|]. rewrite <- Ei'. split; [exact Hi|]. rewrite Eg. reflexivity.
Qed.
Lemma times_length : length times = (m - 1)%nat.
Proof. unfold arith_seq. rewrite map_length, seq_length. reflexivity. Qed.
Lemma times_ne : times <> [].
Proof. intros E. pose proof times_length as H. rewrite E in H. cbn in H. lia. Qed.
Lemma correct_plain : exists D i o r, displaces d 1 (r_y s) D /\ emd D = Ok (i :: o) /\ correct_sweep emd None s = Ok r /\ shown i r.
Proof.
  destruct (correct_unfold None) as (D & i & o & HD & Ho & Hi & ->). cbn [bind].
  destruct (twice_diff (mkRel (A:=RA) (V:=RV) (source_time s) i) eq_refl Hi) as (r & Er & Hr). exists D, i, o, r. auto.
Qed.
Lemma correct_window tw : nice_spacing d -> exists D i o w r, displaces d 1 (r_y s) D /\ emd D = Ok (i :: o) /\
  tukey_a_t times (Some tw) LocLeft = Ok w /\ correct_sweep emd (Some tw) s = Ok r /\ shown (products i w) r.
Proof.
  intros Hn. destruct (correct_unfold (Some tw)) as (D & i & o & HD & Ho & Hi & ->).
  destruct (tukey_a_t_bounds times (Some tw) LocLeft (fun _ => times_ne)) as (w & Ew & Lw & _). rewrite times_length in Lw.
  rewrite Ew. cbn [bind].
  assert (Hd : 0 < d) by apply (proj1 (exact_le _ _ Hs)).
  destruct (axis_of_array_exact (a_start (r_x s) + 2 * d) d (m - 1) true true ltac:(lia) ltac:(lra)) as (ax & Ea & _ & Sa).
  { right. right. destruct Hn as [H|(k & H1 & H2)]; [left; exact H|right; exists k; split; [lia|exact H2]]. }
  unfold rel_init. cbn [default_config c_axis_from_array]. rewrite Ea. cbn [bind].
  rewrite axis_of_arith in Ea by lia. cbn [andb] in Ea. destruct (round_sample RA d) as [d'|e]; cbn [bind] in Ea; [|discriminate].
  injection Ea as <-. cbn [a_sample] in Sa. subst d'.
  set (wx := mkAxis (A:=RA) (a_start (r_x s) + 2 * d) (a_start (r_x s) + 2 * d + INR (m - 1 - 1) * d) d).
  assert (Hwx : exact_span (a_start wx) (a_end wx) (a_sample wx) (m - 2)).
  { split; [exact Hd|]. unfold wx. cbn [a_start a_end a_sample]. replace (m - 1 - 1)%nat with (m - 2)%nat by lia. ring. }
  rewrite (rel_make_eq (V:=RV) wx w) by (rewrite (axis_size_exact _ _ Hwx); f_equal; change (val RV) with R; lia). cbn [bind].
  destruct (mul_exact (mkRel (A:=RA) (V:=RV) (source_time s) i) (mkRel (A:=RA) (V:=RV) wx w) (m - 2) 0 Hi) as (nd & En & Xn & Hnd & _ & Zv).
  { split; [exact Hwx|]. cbn [r_y]. change (val RV) with R. lia. } { reflexivity. } { cbn [r_x wx a_start a_sample source_time set_start INR RA n_add n_mul n_of_Z]. rr. lra. }
  rewrite En. cbn [bind r_x Nat.add] in *.
  assert (Ex : r_x nd = source_time s).
  { rewrite Xn. unfold wx. destruct Hi as [[_ He] _]. cbn [r_x source_time set_start a_start a_end a_sample RA n_add n_mul n_of_Z] in He.
    replace (m - 1 - 1)%nat with (m - 2)%nat by lia.
    apply axis_eq; cbn [source_time set_start a_start a_end a_sample RA n_add n_mul n_of_Z]; try reflexivity. rr. lra. }
  destruct (twice_diff nd Ex Hnd) as (r & Er & Hr). exists D, i, o, w, r. split; [exact HD|]. split; [exact Ho|]. split; [reflexivity|]. split; [exact Er|].
  replace (products i w) with (r_y nd); [exact Hr|]. destruct Hi as [_ Li]. destruct Hnd as [_ Ln]. cbn [r_y] in *. change (val RV) with R in *.
  apply nth_list_ext; [rewrite products_length; lia|]. intros k Hk'. rewrite products_nth by lia. apply Zv. lia.
Qed.
Lemma correct_rejected tw N : (forall n x0 (y : list R), (N <= n)%nat -> length y = n ->
    exists k, rel_init RA RV DRC (XSeq (mkSeq (A:=RA) true (arith_seq x0 d n))) (Some y) = Err (ENotEqual k n) /\ k <> n) ->
  (N <= m - 1)%nat -> exists k, correct_sweep emd (Some tw) s = Err (ENotEqual k (m - 1)) /\ k <> (m - 1)%nat.
Proof.
  intros HN Hle. destruct (correct_unfold (Some tw)) as (D & i & o & HD & Ho & Hi & ->).
  destruct (tukey_a_t_bounds times (Some tw) LocLeft (fun _ => times_ne)) as (w & Ew & Lw & _). rewrite times_length in Lw.
  rewrite Ew. cbn [bind]. destruct (HN (m - 1)%nat (a_start (r_x s) + 2 * d) w Hle Lw) as (k & E & Hne). rewrite E. exists k. split; [reflexivity | exact Hne].
Qed.
End Correct.
(** the decomposition into the data alone *)
Lemma displaced_bends d s D i : 0 < d -> displaces d 1 s D -> (S (S i) < length D)%nat ->
  (nth (S (S i)) D 0 - 2 * nth (S i) D 0 + nth i D 0) / (d * d) = (nth (i + 2) s 0 + 2 * nth (i + 3) s 0 + nth (i + 4) s 0) / 4.
Proof.
  intros Hd [Hl H] Hi. rewrite !H by lia. unfold area. cbn [tsum]. replace (i + 2)%nat with (S (S i)) by lia. replace (i + 3)%nat with (S (S (S i))) by lia.
  replace (i + 4)%nat with (S (S (S (S i)))) by lia. field. lra.
Qed.
