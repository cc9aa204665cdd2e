(** Lemmas on the result of the correction for a source, and on the shuffled frequency law. *)
From Coq Require Import Reals ZArith List Bool Lia Lra Permutation.
From Coquelicot Require Import Complex.
From Verif Require Import Num Numpy AxisModel RelModel HeapModel Spec RLemmas AxisLemmas InterpLemmas VInst RelLemmas RelLemmas2 RelLemmas3
  FourierModel SweepModel PreparedModel PreparedSpec PreparedLemmas PreparedLemmas2 PreparedLemmas4 PreparedLemmas5.
Import ListNotations.
Local Open Scope R_scope.

Lemma soft_clip_len n limit percent c rows : rows <> [] -> exists r, repeat_clip n limit percent c rows = Ok r /\ length r = length rows.
Proof.
  revert rows. induction n as [|n IH]; intros rows Hr; [exists rows; split; reflexivity|]. cbn [repeat_clip].
  unfold soft_clip. destruct rows as [|x rows]; [congruence|]. cbn [bind].
  destruct (IH (map (clip_row limit percent c) (x :: rows)) ltac:(discriminate)) as (r & E1 & E2). exists r. split; [exact E1|].
  rewrite E2. apply map_length.
Qed.

Lemma inner_len (l : list R) : length (butlast (tl l)) = (length l - 2)%nat.
Proof. unfold butlast. rewrite firstn_length. destruct l; cbn; lia. Qed.
Section Source.
Context (emd : decomposition) (a : source_args) (s : rrel) (m : nat) (Hk : keeps_length emd) (Hs : exact_rel s m) (Hm : (4 <= m)%nat).
(** one pass *)
Lemma pass_exact limit window rows cnt : r_x window = source_time s -> exact_rel window (m - 2) -> length rows = (m - 1)%nat ->
  exists nd, correction_round emd (so_mass a) limit (so_percent a) (so_coefficient a) (source_time s) window rows cnt = Ok nd /\
    r_x nd = source_time s /\ exact_rel nd (m - 2) /\ nth 0 (r_y nd) 0 = 0 /\ nth 1 (r_y nd) 0 = 0 /\
    exists d imf others, emd d = Ok (imf :: others) /\ length d = (m - 3)%nat /\ length imf = (m - 3)%nat /\
      forall i, (i <= m - 4)%nat -> nth (2 + i) (r_y nd) 0 = nth i imf 0 * nth (2 + i) (r_y window) 0.
Proof.
  intros Hxw Hw Hr. unfold correction_round.
  destruct (soft_clip_len cnt limit (so_percent a) (so_coefficient a cnt) rows) as (res & E1 & E2).
  { intros E. rewrite E in Hr. cbn in Hr. lia. }
  rewrite E1. cbn [bind].
  assert (Hx : exact_span (a_start (source_time s)) (a_end (source_time s)) (a_sample (source_time s)) (m - 2)) by (rewrite <- Hxw; apply Hw).
  rewrite (rel_make_eq (V:=RV) (source_time s) (map snd res)).
  2:{ rewrite (axis_size_exact _ _ Hx). f_equal. rewrite map_length. rewrite E2, Hr. lia. }
  cbn [bind]. set (force := mkRel (A:=RA) (V:=RV) (source_time s) (map snd res)).
  assert (Hf : exact_rel force (S (S (m - 4)))).
  { replace (S (S (m - 4))) with (m - 2)%nat by lia. split; [exact Hx|]. unfold force. cbn [r_y]. etransitivity; [apply map_length|]. rewrite E2, Hr. lia. }
  destruct (displacement_exact (so_mass a) force (m - 4) Hf) as (d & Ed & Xd & Hd). rewrite Ed. cbn [bind].
  destruct (first_exact emd d (m - 4) Hk Hd) as (i & Ei & Xi & Hi & others & Eo). rewrite Ei. cbn [bind].
  destruct (mul_exact i window (m - 4) 2 Hi) as (nd & En & Xn & Hn & Z1 & Z2).
  { replace (2 + (m - 4))%nat with (m - 2)%nat by lia. exact Hw. }
  { rewrite Xi, Xd, Hxw. reflexivity. }
  { rewrite Xi, Xd, Hxw. cbn [a_start a_sample force r_x INR]. rr. lra. }
  exists nd. split; [exact En|]. split; [rewrite Xn; exact Hxw|]. split; [replace (m - 2)%nat with (2 + (m - 4))%nat by lia; exact Hn|].
  split; [apply Z1; lia|]. split; [apply Z1; lia|]. exists (r_y d), (r_y i), others. split; [exact Eo|].
  split; [destruct Hd as [_ Hd]; etransitivity; [exact Hd|lia]|]. split; [destruct Hi as [_ Hi]; etransitivity; [exact Hi|lia]|]. exact Z2.
Qed.
Definition corrected (nd r : rrel) : Prop :=
  r_x r = mkAxis (A:=RA) (a_start (r_x s) + 3 * a_sample (r_x s)) (a_end (r_x s) - a_sample (r_x s)) (a_sample (r_x s)) /\
  length (r_y r) = (m - 3)%nat /\ length (r_y nd) = (m - 1)%nat /\
  forall i, (i <= m - 4)%nat -> nth i (r_y r) 0 =
    (nth (S (S i)) (r_y nd) 0 - 2 * nth (S i) (r_y nd) 0 + nth i (r_y nd) 0) / (a_sample (r_x s) * a_sample (r_x s)) * so_mass a.
Lemma corrected_ok nd : r_x nd = source_time s -> exact_rel nd (m - 2) -> exists r, second_difference (so_mass a) nd = Ok r /\ corrected nd r.
Proof.
  intros Hx He. destruct (second_exact (so_mass a) nd (m - 4)) as (r & E1 & X1 & H1 & V1).
  { replace (S (S (m - 4))) with (m - 2)%nat by lia. exact He. }
  exists r. split; [exact E1|]. rewrite Hx in *. split; [|split; [|split]].
  - rewrite X1. apply axis_eq; cbn [source_time set_start a_start a_end a_sample]; try reflexivity. cbn [RA n_add n_mul n_of_Z]. rr. lra.
  - destruct H1 as [_ H1]. etransitivity; [exact H1|lia].
  - destruct He as [_ He]. etransitivity; [exact He|lia].
  - exact V1.
Qed.

(** everything about the result *)
Lemma source_result fuel : exists out, get_correction_for_source emd a fuel s = Ok out /\
  match out with
  | None => exists limit, so_limits a = Some limit /\ ((fuel = 0)%nat \/ match so_iterations a with Some k => (Z.of_nat fuel < k)%Z | None => True end)
  | Some (p, r) => (p <= fuel)%nat /\ exists nd, corrected nd r /\
      match so_limits a with
      | None => p = 0%nat
      | Some limit => (1 <= p)%nat /\ nth 0 (r_y nd) 0 = 0 /\ nth 1 (r_y nd) 0 = 0 /\
          ((forall y, In y (r_y nd) -> Rabs y < limit) \/ match so_iterations a with Some k => (k <= Z.of_nat p)%Z | None => False end) /\
          match so_iterations a with Some k => (Z.of_nat p <= Z.max 1 k)%Z | None => True end
      end
  end.
Proof.
  unfold get_correction_for_source. destruct (window_exact a s m Hs Hm) as (w & Ew & Xw & Hw & _). rewrite Ew. cbn [bind].
  assert (Hs' : exact_rel s (S (S (m - 2)))) by (replace (S (S (m - 2))) with m by lia; exact Hs).
  destruct (displacement_exact (so_mass a) s (m - 2) Hs') as (d & Ed & Xd & Hd). rewrite Ed. cbn [bind].
  destruct (first_exact emd d (m - 2) Hk Hd) as (i & Ei & Xi & Hi & _). rewrite Ei. cbn [bind].
  destruct (mul_exact i w (m - 2) 0 Hi) as (imf & Em & Xm & Him & _).
  { exact Hw. } { rewrite Xi, Xd, Xw. reflexivity. } { rewrite Xi, Xd, Xw. cbn [INR source_time set_start a_start a_sample RA n_add n_mul n_of_Z]. rr. lra. }
  rewrite Em. cbn [bind]. rewrite Xw in Xm. cbn [Nat.add] in Him.
  assert (Hl1 : length (r_y imf) = (m - 1)%nat) by (destruct Him as [_ H]; etransitivity; [exact H|lia]).
  assert (Hl2 : length (butlast (tl (r_y s))) = (m - 1)%nat) by (destruct Hs as [_ H]; etransitivity; [apply inner_len|]; change (val RV) with R in *; lia).
  change (val RV) with R in *. rewrite Hl1, Hl2, Nat.eqb_refl. cbn [negb].
  match goal with |- context [combine ?x ?y] => set (rows := combine x y) end.
  assert (Hrows : length rows = (m - 1)%nat) by (unfold rows; rewrite combine_length; change (val RV) with R in *; lia).
  destruct (so_limits a) as [limit|].
  2:{ cbn [bind]. destruct (corrected_ok imf Xm Him) as (r & Er & Hr). rewrite Er. cbn [bind]. eexists. split; [reflexivity|]. cbn.
      split; [lia|]. exists imf. split; [exact Hr | reflexivity]. }
  match goal with |- context [correction_loop ?x] => set (pass := x) end.
  assert (Hpass : forall c, exists nd, pass c = Ok nd /\ r_x nd = source_time s /\ exact_rel nd (m - 2) /\ nth 0 (r_y nd) 0 = 0 /\ nth 1 (r_y nd) 0 = 0).
  { intros c. destruct (pass_exact limit w rows c Xw Hw Hrows) as (nd & H1 & H2 & H3 & H4 & H5 & _). exists nd. auto. }
  destruct (correction_loop pass limit (so_iterations a) fuel 0) as [[[p nd]|]|e] eqn:El.
  - apply loop_some in El. destruct El as (H1 & H2 & H3 & H4). destruct (Hpass p) as (nd' & P1 & P2 & P3 & P4 & P5).
    rewrite H2 in P1. injection P1 as <-. cbn [bind]. destruct (corrected_ok nd P2 P3) as (r & Er & Hr). rewrite Er. cbn [bind].
    eexists. split; [reflexivity|]. cbn. split; [lia|]. exists nd. split; [exact Hr|]. split; [lia|]. split; [exact P4|]. split; [exact P5|].
    split; [destruct H3 as [H3|H3]; [left; exact H3 | right; exact H3]|].
    destruct (so_iterations a) as [k|]; [|exact I]. destruct (Nat.eq_dec p 1) as [->|Hp]; [lia|].
    destruct (H4 (p - 1)%nat ltac:(lia)) as (nd1 & _ & _ & Ho). cbn in Ho. lia.
  - cbn [bind]. eexists. split; [reflexivity|]. cbn. exists limit. split; [reflexivity|].
    destruct fuel as [|fuel]; [left; reflexivity|]. right. destruct (so_iterations a) as [k|] eqn:Ek; [|exact I].
    apply (proj1 (loop_none pass limit (Some k) (S fuel) 0)) with (j := S fuel) in El; [|lia].
    destruct El as (nd & _ & _ & Ho). cbn in Ho. lia.
  - apply loop_err in El. destruct El as (p & _ & H2 & _). destruct (Hpass p) as (nd & P1 & _). congruence.
Qed.
End Source.

(** no matter what the decomposition does *)
Lemma source_passes emd a s fuel k : so_iterations a = Some k -> (Z.max 1 k <= Z.of_nat fuel)%Z ->
  get_correction_for_source emd a fuel s <> Ok None /\
  forall p r, get_correction_for_source emd a fuel s = Ok (Some (p, r)) -> (Z.of_nat p <= Z.max 1 k)%Z /\ (so_limits a = None <-> p = 0%nat).
Proof.
  intros Hk Hf. unfold get_correction_for_source. rewrite Hk.
  destruct (source_window a s) as [w|e]; [|split; intros; discriminate]. cbn [bind].
  destruct (displacement_of (so_mass a) s) as [d|e]; [|split; intros; discriminate]. cbn [bind].
  destruct (first_imf emd d) as [i|e]; [|split; intros; discriminate]. cbn [bind].
  destruct (rel_op RA RV DRC MUL false i w) as [imf|e]; [|split; intros; discriminate]. cbn [bind].
  destruct (negb _); [split; intros; discriminate|].
  destruct (so_limits a) as [limit|].
  2:{ cbn [bind]. destruct (second_difference (so_mass a) imf) as [r|e]; [|split; intros; discriminate]. cbn [bind].
      split; [discriminate|]. intros p r' E. injection E as <- <-. split; [lia | tauto]. }
  match goal with |- context [correction_loop ?x] => set (pass := x) end.
  destruct (correction_loop pass limit (Some k) fuel 0) as [[[p nd]|]|e] eqn:El.
  - apply loop_some in El. destruct El as (H1 & _ & _ & H4). cbn [bind].
    destruct (second_difference (so_mass a) nd) as [r|e]; [|split; intros; discriminate]. cbn [bind]. split; [discriminate|].
    intros p' r' E. injection E as <- <-. split; [|split; [discriminate | lia]].
    destruct (Nat.eq_dec p 1) as [->|Hp]; [lia|]. destruct (H4 (p - 1)%nat ltac:(lia)) as (nd1 & _ & _ & Ho). cbn in Ho. lia.
  - exfalso. apply (proj1 (loop_none pass limit (Some k) fuel 0)) with (j := fuel) in El; [|lia].
    destruct El as (nd & _ & _ & Ho). cbn in Ho. lia.
  - cbn [bind]. split; intros; discriminate.
Qed.

(** with limit_iteration = None the loop need not end *)
Definition stubborn : decomposition := fun y => Ok [repeat 2 (length y)].
Lemma stubborn_keeps : keeps_length stubborn.
Proof. intros y _. exists (repeat 2 (length y)), []. split; [reflexivity|]. intros z [<-|[]]. apply repeat_length. Qed.
Lemma source_runs_on a s m fuel : exact_rel s m -> (4 <= m)%nat -> so_limits a = Some 1 -> so_iterations a = None ->
  get_correction_for_source stubborn a fuel s = Ok None.
Proof.
  intros Hs Hm Hl Hi0. unfold get_correction_for_source. destruct (window_exact a s m Hs Hm) as (w & Ew & Xw & Hw & _ & Hone & _). rewrite Ew. cbn [bind].
  assert (Hs' : exact_rel s (S (S (m - 2)))) by (replace (S (S (m - 2))) with m by lia; exact Hs).
  destruct (displacement_exact (so_mass a) s (m - 2) Hs') as (d & Ed & Xd & Hd). rewrite Ed. cbn [bind].
  destruct (first_exact stubborn d (m - 2) stubborn_keeps Hd) as (i & Ei & Xi & Hi & _). rewrite Ei. cbn [bind].
  destruct (mul_exact i w (m - 2) 0 Hi) as (imf & Em & Xm & Him & _).
  { exact Hw. } { rewrite Xi, Xd, Xw. reflexivity. } { rewrite Xi, Xd, Xw. cbn [INR source_time set_start a_start a_sample RA n_add n_mul n_of_Z]. rr. lra. }
  rewrite Em. cbn [bind]. cbn [Nat.add] in Him.
  assert (Hl1 : length (r_y imf) = (m - 1)%nat) by (destruct Him as [_ H]; etransitivity; [exact H|lia]).
  assert (Hl2 : length (butlast (tl (r_y s))) = (m - 1)%nat) by (destruct Hs as [_ H]; etransitivity; [apply inner_len|]; change (val RV) with R in *; lia).
  change (val RV) with R in *. rewrite Hl1, Hl2, Nat.eqb_refl. cbn [negb].
  match goal with |- context [combine ?x ?y] => set (rows := combine x y) end.
  assert (Hrows : length rows = (m - 1)%nat) by (unfold rows; rewrite combine_length; change (val RV) with R in *; lia).
  rewrite Hl, Hi0. match goal with |- context [correction_loop ?x] => set (pass := x) end.
  assert (El : correction_loop pass 1 None fuel 0 = Ok None).
  { apply loop_none. intros j _. destruct (pass_exact stubborn a s m stubborn_keeps Hm 1 w rows j Xw Hw Hrows) as (nd & H1 & _ & Hn & _ & _ & d1 & f & o & E1 & E2 & E3 & E4).
    exists nd. split; [exact H1|]. split; [|tauto]. intros Hb. unfold below in Hb.
    injection E1 as <- <-. specialize (E4 (m - 4)%nat ltac:(lia)). replace (2 + (m - 4))%nat with (m - 2)%nat in E4 by lia.
    rewrite nth_repeat_lt in E4 by lia.
    assert (Hd2 : ((m - 1) / 2 <= m - 2)%nat) by (apply Nat.div_le_upper_bound; lia).
    pose proof (Hone (m - 2)%nat ltac:(lia)) as Ho1. change (val RV) with R in *. rewrite Ho1 in E4.
    assert (Hin : In (nth (m - 2) (r_y nd) 0) (r_y nd)) by (apply nth_In; destruct Hn as [_ Hn]; change (val RV) with R in *; lia).
    apply Hb in Hin. change (val RV) with R in *. rewrite E4 in Hin. rewrite Rabs_right in Hin; lra. }
  rewrite El. reflexivity.
Qed.
