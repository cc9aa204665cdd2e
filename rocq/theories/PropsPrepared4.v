(** Theorems about the sweep convolved with a code (C71), the displacements in the correction for a source (C72)
    and correct_sweep (C73). Notations as in PropsFourier.v. *)
From Coq Require Import Reals ZArith List Bool Lia Lra.
From Coquelicot Require Import Complex.
From Verif Require Import Num Numpy Spec AxisModel RelModel HeapModel RLemmas AxisLemmas VInst RelLemmas
  FourierSpec FourierModel DftLemmas FourierLemmas FourierLemmas2 SpectrumLemmas2 SweepModel PreparedModel PreparedSpec PreparedLemmas PreparedLemmas2 PreparedLemmas5 PreparedLemmas6 PreparedLemmas9 PreparedLemmas10 PropsFourier.
Import ListNotations.
Local Open Scope R_scope.

(** samples every [d] from time 0 on *)
Definition from_zero (d : R) (u : list R) : crel := content (ax 0 (INR (length u - 1) * d) d) (reals u).
Notation convolution_sweep := (get_convolution_sweep_and_code RA CV CF fourier_config).

(** ** C71 the sweep convolved with a code *)
(** the code as a list or as a relation *)
Definition is_code (d : R) (u : list R) (code : crel + list C) : Prop := code = inr (reals u) \/ code = inl (from_zero d u).
Theorem C71_convolution : forall d (u v : list R) code, 0 < d -> (2 <= length u)%nat -> (2 <= length v)%nat -> is_code d u code ->
  let n := Nat.max (length u) (length v) in
  let L := Nat.min (2 * n - 1) (n + length u) in
  exists w, convolution_sweep code (from_zero d v) =
      Ok (content (ax (- (INR (n - 1) * d)) (INR (L - 1) * d - INR (n - 1) * d) d) (reals w)) /\
    rotated_left (2 * Z.of_nat (n - 1) - Z.of_nat (length v - 1)) (map (convolved u v) (seq 0 L)) w.
Proof.
  intros d u v code Hd Hu Hv Hc. destruct Hc as [->| ->].
  - change (from_zero d v) with (at_zero d v). rewrite convolution_code; [apply convolution_relation; assumption|exact Hd|].
    intros ->; cbn in Hu; lia.
  - apply convolution_relation; assumption.
Qed.
Print Assumptions C71_convolution.
(** a code at least as long as the sweep: the k-th sample of the convolution stands [length v] places after the first
    time, past the last time it goes on at the first one *)
Theorem C71_long_code : forall d (u v : list R) code, 0 < d -> (2 <= length v <= length u)%nat -> is_code d u code ->
  let N := length u in
  exists w, convolution_sweep code (from_zero d v) = Ok (content (ax (- (INR (N - 1) * d)) (INR (N - 1) * d) d) (reals w)) /\
    length w = (2 * N - 1)%nat /\
    forall k, (k < 2 * N - 1)%nat -> nth ((k + length v) mod (2 * N - 1)) w 0 = convolved u v k.
Proof.
  intros d u v code Hd Hv Hc N. destruct (C71_convolution d u v code Hd ltac:(lia) ltac:(lia) Hc) as (w & E & Hl & Hr).
  rewrite Nat.max_l in E, Hl, Hr by lia. rewrite Nat.min_l in E, Hl, Hr by lia. rewrite map_length, seq_length in Hl, Hr. fold N in E, Hl, Hr.
  exists w. split; [|split; [exact Hl|]].
  - rewrite E. do 3 f_equal. replace (2 * N - 1 - 1)%nat with (N - 1 + (N - 1))%nat by (unfold N; lia). rewrite plus_INR. ring.
  - intros k Hk. pose proof (Nat.mod_upper_bound (k + length v) (2 * N - 1) ltac:(unfold N; lia)) as Hm. specialize (Hr _ Hm).
    apply nth_error_nth. rewrite Hr.
    assert (Ei : Z.to_nat ((Z.of_nat ((k + length v) mod (2 * N - 1)) + (2 * Z.of_nat (N - 1) - Z.of_nat (length v - 1))) mod Z.of_nat (2 * N - 1)) = k).
    { rewrite Nat2Z.inj_mod. rewrite Zplus_mod_idemp_l.
      replace (Z.of_nat (k + length v) + (2 * Z.of_nat (N - 1) - Z.of_nat (length v - 1)))%Z with (Z.of_nat k + 1 * Z.of_nat (2 * N - 1))%Z
        by (unfold N in *; lia).
      rewrite Z.mod_add by (unfold N; lia). rewrite Z.mod_small by lia. apply Nat2Z.id. }
    rewrite Ei, nth_error_map, (nth_error_nth' (seq 0 (2 * N - 1)) 0%nat) by (rewrite seq_length; exact Hk).
    cbn [option_map]. rewrite seq_nth by exact Hk. reflexivity.
Qed.
Print Assumptions C71_long_code.
(** only a code with exactly one element more than the sweep has samples begins its convolution at time 0: there the
    samples at the times 0, d, ... are those of the convolution, up to the length of the code *)
Theorem C71_in_place : forall d (u v : list R) code, 0 < d -> (2 <= length v)%nat -> length u = S (length v) -> is_code d u code ->
  exists w, convolution_sweep code (from_zero d v) = Ok (content (ax (- (INR (length v) * d)) (INR (length v) * d) d) (reals w)) /\
    forall k, (k < length u)%nat -> nth (length v + k) w 0 = convolved u v k.
Proof.
  intros d u v code Hd Hv Hu Hc. destruct (C71_long_code d u v code Hd ltac:(lia) Hc) as (w & E & Hl & Hr). exists w. split.
  - rewrite E. replace (length u - 1)%nat with (length v) by lia. reflexivity.
  - intros k Hk. rewrite <- (Hr k) by lia. rewrite Nat.mod_small by lia. f_equal. lia.
Qed.
Print Assumptions C71_in_place.
(** one element or none *)
Theorem C71_one_element : forall d (a : R) (v : list R) code, 0 < d -> is_code d [a] code -> convolution_sweep code (from_zero d v) = Err EValue.
Proof.
  intros d a v code Hd Hc. destruct Hc as [->| ->].
  - change (from_zero d v) with (at_zero d v). rewrite convolution_code by (auto; discriminate). apply convolution_single. exact Hd.
  - apply convolution_single. exact Hd.
Qed.
Print Assumptions C71_one_element.
Theorem C71_no_element : forall d (v : list R), 0 < d -> convolution_sweep (inr []) (from_zero d v) = Err (ENotEqual 2 0).
Proof. exact convolution_empty. Qed.
Print Assumptions C71_no_element.

(** evaluate a concrete rotation of a concrete convolution *)
Ltac places := split; [reflexivity|]; intros i Hi; cbn [length map seq] in Hi |- *;
  repeat (destruct i as [|i]; [vm_compute Z.to_nat; cbn [nth_error]; unfold convolved; cbn [tsum length Nat.ltb Nat.leb Nat.sub nth]; f_equal; lra|]); lia.

Example C71_case : convolution_sweep (inr (reals [1; 0; 0; 0])) (from_zero 1 [1; 2]) = Ok (content (ax (-3) 3 1) (reals [0; 0; 1; 2; 0; 0; 0])).
Proof.
  destruct (C71_convolution 1 [1; 0; 0; 0] [1; 2] (inr (reals [1; 0; 0; 0])) ltac:(lra) ltac:(cbn; lia) ltac:(cbn; lia) ltac:(left; reflexivity)) as (w & E & Hr).
  cbn [length Nat.max Nat.min Nat.mul Nat.add Nat.sub] in E, Hr. rewrite E.
  replace w with [0; 0; 1; 2; 0; 0; 0]; [do 3 f_equal; cbn [INR]; ring|]. symmetry. eapply rotated_unique; [exact Hr|].
  places.
Qed.
(** the code [1 0 0 0] repeats the sweep once, yet one sample before time 0 *)
Theorem C71_starts_at_zero_refuted : exists d (u v w : list R), 0 < d /\ (2 <= length v <= length u)%nat /\
  convolution_sweep (inr (reals u)) (from_zero d v) = Ok (content (ax (- (INR (length u - 1) * d)) (INR (length u - 1) * d) d) (reals w)) /\
  nth (length u - 1) w 0 <> convolved u v 0.
Proof.
  exists 1, [1; 0; 0; 0], [1; 2], [0; 0; 1; 2; 0; 0; 0]. split; [lra|]. split; [cbn; lia|]. split.
  - rewrite C71_case. do 3 f_equal; cbn [length Nat.sub INR]; ring.
  - unfold convolved. cbn [length Nat.sub tsum Nat.ltb Nat.leb nth]. lra.
Qed.
Print Assumptions C71_starts_at_zero_refuted.
(** a sweep longer than the code: its end is found before its beginning *)
Example C71_case_wraps : convolution_sweep (inr (reals [1; 1])) (from_zero 1 [1; 2; 3; 4]) = Ok (content (ax (-3) 2 1) (reals [7; 4; 0; 1; 3; 5])).
Proof.
  destruct (C71_convolution 1 [1; 1] [1; 2; 3; 4] (inr (reals [1; 1])) ltac:(lra) ltac:(cbn; lia) ltac:(cbn; lia) ltac:(left; reflexivity)) as (w & E & Hr).
  cbn [length Nat.max Nat.min Nat.mul Nat.add Nat.sub] in E, Hr. rewrite E.
  replace w with [7; 4; 0; 1; 3; 5]; [do 3 f_equal; cbn [INR]; ring|]. symmetry. eapply rotated_unique; [exact Hr|].
  places.
Qed.
Example C71_case_in_place : exists w, convolution_sweep (inr (reals [1; -1; 1])) (from_zero 1 [1; 2]) = Ok (content (ax (- (INR 2 * 1)) (INR 2 * 1) 1) (reals w)) /\
  skipn 2 w = [1; 1; -1].
Proof.
  destruct (C71_in_place 1 [1; -1; 1] [1; 2] (inr (reals [1; -1; 1])) ltac:(lra) ltac:(cbn; lia) eq_refl ltac:(left; reflexivity)) as (w & E & Hr).
  destruct (C71_long_code 1 [1; -1; 1] [1; 2] (inr (reals [1; -1; 1])) ltac:(lra) ltac:(cbn; lia) ltac:(left; reflexivity)) as (w' & E' & Hl & _).
  exists w. split; [exact E|]. cbn [length Nat.sub] in E', E, Hl. rewrite E in E'. injection E' as E'. unfold reals in E'.
  assert (Lw : length w = 5%nat) by (apply (f_equal (@length C)) in E'; rewrite !map_length in E'; cbn in Hl; lia).
  pose proof (Hr 0%nat ltac:(cbn; lia)) as H0. pose proof (Hr 1%nat ltac:(cbn; lia)) as H1. pose proof (Hr 2%nat ltac:(cbn; lia)) as H2.
  destruct w as [|a [|b [|c [|e [|f [|]]]]]]; try discriminate. cbn [length Nat.add nth] in H0, H1, H2. cbn [skipn]. rewrite H0, H1, H2.
  unfold convolved; cbn [tsum length Nat.ltb Nat.leb Nat.sub nth]. f_equal; [lra|f_equal; [lra|f_equal; lra]].
Qed.

(** ** C72 the displacements in the correction for a source *)
(** n = m+1 >= 5 samples on an exact axis, a decomposition into at least one component of the same length, [p] passes.
    [w] is the window, [D] the displacement under the force, [i] its first component. Without a limit the result is mass
    times the second difference of the windowed component. With one, pass c multiplies the inner samples of the force by
    the c-th power of the suppression of the windowed component, and takes the windowed first component of the
    displacement under that; all passes before the last found a sample not below the limit. *)
Theorem C72_displacements : forall (emd : decomposition) (a : source_args) (s : rrel) (m fuel p : nat) (r : rrel),
  keeps_length emd -> exact_rel s m -> (4 <= m)%nat -> get_correction_for_source emd a fuel s = Ok (Some (p, r)) ->
  let d := a_sample (r_x s) in
  let mass := so_mass a in
  exists w D i others nd, source_window a s = Ok (mkRel (A:=RA) (V:=RV) (source_time s) w) /\
    displaces d mass (r_y s) D /\ emd D = Ok (i :: others) /\
    r_x r = ax (a_start (r_x s) + 3 * d) (a_end (r_x s) - d) d /\ length (r_y r) = (m - 3)%nat /\ length nd = (m - 1)%nat /\
    (forall k, (k <= m - 4)%nat -> nth k (r_y r) 0 = (nth (S (S k)) nd 0 - 2 * nth (S k) nd 0 + nth k nd 0) / (d * d) * mass) /\
    match so_limits a with
    | None => p = 0%nat /\ nd = products i w
    | Some limit =>
        let force c := suppressed limit (so_percent a) (so_coefficient a c) c (products i w) (removelast (tl (r_y s))) in
        (1 <= p)%nat /\ passed emd d mass w (force p) nd /\
        ((forall y, In y nd -> Rabs y < limit) \/ match so_iterations a with Some k => (k <= Z.of_nat p)%Z | None => False end) /\
        forall c, (1 <= c < p)%nat -> (match so_iterations a with Some k => (Z.of_nat c < k)%Z | None => True end) /\
          exists ndc, passed emd d mass w (force c) ndc /\ exists y, In y ndc /\ limit <= Rabs y
    end.
Proof.
  intros emd a s m fuel p r Hk Hs Hm E d mass. destruct (source_values emd a s m Hk Hs Hm fuel p r E) as (w & D & i & o & nd & H1 & H2 & H3 & (C1 & C2 & C3 & C4) & H).
  exists w, D, i, o, (r_y nd). assert (Eb : butlast (tl (r_y s)) = removelast (tl (r_y s))) by (rewrite removelast_firstn_len; unfold butlast; f_equal; lia).
  rewrite Eb in H. repeat (split; [assumption|]). exact H.
Qed.
Print Assumptions C72_displacements.
(** how much one suppression with coefficient 1 changes the force: nothing up to limit*percent, upwards between that and
    the limit (factor times displacement stays under the limit), downwards beyond *)
Theorem C72_suppression : forall limit percent a, 0 < limit -> 0 <= percent <= 1 -> 0 <= a ->
  let k := suppression limit percent 1 a in
  0 < k /\ k * a <= limit /\ (a <= limit * percent -> k = 1) /\ (limit * percent < a < limit -> 1 < k) /\ (limit < a -> k < 1).
Proof.
  intros limit percent a Hl Hp Ha k. destruct (clip_factor limit percent Hl Hp a 1) as (k' & E & K1 & K2 & _ & K3 & K4 & K5).
  rewrite clip_suppression in E. cbn [fst snd] in E. injection E as E. rewrite (Rabs_right a) in * by lra. rewrite Rmax_left in K2 by lra.
  assert (Ek : k = k') by (unfold k; lra). rewrite Ek. auto.
Qed.
Print Assumptions C72_suppression.
(** the decomposition into the data itself, no limit, no window (it ends before the first displacement): a force of five
    samples gives one *)
Definition alone : decomposition := fun y => Ok [y].
Lemma alone_keeps : keeps_length alone.
Proof. intros y _. exists y, []. split; [reflexivity|]. intros z [<-|[]]. reflexivity. Qed.
Definition force5 : rrel := mkRel (A:=RA) (V:=RV) (ax 0 4 1) [0; 4; 8; 4; 0].
Lemma force5_exact : exact_rel force5 4.
Proof. split; [unfold exact_span; cbn; split; lra | reflexivity]. Qed.

(** ** C73 correct_sweep *)
(** n = m+1 >= 5 samples on an exact axis: the second difference of the first component of the displacement *)
Theorem C73_plain : forall (emd : decomposition) (s : rrel) (m : nat), keeps_length emd -> exact_rel s m -> (4 <= m)%nat ->
  let d := a_sample (r_x s) in
  exists D i others r, displaces d 1 (r_y s) D /\ emd D = Ok (i :: others) /\ correct_sweep emd None s = Ok r /\
    r_x r = ax (a_start (r_x s) + 3 * d) (a_end (r_x s) - d) d /\ bends d i (r_y r).
Proof. intros emd s m Hk Hs Hm. exact (correct_plain emd s m Hk Hs Hm). Qed.
Print Assumptions C73_plain.
(** with a start window, for a sample that is whole or the reciprocal of a whole number *)
Theorem C73_window : forall (emd : decomposition) (s : rrel) (m : nat) (tw : R), keeps_length emd -> exact_rel s m -> (4 <= m)%nat ->
  let d := a_sample (r_x s) in nice_spacing d ->
  exists D i others w r, displaces d 1 (r_y s) D /\ emd D = Ok (i :: others) /\
    tukey_a_t (arith_seq (a_start (r_x s) + 2 * d) d (m - 1)) (Some tw) LocLeft = Ok w /\ correct_sweep emd (Some tw) s = Ok r /\
    r_x r = ax (a_start (r_x s) + 3 * d) (a_end (r_x s) - d) d /\ bends d (products i w) (r_y r).
Proof. intros emd s m tw Hk Hs Hm d Hn. exact (correct_window emd s m Hk Hs Hm tw Hn). Qed.
Print Assumptions C73_window.
(** for any other sample, long signals are rejected *)
Theorem C73_window_rejected : forall d, 0 < d -> ~ nice_spacing d -> exists N, forall (emd : decomposition) (s : rrel) (m : nat) (tw : R),
  keeps_length emd -> exact_rel s m -> a_sample (r_x s) = d -> (N <= m)%nat ->
  exists k, correct_sweep emd (Some tw) s = Err (ENotEqual k (m - 1)) /\ k <> (m - 1)%nat.
Proof.
  intros d Hd Hn. destruct (rel_init_long_fails RV d Hd Hn) as (N & HN). exists (N + 4)%nat. intros emd s m tw Hk Hs Ed Hm. subst d.
  apply (correct_rejected emd s m Hk Hs ltac:(lia) tw N HN). lia.
Qed.
Print Assumptions C73_window_rejected.
(** a displacement that decomposes into itself alone: each sample is replaced by its mean with its neighbours *)
Theorem C73_alone : forall (s : rrel) (m : nat), exact_rel s m -> (4 <= m)%nat -> exists r, correct_sweep alone None s = Ok r /\ length (r_y r) = (m - 3)%nat /\
  forall i, (i <= m - 4)%nat -> nth i (r_y r) 0 = (nth (i + 2) (r_y s) 0 + 2 * nth (i + 3) (r_y s) 0 + nth (i + 4) (r_y s) 0) / 4.
Proof.
  intros s m Hs Hm. destruct (C73_plain alone s m alone_keeps Hs Hm) as (D & i & o & r & HD & Ho & E & _ & Hl & Hr). injection Ho as <- _.
  pose proof Hs as [[Hd _] Ls]. pose proof HD as [LD _]. change (val RV) with R in *. exists r. split; [exact E|]. split; [rewrite Hl, LD, Ls; lia|].
  intros i Hi. rewrite Hr by (rewrite Hl, LD, Ls; lia). apply displaced_bends; auto. rewrite LD, Ls. lia.
Qed.
Print Assumptions C73_alone.
(** "subtracts the last component from the displacement" is false: three components, a third of the displacement each *)
Definition thirds : decomposition := fun y => let t := map (fun v => v / 3) y in Ok [t; t; t].
Theorem C73_subtracts_last_refuted : exists (emd : decomposition) (s r : rrel) (D : list R) (parts : list (list R)),
  keeps_length emd /\ exact_rel s 4 /\ displaces (a_sample (r_x s)) 1 (r_y s) D /\ emd D = Ok parts /\
  (forall k, nth k D 0 = fold_right Rplus 0 (map (fun c => nth k c 0) parts)) /\
  correct_sweep emd None s = Ok r /\
  ~ bends (a_sample (r_x s)) (map (fun p => fst p - snd p) (combine D (last parts []))) (r_y r).
Proof.
  assert (Hk : keeps_length thirds).
  { intros y Hy. exists (map (fun v => v / 3) y), [map (fun v => v / 3) y; map (fun v => v / 3) y]. split; [reflexivity|].
    intros z [<-|[<-|[<-|[]]]]; apply map_length. }
  destruct (C73_plain thirds force5 4 Hk force5_exact ltac:(lia)) as (D & i & o & r & HD & Ho & E & _ & Hl & Hr).
  exists thirds, force5, r, D, (i :: o). split; [exact Hk|]. split; [exact force5_exact|]. split; [exact HD|]. split; [exact Ho|].
  assert (Ei : i = map (fun v => v / 3) D /\ o = [i; i]) by (injection Ho as <- <-; split; reflexivity). destruct Ei as [-> ->]. split; [|split; [exact E|]].
  - intros k. cbn [map fold_right]. assert (En : nth k (map (fun v => v / 3) D) 0 = nth k D 0 / 3).
    { replace 0 with (0 / 3) at 1 by field. apply (map_nth (fun v => v / 3)). }
    rewrite En. field.
  - pose proof HD as [LD VD]. cbn [force5 r_y r_x a_sample length Nat.sub] in LD, VD. destruct D as [|x [|y [|z [|]]]]; try discriminate.
    pose proof (displaced_bends 1 _ _ 0 ltac:(lra) HD ltac:(cbn; lia)) as Hb. cbn [nth force5 r_y Nat.add] in Hb.
    cbn [map length Nat.sub] in Hl. intros [_ Hc]. cbn [force5 r_x a_sample] in *. specialize (Hr 0%nat ltac:(lia)). specialize (Hc 0%nat ltac:(lia)).
    rewrite Hr in Hc. cbn [map combine last nth fst snd] in Hc. lra.
Qed.
Print Assumptions C73_subtracts_last_refuted.
Example C73_case : exists r, correct_sweep alone None force5 = Ok r /\ r_y r = [4].
Proof.
  destruct (C73_alone force5 4 force5_exact ltac:(lia)) as (r & E & Hl & Hr). exists r. split; [exact E|]. specialize (Hr 0%nat ltac:(lia)).
  change (val RV) with R in *. destruct (r_y r) as [|x [|]]; try discriminate. cbn in Hr. f_equal. lra.
Qed.
Example C73_case_spacing : nice_spacing (a_sample (r_x force5)).
Proof. left. exists 1%Z. split; [lia | reflexivity]. Qed.
Example C72_case : exists r, get_correction_for_source alone (mkSource 1 None (1 / 2) None 0 (fun _ => 1)) 0 force5 = Ok (Some (0%nat, r)) /\ r_y r = [4].
Proof.
  destruct (source_result alone (mkSource 1 None (1 / 2) None 0 (fun _ => 1)) force5 4 alone_keeps force5_exact ltac:(lia) 0) as ([[p r]|] & E & H).
  2:{ destruct H as (l & H & _). discriminate. }
  destruct H as (Hp & _). assert (p = 0%nat) by lia. subst p. exists r. split; [exact E|].
  destruct (C72_displacements alone _ force5 4 0 0 r alone_keeps force5_exact ltac:(lia) E) as (w & D & i & o & nd & Hw & HD & Ho & _ & Lr & Ln & Hr & _ & Hnd).
  destruct (window_exact (mkSource 1 None (1 / 2) None 0 (fun _ => 1)) force5 4 force5_exact ltac:(lia)) as (w' & Ew & _ & [_ Lw] & _ & _ & _ & Hone).
  rewrite Ew in Hw. injection Hw as ->. cbn [r_y] in *. injection Ho as <- _.
  pose proof (Hone ltac:(cbn; lra)) as H1. clear Hone. subst nd. specialize (Hr 0%nat ltac:(lia)). cbn [so_mass force5 r_x a_sample] in *.
  pose proof (displaced_bends 1 _ _ 0 ltac:(lra) HD) as Hb. destruct HD as [LD _]. cbn [force5 r_y length Nat.sub] in LD. specialize (Hb ltac:(lia)).
  rewrite !products_nth in Hr by (change (val RV) with R in *; lia). rewrite !H1 in Hr by lia. cbn [force5 r_y nth Nat.add] in Hb.
  change (val RV) with R in *. destruct (r_y r) as [|x [|]]; try discriminate. cbn [nth] in Hr. f_equal. lra.
Qed.
