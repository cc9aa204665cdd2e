(** Proofs of C78: relations in binary64 -- shift, select_data, indexing. *)
From Coq Require Import Reals ZArith List Bool Lia Lra SpecFloat Psatz.
From Flocq Require Import Core.
From Verif Require Import Num Numpy Spec AxisModel RelModel RLemmas AxisLemmas InterpLemmas RelLemmas RelLemmas2
  FloatSpec FloatLemmas FloatLemmas2.
Import ListNotations.
Local Open Scope R_scope.

Lemma two46 : 2 ^ 46 = 70368744177664. Proof. lra. Qed.
Lemma uu46 : uu * 2 ^ 46 = / 128. Proof. unfold uu. lra. Qed.

(** axes close to an everyday one *)
Lemma loose_axis s e d k : f64_fin s -> f64_fin e -> f64_fin d ->
  bpow radix2 (-1000) <= Rabs (f64_val d) <= bpow radix2 900 ->
  Rabs (f64_val s) <= 2 ^ 48 * Rabs (f64_val d) -> Rabs (f64_val e) <= 2 ^ 48 * Rabs (f64_val d) ->
  INR k <= 2 ^ 47 + 1 ->
  Rabs (Rabs (f64_val e - f64_val s) / Rabs (f64_val d) - INR k) <= 3 / 8 -> f64_axis s e d k.
Proof.
  intros Fs Fe Fd [B1 B2] Hs He Hk HQ.
  assert (P : 2 ^ 48 * Rabs (f64_val d) <= bpow radix2 1000).
  { replace (2 ^ 48) with (bpow radix2 48) by (cbn; lra). apply Rle_trans with (bpow radix2 48 * bpow radix2 900).
    - apply Rmult_le_compat_l; [apply bpow_ge_0|exact B2].
    - rewrite <- bpow_plus. apply bpow_le. lia. }
  unfold f64_axis. rewrite !powerRZ_bpow, two51. rewrite plus_INR. cbn [INR].
  split; [exact Fs|split; [exact Fe|split; [exact Fd|]]].
  split; [lra|split; [lra|split; [exact B1|]]].
  eapply Rle_trans; [exact HQ|]. unfold uu. lra.
Qed.

Section Tame.
Context (s e d : spec_float) (n : nat) (HT : f64_tame s e d n).
Let S := f64_val s. Let E := f64_val e. Let D := f64_val d.

Lemma tame_D : 0 < Rabs D.
Proof. destruct HT as (_ & _ & _ & [B _] & _). rewrite powerRZ_bpow in B. pose proof (bpow_gt_0 radix2 (-1000)). fold D in B. lra. Qed.
Lemma tame_n : INR n <= 2 ^ 47 + / 4.
Proof.
  destruct HT as (_ & _ & _ & _ & B1 & B2 & Q). fold S E D in B1, B2, Q. pose proof tame_D as P.
  apply Rabs_le_inv in Q.
  assert (Rabs (E - S) / Rabs D <= 2 ^ 47).
  { apply Rmult_le_reg_r with (Rabs D); [exact P|]. unfold Rdiv. rewrite Rmult_assoc, Rinv_l by lra.
    pose proof (Rabs_triang E (- S)) as T. rewrite Rabs_Ropp in T. unfold Rminus. lra. }
  lra.
Qed.
Lemma tame_axis : f64_axis s e d n.
Proof.
  pose proof tame_n. pose proof tame_D. destruct HT as (Fs & Fe & Fd & Bd & B1 & B2 & Q). rewrite !powerRZ_bpow in Bd.
  fold S E D in Bd, B1, B2, Q. apply loose_axis; try assumption; fold S E D; lra.
Qed.
Lemma tame_M : Rmax (Rabs S) (Rabs E) <= 2 ^ 46 * Rabs D.
Proof. destruct HT as (_ & _ & _ & _ & B1 & B2 & _). apply Rmax_lub; assumption. Qed.
Lemma tame_big : 2 ^ 46 * Rabs D <= bpow radix2 946.
Proof.
  destruct HT as (_ & _ & _ & [_ B] & _). rewrite powerRZ_bpow in B. fold D in B.
  change 946%Z with (46 + 900)%Z. rewrite bpow_plus. apply Rmult_le_compat; try lra; [apply Rabs_pos|].
  cbn. lra.
Qed.

(** moving by [t] *)
Context (t : spec_float) (Ft : f64_fin t) (Bt : Rabs (f64_val t) <= 2 ^ 46 * Rabs D).
Let T := f64_val t.
Lemma moved x : f64_fin x -> Rabs (f64_val x) <= 2 ^ 46 * Rabs D ->
  f64_fin (SFadd 53 1024 x t) /\ f64_val (SFadd 53 1024 x t) = frnd (f64_val x + T) /\
  Rabs (f64_val (SFadd 53 1024 x t) - (f64_val x + T)) <= / 64 * Rabs D /\
  Rabs (f64_val (SFadd 53 1024 x t) - (f64_val x + T)) <= uu * Rabs (f64_val x + T).
Proof.
  intros Fx Bx. pose proof tame_big as TB. pose proof (Rabs_triang (f64_val x) T) as Tr. fold T in Bt.
  destruct (f64_add x t Fx Ft) as [F V].
  { fold T. eapply Rle_trans; [exact Tr|]. apply Rle_trans with (2 * bpow radix2 946); [lra|].
    change 2 with (bpow radix2 1). rewrite <- bpow_plus. apply bpow_le. lia. }
  pose proof (frnd_err_add (f64_val x) T (fin_fmt _ Fx) (fin_fmt _ Ft)) as Er.
  split; [exact F|]. split; [exact V|]. rewrite V. split; [|exact Er].
  eapply Rle_trans; [exact Er|]. pose proof uu_pos.
  assert (uu * Rabs (f64_val x + T) <= uu * (2 * (2 ^ 46 * Rabs D))) by (apply Rmult_le_compat_l; lra).
  replace (uu * (2 * (2 ^ 46 * Rabs D))) with (2 * (uu * 2 ^ 46) * Rabs D) in * by ring.
  rewrite uu46 in *. lra.
Qed.
Lemma moved_axis : f64_axis (SFadd 53 1024 s t) (SFadd 53 1024 e t) d n.
Proof.
  pose proof tame_D as PD. pose proof tame_n. pose proof HT as (Fs & Fe & Fd & Bd & B1 & B2 & Q). rewrite !powerRZ_bpow in Bd.
  fold S E D in Bd, B1, B2, Q. fold T in Bt.
  destruct (moved s Fs B1) as (F1 & _ & R1 & _). destruct (moved e Fe B2) as (F2 & _ & R2 & _). fold S in R1. fold E in R2.
  set (s' := f64_val (SFadd 53 1024 s t)) in *. set (e' := f64_val (SFadd 53 1024 e t)) in *.
  pose proof (Rabs_triang S T). pose proof (Rabs_triang E T).
  apply loose_axis; try assumption; fold s' e' D.
  - pose proof (Rabs_triang_inv s' (S + T)). lra.
  - pose proof (Rabs_triang_inv e' (E + T)). lra.
  - lra.
  - assert (X : Rabs (Rabs (e' - s') - Rabs (E - S)) <= / 32 * Rabs D).
    { apply Rabs_near. replace (e' - s' - (E - S)) with ((e' - (E + T)) - (s' - (S + T))) by ring.
      unfold Rminus at 1. eapply Rle_trans; [apply Rabs_triang|]. rewrite Rabs_Ropp. lra. }
    assert (Y : Rabs (Rabs (e' - s') / Rabs D - Rabs (E - S) / Rabs D) <= / 32).
    { replace (Rabs (e' - s') / Rabs D - Rabs (E - S) / Rabs D) with ((Rabs (e' - s') - Rabs (E - S)) / Rabs D) by (field; lra).
      rewrite Rabs_div' by lra. rewrite Rabs_Rabsolu. apply Rmult_le_reg_r with (Rabs D); [exact PD|].
      unfold Rdiv. rewrite Rmult_assoc, Rinv_l by lra. lra. }
    replace (Rabs (e' - s') / Rabs D - INR n) with
      ((Rabs (e' - s') / Rabs D - Rabs (E - S) / Rabs D) + (Rabs (E - S) / Rabs D - INR n)) by ring.
    eapply Rle_trans; [apply Rabs_triang|]. lra.
Qed.
End Tame.

Lemma grid_mix a b n i : (i <= n)%nat -> exists k, 0 <= k <= 1 /\ grid_pt a b (n + 1) i = (1 - k) * a + k * b /\
  k = INR i / INR n.
Proof.
  intros Hi. unfold grid_pt. replace (n + 1 - 1)%nat with n by lia. exists (INR i / INR n).
  destruct n as [|m].
  - replace i with 0%nat by lia. cbn [INR]. unfold Rdiv. rewrite !Rmult_0_l. split; [lra|split; [ring|reflexivity]].
  - assert (P : 0 < INR (S m)) by (apply lt_0_INR; lia). apply le_INR in Hi. pose proof (pos_INR i).
    split; [|split; [field; lra|reflexivity]].
    split; [apply Rmult_le_pos; [lra|left; apply Rinv_0_lt_compat; exact P]|].
    apply Rmult_le_reg_r with (INR (S m)); [exact P|]. unfold Rdiv. rewrite Rmult_assoc, Rinv_l by lra. lra.
Qed.
Lemma mix_near k a b a' b' c : 0 <= k <= 1 -> Rabs (a - a') <= c -> Rabs (b - b') <= c ->
  Rabs (((1 - k) * a + k * b) - ((1 - k) * a' + k * b')) <= c.
Proof.
  intros Hk Ha Hb. replace (((1 - k) * a + k * b) - ((1 - k) * a' + k * b')) with ((1 - k) * (a - a') + k * (b - b')) by ring.
  eapply Rle_trans; [apply Rabs_triang|]. rewrite !Rabs_mult, (Rabs_right (1 - k)), (Rabs_right k) by lra. nra.
Qed.
Lemma two50 : / 2 ^ 50 = 8 * uu. Proof. unfold uu. lra. Qed.
Lemma two48 : / 2 ^ 48 = 32 * uu. Proof. unfold uu. lra. Qed.

Lemma f64_shift (V : Vals FA) s e d n (y : list (val V)) t :
  f64_tame s e d n -> length y = (n + 1)%nat ->
  f64_fin t -> Rabs (f64_val t) <= 2 ^ 46 * Rabs (f64_val d) ->
  exists s' e' xs xs', rel_shift FA V t (mkRel (A:=FA) (mkAxis (A:=FA) s e d) y) = Ok (mkRel (A:=FA) (mkAxis (A:=FA) s' e' d) y) /\
    f64_nearest (f64_val s + f64_val t) s' /\ f64_nearest (f64_val e + f64_val t) e' /\
    axis_array FA (mkAxis (A:=FA) s e d) = Ok xs /\ axis_array FA (mkAxis (A:=FA) s' e' d) = Ok xs' /\
    length xs = length y /\ length xs' = length y /\
    forall i x x', nth_error xs i = Some x -> nth_error xs' i = Some x' ->
      Rabs (f64_val x' - (f64_val x + f64_val t))
        <= / 2 ^ 48 * Rmax (Rmax (Rabs (f64_val s)) (Rabs (f64_val e))) (Rabs (f64_val t)).
Proof.
  intros HT Hy Ft Bt. pose proof (moved_axis s e d n HT t Ft Bt) as HM. pose proof (tame_axis s e d n HT) as HA.
  pose proof HT as (Fs & Fe & Fd & _ & B1 & B2 & _).
  destruct (moved s e d n HT t Ft Bt s Fs B1) as (F1 & V1 & _ & R1).
  destruct (moved s e d n HT t Ft Bt e Fe B2) as (F2 & V2 & _ & R2).
  destruct (f64_array _ _ _ _ HA) as (xs & X1 & L1 & _ & P1 & _).
  destruct (f64_array _ _ _ _ HM) as (xs' & X2 & L2 & _ & P2 & _).
  exists (SFadd 53 1024 s t), (SFadd 53 1024 e t), xs, xs'.
  split. { unfold rel_shift, rel_make. cbn [r_x r_y a_start a_end set_start set_end n_add FA].
           unfold set_end, set_start. cbn [a_start a_end a_sample].
           rewrite (proj1 (f64_size _ _ _ _ HM)). cbn [bind]. rewrite Hy, Nat.eqb_refl. reflexivity. }
  split; [apply frnd_nearest; [exact F1|exact V1]|]. split; [apply frnd_nearest; [exact F2|exact V2]|].
  split; [exact X1|]. split; [exact X2|]. rewrite L1, L2, Hy. split; [reflexivity|]. split; [reflexivity|].
  intros i x x' Hx Hx'. pose proof (nth_error_len _ _ _ Hx) as Li. rewrite L1 in Li.
  destruct (P1 i x Hx) as (_ & _ & Q1). destruct (P2 i x' Hx') as (_ & _ & Q2).
  set (s' := f64_val (SFadd 53 1024 s t)) in *. set (e' := f64_val (SFadd 53 1024 e t)) in *.
  set (S := f64_val s) in *. set (E := f64_val e) in *. set (T := f64_val t) in *.
  set (W := Rmax (Rmax (Rabs S) (Rabs E)) (Rabs T)).
  assert (WS : Rabs S <= W) by (unfold W; eapply Rle_trans; [apply Rmax_l|apply Rmax_l]).
  assert (WE : Rabs E <= W) by (unfold W; eapply Rle_trans; [apply Rmax_r|apply Rmax_l]).
  assert (WT : Rabs T <= W) by (unfold W; apply Rmax_r).
  pose proof (Rabs_triang S T). pose proof (Rabs_triang E T). pose proof uu_pos as U. pose proof uu_small as US.
  assert (PW : 0 <= W) by (pose proof (Rabs_pos T); lra).
  assert (A1 : Rabs (s' - (S + T)) <= 2 * (uu * W)) by (eapply Rle_trans; [exact R1|]; nra).
  assert (A2 : Rabs (e' - (E + T)) <= 2 * (uu * W)) by (eapply Rle_trans; [exact R2|]; nra).
  assert (PU : 0 <= uu * W) by (apply Rmult_le_pos; lra).
  assert (UW : uu * W <= / 1024 * W) by (apply Rmult_le_compat_r; lra).
  assert (M1 : Rmax (Rabs S) (Rabs E) <= W) by (apply Rmax_lub; assumption).
  assert (M2 : Rmax (Rabs s') (Rabs e') <= 2 * W + 2 * (uu * W)).
  { apply Rmax_lub; [pose proof (Rabs_triang_inv s' (S + T))|pose proof (Rabs_triang_inv e' (E + T))]; lra. }
  rewrite two50 in Q1, Q2. rewrite two48.
  assert (Q1' : Rabs (f64_val x - grid_pt S E (n + 1) i) <= 8 * (uu * W)).
  { eapply Rle_trans; [exact Q1|]. rewrite Rmult_assoc. apply Rmult_le_compat_l; [lra|]. apply Rmult_le_compat_l; lra. }
  assert (Q2' : Rabs (f64_val x' - grid_pt s' e' (n + 1) i) <= 17 * (uu * W)).
  { eapply Rle_trans; [exact Q2|].
    apply Rle_trans with (8 * uu * (2 * W + 2 * (uu * W))); [apply Rmult_le_compat_l; lra|].
    assert (uu * (uu * W) <= / 1024 * (uu * W)) by (apply Rmult_le_compat_r; lra).
    replace (8 * uu * (2 * W + 2 * (uu * W))) with (16 * (uu * W) + 16 * (uu * (uu * W))) by ring. lra. }
  destruct (grid_mix S E n i ltac:(lia)) as (k & Hk & G1 & K1). destruct (grid_mix s' e' n i ltac:(lia)) as (k2 & _ & G2 & K2).
  rewrite <- K1 in K2. rewrite K2 in G2.
  pose proof (mix_near k s' e' (S + T) (E + T) _ Hk A1 A2) as Q3.
  replace ((1 - k) * (S + T) + k * (E + T)) with (((1 - k) * S + k * E) + T) in Q3 by ring.
  rewrite <- G1, <- G2 in Q3.
  replace (f64_val x' - (f64_val x + T)) with
    ((f64_val x' - grid_pt s' e' (n + 1) i) + (grid_pt s' e' (n + 1) i - (grid_pt S E (n + 1) i + T)) - (f64_val x - grid_pt S E (n + 1) i)) by ring.
  unfold Rminus at 1. eapply Rle_trans; [apply Rabs_triang|]. rewrite Rabs_Ropp.
  pose proof (Rabs_triang (f64_val x' - grid_pt s' e' (n + 1) i) (grid_pt s' e' (n + 1) i - (grid_pt S E (n + 1) i + T))). lra.
Qed.

(** no point lies outside start and end *)
Lemma f64_bound s e d n xs x : f64_axis s e d n -> axis_array FA (mkAxis (A:=FA) s e d) = Ok xs -> In x xs ->
  f64_fin x /\ Rabs (f64_val x) <= Rmax (Rabs (f64_val s)) (Rabs (f64_val e)).
Proof.
  intros HA X Hx. destruct (f64_array _ _ _ _ HA) as (xs2 & X2 & L & N & P & Mo).
  rewrite X in X2. injection X2 as <-. apply In_nth_error in Hx as [i Hi].
  destruct (P i x Hi) as (F & Zi & _). split; [exact F|]. pose proof (nth_error_len _ _ _ Hi) as Li.
  pose proof (Rmax_l (Rabs (f64_val s)) (Rabs (f64_val e))) as B1. pose proof (Rmax_r (Rabs (f64_val s)) (Rabs (f64_val e))) as B2.
  set (M := Rmax (Rabs (f64_val s)) (Rabs (f64_val e))) in *.
  destruct (Nat.eqb_spec n 0) as [->|Hn]. { rewrite Zi by lia. exact B1. }
  destruct (nth_error xs 0) as [x0|] eqn:E0; [|apply nth_error_None in E0; lia].
  destruct (P 0%nat x0 E0) as (_ & Z0 & _). specialize (Z0 eq_refl).
  destruct (Mo 0%nat i x0 x ltac:(lia) E0 Hi) as [M1 M2].
  destruct (Mo i n x e ltac:(lia) Hi N) as [M3 M4]. rewrite Z0 in M1, M2.
  apply Rabs_le_inv in B1, B2. apply Rabs_le.
  destruct (Rle_or_lt (f64_val s) (f64_val e)) as [O|O].
  - specialize (M1 O). specialize (M3 O). lra.
  - assert (O2 : f64_val e <= f64_val s) by lra. specialize (M2 O2). specialize (M4 O2). lra.
Qed.

(** *** indexing *)
Lemma argmin_from_fin (l pre : list spec_float) best m : (forall x, In x (pre ++ l) -> f64_fin x) ->
  nth_error (pre ++ l) best = Some m -> (best < length pre)%nat ->
  (forall j x, (j < length pre)%nat -> nth_error pre j = Some x -> f64_val m <= f64_val x) ->
  let i := argmin_from FA (length pre) best m l in
  exists v, nth_error (pre ++ l) i = Some v /\ forall j x, nth_error (pre ++ l) j = Some x -> f64_val v <= f64_val x.
Proof.
  revert pre best m; induction l as [|a l IH]; intros pre best m HF Hb Hlt Hpre; cbn [argmin_from].
  - exists m. split; [exact Hb|]. rewrite app_nil_r. intros j x Hj.
    apply (Hpre j); [eapply nth_error_len; exact Hj|exact Hj].
  - cbn [FA n_lt].
    assert (Fa : f64_fin a) by (apply HF, in_or_app; right; left; reflexivity).
    assert (Fm : f64_fin m) by (apply HF; eapply nth_error_In; exact Hb).
    pose proof (f64_ltb a m Fa Fm) as HL.
    assert (Eapp : pre ++ a :: l = (pre ++ [a]) ++ l) by (rewrite <- app_assoc; reflexivity).
    assert (Elen : S (length pre) = length (pre ++ [a])) by (rewrite app_length; cbn; lia).
    rewrite Eapp in *. rewrite Elen. destruct (SFltb a m).
    + assert (La : f64_val a < f64_val m) by (apply HL; reflexivity). apply IH; [exact HF| | |].
      * rewrite <- Eapp, nth_error_app2 by lia. rewrite Nat.sub_diag. reflexivity.
      * rewrite app_length; cbn; lia.
      * intros j x Hj Hx. rewrite app_length in Hj; cbn in Hj.
        destruct (Nat.eq_dec j (length pre)) as [->|Hne].
        -- rewrite nth_error_app2, Nat.sub_diag in Hx by lia. cbn in Hx. injection Hx as <-. lra.
        -- rewrite nth_error_app1 in Hx by lia. pose proof (Hpre j x ltac:(lia) Hx). lra.
    + assert (La : ~ f64_val a < f64_val m) by (intros X; apply HL in X; discriminate). apply IH; [exact HF|exact Hb| |].
      * rewrite app_length; cbn; lia.
      * intros j x Hj Hx. rewrite app_length in Hj; cbn in Hj.
        destruct (Nat.eq_dec j (length pre)) as [->|Hne].
        -- rewrite nth_error_app2, Nat.sub_diag in Hx by lia. cbn in Hx. injection Hx as <-. lra.
        -- rewrite nth_error_app1 in Hx by lia. exact (Hpre j x ltac:(lia) Hx).
Qed.
Lemma argmin_fin (l : list spec_float) : l <> [] -> (forall x, In x l -> f64_fin x) ->
  exists i v, argmin FA l = Some i /\ nth_error l i = Some v /\ forall j x, nth_error l j = Some x -> f64_val v <= f64_val x.
Proof.
  destruct l as [|a l]; intros H HF; [tauto|]. cbn [argmin].
  destruct (argmin_from_fin l [a] 0 a) as (v & Hv & Hmin).
  - exact HF.
  - reflexivity.
  - cbn; lia.
  - intros j x Hj Hx. cbn in Hj. assert (j = 0)%nat by lia. subst j. cbn in Hx. injection Hx as <-. lra.
  - cbn [length app] in *. exists (argmin_from FA 1 0 a l), v. auto.
Qed.

Lemma f64_getitem (V : Vals FA) s e d n (y : list (val V)) v :
  f64_axis s e d n -> length y = (n + 1)%nat -> f64_fin v -> Rabs (f64_val v) <= powerRZ 2 1000 ->
  exists xs i x z, axis_array FA (mkAxis (A:=FA) s e d) = Ok xs /\
    rel_getitem FA V v (mkRel (A:=FA) (mkAxis (A:=FA) s e d) y) = Ok (x, z) /\
    nth_error xs i = Some x /\ nth_error y i = Some z /\
    forall x', In x' xs -> Rabs (f64_val x - f64_val v) <= (1 + / 2 ^ 51) * Rabs (f64_val x' - f64_val v).
Proof.
  intros HA Hy Fv Bv. rewrite powerRZ_bpow in Bv.
  destruct (f64_array _ _ _ _ HA) as (xs & X & L & _ & P & Mo).
  assert (PF : forall x, In x xs -> f64_fin x /\ Rabs (f64_val x) <= bpow radix2 1000).
  { intros x Hx. destruct (f64_bound _ _ _ _ xs x HA X Hx) as [F B]. split; [exact F|].
    destruct (axis_real _ _ _ _ HA) as (_ & _ & _ & B1 & B2 & _).
    eapply Rle_trans; [exact B|]. apply Rmax_lub; assumption. }
  assert (DF : forall x, In x xs -> f64_fin (SFabs (SFsub 53 1024 x v)) /\
    f64_val (SFabs (SFsub 53 1024 x v)) = Rabs (frnd (f64_val x - f64_val v))).
  { intros x Hx. destruct (PF x Hx) as [Fx Bx]. destruct (f64_sub x v Fx Fv) as [F1 V1].
    { pose proof (Rabs_triang (f64_val x) (- f64_val v)) as Tr. rewrite Rabs_Ropp in Tr. unfold Rminus.
      eapply Rle_trans; [exact Tr|]. apply Rle_trans with (2 * bpow radix2 1000); [lra|].
      change 2 with (bpow radix2 1). rewrite <- bpow_plus. apply bpow_le. lia. }
    destruct (f64_abs _ F1) as [F2 V2]. rewrite V1 in V2. auto. }
  destruct (argmin_fin (map (fun x => SFabs (SFsub 53 1024 x v)) xs)) as (i & m & Hi & Hm & Hmin).
  { intros Q. apply map_eq_nil in Q. rewrite Q in L. cbn in L. lia. }
  { intros w Hw. apply in_map_iff in Hw as (x & <- & Hx). apply DF, Hx. }
  rewrite nth_error_map in Hm. change (num FA) with spec_float in *. destruct (nth_error xs i) as [x|] eqn:Ex; [|discriminate]. injection Hm as <-.
  pose proof (nth_error_len _ _ _ Ex) as Li.
  destruct (nth_error y i) as [z|] eqn:Ez; [|apply nth_error_None in Ez; lia].
  exists xs, i, x, z. split; [exact X|]. split.
  { unfold rel_getitem. cbn [r_x r_y]. rewrite X. cbn [bind n_abs n_sub FA].
    match goal with |- context [argmin FA ?l] => replace (argmin FA l) with (Some i) by (symmetry; exact Hi) end.
    change (num FA) with spec_float. rewrite Ex, Ez. reflexivity. }
  split; [exact Ex|]. split; [exact Ez|]. intros x' Hx'.
  pose proof (nth_error_In _ _ Ex) as Hx. destruct (PF x Hx) as [Fx _]. destruct (PF x' Hx') as [Fx' _].
  destruct (In_nth_error _ _ Hx') as [j Hj].
  assert (Hle : f64_val (SFabs (SFsub 53 1024 x v)) <= f64_val (SFabs (SFsub 53 1024 x' v))).
  { apply (Hmin j). rewrite nth_error_map, Hj. reflexivity. }
  rewrite (proj2 (DF x Hx)), (proj2 (DF x' Hx')) in Hle.
  pose proof (frnd_err_sub _ _ (fin_fmt _ Fx) (fin_fmt _ Fv)) as R1.
  pose proof (frnd_err_sub _ _ (fin_fmt _ Fx') (fin_fmt _ Fv)) as R2.
  apply Rabs_near, Rabs_le_inv in R1. apply Rabs_near, Rabs_le_inv in R2. rewrite two51.
  set (a := Rabs (f64_val x - f64_val v)) in *. set (b := Rabs (f64_val x' - f64_val v)) in *.
  assert (K : (1 - uu) * a <= (1 + uu) * b) by lra.
  assert (Pb : 0 <= b) by apply Rabs_pos. pose proof uu_pos as U. pose proof uu_small as US.
  apply Rmult_le_reg_l with (1 - uu); [lra|]. eapply Rle_trans; [exact K|].
  rewrite <- Rmult_assoc. apply Rmult_le_compat_r; [exact Pb|]. nra.
Qed.

(** *** select_data *)
Lemma leb_up a x y : valid_binary 53 1024 a = true -> f64_fin x -> f64_fin y -> f64_val x <= f64_val y ->
  SFleb a x = true -> SFleb a y = true.
Proof.
  intros Va Fx Fy Hxy H.
  assert (D : f64_fin a \/ exists b, a = S754_infinity b \/ a = S754_nan).
  { destruct a; [left; split; [exact Va|exact I]|right; eauto|right; exists true; auto|left; split; [exact Va|exact I]]. }
  destruct D as [Fa|[b [-> | ->]]].
  - apply (f64_leb a y Fa Fy). apply (f64_leb a x Fa Fx) in H. lra.
  - destruct Fx as [_ Ix]. destruct Fy as [_ Iy]. destruct b, x, y; try contradiction; try discriminate; reflexivity.
  - discriminate.
Qed.
Lemma leb_down b x y : valid_binary 53 1024 b = true -> f64_fin x -> f64_fin y -> f64_val x <= f64_val y ->
  SFleb y b = true -> SFleb x b = true.
Proof.
  intros Va Fx Fy Hxy H.
  assert (D : f64_fin b \/ exists c, b = S754_infinity c \/ b = S754_nan).
  { destruct b; [left; split; [exact Va|exact I]|right; eauto|right; exists true; auto|left; split; [exact Va|exact I]]. }
  destruct D as [Fa|[c [-> | ->]]].
  - apply (f64_leb x b Fx Fa). apply (f64_leb y b Fy Fa) in H. lra.
  - destruct Fx as [_ Ix]. destruct Fy as [_ Iy]. destruct c, x, y; try contradiction; try discriminate; reflexivity.
  - destruct y; discriminate.
Qed.

Lemma map_snd_combine {S T} (l : list S) (m : list T) : length l = length m -> map snd (combine l m) = m.
Proof.
  revert m; induction l as [|a l IH]; intros [|b m] H; try discriminate; [reflexivity|].
  cbn. f_equal. apply IH. cbn in H. lia.
Qed.
Lemma mask_convex s e d n xs a b : f64_axis s e d n -> axis_array FA (mkAxis (A:=FA) s e d) = Ok xs ->
  valid_binary 53 1024 a = true -> valid_binary 53 1024 b = true ->
  convex (map (fun x => SFleb a x && SFleb x b) xs).
Proof.
  intros HA X Va Vb i j k Hijk Hi Hk. destruct (f64_array _ _ _ _ HA) as (xs2 & X2 & L & _ & P & Mo).
  rewrite X in X2. injection X2 as <-. rewrite nth_error_map in *. change (num FA) with spec_float in *.
  destruct (nth_error xs i) as [xi|] eqn:Ei; [|discriminate]. destruct (nth_error xs k) as [xk|] eqn:Ek; [|discriminate].
  pose proof (nth_error_len _ _ _ Ek) as Lk.
  destruct (nth_error xs j) as [xj|] eqn:Ej; [|apply nth_error_None in Ej; lia].
  cbn [option_map] in *. injection Hi as Hi. injection Hk as Hk. f_equal.
  apply andb_true_iff in Hi as [Hi1 Hi2]. apply andb_true_iff in Hk as [Hk1 Hk2]. apply andb_true_iff.
  destruct (P i xi Ei) as (Fi & _). destruct (P j xj Ej) as (Fj & _). destruct (P k xk Ek) as (Fk & _).
  destruct (Mo i j xi xj ltac:(lia) Ei Ej) as [M1 M2]. destruct (Mo j k xj xk ltac:(lia) Ej Ek) as [M3 M4].
  destruct (Rle_or_lt (f64_val s) (f64_val e)) as [O|O].
  - split; [apply (leb_up a xi xj); auto|apply (leb_down b xj xk); auto].
  - assert (O2 : f64_val e <= f64_val s) by lra.
    split; [apply (leb_up a xk xj); auto|apply (leb_down b xj xi); auto].
Qed.

Lemma grid_shift a b n k c j kap : (k + c <= n)%nat -> (j <= c)%nat -> kap = INR j / INR c ->
  (1 - kap) * grid_pt a b (n + 1) k + kap * grid_pt a b (n + 1) (k + c) = grid_pt a b (n + 1) (k + j).
Proof.
  intros Hc Hj ->. unfold grid_pt. rewrite !plus_INR.
  destruct c as [|c'].
  - replace j with 0%nat by lia. cbn [INR]. unfold Rdiv. rewrite !Rmult_0_l. ring.
  - assert (0 < INR (S c')) by (apply lt_0_INR; lia). assert (E : INR j = INR j / INR (S c') * INR (S c')) by (field; lra).
    rewrite E at 3. ring.
Qed.

Lemma sub_axis s e d n xs k c xk xc : f64_tame s e d n -> axis_array FA (mkAxis (A:=FA) s e d) = Ok xs ->
  nth_error xs k = Some xk -> nth_error xs (k + c) = Some xc -> f64_axis xk xc d c.
Proof.
  intros HT X Hk Hc. pose proof (tame_axis s e d n HT) as HA. pose proof (tame_D s e d n HT) as PD.
  pose proof (tame_M s e d n HT) as BM. pose proof (tame_n s e d n HT) as Bn.
  destruct (f64_bound _ _ _ _ xs xk HA X (nth_error_In _ _ Hk)) as [Fk Bk].
  destruct (f64_bound _ _ _ _ xs xc HA X (nth_error_In _ _ Hc)) as [Fc Bc].
  destruct (f64_array _ _ _ _ HA) as (xs2 & X2 & L & _ & P & _). rewrite X in X2. injection X2 as <-.
  pose proof (nth_error_len _ _ _ Hc) as Lc. rewrite L in Lc.
  destruct (P k xk Hk) as (_ & _ & Ek). destruct (P (k + c)%nat xc Hc) as (_ & _ & Ec).
  pose proof HT as (Fs & Fe & Fd & Bd & B1 & B2 & Q). rewrite !powerRZ_bpow in Bd.
  set (S := f64_val s) in *. set (E := f64_val e) in *. set (D := f64_val d) in *.
  set (M := Rmax (Rabs S) (Rabs E)) in *. pose proof uu_pos as U.
  assert (Hcn : INR c <= INR n) by (apply le_INR; lia).
  apply loose_axis; try assumption; fold D; try lra.
  rewrite two50 in Ek, Ec.
  assert (EM : 8 * uu * M <= / 16 * Rabs D).
  { apply Rle_trans with (8 * uu * (2 ^ 46 * Rabs D)); [apply Rmult_le_compat_l; lra|].
    replace (8 * uu * (2 ^ 46 * Rabs D)) with (8 * (uu * 2 ^ 46) * Rabs D) by ring. rewrite uu46. lra. }
  assert (G : grid_pt S E (n + 1) (k + c) - grid_pt S E (n + 1) k = INR c * ((E - S) / INR n)).
  { unfold grid_pt. replace (n + 1 - 1)%nat with n by lia. rewrite plus_INR. ring. }
  assert (X1 : Rabs (Rabs (f64_val xc - f64_val xk) - Rabs (INR c * ((E - S) / INR n))) <= / 8 * Rabs D).
  { apply Rabs_near. rewrite <- G.
    replace (f64_val xc - f64_val xk - (grid_pt S E (n + 1) (k + c) - grid_pt S E (n + 1) k)) with
      ((f64_val xc - grid_pt S E (n + 1) (k + c)) - (f64_val xk - grid_pt S E (n + 1) k)) by ring.
    unfold Rminus at 1. eapply Rle_trans; [apply Rabs_triang|]. rewrite Rabs_Ropp. lra. }
  assert (X3 : Rabs (Rabs (INR c * ((E - S) / INR n)) / Rabs D - INR c) <= / 4).
  { destruct n as [|m].
    - replace c with 0%nat by lia. cbn [INR]. rewrite Rmult_0_l, Rabs_R0. unfold Rdiv. rewrite Rmult_0_l, Rminus_0_r, Rabs_R0. lra.
    - assert (Pn : 0 < INR (Datatypes.S m)) by (apply lt_0_INR; lia). pose proof (pos_INR c) as Pc.
      rewrite Rabs_mult, Rabs_div' by lra. rewrite (Rabs_right (INR c)), (Rabs_right (INR (Datatypes.S m))) by lra.
      set (N := INR (Datatypes.S m)) in *.
      replace (INR c * (Rabs (E - S) / N) / Rabs D - INR c) with ((INR c / N) * (Rabs (E - S) / Rabs D - N)) by (field; lra).
      rewrite Rabs_mult. assert (Hr : 0 <= INR c / N <= 1).
      { split; [apply Rmult_le_pos; [lra|left; apply Rinv_0_lt_compat; lra]|].
        apply Rmult_le_reg_r with N; [lra|]. unfold Rdiv. rewrite Rmult_assoc, Rinv_l by lra. lra. }
      rewrite (Rabs_right (INR c / N)) by lra. pose proof (Rabs_pos (Rabs (E - S) / Rabs D - N)). nra. }
  assert (X2 : Rabs (Rabs (f64_val xc - f64_val xk) / Rabs D - Rabs (INR c * ((E - S) / INR n)) / Rabs D) <= / 8).
  { replace (Rabs (f64_val xc - f64_val xk) / Rabs D - Rabs (INR c * ((E - S) / INR n)) / Rabs D) with
      ((Rabs (f64_val xc - f64_val xk) - Rabs (INR c * ((E - S) / INR n))) / Rabs D) by (unfold Rdiv; ring).
    rewrite Rabs_div' by lra. rewrite Rabs_Rabsolu. apply Rmult_le_reg_r with (Rabs D); [exact PD|].
    unfold Rdiv at 1. rewrite Rmult_assoc, Rinv_l by lra. lra. }
  match type of X2 with Rabs (?p - ?q) <= _ => replace (p - INR c) with ((p - q) + (q - INR c)) by ring end.
  eapply Rle_trans; [apply Rabs_triang|]. lra.
Qed.

Lemma f64_select (V : Vals FA) s e d n (y : list (val V)) lo hi :
  f64_tame s e d n -> length y = (n + 1)%nat ->
  let a := match lo with Some v => v | None => s end in
  let b := match hi with Some v => v | None => e end in
  valid_binary 53 1024 a = true -> valid_binary 53 1024 b = true ->
  exists xs, axis_array FA (mkAxis (A:=FA) s e d) = Ok xs /\ length xs = length y /\
  let wanted := filter (fun p => SFleb a (fst p) && SFleb (fst p) b) (combine xs y) in
  let r := mkRel (A:=FA) (mkAxis (A:=FA) s e d) y in
  (wanted = [] -> rel_select FA V lo hi r = Err EIndex) /\
  (forall w ws, wanted = w :: ws -> exists xs',
    rel_select FA V lo hi r = Ok (mkRel (A:=FA) (mkAxis (A:=FA) (fst w) (fst (last wanted w)) d) (map snd wanted)) /\
    axis_array FA (mkAxis (A:=FA) (fst w) (fst (last wanted w)) d) = Ok xs' /\ length xs' = length wanted /\
    forall j x p, nth_error xs' j = Some x -> nth_error wanted j = Some p ->
      Rabs (f64_val x - f64_val (fst p)) <= / 2 ^ 48 * Rmax (Rabs (f64_val s)) (Rabs (f64_val e))).
Proof.
  intros HT Hy a b Va Vb. pose proof (tame_axis s e d n HT) as HA.
  destruct (f64_array _ _ _ _ HA) as (xs & X & L & _ & P & _).
  change (num FA) with spec_float in *.
  exists xs. split; [exact X|]. split; [lia|]. intros wanted r.
  set (p := fun x : spec_float => SFleb a x && SFleb x b).
  assert (Hlen : length xs = length y) by lia.
  assert (HW : wanted = combine (mask (map p xs) xs) (mask (map p xs) y)).
  { symmetry. apply (mask_filter p). exact Hlen. }
  assert (HL : length (mask (map p xs) xs) = length (mask (map p xs) y)) by (apply mask_length; exact Hlen).
  assert (Hsel : rel_select FA V lo hi r = match mask (map p xs) xs with
    | [] => Err EIndex
    | x0 :: _ => rel_make FA V (mkAxis (A:=FA) x0 (last (mask (map p xs) xs) x0) d) (mask (map p xs) y) end).
  { unfold rel_select. cbn [r_x r_y r a_start a_end a_sample]. rewrite X. cbn [bind n_le FA].
    change (num FA) with spec_float in *. fold a b. fold p.
    rewrite map_length, Hlen, Nat.eqb_refl. destruct (mask (map p xs) xs); reflexivity. }
  rewrite Hsel. split.
  { intros Hw. rewrite Hw in HW. destruct (mask (map p xs) xs) as [|x0 t]; [reflexivity|].
    destruct (mask (map p xs) y); [cbn in HL; lia|]. discriminate. }
  intros w ws Hws.
  destruct (convex_block (map p xs) (mask_convex s e d n xs a b HA X Va Vb)) as [Hnone|(k & c & z & Hblk)].
  { exfalso. assert (E : mask (map p xs) xs = []) by (rewrite (all_false _ Hnone); apply mask_false).
    rewrite E in HW. cbn in HW. congruence. }
  assert (Hn : length xs = (k + S c + z)%nat).
  { pose proof (f_equal (@length bool) Hblk) as H. rewrite map_length in H. rewrite H, !app_length, !repeat_length. lia. }
  assert (Hmask : forall T (l : list T), length l = length xs -> mask (map p xs) l = firstn (S c) (skipn k l)).
  { intros T l Hl. rewrite Hblk. apply mask_block. lia. }
  set (sx := mask (map p xs) xs) in *. set (sy := mask (map p xs) y) in *.
  assert (Lsx : length sx = S c).
  { unfold sx. rewrite Hmask by reflexivity. rewrite firstn_length, skipn_length. lia. }
  assert (Nsx : forall i, (i <= c)%nat -> nth_error sx i = nth_error xs (k + i)).
  { intros i Hi. unfold sx. rewrite Hmask by reflexivity. apply nth_firstn_skipn. lia. }
  assert (Lw : length wanted = S c).
  { rewrite HW, combine_length. lia. }
  assert (Fw : map fst wanted = sx) by (rewrite HW; apply map_fst_combine; lia).
  assert (Sw : map snd wanted = sy) by (rewrite HW; apply map_snd_combine; lia).
  destruct (nth_error xs k) as [xk|] eqn:Ek; [|apply nth_error_None in Ek; lia].
  destruct (nth_error xs (k + c)) as [xc|] eqn:Ec; [|apply nth_error_None in Ec; lia].
  assert (E0 : nth_error sx 0 = Some xk) by (rewrite Nsx by lia; rewrite Nat.add_0_r; exact Ek).
  assert (E1 : nth_error sx c = Some xc) by (rewrite Nsx by lia; exact Ec).
  assert (W0 : fst w = xk).
  { rewrite <- Fw, Hws in E0. cbn in E0. injection E0 as E0. exact E0. }
  assert (Wl : fst (last wanted w) = xc).
  { assert (Q : nth_error (map fst wanted) c = Some (fst (last wanted w))).
    { rewrite nth_error_map. pose proof (last_nth_error wanted w ltac:(congruence)) as Q. rewrite Lw in Q.
      replace (S c - 1)%nat with c in Q by lia. rewrite Q. reflexivity. }
    rewrite Fw, E1 in Q. congruence. }
  rewrite W0, Wl, Sw.
  pose proof (sub_axis s e d n xs k c xk xc HT X Ek Ec) as HS.
  destruct (f64_array _ _ _ _ HS) as (xs' & X' & L' & _ & P' & _).
  change (num FA) with spec_float in *. exists xs'. split.
  { destruct sx as [|x0 t] eqn:Esx; [discriminate|]. cbn in E0. injection E0 as ->.
    assert (El : last (xk :: t) xk = xc).
    { assert (Q : nth_error (xk :: t) c = Some (last (xk :: t) xk)).
      { pose proof (last_nth_error (xk :: t) xk ltac:(discriminate)) as Q. rewrite Lsx in Q.
        replace (S c - 1)%nat with c in Q by lia. exact Q. }
      rewrite E1 in Q. congruence. }
    rewrite El. unfold rel_make. rewrite (proj1 (f64_size _ _ _ _ HS)). cbn [bind].
    rewrite <- HL, Lsx. replace (c + 1)%nat with (S c) by lia. rewrite Nat.eqb_refl. reflexivity. }
  split; [exact X'|]. split; [rewrite L', Lw; lia|].
  intros j x q Hx Hq. pose proof (nth_error_len _ _ _ Hx) as Lj. rewrite L' in Lj.
  assert (Hq2 : nth_error xs (k + j) = Some (fst q)).
  { rewrite <- Nsx by lia. rewrite <- Fw, nth_error_map, Hq. reflexivity. }
  destruct (P k xk Ek) as (_ & _ & Rk). destruct (P (k + c)%nat xc Ec) as (_ & _ & Rc).
  destruct (P (k + j)%nat (fst q) Hq2) as (_ & _ & Rj). destruct (P' j x Hx) as (_ & _ & Rx).
  destruct (f64_bound _ _ _ _ xs xk HA X (nth_error_In _ _ Ek)) as [_ Bk].
  destruct (f64_bound _ _ _ _ xs xc HA X (nth_error_In _ _ Ec)) as [_ Bc].
  rewrite two50 in *. rewrite two48. pose proof uu_pos as U.
  set (M := Rmax (Rabs (f64_val s)) (Rabs (f64_val e))) in *.
  assert (PM : 0 <= M) by (pose proof (Rabs_pos (f64_val xk)); lra).
  assert (Rx' : Rabs (f64_val x - grid_pt (f64_val xk) (f64_val xc) (c + 1) j) <= 8 * uu * M).
  { eapply Rle_trans; [exact Rx|]. apply Rmult_le_compat_l; [lra|]. apply Rmax_lub; assumption. }
  destruct (grid_mix (f64_val xk) (f64_val xc) c j ltac:(lia)) as (kap & Hkap & G & Ekap).
  pose proof (mix_near kap _ _ _ _ _ Hkap Rk Rc) as Q.
  rewrite (grid_shift _ _ n k c j kap ltac:(lia) ltac:(lia) Ekap) in Q. rewrite <- G in Q.
  set (g := grid_pt (f64_val s) (f64_val e) (n + 1) (k + j)) in *.
  set (g' := grid_pt (f64_val xk) (f64_val xc) (c + 1) j) in *.
  replace (f64_val x - f64_val (fst q)) with ((f64_val x - g') + (g' - g) - (f64_val (fst q) - g)) by ring.
  unfold Rminus at 1. eapply Rle_trans; [apply Rabs_triang|]. rewrite Rabs_Ropp.
  pose proof (Rabs_triang (f64_val x - g') (g' - g)).
  assert (0 <= uu * M) by (apply Rmult_le_pos; lra). lra.
Qed.
