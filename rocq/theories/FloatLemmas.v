(** binary64 arithmetic of the model ([FA], on the standard library's [SpecFloat]) against Flocq's
    correctly rounded operations. *)
From Coq Require Import Reals ZArith List Bool Lia Lra SpecFloat.
From Flocq Require Import Core BinarySingleNaN Relative Plus_error.
From Verif Require Import Num FloatSpec.
Import ListNotations.
Local Open Scope R_scope.

Local Instance Hprec : FLX.Prec_gt_0 53 := eq_refl.
Local Instance Hmax : Prec_lt_emax 53 1024 := eq_refl.
Notation fmt := (generic_format radix2 (FLT_exp (-1074) 53)).
Definition frnd (x : R) : R := round radix2 (FLT_exp (-1074) 53) ZnearestE x.
Notation b64 := (binary_float 53 1024).

(** *** the operations of SpecFloat are Flocq's *)
Lemma nearest_even_equiv s m l : round_nearest_even m l = choice_mode mode_NE s m l.
Proof. case l; [reflexivity|intro c]. case c; [|reflexivity..]. simpl. unfold Round.cond_incr. now case Z.even. Qed.
Lemma round_aux_equiv sx mx ex lx :
  SpecFloat.binary_round_aux 53 1024 sx mx ex lx = binary_round_aux 53 1024 mode_NE sx mx ex lx.
Proof.
  unfold SpecFloat.binary_round_aux, binary_round_aux.
  set (q := shr_fexp _ _ _ _ _). case q; intros m' e'; simpl. now rewrite (nearest_even_equiv sx).
Qed.
Lemma round_equiv s m e : SpecFloat.binary_round 53 1024 s m e = binary_round 53 1024 mode_NE s m e.
Proof.
  unfold SpecFloat.binary_round, binary_round, shl_align_fexp.
  set (q := shl_align _ _ _); case q as [mz ez]. apply round_aux_equiv.
Qed.
Lemma normalize_equiv m e z :
  SpecFloat.binary_normalize 53 1024 m e z = B2SF (binary_normalize 53 1024 Hprec Hmax mode_NE m e z).
Proof. case m as [|p|p]; [now simpl| |]; simpl; rewrite B2SF_SF2B; apply round_equiv. Qed.
Lemma add_equiv (x y : b64) : SFadd 53 1024 (B2SF x) (B2SF y) = B2SF (Bplus mode_NE x y).
Proof.
  case x as [sx|sx| |sx mx ex Bx]; case y as [sy|sy| |sy my ey By];
  [now (trivial || simpl; case Bool.eqb).. |]. apply normalize_equiv.
Qed.
Lemma sub_equiv (x y : b64) : SFsub 53 1024 (B2SF x) (B2SF y) = B2SF (Bminus mode_NE x y).
Proof.
  case x as [sx|sx| |sx mx ex Bx]; case y as [sy|sy| |sy my ey By];
  [now (trivial || simpl; case Bool.eqb).. |]. simpl. unfold Zminus. rewrite <- cond_Zopp_negb.
  apply normalize_equiv.
Qed.
Lemma mul_equiv (x y : b64) : SFmul 53 1024 (B2SF x) (B2SF y) = B2SF (Bmult mode_NE x y).
Proof.
  case x as [sx|sx| |sx mx ex Bx]; case y as [sy|sy| |sy my ey By]; [now trivial.. |].
  simpl. rewrite B2SF_SF2B. apply round_aux_equiv.
Qed.
Lemma div_equiv (x y : b64) : SFdiv 53 1024 (B2SF x) (B2SF y) = B2SF (Bdiv mode_NE x y).
Proof.
  case x as [sx|sx| |sx mx ex Bx]; case y as [sy|sy| |sy my ey By];
  [now (trivial || simpl; case Bool.eqb).. |]. simpl. rewrite B2SF_SF2B.
  set (q := SFdiv_core_binary _ _ _ _ _ _). case q as [[mz ez] lz]. apply round_aux_equiv.
Qed.

(** *** finite numbers *)
Lemma fin_B (x : spec_float) : f64_fin x <->
  exists b : b64, x = B2SF b /\ is_finite b = true.
Proof.
  split.
  - intros [V F]. exists (SF2B x V). rewrite B2SF_SF2B. split; [reflexivity|].
    destruct x; try contradiction; reflexivity.
  - intros [b [-> H]]. split; [apply valid_binary_B2SF|]. destruct b; try discriminate; exact I.
Qed.
Lemma val_B (b : b64) : f64_val (B2SF b) = B2R b.
Proof.
  destruct b as [s|s| |s m e B]; try reflexivity. cbn. unfold F2R. cbn.
  rewrite bpow_powerRZ. destruct s; reflexivity.
Qed.
Lemma fin_fmt x : f64_fin x -> fmt (f64_val x).
Proof. intros H. apply fin_B in H as [b [-> _]]. rewrite val_B. exact (generic_format_B2R 53 1024 b). Qed.

(** no overflow *)
Lemma frnd_small x : Rabs x <= bpow radix2 1023 -> Rabs (frnd x) < bpow radix2 1024.
Proof.
  intros H. apply Rle_lt_trans with (bpow radix2 1023); [|apply bpow_lt; reflexivity].
  unfold frnd. apply abs_round_le_generic; [apply FLT_exp_valid; reflexivity|apply valid_rnd_N| |exact H].
  apply generic_format_bpow. unfold FLT_exp. lia.
Qed.

Ltac op_fin Hc :=
  match type of Hc with if Rlt_bool ?a ?b then _ else _ =>
    rewrite (Rlt_bool_true a b) in Hc by (apply frnd_small; assumption) end;
  destruct Hc as [Hc1 [Hc2 _]].

Lemma f64_add x y : f64_fin x -> f64_fin y -> Rabs (f64_val x + f64_val y) <= bpow radix2 1023 ->
  f64_fin (SFadd 53 1024 x y) /\ f64_val (SFadd 53 1024 x y) = frnd (f64_val x + f64_val y).
Proof.
  intros Hx Hy Hb. apply fin_B in Hx as [bx [-> Fx]]. apply fin_B in Hy as [by_ [-> Fy]].
  rewrite !val_B in *. rewrite add_equiv.
  pose proof (Bplus_correct 53 1024 Hprec Hmax mode_NE bx by_ Fx Fy) as Hc. op_fin Hc.
  split; [apply fin_B; eexists; split; [reflexivity|exact Hc2]|]. rewrite val_B. exact Hc1.
Qed.
Lemma f64_sub x y : f64_fin x -> f64_fin y -> Rabs (f64_val x - f64_val y) <= bpow radix2 1023 ->
  f64_fin (SFsub 53 1024 x y) /\ f64_val (SFsub 53 1024 x y) = frnd (f64_val x - f64_val y).
Proof.
  intros Hx Hy Hb. apply fin_B in Hx as [bx [-> Fx]]. apply fin_B in Hy as [by_ [-> Fy]].
  rewrite !val_B in *. rewrite sub_equiv.
  pose proof (Bminus_correct 53 1024 Hprec Hmax mode_NE bx by_ Fx Fy) as Hc. op_fin Hc.
  split; [apply fin_B; eexists; split; [reflexivity|exact Hc2]|]. rewrite val_B. exact Hc1.
Qed.
Lemma f64_mul x y : f64_fin x -> f64_fin y -> Rabs (f64_val x * f64_val y) <= bpow radix2 1023 ->
  f64_fin (SFmul 53 1024 x y) /\ f64_val (SFmul 53 1024 x y) = frnd (f64_val x * f64_val y).
Proof.
  intros Hx Hy Hb. apply fin_B in Hx as [bx [-> Fx]]. apply fin_B in Hy as [by_ [-> Fy]].
  rewrite !val_B in *. rewrite mul_equiv.
  pose proof (Bmult_correct 53 1024 Hprec Hmax mode_NE bx by_) as Hc. op_fin Hc.
  rewrite Fx, Fy in Hc2.
  split; [apply fin_B; eexists; split; [reflexivity|exact Hc2]|]. rewrite val_B. exact Hc1.
Qed.
Lemma f64_div x y : f64_fin x -> f64_fin y -> f64_val y <> 0 -> Rabs (f64_val x / f64_val y) <= bpow radix2 1023 ->
  f64_fin (SFdiv 53 1024 x y) /\ f64_val (SFdiv 53 1024 x y) = frnd (f64_val x / f64_val y).
Proof.
  intros Hx Hy Hz Hb. apply fin_B in Hx as [bx [-> Fx]]. apply fin_B in Hy as [by_ [-> Fy]].
  rewrite !val_B in *. rewrite div_equiv.
  pose proof (Bdiv_correct 53 1024 Hprec Hmax mode_NE bx by_ Hz) as Hc. op_fin Hc.
  rewrite Fx in Hc2.
  split; [apply fin_B; eexists; split; [reflexivity|exact Hc2]|]. rewrite val_B. exact Hc1.
Qed.
Lemma f64_Z z : Rabs (IZR z) <= bpow radix2 1023 ->
  f64_fin (f64_of_Z z) /\ f64_val (f64_of_Z z) = frnd (IZR z).
Proof.
  intros Hb. unfold f64_of_Z. rewrite normalize_equiv.
  pose proof (binary_normalize_correct 53 1024 Hprec Hmax mode_NE z 0 false) as Hc. cbv zeta in Hc.
  assert (E : F2R (Float radix2 z 0) = IZR z) by (unfold F2R; cbn; lra). rewrite E in Hc. op_fin Hc.
  split; [apply fin_B; eexists; split; [reflexivity|exact Hc2]|]. rewrite val_B. exact Hc1.
Qed.
Lemma frnd_fmt x : fmt x -> frnd x = x.
Proof. intros H. apply round_generic; [apply valid_rnd_N|exact H]. Qed.
Lemma fmt_frnd x : fmt (frnd x).
Proof. apply generic_format_round; [apply FLT_exp_valid; reflexivity|apply valid_rnd_N]. Qed.
Lemma frnd_le x y : x <= y -> frnd x <= frnd y.
Proof. intros H. apply round_le; [apply FLT_exp_valid; reflexivity|apply valid_rnd_N|exact H]. Qed.
Lemma frnd_le_fmt x y : fmt y -> x <= y -> frnd x <= y.
Proof. intros F H. rewrite <- (frnd_fmt y F). apply frnd_le. exact H. Qed.
Lemma frnd_ge_fmt x y : fmt y -> y <= x -> y <= frnd x.
Proof. intros F H. rewrite <- (frnd_fmt y F). apply frnd_le. exact H. Qed.
Lemma fmt_Z z : (Z.abs z <= 2 ^ 53)%Z -> fmt (IZR z).
Proof.
  intros H. destruct (Z.eq_dec (Z.abs z) (2 ^ 53)) as [E|E].
  - assert (IZR z = bpow radix2 53 \/ IZR z = - bpow radix2 53) as [-> | ->].
    { change (bpow radix2 53) with (IZR (2 ^ 53)). rewrite <- opp_IZR.
      assert (z = 2 ^ 53 \/ z = - 2 ^ 53)%Z as [-> | ->] by lia; auto. }
    + apply generic_format_bpow. unfold FLT_exp. lia.
    + apply generic_format_opp, generic_format_bpow. unfold FLT_exp. lia.
  - apply generic_format_FLT. exists (Float radix2 z 0).
    + unfold F2R. cbn. lra.
    + cbn. change (Z.pow_pos 2 53) with (2 ^ 53)%Z. lia.
    + cbn. lia.
Qed.
Lemma f64_Z_exact z : (Z.abs z <= 2 ^ 53)%Z -> f64_fin (f64_of_Z z) /\ f64_val (f64_of_Z z) = IZR z.
Proof.
  intros H. assert (Rabs (IZR z) <= bpow radix2 1023).
  { rewrite <- abs_IZR. apply Rle_trans with (bpow radix2 53); [|apply bpow_le; lia].
    change (bpow radix2 53) with (IZR (2 ^ 53)). apply IZR_le. exact H. }
  destruct (f64_Z z H0) as [F E]. split; [exact F|]. rewrite E. apply frnd_fmt, fmt_Z, H.
Qed.

(** *** rounding errors *)
Definition uu : R := / 9007199254740992.
Lemma uu_bpow : / 2 * bpow radix2 (- (53) + 1) = uu.
Proof. unfold uu. cbn. lra. Qed.
Lemma uro_le : u_ro radix2 53 / (1 + u_ro radix2 53) <= uu.
Proof.
  unfold u_ro. rewrite uu_bpow. unfold uu.
  apply Rmult_le_reg_r with (1 + / 9007199254740992); [lra|]. field_simplify; lra.
Qed.
Lemma frnd_err x : Rabs (frnd x - x) <= uu * Rabs x + bpow radix2 (-1075).
Proof.
  destruct (relative_error_N_FLT'_ex radix2 (-1074) 53 Hprec (fun z => negb (Z.even z)) x)
    as (eps & eta & He & Ht & _ & Hr).
  unfold frnd. rewrite Hr. replace (x * (1 + eps) + eta - x) with (x * eps + eta) by ring.
  eapply Rle_trans; [apply Rabs_triang|]. rewrite Rabs_mult.
  pose proof uro_le. pose proof (Rabs_pos x).
  assert (bpow radix2 (-1075) = / 2 * bpow radix2 (-1074)).
  { change (-1075)%Z with (-1 + -1074)%Z. rewrite bpow_plus. cbn. lra. }
  rewrite H1. apply Rplus_le_compat; [|exact Ht].
  rewrite Rmult_comm. apply Rmult_le_compat_r; lra.
Qed.
Lemma frnd_err_normal x : bpow radix2 (-1022) <= Rabs x -> Rabs (frnd x - x) <= uu * Rabs x.
Proof.
  intros H. destruct (relative_error_N_FLT_ex radix2 (-1074) 53 Hprec (fun z => negb (Z.even z)) x H) as (eps & He & Hr).
  unfold frnd. rewrite Hr. replace (x * (1 + eps) - x) with (x * eps) by ring. rewrite Rabs_mult, Rmult_comm.
  rewrite uu_bpow in He. apply Rmult_le_compat_r; [apply Rabs_pos|exact He].
Qed.
Lemma frnd_err_add x y : fmt x -> fmt y -> Rabs (frnd (x + y) - (x + y)) <= uu * Rabs (x + y).
Proof.
  intros Fx Fy. destruct (FLT_plus_error_N_ex radix2 (-1074) 53 (fun z => negb (Z.even z)) x y Fx Fy) as (eps & He & Hr).
  unfold frnd. rewrite Hr. replace ((x + y) * (1 + eps) - (x + y)) with ((x + y) * eps) by ring.
  rewrite Rabs_mult, Rmult_comm. pose proof uro_le. apply Rmult_le_compat_r; [apply Rabs_pos|lra].
Qed.
Lemma fmt_opp x : fmt x -> fmt (- x).
Proof. apply generic_format_opp. Qed.
Lemma frnd_err_sub x y : fmt x -> fmt y -> Rabs (frnd (x - y) - (x - y)) <= uu * Rabs (x - y).
Proof. intros Fx Fy. apply (frnd_err_add x (- y) Fx (fmt_opp y Fy)). Qed.

(** *** nearest *)
Lemma fmt_fin r : fmt r -> Rabs r < bpow radix2 1024 -> exists x, f64_fin x /\ f64_val x = r.
Proof.
  intros F H.
  destruct (FLT_format_generic radix2 (-1074) 53 r F) as [[m e] E Hm He]. cbn in Hm, He.
  pose proof (binary_normalize_correct 53 1024 Hprec Hmax mode_NE m e false) as Hc. cbv zeta in Hc.
  rewrite <- E in Hc.
  assert (R0 : round radix2 (SpecFloat.fexp 53 1024) (round_mode mode_NE) r = r).
  { exact (frnd_fmt r F). }
  rewrite R0 in Hc. rewrite Rlt_bool_true in Hc by exact H. destruct Hc as [H1 [H2 _]].
  eexists. split; [apply fin_B; eexists; split; [reflexivity|exact H2]|]. rewrite val_B. exact H1.
Qed.
Lemma frnd_nearest r x : f64_fin x -> f64_val x = frnd r -> f64_nearest r x.
Proof.
  intros F E. split; [exact F|]. intros y Fy. rewrite E.
  pose proof (round_N_pt radix2 (FLT_exp (-1074) 53) (fun z => negb (Z.even z)) r) as [_ H].
  apply H. apply fin_fmt, Fy.
Qed.

(** *** comparisons and [round] *)
Lemma f64_eqb x y : f64_fin x -> f64_fin y -> SFeqb x y = true <-> f64_val x = f64_val y.
Proof.
  intros Hx Hy. apply fin_B in Hx as [bx [-> Fx]]. apply fin_B in Hy as [by_ [-> Fy]]. rewrite !val_B.
  pose proof (Beqb_correct 53 1024 bx by_ Fx Fy) as H. unfold Beqb in H. rewrite H.
  split; intros E; [apply Req_bool_spec_true in E || (destruct (Req_bool_spec (B2R bx) (B2R by_)); congruence)|].
  destruct (Req_bool_spec (B2R bx) (B2R by_)); congruence.
Qed.
Lemma f64_ltb x y : f64_fin x -> f64_fin y -> SFltb x y = true <-> f64_val x < f64_val y.
Proof.
  intros Hx Hy. apply fin_B in Hx as [bx [-> Fx]]. apply fin_B in Hy as [by_ [-> Fy]]. rewrite !val_B.
  pose proof (Bltb_correct 53 1024 bx by_ Fx Fy) as H. unfold Bltb in H. rewrite H.
  destruct (Rlt_bool_spec (B2R bx) (B2R by_)); split; intros; try congruence; lra.
Qed.
Lemma f64_leb x y : f64_fin x -> f64_fin y -> SFleb x y = true <-> f64_val x <= f64_val y.
Proof.
  intros Hx Hy. apply fin_B in Hx as [bx [-> Fx]]. apply fin_B in Hy as [by_ [-> Fy]]. rewrite !val_B.
  pose proof (Bleb_correct 53 1024 bx by_ Fx Fy) as H. unfold Bleb in H. rewrite H.
  destruct (Rle_bool_spec (B2R bx) (B2R by_)); split; intros; try congruence; lra.
Qed.
Lemma f64_abs x : f64_fin x -> f64_fin (SFabs x) /\ f64_val (SFabs x) = Rabs (f64_val x).
Proof.
  intros Hx. apply fin_B in Hx as [bx [-> Fx]].
  assert (E : SFabs (B2SF bx) = B2SF (Babs bx)) by (destruct bx; reflexivity). rewrite E.
  split; [apply fin_B; eexists; split; [reflexivity|rewrite is_finite_Babs; exact Fx]|].
  rewrite !val_B. apply B2R_Babs.
Qed.
Lemma f64_opp x : f64_fin x -> f64_fin (SFopp x) /\ f64_val (SFopp x) = - f64_val x.
Proof.
  intros Hx. apply fin_B in Hx as [bx [-> Fx]].
  assert (E : SFopp (B2SF bx) = B2SF (Bopp bx)) by (destruct bx; reflexivity). rewrite E.
  split; [apply fin_B; eexists; split; [reflexivity|rewrite is_finite_Bopp; exact Fx]|].
  rewrite !val_B. apply B2R_Bopp.
Qed.
