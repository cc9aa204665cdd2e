(** Real and complex sample values satisfy the laws used in the theorems. *)
From Coq Require Import Reals ZArith List Lra.
From Coquelicot Require Import Complex.
From Verif Require Import Num Spec.
Local Open Scope R_scope.

Lemma RV_laws : VLaws RV.
Proof.
  split; cbn; try (intros; lra).
  constructor; [constructor|..]; cbn; intros; try lra; try (field; auto).
Qed.
Lemma RV_claws : CLaws RV.
Proof. split; cbn; intros; reflexivity. Qed.

Lemma Cdiv_def (a b : C) : Cdiv a b = Cmult a (Cdiv (RtoC 1) b).
Proof. unfold Cdiv. rewrite Cmult_1_l. reflexivity. Qed.
Lemma CV_laws : VLaws CV.
Proof.
  split; cbn.
  - constructor; [constructor|..]; cbn; intros.
    + apply Cplus_0_l.
    + apply Cplus_comm.
    + apply Cplus_assoc.
    + apply Cmult_1_l.
    + apply Cmult_comm.
    + apply Cmult_assoc.
    + apply Cmult_plus_distr_r.
    + unfold Cminus. rewrite Cplus_0_l. reflexivity.
    + unfold Cminus. rewrite Cplus_0_l. apply Cplus_opp_r.
    + intros E. injection E. lra.
    + apply Cdiv_def.
    + unfold Cdiv. rewrite Cmult_1_l. apply Cinv_l. exact H.
  - intros a b. apply RtoC_plus.
  - intros a b. apply RtoC_mult.
  - intros a b E. injection E. auto.
Qed.
Lemma CV_claws : CLaws CV.
Proof.
  split; cbn.
  - intros [a1 a2] [b1 b2]. unfold Cconj, Cplus; cbn. f_equal; lra.
  - intros [a1 a2] [b1 b2]. unfold Cconj, Cmult; cbn. f_equal; lra.
  - intros [a1 a2]. unfold Cconj; cbn. f_equal; lra.
  - intros r. unfold Cconj, RtoC. cbn. f_equal. lra.
Qed.
