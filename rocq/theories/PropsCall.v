(** Property theorems about generators as objects: C76.  [gen_is h g u], [time_is], [sweep_is h r s] (CallSpec.v):
    the objects [g], [r] of the heap [h] carry the data of the generator [u] and of the sweep [s] given by value. *)
From Coq Require Import Reals ZArith QArith List Bool Lia Lra.
From Verif Require Import Num Numpy Spec AxisModel RelModel VInst HeapModel HeapSpec HeapLemmas4 SweepModel SweepLemmas
  SweepSpec SweepLemmas2 SweepLemmas3 CallSpec CallLemmas PropsSweep.
Import ListNotations.

(** ** C76 generators as objects compute the sweeps of C40 *)
(** [UncalculatedSweep(time, f, a)] makes a generator of the time, laws and methods that [us_new] prepares *)
Theorem C76_new_generator : forall A (V : Vals A) W F (h : heap A V) t ut int f a u,
  us_new A V (hc_base (h_cfg h)) int ut f a = Ok u -> time_is A V h t ut ->
  let o := ONewGen A V t (fun c x => law_eval A V (hc_base c) (u_f u) x) (fun c x => law_tht A V W (hc_base c) (u_int u) (u_f u) x)
             (fun c x => law_eval A V (hc_base c) (u_a u) x) (wave A V W) in
  fst (exec A V F o h) = Ok [] /\ gen_is A V W (step A V F h o) (length (h_gen h)) u.
Proof. intros A V W F h t ut int f a u Hu Ht. exact (new_gen_val A V W F h t ut int f a u Hu Ht). Qed.
Print Assumptions C76_new_generator.
(** calling it returns a new [Sweep] object with exactly the samples and laws of the value [us_call] gives, or raises
    exactly its exception *)
Theorem C76_call : forall A (V : Vals A) W F (h : heap A V) g u t ut tht0, reachable A V F h ->
  gen_is A V W h g u -> time_is A V h t ut ->
  let o := OCall A V g t tht0 in
  match us_call A V W (hc_base (h_cfg h)) (h_scfg h) u ut tht0 with
  | Ok s => exists r, fst (exec A V F o h) = Ok [r] /\ sweep_is A V (step A V F h o) r s /\ cls_of A V h r = None
  | Err e => fst (exec A V F o h) = Err e end.
Proof. intros. apply exec_call; auto. eapply reachable_wf; eauto. Qed.
Print Assumptions C76_call.
(** the same for the generators from a-priori data, with and without normalisation *)
Theorem C76_apriori_call : forall A (V : Vals A) W F (h : heap A V) g u t ut tht0 sg c k cf b, reachable A V F h ->
  gen_is A V W h g u -> time_is A V h t ut ->
  rel_view A V h sg = Some c -> cls_of A V h sg = Some k -> k <> KSweep -> cfg_of A V h sg = Some cf ->
  let o := OApCall A V (norm_ratio A V W) g sg t tht0 b in
  match ap_call A V W (hc_base (h_cfg h)) (hc_base cf) (h_scfg h) u c ut tht0 b with
  | Ok s => exists r, fst (exec A V F o h) = Ok [r] /\ sweep_is A V (step A V F h o) r s /\ cls_of A V h r = None
  | Err e => fst (exec A V F o h) = Err e end.
Proof. intros. eapply exec_apcall; eauto. eapply reachable_wf; eauto. Qed.
Print Assumptions C76_apriori_call.
(** no call changes a generator, unless it sets a field of the very axis the generator was given *)
Theorem C76_generator_kept : forall A (V : Vals A) W F (h : heap A V) g u o, reachable A V F h -> gen_is A V W h g u ->
  (forall a, gen_axis A V h g = Some (Some a) -> ~ ax_target A V h o a) -> gen_is A V W (step A V F h o) g u.
Proof. intros A V W F h g u o R. apply gen_is_step. eapply reachable_wf; eauto. Qed.
Print Assumptions C76_generator_kept.
(** ... and then the generator works on the changed axis *)
Theorem C76_axis_shared : forall A (V : Vals A) W F (h : heap A V) g u f a v p, gen_is A V W h g u ->
  gen_axis A V h g = Some (Some a) -> u_time u = Some p ->
  gen_is A V W (step A V F h (OSet A V f a v)) g (mkUgen A V (Some (set_field A f v p)) (u_f u) (u_a u) (u_cfg u) (u_int u)).
Proof. intros A V W F h g u f a v p. apply gen_is_set. Qed.
Print Assumptions C76_axis_shared.
(** calling twice gives two objects with the same content; the first is not touched by the second call *)
Theorem C76_again : forall A (V : Vals A) W F (h : heap A V) g u s tht0, reachable A V F h -> gen_is A V W h g u ->
  us_call A V W (hc_base (h_cfg h)) (h_scfg h) u UtNone tht0 = Ok s ->
  let o := OCall A V g (TaNone A) tht0 in let h1 := step A V F h o in let h2 := step A V F h1 o in
  exists r1 r2, fst (exec A V F o h) = Ok [r1] /\ fst (exec A V F o h1) = Ok [r2] /\ r1 <> r2 /\
    sweep_is A V h2 r1 s /\ sweep_is A V h2 r2 s.
Proof.
  intros A V W F h g u s tht0 R Hg Hs o h1 h2. assert (Wh := reachable_wf A V F h R).
  pose proof (exec_call A V W F h g u (TaNone A) UtNone tht0 Wh Hg I) as H. rewrite Hs in H. destruct H as (r1 & E1 & S1 & _).
  destruct (step_frame A V F h o Wh) as (W1 & _ & Hc). fold o in E1, S1. fold h1 in S1, W1, Hc. destruct Hc as [C1 C2]; [intros []|].
  assert (Hg1 : gen_is A V W h1 g u) by (apply gen_is_step; auto; intros a _ []).
  pose proof (exec_call A V W F h1 g u (TaNone A) UtNone tht0 W1 Hg1 I) as H. rewrite C1, C2, Hs in H. destruct H as (r2 & E2 & S2 & N2).
  exists r1, r2. split; [exact E1|]. split; [exact E2|]. split.
  - intros ->. destruct S1 as (K & _). congruence.
  - split; [|exact S2]. unfold h2. apply sweep_is_step; auto; intros a [].
Qed.
Print Assumptions C76_again.
(** on objects over the reals: the normalised sweep object has the norm of the a-priori signal object *)
Theorem C76_same_norm : forall F (h : heap RA RV) g u t ut tht0 sg c k cf r, reachable RA RV F h ->
  gen_is RA RV RW h g u -> time_is RA RV h t ut -> hc_base (h_cfg h) = default_config RA RV ->
  rel_view RA RV h sg = Some c -> cls_of RA RV h sg = Some k -> k <> KSweep -> cfg_of RA RV h sg = Some cf ->
  let o := OApCall RA RV (norm_ratio RA RV RW) g sg t tht0 true in
  fst (exec RA RV F o h) = Ok [r] ->
  exists c', rel_view RA RV (step RA RV F h o) r = Some c' /\ rel_norm RA RV (default_config RA RV) c' = rel_norm RA RV (hc_base cf) c.
Proof.
  intros F h g u t ut tht0 sg c k cf r R Hg Ht Hd H1 H2 H3 H4 o He.
  pose proof (C76_apriori_call RA RV RW F h g u t ut tht0 sg c k cf true R Hg Ht H1 H2 H3 H4) as H. cbv zeta in H. fold o in H.
  destruct (ap_call _ _ _ _ _ _ _ _ _ _ _) as [s|e] eqn:E; [|congruence].
  destruct H as (r' & E1 & (_ & S1 & _) & _). assert (r' = r) by congruence. subst r'. exists (sw_rel s). split; [exact S1|].
  rewrite Hd in E. apply C46_same_norm in E. exact E.
Qed.
Print Assumptions C76_same_norm.

(** test with stand-ins for sin and sqrt: axis 0, 1, 2, law 4, default amplitude; an a-priori signal 1, 1, 1 *)
Definition ex_qcfg : hconfig QA QV := mkHconfig QA QV (default_config QA QV) (fun _ _ _ => Err EType) (fun _ _ _ => Err EType) None None.
Definition ex_qsc : sconfig QA QV := mkSconfig QA QV (fun c => Ok (r_y c)) (fun c => Ok (r_y c)) (fun _ => Ok tt).
Definition ex_law : callable QA QV := mkCallable (A:=QA) (V:=QV) (fun l => Ok (map (fun _ => 4%Q) l)) (Ok (fun _ => 4%Q)).
Definition ex_int : integrator QA QV := fun f x => do a <- axis_array QA x; cl_arr f a.
Definition ex_u : ugen QA QV := mkUgen QA QV (Some (mkAxis (A:=QA) 0%Q 2%Q 1%Q)) (LawFun ex_law) (LawFun (const_one QA QV)) (default_config QA QV) ex_int.
Definition ex_ops : list (op QA QV) :=
  [ONewAxis QA QV (mkAxis (A:=QA) 0%Q 2%Q 1%Q); ONew QA QV KSig (XaAxis (A:=QA) 0%nat) (Some [1; 1; 1]%Q);
   ONewGen QA QV (TaAxis QA 0%nat) (fun c x => law_eval QA QV (hc_base c) (u_f ex_u) x)
     (fun c x => law_tht QA QV ex_ident (hc_base c) (u_int ex_u) (u_f ex_u) x)
     (fun c x => law_eval QA QV (hc_base c) (u_a ex_u) x) (wave QA QV ex_ident)].
Example C76_case : forall F, let h := run QA QV F ex_ops (empty_heap QA QV ex_qcfg ex_qsc) in
  reachable QA QV F h /\ gen_is QA QV ex_ident h 0%nat ex_u /\
  option_map r_y (rel_view QA QV h 0%nat) = Some [1; 1; 1]%Q /\ cls_of QA QV h 0%nat = Some KSig /\
  match us_call QA QV ex_ident (default_config QA QV) ex_qsc ex_u UtNone 0%Q with
  | Ok s => r_y (sw_rel s) = [4; 4; 4]%Q /\ r_y (sw_ft s) = [4; 4; 4]%Q /\ r_y (sw_at s) = [1; 1; 1]%Q | Err _ => False end.
Proof.
  intros F h. split; [exists ex_qcfg, ex_qsc, ex_ops; reflexivity|].
  split; [|split; [vm_compute; reflexivity|split; [vm_compute; reflexivity|vm_compute; auto]]].
  change h with (step QA QV F (run QA QV F (firstn 2 ex_ops) (empty_heap QA QV ex_qcfg ex_qsc)) (nth 2 ex_ops (OConfig QA QV ex_qcfg))).
  set (h0 := run QA QV F (firstn 2 ex_ops) (empty_heap QA QV ex_qcfg ex_qsc)).
  exact (proj2 (C76_new_generator QA QV ex_ident F h0 (TaAxis QA 0%nat) (UtAxis (mkAxis (A:=QA) 0%Q 2%Q 1%Q)) ex_int (LiFun ex_law) LiNone ex_u eq_refl eq_refl)).
Qed.
