(** Proofs about programs over names (C74). *)
From Coq Require Import Reals ZArith List Bool Lia.
From Verif Require Import Num Numpy Spec AxisModel RelModel RLemmas AxisLemmas InterpLemmas RelLemmas VInst
  HeapModel HeapSpec HeapLemmas HeapLemmas2 HeapLemmas3 HeapLemmas4 HeapLemmas5 HeapLemmas6 ProgModel ProgSpec.
Import ListNotations.
Local Open Scope nat_scope.

Section ProgL.
Context (A : Arith) (V : Vals A) (F : vfun A V).
Notation heap := (heap A V).
Notation rel := (rel A V).
Notation fits := (fits A V).
Notation exec := (exec A V F).
Notation step := (step A V F).
Notation reachable := (reachable A V F).
Notation untouched := (untouched A V).

Lemma make_fits x y r : rel_make A V x y = Ok r -> fits r.
Proof.
  unfold rel_make, ProgSpec.fits. destruct (axis_size A x) as [n|e] eqn:E; [|discriminate]. cbn.
  destruct (Nat.eqb_spec n (length y)); [|discriminate]. intros [= <-]. cbn. congruence.
Qed.
Ltac chase H := repeat match type of H with
  | bind ?e _ = Ok _ => destruct e; cbn [bind] in H; [|discriminate] end.
Lemma op_fits c o b r1 r2 r : rel_op A V c o b r1 r2 = Ok r -> fits r.
Proof. unfold rel_op. intros H. chase H. eapply make_fits; eauto. Qed.
Lemma op_num_fits c o r1 v r : rel_op_num A V c o r1 v = Ok r -> fits r.
Proof. unfold rel_op_num. intros H. chase H. eapply make_fits; eauto. Qed.
Lemma meth_fits c m r1 r : v_meth A V F c m r1 = Ok r -> fits r.
Proof.
  destruct m; cbn [v_meth]; intros H.
  - unfold rel_diff in H. chase H. eapply make_fits; eauto.
  - unfold rel_integrate in H. chase H. eapply make_fits; eauto.
  - unfold rel_map in H. chase H. eapply make_fits; eauto.
  - unfold rel_select in H. chase H. destruct (mask _ _) in H; [discriminate|].
    destruct (Nat.eqb _ _) in H; [|discriminate]. eapply make_fits; eauto.
  - unfold rel_shift in H. chase H. eapply make_fits; eauto.
Qed.

Lemma untouched_refl h : untouched h h.
Proof. repeat split; auto. Qed.
Lemma untouched_trans h1 h2 h3 : untouched h1 h2 -> untouched h2 h3 -> untouched h1 h3.
Proof.
  intros (A1 & A2 & A3 & A4 & A5) (B1 & B2 & B3 & B4 & B5). repeat split; eauto.
  - apply B2. apply A2. auto.
  - destruct (A2 _ _ H) as [G1 G2]. destruct (B2 _ _ G1) as [_ G3]. congruence.
Qed.
Lemma reach_step h o : reachable h -> reachable (step h o).
Proof.
  intros (c & sc & ops & ->). exists c, sc, (ops ++ [o]). unfold run. rewrite fold_left_app. reflexivity.
Qed.
Lemma step_untouched h o : reachable h -> ~ assigns A V o -> untouched h (step h o).
Proof.
  intros R N. destruct (operands_kept A V F h o R N) as (H1 & H2 & H3 & H4). repeat split; auto.
  - apply H2; auto.
  - apply (H2 a p); auto.
  - intros r cf H. apply step_cfg_of; auto. apply reachable_wf in R. auto.
Qed.
Lemma step_cfg h o : reachable h -> ~ writes A V o -> h_cfg (step h o) = h_cfg h.
Proof.
  intros R N. apply reachable_wf in R. destruct (exec_ok A V F o h N R) as (_ & X & _). unfold HeapModel.step.
  eapply ext_cfg; exact X.
Qed.
Lemma one_fst m (h : heap) : one A V m h = (match fst (m h) with Ok l => Ok [l] | Err e => Err e end, snd (m h)).
Proof. unfold one, bindM, ret. destruct (m h) as [[l|e] h']; reflexivity. Qed.

Section Class.
Context (k : cls) (cf : hconfig A V).
Hypothesis Hk : k <> KSweep.
Notation stands := (stands A V k cf).
Notation stand := (stand A V k cf).
Lemma stands_kept h h' l c : untouched h h' -> stands h l c -> stands h' l c.
Proof. intros (U1 & U2 & U3 & U4 & U5) (H1 & H2 & H3 & H4). repeat split; auto. Qed.
Lemma stand_kept h h' s v : untouched h h' -> stand h s v -> stand h' s v.
Proof. intros U H x. specialize (H x). destruct (s x), (v x); auto. eapply stands_kept; eauto. Qed.
Lemma stand_bind h s v x l c : stand h s v -> stands h l c -> stand h (bind_name x l s) (bind_name x c v).
Proof. intros H H1 y. unfold bind_name. destruct (Nat.eqb y x); auto. apply H. Qed.

(** one call *)
Definition answers (h : heap) (o : op A V) (m : heap -> result loc * heap) (w : result rel) : Prop :=
  let h' := snd (m h) in
  reachable h' /\ h_cfg h' = cf /\ untouched h h' /\
  match fst (m h), w with
  | Ok l, Ok c => stands h' l c /\ new_object A V h h' l
  | Err e, Err e' => e = e'
  | _, _ => False
  end.
Lemma answers_spec h o m w L : reachable h -> h_cfg h = cf -> ~ assigns A V o -> ~ writes A V o ->
  ~ sets_config A V o -> independent_result A V o ->
  exec o h = one A V m h -> (forall c, w = Ok c -> fits c) ->
  ok A V L h m (fun r' h' => exists c', chk A V k (h_scfg h) w = Ok c' /\ res A V h h' r' k c' (h_cfg h))
    (fun e => chk A V k (h_scfg h) w = Err e) ->
  answers h o m w.
Proof.
  intros R Hcf N1 N2 N3 N4 He Hw H. rewrite chk_plain in H by auto.
  pose proof (reachable_wf A V F h R) as W.
  assert (Hs : snd (m h) = step h o). { unfold HeapModel.step. rewrite He, one_fst. reflexivity. }
  unfold answers. rewrite Hs. split; [apply reach_step; auto|]. split; [rewrite step_cfg; auto|].
  split; [apply step_untouched; auto|].
  destruct (H W) as (_ & _ & G). rewrite <- Hs. destruct (m h) as [[l|e] h'] eqn:Em; cbn in G |- *.
  - destruct G as (c' & -> & x & y & I & Fr). split.
    + apply view_isrel in I. destruct I as (I1 & I2 & _ & I3). rewrite Hcf in I3. repeat split; auto.
    + apply (results_new A V F h o [l] h' R N1 N3 N4); [|left; auto]. rewrite He, one_fst, Em. reflexivity.
  - rewrite G. reflexivity.
Qed.

Lemma operator_rel_answers h o l1 l2 c1 c2 : reachable h -> h_cfg h = cf -> share_blind A V (hc_base cf) ->
  stands h l1 c1 -> stands h l2 c2 ->
  answers h (OOperator A V o l1 (HRel l2)) (h_operator A V o l1 (HRel l2)) (rel_op A V (hc_base cf) o false c1 c2).
Proof.
  intros R Hcf Hb (V1 & K1 & F1 & G1) (V2 & K2 & F2 & G2).
  destruct (isrel_view A V h l1 c1 V1) as (k1 & x1 & y1 & cf1 & I1 & E1 & E2 & E3).
  destruct (isrel_view A V h l2 c2 V2) as (k2 & x2 & y2 & cf2 & I2 & E1' & E2' & E3').
  assert (k1 = k) by congruence. assert (k2 = k) by congruence. assert (cf1 = cf) by congruence. assert (cf2 = cf) by congruence.
  subst k1 k2 cf1 cf2.
  assert (Hw : rel_op A V (hc_base cf) o false c1 c2 = rel_op A V (hc_base cf) o (Nat.eqb x1 x2) c1 c2).
  { destruct (Nat.eqb_spec x1 x2) as [->|]; auto. symmetry. apply Hb; auto.
    destruct I1 as (o1 & ax1 & _ & _ & _ & _ & _ & P1 & P2 & _). destruct I2 as (o2 & ax2 & _ & _ & _ & _ & _ & Q1 & Q2 & _). congruence. }
  rewrite Hw. apply answers_spec with (L := fun _ => False); auto; try (intros X; exact X); try exact I; [intros; eapply op_fits; eauto|].
  pose proof (op_rel_spec A V (fun _ => False) h o l1 l2 _ _ _ _ _ _ _ _ _ _ I1 I2) as S. cbn zeta in S.
  rewrite Hcf, op_val_rel in S by auto. rewrite chk_plain by auto. rewrite Hcf.
  unfold h_operator. eapply rel_bind; [exact I1|]. intros o1 _ -> _ _ _.
  destruct (converting o); cbn [negb]; [|exact S].
  destruct (is_sig k) eqn:Hs.
  - eapply rel_bind; [exact I2|]. intros o2 _ -> _ _ _. destruct k; try discriminate; exact S.
  - destruct (is_spec k) eqn:Hp; [|exact S]. eapply rel_bind; [exact I2|]. intros o2 _ -> _ _ _. rewrite Hs. exact S.
Qed.
Lemma operator_num_answers h o l1 c1 v : reachable h -> h_cfg h = cf -> stands h l1 c1 ->
  answers h (OOperator A V o l1 (HVal (OVal v))) (h_operator A V o l1 (HVal (OVal v))) (rel_op_num A V (hc_base cf) o c1 (OVal v)).
Proof.
  intros R Hcf (V1 & K1 & F1 & G1). destruct (one_isrel A V h l1 k c1 cf V1 K1 F1) as (x & y & J).
  apply answers_spec with (L := fun _ => False); auto; try (intros X; exact X); try exact I; [intros; eapply op_num_fits; eauto|].
  apply operator_num. apply op_num_spec with (1 := J).
Qed.
Definition meth_op (m : meth A) (l : loc) : op A V :=
  match m with
  | MDiff => ODiff A V l | MIntegrate => OIntegrate A V l | MExp => OExp A V l
  | MSelect s e => OSelect A V l s e | MShift d => OShift A V l d end.
Lemma meth_answers h m l1 c1 : reachable h -> h_cfg h = cf -> stands h l1 c1 ->
  (is_sig k = true -> match m with MShift _ => false | _ => true end = true) ->
  answers h (meth_op m l1) (h_meth A V F m l1) (v_meth A V F (hc_base cf) m c1).
Proof.
  intros R Hcf (V1 & K1 & F1 & G1) Hm. destruct (one_isrel A V h l1 k c1 cf V1 K1 F1) as (x & y & J).
  apply answers_spec with (L := fun _ => False); auto; try (destruct m; intros X; exact X); try (destruct m; exact I);
    try (destruct m; reflexivity); [intros; eapply meth_fits; eauto|].
  destruct m; cbn [h_meth v_meth].
  - apply method_spec with (1 := J).
  - apply method_spec with (1 := J).
  - unfold h_exp. eapply rel_bind; [exact J|]. intros o _ -> _ _ _. apply map_spec with (1 := J).
  - apply select_spec with (1 := J).
  - destruct (is_sig k) eqn:Hs; [discriminate (Hm eq_refl)|].
    unfold h_shift. eapply rel_bind; [exact J|]. intros o _ -> _ _ _. rewrite Hs. apply shift_axis_spec with (1 := J).
Qed.

Hypothesis Hb : share_blind A V (hc_base cf).
(** the state after a run of a piece of program *)
Definition after (h h' : heap) : Prop := reachable h' /\ h_cfg h' = cf /\ untouched h h'.
Definition agrees (h' : heap) (r : ran loc) (w : ran rel) : Prop :=
  match r, w with inl l, inl c => stands h' l c | inr a, inr b => a = b | _, _ => False end.
Lemma called_agrees h o m w : answers h o m w -> after h (snd (called A V (m h))) /\
  agrees (snd (called A V (m h))) (fst (called A V (m h))) (raised w).
Proof.
  intros (H1 & H2 & H3 & H4). destruct (m h) as [[l|e] h']; cbn in *; (split; [split; [|split]; auto|]).
  - destruct w; [|contradiction]. apply H4.
  - destruct w; [contradiction|]. cbn. congruence.
Qed.
Lemma after_trans h1 h2 h3 : after h1 h2 -> after h2 h3 -> after h1 h3.
Proof. intros (_ & _ & U) (R & C & U'). split; [auto|]. split; [auto|]. eapply untouched_trans; eauto. Qed.
Theorem eval_agrees s v e : (is_sig k = true -> shifts_e A V e = false) -> forall h, reachable h -> h_cfg h = cf -> stand h s v ->
  let r := h_eval A V F s e h in
  after h (snd r) /\ agrees (snd r) (fst r) (v_eval A V F (hc_base cf) v e).
Proof.
  intros Hs. induction e as [x|o e1 IH1 e2 IH2|o e1 IH1 w|m e1 IH1]; intros h R C St; cbn zeta.
  - split; [split; [|split]; auto; apply untouched_refl|]. cbn. specialize (St x).
    destruct (s x), (v x); try contradiction; auto; reflexivity.
  - cbn [shifts_e] in Hs. assert (Hs1 : is_sig k = true -> shifts_e A V e1 = false) by (intros E; apply Hs in E; apply orb_false_iff in E; tauto).
    assert (Hs2 : is_sig k = true -> shifts_e A V e2 = false) by (intros E; apply Hs in E; apply orb_false_iff in E; tauto).
    specialize (IH1 Hs1 h R C St). cbn zeta in IH1. cbn [h_eval v_eval].
    destruct (h_eval A V F s e1 h) as [[l1|st1] h1]; cbn [fst snd] in IH1; destruct IH1 as ((R1 & C1 & U1) & G1); cbn in G1;
      destruct (v_eval A V F (hc_base cf) v e1) as [c1|st1']; try contradiction.
    2:{ subst. split; [split; auto|]. reflexivity. }
    specialize (IH2 Hs2 h1 R1 C1 (stand_kept _ _ _ _ U1 St)). cbn zeta in IH2.
    destruct (h_eval A V F s e2 h1) as [[l2|st2] h2]; cbn [fst snd] in IH2; destruct IH2 as ((R2 & C2 & U2) & G2); cbn in G2;
      destruct (v_eval A V F (hc_base cf) v e2) as [c2|st2']; try contradiction.
    2:{ subst. split; [split; [|split]; auto; eapply untouched_trans; eauto|]. reflexivity. }
    destruct (called_agrees _ _ _ _ (operator_rel_answers h2 o l1 l2 c1 c2 R2 C2 Hb (stands_kept _ _ _ _ U2 G1) G2)) as (Q1 & Q2).
    split; [|exact Q2]. eapply after_trans; [|exact Q1]. split; [|split]; eauto. eapply untouched_trans; eauto.
  - specialize (IH1 Hs h R C St). cbn zeta in IH1. cbn [h_eval v_eval].
    destruct (h_eval A V F s e1 h) as [[l1|st1] h1]; cbn [fst snd] in IH1; destruct IH1 as ((R1 & C1 & U1) & G1); cbn in G1;
      destruct (v_eval A V F (hc_base cf) v e1) as [c1|st1']; try contradiction.
    2:{ subst. split; [split; auto|]. reflexivity. }
    destruct (called_agrees _ _ _ _ (operator_num_answers h1 o l1 c1 w R1 C1 G1)) as (Q1 & Q2).
    split; [|exact Q2]. eapply after_trans; [|exact Q1]. split; [|split]; auto.
  - assert (Hs1 : is_sig k = true -> shifts_e A V e1 = false) by (intros E; apply Hs in E; cbn in E; destruct m; auto; discriminate).
    specialize (IH1 Hs1 h R C St). cbn zeta in IH1. cbn [h_eval v_eval].
    destruct (h_eval A V F s e1 h) as [[l1|st1] h1]; cbn [fst snd] in IH1; destruct IH1 as ((R1 & C1 & U1) & G1); cbn in G1;
      destruct (v_eval A V F (hc_base cf) v e1) as [c1|st1']; try contradiction.
    2:{ subst. split; [split; auto|]. reflexivity. }
    assert (Hm : is_sig k = true -> match m with MShift _ => false | _ => true end = true)
      by (intros E; apply Hs in E; cbn in E; destruct m; auto).
    destruct (called_agrees _ _ _ _ (meth_answers h1 m l1 c1 R1 C1 G1 Hm)) as (Q1 & Q2).
    split; [|exact Q2]. eapply after_trans; [|exact Q1]. split; [|split]; auto.
Qed.

(** statements *)
Definition runs (h : heap) (st : h_state A V) (w : env rel * option stop) : Prop :=
  let '(s', h', z) := st in after h h' /\ stand h' s' (fst w) /\ z = snd w.
Lemma bind_runs h0 h x s v r w : after h0 h -> stand h s v -> after h (snd r) -> agrees (snd r) (fst r) w ->
  runs h0 (h_bind A V x s r) (v_bind A V x v w).
Proof.
  intros Q0 St Q1 Q2. pose proof (after_trans _ _ _ Q0 Q1) as Q. destruct Q1 as (_ & _ & U).
  destruct r as [[l|st] h']; cbn in *; destruct w as [c|st']; try contradiction; cbn.
  - split; auto. split; auto. apply stand_bind; auto. eapply stand_kept; eauto.
  - split; auto. split; [|congruence]. eapply stand_kept; eauto.
Qed.
Lemma loop_runs n (f : h_state A V -> h_state A V) g h0 :
  (forall s h v, after h0 h -> stand h s v -> runs h (f (s, h, None)) (g (v, None))) ->
  forall s h v, after h0 h -> stand h s v ->
  runs h0 (loop n f is_stopped (s, h, None)) (loop n g is_stopped (v, None)).
Proof.
  intros Hf. induction n as [|n IH]; intros s h v Q St.
  - cbn. auto.
  - cbn [loop]. specialize (Hf s h v Q St). destruct (f (s, h, None)) as [[s' h'] z]. destruct (g (v, None)) as [v' z'].
    cbn in Hf. destruct Hf as (Q' & St' & ->). pose proof (after_trans _ _ _ Q Q') as Q2. cbn [is_stopped snd].
    destruct z'; [cbn; auto|]. cbn [is_stopped snd]. apply IH with (h := h'); auto.
Qed.
Theorem exec_agrees p : (is_sig k = true -> shifts A V p = false) -> forall s h v, reachable h -> h_cfg h = cf -> stand h s v ->
  runs h (h_exec A V F p (s, h)) (v_exec A V F (hc_base cf) p v).
Proof.
  induction p as [x e|x o e|x o w|n b IH| |p IHp q IHq]; intros Hs s h v R C St.
  - destruct (eval_agrees s v e Hs h R C St) as (Q1 & Q2). cbn [h_exec v_exec fst snd]. apply bind_runs with (h := h); auto.
    split; [|split]; auto. apply untouched_refl.
  - cbn [h_exec v_exec fst snd v_eval]. pose proof (St x) as Sx. destruct (s x) as [l|], (v x) as [c|]; try contradiction.
    2:{ cbn. split; auto. split; [|split]; auto. apply untouched_refl. }
    destruct (eval_agrees s v e Hs h R C St) as (Q1 & Q2).
    destruct (h_eval A V F s e h) as [[l2|st2] h2]; cbn [fst snd] in Q1, Q2; cbn in Q2;
      destruct (v_eval A V F (hc_base cf) v e) as [c2|st2']; try contradiction.
    2:{ subst. cbn. split; auto. split; auto. eapply stand_kept; eauto. apply Q1. }
    destruct Q1 as (R2 & C2 & U2).
    destruct (called_agrees _ _ _ _ (operator_rel_answers h2 o l l2 c c2 R2 C2 Hb (stands_kept _ _ _ _ U2 Sx) Q2)) as (Q3 & Q4).
    apply bind_runs with (h := h2); auto. { split; auto. } eapply stand_kept; eauto.
  - cbn [h_exec v_exec fst snd v_eval]. pose proof (St x) as Sx. destruct (s x) as [l|], (v x) as [c|]; try contradiction.
    2:{ cbn. split; auto. split; [|split]; auto. apply untouched_refl. }
    destruct (called_agrees _ _ _ _ (operator_num_answers h o l c w R C Sx)) as (Q3 & Q4).
    apply bind_runs with (h := h); auto. split; [|split]; auto. apply untouched_refl.
  - cbn [h_exec v_exec]. apply loop_runs with (h := h) (h0 := h); auto.
    + intros s' h' v' (R' & C' & U') St'. cbn [fst]. apply IH; auto.
    + split; [|split]; auto. apply untouched_refl.
  - cbn. split; auto. split; [|split]; auto. apply untouched_refl.
  - cbn [shifts] in Hs. cbn [h_exec v_exec].
    assert (H1 : runs h (h_exec A V F p (s, h)) (v_exec A V F (hc_base cf) p v)).
    { apply IHp; auto. intros E; apply Hs in E; apply orb_false_iff in E; tauto. }
    destruct (h_exec A V F p (s, h)) as [[s' h'] z]. destruct (v_exec A V F (hc_base cf) p v) as [v' z'].
    cbn in H1. destruct H1 as ((R' & C' & U') & St' & ->). cbn [is_stopped snd fst]. destruct z' as [st|].
    + cbn. split; auto. split; auto.
    + assert (H2 : runs h' (h_exec A V F q (s', h')) (v_exec A V F (hc_base cf) q v')).
      { apply IHq; auto. intros E; apply Hs in E; apply orb_false_iff in E; tauto. }
      destruct (h_exec A V F q (s', h')) as [[s2 h2] z2]. cbn in H2 |- *. destruct H2 as (Q & S2 & E). split; auto.
      eapply after_trans; [|exact Q]. split; auto.
Qed.
End Class.

(** names the program does not assign keep their object *)
Lemma loop_frame n (f : h_state A V -> h_state A V) x :
  (forall st, fst (fst (f st)) x = fst (fst st) x) -> forall st, fst (fst (loop n f is_stopped st)) x = fst (fst st) x.
Proof.
  intros Hf. induction n as [|n IH]; intros st; cbn [loop]; auto. destruct (is_stopped (f st)); auto.
  rewrite IH. auto.
Qed.
Lemma bind_other x y s r : y <> x -> fst (fst (h_bind A V x s r)) y = s y.
Proof. intros Hn. destruct r as [[l|e] h]; cbn; auto. unfold bind_name. destruct (Nat.eqb_spec y x); congruence. Qed.
Theorem exec_frame p x : ~ assigned A V p x -> forall a, fst (fst (h_exec A V F p a)) x = fst a x.
Proof.
  induction p as [y e|y o e|y o w|n b IH| |p IHp q IHq]; cbn [assigned]; intros Hn a; cbn [h_exec].
  - apply bind_other; auto.
  - destruct (fst a y) eqn:E; auto. destruct (h_eval A V F (fst a) e (snd a)) as [[l2|st] h2]; cbn; auto. apply bind_other; auto.
  - destruct (fst a y) eqn:E; auto. apply bind_other; auto.
  - rewrite loop_frame; [reflexivity|]. intros st. rewrite IH; auto.
  - reflexivity.
  - destruct (is_stopped (h_exec A V F p a)); [apply IHp; tauto|]. rewrite IHq by tauto. apply IHp. tauto.
Qed.
(** an augmented assignment that succeeds binds a new object *)
Theorem aug_new k cf x o e s v h : k <> KSweep -> share_blind A V (hc_base cf) ->
  (is_sig k = true -> shifts_e A V e = false) -> reachable h -> h_cfg h = cf -> stand A V k cf h s v ->
  let st := h_exec A V F (SAug A V x o e) (s, h) in snd st = None ->
  exists l, fst (fst st) x = Some l /\ nth_error (h_rel h) l = None.
Proof.
  intros Hk Hb Hs R C St. cbn zeta. cbn [h_exec fst snd]. pose proof (St x) as Sx. destruct (s x) as [l|], (v x) as [c|]; try contradiction; try discriminate.
  destruct (eval_agrees k cf Hk Hb s v e Hs h R C St) as (Q1 & Q2).
  destruct (h_eval A V F s e h) as [[l2|st2] h2]; cbn [fst snd] in Q1, Q2; cbn in Q2; [|discriminate].
  destruct (v_eval A V F (hc_base cf) v e) as [c2|st2']; try contradiction. destruct Q1 as (R2 & C2 & U2).
  destruct (operator_rel_answers k cf Hk h2 o l l2 c c2 R2 C2 Hb (stands_kept _ _ _ _ _ _ U2 Sx) Q2) as (_ & _ & _ & Q).
  unfold h_augmented. destruct (h_operator A V o l (HRel l2) h2) as [[l'|er] h']; cbn in Q |- *; [|discriminate].
  intros _. exists l'. unfold bind_name. rewrite Nat.eqb_refl. split; auto.
  destruct (rel_op A V (hc_base cf) o false c c2); [|contradiction]. destruct Q as (_ & ro & _ & N & _).
  destruct (nth_error (h_rel h) l') as [ro'|] eqn:E; auto. destruct U2 as (_ & _ & U3 & _).
  assert (X : cls_of A V h l' = Some (ro_cls ro')) by (unfold cls_of; rewrite E; reflexivity).
  apply U3 in X. unfold cls_of in X. rewrite N in X. discriminate.
Qed.
End ProgL.

Lemma default_share_blind (V : Vals RA) (L : VLaws V) : share_blind RA V (default_config RA V).
Proof. intros o r1 r2 H1 H2 Hx. rewrite !(rel_op_equal_axes L) by auto. reflexivity. Qed.
