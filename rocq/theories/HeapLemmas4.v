(** Every API call and every history: invariant, frame, locality. *)
From Coq Require Import ZArith List Bool Lia.
From Verif Require Import Num Numpy AxisModel RelModel HeapModel HeapSpec HeapLemmas HeapLemmas2 HeapLemmas3.
Import ListNotations.

Section HeapL4.
Context (A : Arith) (V : Vals A) (F : vfun A V).
Notation num := (num A).
Notation val := (val V).
Notation axis := (axis A).
Notation rel := (rel A V).
Notation heap := (heap A V).
Notation M := (M A V).
Notation nax h a := (nth_error (h_ax h) a).
Notation nrel h r := (nth_error (h_rel h) r).
Notation ny h l := (nth_error (h_yarr h) l).
Notation nf h l := (nth_error (h_farr h) l).
Notation wf := (wf A V).
Notation isrel := (isrel A V).
Notation made := (made A V).
Notation built := (built A V).
Notation keeps := (keeps A V).
Notation res := (res A V).
Notation newo := (newo A V).
Notation bind' := (bindM A V).
Notation anyQ := (anyQ A V).
Notation step := (step A V F).
Notation exec := (exec A V F).
Notation run := (run A V F).
Notation op := (op A V).
Hint Extern 1 (anyE _) => exact I : core.

(** ** Generators *)
Section WithL.
Context (L : loc -> Prop).
Notation ext := (ext A V L).
Notation ok := (ok A V L).
Lemma new_gen_any h t f tht a w : ok h (h_new_gen A V t f tht a w) anyQ anyE.
Proof.
  unfold h_new_gen. apply ok_cfg_bind.
  apply ok_bind with (Q1 := fun tl h' => forall l, tl = Some l -> l < length (h_ax h')).
  { destruct t as [|l|s].
    - apply ok_ret. intros _ l [=].
    - apply ok_rd_bind; auto. intros o Ho. apply ok_ret. intros _ l' [= <-]. eapply nth_lt; eauto.
    - eapply ok_bind; [apply ok_ax_from_array|]. intros l h1 W1 X1 (-> & (o & Ho) & _ & _). apply ok_ret.
      intros _ l' [= <-]. eapply nth_lt; eauto. }
  intros tl h1 W1 X1 Htl W. cbn. split; [|split; [|exact I]].
  - destruct W. constructor; cbn; auto.
    intros g o a' Ho Ha. apply nth_app_inv in Ho. destruct Ho as [Ho|[-> ->]]; eauto.
  - constructor; auto. constructor; cbn; auto; intros; eauto.
    + eexists; split; eauto. repeat split; auto.
    + apply nth_app_old; auto.
Qed.
Lemma call_tl_bind {U} h t go (j : loc -> M U) Q :
  (forall h1 tl, wf h1 -> ext h h1 -> h_rel h1 = h_rel h ->
     match t with TaAxis a => tl = a | TaSeq _ => length (h_ax h) <= tl | TaNone => g_time go = Some tl end ->
     ok h1 (j tl) Q anyE) ->
  ok h (bind' (match t, g_time go with
             | TaAxis a, _ => ret A V a
             | TaSeq s, _ => ax_from_array A V (g_cfg go) s true
             | TaNone, Some a => ret A V a
             | TaNone, None => fail A V EBadInput end) j) Q anyE.
Proof.
  intros H. apply ok_wf. intros W. destruct t as [|a|s].
  - destruct (g_time go) as [a|].
    + apply ok_ret_bind. apply H; auto using ext_refl.
    + eapply ok_bind with (Q1 := fun _ _ => False); [apply ok_fail; auto|]. intros ? ? _ _ [].
  - apply ok_ret_bind. apply H; auto using ext_refl.
  - eapply ok_bind; [apply ok_ax_from_array|]. intros l h1 W1 X1 (-> & _ & E & _). apply H; auto.
Qed.
(** a sweep made by a generator: its axis is the calling axis, and so are those of its laws *)
Definition on_axis (h0 h : heap) (r tl : loc) : Prop :=
  exists o, nrel h r = Some o /\ length (h_rel h0) <= r /\ ro_cls o = KRel /\ ro_x o = tl.
Lemma call_any h g t tht0 : ok h (h_call A V g t tht0)
  (fun r h' => exists go tl o lf la, nth_error (h_gen h) g = Some go /\
     match t with TaAxis a => tl = a | TaSeq _ => length (h_ax h) <= tl | TaNone => g_time go = Some tl end /\
     nrel h' r = Some o /\ length (h_rel h) <= r /\ ro_cls o = KSweep /\ ro_x o = tl /\ length (h_yarr h) <= ro_y o /\
     ro_ft o = Some lf /\ ro_at o = Some la /\ on_axis h h' lf tl /\ on_axis h h' la tl) anyE.
Proof.
  unfold h_call. apply ok_rd_bind; auto. intros go Hgo. apply ok_cfg_bind.
  apply (call_tl_bind h t go).
  intros h1 tl W1 X1 R1 Htl.
  apply ok_rd_bind; auto. intros ax Hax. apply ok_lift_bind; auto. intros fy _.
  eapply ok_bind; [apply new_plain_any; intros ? [=]|]. intros fr h2 W2 X2 ((o2 & B1 & B2 & B3 & B4 & B5) & K2 & _).
  apply ok_lift_bind; auto. intros am _. apply ok_lift_bind; auto. intros th _.
  eapply ok_bind; [apply new_plain_any; intros ? [=]|]. intros thr h3 W3 X3 (_ & K3 & _).
  apply ok_lift_bind; auto. intros y _.
  eapply ok_bind; [apply new_plain_any; intros ? [=]|]. intros ar h4 W4 X4 ((o4 & C1 & C2 & C3 & C4 & C5) & K4 & _).
  pose proof (nth_lt _ _ _ C1) as L4. pose proof (K4 _ _ (K3 _ _ B1)) as B1'. pose proof (nth_lt _ _ _ B1') as L4'.
  pose proof (ext_rel_len _ _ _ _ _ X1). pose proof (ext_rel_len _ _ _ _ _ X2).
  pose proof (ext_rel_len _ _ _ _ _ X3). pose proof (ext_rel_len _ _ _ _ _ X4).
  pose proof (ext_y_len _ _ _ _ _ X1). pose proof (ext_y_len _ _ _ _ _ X2).
  pose proof (ext_y_len _ _ _ _ _ X3). pose proof (ext_y_len _ _ _ _ _ X4).
  eapply ok_conseq; [apply new_sweep_any|].
  - intros i [= <-]. exact L4'.
  - intros i [= <-]. exact L4.
  - cbn beta. intros r h5 W5 X5 ((o & D1 & D2 & D3 & D4 & D5) & K5 & _ & o' & lf & la & E1 & E2 & E3 & E4 & E5).
    assert (o' = o) by congruence. subst o'. cbn in E4, E5. subst lf la.
    exists go, tl, o, fr, ar. split; auto. split; auto. split; auto. split; [lia|]. split; auto. split; auto.
    split; [lia|]. split; auto. split; auto. split.
    + exists o2. split; [apply K5, B1'|]. split; [lia|]. auto.
    + exists o4. split; [apply K5, C1|]. split; [lia|]. auto.
Qed.
Lemma apcall_any h ratio g sg t tht0 b : ok h (h_apcall A V ratio g sg t tht0 b)
  (fun r h' => hascls A V h' r KSweep /\ (b = true -> newo h h' r KSweep)) anyE.
Proof.
  unfold h_apcall. eapply ok_bind; [apply call_any|].
  intros sw h1 W1 X1 (go & tl & o & lf & la & H1 & H2 & H3 & H4 & H5 & H6 & H7 & H8 & H9 & _).
  destruct b.
  2:{ apply ok_ret. intros _. split; [exists o; auto|discriminate]. }
  eapply ok_bind; [apply norm_any|]. intros ns h2 W2 X2 _.
  eapply ok_bind; [apply norm_any|]. intros na h3 W3 X3 _.
  apply ok_lift_bind; auto. intros k _. apply ok_rd_bind; auto. intros o3 Ho3.
  destruct (ro_at o3) as [l|]; [|apply ok_fail; auto].
  eapply ok_bind; [apply operator_any|]. intros at' h4 W4 X4 _.
  eapply ok_conseq; [apply operator_any|]. cbn beta. intros r h5 W5 X5 (k' & Hk & N).
  assert (X : ext h1 h4) by eauto using ext_trans.
  assert (K : hascls A V h4 sw KSweep) by (eapply hascls_ext; [exact X|exists o; auto]).
  destruct K as (o4 & G1 & G2). destruct Hk as (o4' & G3 & G4). assert (E : k' = KSweep) by congruence. rewrite E in N.
  split; [destruct N as (o5 & N1 & N2 & _); exists o5; auto|]. intros _.
  eapply newo_from; [|exact N]. eauto using ext_trans.
Qed.
End WithL.

(** ** Framing of one call *)
Definition yloc_target (h : heap) (o : op) (l : loc) : Prop :=
  exists r ro, y_target A V o r /\ nrel h r = Some ro /\ ro_y ro = l.
Notation fr o h := (frame A V (link_target A V o) (ax_target A V h o) (yloc_target h o) h).

Lemma ok_frame {T} h (m : M T) Q E L (P Y : loc -> Prop) : ok A V L h m Q E -> wf h ->
  wf (snd (m h)) /\ frame A V L P Y h (snd (m h)) /\ h_cfg (snd (m h)) = h_cfg h /\ h_scfg (snd (m h)) = h_scfg h.
Proof.
  intros H W. destruct (H W) as (W' & [X C S] & _). split; auto. split; auto.
  eapply frame_weaken; [| |exact X]; intros l [].
Qed.
Lemma ok_one {L} h m Q E : ok A V L h m Q E -> ok A V L h (one A V m) (fun rs h' => exists r, rs = [r] /\ Q r h') E.
Proof.
  intros H. unfold one. eapply ok_bind; [exact H|]. intros r h1 W1 X1 q. apply ok_ret. eauto.
Qed.
Lemma ok_none {T L} h (m : M T) Q E : ok A V L h m Q E -> ok A V L h (none A V m) (fun rs h' => rs = []) E.
Proof.
  intros H. unfold none. eapply ok_bind; [exact H|]. intros r h1 W1 X1 q. apply ok_ret. eauto.
Qed.
Lemma ok_any {T L} h (m : M T) Q E : ok A V L h m Q E -> ok A V L h m anyQ anyE.
Proof. intros H. eapply ok_weaken; [exact H|unfold HeapLemmas.anyQ; auto|auto]. Qed.

Definition writes (o : op) : Prop :=
  match o with OSet _ _ _ | ORelSet _ _ _ | OWriteY _ _ _ | OConfig _ | OSweepConfig _ => True | _ => False end.

(** results of a call: their classes, and freshness when the call promises it *)
Definition result_ok (o : op) (h h' : heap) (P : cls -> Prop) (r : loc) : Prop :=
  exists k, P k /\ hascls A V h' r k /\ (independent_result A V o -> newo h h' r k).
Definition results_ok (o : op) (h : heap) (rs : list loc) (h' : heap) : Prop :=
  Forall2 (result_ok o h h') (result_classes A V h o) rs.

Lemma newo_hascls h h' r k : newo h h' r k -> hascls A V h' r k.
Proof. intros (o & H1 & H2 & _). exists o. auto. Qed.
Lemma newo_ok o h h' (P : cls -> Prop) r k : P k -> newo h h' r k -> result_ok o h h' P r.
Proof. intros H N. exists k. split; auto. split; auto. eapply newo_hascls; eauto. Qed.
Lemma hascls_of h r k : hascls A V h r k -> cls_of A V h r = Some k.
Proof. intros (o & H1 & H2). unfold cls_of. rewrite H1. cbn. congruence. Qed.
Lemma same_ok o h h' r0 r : same_cls A V h r0 r h' -> result_ok o h h' (same_class A V h r0) r.
Proof. intros (k & H & N). eapply newo_ok; eauto. apply hascls_of; auto. Qed.

Lemma exec_ok o h : ~ writes o ->
  ok A V (link_target A V o) h (exec o) (fun rs h' => results_ok o h rs h') anyE.
Proof.
  intros Hw. set (L := link_target A V o).
  assert (Hone : forall m (Q : loc -> heap -> Prop) P, ok A V L h m Q anyE -> result_classes A V h o = [P] ->
     (forall r h', Q r h' -> result_ok o h h' P r) ->
     ok A V L h (one A V m) (fun rs h' => results_ok o h rs h') anyE).
  { intros m Q P H HP HQ. eapply ok_conseq; [apply ok_one; exact H|]. cbn beta.
    intros rs h' _ _ (r & -> & q). unfold results_ok. rewrite HP. constructor; auto. }
  assert (Hnone : forall T (m : M T) (Q : T -> heap -> Prop), ok A V L h m Q anyE -> result_classes A V h o = [] ->
     ok A V L h (none A V m) (fun rs h' => results_ok o h rs h') anyE).
  { intros T m Q H HP. eapply ok_conseq; [eapply ok_none; exact H|]. cbn beta. intros rs h' _ _ ->.
    unfold results_ok. rewrite HP. constructor. }
  assert (Hml : forall r d, (link_target A V o r) \/ dom_true d = false -> may_link A V L h r d).
  { intros r d [H|H] E; [auto|congruence]. }
  destruct o; cbn [HeapModel.exec]; try (exfalso; apply Hw; exact I).
  - eapply Hnone; [apply ok_ax_new|reflexivity].
  - eapply Hnone; [apply ok_cfg_bind; apply ok_ax_from_array|reflexivity].
  - apply Hnone with (Q := anyQ); [|reflexivity]. unfold ax_copy. apply ok_wf. intros W. apply ok_rd_bind; auto. intros ax Hax.
    eapply ok_any. eapply ok_alloc_ax with (E := anyE). eapply wf_good; eauto.
  - eapply Hnone; [apply axarray_any|reflexivity].
  - eapply Hnone; [apply axsize_any|reflexivity].
  - eapply Hnone; [apply axactual_any|reflexivity].
  - eapply Hone; [apply construct_any|reflexivity|]. cbn beta. intros r h' ((ro & B1 & B2 & B3 & B4 & B5) & _).
    exists k. split; auto. split; [exists ro; auto|]. intros Hi.
    exists ro. split; auto. split; auto. destruct x; [|cbn in Hi; contradiction|]; repeat split; auto.
  - eapply Hnone; [apply get_data_any|reflexivity].
  - eapply Hnone; [apply get_data_write_any|reflexivity].
  - eapply Hone; [apply operator_any|reflexivity|intros; apply same_ok; auto].
  - eapply Hone; [apply shift_any|reflexivity|intros; apply same_ok; auto].
  - eapply Hone; [apply method_any|reflexivity|intros; apply same_ok; auto].
  - eapply Hone; [apply method_any|reflexivity|intros; apply same_ok; auto].
  - eapply Hone; [apply exp_any|reflexivity|intros; apply same_ok; auto].
  - eapply Hnone; [apply norm_any|reflexivity].
  - eapply Hone; [apply select_any|reflexivity|intros; apply same_ok; auto].
  - eapply Hnone; [apply getitem_any|reflexivity].
  - eapply Hone; [apply interp_any|reflexivity|intros; apply same_ok; auto].
  - eapply ok_bind; [apply equalize_any|]. intros e h1 W1 X1 [H1 H2].
    apply ok_ret. intros _. constructor; [apply same_ok; auto|]. constructor; [apply same_ok; auto|constructor].
  - eapply Hone; [apply lagged_any|reflexivity|]. cbn beta. intros; eapply newo_ok; eauto.
  - eapply Hone; [apply get_spectrum_any|reflexivity|].
    + apply Hml. cbn. destruct (dom_true fr); auto.
    + cbn beta. intros r' h' (o' & H1 & H2). exists (ro_cls o'). split; [destruct (ro_cls o'); cbn in H2; congruence|].
      split; [exists o'; auto|cbn; contradiction].
  - eapply Hone; [apply get_signal_any|reflexivity|].
    + apply Hml. cbn. destruct (dom_true tm); auto.
    + cbn beta. intros r' h' (o' & H1 & H2). exists (ro_cls o'). split; [destruct (ro_cls o'); cbn in H2; auto; congruence|].
      split; [exists o'; auto|cbn; contradiction].
  - eapply Hone; [apply amp_any|reflexivity|]. cbn beta. intros; eapply newo_ok; eauto.
  - eapply Hone; [apply phase_any|reflexivity|]. cbn beta. intros; eapply newo_ok; eauto.
  - eapply Hone; [apply sig_amp_any|reflexivity|].
    + apply Hml. cbn. destruct (dom_true fr); auto.
    + cbn beta. intros; eapply newo_ok; eauto.
  - eapply Hone; [apply sig_phase_spectrum_any|reflexivity|].
    + apply Hml. cbn. destruct (dom_true fr); auto.
    + cbn beta. intros; eapply newo_ok; eauto.
  - eapply Hone; [apply from_amp_phase_any|reflexivity|]. cbn beta. intros r h' [N _]. eapply newo_ok; eauto.
  - eapply Hone; [apply add_phase_any|reflexivity|]. cbn beta. intros r' h' (k & Hc & N & Hk). eapply newo_ok; [|exact N].
    apply hascls_of in Hc. unfold same_class. destruct k; auto. contradiction.
  - eapply Hone; [apply add_phase_any|reflexivity|]. cbn beta. intros r' h' (k & Hc & N & Hk). eapply newo_ok; [|exact N].
    apply hascls_of in Hc. unfold same_class. destruct k; auto. contradiction.
  - eapply Hone; [apply reverse_filter_any|reflexivity|]. cbn beta. intros r' h' [N _]. eapply newo_ok; eauto.
  - eapply Hone; [apply reverse_signal_any|reflexivity|intros; apply same_ok; auto].
  - eapply Hone; [apply deepcopy_any|reflexivity|intros; apply same_ok; auto].
  - eapply Hnone; [apply new_gen_any|reflexivity].
  - eapply Hone; [apply call_any|reflexivity|]. cbn beta.
    intros r h' (go & tl & ro & lf & la & H1 & H2 & H3 & H4 & H5 & H6). exists KSweep. split; auto.
    split; [exists ro; auto|cbn; contradiction].
  - eapply Hone; [apply apcall_any|reflexivity|]. cbn beta. intros r h' [H N]. exists KSweep. split; auto.
Qed.

Lemma set_frame h f a v L (P Y : loc -> Prop) : wf h -> P a ->
  wf (snd (ax_set A V f a v h)) /\ frame A V L P Y h (snd (ax_set A V f a v h)) /\
  h_cfg (snd (ax_set A V f a v h)) = h_cfg h /\ h_scfg (snd (ax_set A V f a v h)) = h_scfg h.
Proof.
  intros W HP. unfold ax_set, bindM, get_ax, rd, put_ax. destruct (nax h a) as [o|] eqn:Ho; cbn.
  - split; [apply wf_put_ax; auto; apply good_new|]. split; auto.
    exact (frame_put_ax A V L P Y h a o _ Ho (or_introl HP)).
  - split; auto. split; auto. apply frame_refl.
Qed.
Lemma snd_none {T} (m : M T) h : snd (none A V m h) = snd (m h).
Proof. unfold none, bindM, ret. destruct (m h) as [[x|e] h1]; reflexivity. Qed.
Lemma wf_put_y h l y : wf h -> wf (with_yarr A V h (upd (h_yarr h) l y)).
Proof. intros W. constructor; cbn; try apply W. intros r o Ho. rewrite upd_length. eapply wf_y; eauto. Qed.
Lemma frame_put_y h l y L (P Y : loc -> Prop) : Y l -> frame A V L P Y h (with_yarr A V h (upd (h_yarr h) l y)).
Proof.
  intros HY. constructor; cbn; auto; intros; eauto.
  - rewrite upd_other; auto. intros ->. contradiction.
  - rewrite upd_length. lia.
  - eexists; split; eauto. repeat split; auto.
Qed.

Theorem step_frame h o : wf h ->
  wf (step h o) /\ fr o h (step h o) /\
  (~ sets_config A V o -> h_cfg (step h o) = h_cfg h /\ h_scfg (step h o) = h_scfg h).
Proof.
  intros W.
  assert (Hd : writes o \/ ~ writes o) by (destruct o; cbn; auto).
  destruct Hd as [Hw|Hw].
  2:{ destruct (ok_frame h (exec o) _ _ _ (ax_target A V h o) (yloc_target h o) (exec_ok o h Hw) W) as (H1 & H2 & H3 & H4).
      split; auto. }
  unfold HeapModel.step. destruct o; cbn in Hw; try contradiction; cbn [HeapModel.exec].
  - rewrite snd_none. destruct (set_frame h f a v (link_target A V (OSet A V f a v)) (ax_target A V h (OSet A V f a v)) (yloc_target h (OSet A V f a v)) W eq_refl) as (H1 & H2 & H3 & H4).
    split; auto.
  - rewrite snd_none. unfold bindM at 1 2 3 4, get_rel, rd. destruct (nrel h r) as [ro|] eqn:Ho.
    + assert (HP : ax_target A V h (ORelSet A V f r v) (ro_x ro)).
      { cbn. unfold axis_of. rewrite Ho. reflexivity. }
      destruct (set_frame h f (ro_x ro) v (link_target A V (ORelSet A V f r v)) (ax_target A V h (ORelSet A V f r v)) (yloc_target h (ORelSet A V f r v)) W HP) as (H1 & H2 & H3 & H4).
      split; auto.
    + cbn. split; auto. split; auto. apply frame_refl.
  - rewrite snd_none. unfold h_write_y, bindM, get_rel, get_y, rd. destruct (nrel h r) as [ro|] eqn:Ho.
    + destruct (nth_some _ _ (wf_y _ _ h W r ro Ho)) as (y & Hy). rewrite Hy.
      destruct (Nat.ltb i (length y)); cbn.
      * split; [apply wf_put_y; auto|]. split; auto. apply frame_put_y. exists r, ro. cbn. auto.
      * split; auto. split; auto. apply frame_refl.
    + cbn. split; auto. split; auto. apply frame_refl.
  - cbn. split; [|split; [|intros []; exact I]].
    + destruct W. constructor; cbn; auto.
    + constructor; cbn; auto; intros; eauto. eexists; split; eauto. repeat split; auto.
  - cbn. split; [|split; [|intros []; exact I]].
    + destruct W. constructor; cbn; auto.
    + constructor; cbn; auto; intros; eauto. eexists; split; eauto. repeat split; auto.
Qed.

Lemma wf_empty c sc : wf (empty_heap A V c sc).
Proof. constructor; cbn; intros; match goal with H : nth_error [] ?i = Some _ |- _ => destruct i; cbn in H; discriminate end. Qed.
Lemma run_wf ops h : wf h -> wf (run ops h).
Proof.
  revert h; induction ops as [|o ops IH]; intros h W; cbn; auto. apply IH. apply step_frame; auto.
Qed.
Theorem reachable_wf h : reachable A V F h -> wf h.
Proof. intros (c & sc & ops & ->). apply run_wf, wf_empty. Qed.
Lemma reachable_run h ops : reachable A V F h -> reachable A V F (run ops h).
Proof.
  intros (c & sc & ops0 & ->). exists c, sc, (ops0 ++ ops). unfold HeapModel.run. rewrite fold_left_app. reflexivity.
Qed.

(** ** Locality *)
Lemma step_ax h o a p : wf h -> ax_view A V h a = Some p -> ~ ax_target A V h o a -> ax_view A V (step h o) a = Some p.
Proof.
  intros W Ha N. destruct (step_frame h o W) as (_ & X & _). unfold ax_view in *.
  destruct (nax h a) as [ax|] eqn:E; [|discriminate]. cbn in Ha.
  destruct (fr_ax _ _ _ _ _ _ _ X a ax E) as (ax' & H1 & H2). rewrite H1. cbn. rewrite H2; auto.
Qed.
Lemma step_axis_of h o r a : wf h -> axis_of A V h r = Some a -> axis_of A V (step h o) r = Some a.
Proof.
  intros W H. destruct (step_frame h o W) as (_ & X & _). unfold axis_of in *.
  destruct (nrel h r) as [ro|] eqn:E; [|discriminate]. cbn in H.
  destruct (fr_rel _ _ _ _ _ _ _ X r ro E) as (ro' & H1 & H2 & H3 & _). rewrite H1. cbn. congruence.
Qed.
Lemma step_cls_of h o r k : wf h -> cls_of A V h r = Some k -> cls_of A V (step h o) r = Some k.
Proof.
  intros W H. destruct (step_frame h o W) as (_ & X & _). unfold cls_of in *.
  destruct (nrel h r) as [ro|] eqn:E; [|discriminate]. cbn in H.
  destruct (fr_rel _ _ _ _ _ _ _ X r ro E) as (ro' & H1 & H2 & H3 & _). rewrite H1. cbn. congruence.
Qed.
Lemma step_view h o r c a : wf h -> rel_view A V h r = Some c -> axis_of A V h r = Some a ->
  ~ ax_target A V h o a -> ~ y_target A V o r -> rel_view A V (step h o) r = Some c.
Proof.
  intros W H Ha Na Ny. destruct (step_frame h o W) as (_ & X & _). unfold rel_view, axis_of in *.
  destruct (nrel h r) as [ro|] eqn:E; [|discriminate]. cbn in Ha. injection Ha as <-.
  destruct (nax h (ro_x ro)) as [ax|] eqn:Ex; [|discriminate].
  destruct (ny h (ro_y ro)) as [y|] eqn:Ey; [|discriminate].
  destruct (fr_rel _ _ _ _ _ _ _ X r ro E) as (ro' & H1 & H2 & H3 & H4 & _).
  destruct (fr_ax _ _ _ _ _ _ _ X _ ax Ex) as (ax' & G1 & G2).
  rewrite H1, H3, H4, G1, G2 by auto. rewrite (fr_y _ _ _ _ _ _ _ X (ro_y ro) y); auto.
  intros (r' & ro2 & Y1 & Y2 & Y3). apply Ny. rewrite <- (wf_inj _ _ h W r' r ro2 ro); auto.
Qed.
Lemma view_axis h r c : rel_view A V h r = Some c -> exists a, axis_of A V h r = Some a /\ ax_view A V h a = Some (r_x c).
Proof.
  unfold rel_view, axis_of, ax_view. destruct (nrel h r) as [ro|]; [|discriminate]. intros H. exists (ro_x ro). split; auto.
  destruct (nax h (ro_x ro)); [|discriminate]. destruct (ny h (ro_y ro)); [|discriminate]. cbn. injection H as <-. reflexivity.
Qed.
Lemma run_ax ops h a p : wf h -> ax_view A V h a = Some p ->
  along A V F (fun h o => ~ ax_target A V h o a) h ops -> ax_view A V (run ops h) a = Some p.
Proof.
  revert h; induction ops as [|o ops IH]; intros h W Ha H; cbn; auto. destruct H as [H1 H2].
  apply IH; auto; [apply step_frame; auto|]. apply step_ax; auto.
Qed.
Lemma run_axis_of ops h r a : wf h -> axis_of A V h r = Some a -> axis_of A V (run ops h) r = Some a.
Proof.
  revert h; induction ops as [|o ops IH]; intros h W Ha; cbn; auto.
  apply IH; auto; [apply step_frame; auto|]. apply step_axis_of; auto.
Qed.
Lemma run_view ops h r c a : wf h -> rel_view A V h r = Some c -> axis_of A V h r = Some a ->
  along A V F (fun h o => ~ ax_target A V h o a /\ ~ y_target A V o r) h ops -> rel_view A V (run ops h) r = Some c.
Proof.
  revert h; induction ops as [|o ops IH]; intros h W Hc Ha H; cbn; auto. destruct H as [[H1 H2] H3].
  apply IH; auto; [apply step_frame; auto|eapply step_view; eauto|apply step_axis_of; auto].
Qed.
Lemma along_impl (P Q : heap -> op -> Prop) ops h : (forall h o, P h o -> Q h o) ->
  along A V F P h ops -> along A V F Q h ops.
Proof. intros H. revert h; induction ops as [|o ops IH]; intros h; cbn; auto. intros [H1 H2]. auto. Qed.

(** ** Reads *)
Lemma read_array_wf h a p : wf h -> ax_view A V h a = Some p -> read_array A V h a = axis_array A p.
Proof.
  intros W H. unfold ax_view in H. destruct (nax h a) as [o|] eqn:E; [|discriminate]. injection H as <-.
  destruct (array_spec A V (fun _ => False) h a o E W) as (_ & _ & H). unfold read_array.
  destruct (fst (ax_array A V a h)); [destruct H as (H & _)|]; auto.
Qed.
Lemma read_size_wf h a p : wf h -> ax_view A V h a = Some p -> read_size A V h a = axis_size A p.
Proof.
  intros W H. unfold ax_view in H. destruct (nax h a) as [o|] eqn:E; [|discriminate]. injection H as <-.
  destruct (size_spec A V (fun _ => False) h a o E W) as (_ & _ & H). unfold read_size.
  destruct (fst (ax_size A V a h)); [destruct H as (H & _)|]; auto.
Qed.
Lemma read_actual_wf h a p : wf h -> ax_view A V h a = Some p ->
  read_actual A V h a = (do arr <- axis_array A p; actual_sample A arr).
Proof.
  intros W H. unfold ax_view in H. destruct (nax h a) as [o|] eqn:E; [|discriminate]. injection H as <-.
  destruct (actual_spec A V (fun _ => False) h a o E W) as (_ & _ & H). unfold read_actual.
  destruct (fst (ax_actual A V a h)); auto.
Qed.
End HeapL4.
