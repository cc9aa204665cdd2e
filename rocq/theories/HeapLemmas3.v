(** Conversions, composite methods, every API call: well-formedness, framing, freshness of results. *)
From Coq Require Import ZArith List Bool Lia.
From Verif Require Import Num Numpy AxisModel RelModel HeapModel HeapLemmas HeapLemmas2.
Import ListNotations.

Section HeapL3.
Context (A : Arith) (V : Vals A) (F : vfun A V) (L : loc -> Prop).
Notation num := (num A).
Notation val := (val V).
Notation axis := (axis A).
Notation rel := (rel A V).
Notation heap := (heap A V).
Notation M := (M A V).
Notation nax h a := (nth_error (h_ax h) a).
Notation nrel h r := (nth_error (h_rel h) r).
Notation ny h l := (nth_error (h_yarr h) l).
Notation nf h l := (nth_error (h_farr h) l).
Notation wf := (wf A V).
Notation ext := (ext A V L).
Notation ok := (ok A V L).
Notation isrel := (isrel A V).
Notation made := (made A V).
Notation built := (built A V).
Notation keeps := (keeps A V).
Notation res := (res A V).
Notation bind' := (bindM A V).
Notation anyQ := (anyQ A V).
Hint Extern 1 (anyE _) => exact I : core.

Ltac xt := match goal with
  | |- HeapLemmas.ext _ _ _ ?h ?h' => assumption
  | X : HeapLemmas.ext _ _ _ ?g ?h' |- HeapLemmas.ext _ _ _ _ ?h' => apply (ext_trans A V L _ g _); [xt|exact X]
  end.
(** ** Fresh results *)
Definition newo (h h' : heap) (r : loc) (k : cls) : Prop :=
  exists o, nrel h' r = Some o /\ ro_cls o = k /\ fresh A V h r (ro_x o) (ro_y o).
Definition hascls (h : heap) (r : loc) (k : cls) : Prop := exists o, nrel h r = Some o /\ ro_cls o = k.
Lemma hascls_ext h h' r k : ext h h' -> hascls h r k -> hascls h' r k.
Proof.
  intros X (o & Ho & E). destruct (ext_rel _ _ _ _ _ _ _ X Ho) as (o' & Ho' & E1 & _). exists o'. split; congruence.
Qed.
Lemma hascls_det h r k k' : hascls h r k -> hascls h r k' -> k = k'.
Proof. intros (o & H1 & E1) (o' & H2 & E2). congruence. Qed.
Lemma newo_cls h h' r k : newo h h' r k -> hascls h' r k.
Proof. intros (o & H1 & H2 & _). exists o; auto. Qed.
Lemma newo_from h0 h h' r k : ext h0 h -> newo h h' r k -> newo h0 h' r k.
Proof. intros X (o & H1 & H2 & H3). exists o. split; auto. split; auto. eapply fresh_ext; eauto. Qed.
Lemma newo_ext h h' h'' r k : ext h' h'' -> newo h h' r k -> newo h h'' r k.
Proof.
  intros X (o & H1 & H2 & H3). destruct (ext_rel _ _ _ _ _ _ _ X H1) as (o' & Ho' & E1 & E2 & E3 & _).
  exists o'. split; auto. split; [congruence|]. rewrite E2, E3. exact H3.
Qed.
Lemma res_newo h h' r k c cf : res h h' r k c cf -> newo h h' r k.
Proof.
  intros (x & y & I & Fr). destruct (isrel_nrel _ _ _ _ _ _ _ _ _ I) as (o & H1 & H2 & H3 & H4 & H5).
  exists o. subst. auto.
Qed.
Lemma made_newo h h' r k x c : length (h_ax h) <= x -> made h h' r k x c -> newo h h' r k.
Proof.
  intros Hx (y & I & H1 & H2). destruct (isrel_nrel _ _ _ _ _ _ _ _ _ I) as (o & G1 & G2 & G3 & G4 & G5).
  exists o. subst. split; auto. split; auto. repeat split; auto.
Qed.
Lemma isrel_cls h r k x y c cf : isrel h r k x y c cf -> hascls h r k.
Proof. intros I. destruct (isrel_nrel _ _ _ _ _ _ _ _ _ I) as (o & G1 & G2 & _). exists o; auto. Qed.

(** reading a relation that may not exist *)
Lemma rel_case {U} h r (j : relobj A V -> M U) Q :
  (forall o c, nrel h r = Some o -> isrel h r (ro_cls o) (ro_x o) (ro_y o) c (ro_cfg o) -> ok h (j o) Q anyE) ->
  ok h (bind' (get_rel A V r) j) Q anyE.
Proof.
  intros H. apply ok_wf. intros W. apply ok_rd_bind; auto. intros o Ho.
  destruct (isrel_of A V h r o W Ho) as (c & Hc). eauto.
Qed.
Lemma dangling_content {U} h r (j : rel -> M U) Q :
  (forall o c, nrel h r = Some o -> isrel h r (ro_cls o) (ro_x o) (ro_y o) c (ro_cfg o) -> ok h (j c) Q anyE) ->
  ok h (bind' (content A V r) j) Q anyE.
Proof.
  intros H. apply ok_wf. intros W. destruct (nrel h r) as [o|] eqn:Ho.
  - destruct (isrel_of A V h r o W Ho) as (c & Hc). eapply content_bind; eauto.
  - unfold content. apply ok_assoc. apply ok_rd_bind; auto. congruence.
Qed.
Lemma dangling {T} h r (m : M T) Q :
  (nrel h r = None -> m h = (Err EDangling, h)) ->
  (forall o c, nrel h r = Some o -> isrel h r (ro_cls o) (ro_x o) (ro_y o) c (ro_cfg o) -> ok h m Q anyE) ->
  ok h m Q anyE.
Proof.
  intros H1 H2. apply ok_wf. intros W. destruct (nrel h r) as [o|] eqn:Ho.
  - destruct (isrel_of A V h r o W Ho) as (c & Hc). eauto.
  - intros _. rewrite H1 by auto. cbn. split; auto. split; [apply ext_refl|exact I].
Qed.
Ltac dang r := apply dangling with (r := r); [intros Hn; unfold bindM, get_rel, rd; rewrite Hn; reflexivity|].

(** ** Methods whose result keeps the class of the receiver *)
Definition same_cls (h : heap) (r : loc) : loc -> heap -> Prop :=
  fun r' h' => exists k, hascls h r k /\ newo h h' r' k.

Lemma op_num_any h o r b : ok h (h_operation A V o r (HVal b)) (same_cls h r) anyE.
Proof.
  apply dangling with (r := r); [intros Hn; unfold h_operation, bindM, get_rel, rd; rewrite Hn; reflexivity|].
  intros ro c Ho Hr. eapply ok_weaken; [eapply op_num_spec; exact Hr| |auto].
  cbn. intros r' h' _ _ (c' & _ & HR). exists (ro_cls ro). split; [eapply isrel_cls; eauto|eapply res_newo; eauto].
Qed.
Lemma interp_any h r x : ok h (h_interp A V r x) (same_cls h r) anyE.
Proof.
  apply dangling with (r := r); [intros Hn; unfold h_interp, bindM, get_rel, rd; rewrite Hn; reflexivity|].
  intros ro c Ho Hr. eapply ok_weaken; [eapply interp_spec; exact Hr| |auto].
  cbn. intros r' h' _ _ (c' & _ & HR). exists (ro_cls ro). split; [eapply isrel_cls; eauto|eapply res_newo; eauto].
Qed.
Lemma equalize_any h r1 r2 : ok h (h_equalize A V r1 r2)
  (fun e h' => same_cls h r1 (fst e) h' /\ same_cls h r2 (snd e) h') anyE.
Proof.
  apply dangling with (r := r1); [intros Hn; unfold h_equalize, bindM, get_rel, rd; rewrite Hn; reflexivity|].
  intros ro1 c1 Ho1 Hr1.
  apply dangling with (r := r2); [intros Hn; unfold h_equalize, bindM, get_rel, rd; rewrite Ho1, Hn; reflexivity|].
  intros ro2 c2 Ho2 Hr2.
  eapply ok_weaken; [eapply equalize_spec; eauto| |auto].
  cbn. intros e h' _ _ (d1 & d2 & g1 & g2 & _ & R1 & R2).
  split; [exists (ro_cls ro1)|exists (ro_cls ro2)]; (split; [eapply isrel_cls; eauto|eapply res_newo; eauto]).
Qed.
Lemma operation_any h o r b : ok h (h_operation A V o r b) (same_cls h r) anyE.
Proof.
  destruct b as [r2|b]; [|apply op_num_any].
  apply dangling with (r := r); [intros Hn; unfold h_operation, bindM, get_rel, rd; rewrite Hn; reflexivity|].
  intros ro1 c1 Ho1 Hr1.
  apply dangling with (r := r2).
  { intros Hn. unfold h_operation, h_equalize, bindM, get_rel, rd. rewrite Ho1, Ho1, Hn. reflexivity. }
  intros ro2 c2 Ho2 Hr2.
  eapply ok_weaken; [eapply op_rel_spec; eauto| |auto].
  cbn. intros e h' _ _ (c' & _ & R1). exists (ro_cls ro1). split; [eapply isrel_cls; eauto|eapply res_newo; eauto].
Qed.
Lemma shift_axis_any h r d : ok h (h_shift_axis A V r d) (same_cls h r) anyE.
Proof.
  apply dangling with (r := r); [intros Hn; unfold h_shift_axis, bindM, get_rel, rd; rewrite Hn; reflexivity|].
  intros ro c Ho Hr. eapply ok_weaken; [eapply shift_axis_spec; exact Hr| |auto].
  cbn. intros r' h' _ _ (c' & _ & HR). exists (ro_cls ro). split; [eapply isrel_cls; eauto|eapply res_newo; eauto].
Qed.
Lemma select_any h r s e : ok h (h_select A V r s e) (same_cls h r) anyE.
Proof.
  apply dangling with (r := r); [intros Hn; unfold h_select, bindM, get_rel, rd; rewrite Hn; reflexivity|].
  intros ro c Ho Hr. eapply ok_weaken; [eapply select_spec; exact Hr| |auto].
  cbn. intros r' h' _ _ (c' & _ & HR). exists (ro_cls ro). split; [eapply isrel_cls; eauto|eapply res_newo; eauto].
Qed.
Lemma map_any h k f r : ok h (h_map A V k f r) (fun r' h' => newo h h' r' k) anyE.
Proof.
  apply dangling with (r := r); [intros Hn; unfold h_map, bindM, get_rel, rd; rewrite Hn; reflexivity|].
  intros ro c Ho Hr. eapply ok_weaken; [eapply map_spec; exact Hr| |auto].
  cbn. intros r' h' _ _ (c' & _ & HR). eapply res_newo; eauto.
Qed.
Lemma exp_any h r : ok h (h_exp A V F r) (same_cls h r) anyE.
Proof.
  unfold h_exp. apply rel_case. intros o c Ho Hr.
  eapply ok_conseq; [apply map_any|]. cbn. intros r' h' _ _ N. exists (ro_cls o). split; auto. exists o; auto.
Qed.
Lemma method_any h pick r : ok h (h_method A V pick r) (same_cls h r) anyE.
Proof.
  apply dangling with (r := r); [intros Hn; unfold h_method, bindM, get_rel, rd; rewrite Hn; reflexivity|].
  intros ro c Ho Hr. eapply ok_weaken; [eapply method_spec; exact Hr| |auto].
  cbn. intros r' h' _ _ (c' & _ & HR). exists (ro_cls ro). split; [eapply isrel_cls; eauto|eapply res_newo; eauto].
Qed.

(** ** get_spectrum, get_signal *)
Definition dom_val (h : heap) (d : domarg) : result (dom A) :=
  match d with
  | DaNone => Ok (DNone A)
  | DaInt n => Ok (DInt A n)
  | DaAxis a => match nax h a with
                | Some o => match axis_size A (ao_p o) with Ok _ => Ok (DAxis A (ao_p o)) | Err e => Err e end
                | None => Err EDangling end
  end.
Lemma dom_bind {U} h d (j : dom A -> M U) Q (E : exn -> Prop) :
  (forall h1 v, dom_val h d = Ok v -> wf h1 -> ext h h1 -> h_rel h1 = h_rel h -> h_yarr h1 = h_yarr h -> ok h1 (j v) Q E) ->
  (forall e, dom_val h d = Err e -> E e) ->
  ok h (bind' (dom_content A V d) j) Q E.
Proof.
  intros H HE. apply ok_wf. intros W. destruct d as [|n|a]; cbn [dom_content dom_val] in *.
  - apply ok_ret_bind. apply H; auto using ext_refl.
  - apply ok_ret_bind. apply H; auto using ext_refl.
  - apply ok_assoc. destruct (nax h a) as [o|] eqn:Ho.
    + eapply ok_bind.
      { eapply ok_weaken; [apply (size_spec A V L h a o Ho)| |].
        - intros n h' _ _ G. exact G.
        - intros e He. apply HE. rewrite He. reflexivity. }
      intros n h1 W1 X1 (Hn & R1 & Y1). rewrite Hn in H. apply ok_assoc.
      destruct (ext_ax _ _ _ _ _ _ _ X1 Ho) as (o1 & Ho1 & E1).
      apply ok_rd_bind; [|congruence]. intros o' Ho'. assert (o' = o1) by congruence. subst o'.
      apply ok_ret_bind. rewrite E1. apply H; auto.
    + unfold ax_size, ax_array, ax_array_loc. repeat apply ok_assoc. apply ok_rd_bind; [congruence|auto].
Qed.
(** what the converting methods build: class [k'], axis object the argument's or new, samples [z] *)
Definition dom_built (h h' : heap) (d : domarg) (p : axis) (r' : loc) (k' : cls) (z : list val) (x : loc) : Prop :=
  exists q, made h h' r' k' x (mkRel q z) /\
    match d with DaAxis a => x = a /\ (exists o, nax h a = Some o /\ ao_p o = q) | _ => length (h_ax h) <= x /\ q = p end.

Definition opp_cls (k k' : cls) : Prop :=
  (is_sig k = true /\ is_spec k' = true) \/ (is_spec k = true /\ is_sig k' = true).

(** the axis parameters of the result *)
Definition dom_param (h : heap) (d : domarg) (p q : axis) : Prop :=
  match d with DaAxis a => exists o, nax h a = Some o /\ ao_p o = q | _ => q = p end.
Lemma convert_tail h r o d k' p z : nrel h r = Some o -> ro_link o = None \/ L r ->
  opp_cls (ro_cls o) k' -> is_sig k' = true \/ is_spec k' = true -> k' <> KSweep ->
  ok h (bind' (dom_axis A V d p) (fun x => bind' (new_plain A V k' (XaAxis x) (Some z) (Some r))
         (fun sp => bind' (set_link A V r sp) (fun _ => ret A V sp))))
   (fun r' h' => (exists x, dom_built h h' d p r' k' z x) /\
      (exists o1, nrel h' r' = Some o1 /\ ro_link o1 = Some r) /\
      nrel h' r = Some (mkRo (ro_cls o) (ro_x o) (ro_y o) (Some r') (ro_cfg o) (ro_ft o) (ro_at o)) /\
      (forall r1 o1, r1 <> r -> nrel h r1 = Some o1 -> nrel h' r1 = Some o1) /\
      (exists q, dom_param h d p q /\ rel_make A V q z = Ok (mkRel q z)))
   (fun e => forall q, dom_param h d p q -> rel_make A V q z = Err e).
Proof.
  intros Ho HL Hopp Hk Hk'. apply ok_wf. intros W.
  apply ok_bind with (Q1 := fun x h1 => h_rel h1 = h_rel h /\ h_yarr h1 = h_yarr h /\ exists q, (exists ax, nax h1 x = Some ax /\ ao_p ax = q) /\
     match d with DaAxis a => x = a /\ (exists o, nax h a = Some o /\ ao_p o = q) | _ => length (h_ax h) <= x /\ q = p end \/
     match d with DaAxis a => x = a /\ nax h1 a = None | _ => False end).
  { destruct d as [|n|a]; cbn.
    - eapply ok_conseq; [apply ok_ax_new|]. cbn. intros l h' _ _ (-> & (ax & H1 & H2) & H3 & H4).
      split; auto. split; auto. exists p. left. split; eauto.
    - eapply ok_conseq; [apply ok_ax_new|]. cbn. intros l h' _ _ (-> & (ax & H1 & H2) & H3 & H4).
      split; auto. split; auto. exists p. left. split; eauto.
    - apply ok_ret. intros _. split; auto. split; auto. destruct (nax h a) as [ax|] eqn:Hax.
      + exists (ao_p ax). left. split; eauto.
      + exists p. right. auto. }
  intros x h1 W1 X1 (R1 & Y1 & q & [[(ax & Hax & Eq) Hd]|Hd]).
  - eapply ok_bind.
    { eapply ok_weaken; [apply new_plain_axis; [exact Hax|]| |].
      - intros l [= <-]. exists o. rewrite R1. split; auto. unfold opp_cls in Hopp. tauto.
      - intros sp h2 _ _ G. exact G.
      - intros e He q' Hq'. rewrite Eq in He. replace q' with q; auto.
        destruct d as [|n|a]; cbn in Hq'; [destruct Hd; congruence..|].
        destruct Hq' as (oa & G1 & G2). destruct Hd as (_ & oa' & G3 & G4). congruence. }
    intros sp h2 W2 X2 (Hmk & Hm & Esp & K2 & ro & Hro & Hlk & _).
    assert (Hr2 : nrel h2 r = Some o) by (apply K2; rewrite R1; exact Ho).
    assert (Hlt : r < length (h_rel h)) by (eapply nth_lt; eauto).
    assert (Hne : sp <> r) by (rewrite Esp, R1; lia).
    unfold set_link. apply ok_assoc. apply ok_rd_bind; [|congruence].
    intros o' Ho'. assert (o' = o) by congruence. subst o'. clear Ho'.
    set (o1 := mkRo (ro_cls o) (ro_x o) (ro_y o) (Some sp) (ro_cfg o) (ro_ft o) (ro_at o)).
    destruct Hm as (yl & Hi & Hl1 & Hl2). destruct (isrel_nrel _ _ _ _ _ _ _ _ _ Hi) as (ro' & G1 & G2 & G3 & G4 & G5).
    assert (ro' = ro) by congruence. subst ro'.
    set (h3 := with_rel A V h2 (upd (h_rel h2) r o1)).
    assert (W3 : wf h3).
    { eapply wf_put_rel; [exact W2|exact Hr2|reflexivity|reflexivity|reflexivity| | |]; cbn.
      - intros l [= <-]. exists ro. split; auto. rewrite G2. exact Hopp.
      - intros l Hl. exact (wf_ft _ _ h2 W2 r o l Hr2 Hl).
      - intros l Hl. exact (wf_at _ _ h2 W2 r o l Hr2 Hl). }
    assert (X3 : ext h2 h3).
    { constructor; auto. eapply frame_put_rel; [exact Hr2|..]; cbn; auto.
      intros l N Hl. destruct HL; [congruence|contradiction]. }
    apply ok_step with (h1 := h3) (m' := ret A V sp); auto.
    apply ok_ret. intros _.
    assert (Hsp3 : nrel h3 sp = Some ro) by (cbn; rewrite upd_other by auto; exact Hro).
    split; [|split; [|split; [|split]]].
    + exists x, q. split; auto. exists yl. rewrite <- Eq. split.
      * rewrite <- (ext_cfg _ _ _ _ _ X1). eapply isrel_ext; eauto.
      * rewrite R1 in Hl1. rewrite Y1 in Hl2. auto.
    + exists ro. auto.
    + cbn. apply upd_same. eapply nth_lt; eauto.
    + intros r1 o2 Hr1 Ho2. cbn. rewrite upd_other by auto. apply K2. rewrite R1. exact Ho2.
    + exists q. rewrite Eq in Hmk. split; auto.
      destruct d as [|n|a]; cbn; [apply Hd..|]. destruct Hd as (_ & oa & G); eauto.
  - destruct d as [|n|a]; [contradiction|contradiction|]. destruct Hd as [-> Hn].
    unfold new_plain. apply ok_assoc. apply ok_cfg_bind. unfold init_xy. apply ok_assoc. apply ok_assoc.
    eapply ok_bind; [apply ok_alloc_y|]. intros yl h2 W2 X2 [-> ->].
    repeat (apply ok_assoc). apply ok_rd_bind; [cbn; congruence|].
    intros _ q' (oa & G1 & _). destruct (ext_ax _ _ _ _ _ _ _ X1 G1) as (ob & G3 & _). cbn in G3. congruence.
Qed.

Notation h_get_spectrum := (h_get_spectrum A V).
Notation h_get_signal := (h_get_signal A V).
Lemma get_spectrum_hit h r o l fr z : nrel h r = Some o -> is_sig (ro_cls o) = true -> ro_link o = Some l ->
  dom_true fr = false -> h_get_spectrum r fr z h = (Ok l, h).
Proof.
  intros Ho Hs Hl Hd. unfold HeapModel.h_get_spectrum, bindM, get_rel, rd. rewrite Ho, Hs, Hl, Hd. reflexivity.
Qed.
Lemma get_signal_hit h r o l tm st : nrel h r = Some o -> is_spec (ro_cls o) = true -> ro_link o = Some l ->
  dom_true tm = false -> h_get_signal r tm st h = (Ok l, h).
Proof.
  intros Ho Hs Hl Hd. unfold HeapModel.h_get_signal, bindM, get_rel, rd. rewrite Ho, Hs, Hl, Hd. reflexivity.
Qed.
(** a conversion that computes *)
Definition converted (h h' : heap) (r : loc) (o : relobj A V) (d : domarg) (k' : cls)
    (v : dom A -> result (axis * list val)) (r' : loc) : Prop :=
  exists dv p z, dom_val h d = Ok dv /\ v dv = Ok (p, z) /\
   (exists x, dom_built h h' d p r' k' z x) /\
   (exists o1, nrel h' r' = Some o1 /\ ro_link o1 = Some r) /\
   nrel h' r = Some (mkRo (ro_cls o) (ro_x o) (ro_y o) (Some r') (ro_cfg o) (ro_ft o) (ro_at o)) /\
   (forall r1 o1, r1 <> r -> nrel h r1 = Some o1 -> nrel h' r1 = Some o1).
(** the content of the object a conversion makes, or the exception *)
Definition conv_val (h : heap) (d : domarg) (v : dom A -> result (axis * list val)) : result rel :=
  do dv <- dom_val h d; do pz <- v dv;
  rel_make A V (match dv with DAxis q => q | _ => fst pz end) (snd pz).
Lemma conv_val_eq h h1 d dv v p z q : ext h h1 -> dom_val h d = Ok dv -> v dv = Ok (p, z) -> dom_param h1 d p q ->
  conv_val h d v = rel_make A V q z.
Proof.
  intros X H1 H2 H3. unfold conv_val. rewrite H1. cbn [bind]. rewrite H2. cbn [bind fst snd]. f_equal.
  destruct d as [|n|a]; cbn in H1, H3; [injection H1 as <-; congruence..|].
  destruct (nax h a) as [o|] eqn:Ho; [|discriminate]. destruct (axis_size A (ao_p o)); [|discriminate].
  injection H1 as <-. destruct H3 as (o1 & G1 & <-). destruct (ext_ax _ _ _ _ _ _ _ X Ho) as (o2 & G2 & G3). congruence.
Qed.
Lemma conv_param_ok h d dv p : dom_val h d = Ok dv -> exists q, dom_param h d p q.
Proof.
  destruct d as [|n|a]; cbn; intros H; eauto. destruct (nax h a) as [o|]; [|discriminate]. eauto.
Qed.
Lemma dom_param_ext h h1 d p q : ext h h1 -> dom_param h d p q -> dom_param h1 d p q.
Proof.
  intros X. destruct d as [|n|a]; cbn; auto. intros (o & H1 & H2).
  destruct (ext_ax _ _ _ _ _ _ _ X H1) as (o2 & G2 & G3). exists o2. split; congruence.
Qed.
Lemma dom_built_from h h1 h' d p r k z x : ext h h1 -> h_rel h1 = h_rel h -> h_yarr h1 = h_yarr h ->
  (forall a, d = DaAxis a -> a < length (h_ax h)) ->
  dom_built h1 h' d p r k z x -> dom_built h h' d p r k z x.
Proof.
  intros X R1 Y1 Hd (q & (yl & Hi & H1 & H2) & H3). exists q. split.
  - exists yl. rewrite (ext_cfg _ _ _ _ _ X) in Hi. rewrite R1 in H1. rewrite Y1 in H2. auto.
  - pose proof (ext_ax_len _ _ _ _ _ X). destruct d as [|n|a]; [destruct H3; split; [lia|auto]..|].
    destruct H3 as (E & o & Ho & Eq). split; auto.
    destruct (nth_some _ _ (Hd a eq_refl)) as (o0 & Ho0). exists o0. split; auto.
    destruct (ext_ax _ _ _ _ _ _ _ X Ho0) as (o1 & G1 & G2). congruence.
Qed.
Lemma dom_val_lt h d v : dom_val h d = Ok v -> forall a, d = DaAxis a -> a < length (h_ax h).
Proof.
  intros H a ->. cbn in H. destruct (nax h a) as [o|] eqn:E; [|discriminate]. eapply nth_lt; eauto.
Qed.
Lemma get_spectrum_miss_x h r o c fr z : nrel h r = Some o ->
  isrel h r (ro_cls o) (ro_x o) (ro_y o) c (ro_cfg o) -> is_sig (ro_cls o) = true ->
  ro_link o = None \/ dom_true fr = true -> ro_link o = None \/ L r ->
  ok h (h_get_spectrum r fr z)
    (fun r' h' => converted h h' r o fr KSpec (fun d => hc_s2s A V (ro_cfg o) c d z) r' /\ exists c', conv_val h fr (fun d => hc_s2s A V (ro_cfg o) c d z) = Ok c')
    (fun e => conv_val h fr (fun d => hc_s2s A V (ro_cfg o) c d z) = Err e).
Proof.
  intros Ho Hc Hs Hm HL. unfold HeapModel.h_get_spectrum. apply ok_rd_bind; [|congruence].
  intros o' Ho'. assert (o' = o) by congruence. subst o'. rewrite Hs. cbn [negb].
  assert (Hgoal : ok h (bind' (content A V r) (fun c => bind' (dom_content A V fr) (fun d =>
     bind' (lift A V (hc_s2s A V (ro_cfg o) c d z)) (fun fa => bind' (dom_axis A V fr (fst fa)) (fun x =>
       bind' (new_plain A V KSpec (XaAxis x) (Some (snd fa)) (Some r)) (fun sp =>
       bind' (set_link A V r sp) (fun _ => ret A V sp)))))))
     (fun r' h' => converted h h' r o fr KSpec (fun d => hc_s2s A V (ro_cfg o) c d z) r' /\ exists c', conv_val h fr (fun d => hc_s2s A V (ro_cfg o) c d z) = Ok c')
    (fun e => conv_val h fr (fun d => hc_s2s A V (ro_cfg o) c d z) = Err e)).
  { eapply content_bind; [exact Hc|]. apply dom_bind; [|intros e He; unfold conv_val; rewrite He; reflexivity]. intros h1 dv Hd W1 X1 R1 Y1.
    apply ok_lift_bind; [|intros e He; unfold conv_val; rewrite Hd; cbn [bind]; rewrite He; reflexivity]. intros [p y] Hp. cbn [fst snd].
    eapply ok_weaken; [apply (convert_tail h1 r o); auto| |].
    - rewrite R1. exact Ho.
    - left. auto.
    - discriminate.
    - cbn beta. intros r' h' W' X' ((x & H1) & H2 & H3 & H4 & q & Hq & Hmk). split; [|exists (mkRel q y); rewrite (conv_val_eq h h1 fr dv _ p y q X1 Hd Hp Hq); exact Hmk].
      exists dv, p, y. split; auto. split; auto.
      split; [exists x; eapply dom_built_from; eauto; eapply dom_val_lt; eauto|].
      split; auto. split; auto. rewrite R1 in H4. exact H4.
    - cbn beta. intros e He. destruct (conv_param_ok h fr dv p Hd) as (q & Hq).
      assert (Hq1 : dom_param h1 fr p q) by (eapply dom_param_ext; eauto).
      rewrite (conv_val_eq h h1 fr dv _ p y q X1 Hd Hp Hq1). auto. }
  destruct (ro_link o) as [l|]; [|exact Hgoal]. destruct Hm as [Hm|Hm]; [discriminate|]. rewrite Hm. exact Hgoal.
Qed.
Lemma get_spectrum_miss h r o c fr z : nrel h r = Some o ->
  isrel h r (ro_cls o) (ro_x o) (ro_y o) c (ro_cfg o) -> is_sig (ro_cls o) = true ->
  ro_link o = None \/ dom_true fr = true -> ro_link o = None \/ L r ->
  ok h (h_get_spectrum r fr z)
    (fun r' h' => converted h h' r o fr KSpec (fun d => hc_s2s A V (ro_cfg o) c d z) r')
    anyE.
Proof.
  intros H1 H2 H3 H4 H5. eapply ok_weaken; [apply get_spectrum_miss_x; eauto|intros r' h' _ _ [G _]; exact G|auto].
Qed.
Lemma get_signal_miss_x h r o c tm st : nrel h r = Some o ->
  isrel h r (ro_cls o) (ro_x o) (ro_y o) c (ro_cfg o) -> is_spec (ro_cls o) = true ->
  ro_link o = None \/ dom_true tm = true -> ro_link o = None \/ L r ->
  ok h (h_get_signal r tm st)
    (fun r' h' => converted h h' r o tm KSig (fun d => hc_sp2s A V (ro_cfg o) c d st) r' /\ exists c', conv_val h tm (fun d => hc_sp2s A V (ro_cfg o) c d st) = Ok c')
    (fun e => conv_val h tm (fun d => hc_sp2s A V (ro_cfg o) c d st) = Err e).
Proof.
  intros Ho Hc Hs Hm HL. unfold HeapModel.h_get_signal. apply ok_rd_bind; [|congruence].
  intros o' Ho'. assert (o' = o) by congruence. subst o'. rewrite Hs. cbn [negb].
  assert (Hgoal : ok h (bind' (content A V r) (fun c => bind' (dom_content A V tm) (fun d =>
     bind' (lift A V (hc_sp2s A V (ro_cfg o) c d st)) (fun fa => bind' (dom_axis A V tm (fst fa)) (fun x =>
       bind' (new_plain A V KSig (XaAxis x) (Some (snd fa)) (Some r)) (fun sp =>
       bind' (set_link A V r sp) (fun _ => ret A V sp)))))))
     (fun r' h' => converted h h' r o tm KSig (fun d => hc_sp2s A V (ro_cfg o) c d st) r' /\ exists c', conv_val h tm (fun d => hc_sp2s A V (ro_cfg o) c d st) = Ok c')
    (fun e => conv_val h tm (fun d => hc_sp2s A V (ro_cfg o) c d st) = Err e)).
  { eapply content_bind; [exact Hc|]. apply dom_bind; [|intros e He; unfold conv_val; rewrite He; reflexivity]. intros h1 dv Hd W1 X1 R1 Y1.
    apply ok_lift_bind; [|intros e He; unfold conv_val; rewrite Hd; cbn [bind]; rewrite He; reflexivity]. intros [p y] Hp. cbn [fst snd].
    eapply ok_weaken; [apply (convert_tail h1 r o); auto| |].
    - rewrite R1. exact Ho.
    - right. auto.
    - discriminate.
    - cbn beta. intros r' h' W' X' ((x & H1) & H2 & H3 & H4 & q & Hq & Hmk). split; [|exists (mkRel q y); rewrite (conv_val_eq h h1 tm dv _ p y q X1 Hd Hp Hq); exact Hmk].
      exists dv, p, y. split; auto. split; auto.
      split; [exists x; eapply dom_built_from; eauto; eapply dom_val_lt; eauto|].
      split; auto. split; auto. rewrite R1 in H4. exact H4.
    - cbn beta. intros e He. destruct (conv_param_ok h tm dv p Hd) as (q & Hq).
      assert (Hq1 : dom_param h1 tm p q) by (eapply dom_param_ext; eauto).
      rewrite (conv_val_eq h h1 tm dv _ p y q X1 Hd Hp Hq1). auto. }
  destruct (ro_link o) as [l|]; [|exact Hgoal]. destruct Hm as [Hm|Hm]; [discriminate|]. rewrite Hm. exact Hgoal.
Qed.
Lemma get_signal_miss h r o c tm st : nrel h r = Some o ->
  isrel h r (ro_cls o) (ro_x o) (ro_y o) c (ro_cfg o) -> is_spec (ro_cls o) = true ->
  ro_link o = None \/ dom_true tm = true -> ro_link o = None \/ L r ->
  ok h (h_get_signal r tm st)
    (fun r' h' => converted h h' r o tm KSig (fun d => hc_sp2s A V (ro_cfg o) c d st) r')
    anyE.
Proof.
  intros H1 H2 H3 H4 H5. eapply ok_weaken; [apply get_signal_miss_x; eauto|intros r' h' _ _ [G _]; exact G|auto].
Qed.

Definition isk (f : cls -> bool) (h : heap) (r : loc) : Prop := exists o, nrel h r = Some o /\ f (ro_cls o) = true.
Lemma isk_of f h r k : hascls h r k -> f k = true -> isk f h r.
Proof. intros (o & H1 & H2) H3. exists o. split; congruence. Qed.
Definition unlinked (h : heap) (r : loc) : Prop := forall o, nrel h r = Some o -> ro_link o = None.
Definition may_link (h : heap) (r : loc) (d : domarg) : Prop := dom_true d = true -> L r \/ unlinked h r.
Lemma may_none h r : may_link h r DaNone.
Proof. intros [=]. Qed.
Hint Resolve may_none : core.
Lemma get_spectrum_any h r fr z : may_link h r fr -> ok h (h_get_spectrum r fr z) (fun r' h' => isk is_spec h' r') anyE.
Proof.
  intros HM. apply ok_wf. intros W.
  apply dangling with (r := r); [intros Hn; unfold HeapModel.h_get_spectrum, bindM, get_rel, rd; rewrite Hn; reflexivity|].
  intros o c Ho Hc. destruct (is_sig (ro_cls o)) eqn:Hs.
  2:{ unfold HeapModel.h_get_spectrum. apply ok_rd_bind; [|congruence]. intros o' Ho'. assert (o' = o) by congruence.
      subst. rewrite Hs. apply ok_fail. auto. }
  assert (HL : dom_true fr = true -> ro_link o = None \/ L r) by (intros G; destruct (HM G) as [?|U]; auto).
  assert (Hm : ro_link o = None \/ dom_true fr = true \/ exists l, ro_link o = Some l /\ dom_true fr = false).
  { destruct (ro_link o) as [l|]; auto. destruct (dom_true fr); auto. right. right. eauto. }
  destruct Hm as [Hm|[Hm|(l & Hl & Hm)]].
  1,2: (eapply ok_conseq; [eapply get_spectrum_miss; eauto|]; cbn beta;
    intros r' h' _ _ (dv & p & y & _ & _ & (x & q & (yl & Hi & _) & _) & _);
    destruct (isrel_nrel _ _ _ _ _ _ _ _ _ Hi) as (o1 & G1 & G2 & _); exists o1; rewrite G2; auto).
  eapply ok_eq with (m := ret A V l); [rewrite (get_spectrum_hit h r o l); auto|].
  apply ok_ret. intros _. destruct (wf_link _ _ h W r o l Ho Hl) as (o' & H1 & [[H2 H3]|[H2 H3]]).
  - exists o'. auto.
  - destruct (ro_cls o); discriminate.
Qed.
Lemma get_signal_any h r tm st : may_link h r tm -> ok h (h_get_signal r tm st) (fun r' h' => isk is_sig h' r') anyE.
Proof.
  intros HM. apply ok_wf. intros W.
  apply dangling with (r := r); [intros Hn; unfold HeapModel.h_get_signal, bindM, get_rel, rd; rewrite Hn; reflexivity|].
  intros o c Ho Hc. destruct (is_spec (ro_cls o)) eqn:Hs.
  2:{ unfold HeapModel.h_get_signal. apply ok_rd_bind; [|congruence]. intros o' Ho'. assert (o' = o) by congruence.
      subst. rewrite Hs. apply ok_fail. auto. }
  assert (HL : dom_true tm = true -> ro_link o = None \/ L r) by (intros G; destruct (HM G) as [?|U]; auto).
  assert (Hm : ro_link o = None \/ dom_true tm = true \/ exists l, ro_link o = Some l /\ dom_true tm = false).
  { destruct (ro_link o) as [l|]; auto. destruct (dom_true tm); auto. right. right. eauto. }
  destruct Hm as [Hm|[Hm|(l & Hl & Hm)]].
  1,2: (eapply ok_conseq; [eapply get_signal_miss; eauto|]; cbn beta;
    intros r' h' _ _ (dv & p & y & _ & _ & (x & q & (yl & Hi & _) & _) & _);
    destruct (isrel_nrel _ _ _ _ _ _ _ _ _ Hi) as (o1 & G1 & G2 & _); exists o1; rewrite G2; auto).
  eapply ok_eq with (m := ret A V l); [rewrite (get_signal_hit h r o l); auto|].
  apply ok_ret. intros _. destruct (wf_link _ _ h W r o l Ho Hl) as (o' & H1 & [[H2 H3]|[H2 H3]]).
  - destruct (ro_cls o); discriminate.
  - exists o'. auto.
Qed.

(** ** Composite methods *)
Lemma same_from h h1 r r' h' : ext h h1 -> (exists o, nrel h r = Some o) -> same_cls h1 r r' h' -> same_cls h r r' h'.
Proof.
  intros X (o & Ho) (k & Hk & N). exists k. split; [|eapply newo_from; eauto].
  assert (hascls h r (ro_cls o)) by (exists o; auto).
  rewrite (hascls_det h1 r k (ro_cls o) Hk); auto. eapply hascls_ext; eauto.
Qed.
Lemma operator_any h o r b : ok h (h_operator A V o r b) (same_cls h r) anyE.
Proof.
  unfold h_operator. apply rel_case. intros ro c Ho Hr.
  destruct (converting o); cbn [negb]; [|apply operation_any].
  destruct (is_sig (ro_cls ro)) eqn:Hs.
  - destruct b as [r2|v]; [|apply operation_any]. apply rel_case. intros o2 c2 Ho2 Hr2.
    destruct (is_spec (ro_cls o2)); [|apply operation_any].
    eapply ok_bind; [apply get_signal_any; auto|]. intros s h1 W1 X1 _.
    eapply ok_conseq; [apply operation_any|]. intros r' h' _ _ H. eapply same_from; eauto.
  - destruct (is_spec (ro_cls ro)) eqn:Hp; [|apply operation_any].
    destruct b as [r2|[v|l|]]; try apply operation_any; try (apply ok_fail; auto; fail).
    apply rel_case. intros o2 c2 Ho2 Hr2.
    destruct (is_sig (ro_cls o2)); [|apply operation_any].
    eapply ok_bind; [apply get_spectrum_any; auto|]. intros s h1 W1 X1 _.
    eapply ok_conseq; [apply operation_any|]. intros r' h' _ _ H. eapply same_from; eauto.
Qed.
Lemma amp_any h r : ok h (h_amp A V F r) (fun r' h' => newo h h' r' KRel) anyE.
Proof.
  unfold h_amp, on_spec. apply rel_case. intros o c Ho Hr.
  destruct (is_spec _); [apply map_any|apply ok_fail; auto].
Qed.
Lemma phase_any h r : ok h (h_phase A V F r) (fun r' h' => newo h h' r' KRel) anyE.
Proof.
  unfold h_phase, on_spec. apply rel_case. intros o c Ho Hr.
  destruct (is_spec _); [apply map_any|apply ok_fail; auto].
Qed.
Lemma sig_amp_any h r fr z : may_link h r fr -> ok h (h_sig_amp A V F r fr z) (fun r' h' => newo h h' r' KRel) anyE.
Proof.
  intros HM. unfold h_sig_amp. eapply ok_bind; [apply get_spectrum_any; auto|]. intros s h1 W1 X1 _.
  eapply ok_conseq; [apply amp_any|]. intros r' h' _ _ H. eapply newo_from; eauto.
Qed.
Lemma sig_phase_spectrum_any h r fr z : may_link h r fr -> ok h (h_sig_phase_spectrum A V F r fr z) (fun r' h' => newo h h' r' KRel) anyE.
Proof.
  intros HM. unfold h_sig_phase_spectrum. eapply ok_bind; [apply get_spectrum_any; auto|]. intros s h1 W1 X1 _.
  eapply ok_conseq; [apply phase_any|]. intros r' h' _ _ H. eapply newo_from; eauto.
Qed.
Lemma plain_rel_any h k r : ok h (new_plain A V k (XaRel r) None None) (fun r' h' => newo h h' r' k /\ unlinked h' r') anyE.
Proof.
  eapply ok_conseq; [apply new_plain_any; intros ? [=]|]. cbn.
  intros r' h' _ _ ((o & H1 & H2 & H3 & H4 & H5) & _ & ro & Hro & Hl & _). split.
  - exists o. split; auto. split; auto. repeat split; auto.
  - intros o' Ho'. congruence.
Qed.
Lemma construct_rel_any h k r : ok h (construct A V k (XaRel r) None) (fun r' h' => newo h h' r' k) anyE.
Proof.
  eapply ok_conseq; [apply construct_any|]. cbn. intros r' h' _ _ ((o & H1 & H2 & H3 & H4 & H5) & _).
  exists o. split; auto. split; auto. repeat split; auto.
Qed.
Lemma from_amp_phase_any h am ph : ok h (h_from_amp_phase A V F am ph) (fun r' h' => newo h h' r' KSpec /\ unlinked h' r') anyE.
Proof.
  unfold h_from_amp_phase.
  eapply ok_bind; [apply operator_any|]. intros i h1 W1 X1 _.
  eapply ok_bind; [apply exp_any|]. intros e h2 W2 X2 _.
  eapply ok_bind; [apply operator_any|]. intros p h3 W3 X3 _.
  eapply ok_conseq; [apply plain_rel_any|]. intros r' h' _ _ [H HU]. split; [|exact HU].
  eapply newo_from; [|exact H]. eapply ext_trans; [|eauto]. eapply ext_trans; eauto.
Qed.
Lemma to_spectrum_any h b : ok h (to_spectrum A V b) (fun r' h' => isk is_spec h' r') anyE.
Proof.
  destruct b as [r|v]; cbn; [|apply ok_fail; auto]. apply rel_case. intros o c Ho Hr.
  destruct (is_sig _); [apply get_spectrum_any; auto|]. destruct (is_spec (ro_cls o)) eqn:E.
  - apply ok_ret. intros _. exists o; auto.
  - eapply ok_conseq; [apply plain_rel_any|]. intros r' h' _ _ [H _]. apply newo_cls in H. eapply isk_of; eauto.
Qed.
Lemma to_signal_any h b : ok h (to_signal A V b) (fun r' h' => isk is_sig h' r') anyE.
Proof.
  destruct b as [r|v]; cbn; [|apply ok_fail; auto]. apply rel_case. intros o c Ho Hr.
  destruct (is_spec _); [apply get_signal_any; auto|]. destruct (is_sig (ro_cls o)) eqn:E.
  - apply ok_ret. intros _. exists o; auto.
  - eapply ok_conseq; [apply plain_rel_any|]. intros r' h' _ _ [H _]. apply newo_cls in H. eapply isk_of; eauto.
Qed.
Lemma spec_phase_any h o r b : ok h (h_spec_phase A V F o r b) (fun r' h' => newo h h' r' KSpec /\ unlinked h' r') anyE.
Proof.
  unfold h_spec_phase.
  eapply ok_bind; [apply to_spectrum_any|]. intros so h1 W1 X1 _.
  eapply ok_bind; [apply amp_any|]. intros am h2 W2 X2 _.
  eapply ok_bind; [apply phase_any|]. intros p1 h3 W3 X3 _.
  eapply ok_bind; [apply phase_any|]. intros p2 h4 W4 X4 _.
  eapply ok_bind; [apply operator_any|]. intros p h5 W5 X5 _.
  eapply ok_conseq; [apply from_amp_phase_any|]. intros r' h' _ _ [H HU]. split; [|exact HU].
  eapply newo_from; [|exact H]. xt.
Qed.
Lemma sig_phase_any h o r b : ok h (h_sig_phase A V F o r b) (same_cls h r) anyE.
Proof.
  unfold h_sig_phase. apply rel_case. intros ro c Ho Hr.
  eapply ok_bind; [apply get_spectrum_any; auto|]. intros sp h1 W1 X1 _.
  eapply ok_bind; [apply spec_phase_any|]. intros sp' h2 W2 X2 [_ HU].
  eapply ok_bind; [apply get_signal_any; intros _; auto|]. intros sg h3 W3 X3 _.
  eapply ok_conseq; [apply construct_rel_any|]. intros r' h' _ _ H. exists (ro_cls ro).
  split; [exists ro; auto|]. eapply newo_from; [|exact H]. xt.
Qed.
Lemma add_phase_any h o r b : ok h (h_add_phase A V F o r b)
  (fun r' h' => exists k, hascls h r k /\ newo h h' r' k /\ k <> KRel) anyE.
Proof.
  unfold h_add_phase. apply rel_case. intros ro c Ho Hr. destruct (is_sig (ro_cls ro)) eqn:E.
  - eapply ok_conseq; [apply sig_phase_any|]. intros r' h' _ _ (k & (o' & Hk & <-) & N). exists (ro_cls ro).
    assert (o' = ro) by congruence. subst. split; [exists ro; auto|]. split; auto. intros G. rewrite G in E. discriminate.
  - unfold on_spec. apply rel_case. intros ro' c' Ho' _. assert (ro' = ro) by congruence. subst ro'.
    destruct (is_spec (ro_cls ro)) eqn:E2; [|apply ok_fail; auto].
    assert (EK : ro_cls ro = KSpec) by (destruct (ro_cls ro); cbn in E2; congruence).
    eapply ok_conseq; [apply spec_phase_any|]. intros r' h' _ _ [N _]. exists KSpec. split; [exists ro; auto|].
    split; auto. discriminate.
Qed.
Lemma axarray_any h a : ok h (ax_array A V a) anyQ anyE.
Proof.
  apply ok_wf. intros W. destruct (nax h a) as [o|] eqn:Ho.
  - eapply ok_weaken; [apply (array_spec A V L h a o Ho)|unfold HeapLemmas.anyQ; auto|auto].
  - unfold ax_array, ax_array_loc. apply ok_assoc. apply ok_rd_bind; [congruence|auto].
Qed.
Lemma axsize_any h a : ok h (ax_size A V a) anyQ anyE.
Proof.
  unfold ax_size. eapply ok_bind; [apply axarray_any|]. intros. apply ok_ret. unfold HeapLemmas.anyQ. auto.
Qed.
Lemma axactual_any h a : ok h (ax_actual A V a) anyQ anyE.
Proof.
  apply ok_wf. intros W. destruct (nax h a) as [o|] eqn:Ho.
  - eapply ok_weaken; [apply (actual_spec A V L h a o Ho)|unfold HeapLemmas.anyQ; auto|auto].
  - unfold ax_actual. apply ok_rd_bind; [congruence|auto].
Qed.
Lemma sig_shift_any h r d : ok h (h_sig_shift A V F r d) (same_cls h r) anyE.
Proof.
  unfold h_sig_shift.
  apply dangling with (r := r); [intros Hn; unfold HeapModel.h_get_spectrum, bindM, get_rel, rd; rewrite Hn; reflexivity|].
  intros ro c Ho Hr.
  eapply ok_bind; [apply get_spectrum_any; auto|]. intros sp h1 W1 X1 _.
  apply rel_case. intros so cs Hso Hrs.
  eapply ok_bind; [apply axarray_any|]. intros arr h2 W2 X2 _.
  eapply ok_bind.
  { eapply ok_conseq; [apply new_plain_any; intros ? [=]|]. intros ? ? _ _ _. exact I. }
  intros sh h3 W3 X3 _. eapply ok_conseq; [apply sig_phase_any|]. intros r' h' _ _ H.
  eapply same_from; [|eauto|exact H]. xt.
Qed.
Lemma shift_any h r d : ok h (h_shift A V F r d) (same_cls h r) anyE.
Proof.
  unfold h_shift. apply rel_case. intros o c Ho Hr.
  destruct (is_sig _); [apply sig_shift_any|apply shift_axis_any].
Qed.
Lemma reverse_filter_any h r p s f0 f1 : ok h (h_reverse_filter A V F r p s f0 f1) (fun r' h' => newo h h' r' KSpec /\ unlinked h' r') anyE.
Proof.
  unfold h_reverse_filter.
  eapply ok_bind with (Q1 := anyQ).
  { unfold on_spec. apply rel_case. intros o c Ho Hr. destruct (is_spec _); [|apply ok_fail; auto].
    eapply ok_conseq; [apply select_any|]. unfold HeapLemmas.anyQ. auto. }
  intros sl h1 W1 X1 _.
  eapply ok_bind; [apply amp_any|]. intros am h2 W2 X2 _.
  apply dangling_content. intros _ amc _ _. apply ok_lift_bind; auto. intros mx _.
  eapply ok_bind; [apply operator_any|]. intros am2 h3 W3 X3 _.
  eapply ok_bind; [apply operator_any|]. intros inv h4 W4 X4 _.
  eapply ok_bind; [apply phase_any|]. intros ph h5 W5 X5 _.
  eapply ok_bind; [apply operator_any|]. intros ph2 h6 W6 X6 _.
  eapply ok_conseq; [apply from_amp_phase_any|]. intros r' h' _ _ [H HU]. split; [|exact HU].
  eapply newo_from; [|exact H]. xt.
Qed.
Lemma reverse_signal_any h r p s f0 f1 : ok h (h_reverse_signal A V F r p s f0 f1) (same_cls h r) anyE.
Proof.
  unfold h_reverse_signal. apply rel_case. intros ro c Ho Hr.
  eapply ok_bind; [apply get_spectrum_any; auto|]. intros sp h1 W1 X1 _.
  eapply ok_bind; [apply reverse_filter_any|]. intros rf h2 W2 X2 [_ HU].
  eapply ok_bind; [apply get_signal_any; intros _; auto|]. intros sg h3 W3 X3 _.
  eapply ok_conseq; [apply construct_rel_any|]. intros r' h' _ _ H. exists (ro_cls ro).
  split; [exists ro; auto|]. eapply newo_from; [|exact H]. xt.
Qed.
Lemma default_lagged_any h comb r1 r2 : ok h (default_lagged A V F comb r1 r2) anyQ anyE.
Proof.
  unfold default_lagged.
  apply dangling_content. intros _ c1 _ _. eapply ok_bind; [apply shift_any|]. intros s1 h1 W1 X1 _.
  apply dangling_content. intros _ c2 _ _. eapply ok_bind; [apply shift_any|]. intros s2 h2 W2 X2 _.
  eapply ok_bind; [apply equalize_any|]. intros e h3 W3 X3 _.
  apply dangling_content. intros _ e1 _ _. apply dangling_content. intros _ e2 _ _.
  apply ok_lift_bind; auto. intros y _. apply ok_ret. unfold HeapLemmas.anyQ. auto.
Qed.
Lemma rel_lagged_any h l k b1 b2 : ok h (h_rel_lagged A V F l k b1 b2) (fun r' h' => newo h h' r' k) anyE.
Proof.
  unfold h_rel_lagged. destruct b1 as [r1|]; [|apply ok_fail; auto]. destruct b2 as [r2|]; [|apply ok_fail; auto].
  apply ok_cfg_bind. eapply ok_bind with (Q1 := anyQ).
  { destruct (lag_method A V l (h_cfg h)) as [f|]; [|apply default_lagged_any].
    apply dangling_content. intros _ c1 _ _. apply dangling_content. intros _ c2 _ _.
    apply ok_lift; unfold HeapLemmas.anyQ; auto. }
  intros xy h1 W1 X1 _. eapply new_ax_bind. intros h2 ax W2 X2 Hax _ _ _.
  eapply construct_fresh with (h0 := h); [eapply ext_trans; eauto| |eauto| |auto].
  - exact (ext_ax_len _ _ _ _ _ X1).
  - intros r' h' _ _ HR _. eapply res_newo; eauto.
Qed.
Lemma lagged_any h l k b1 b2 : ok h (h_lagged A V F l k b1 b2) (fun r' h' => newo h h' r' k) anyE.
Proof.
  unfold h_lagged. destruct (is_sig k); [|destruct (is_spec k); [|apply rel_lagged_any]].
  - eapply ok_bind; [apply to_signal_any|]. intros s1 h1 W1 X1 _.
    eapply ok_bind; [apply to_signal_any|]. intros s2 h2 W2 X2 _.
    eapply ok_bind; [apply rel_lagged_any|]. intros r h3 W3 X3 _.
    eapply ok_conseq; [apply construct_rel_any|]. intros r' h' _ _ H.
    eapply newo_from; [|exact H]. xt.
  - eapply ok_bind; [apply to_spectrum_any|]. intros s1 h1 W1 X1 _.
    eapply ok_bind; [apply to_spectrum_any|]. intros s2 h2 W2 X2 _.
    eapply ok_conseq; [apply rel_lagged_any|]. intros r' h' _ _ H.
    eapply newo_from; [|exact H]. xt.
Qed.
Lemma norm_any h r : ok h (h_norm A V r) anyQ anyE.
Proof.
  apply dangling with (r := r); [intros Hn; unfold h_norm, bindM, get_rel, rd; rewrite Hn; reflexivity|].
  intros o c Ho Hr. eapply ok_weaken; [eapply norm_spec; exact Hr|unfold HeapLemmas.anyQ; auto|auto].
Qed.
Lemma getitem_any h r v : ok h (h_getitem A V r v) anyQ anyE.
Proof.
  apply dangling with (r := r); [intros Hn; unfold h_getitem, bindM, get_rel, rd; rewrite Hn; reflexivity|].
  intros o c Ho Hr. eapply ok_weaken; [eapply getitem_spec; exact Hr|unfold HeapLemmas.anyQ; auto|auto].
Qed.
Lemma get_data_any h r : ok h (h_get_data A V r) anyQ anyE.
Proof.
  apply dangling with (r := r); [intros Hn; unfold h_get_data, bindM, get_rel, rd; rewrite Hn; reflexivity|].
  intros o c Ho Hr. eapply ok_weaken; [eapply get_data_spec; exact Hr|unfold HeapLemmas.anyQ; auto|auto].
Qed.
Lemma get_data_write_any h r i v j w : ok h (h_get_data_write A V r i v j w) anyQ anyE.
Proof.
  apply dangling with (r := r); [intros Hn; unfold h_get_data_write, h_get_data, bindM, get_rel, rd; rewrite Hn; reflexivity|].
  intros o c Ho Hr. eapply get_data_write_spec; eauto.
Qed.
Lemma deepcopy_any h r : ok h (deepcopy A V r) (same_cls h r) anyE.
Proof.
  apply dangling with (r := r); [intros Hn; unfold deepcopy, bindM, get_rel, rd; rewrite Hn; reflexivity|].
  intros o c Ho Hr. eapply ok_weaken; [eapply deepcopy_spec; exact Hr| |auto].
  cbn. intros r' h' _ _ (x & y & I & Fr & _). exists (ro_cls o). split; [exists o; auto|].
  eapply res_newo. exists x, y. split; eauto.
Qed.
End HeapL3.
