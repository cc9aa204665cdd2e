(** Proofs about generators from a-priori data as objects (C81). *)
From Coq Require Import ZArith List Bool Lia.
From Verif Require Import Num Numpy AxisModel RelModel HeapModel HeapSpec HeapLemmas HeapLemmas2 HeapLemmas3 HeapLemmas4
  HeapLemmas5 HeapLemmas6 HeapLemmas7 HeapLemmas8 FourierModel SignalSpec SweepModel SweepLemmas CallSpec CallLemmas AprioriModel AprioriSpec UtilLemmas.
Import ListNotations.

Section Ap.
Context (A : Arith) (V : Vals A) (F : vfun A V) (W : wfun A V).
Notation axis := (axis A).
Notation rel := (rel A V).
Notation heap := (heap A V).
Notation val := (val V).
Notation step := (step A V F).
Notation exec := (exec A V F).
Notation run := (run A V F).
Notation op := (op A V).
Notation reachable := (reachable A V F).
Notation outcome := (outcome A V F).
Notation nax h a := (nth_error (h_ax h) a).
Notation nrel h r := (nth_error (h_rel h) r).
Notation one_out k v := (do c' <- v; Ok [(Some k, Some c')]).

(** an operation returning one object *)
Lemma outcome_ok o h m k v : exec o = one A V m -> outcome o h = one_out k v ->
  match v with
  | Ok c => exists r, m h = (Ok r, step h o) /\ cls_of A V (step h o) r = Some k /\ rel_view A V (step h o) r = Some c
  | Err e => m h = (Err e, step h o)
  end.
Proof.
  intros Em H. unfold HeapSpec.outcome, HeapModel.step in *. rewrite Em in *. unfold one, bindM, ret in *.
  destruct (m h) as [[r|e] h1]; destruct v as [c|e']; cbn in *; try discriminate.
  - injection H as H1 H2. exists r. auto.
  - injection H as ->. reflexivity.
Qed.
Lemma outcome_ok' o h m (Q : cls -> Prop) v : exec o = one A V m ->
  match v with Ok c => exists k, Q k /\ outcome o h = Ok [(Some k, Some c)] | Err e => outcome o h = Err e end ->
  match v with
  | Ok c => exists r k, Q k /\ m h = (Ok r, step h o) /\ cls_of A V (step h o) r = Some k /\ rel_view A V (step h o) r = Some c
  | Err e => m h = (Err e, step h o)
  end.
Proof.
  intros Em H. destruct v as [c|e].
  - destruct H as (k & Hk & H). destruct (outcome_ok o h m k (Ok c) Em H) as (r & H1 & H2 & H3). exists r, k. auto.
  - exact (outcome_ok o h m KRel (Err e) Em H).
Qed.

(** constructors compute [rel_init] *)
Definition xarg_val (h : heap) (x : xarg A) (v : x_in A V) : Prop :=
  match x, v with
  | XaRel r, XRel c => rel_view A V h r = Some c
  | XaAxis a, XAxis p => ax_view A V h a = Some p
  | XaSeq s, XSeq s' => s = s'
  | _, _ => False
  end.
Definition new_obj (h h' : heap) (r : loc) (k : cls) (c : rel) : Prop :=
  cls_of A V h' r = Some k /\ rel_view A V h' r = Some c /\ cfg_of A V h' r = Some (h_cfg h) /\ remembered A V h' r = None /\
  cls_of A V h r = None.
Lemma new_made h h' r k x c : made A V h h' r k x c ->
  (exists ro, nrel h' r = Some ro /\ ro_link ro = None /\ ro_ft ro = None /\ ro_at ro = None) -> new_obj h h' r k c.
Proof.
  intros (yl & I1 & N1 & _) (ro & Hro & El & _). destruct (view_isrel A V _ _ _ _ _ _ _ I1) as (V1 & K1 & _ & C1).
  unfold new_obj. split; [exact K1|]. split; [exact V1|]. split; [exact C1|]. split.
  - unfold remembered. rewrite Hro. exact El.
  - unfold cls_of. rewrite (proj2 (nth_error_None _ _)) by exact N1. reflexivity.
Qed.
Lemma new_plain_made h k x v y : reachable h -> k <> KSweep -> xarg_val h x v ->
  match rel_init A V (hc_base (h_cfg h)) v y with
  | Ok c => exists r, new_plain A V k x y None h = (Ok r, step h (ONew A V k x y)) /\ new_obj h (step h (ONew A V k x y)) r k c
  | Err e => new_plain A V k x y None h = (Err e, step h (ONew A V k x y))
  end.
Proof.
  intros R Hk Hx. pose proof (reachable_wf A V F h R) as Wh.
  assert (Ec : construct A V k x y = new_plain A V k x y None) by (destruct k; [reflexivity..|congruence]).
  assert (E : step h (ONew A V k x y) = snd (new_plain A V k x y None h)).
  { unfold HeapModel.step. cbn [HeapModel.exec]. rewrite Ec. unfold one, bindM, ret.
    destruct (new_plain A V k x y None h) as [[?|?] ?]; reflexivity. }
  rewrite E. clear E Ec.
  destruct x as [r|a|s], v as [c|p|s']; try contradiction; cbn [xarg_val] in Hx.
  - destruct (isrel_view A V h r c Hx) as (k0 & x0 & y0 & cf & I & _).
    destruct (new_plain_rel A V (fun _ => False) h k r None k0 x0 y0 c cf I ltac:(intros l; discriminate) Wh) as (_ & _ & G).
    replace (new_plain A V k (XaRel r) y None h) with (new_plain A V k (XaRel r) None None h) by (destruct y; reflexivity).
    destruct (new_plain A V k (XaRel r) None None h) as [[r'|e] h1]; cbn [fst snd] in *; [|contradiction].
    destruct G as (x & _ & G & _ & Hro). cbn [rel_init]. exists r'. split; [reflexivity|].
    destruct c. eapply new_made; eauto.
  - destruct y as [y|]; [|reflexivity].
    unfold ax_view in Hx. destruct (nax h a) as [o|] eqn:Ho; [|discriminate]. cbn in Hx. injection Hx as <-.
    destruct (new_plain_axis A V (fun _ => False) h k a o y None Ho ltac:(intros l; discriminate) Wh) as (_ & _ & G).
    cbn [rel_init bind].
    destruct (new_plain A V k (XaAxis a) (Some y) None h) as [[r'|e] h1]; cbn [fst snd] in *.
    + destruct G as (G1 & G2 & _ & _ & Hro). rewrite G1. exists r'. split; [reflexivity|]. eapply new_made; eauto.
    + rewrite G. reflexivity.
  - subst s'. destruct y as [y|]; [|reflexivity].
    cbn [rel_init bind].
    destruct (c_axis_from_array A V (hc_base (h_cfg h)) s true) as [p|e] eqn:Ep; cbn [bind].
    + set (h0 := with_ax A V h (h_ax h ++ [mkAx p None None])).
      assert (R0 : reachable h0).
      { change h0 with (step h (ONewAxis A V p)). apply reachable_step. exact R. }
      assert (Ho : nax h0 (length (h_ax h)) = Some (mkAx p None None)) by apply nth_app_new.
      destruct (new_plain_axis A V (fun _ => False) h0 k (length (h_ax h)) _ y None Ho ltac:(intros l; discriminate)
        (reachable_wf A V F h0 R0)) as (_ & _ & G).
      replace (new_plain A V k (XaSeq s) (Some y) None h) with (new_plain A V k (XaAxis (length (h_ax h))) (Some y) None h0).
      2:{ unfold new_plain, init_xy, ax_from_array, bindM, get_cfg, alloc_y, lift, ret. cbn. rewrite Ep. reflexivity. }
      destruct (new_plain A V k (XaAxis (length (h_ax h))) (Some y) None h0) as [[r'|e] h1]; cbn [fst snd ao_p] in *.
      * destruct G as (G1 & G2 & _ & _ & Hro). rewrite G1. exists r'. split; [reflexivity|].
        exact (new_made h0 h1 r' k _ _ G2 Hro).
      * rewrite G. reflexivity.
    + unfold new_plain, init_xy, ax_from_array, bindM, get_cfg, alloc_y, lift, ret. cbn. rewrite Ep. reflexivity.
Qed.
Lemma new_plain_val h k x v y : reachable h -> k <> KSweep -> xarg_val h x v ->
  outcome (ONew A V k x y) h = one_out k (rel_init A V (hc_base (h_cfg h)) v y).
Proof.
  intros R Hk Hx. pose proof (new_plain_made h k x v y R Hk Hx) as H.
  unfold HeapSpec.outcome. cbn [HeapModel.exec].
  replace (construct A V k x y) with (new_plain A V k x y None) by (destruct k; [reflexivity..|congruence]).
  unfold one, bindM, ret. destruct (rel_init A V (hc_base (h_cfg h)) v y) as [c|e]; cbn [bind].
  - destruct H as (r & -> & H1 & H2 & _). cbn [map]. rewrite H1, H2. reflexivity.
  - rewrite H. reflexivity.
Qed.

(** [get_signal()] whatever the spectrum remembers *)
Lemma get_signal_seen h r c : reachable h -> rel_view A V h r = Some c -> cls_of A V h r = Some KSpec ->
  match signal_seen A V h r with
  | Ok s => exists k, is_sig k = true /\ outcome (OGetSignal A V r DaNone None) h = Ok [(Some k, Some s)]
  | Err e => outcome (OGetSignal A V r DaNone None) h = Err e
  end.
Proof.
  intros R Hv Hk. pose proof (reachable_wf A V F h R) as Wh.
  destruct (isrel_view A V h r c Hv) as (k & x & y & cf & I & Hk' & _ & Hcf).
  assert (k = KSpec) by congruence. subst k.
  destruct (isrel_nrel _ _ _ _ _ _ _ _ _ I) as (o & Ho & Ek & Ex & Ey & Ecf).
  unfold signal_seen. rewrite Ho, Hv. destruct (ro_link o) as [l|] eqn:El.
  - destruct (wf_link _ _ h Wh r o l Ho El) as (o' & H1 & Hcl).
    destruct (isrel_of _ _ h l o' Wh H1) as (s & Hsl). destruct (view_isrel A V _ _ _ _ _ _ _ Hsl) as (V1 & K1 & _).
    rewrite V1. exists (ro_cls o'). split.
    + destruct Hcl as [[G _]|[_ G]]; [rewrite Ek in G; discriminate|exact G].
    + unfold HeapSpec.outcome. cbn [HeapModel.exec]. unfold one, bindM, ret.
      rewrite (get_signal_hit A V h r o l DaNone None Ho); [|rewrite Ek; reflexivity|exact El|reflexivity].
      cbn [map]. rewrite V1, K1. reflexivity.
  - assert (E : outcome (OGetSignal A V r DaNone None) h = one_out KSig (conv_val A V h DaNone (fun dv => hc_sp2s A V cf c dv None))).
    { apply (signal_computed A V F h r KSpec c R Hv Hk cf DaNone None eq_refl Hcf). left. intros o' Ho'. congruence. }
    rewrite conv_none in E. rewrite Ecf. unfold val_signal.
    destruct (hc_sp2s A V cf c (DNone A) None) as [pz|e]; cbn [bind] in *; [|exact E].
    destruct (rel_make A V (fst pz) (snd pz)) as [s|e]; cbn [bind] in *; [|exact E]. exists KSig. auto.
Qed.

Ltac calm_tac := unfold calm; repeat (apply Forall_cons; [cbn; tauto|]); apply Forall_nil.
Lemma calm_run ops h : calm A V ops -> reachable h ->
  reachable (run ops h) /\
  (forall r c, rel_view A V h r = Some c -> rel_view A V (run ops h) r = Some c) /\
  (forall a p, ax_view A V h a = Some p -> ax_view A V (run ops h) a = Some p) /\
  (forall r a, axis_of A V h r = Some a -> axis_of A V (run ops h) r = Some a) /\
  (forall r k, cls_of A V h r = Some k -> cls_of A V (run ops h) r = Some k) /\
  h_cfg (run ops h) = h_cfg h /\ h_scfg (run ops h) = h_scfg h.
Proof.
  intros C R. assert (Q : quiet A V ops) by (eapply Forall_impl; [|exact C]; cbn; tauto).
  destruct (quiet_run A V F ops h Q R) as (H1 & H2 & H3 & H4 & H5).
  split; [exact H1|]. split; [exact H2|]. split; [exact H3|]. split; [exact H4|]. split; [exact H5|].
  clear - C R. revert h R. induction C as [|o ops [_ Ho] _ IH]; intros h R; [auto|].
  destruct (IH (step h o) (reachable_step A V F h o R)) as [E1 E2].
  destruct (step_frame A V F h o (reachable_wf A V F h R)) as (_ & _ & Hc). destruct (Hc Ho) as [E3 E4].
  cbn [HeapModel.run fold_left] in *. unfold HeapModel.run in E1, E2. rewrite E1, E2. auto.
Qed.
Lemma seen_new_signal h h' r c : new_obj h h' r KSig c -> spectrum_seen A V h' r = val_spectrum A V (h_cfg h) c (DNone A) false.
Proof.
  intros (K1 & V1 & C1 & L1 & _). unfold spectrum_seen, cfg_of, remembered in *. destruct (nrel h' r) as [o|]; [|discriminate].
  rewrite V1, L1. injection C1 as ->. reflexivity.
Qed.
Lemma seen_new_spectrum h h' r c : new_obj h h' r KSpec c -> signal_seen A V h' r = val_signal A V (h_cfg h) c (DNone A) None.
Proof.
  intros (K1 & V1 & C1 & L1 & _). unfold signal_seen, cfg_of, remembered in *. destruct (nrel h' r) as [o|]; [|discriminate].
  rewrite V1, L1. injection C1 as ->. reflexivity.
Qed.

(** the a-priori signal and spectrum *)
Definition pair_is (h' : heap) (rs rp : loc) (s p : rel) : Prop :=
  rel_view A V h' rs = Some s /\ (exists k, cls_of A V h' rs = Some k /\ is_sig k = true) /\
  rel_view A V h' rp = Some p /\ cls_of A V h' rp = Some KSpec.
Lemma by_signal h r c : reachable h -> rel_view A V h r = Some c -> cls_of A V h r = Some KSpec ->
  match signal_seen A V h r with
  | Ok s => exists rs, bindM A V (h_get_signal A V r DaNone None) (fun s => ret A V (s, r)) h =
                        (Ok (rs, r), step h (OGetSignal A V r DaNone None)) /\ pair_is (step h (OGetSignal A V r DaNone None)) rs r s c
  | Err e => bindM A V (h_get_signal A V r DaNone None) (fun s => ret A V (s, r)) h = (Err e, step h (OGetSignal A V r DaNone None))
  end.
Proof.
  intros R Hv Hk. pose proof (get_signal_seen h r c R Hv Hk) as G.
  pose proof (outcome_ok' (OGetSignal A V r DaNone None) h (h_get_signal A V r DaNone None) (fun k => is_sig k = true) (signal_seen A V h r) eq_refl G) as H.
  set (o := OGetSignal A V r DaNone None) in *. unfold bindM, ret.
  destruct (signal_seen A V h r) as [s|e].
  - destruct H as (rs & k & Hs & -> & H1 & H2). exists rs. split; [reflexivity|].
    destruct (operands_kept A V F h o R) as (K1 & _ & _ & K4); [cbn; tauto|].
    split; [exact H2|]. split; [eauto|]. split; [apply K1; exact Hv|apply K4; exact Hk].
  - rewrite H. reflexivity.
Qed.
Lemma by_spectrum h r k c : reachable h -> rel_view A V h r = Some c -> cls_of A V h r = Some k -> is_sig k = true ->
  match spectrum_seen A V h r with
  | Ok s => exists rp, bindM A V (h_get_spectrum A V r DaNone false) (fun p => ret A V (r, p)) h =
                        (Ok (r, rp), step h (OGetSpectrum A V r DaNone false)) /\ pair_is (step h (OGetSpectrum A V r DaNone false)) r rp c s
  | Err e => bindM A V (h_get_spectrum A V r DaNone false) (fun p => ret A V (r, p)) h = (Err e, step h (OGetSpectrum A V r DaNone false))
  end.
Proof.
  intros R Hv Hk Hs. destruct (signal_spectra A V F h r k c R Hv Hk Hs) as (G & _).
  pose proof (outcome_ok (OGetSpectrum A V r DaNone false) h (h_get_spectrum A V r DaNone false) KSpec (spectrum_seen A V h r) eq_refl G) as H.
  set (o := OGetSpectrum A V r DaNone false) in *. unfold bindM, ret.
  destruct (spectrum_seen A V h r) as [s|e].
  - destruct H as (rs & -> & H1 & H2). exists rs. split; [reflexivity|].
    destruct (operands_kept A V F h o R) as (K1 & _ & _ & K4); [cbn; tauto|].
    split; [apply K1; exact Hv|]. split; [exists k; split; [apply K4; exact Hk|exact Hs]|]. split; [exact H2|exact H1].
  - rewrite H. reflexivity.
Qed.
Lemma by_samples h x v y : reachable h -> xarg_val h x v ->
  match (do s <- rel_init A V (hc_base (h_cfg h)) v y; do p <- val_spectrum A V (h_cfg h) s (DNone A) false; Ok (s, p)) with
  | Ok (s, p) => exists rs rp ops, calm A V ops /\
      bindM A V (ret A V x) (fun x => bindM A V (new_plain A V KSig x y None) (fun s => bindM A V (h_get_spectrum A V s DaNone false) (fun p => ret A V (s, p)))) h
        = (Ok (rs, rp), run ops h) /\ pair_is (run ops h) rs rp s p
  | Err e => exists ops, calm A V ops /\
      bindM A V (ret A V x) (fun x => bindM A V (new_plain A V KSig x y None) (fun s => bindM A V (h_get_spectrum A V s DaNone false) (fun p => ret A V (s, p)))) h
        = (Err e, run ops h)
  end.
Proof.
  intros R Hx. pose proof (new_plain_made h KSig x v y R ltac:(discriminate) Hx) as H. set (o1 := ONew A V KSig x y) in *. set (h1 := step h o1) in *.
  assert (R1 : reachable h1) by (apply reachable_step; exact R).
  assert (E0 : bindM A V (ret A V x) (fun x => bindM A V (new_plain A V KSig x y None) (fun s => bindM A V (h_get_spectrum A V s DaNone false) (fun p => ret A V (s, p)))) h
    = match new_plain A V KSig x y None h with
      | (Ok s, h1) => bindM A V (h_get_spectrum A V s DaNone false) (fun p => ret A V (s, p)) h1 | (Err e, h1) => (Err e, h1) end) by reflexivity.
  rewrite E0. clear E0. destruct (rel_init A V (hc_base (h_cfg h)) v y) as [c|e]; cbn [bind].
  - destruct H as (rs & E1 & N1). rewrite E1. pose proof N1 as (K1 & V1 & _).
    pose proof (by_spectrum h1 rs KSig c R1 V1 K1 eq_refl) as H. rewrite (seen_new_signal _ _ _ _ N1) in H.
    destruct (val_spectrum A V (h_cfg h) c (DNone A) false) as [s|e]; cbn [bind].
    + destruct H as (rp & H1 & H2). exists rs, rp, [o1; OGetSpectrum A V rs DaNone false]. split; [calm_tac|]. auto.
    + exists [o1; OGetSpectrum A V rs DaNone false]. split; [calm_tac|]. exact H.
  - exists [o1]. split; [calm_tac|]. rewrite H. reflexivity.
Qed.
Lemma ap_pair_obj h t ut d v : reachable h -> time_is A V h t ut -> data_is A V h d v ->
  match ap_pair A V (h_cfg h) ut v with
  | Ok (s, p) => exists rs rp ops, calm A V ops /\ h_ap_pair A V t d h = (Ok (rs, rp), run ops h) /\ pair_is (run ops h) rs rp s p
  | Err e => exists ops, calm A V ops /\ h_ap_pair A V t d h = (Err e, run ops h)
  end.
Proof.
  intros R Ht Hd. destruct d as [r|y|].
  - destruct Hd as (k & c & Hk & Hv & ->).
    assert (E : h_ap_pair A V t (HdRel r) h =
      (if is_spec k then bindM A V (h_get_signal A V r DaNone None) (fun s => ret A V (s, r))
       else if is_sig k then bindM A V (h_get_spectrum A V r DaNone false) (fun p => ret A V (r, p))
       else bindM A V (new_plain A V KSpec (XaRel r) None None) (fun p => bindM A V (h_get_signal A V p DaNone None) (fun s => ret A V (s, p)))) h).
    { unfold cls_of in Hk. unfold h_ap_pair, bindM at 1, get_rel, rd. destruct (nrel h r) as [o|]; [|discriminate]. injection Hk as ->. reflexivity. }
    rewrite E. clear E. destruct (is_spec k) eqn:Es; [|destruct (is_sig k) eqn:Eg].
    + assert (k = KSpec) by (destruct k; discriminate || reflexivity). subst k. cbn [ap_pair].
      pose proof (by_signal h r c R Hv Hk) as H.
      destruct (signal_seen A V h r) as [s|e]; cbn [bind].
      * destruct H as (rs & H1 & H2). exists rs, r, [OGetSignal A V r DaNone None]. split; [calm_tac|]. auto.
      * exists [OGetSignal A V r DaNone None]. split; [calm_tac|]. exact H.
    + cbn [ap_pair]. pose proof (by_spectrum h r k c R Hv Hk Eg) as H.
      destruct (spectrum_seen A V h r) as [s|e]; cbn [bind].
      * destruct H as (rs & H1 & H2). exists r, rs, [OGetSpectrum A V r DaNone false]. split; [calm_tac|]. auto.
      * exists [OGetSpectrum A V r DaNone false]. split; [calm_tac|]. exact H.
    + cbn [ap_pair]. pose proof (new_plain_made h KSpec (XaRel r) (XRel c) None R ltac:(discriminate) Hv) as H. cbn [rel_init] in H.
      destruct H as (p & E1 & N1). destruct c as [cx cy]. cbn [r_x r_y] in *.
      assert (E0 : bindM A V (new_plain A V KSpec (XaRel r) None None) (fun p => bindM A V (h_get_signal A V p DaNone None) (fun s => ret A V (s, p))) h
        = bindM A V (h_get_signal A V p DaNone None) (fun s => ret A V (s, p)) (step h (ONew A V KSpec (XaRel r) None))).
      { unfold bindM at 1. rewrite E1. reflexivity. }
      rewrite E0. clear E0.
      set (o1 := ONew A V KSpec (XaRel r) None) in *. set (h1 := step h o1) in *.
      assert (R1 : reachable h1) by (apply reachable_step; exact R).
      pose proof N1 as (K1 & V1 & _).
      pose proof (by_signal h1 p _ R1 V1 K1) as H. rewrite (seen_new_spectrum _ _ _ _ N1) in H.
      destruct (val_signal A V (h_cfg h) _ (DNone A) None) as [s|e]; cbn [bind].
      * destruct H as (rs & H1 & H2). exists rs, p, [o1; OGetSignal A V p DaNone None]. split; [calm_tac|]. auto.
      * exists [o1; OGetSignal A V p DaNone None]. split; [calm_tac|]. exact H.
  - cbn [data_is] in Hd. subst v. cbn [ap_pair h_ap_pair].
    destruct t as [|a|s], ut as [|p|s']; try contradiction; cbn [bind].
    + exists []. split; [calm_tac|]. reflexivity.
    + exact (by_samples h (XaAxis a) (XAxis p) (Some y) R Ht).
    + exact (by_samples h (XaSeq s) (XSeq s') (Some y) R Ht).
  - cbn [data_is] in Hd. subst v. cbn [ap_pair h_ap_pair].
    destruct t as [|a|s], ut as [|p|s']; try contradiction; cbn [bind].
    + exists []. split; [calm_tac|]. reflexivity.
    + exact (by_samples h (XaAxis a) (XAxis p) None R Ht).
    + exact (by_samples h (XaSeq s) (XSeq s') None R Ht).
Qed.

(** *** the constructor *)
Lemma new_gen_obj h t ut int f a : time_is A V h t ut -> reachable h ->
  let o := ONewGen A V t (fun c x => law_eval A V (hc_base c) (LawArr f) x) (fun c x => law_tht A V W (hc_base c) int (LawArr f) x)
             (fun c x => law_eval A V (hc_base c) (LawArr a) x) (wave A V W) in
  let m := h_new_gen A V t (fun c x => law_eval A V (hc_base c) (LawArr f) x) (fun c x => law_tht A V W (hc_base c) int (LawArr f) x)
             (fun c x => law_eval A V (hc_base c) (LawArr a) x) (wave A V W) in
  match us_new A V (hc_base (h_cfg h)) int ut (LiInterp f) (LiInterp a) with
  | Ok u => m h = (Ok (length (h_gen h)), step h o) /\ gen_is A V W (step h o) (length (h_gen h)) u
  | Err e => m h = (Err e, step h o)
  end.
Proof.
  intros Ht R o m.
  assert (Es : snd (m h) = step h o) by (unfold HeapModel.step; cbn [HeapModel.exec o]; rewrite snd_none; reflexivity).
  destruct (us_new A V (hc_base (h_cfg h)) int ut (LiInterp f) (LiInterp a)) as [u|e] eqn:Eu.
  - assert (Hl : u_f u = LawArr f /\ u_a u = LawArr a).
    { unfold us_new, get_info_from_ftat, extract_x_t, default_law in Eu. cbn [default_law] in Eu. 
      destruct ut as [|p|s]; cbn [bind fst snd] in Eu; [injection Eu as <-; auto|injection Eu as <-; auto|].
      destruct (c_axis_from_array A V (hc_base (h_cfg h)) s true) as [p|]; cbn [bind fst snd] in Eu; [|discriminate]. injection Eu as <-. auto. }
    destruct (us_new_time A V _ _ _ _ _ _ Eu) as (_ & Hi & _). destruct Hl as [Hf Ha].
    destruct (new_gen_val A V W F h t ut int _ _ u Eu Ht) as [G1 G2]. rewrite Hf, Ha, Hi in G1, G2. fold o in G1, G2.
    split; [|exact G2]. rewrite <- Es. destruct (m h) as [[g|e] h1] eqn:Em; cbn [snd].
    + f_equal. f_equal. revert Em. unfold m, h_new_gen, bindM, get_cfg. destruct t as [|l|s].
      * cbn. intros E. injection E as <- _. reflexivity.
      * unfold bindM, get_ax, rd. destruct (nax h l); [|discriminate]. cbn. intros E. injection E as <- _. reflexivity.
      * unfold bindM, ax_from_array, bindM, lift. destruct (c_axis_from_array _ _ _ _ _); [|discriminate]. cbn. intros E. injection E as <- _. reflexivity.
    + exfalso. cbn [HeapModel.exec o] in G1. unfold HeapModel.none, bindM, ret in G1. fold m in G1. rewrite Em in G1. discriminate.
  - rewrite <- Es. unfold us_new, get_info_from_ftat, extract_x_t in Eu.
    destruct t as [|l|s], ut as [|p|s']; try contradiction; cbn [bind fst snd default_law] in Eu; [discriminate|discriminate|].
    cbn [time_is] in Ht. subst s'. unfold m, h_new_gen, bindM, get_cfg, ax_from_array, bindM, lift.
    destruct (c_axis_from_array A V (hc_base (h_cfg h)) s true) as [p|e']; cbn [bind fst snd] in Eu; [discriminate|].
    injection Eu as ->. reflexivity.
Qed.
Theorem ap_new_obj h t ut d v int m : reachable h -> time_is A V h t ut -> data_is A V h d v ->
  match ap_new A V (h_cfg h) int ut v m with
  | Ok (u, s) => exists g sg ops, calm A V ops /\ h_ap_new A V W int t d m h = (Ok (g, sg), run ops h) /\
      gen_is A V W (run ops h) g u /\ rel_view A V (run ops h) sg = Some s /\
      (exists k, cls_of A V (run ops h) sg = Some k /\ is_sig k = true)
  | Err e => exists ops, calm A V ops /\ h_ap_new A V W int t d m h = (Err e, run ops h)
  end.
Proof.
  intros R Ht Hd. pose proof (ap_pair_obj h t ut d v R Ht Hd) as H.
  unfold ap_new, get_info_from_a_prior_data.
  destruct (ap_pair A V (h_cfg h) ut v) as [[s p]|e]; cbn [bind fst snd].
  2:{ destruct H as (ops & Q & E). exists ops. split; [exact Q|]. unfold h_ap_new, bindM at 1. rewrite E. reflexivity. }
  destruct H as (rs & rp & ops & Q & E & Hs & Hks & Hp & Hkp).
  destruct (calm_run ops h Q R) as (R1 & K1 & K2 & K3 & K4 & Ecfg & _).
  assert (Ec : content A V rp (run ops h) = (Ok p, run ops h)).
  { destruct (isrel_view A V _ _ _ Hp) as (k0 & x0 & y0 & cf & (o & ax & J1 & J2 & J3 & J4 & J5 & J6 & J7 & J8) & _).
    unfold content, bindM, get_rel, get_ax, get_y, rd, ret. rewrite J1. subst x0 y0. rewrite J6, J8, J7. destruct p; reflexivity. }
  assert (E0 : h_ap_new A V W int t d m h = match convert_freq2time A V m p with
    | Ok l => match h_new_gen A V t
                (fun c x => law_eval A V (hc_base c) (fst l) x) (fun c x => law_tht A V W (hc_base c) int (fst l) x)
                (fun c x => law_eval A V (hc_base c) (snd l) x) (wave A V W) (run ops h) with
              | (Ok g, h2) => (Ok (g, rs), h2) | (Err e, h2) => (Err e, h2) end
    | Err e => (Err e, run ops h) end).
  { unfold h_ap_new, bindM at 1. rewrite E. unfold bindM at 1. cbn [fst snd]. rewrite Ec. unfold bindM at 1, lift.
    destruct (convert_freq2time A V m p) as [l|e]; reflexivity. }
  rewrite E0. clear E0.
  unfold convert_freq2time. destruct (m p) as [[[nt f] a]|e] eqn:Em; cbn [bind fst snd].
  2:{ exists ops. auto. }
  cbn [law_as_in].
  assert (Ht1 : time_is A V (run ops h) t ut).
  { destruct t, ut; auto. cbn in *. apply K2. exact Ht. }
  pose proof (new_gen_obj (run ops h) t ut int (mkIA nt f) (mkIA nt a) Ht1 R1) as G. cbv zeta in G. rewrite Ecfg in G.
  destruct (us_new A V (hc_base (h_cfg h)) int ut (LiInterp (mkIA nt f)) (LiInterp (mkIA nt a))) as [u|e]; cbn [bind fst snd].
  - destruct G as [G1 G2]. rewrite G1. cbn [ret].
    match type of G2 with gen_is _ _ _ (step _ ?q) _ _ => set (o := q) in * end.
    assert (Qo : calm A V (ops ++ [o])) by (apply Forall_app; split; [exact Q|calm_tac]).
    assert (Er : run (ops ++ [o]) h = step (run ops h) o) by (unfold HeapModel.run; rewrite fold_left_app; reflexivity).
    destruct (operands_kept A V F (run ops h) o R1) as (L1 & _ & _ & L4); [cbn; tauto|].
    eexists _, _, (ops ++ [o]). rewrite Er. split; [exact Qo|]. split; [reflexivity|]. split; [exact G2|].
    split; [apply L1; exact Hs|]. destruct Hks as (k & Hk & Hk'). exists k. split; auto.
  - rewrite G. match goal with |- context [step _ ?q] => set (o := q) in * end. exists (ops ++ [o]).
    split; [apply Forall_app; split; [exact Q|calm_tac]|]. unfold HeapModel.run; rewrite fold_left_app; reflexivity.
Qed.

(** *** which object the a-priori signal is *)
Lemma bindM_ok {T U} (m : HeapModel.M A V T) (j : T -> HeapModel.M A V U) h x h' : bindM A V m j h = (Ok x, h') ->
  exists a h1, m h = (Ok a, h1) /\ j a h1 = (Ok x, h').
Proof. unfold bindM. destruct (m h) as [[a|e] h1]; [|discriminate]. intros H. exists a, h1. auto. Qed.
Lemma new_signal_new h p o r' h' : reachable h -> nrel h p = Some o -> ro_cls o = KSpec -> ro_link o = None ->
  h_get_signal A V p DaNone None h = (Ok r', h') -> new_object A V h h' r'.
Proof.
  intros R Ho Ek El He. pose proof (reachable_wf A V F h R) as Wh. destruct (isrel_of _ _ h p o Wh Ho) as (c & Hc).
  destruct (get_signal_miss_x A V (fun _ => False) h p o c DaNone None Ho Hc) as (_ & _ & G); auto.
  { rewrite Ek. reflexivity. }
  rewrite He in G. cbn [fst snd] in G. destruct G as ((dv & q & z & _ & _ & (x & q' & (y & I1 & N1 & N2) & N3 & _) & _) & _).
  destruct I1 as (o1 & ax & J1 & J2 & J3 & J4 & J5 & J6 & _). exists o1. split; [exact J1|]. subst x y.
  split; [apply nth_error_None; exact N1|]. split; apply nth_error_None; assumption.
Qed.
Lemma frame_none {P Q L} h h' : frame A V L P Q h h' ->
  (forall i, nrel h' i = None -> nrel h i = None) /\ (forall i, nax h' i = None -> nax h i = None) /\
  (forall i, nth_error (h_yarr h') i = None -> nth_error (h_yarr h) i = None).
Proof.
  intros X. split; [|split]; intros i Hi.
  - destruct (nrel h i) as [o|] eqn:E; auto. destruct (fr_rel _ _ _ _ _ _ _ X i o E) as (o' & E' & _). congruence.
  - destruct (nax h i) as [o|] eqn:E; auto. destruct (fr_ax _ _ _ _ _ _ _ X i o E) as (o' & E' & _). congruence.
  - apply nth_error_None. apply nth_error_None in Hi. pose proof (fr_ylen _ _ _ _ _ _ _ X). lia.
Qed.
Lemma new_before h h1 h' o r : reachable h -> h1 = step h o -> new_object A V h1 h' r -> new_object A V h h' r.
Proof.
  intros R -> (q & H1 & H2 & H3 & H4). destruct (step_frame A V F h o (reachable_wf A V F h R)) as (_ & X & _).
  destruct (frame_none _ _ X) as (G1 & G2 & G3). exists q. auto.
Qed.
Lemma new_after h h1 o r : reachable h1 -> new_object A V h h1 r -> new_object A V h (step h1 o) r.
Proof.
  intros R (q & H1 & H2 & H3 & H4). destruct (step_frame A V F h1 o (reachable_wf A V F h1 R)) as (_ & X & _).
  destruct (fr_rel _ _ _ _ _ _ _ X r q H1) as (q' & Q1 & _ & Q2 & Q3 & _). exists q'. rewrite Q2, Q3. auto.
Qed.
Lemma ap_new_inv int t d m h g sg h' : h_ap_new A V W int t d m h = (Ok (g, sg), h') ->
  exists rp h1 o, h_ap_pair A V t d h = (Ok (sg, rp), h1) /\ h' = step h1 o /\ ~ assigns A V o.
Proof.
  unfold h_ap_new. intros H. apply bindM_ok in H. destruct H as ([rs rp] & h1 & E1 & H).
  apply bindM_ok in H. destruct H as (c & h2 & E2 & H). apply bindM_ok in H. destruct H as (l & h3 & E3 & H).
  apply bindM_ok in H. destruct H as (g0 & h4 & E4 & H). unfold ret in H. injection H as <- <- <-.
  assert (h2 = h1).
  { cbn [snd] in E2. unfold content, bindM, get_rel, get_ax, get_y, rd, ret in E2. destruct (nrel h1 rp) as [o|]; [|discriminate].
    destruct (nax h1 (ro_x o)); [|discriminate]. destruct (nth_error (h_yarr h1) (ro_y o)); [|discriminate]. congruence. }
  subst h2. assert (h3 = h1) by (unfold lift in E3; destruct (convert_freq2time A V m c); [|discriminate]; congruence). subst h3.
  exists rp, h1, (ONewGen A V t (fun c x => law_eval A V (hc_base c) (fst l) x) (fun c x => law_tht A V W (hc_base c) int (fst l) x)
    (fun c x => law_eval A V (hc_base c) (snd l) x) (wave A V W)).
  split; [exact E1|]. split; [|intros []]. unfold HeapModel.step. cbn [HeapModel.exec]. rewrite snd_none, E4. reflexivity.
Qed.
Lemma step_snd_one o m h : exec o = one A V m -> step h o = snd (m h).
Proof. intros E. unfold HeapModel.step. rewrite E. unfold one, bindM, ret. destruct (m h) as [[?|?] ?]; reflexivity. Qed.

Theorem ap_from_signal int t r m h g sg h' k : cls_of A V h r = Some k -> is_sig k = true ->
  h_ap_new A V W int t (HdRel r) m h = (Ok (g, sg), h') -> sg = r.
Proof.
  intros Hk Hs H. apply ap_new_inv in H. destruct H as (rp & h1 & o & H & _). revert H. unfold h_ap_pair.
  intros H. apply bindM_ok in H. destruct H as (ro & h0 & E & H). unfold get_rel, rd in E. unfold cls_of in Hk.
  destruct (nrel h r) as [o'|]; [|discriminate]. injection E as <- <-. injection Hk as <-.
  replace (is_spec (ro_cls o')) with false in H by (destruct (ro_cls o'); discriminate || reflexivity). rewrite Hs in H.
  apply bindM_ok in H. destruct H as (p & h2 & _ & H). unfold ret in H. congruence.
Qed.
Theorem ap_from_spectrum int t r m h g sg h' : reachable h -> cls_of A V h r = Some KSpec ->
  h_ap_new A V W int t (HdRel r) m h = (Ok (g, sg), h') ->
  match remembered A V h r with Some l => sg = l | None => new_object A V h h' sg end.
Proof.
  intros R Hk H. apply ap_new_inv in H. destruct H as (rp & h1 & o & H & -> & _). revert H. unfold h_ap_pair.
  intros H. apply bindM_ok in H. destruct H as (ro & h0 & E & H). unfold get_rel, rd in E. unfold cls_of in Hk. unfold remembered.
  destruct (nrel h r) as [o'|] eqn:Ho; [|discriminate]. injection E as <- <-. injection Hk as Hk. rewrite Hk in H. cbn [is_spec] in H.
  apply bindM_ok in H. destruct H as (s & h2 & E2 & H). unfold ret in H. injection H as <- <- <-.
  destruct (ro_link o') as [l|] eqn:El.
  - rewrite (get_signal_hit A V h r o' l DaNone None Ho) in E2; [congruence|rewrite Hk; reflexivity|exact El|reflexivity].
  - assert (R2 : reachable h2).
    { replace h2 with (step h (OGetSignal A V r DaNone None)); [apply reachable_step; exact R|].
      rewrite (step_snd_one _ (h_get_signal A V r DaNone None)) by reflexivity. rewrite E2. reflexivity. }
    apply new_after; [exact R2|]. exact (new_signal_new h r o' s h2 R Ho Hk El E2).
Qed.
Theorem ap_from_relation int t r m h g sg h' c : reachable h -> cls_of A V h r = Some KRel -> rel_view A V h r = Some c ->
  h_ap_new A V W int t (HdRel r) m h = (Ok (g, sg), h') -> new_object A V h h' sg.
Proof.
  intros R Hk Hv H. apply ap_new_inv in H. destruct H as (rp & h1 & o & H & -> & _). revert H. unfold h_ap_pair.
  intros H. apply bindM_ok in H. destruct H as (ro & h0 & E & H). unfold get_rel, rd in E. unfold cls_of in Hk.
  destruct (nrel h r) as [o'|] eqn:Ho; [|discriminate]. injection E as <- <-. injection Hk as Hk. rewrite Hk in H. cbn [is_spec is_sig] in H.
  apply bindM_ok in H. destruct H as (p & h2 & E2 & H). apply bindM_ok in H. destruct H as (s & h3 & E3 & H). unfold ret in H. injection H as <- <- <-.
  pose proof (new_plain_made h KSpec (XaRel r) (XRel c) None R ltac:(discriminate) Hv) as G. cbn [rel_init] in G.
  destruct G as (p' & G & (K1 & _ & _ & L1 & _)). rewrite E2 in G. injection G as <- ->.
  set (h2 := step h (ONew A V KSpec (XaRel r) None)) in *. assert (R2 : reachable h2) by (apply reachable_step; exact R).
  assert (R3 : reachable h3).
  { replace h3 with (step h2 (OGetSignal A V p DaNone None)); [apply reachable_step; exact R2|].
    rewrite (step_snd_one _ (h_get_signal A V p DaNone None)) by reflexivity. rewrite E3. reflexivity. }
  apply new_after; [exact R3|]. eapply new_before; [exact R|reflexivity|].
  unfold cls_of, remembered in K1, L1. destruct (nrel h2 p) as [op|] eqn:Hp; [|discriminate]. injection K1 as K1.
  exact (new_signal_new h2 p op s h3 R2 Hp K1 L1 E3).
Qed.
Theorem ap_from_samples int t y m h g sg h' : reachable h ->
  h_ap_new A V W int t (HdSeq y) m h = (Ok (g, sg), h') ->
  match t with
  | TaAxis a => cls_of A V h sg = None /\ axis_of A V h' sg = Some a
  | TaSeq _ => new_object A V h h' sg
  | TaNone => False
  end.
Proof.
  intros R H. apply ap_new_inv in H. destruct H as (rp & h1 & o & H & -> & No). revert H. unfold h_ap_pair.
  intros H. apply bindM_ok in H. destruct H as (x & h0 & E & H). apply bindM_ok in H. destruct H as (s & h2 & E2 & H).
  apply bindM_ok in H. destruct H as (p & h3 & E3 & H). unfold ret in H. injection H as <- <- <-.
  assert (S2 : h0 = h -> h2 = step h (ONew A V KSig x (Some y))).
  { intros ->. rewrite (step_snd_one _ (construct A V KSig x (Some y))) by reflexivity. cbn [construct]. rewrite E2. reflexivity. }
  assert (Eh : h0 = h /\ match t with TaAxis a => x = XaAxis a | TaSeq s => x = XaSeq s | TaNone => False end).
  { destruct t; cbn in E; [discriminate|injection E as <- <-; auto|injection E as <- <-; auto]. }
  destruct Eh as [-> Ex]. specialize (S2 eq_refl).
  assert (R2 : reachable h2) by (subst h2; apply reachable_step; exact R).
  assert (S3 : h3 = step h2 (OGetSpectrum A V s DaNone false)).
  { rewrite (step_snd_one _ (h_get_spectrum A V s DaNone false)) by reflexivity. rewrite E3. reflexivity. }
  assert (R3 : reachable h3) by (subst h3; apply reachable_step; exact R2).
  assert (He : exec (ONew A V KSig x (Some y)) h = (Ok [s], h2)).
  { cbn [HeapModel.exec construct]. unfold one, bindM. rewrite E2. reflexivity. }
  destruct t as [|a|sq]; [contradiction| |]; subst x.
  - destruct (built_on_axis A V F h KSig a (Some y) s h2 R He) as [B1 B2]. split.
    + unfold axis_of, cls_of in *. destruct (nrel h s); [discriminate|reflexivity].
    + destruct (operands_kept A V F h2 (OGetSpectrum A V s DaNone false) R2) as (_ & _ & K3 & _); [cbn; tauto|].
      destruct (operands_kept A V F h3 o R3 No) as (_ & _ & K3' & _). apply K3'. rewrite S3. apply K3. exact B2.
  - apply new_after; [exact R3|]. rewrite S3. apply new_after; [exact R2|].
    eapply (results_new A V F h (ONew A V KSig (XaSeq sq) (Some y))); eauto; cbn; auto.
Qed.
End Ap.
