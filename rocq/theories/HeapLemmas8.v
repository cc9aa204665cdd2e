(** Correlation and convolution of signals by value, and the outcomes of the calls (C62). *)
From Coq Require Import ZArith List Bool Lia.
From Verif Require Import Num Numpy AxisModel RelModel HeapModel HeapSpec FourierModel SignalSpec
  HeapLemmas HeapLemmas2 HeapLemmas3 HeapLemmas4 HeapLemmas5 HeapLemmas6 HeapLemmas7.
Import ListNotations.

Section HeapL8.
Context (A : Arith) (V : Vals A) (F : vfun A V).
Notation num := (num A).
Notation val := (val V).
Notation axis := (axis A).
Notation rel := (rel A V).
Notation heap := (heap A V).
Notation M := (M A V).
Notation nax h a := (nth_error (h_ax h) a).
Notation nrel h r := (nth_error (h_rel h) r).
Notation wf := (wf A V).
Notation isrel := (isrel A V).
Notation res := (res A V).
Notation bind' := (bindM A V).
Notation L0 := (fun _ : loc => False).
Notation ok := (ok A V L0).
Notation ext := (ext A V L0).
Notation spectrum_seen := (spectrum_seen A V).
Notation argument_seen := (argument_seen A V).
Notation outcome := (outcome A V F).
Notation reachable := (reachable A V F).
Notation one_out k v := (do c' <- v; Ok [(Some k, Some c')]).

Lemma sig_shift_bind {U} h r d x y c cf n sp (j : loc -> M U) Q (E : exn -> Prop) :
  isrel h r KSig x y c cf -> axis_size A (r_x c) = Ok n -> keeps_axis A V (h_cfg h) -> spectrum_seen h r = Ok sp ->
  (forall h1 s x1 y1 c1, wf h1 -> ext h h1 -> val_sig_shift A V F (h_cfg h) d c sp = Ok c1 ->
     isrel h1 s KSig x1 y1 c1 (h_cfg h) -> length (h_ax h) <= x1 -> 
     (forall r' s', spectrum_seen h r' = Ok s' -> spectrum_seen h1 r' = Ok s') -> ok h1 (j s) Q E) ->
  (forall e, val_sig_shift A V F (h_cfg h) d c sp = Err e -> E e) ->
  ok h (bind' (h_shift A V F r d) j) Q E.
Proof.
  intros Hi Hn HK Hsp HQ HE. apply ok_wf. intros W. unfold h_shift. apply ok_assoc.
  eapply rel_bind; [exact Hi|]. intros o Ho Ek _ _ _. rewrite Ek. cbn [is_sig].
  eapply ok_bind.
  { eapply ok_weaken; [apply (sig_shift_spec A V F h r d _ _ _ _ _ n Hi eq_refl Hn HK)| |].
    - intros s h' _ _ G. exact G.
    - cbn beta. rewrite Hsp. cbn [bind]. rewrite chk_plain by discriminate. exact HE. }
  cbn beta. rewrite Hsp. cbn [bind]. rewrite chk_plain by discriminate.
  intros s h1 W1 X1 [(c' & Ev & x1 & y1 & H1 & Hf) [HO HS]].
  eapply HQ; eauto; [apply Hf|].
  intros r' s' Hs'. rewrite <- Hs'. apply (seen_ext A V (eq r)); auto.
  - unfold SignalSpec.spectrum_seen in Hs'. destruct (nrel h r') eqn:E'; [|discriminate]. eapply nth_lt; eauto.
  - destruct (Nat.eq_dec r r') as [<-|N]; [right; congruence|left; exact N].
Qed.

Definition sig_lag_val (cfg : hconfig A V) (comb : list val -> list val -> result (list val)) (c1 sp1 c2 sp2 : rel) :
  result (axis * list val) :=
  do s1 <- val_sig_shift A V F cfg (n_opp A (a_start (r_x c1))) c1 sp1;
  do s2 <- val_sig_shift A V F cfg (n_opp A (a_start (r_x c2))) c2 sp2;
  do e <- rel_equalize A V (hc_base cfg) false s1 s2;
  do y <- comb (r_y (fst e)) (r_y (snd e));
  let x := r_x (fst e) in Ok (mkAxis (n_opp A (a_end x)) (a_end x) (a_sample x), y).
Lemma sig_lag_val_rel cfg comb c1 sp1 c2 sp2 :
  (do xy <- sig_lag_val cfg comb c1 sp1 c2 sp2; rel_make A V (fst xy) (snd xy)) = val_sig_lagged A V F cfg comb c1 sp1 c2 sp2.
Proof.
  unfold sig_lag_val, val_sig_lagged. destruct (val_sig_shift _ _ _ _ _ c1 sp1) as [s1|]; cbn [bind]; auto.
  destruct (val_sig_shift _ _ _ _ _ c2 sp2) as [s2|]; cbn [bind]; auto.
  destruct (rel_equalize _ _ _ false s1 s2) as [p|]; cbn [bind]; auto.
  destruct (comb (r_y (fst p)) (r_y (snd p))); reflexivity.
Qed.
Lemma sig_lagged_spec h comb r1 r2 x1 y1 c1 cf1 n1 sp1 x2 y2 c2 cf2 n2 sp2 :
  isrel h r1 KSig x1 y1 c1 cf1 -> isrel h r2 KSig x2 y2 c2 cf2 ->
  axis_size A (r_x c1) = Ok n1 -> axis_size A (r_x c2) = Ok n2 -> keeps_axis A V (h_cfg h) ->
  spectrum_seen h r1 = Ok sp1 -> spectrum_seen h r2 = Ok sp2 ->
  ok h (default_lagged A V F comb r1 r2)
    (fun xy h' => sig_lag_val (h_cfg h) comb c1 sp1 c2 sp2 = Ok xy)
    (fun e => sig_lag_val (h_cfg h) comb c1 sp1 c2 sp2 = Err e).
Proof.
  intros I1 I2 N1 N2 HK S1 S2. unfold default_lagged, sig_lag_val. eapply content_bind; [exact I1|].
  eapply sig_shift_bind; [exact I1|exact N1|exact HK|exact S1| |intros e ->; reflexivity].
  intros h1 s1 xa ya d1 W1 X1 E1 J1 Fr1 HS. rewrite E1. cbn [bind].
  pose proof (isrel_ext A V L0 h h1 r2 _ x2 y2 c2 cf2 X1 I2) as I2'.
  assert (C1 : h_cfg h1 = h_cfg h) by (apply (ext_cfg _ _ _ _ _ X1)).
  eapply content_bind; [exact I2'|]. rewrite <- C1. rewrite <- C1 in HK.
  eapply sig_shift_bind; [exact I2'|exact N2|exact HK|exact (HS r2 sp2 S2)| |intros e ->; reflexivity].
  intros h2 s2 xb yb d2 W2 X2 E2 J2 Fr2 _. rewrite E2. cbn [bind].
  pose proof (isrel_ext A V L0 h1 h2 s1 _ _ _ _ _ X2 J1) as J1'.
  assert (Hne : Nat.eqb xa xb = false).
  { apply Nat.eqb_neq. destruct J1 as (o & ax & _ & _ & _ & _ & _ & G & _). apply nth_lt in G. unfold loc in *. lia. }
  assert (C2 : h_cfg h2 = h_cfg h) by (rewrite (ext_cfg _ _ _ _ _ X2); auto).
  assert (HV : equalize_val A V (h_scfg h2) (h_cfg h2) (h_cfg h) (h_cfg h1) KSig KSig (Nat.eqb xa xb) d1 d2 =
               rel_equalize A V (hc_base (h_cfg h1)) false d1 d2).
  { rewrite Hne. unfold equalize_val, rel_equalize. rewrite C1, C2.
    rewrite !chk_plain by discriminate. reflexivity. }
  eapply ok_bind with (Q1 := fun e h' => exists d1' d2' g1 g2, rel_equalize A V (hc_base (h_cfg h1)) false d1 d2 = Ok (d1', d2') /\
       res h2 h' (fst e) KSig d1' g1 /\ res h2 h' (snd e) KSig d2' g2).
  - eapply ok_weaken; [eapply equalize_spec; [exact J1'|exact J2]| |].
    + cbn beta. intros e h' _ _ (p1 & p2 & g1 & g2 & G & R1 & R2). rewrite HV in G. exists p1, p2, g1, g2. auto.
    + cbn beta. intros e G. rewrite HV in G. rewrite G. reflexivity.
  - intros e h3 W3 X3 (p1 & p2 & g1 & g2 & G & (u1 & v1 & R1 & _) & (u2 & v2 & R2 & _)). rewrite G. cbn [bind].
    eapply content_bind; [exact R1|]. eapply content_bind; [exact R2|]. cbn [fst snd].
    apply ok_lift_bind.
    + intros y Hy. rewrite Hy. cbn [bind]. apply ok_ret. auto.
    + intros er Her. rewrite Her. reflexivity.
Qed.

(** *** C62 *)
Theorem signal_lagged h l r1 r2 c1 c2 n1 n2 sp1 sp2 : reachable h ->
  rel_view A V h r1 = Some c1 -> cls_of A V h r1 = Some KSig -> rel_view A V h r2 = Some c2 -> cls_of A V h r2 = Some KSig ->
  axis_size A (r_x c1) = Ok n1 -> axis_size A (r_x c2) = Ok n2 -> keeps_axis A V (h_cfg h) ->
  lag_method A V l (h_cfg h) = None -> spectrum_seen h r1 = Ok sp1 -> spectrum_seen h r2 = Ok sp2 ->
  outcome (OLagged A V l KSig (HRel r1) (HRel r2)) h =
  one_out KSig (val_sig_lagged A V F (h_cfg h) (lag_comb A V l) c1 sp1 c2 sp2).
Proof.
  intros R H1 K1 H2 K2 N1 N2 HK HN S1 S2. pose proof (reachable_wf A V F h R) as W.
  destruct (isrel_view A V h r1 c1 H1) as (k1' & x1 & y1 & cf1 & I1 & E1 & _). assert (k1' = KSig) by congruence. subst k1'.
  destruct (isrel_view A V h r2 c2 H2) as (k2' & x2 & y2 & cf2 & I2 & E2 & _). assert (k2' = KSig) by congruence. subst k2'.
  eapply (outcome_one A V F L0); [reflexivity| |auto].
  unfold h_lagged. cbn [is_sig]. unfold to_signal.
  apply ok_assoc. eapply rel_bind; [exact I1|]. intros o1 _ Ek1 _ _ _. rewrite Ek1. cbn [is_sig is_spec]. apply ok_ret_bind.
  apply ok_assoc. eapply rel_bind; [exact I2|]. intros o2 _ Ek2 _ _ _. rewrite Ek2. cbn [is_sig is_spec]. apply ok_ret_bind.
  unfold h_rel_lagged. apply ok_assoc. apply ok_cfg_bind. rewrite HN. apply ok_assoc.
  eapply ok_bind; [eapply ok_weaken; [eapply sig_lagged_spec; [exact I1|exact I2|exact N1|exact N2|exact HK|exact S1|exact S2]|intros x h' _ _ G; exact G|]|].
  - cbn beta. intros e G. rewrite <- sig_lag_val_rel, G. reflexivity.
  - cbn beta. intros xy h1 W1 X1 G. rewrite <- sig_lag_val_rel, G. cbn [bind].
    apply ok_assoc. apply new_ax_bind. intros h2 ax W2 X2 Hax Hp R2 Y2.
    pose proof (ext_trans _ _ _ _ _ _ X1 X2) as X.
    eapply ok_bind.
    { eapply ok_weaken; [eapply construct_axis; exact Hax| |].
      - intros r h' _ _ G'. exact G'.
      - cbn beta. rewrite chk_plain by discriminate. rewrite Hp. auto. }
    cbn beta. rewrite Hp, chk_plain by discriminate. intros r h3 W3 X3 (Em & (yl & Hr & _) & _).
    eapply ok_weaken; [eapply construct_rel; exact Hr| |].
    + cbn beta. intros r' h' W' X' (x' & Hx' & Hm & _ & _). exists (mkRel (fst xy) (snd xy)). split; auto.
      pose proof (ext_trans _ _ _ _ _ _ X X3) as X03.
      eapply made_res; [exact X03| |exact Hm]. pose proof (ext_ax_len _ _ _ _ _ X03). lia.
    + cbn beta. intros e He. discriminate.
Qed.

Lemma outcome_byo h o m k v (P : heap -> Prop) : exec A V F o = one A V m ->
  ok h m (fun r' h' => (exists c', v = Ok c' /\ res h h' r' k c' (h_cfg h)) /\ P h') (fun e => v = Err e) -> wf h ->
  outcome o h = one_out k v.
Proof.
  intros He H W. eapply (outcome_one A V F L0); [exact He| |exact W].
  eapply ok_conseq; [exact H|]. intros r' h' _ _ [G _]. exact G.
Qed.
Section OneSignal.
Context (h : heap) (r : loc) (k : cls) (c : rel) (n : nat).
Hypothesis R : reachable h.
Hypothesis Hv : rel_view A V h r = Some c.
Hypothesis Hk : cls_of A V h r = Some k.
Let W := reachable_wf A V F h R.
Lemma the_isrel : exists x y cf, isrel h r k x y c cf /\ cfg_of A V h r = Some cf.
Proof.
  destruct (isrel_view A V h r c Hv) as (k1' & x1 & y1 & cf1 & I1 & E1 & _ & E3). assert (k1' = k) by congruence. subst k1'. eauto 6.
Qed.
Theorem signal_shift d : is_sig k = true -> axis_size A (r_x c) = Ok n -> keeps_axis A V (h_cfg h) ->
  outcome (OShift A V r d) h = checked A V k (h_scfg h) (do s <- spectrum_seen h r; val_sig_shift A V F (h_cfg h) d c s).
Proof.
  intros Hs Hn HK. destruct the_isrel as (x & y & cf & I & _).
  eapply (outcome_byo h _ (h_shift A V F r d)); [reflexivity| |exact W].
  unfold h_shift. eapply rel_bind; [exact I|]. intros o _ -> _ _ _. rewrite Hs.
  eapply ok_conseq; [apply (sig_shift_spec A V F h r d _ _ _ _ _ n I Hs Hn HK)|].
  cbn beta. intros r' h' _ _ (G & _). exact (conj G Logic.I).
Qed.
Theorem signal_reverse percent subtract f0 f1 : is_sig k = true -> axis_size A (r_x c) = Ok n -> keeps_axis A V (h_cfg h) ->
  outcome (OReverseSignal A V r percent subtract f0 f1) h =
  checked A V k (h_scfg h) (do s <- spectrum_seen h r; val_reverse_signal A V F (h_cfg h) percent subtract f0 f1 c s).
Proof.
  intros Hs Hn HK. destruct the_isrel as (x & y & cf & I & _).
  eapply (outcome_byo h _ (h_reverse_signal A V F r percent subtract f0 f1)); [reflexivity| |exact W].
  exact (reverse_signal_spec A V F h r percent subtract f0 f1 _ _ _ _ _ n I Hs Hn HK).
Qed.
Theorem spectrum_reverse percent subtract f0 f1 : k = KSpec ->
  outcome (OReverseFilter A V r percent subtract f0 f1) h =
  one_out KSpec (val_reverse_filter A V F (h_cfg h) percent subtract f0 f1 c).
Proof.
  intros Ek. destruct the_isrel as (x & y & cf & I & _). rewrite Ek in I.
  eapply (outcome_byo h _ (h_reverse_filter A V F r percent subtract f0 f1)); [reflexivity| |exact W].
  exact (by_reverse A V F h r percent subtract f0 f1 _ _ _ _ I).
Qed.
Theorem spectrum_amp : k = KSpec -> outcome (OAmp A V r) h = one_out KRel (val_amp A V F c).
Proof.
  intros Ek. destruct the_isrel as (x & y & cf & I & _). rewrite Ek in I.
  eapply (outcome_byo h _ (h_amp A V F r)); [reflexivity| |exact W]. exact (by_amp A V F h r _ _ _ _ I).
Qed.
Theorem spectrum_phase : k = KSpec -> outcome (OPhase A V r) h = one_out KRel (val_phase A V F c).
Proof.
  intros Ek. destruct the_isrel as (x & y & cf & I & _). rewrite Ek in I.
  eapply (outcome_byo h _ (h_phase A V F r)); [reflexivity| |exact W]. exact (by_phase A V F h r _ _ _ _ I).
Qed.

(** the phase of a signal or spectrum, moved by the phase of any relation [r2] *)
Theorem signal_phase o r2 c2 : is_sig k = true -> axis_size A (r_x c) = Ok n -> keeps_axis A V (h_cfg h) ->
  rel_view A V h r2 = Some c2 -> o = ADD \/ o = SUB ->
  outcome (match o with ADD => OAddPhase A V r (HRel r2) | _ => OSubPhase A V r (HRel r2) end) h =
  checked A V k (h_scfg h) (do s <- spectrum_seen h r; do t <- argument_seen h r2; val_sig_phase A V F (h_cfg h) o c s t).
Proof.
  intros Hs Hn HK H2 Ho. destruct the_isrel as (x & y & cf & I & _).
  destruct (isrel_view A V h r2 c2 H2) as (k2 & x2 & y2 & cf2 & I2 & _).
  eapply (outcome_byo h _ (h_add_phase A V F o r (HRel r2))); [destruct Ho as [->| ->]; reflexivity| |exact W].
  unfold h_add_phase. eapply rel_bind; [exact I|]. intros o' _ -> _ _ _. rewrite Hs.
  exact (sig_phase_spec A V F h o r _ _ _ _ _ n r2 _ _ _ _ _ I Hs Hn HK I2).
Qed.
Theorem spectrum_moved o r2 c2 : k = KSpec -> rel_view A V h r2 = Some c2 -> o = ADD \/ o = SUB ->
  outcome (match o with ADD => OAddPhase A V r (HRel r2) | _ => OSubPhase A V r (HRel r2) end) h =
  one_out KSpec (do t <- argument_seen h r2; val_spec_phase A V F (h_cfg h) o c t).
Proof.
  intros Ek H2 Ho. destruct the_isrel as (x & y & cf & I & _). rewrite Ek in I.
  destruct (isrel_view A V h r2 c2 H2) as (k2 & x2 & y2 & cf2 & I2 & _).
  eapply (outcome_byo h _ (h_add_phase A V F o r (HRel r2))); [destruct Ho as [->| ->]; reflexivity| |exact W].
  unfold h_add_phase. eapply rel_bind; [exact I|]. intros o' _ -> _ _ _. cbn [is_sig].
  unfold on_spec. eapply rel_bind; [exact I|]. intros o'' _ -> _ _ _. cbn [is_spec].
  exact (spec_phase_spec A V F h o r r2 _ _ _ _ _ _ _ _ _ I I2).
Qed.

(** conversions: the remembered one, or the one computed *)
Lemma outcome_conv o m k' v : exec A V F o = one A V m ->
  HeapLemmas.ok A V (fun _ => True) h m (fun r' h' => exists c', v = Ok c' /\ cls_of A V h' r' = Some k' /\ rel_view A V h' r' = Some c')
    (fun e => v = Err e) -> outcome o h = one_out k' v.
Proof.
  intros He H. destruct (H W) as (_ & _ & G). unfold HeapSpec.outcome. rewrite He. unfold one, bindM, ret.
  destruct (m h) as [[r'|e] h'] eqn:E; cbn in *.
  - destruct G as (c' & -> & -> & ->). reflexivity.
  - rewrite G. reflexivity.
Qed.
Lemma make_same p (z : list val) c' : rel_make A V p z = Ok c' -> c' = mkRel p z.
Proof.
  rewrite rel_make_cases. destruct (axis_size A p); [|discriminate]. destruct (Nat.eqb _ _); [|discriminate].
  intros G. injection G as <-. reflexivity.
Qed.
Lemma converted_view h' o d k' v r' c' : converted A V h h' r o d k' v r' -> conv_val A V h d v = Ok c' ->
  cls_of A V h' r' = Some k' /\ rel_view A V h' r' = Some c'.
Proof.
  intros (dv & p & z & Hd & Hz & (xs & q & (yl & Hs & _) & Hq) & _) Hc'.
  destruct (view_isrel A V _ _ _ _ _ _ _ Hs) as (V1 & K1 & _). split; auto. rewrite V1. f_equal.
  unfold conv_val in Hc'. rewrite Hd in Hc'. cbn [bind] in Hc'. rewrite Hz in Hc'. cbn [bind fst snd] in Hc'.
  apply make_same in Hc'. rewrite Hc'. f_equal. destruct d as [|m|a]; cbn in Hd.
  - injection Hd as <-. apply Hq.
  - injection Hd as <-. apply Hq.
  - destruct Hq as (_ & oa & Hoa & <-). rewrite Hoa in Hd. destruct (axis_size A (ao_p oa)); [|discriminate]. injection Hd as <-. reflexivity.
Qed.
Theorem spectrum_computed cf d z : is_sig k = true -> cfg_of A V h r = Some cf -> 
  (forall o, nrel h r = Some o -> ro_link o = None) \/ dom_true d = true ->
  outcome (OGetSpectrum A V r d z) h = one_out KSpec (conv_val A V h d (fun dv => hc_s2s A V cf c dv z)).
Proof.
  intros Hs Hc Hm. destruct the_isrel as (x & y & cf' & I & Ec). assert (cf' = cf) by congruence. subst cf'.
  destruct (isrel_nrel _ _ _ _ _ _ _ _ _ I) as (o & Ho & Ek & Ex & Ey & Ecf).
  eapply outcome_conv; [reflexivity|]. rewrite <- Ecf, <- Ek, <- Ex, <- Ey in I.
  eapply ok_weaken; [apply (get_spectrum_miss_x A V (fun _ => True) h r o c d z Ho I)| |].
  - congruence.
  - destruct Hm as [Hm|Hm]; auto.
  - auto.
  - cbn beta. intros r' h' _ _ [G (c' & Hc')]. rewrite Ecf in *. exists c'. split; auto. eapply converted_view; eauto.
  - cbn beta. rewrite Ecf. auto.
Qed.
Theorem signal_computed cf d st : k = KSpec -> cfg_of A V h r = Some cf -> 
  (forall o, nrel h r = Some o -> ro_link o = None) \/ dom_true d = true ->
  outcome (OGetSignal A V r d st) h = one_out KSig (conv_val A V h d (fun dv => hc_sp2s A V cf c dv st)).
Proof.
  intros Hs Hc Hm. destruct the_isrel as (x & y & cf' & I & Ec). assert (cf' = cf) by congruence. subst cf'.
  destruct (isrel_nrel _ _ _ _ _ _ _ _ _ I) as (o & Ho & Ek & Ex & Ey & Ecf).
  eapply outcome_conv; [reflexivity|]. rewrite <- Ecf, <- Ek, <- Ex, <- Ey in I.
  eapply ok_weaken; [apply (get_signal_miss_x A V (fun _ => True) h r o c d st Ho I)| |].
  - rewrite Ek, Hs. reflexivity.
  - destruct Hm as [Hm|Hm]; auto.
  - auto.
  - cbn beta. intros r' h' _ _ [G (c' & Hc')]. rewrite Ecf in *. exists c'. split; auto. eapply converted_view; eauto.
  - cbn beta. rewrite Ecf. auto.
Qed.
(** the amplitude and phase spectra of a signal *)
Theorem signal_spectra : is_sig k = true ->
  outcome (OGetSpectrum A V r DaNone false) h = one_out KSpec (spectrum_seen h r) /\
  outcome (OSigAmp A V r DaNone false) h = one_out KRel (do s <- spectrum_seen h r; val_amp A V F s) /\
  outcome (OSigPhase A V r DaNone false) h = one_out KRel (do s <- spectrum_seen h r; val_phase A V F s).
Proof.
  intros Hs. destruct the_isrel as (x & y & cf & I & _). split; [|split].
  - destruct (isrel_nrel _ _ _ _ _ _ _ _ _ I) as (o & Ho & Ek & Ex & Ey & Ecf).
    destruct (ro_link o) as [l|] eqn:El.
    + unfold HeapSpec.outcome. cbn [exec]. unfold one, bindM, ret.
      rewrite (get_spectrum_hit A V h r o l DaNone false Ho); [|congruence|exact El|reflexivity].
      cbn [map]. destruct (wf_link _ _ h W r o l Ho El) as (o' & H1 & Hcl).
      destruct (isrel_of _ _ h l o' W H1) as (s & Hsl).
      destruct (view_isrel A V _ _ _ _ _ _ _ Hsl) as (V1 & K1 & _).
      assert (ro_cls o' = KSpec) as Ek' by (destruct Hcl as [[_ G]|[G _]]; [destruct (ro_cls o')|destruct (ro_cls o); subst k]; discriminate || reflexivity).
      rewrite (seen_linked A V h r o l s Ho El W V1), K1, V1, Ek'. reflexivity.
    + rewrite (spectrum_computed (ro_cfg o)); auto.
      * unfold SignalSpec.spectrum_seen. rewrite Ho, Hv, El. reflexivity.
      * unfold cfg_of. rewrite Ho. reflexivity.
      * left. intros o' Ho'. congruence.
  - eapply (outcome_byo h _ (h_sig_amp A V F r DaNone false) _ _ (fun _ => True)); [reflexivity| |exact W].
    unfold h_sig_amp. eapply spectrum_bind; [exact I|exact Hs| |].
    + intros sp h1 xs ys s cfs W1 X1 H1 E1 _ _ _. rewrite E1. cbn [bind].
      eapply ok_weaken; [exact (by_amp A V F h1 sp _ _ _ _ H1)| |auto].
      cbn beta. intros r' h' _ _ [(c' & E & HR) _]. split; auto. exists c'. split; auto.
      rewrite (ext_cfg _ _ _ _ _ X1) in HR. eapply res_from; eauto.
    + intros e ->. reflexivity.
  - eapply (outcome_byo h _ (h_sig_phase_spectrum A V F r DaNone false) _ _ (fun _ => True)); [reflexivity| |exact W].
    unfold h_sig_phase_spectrum. eapply spectrum_bind; [exact I|exact Hs| |].
    + intros sp h1 xs ys s cfs W1 X1 H1 E1 _ _ _. rewrite E1. cbn [bind].
      eapply ok_weaken; [exact (by_phase A V F h1 sp _ _ _ _ H1)| |auto].
      cbn beta. intros r' h' _ _ [(c' & E & HR) _]. split; auto. exists c'. split; auto.
      rewrite (ext_cfg _ _ _ _ _ X1) in HR. eapply res_from; eauto.
    + intros e ->. reflexivity.
Qed.
End OneSignal.
Theorem spectrum_rebuilt h am ph a p : reachable h -> rel_view A V h am = Some a -> rel_view A V h ph = Some p ->
  cls_of A V h am = Some KRel -> cls_of A V h ph = Some KRel ->
  cfg_of A V h am = Some (h_cfg h) -> cfg_of A V h ph = Some (h_cfg h) ->
  outcome (OFromAmpPhase A V am ph) h = one_out KSpec (val_from_amp_phase A V F (h_cfg h) a p).
Proof.
  intros R V1 V2 K1 K2 C1 C2.
  destruct (isrel_view A V h am a V1) as (k1 & x1 & y1 & cf1 & I1 & E1 & _ & E3).
  destruct (isrel_view A V h ph p V2) as (k2 & x2 & y2 & cf2 & I2 & F1 & _ & F3).
  assert (k1 = KRel) by congruence. assert (k2 = KRel) by congruence. assert (cf1 = h_cfg h) by congruence. assert (cf2 = h_cfg h) by congruence. subst.
  eapply (outcome_byo h _ (h_from_amp_phase A V F am ph)); [reflexivity| |exact (reachable_wf A V F h R)].
  exact (by_from A V F h am ph _ _ _ _ _ _ I1 I2).
Qed.

(** conversions on each kind of argument *)
Definition arg_dom (h : heap) (d : domarg) (dv : dom A) : Prop :=
  match d with
  | DaNone => dv = DNone A
  | DaInt n => dv = DInt A n
  | DaAxis a => exists p n, ax_view A V h a = Some p /\ axis_size A p = Ok n /\ dv = DAxis A p
  end.
Lemma conv_val_dom h d dv v : arg_dom h d dv -> (forall q p y, dv = DAxis A q -> v dv = Ok (p, y) -> p = q) ->
  conv_val A V h d v = (do fa <- v dv; rel_make A V (fst fa) (snd fa)).
Proof.
  intros Hd Hk. unfold conv_val. assert (E : dom_val A V h d = Ok dv).
  { destruct d as [|n|a]; cbn in *; subst; auto. destruct Hd as (p & n & Hp & Hn & ->).
    unfold ax_view in Hp. destruct (nax h a) as [o|]; [|discriminate]. cbn in Hp. injection Hp as <-. rewrite Hn. reflexivity. }
  rewrite E. cbn [bind]. destruct (v dv) as [[p y]|e] eqn:Ev; cbn [bind fst snd]; [|reflexivity].
  destruct dv as [| |q]; auto. rewrite (Hk q p y eq_refl eq_refl). reflexivity.
Qed.
Theorem get_spectrum_value h r k c cf d dv z : reachable h -> rel_view A V h r = Some c -> cls_of A V h r = Some k ->
  is_sig k = true -> cfg_of A V h r = Some cf -> keeps_axis A V cf -> remembered A V h r = None \/ dom_true d = true ->
  arg_dom h d dv -> outcome (OGetSpectrum A V r d z) h = one_out KSpec (val_spectrum A V cf c dv z).
Proof.
  intros R Hv Hk Hs Hc [HK _] Hm Hd. rewrite (spectrum_computed h r k c R Hv Hk cf d z Hs Hc).
  - rewrite (conv_val_dom h d dv _ Hd); [reflexivity|]. intros q p y -> E. eapply HK; exact E.
  - destruct Hm as [Hm|Hm]; auto. left. intros o Ho. unfold remembered in Hm. rewrite Ho in Hm. exact Hm.
Qed.
Theorem get_signal_value h r c cf d dv st : reachable h -> rel_view A V h r = Some c -> cls_of A V h r = Some KSpec ->
  cfg_of A V h r = Some cf -> keeps_axis A V cf -> remembered A V h r = None \/ dom_true d = true ->
  arg_dom h d dv -> outcome (OGetSignal A V r d st) h = one_out KSig (val_signal A V cf c dv st).
Proof.
  intros R Hv Hk Hc [_ HK] Hm Hd. rewrite (signal_computed h r KSpec c R Hv Hk cf d st eq_refl Hc).
  - rewrite (conv_val_dom h d dv _ Hd); [reflexivity|]. intros q p y -> E. eapply HK; exact E.
  - destruct Hm as [Hm|Hm]; auto. left. intros o Ho. unfold remembered in Hm. rewrite Ho in Hm. exact Hm.
Qed.
End HeapL8.

(** the default methods keep the axis they are given *)
Lemma calculate_keeps t y q p z : calculate_spectrum t y (DAxis RA q) = Ok (p, z) -> p = q.
Proof.
  unfold calculate_spectrum. intros H.
  repeat match type of H with (do _ <- ?e; _) = _ => destruct e; cbn [bind] in H; [|discriminate] | (let _ := _ in _) = _ => cbv zeta in H end.
  congruence.
Qed.
Theorem default_keeps_axis : keeps_axis RA CV fourier_config.
Proof.
  split.
  - intros c q z p y. cbn [hc_s2s fourier_config]. unfold signal2spectrum.
    destruct z; [apply calculate_keeps|]. destruct (Rltb _ _).
    + destruct (axis_size RA _); cbn [bind]; [|discriminate]. destruct (Nat.ltb _ _); [discriminate|apply calculate_keeps].
    + destruct (Rltb _ _); [|apply calculate_keeps].
      destruct (axis_size RA _); cbn [bind]; [|discriminate]. destruct (Nat.ltb _ _); [discriminate|apply calculate_keeps].
  - intros c q st p y. cbn [hc_sp2s fourier_config]. unfold spectrum2signal.
    destruct (fft_size _); cbn [bind]; [|discriminate]. destruct (irfft _ _); cbn [bind]; [|discriminate].
    destruct (reorder _ _); cbn [bind]; [|discriminate]. congruence.
Qed.
