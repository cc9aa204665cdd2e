(** Property-level lemmas about objects, continued (C12, C29, C34, C45). *)
From Coq Require Import ZArith List Bool Lia.
From Verif Require Import Num Numpy AxisModel RelModel HeapModel HeapSpec HeapLemmas HeapLemmas2 HeapLemmas3 HeapLemmas4 HeapLemmas5.
Import ListNotations.

Section HeapL6.
Context (A : Arith) (V : Vals A) (F : vfun A V).
Notation num := (num A).
Notation val := (val V).
Notation axis := (axis A).
Notation rel := (rel A V).
Notation heap := (heap A V).
Notation M := (M A V).
Notation nax h a := (nth_error (h_ax h) a).
Notation nrel h r := (nth_error (h_rel h) r).
Notation ny h l := (nth_error (h_yarr h) l).
Notation wf := (wf A V).
Notation isrel := (isrel A V).
Notation res := (res A V).
Notation bind' := (bindM A V).
Notation step := (step A V F).
Notation exec := (exec A V F).
Notation run := (run A V F).
Notation op := (op A V).
Notation reachable := (reachable A V F).
Notation outcome := (outcome A V F).
Notation along := (along A V F).
Notation noL := (fun _ : loc => False).

(** *** C12 *)
Lemma wf_with_cfg h c : wf h -> wf (with_cfg A V h c).
Proof. intros []. constructor; cbn; auto. Qed.
Lemma full_view h r o : wf h -> nrel h r = Some o -> exists c, rel_view A V h r = Some c /\ cls_of A V h r = Some (ro_cls o) /\
  cfg_of A V h r = Some (ro_cfg o) /\ axis_of A V h r = Some (ro_x o).
Proof.
  intros W H. destruct (isrel_of A V h r o W H) as (c & I). exists c. apply view_isrel in I. tauto.
Qed.
Lemma out_op_val h r k c cf o b : wf h -> rel_view A V h r = Some c -> cls_of A V h r = Some k -> cfg_of A V h r = Some cf ->
  outcome (OOperator A V o r (HVal b)) h =
  if converting o && is_spec k && negb (match b with OVal _ => true | _ => false end) then Err EConverting
  else checked A V k (h_scfg h) (rel_op_num A V (hc_base cf) o c b).
Proof.
  intros W Hc Hk Hcf. destruct (one_isrel A V h r k c cf Hc Hk Hcf) as (x & y & I).
  pose proof (op_num_spec A V noL h o r b k x y c cf I) as S. cbn zeta in S.
  destruct (converting o && is_spec k && negb (match b with OVal _ => true | _ => false end)) eqn:E.
  - apply andb_true_iff in E. destruct E as [E E3]. apply andb_true_iff in E. destruct E as [E1 E2].
    unfold HeapSpec.outcome. cbn [HeapModel.exec]. unfold one, h_operator.
    destruct I as (ro & ax & J1 & J2 & _). unfold bindM, get_rel, rd. rewrite J1, J2, E1. cbn [negb].
    destruct k; cbn in E2; try discriminate. cbn. destruct b; cbn in E3; try discriminate; reflexivity.
  - eapply (outcome_one A V F noL); [reflexivity| |auto]. unfold h_operator. eapply rel_bind; [exact I|]. intros ro _ -> _ _ _.
    destruct (converting o); cbn [negb]; [|exact S]. destruct (is_sig k) eqn:Es; [exact S|].
    destruct (is_spec k) eqn:Ep; [|exact S]. destruct b; cbn in E; try discriminate. exact S.
Qed.
Lemma step_config h c : step h (OConfig A V c) = with_cfg A V h c.
Proof. reflexivity. Qed.
Theorem captured h c o : reachable h -> uses_captured A V o -> outcome o (step h (OConfig A V c)) = outcome o h.
Proof.
  intros R Hu. apply reachable_wf in R. rewrite step_config. pose proof (wf_with_cfg h c R) as W'.
  assert (H : forall r, nrel h r = None \/ exists c0 k cf, rel_view A V h r = Some c0 /\ cls_of A V h r = Some k /\ cfg_of A V h r = Some cf).
  { intros r. destruct (nrel h r) as [ro|] eqn:E; auto. right. destruct (full_view h r ro R E) as (c0 & H1 & H2 & H3 & _).
    exists c0, (ro_cls ro), (ro_cfg ro). auto. }
  destruct o; cbn in Hu; try contradiction.
  - destruct b as [|b]; [contradiction|]. destruct (H r) as [Hn|(c0 & k & cf & H1 & H2 & H3)].
    + unfold HeapSpec.outcome. cbn [HeapModel.exec]. unfold one, h_operator, bindM, get_rel, rd. cbn. rewrite Hn. reflexivity.
    + rewrite (out_op_val h r k c0 cf o b R H1 H2 H3), (out_op_val (with_cfg A V h c) r k c0 cf o b W' H1 H2 H3). reflexivity.
  - destruct (H r) as [Hn|(c0 & k & cf & H1 & H2 & H3)].
    + unfold HeapSpec.outcome. cbn [HeapModel.exec]. unfold one, h_diff, h_method, bindM, get_rel, rd. cbn. rewrite Hn. reflexivity.
    + rewrite (out_diff A V F h r k c0 cf R H1 H2 H3), (out_diff A V F (with_cfg A V h c) r k c0 cf W' H1 H2 H3). reflexivity.
  - destruct (H r) as [Hn|(c0 & k & cf & H1 & H2 & H3)].
    + unfold HeapSpec.outcome. cbn [HeapModel.exec]. unfold one, h_integrate, h_method, bindM, get_rel, rd. cbn. rewrite Hn. reflexivity.
    + rewrite (out_integrate A V F h r k c0 cf R H1 H2 H3), (out_integrate A V F (with_cfg A V h c) r k c0 cf W' H1 H2 H3). reflexivity.
  - destruct (H r) as [Hn|(c0 & k & cf & H1 & H2 & H3)].
    + unfold HeapSpec.outcome. cbn [HeapModel.exec]. unfold one, h_exp, bindM, get_rel, rd. cbn. rewrite Hn. reflexivity.
    + rewrite (out_exp A V F h r k c0 cf R H1 H2 H3), (out_exp A V F (with_cfg A V h c) r k c0 cf W' H1 H2 H3). reflexivity.
  - destruct (H r) as [Hn|(c0 & k & cf & H1 & H2 & H3)].
    + unfold HeapSpec.outcome. cbn [HeapModel.exec]. unfold one, h_select, bindM, get_rel, rd. cbn. rewrite Hn. reflexivity.
    + rewrite (out_select A V F h r k c0 cf R H1 H2 H3), (out_select A V F (with_cfg A V h c) r k c0 cf W' H1 H2 H3). reflexivity.
  - destruct (H r) as [Hn|(c0 & k & cf & H1 & H2 & H3)].
    + unfold HeapSpec.outcome. cbn [HeapModel.exec]. unfold one, h_interp, bindM, get_rel, rd. cbn. rewrite Hn. reflexivity.
    + rewrite (out_interp A V F h r k c0 cf R H1 H2 H3), (out_interp A V F (with_cfg A V h c) r k c0 cf W' H1 H2 H3). reflexivity.
Qed.
Theorem captured_norm h c r : reachable h -> fst (h_norm A V r (step h (OConfig A V c))) = fst (h_norm A V r h).
Proof.
  intros R. apply reachable_wf in R. rewrite step_config. pose proof (wf_with_cfg h c R) as W'.
  destruct (nrel h r) as [ro|] eqn:E.
  - destruct (full_view h r ro R E) as (c0 & H1 & H2 & H3 & _).
    rewrite (val_norm A V h r _ c0 _ R H1 H2 H3), (val_norm A V (with_cfg A V h c) r _ c0 _ W' H1 H2 H3). reflexivity.
  - unfold h_norm, bindM, get_rel, rd. cbn. rewrite E. reflexivity.
Qed.
(** an object keeps the methods that were current when it was made, whatever happens later *)
Lemma step_cfg_of h o r cf : wf h -> cfg_of A V h r = Some cf -> cfg_of A V (step h o) r = Some cf.
Proof.
  intros W H. destruct (step_frame A V F h o W) as (_ & X & _). unfold cfg_of in *.
  destruct (nrel h r) as [ro|] eqn:E; [|discriminate]. cbn in H.
  destruct (fr_rel _ _ _ _ _ _ _ X r ro E) as (ro' & H1 & H2 & H3 & H4 & H5 & _). rewrite H1. cbn. congruence.
Qed.
Lemma run_cfg_of ops h r cf : wf h -> cfg_of A V h r = Some cf -> cfg_of A V (run ops h) r = Some cf.
Proof.
  revert h; induction ops as [|o ops IH]; intros h W Ha; cbn; auto.
  apply IH; auto; [apply step_frame; auto|]. apply step_cfg_of; auto.
Qed.
Lemma init_cfg x y h : h_cfg (snd (init_xy A V x y h)) = h_cfg h.
Proof.
  assert (G1 : forall a h, h_cfg (snd (ax_size A V a h)) = h_cfg h).
  { intros a g. unfold ax_size, ax_array, ax_array_loc, bindM, get_ax, get_f, rd, lift. destruct (nax g a) as [o|]; cbn; auto.
    destruct (ao_cache o); cbn.
    - destruct (nth_error (h_farr g) l); reflexivity.
    - destruct (axis_array A (ao_p o)); cbn; auto.
      match goal with |- context [nth_error ?l ?i] => destruct (nth_error l i) end; reflexivity. }
  unfold init_xy. destruct x as [r|a|s].
  - unfold bindM, get_rel, ax_copy, get_y, get_ax, rd, bindM. destruct (nrel h r) as [o|]; cbn; auto. unfold get_ax, rd.
    destruct (nax h (ro_x o)); cbn; auto. destruct (ny h (ro_y o)); reflexivity.
  - destruct y as [yv|]; [|reflexivity]. unfold bindM at 1. cbn. unfold bindM.
    pose proof (G1 a (with_yarr A V h (h_yarr h ++ [yv]))) as G. cbn in G.
    destruct (ax_size A V a (with_yarr A V h (h_yarr h ++ [yv]))) as [[n|e] g]; cbn in *; auto.
    destruct (Nat.eqb n (length yv)); auto.
  - destruct y as [yv|]; [|reflexivity]. unfold bindM at 1. cbn. unfold ax_from_array, bindM, lift. cbn.
    destruct (c_axis_from_array A V (hc_base (h_cfg h)) s true) as [p|]; cbn; auto.
    match goal with |- context [ax_size A V ?a ?g] => pose proof (G1 a g) as G; destruct (ax_size A V a g) as [[n|e] g'] end; cbn in *; auto.
    destruct (Nat.eqb n (length yv)); auto.
Qed.
Lemma new_cfg k x y link h r h' : new_plain A V k x y link h = (Ok r, h') -> cfg_of A V h' r = Some (h_cfg h).
Proof.
  unfold new_plain, bindM, get_cfg. destruct (init_xy A V x y h) as [[xy|e] g] eqn:E; [|discriminate].
  unfold alloc_rel. intros [= <- <-]. unfold cfg_of. cbn. rewrite nth_app_new. reflexivity.
Qed.
Theorem captures_current h k x y r h' ops : reachable h -> k <> KSweep ->
  exec (ONew A V k x y) h = (Ok [r], h') -> cfg_of A V (run ops h') r = Some (h_cfg h).
Proof.
  intros R Hk He. apply run_cfg_of.
  - assert (h' = step h (ONew A V k x y)) as -> by (unfold HeapModel.step; rewrite He; reflexivity).
    apply reachable_wf with (F := F). apply reachable_step. auto.
  - cbn [HeapModel.exec] in He. unfold one, bindM, ret in He.
    assert (HN : construct A V k x y h = new_plain A V k x y None h) by (destruct k; try reflexivity; contradiction).
    rewrite HN in He. destruct (new_plain A V k x y None h) as [[r'|e] g] eqn:E; [|discriminate].
    injection He as <- <-. eapply new_cfg; eauto.
Qed.

(** the default correlate and convolve refine the value-level ones, with the current configuration *)
Definition lag_val (cfg : config A V) (comb : list val -> list val -> result (list val)) (c1 c2 : rel) : result (axis * list val) :=
  do s1 <- rel_shift A V (n_opp A (a_start (r_x c1))) c1;
  do s2 <- rel_shift A V (n_opp A (a_start (r_x c2))) c2;
  do e <- rel_equalize A V cfg false s1 s2;
  do y <- comb (r_y (fst e)) (r_y (snd e));
  let x := r_x (fst e) in Ok (mkAxis (n_opp A (a_end x)) (a_end x) (a_sample x), y).
Lemma shift_bind {U} L h r d k x y c cf (j : loc -> M U) Q (E : exn -> Prop) : isrel h r k x y c cf -> is_sig k = false ->
  (forall h1 r1 c1, wf h1 -> ext A V L h h1 -> rel_shift A V d c = Ok c1 -> res h h1 r1 k c1 (h_cfg h) -> ok A V L h1 (j r1) Q E) ->
  (forall e, rel_shift A V d c = Err e -> E e) ->
  ok A V L h (bind' (h_shift A V F r d) j) Q E.
Proof.
  intros I Hs H1 H2. assert (HK : k <> KSweep) by (intros ->; discriminate).
  eapply ok_bind with (Q1 := fun r1 h1 => exists c1, rel_shift A V d c = Ok c1 /\ res h h1 r1 k c1 (h_cfg h)).
  - unfold h_shift. eapply rel_bind; [exact I|]. intros o _ -> _ _ _. rewrite Hs.
    eapply ok_weaken; [apply shift_axis_spec with (1 := I)| |].
    + cbn beta. intros r1 h1 _ _ (c1 & G & Rs). rewrite chk_plain in G by auto. eauto.
    + cbn beta. intros e G. rewrite chk_plain in G by auto. auto.
  - intros r1 h1 W1 X1 (c1 & G & Rs). eapply H1; eauto.
Qed.
Lemma default_lagged_spec L h comb r1 r2 k1 x1 y1 c1 cf1 k2 x2 y2 c2 cf2 :
  isrel h r1 k1 x1 y1 c1 cf1 -> isrel h r2 k2 x2 y2 c2 cf2 -> is_sig k1 = false -> is_sig k2 = false ->
  ok A V L h (default_lagged A V F comb r1 r2)
    (fun xy h' => lag_val (hc_base (h_cfg h)) comb c1 c2 = Ok xy)
    (fun e => lag_val (hc_base (h_cfg h)) comb c1 c2 = Err e).
Proof.
  intros I1 I2 S1 S2. assert (K1 : k1 <> KSweep) by (intros ->; discriminate). assert (K2 : k2 <> KSweep) by (intros ->; discriminate).
  unfold default_lagged, lag_val. eapply content_bind; [exact I1|].
  eapply shift_bind; [exact I1|auto| |intros e ->; reflexivity].
  intros h1 s1 d1 W1 X1 E1 (xa & ya & J1 & Fr1). rewrite E1. cbn [bind].
  pose proof (isrel_ext A V L h h1 r2 k2 x2 y2 c2 cf2 X1 I2) as I2'.
  eapply content_bind; [exact I2'|].
  eapply shift_bind; [exact I2'|auto| |intros e ->; reflexivity].
  intros h2 s2 d2 W2 X2 E2 (xb & yb & J2 & Fr2). rewrite E2. cbn [bind].
  pose proof (isrel_ext A V L h1 h2 s1 _ _ _ _ _ X2 J1) as J1'.
  assert (Hne : Nat.eqb xa xb = false).
  { apply Nat.eqb_neq. destruct J1 as (o & ax & _ & _ & _ & _ & _ & G & _). apply nth_lt in G.
    destruct Fr2 as (_ & Fx & _). unfold loc in *. lia. }
  assert (C1 : h_cfg h1 = h_cfg h) by (apply (ext_cfg _ _ _ _ _ X1)).
  assert (C2 : h_cfg h2 = h_cfg h) by (rewrite (ext_cfg _ _ _ _ _ X2); auto).
  assert (HV : equalize_val A V (h_scfg h2) (h_cfg h2) (h_cfg h) (h_cfg h1) k1 k2 (Nat.eqb xa xb) d1 d2 =
               rel_equalize A V (hc_base (h_cfg h)) false d1 d2).
  { rewrite Hne. unfold equalize_val, rel_equalize. rewrite C1, C2.
    rewrite !chk_plain by auto. reflexivity. }
  eapply ok_bind with (Q1 := fun e h' => exists d1' d2' g1 g2, rel_equalize A V (hc_base (h_cfg h)) false d1 d2 = Ok (d1', d2') /\
       res h2 h' (fst e) k1 d1' g1 /\ res h2 h' (snd e) k2 d2' g2).
  - eapply ok_weaken; [eapply equalize_spec; [exact J1'|exact J2]| |].
    + cbn beta. intros e h' _ _ (p1 & p2 & g1 & g2 & G & R1 & R2). rewrite HV in G. exists p1, p2, g1, g2. auto.
    + cbn beta. intros e G. rewrite HV in G. rewrite G. reflexivity.
  - intros e h3 W3 X3 (p1 & p2 & g1 & g2 & G & (u1 & v1 & R1 & _) & (u2 & v2 & R2 & _)). rewrite G. cbn [bind].
    eapply content_bind; [exact R1|]. eapply content_bind; [exact R2|]. cbn [fst snd].
    apply ok_lift_bind.
    + intros y Hy. rewrite Hy. cbn [bind]. apply ok_ret. auto.
    + intros er Her. rewrite Her. reflexivity.
Qed.
Lemma lag_val_rel cfg comb c1 c2 :
  (do xy <- lag_val cfg comb c1 c2; rel_make A V (fst xy) (snd xy)) = rel_lagged A V cfg comb c1 c2.
Proof.
  unfold lag_val, rel_lagged. destruct (rel_shift A V (n_opp A (a_start (r_x c1))) c1) as [s1|]; cbn [bind]; auto.
  destruct (rel_shift A V (n_opp A (a_start (r_x c2))) c2) as [s2|]; cbn [bind]; auto.
  destruct (rel_equalize A V cfg false s1 s2) as [p|]; cbn [bind]; auto.
  destruct (comb (r_y (fst p)) (r_y (snd p))); reflexivity.
Qed.
Theorem out_lagged h l r1 r2 k1 k2 c1 c2 : wf h -> rel_view A V h r1 = Some c1 -> rel_view A V h r2 = Some c2 ->
  cls_of A V h r1 = Some k1 -> cls_of A V h r2 = Some k2 -> is_sig k1 = false -> is_sig k2 = false ->
  lag_method A V l (h_cfg h) = None ->
  outcome (OLagged A V l KRel (HRel r1) (HRel r2)) h =
  (do c <- rel_lagged A V (hc_base (h_cfg h)) (lag_comb A V l) c1 c2; Ok [(Some KRel, Some c)]).
Proof.
  intros W H1 H2 K1 K2 S1 S2 HN.
  destruct (isrel_view A V h r1 c1 H1) as (k1' & x1 & y1 & cf1 & I1 & E1 & _). assert (k1' = k1) by congruence. subst k1'.
  destruct (isrel_view A V h r2 c2 H2) as (k2' & x2 & y2 & cf2 & I2 & E2 & _). assert (k2' = k2) by congruence. subst k2'.
  eapply (outcome_one A V F noL); [reflexivity| |auto].
  unfold h_lagged, h_rel_lagged. cbn [is_sig is_spec]. apply ok_cfg_bind. rewrite HN.
  eapply ok_bind; [eapply ok_weaken; [eapply default_lagged_spec; [exact I1|exact I2|auto|auto]|intros x h' _ _ G; exact G|]|].
  - cbn beta. intros e G. rewrite <- lag_val_rel, G. reflexivity.
  - cbn beta. intros xy h1 W1 X1 G. apply new_ax_bind. intros h2 ax W2 X2 Hax Hp R2 Y2.
    pose proof (ext_trans _ _ _ _ _ _ X1 X2) as X. pose proof (ext_ax_len _ _ _ _ _ X1).
    eapply construct_fresh with (h0 := h); [exact X|auto|eauto| |].
    + intros r h' W' Hm Hres X'. rewrite <- lag_val_rel, G. cbn. rewrite chk_plain in Hm by discriminate. eauto.
    + intros e He. rewrite <- lag_val_rel, G. cbn. rewrite chk_plain in He by discriminate. auto.
Qed.

(** *** C29 *)
Lemma Forall2_imp {T U} (P Q : T -> U -> Prop) l l' : (forall x y, P x y -> Q x y) -> Forall2 P l l' -> Forall2 Q l l'.
Proof. intros H. induction 1; constructor; auto. Qed.
Theorem result_class h o rs h' : reachable h -> ~ assigns A V o -> ~ sets_config A V o ->
  exec o h = (Ok rs, h') ->
  Forall2 (fun P r => exists k, P k /\ cls_of A V h' r = Some k) (result_classes A V h o) rs.
Proof.
  intros R Hn Hs He. apply reachable_wf in R.
  assert (Hw : ~ writes A V o) by (destruct o; cbn in *; auto).
  destruct (exec_ok A V F o h Hw R) as (_ & _ & H). rewrite He in H. cbn in H. unfold results_ok in H.
  eapply Forall2_imp; [|exact H]. intros P r (k & H1 & H2 & _). exists k. split; auto. apply hascls_of. auto.
Qed.
Lemma one_ok m h r h' : m h = (Ok r, h') -> one A V m h = (Ok [r], h').
Proof. intros E. unfold one, bindM. rewrite E. reflexivity. Qed.
Lemma one_err m h e h' : m h = (Err e, h') -> one A V m h = (Err e, h').
Proof. intros E. unfold one, bindM. rewrite E. reflexivity. Qed.
Lemma one_inv m h rs h' : one A V m h = (Ok rs, h') -> exists r, rs = [r] /\ m h = (Ok r, h').
Proof. unfold one, bindM, ret. destruct (m h) as [[r|e] g]; intros [= <- <-]. eauto. Qed.
Lemma one_inv_err m h e h' : one A V m h = (Err e, h') -> m h = (Err e, h').
Proof. unfold one, bindM, ret. destruct (m h) as [[r|e'] g]; intros [= <- <-]. eauto. Qed.
Lemma one_cong m m' h h' : m h = m' h' -> one A V m h = one A V m' h'.
Proof. intros E. unfold one, bindM. rewrite E. reflexivity. Qed.
Lemma one_bind {T} (m : M T) j h : one A V (bind' m j) h = bind' m (fun x => one A V (j x)) h.
Proof. unfold one. apply bind_assoc. Qed.

Lemma convert_signal_eq h o r r2 k : converting o = true -> cls_of A V h r = Some k -> is_sig k = true ->
  cls_of A V h r2 = Some KSpec ->
  h_operator A V o r (HRel r2) h = bind' (h_get_signal A V r2 DaNone None) (fun s => h_operation A V o r (HRel s)) h.
Proof.
  intros Ho Hk Hs H2. unfold cls_of in *. destruct (nrel h r) as [ro|] eqn:E; [|discriminate].
  destruct (nrel h r2) as [ro2|] eqn:E2; [|discriminate]. cbn in Hk, H2. injection Hk as Hk. injection H2 as H2.
  unfold h_operator. unfold bindM at 1, get_rel at 1, rd. rewrite E, Ho. cbn [negb]. rewrite Hk, Hs.
  unfold bindM at 1, get_rel at 1, rd. rewrite E2, H2. reflexivity.
Qed.
Lemma convert_spectrum_eq h o r r2 k : converting o = true -> cls_of A V h r = Some KSpec ->
  cls_of A V h r2 = Some k -> is_sig k = true ->
  h_operator A V o r (HRel r2) h = bind' (h_get_spectrum A V r2 DaNone false) (fun s => h_operation A V o r (HRel s)) h.
Proof.
  intros Ho Hk H2 Hs. unfold cls_of in *. destruct (nrel h r) as [ro|] eqn:E; [|discriminate].
  destruct (nrel h r2) as [ro2|] eqn:E2; [|discriminate]. cbn in Hk, H2. injection Hk as Hk. injection H2 as H2.
  unfold h_operator. unfold bindM at 1, get_rel at 1, rd. rewrite E, Ho. cbn [negb]. rewrite Hk. cbn [is_sig is_spec].
  unfold bindM at 1, get_rel at 1, rd. rewrite E2, H2, Hs. reflexivity.
Qed.
Lemma no_convert_eq h o r s k k2 : cls_of A V h r = Some k -> cls_of A V h s = Some k2 ->
  (is_sig k = true /\ is_sig k2 = true) \/ (is_spec k = true /\ is_spec k2 = true) ->
  h_operator A V o r (HRel s) h = h_operation A V o r (HRel s) h.
Proof.
  intros Hk H2 Hc. unfold cls_of in *. destruct (nrel h r) as [ro|] eqn:E; [|discriminate].
  destruct (nrel h s) as [ro2|] eqn:E2; [|discriminate]. cbn in Hk, H2. injection Hk as Hk. injection H2 as H2.
  unfold h_operator. unfold bindM at 1, get_rel at 1, rd. rewrite E. destruct (converting o); [|reflexivity]. cbn [negb]. rewrite Hk.
  destruct Hc as [[C1 C2]|[C1 C2]].
  - rewrite C1. unfold bindM at 1, get_rel at 1, rd. rewrite E2, H2. destruct k2; cbn in C2; try discriminate; reflexivity.
  - destruct k; cbn in C1; try discriminate. cbn [is_sig is_spec]. unfold bindM at 1, get_rel at 1, rd. rewrite E2, H2.
    destruct k2; cbn in C2; try discriminate; reflexivity.
Qed.
Theorem signal_converts h o r r2 k : reachable h -> converting o = true -> cls_of A V h r = Some k -> is_sig k = true ->
  cls_of A V h r2 = Some KSpec ->
  (forall s h1, exec (OGetSignal A V r2 DaNone None) h = (Ok [s], h1) ->
     exec (OOperator A V o r (HRel r2)) h = exec (OOperator A V o r (HRel s)) h1) /\
  (forall e h1, exec (OGetSignal A V r2 DaNone None) h = (Err e, h1) -> exec (OOperator A V o r (HRel r2)) h = (Err e, h1)).
Proof.
  intros R Ho Hk Hs H2. pose proof (convert_signal_eq h o r r2 k Ho Hk Hs H2) as E. split.
  - intros s h1 G. assert (S1 : h1 = step h (OGetSignal A V r2 DaNone None)) by (unfold HeapModel.step; rewrite G; reflexivity).
    pose proof (result_class h (OGetSignal A V r2 DaNone None) _ _ R (fun x => x) (fun x => x) G) as C. cbn in C. inversion C as [|P r' Ps rs' (k2 & P2 & C2) Ht]; subst.
    cbn [HeapModel.exec] in G |- *. apply one_inv in G. destruct G as (s' & [= <-] & G).
    apply one_cong. rewrite E. unfold bindM. rewrite G.
    assert (Hk1 : cls_of A V (step h (OGetSignal A V r2 DaNone None)) r = Some k).
    { apply step_cls_of; auto. apply reachable_wf with (F := F). auto. }
    rewrite (no_convert_eq _ o r s k k2 Hk1 C2); [reflexivity|]. left. split; auto. destruct P2; subst; auto.
  - intros e h1 G. cbn [HeapModel.exec] in G |- *. apply one_inv_err in G. apply one_err. rewrite E. unfold bindM. rewrite G. reflexivity.
Qed.
Theorem spectrum_converts h o r r2 k : reachable h -> converting o = true -> cls_of A V h r = Some KSpec ->
  cls_of A V h r2 = Some k -> is_sig k = true ->
  (forall s h1, exec (OGetSpectrum A V r2 DaNone false) h = (Ok [s], h1) ->
     exec (OOperator A V o r (HRel r2)) h = exec (OOperator A V o r (HRel s)) h1) /\
  (forall e h1, exec (OGetSpectrum A V r2 DaNone false) h = (Err e, h1) -> exec (OOperator A V o r (HRel r2)) h = (Err e, h1)).
Proof.
  intros R Ho Hk H2 Hs. pose proof (convert_spectrum_eq h o r r2 k Ho Hk H2 Hs) as E. split.
  - intros s h1 G. assert (S1 : h1 = step h (OGetSpectrum A V r2 DaNone false)) by (unfold HeapModel.step; rewrite G; reflexivity).
    pose proof (result_class h (OGetSpectrum A V r2 DaNone false) _ _ R (fun x => x) (fun x => x) G) as C. cbn in C. inversion C as [|P r' Ps rs' (k2 & P2 & C2) Ht]; subst.
    cbn [HeapModel.exec] in G |- *. apply one_inv in G. destruct G as (s' & [= <-] & G).
    apply one_cong. rewrite E. unfold bindM. rewrite G.
    assert (Hk1 : cls_of A V (step h (OGetSpectrum A V r2 DaNone false)) r = Some KSpec).
    { apply step_cls_of; auto. apply reachable_wf with (F := F). auto. }
    rewrite (no_convert_eq _ o r s KSpec KSpec Hk1 C2); [reflexivity|]. right. auto.
  - intros e h1 G. cbn [HeapModel.exec] in G |- *. apply one_inv_err in G. apply one_err. rewrite E. unfold bindM. rewrite G. reflexivity.
Qed.
Theorem unsupported_spectrum h o r k c b : reachable h -> rel_view A V h r = Some c -> cls_of A V h r = Some k ->
  k = KSpec -> converting o = true -> (forall v, b <> OVal v) -> outcome (OOperator A V o r (HVal b)) h = Err EConverting.
Proof.
  intros R Hc Hk -> Ho Hb. apply reachable_wf in R. destruct (isrel_view A V h r c Hc) as (k' & x & y & cf & _ & _ & _ & Hf).
  rewrite (out_op_val h r KSpec c cf o b R Hc Hk Hf), Ho. destruct b; try reflexivity. destruct (Hb v eq_refl).
Qed.
Theorem unsupported_operand h o r k c cf : reachable h -> rel_view A V h r = Some c -> cls_of A V h r = Some k ->
  cfg_of A V h r = Some cf -> c_math A V (hc_base cf) = c_math A V (default_config A V) -> converting o = false \/ k <> KSpec ->
  outcome (OOperator A V o r (HVal OBad)) h = Err ETypeFunc.
Proof.
  intros R Hc Hk Hf Hm Hn. apply reachable_wf in R.
  rewrite (out_op_val h r k c cf o OBad R Hc Hk Hf). cbn [negb]. rewrite andb_true_r.
  replace (converting o && is_spec k) with false.
  - unfold checked, rel_op_num. rewrite Hm. reflexivity.
  - destruct Hn as [->|Hn]; auto. destruct k; cbn; try rewrite andb_false_r; auto. contradiction.
Qed.
Theorem lagged_non_relation h l k b b1 b2 :
  fst (exec (OLagged A V l KRel (HVal b) b2) h) = Err ETypeFunc /\
  fst (exec (OLagged A V l KRel b1 (HVal b)) h) = Err ETypeFunc /\
  (k <> KRel -> fst (exec (OLagged A V l k (HVal b) b2) h) = Err EConverting).
Proof.
  split; [reflexivity|]. split.
  - cbn. destruct b1; reflexivity.
  - intros Hk. destruct k; try contradiction; reflexivity.
Qed.
Theorem lagged_second_non_relation h l k b r1 : k <> KRel -> cls_of A V h r1 = Some k -> (k = KSpec \/ k = KSig \/ k = KSweep) ->
  fst (exec (OLagged A V l k (HRel r1) (HVal b)) h) = Err EConverting.
Proof.
  intros Hk Hc H. unfold cls_of in Hc. destruct (nrel h r1) as [o|] eqn:E; [|discriminate]. cbn in Hc. injection Hc as Hc.
  cbn [HeapModel.exec]. destruct H as [ -> | [ -> | -> ] ]; unfold one, h_lagged; cbn [is_sig is_spec];
    unfold to_signal, to_spectrum, bindM, get_rel, rd; rewrite E, Hc; reflexivity.
Qed.

(** *** C34 *)
Definition link_of (h : heap) (r : loc) : option loc := match nrel h r with Some o => ro_link o | None => None end.
Lemma step_link h o r l : wf h -> link_of h r = Some l -> ~ link_target A V o r -> link_of (step h o) r = Some l.
Proof.
  intros W H N. destruct (step_frame A V F h o W) as (_ & X & _). unfold link_of in *.
  destruct (nrel h r) as [ro|] eqn:E; [|discriminate].
  destruct (fr_rel _ _ _ _ _ _ _ X r ro E) as (ro' & H1 & _ & _ & _ & _ & _ & _ & HL). rewrite H1. auto.
Qed.
Lemma run_link ops h r l : wf h -> link_of h r = Some l -> along (fun _ o => ~ link_target A V o r) h ops -> link_of (run ops h) r = Some l.
Proof.
  revert h; induction ops as [|o ops IH]; intros h W Ha H; cbn; auto. destruct H as [H1 H2].
  apply IH; auto; [apply step_frame; auto|]. apply step_link; auto.
Qed.
Lemma run_cls ops h r k : wf h -> cls_of A V h r = Some k -> cls_of A V (run ops h) r = Some k.
Proof.
  revert h; induction ops as [|o ops IH]; intros h W Ha; cbn; auto.
  apply IH; auto; [apply step_frame; auto|]. apply step_cls_of; auto.
Qed.
Lemma spectrum_links h r d z s h1 : wf h -> h_get_spectrum A V r d z h = (Ok s, h1) ->
  (exists k, cls_of A V h r = Some k /\ is_sig k = true) /\ link_of h1 r = Some s /\
  (nrel h s = None -> link_of h1 s = Some r).
Proof.
  intros W E. unfold cls_of. destruct (nrel h r) as [o|] eqn:Ho.
  2:{ unfold h_get_spectrum, bindM, get_rel, rd in E. rewrite Ho in E. discriminate. }
  destruct (is_sig (ro_cls o)) eqn:Hs.
  2:{ unfold h_get_spectrum, bindM, get_rel, rd in E. rewrite Ho, Hs in E. discriminate. }
  split; [cbn; eauto|]. destruct (isrel_of A V h r o W Ho) as (c & I).
  assert (Hd : ro_link o = None \/ dom_true d = true \/ (exists l, ro_link o = Some l /\ dom_true d = false)).
  { destruct (ro_link o); auto. right. destruct (dom_true d); eauto. }
  assert (HM : ro_link o = None \/ dom_true d = true -> link_of h1 r = Some s /\ (nrel h s = None -> link_of h1 s = Some r)).
  { intros Hm. destruct (get_spectrum_miss A V (fun _ => True) h r o c d z Ho I Hs Hm (or_intror Logic.I) W) as (_ & _ & G).
    rewrite E in G. cbn in G. destruct G as (dv & p & y & _ & _ & _ & (o1 & G1 & G2) & G3 & _).
    unfold link_of. rewrite G3, G1. auto. }
  destruct Hd as [Hd|[Hd|(l & Hl & Hd)]]; auto.
  rewrite (get_spectrum_hit A V h r o l d z Ho Hs Hl Hd) in E. injection E as <- <-. split.
  - unfold link_of. rewrite Ho. auto.
  - intros Hn. destruct (wf_link _ _ _ W _ _ _ Ho Hl) as (o' & G & _). congruence.
Qed.
Lemma signal_links h r d st s h1 : wf h -> h_get_signal A V r d st h = (Ok s, h1) ->
  cls_of A V h r = Some KSpec /\ link_of h1 r = Some s /\ (nrel h s = None -> link_of h1 s = Some r).
Proof.
  intros W E. unfold cls_of. destruct (nrel h r) as [o|] eqn:Ho.
  2:{ unfold h_get_signal, bindM, get_rel, rd in E. rewrite Ho in E. discriminate. }
  destruct (is_spec (ro_cls o)) eqn:Hs.
  2:{ unfold h_get_signal, bindM, get_rel, rd in E. rewrite Ho, Hs in E. discriminate. }
  split; [cbn; destruct (ro_cls o); cbn in Hs; congruence|]. destruct (isrel_of A V h r o W Ho) as (c & I).
  assert (Hd : ro_link o = None \/ dom_true d = true \/ (exists l, ro_link o = Some l /\ dom_true d = false)).
  { destruct (ro_link o); auto. right. destruct (dom_true d); eauto. }
  assert (HM : ro_link o = None \/ dom_true d = true -> link_of h1 r = Some s /\ (nrel h s = None -> link_of h1 s = Some r)).
  { intros Hm. destruct (get_signal_miss A V (fun _ => True) h r o c d st Ho I Hs Hm (or_intror Logic.I) W) as (_ & _ & G).
    rewrite E in G. cbn in G. destruct G as (dv & p & y & _ & _ & _ & (o1 & G1 & G2) & G3 & _).
    unfold link_of. rewrite G3, G1. auto. }
  destruct Hd as [Hd|[Hd|(l & Hl & Hd)]]; auto.
  rewrite (get_signal_hit A V h r o l d st Ho Hs Hl Hd) in E. injection E as <- <-. split.
  - unfold link_of. rewrite Ho. auto.
  - intros Hn. destruct (wf_link _ _ _ W _ _ _ Ho Hl) as (o' & G & _). congruence.
Qed.
Lemma hit_spectrum h r k l d z : cls_of A V h r = Some k -> is_sig k = true -> link_of h r = Some l -> dom_true d = false ->
  exec (OGetSpectrum A V r d z) h = (Ok [l], h).
Proof.
  intros Hk Hs Hl Hd. unfold cls_of, link_of in *. destruct (nrel h r) as [o|] eqn:E; [|discriminate]. injection Hk as <-.
  cbn [HeapModel.exec]. apply one_ok. eapply get_spectrum_hit; eauto.
Qed.
Lemma hit_signal h r l d st : cls_of A V h r = Some KSpec -> link_of h r = Some l -> dom_true d = false ->
  exec (OGetSignal A V r d st) h = (Ok [l], h).
Proof.
  intros Hk Hl Hd. unfold cls_of, link_of in *. destruct (nrel h r) as [o|] eqn:E; [|discriminate]. injection Hk as Hk.
  cbn [HeapModel.exec]. apply one_ok. eapply get_signal_hit; eauto. rewrite Hk. reflexivity.
Qed.
Theorem same_spectrum h r d z s h1 ops d' z' : reachable h -> d' = DaNone \/ d' = DaInt 0 -> exec (OGetSpectrum A V r d z) h = (Ok [s], h1) ->
  along (fun _ o => ~ link_target A V o r) h1 ops ->
  exec (OGetSpectrum A V r d' z') (run ops h1) = (Ok [s], run ops h1).
Proof.
  intros R D' E Hal. pose proof (reachable_wf _ _ _ _ R) as W.
  assert (S1 : h1 = step h (OGetSpectrum A V r d z)) by (unfold HeapModel.step; rewrite E; reflexivity).
  assert (W1 : wf h1) by (subst h1; apply reachable_wf with (F := F), reachable_step; auto).
  cbn [HeapModel.exec] in E. apply one_inv in E. destruct E as (s' & [= <-] & E).
  destruct (spectrum_links h r d z s h1 W E) as ((k & Hk & Hs) & Hl & _).
  eapply hit_spectrum with (k := k); auto.
  - apply run_cls; auto. rewrite S1. apply step_cls_of; auto.
  - apply run_link; auto.
  - destruct D' as [-> | ->]; reflexivity.
Qed.
Theorem same_signal h r d st s h1 ops d' st' : reachable h -> d' = DaNone \/ d' = DaInt 0 -> exec (OGetSignal A V r d st) h = (Ok [s], h1) ->
  along (fun _ o => ~ link_target A V o r) h1 ops ->
  exec (OGetSignal A V r d' st') (run ops h1) = (Ok [s], run ops h1).
Proof.
  intros R D' E Hal. pose proof (reachable_wf _ _ _ _ R) as W.
  assert (S1 : h1 = step h (OGetSignal A V r d st)) by (unfold HeapModel.step; rewrite E; reflexivity).
  assert (W1 : wf h1) by (subst h1; apply reachable_wf with (F := F), reachable_step; auto).
  cbn [HeapModel.exec] in E. apply one_inv in E. destruct E as (s' & [= <-] & E).
  destruct (signal_links h r d st s h1 W E) as (Hk & Hl & _).
  eapply hit_signal; auto.
  - apply run_cls; auto. rewrite S1. apply step_cls_of; auto.
  - apply run_link; auto.
  - destruct D' as [-> | ->]; reflexivity.
Qed.
Theorem back_to_signal h r d z s h1 ops st : reachable h -> exec (OGetSpectrum A V r d z) h = (Ok [s], h1) ->
  cls_of A V h s = None -> along (fun _ o => ~ link_target A V o s) h1 ops ->
  exec (OGetSignal A V s DaNone st) (run ops h1) = (Ok [r], run ops h1).
Proof.
  intros R E Hn Hal. pose proof (reachable_wf _ _ _ _ R) as W.
  assert (S1 : h1 = step h (OGetSpectrum A V r d z)) by (unfold HeapModel.step; rewrite E; reflexivity).
  assert (W1 : wf h1) by (subst h1; apply reachable_wf with (F := F), reachable_step; auto).
  pose proof (result_class h (OGetSpectrum A V r d z) _ _ R (fun x => x) (fun x => x) E) as C. cbn in C. inversion C as [|P r' Ps rs' (k2 & P2 & C2) Ht]; subst.
  cbn [HeapModel.exec] in E. apply one_inv in E. destruct E as (s' & [= <-] & E).
  destruct (spectrum_links h r d z s _ W E) as (_ & _ & Hl).
  eapply hit_signal; auto.
  - apply run_cls; auto.
  - apply run_link; auto. apply Hl. unfold cls_of in Hn. destruct (nrel h s); [discriminate|auto].
Qed.
Theorem back_to_spectrum h r d st s h1 ops z : reachable h -> exec (OGetSignal A V r d st) h = (Ok [s], h1) ->
  cls_of A V h s = None -> along (fun _ o => ~ link_target A V o s) h1 ops ->
  exec (OGetSpectrum A V s DaNone z) (run ops h1) = (Ok [r], run ops h1).
Proof.
  intros R E Hn Hal. pose proof (reachable_wf _ _ _ _ R) as W.
  assert (S1 : h1 = step h (OGetSignal A V r d st)) by (unfold HeapModel.step; rewrite E; reflexivity).
  assert (W1 : wf h1) by (subst h1; apply reachable_wf with (F := F), reachable_step; auto).
  pose proof (result_class h (OGetSignal A V r d st) _ _ R (fun x => x) (fun x => x) E) as C. cbn in C. inversion C as [|P r' Ps rs' (k2 & P2 & C2) Ht]; subst.
  cbn [HeapModel.exec] in E. apply one_inv in E. destruct E as (s' & [= <-] & E).
  destruct (signal_links h r d st s _ W E) as (_ & _ & Hl).
  eapply hit_spectrum with (k := k2); auto.
  - apply run_cls; auto.
  - destruct P2; subst; auto.
  - apply run_link; auto. apply Hl. unfold cls_of in Hn. destruct (nrel h s); [discriminate|auto].
Qed.
(** a conversion with an explicit domain replaces what is remembered *)
Theorem explicit_domain_replaces h r d st s h1 st' : reachable h -> d <> DaNone -> d <> DaInt 0 ->
  exec (OGetSignal A V r d st) h = (Ok [s], h1) -> 
  cls_of A V h s = None /\ exec (OGetSignal A V r DaNone st') h1 = (Ok [s], h1).
Proof.
  intros R Dn Dz E. assert (Hd : dom_true d = true).
  { destruct d as [|n|a]; [congruence| |reflexivity]. cbn. destruct (Z.eqb_spec n 0) as [->|]; [congruence|reflexivity]. } split.
  - apply reachable_wf in R. cbn [HeapModel.exec] in E. apply one_inv in E. destruct E as (s' & [= <-] & E).
    unfold cls_of. destruct (nrel h r) as [o|] eqn:Ho.
    2:{ unfold h_get_signal, bindM, get_rel, rd in E. rewrite Ho in E. discriminate. }
    destruct (is_spec (ro_cls o)) eqn:Hs.
    2:{ unfold h_get_signal, bindM, get_rel, rd in E. rewrite Ho, Hs in E. discriminate. }
    destruct (isrel_of A V h r o R Ho) as (c & I).
    destruct (get_signal_miss A V (fun _ => True) h r o c d st Ho I Hs (or_intror Hd) (or_intror Logic.I) R) as (_ & _ & G).
    rewrite E in G. cbn in G. destruct G as (dv & p & y & _ & _ & (x & q & (y' & _ & Hlt & _) & _) & _).
    rewrite (proj2 (nth_error_None _ _)); auto.
  - eapply (same_signal h r d st s h1 [] DaNone st'); eauto. exact Logic.I.
Qed.

Theorem explicit_frequency_replaces h r d z s h1 z' : reachable h -> d <> DaNone -> d <> DaInt 0 ->
  exec (OGetSpectrum A V r d z) h = (Ok [s], h1) -> 
  cls_of A V h s = None /\ exec (OGetSpectrum A V r DaNone z') h1 = (Ok [s], h1).
Proof.
  intros R Dn Dz E. assert (Hd : dom_true d = true).
  { destruct d as [|n|a]; [congruence| |reflexivity]. cbn. destruct (Z.eqb_spec n 0) as [->|]; [congruence|reflexivity]. } split.
  - apply reachable_wf in R. cbn [HeapModel.exec] in E. apply one_inv in E. destruct E as (s' & [= <-] & E).
    unfold cls_of. destruct (nrel h r) as [o|] eqn:Ho.
    2:{ unfold h_get_spectrum, bindM, get_rel, rd in E. rewrite Ho in E. discriminate. }
    destruct (is_sig (ro_cls o)) eqn:Hs.
    2:{ unfold h_get_spectrum, bindM, get_rel, rd in E. rewrite Ho, Hs in E. discriminate. }
    destruct (isrel_of A V h r o R Ho) as (c & I).
    destruct (get_spectrum_miss A V (fun _ => True) h r o c d z Ho I Hs (or_intror Hd) (or_intror Logic.I) R) as (_ & _ & G).
    rewrite E in G. cbn in G. destruct G as (dv & p & y & _ & _ & (x & q & (y' & _ & Hlt & _) & _) & _).
    rewrite (proj2 (nth_error_None _ _)); auto.
  - eapply (same_spectrum h r d z s h1 [] DaNone z'); eauto. exact Logic.I.
Qed.

(** *** C45 *)
Theorem call_axis h g t tht0 r h' : reachable h -> exec (OCall A V g t tht0) h = (Ok [r], h') ->
  exists tl lf la, axis_of A V h' r = Some tl /\ cls_of A V h' r = Some KSweep /\
    laws_of A V h' r = Some (Some lf, Some la) /\ axis_of A V h' lf = Some tl /\ axis_of A V h' la = Some tl /\
    cls_of A V h r = None /\ cls_of A V h lf = None /\ cls_of A V h la = None /\
    match t with
    | TaAxis a => tl = a
    | TaSeq _ => ax_view A V h tl = None
    | TaNone => gen_axis A V h g = Some (Some tl)
    end.
Proof.
  intros R E. apply reachable_wf in R. cbn [HeapModel.exec] in E. apply one_inv in E. destruct E as (r' & [= <-] & E).
  destruct (call_any A V noL h g t tht0 R) as (_ & _ & G). rewrite E in G. cbn in G.
  destruct G as (go & tl & o & lf & la & G1 & G2 & G3 & G4 & G5 & G6 & G7 & G8 & G9 & (of & F1 & F2 & F3 & F4) & (oa & A1 & A2 & A3 & A4)).
  exists tl, lf, la. unfold axis_of, cls_of, laws_of, gen_axis, ax_view. rewrite G3, F1, A1, G1. cbn.
  rewrite !(proj2 (nth_error_None _ _)) by auto. rewrite G5, G6, G8, G9, F4, A4. repeat split; auto.
  destruct t; auto.
  - rewrite G2. reflexivity.
  - rewrite (proj2 (nth_error_None _ _)) by auto. reflexivity.
Qed.
Lemma step_gen_axis h o g t : wf h -> gen_axis A V h g = Some t -> gen_axis A V (step h o) g = Some t.
Proof.
  intros W H. destruct (step_frame A V F h o W) as (_ & X & _). unfold gen_axis in *.
  destruct (nth_error (h_gen h) g) as [go|] eqn:E; [|discriminate].
  rewrite (fr_gen _ _ _ _ _ _ _ X g go E). auto.
Qed.
Lemma run_gen_axis ops h g t : wf h -> gen_axis A V h g = Some t -> gen_axis A V (run ops h) g = Some t.
Proof.
  revert h; induction ops as [|o ops IH]; intros h W Ha; cbn; auto.
  apply IH; auto; [apply step_frame; auto|]. apply step_gen_axis; auto.
Qed.
(** two calls without time, anything in between: one axis object *)
Theorem calls_share h g t1 r1 h1 ops t2 r2 h2 : reachable h ->
  exec (OCall A V g (TaNone A) t1) h = (Ok [r1], h1) ->
  exec (OCall A V g (TaNone A) t2) (run ops h1) = (Ok [r2], h2) ->
  exists tl, gen_axis A V h2 g = Some (Some tl) /\ axis_of A V h2 r1 = Some tl /\ axis_of A V h2 r2 = Some tl.
Proof.
  intros R E1 E2. pose proof (reachable_wf _ _ _ _ R) as W.
  assert (S1 : h1 = step h (OCall A V g (TaNone A) t1)) by (unfold HeapModel.step; rewrite E1; reflexivity).
  assert (R1 : reachable h1) by (subst h1; apply reachable_step; auto).
  pose proof (reachable_run A V F h1 ops R1) as R1'. pose proof (reachable_wf _ _ _ _ R1') as W1'.
  assert (S2 : h2 = step (run ops h1) (OCall A V g (TaNone A) t2)) by (unfold HeapModel.step; rewrite E2; reflexivity).
  destruct (call_axis _ _ _ _ _ _ R E1) as (tl & lf & la & A1 & _ & _ & _ & _ & _ & _ & _ & G1). cbn in G1.
  destruct (call_axis _ _ _ _ _ _ R1' E2) as (tl2 & lf2 & la2 & A2 & _ & _ & _ & _ & _ & _ & _ & G2). cbn in G2.
  assert (G1' : gen_axis A V h1 g = Some (Some tl)) by (rewrite S1; apply step_gen_axis; auto).
  pose proof (run_gen_axis ops h1 g _ (reachable_wf _ _ _ _ R1) G1') as G3. assert (tl2 = tl) by congruence. subst tl2.
  exists tl. split; [rewrite S2; apply step_gen_axis; auto|]. split; auto.
  rewrite S2. apply step_axis_of; auto. apply run_axis_of; auto. apply reachable_wf with (F := F). auto.
Qed.
(** assigning through any relation on the axis reaches every relation on it and the generator's own axis *)
Theorem assign_shared h f q v tl p : reachable h -> axis_of A V h q = Some tl -> ax_view A V h tl = Some p ->
  ax_view A V (step h (ORelSet A V f q v)) tl = Some (set_field A f v p) /\
  (forall r c, axis_of A V h r = Some tl -> rel_view A V h r = Some c ->
     rel_view A V (step h (ORelSet A V f q v)) r = Some (mkRel (set_field A f v p) (r_y c))).
Proof.
  intros R Hq Hp. split.
  - rewrite (step_relset A V F h f q v tl Hq). apply set_view. auto.
  - intros r c Hr Hc. rewrite (assign_exact A V F h f q v tl r c tl R Hq Hc Hr), Nat.eqb_refl.
    destruct (view_axis _ _ _ _ _ Hc) as (a & Ha & Hpa). assert (a = tl) by congruence. subst a.
    assert (p = r_x c) by congruence. subst. reflexivity.
Qed.

(** *** C12 and C61 in the form stated *)
Theorem lagged_current h l cfg f r1 r2 c1 c2 : reachable h ->
  rel_view A V h r1 = Some c1 -> rel_view A V h r2 = Some c2 -> lag_method A V l cfg = Some f ->
  outcome (OLagged A V l KRel (HRel r1) (HRel r2)) (step h (OConfig A V cfg)) =
  (do xy <- f c1 c2; do c <- rel_make A V (fst xy) (snd xy); Ok [(Some KRel, Some c)]).
Proof.
  intros R H1 H2 Hf. apply reachable_wf in R. rewrite step_config. apply (wf_with_cfg h cfg) in R.
  destruct (isrel_view A V h r1 c1 H1) as (k1 & x1 & y1 & cf1 & _ & E1 & E2 & E3).
  destruct (isrel_view A V h r2 c2 H2) as (k2 & x2 & y2 & cf2 & _ & G1 & G2 & G3).
  exact (out_lagged_custom A V F (with_cfg A V h cfg) r1 r2 k1 k2 c1 c2 cf1 cf2 x1 x2 R H1 H2 E1 G1 E3 G3 E2 G2 l f Hf).
Qed.
Theorem equalize_current h cfg r1 r2 k1 k2 c1 c2 cf1 cf2 a1 a2 : reachable h ->
  rel_view A V h r1 = Some c1 -> rel_view A V h r2 = Some c2 -> cls_of A V h r1 = Some k1 -> cls_of A V h r2 = Some k2 ->
  k1 <> KSweep -> k2 <> KSweep ->
  cfg_of A V h r1 = Some cf1 -> cfg_of A V h r2 = Some cf2 -> axis_of A V h r1 = Some a1 -> axis_of A V h r2 = Some a2 ->
  outcome (OEqualize A V r1 r2) (step h (OConfig A V cfg)) =
  if Nat.eqb a1 a2 then Ok [(Some k1, Some c1); (Some k2, Some c2)]
  else let x := c_common_x A V (hc_base cfg) (r_x c1) (r_x c2) in
       do e1 <- rel_interp A V (hc_base cf1) x c1; do e2 <- rel_interp A V (hc_base cf2) x c2;
       Ok [(Some k1, Some e1); (Some k2, Some e2)].
Proof.
  intros R H1 H2 K1 K2 N1 N2 F1 F2 A1 A2. apply reachable_wf in R. rewrite step_config. apply (wf_with_cfg h cfg) in R.
  rewrite (out_equalize A V F (with_cfg A V h cfg) r1 r2 k1 k2 c1 c2 cf1 cf2 a1 a2 R H1 H2 K1 K2 F1 F2 A1 A2).
  unfold equalize_val. destruct (Nat.eqb a1 a2); [reflexivity|]. rewrite !chk_plain by auto. cbv zeta. cbn [h_cfg with_cfg].
  destruct (rel_interp A V (hc_base cf1) _ c1); cbn [bind]; auto. destruct (rel_interp A V (hc_base cf2) _ c2); reflexivity.
Qed.
Theorem methods_by_value h r k c cf : reachable h ->
  rel_view A V h r = Some c -> cls_of A V h r = Some k -> cfg_of A V h r = Some cf -> k <> KSweep ->
  let out v := do c' <- v; Ok [(Some k, Some c')] in
  outcome (ODiff A V r) h = out (rel_diff A V (hc_base cf) c) /\
  outcome (OIntegrate A V r) h = out (rel_integrate A V (hc_base cf) c) /\
  (forall s e, outcome (OSelect A V r s e) h = out (rel_select A V s e c)) /\
  (forall o v, outcome (OOperator A V o r (HVal (OVal v))) h = out (rel_op_num A V (hc_base cf) o c (OVal v))) /\
  outcome (OExp A V r) h = out (rel_map A V (vf_exp A V F) c) /\
  (is_sig k = false -> forall d, outcome (OShift A V r d) h = out (rel_shift A V d c)) /\
  (forall a p, ax_view A V h a = Some p -> outcome (OInterp A V r (XaAxis a)) h = out (rel_interp A V (hc_base cf) p c)) /\
  (forall s, outcome (OInterp A V r (XaSeq s)) h =
     out (do p <- c_axis_from_array A V (hc_base cf) s false; rel_interp A V (hc_base cf) p c)) /\
  fst (h_norm A V r h) = rel_norm A V (hc_base cf) c /\
  (forall v, fst (h_getitem A V r v h) = rel_getitem A V v c).
Proof.
  intros R Hc Hk Hf HS out. apply reachable_wf in R.
  assert (HO : forall v, checked A V k (h_scfg h) v = out v) by (intros v; apply checked_plain; auto).
  split; [rewrite <- HO; apply out_diff; auto|]. split; [rewrite <- HO; apply out_integrate; auto|].
  split; [intros; rewrite <- HO; eapply out_select; eauto|]. split; [intros; rewrite <- HO; apply out_op_num; auto|].
  split; [rewrite <- HO; eapply out_exp; eauto|]. split; [intros; rewrite <- HO; eapply out_shift; eauto|].
  split; [|split; [|split]].
  - intros a p Ha. rewrite <- HO. rewrite (out_interp A V F h r k c cf R Hc Hk Hf). cbn. unfold ax_view in Ha.
    destruct (nax h a); [|discriminate]. injection Ha as ->. reflexivity.
  - intros s. rewrite <- HO. rewrite (out_interp A V F h r k c cf R Hc Hk Hf). reflexivity.
  - rewrite (val_norm A V h r k c cf R Hc Hk Hf). apply norm_val_rel. auto.
  - intros v. eapply val_getitem; eauto.
Qed.
Theorem operators_by_value h o r1 r2 k1 k2 c1 c2 cf a1 a2 : reachable h ->
  rel_view A V h r1 = Some c1 -> rel_view A V h r2 = Some c2 -> cls_of A V h r1 = Some k1 -> cls_of A V h r2 = Some k2 ->
  k1 <> KSweep -> k2 <> KSweep ->
  (converting o = true -> (is_sig k1 = true -> is_spec k2 = false) /\ (is_spec k1 = true -> is_sig k2 = false)) ->
  cfg_of A V h r1 = Some cf -> cfg_of A V h r2 = Some cf -> h_cfg h = cf ->
  axis_of A V h r1 = Some a1 -> axis_of A V h r2 = Some a2 ->
  outcome (OOperator A V o r1 (HRel r2)) h =
  (do c <- rel_op A V (hc_base cf) o (Nat.eqb a1 a2) c1 c2; Ok [(Some k1, Some c)]).
Proof.
  intros R H1 H2 K1 K2 N1 N2 Hcv F1 F2 Hcf A1 A2. apply reachable_wf in R.
  rewrite (out_op_rel A V F h r1 r2 k1 k2 c1 c2 cf cf a1 a2 R H1 H2 K1 K2 F1 F2 A1 A2 o Hcv).
  rewrite Hcf, op_val_rel by auto. reflexivity.
Qed.
Theorem lagged_by_value h l r1 r2 k1 k2 c1 c2 : reachable h -> rel_view A V h r1 = Some c1 -> rel_view A V h r2 = Some c2 ->
  cls_of A V h r1 = Some k1 -> cls_of A V h r2 = Some k2 -> is_sig k1 = false -> is_sig k2 = false ->
  lag_method A V l (h_cfg h) = None ->
  outcome (OLagged A V l KRel (HRel r1) (HRel r2)) h =
  (do c <- match l with LCorr => rel_correlate | LConv => rel_convolve end A V (hc_base (h_cfg h)) c1 c2; Ok [(Some KRel, Some c)]).
Proof.
  intros R H1 H2 K1 K2 S1 S2 HN. apply reachable_wf in R. rewrite (out_lagged h l r1 r2 k1 k2 c1 c2 R H1 H2 K1 K2 S1 S2 HN).
  destruct l; reflexivity.
Qed.
End HeapL6.
