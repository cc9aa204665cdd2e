(** Proofs about generators as objects and by value (C76). *)
From Coq Require Import ZArith List Bool Lia.
From Verif Require Import Num Numpy Spec AxisModel RelModel RLemmas RelLemmas VInst
  HeapModel HeapSpec HeapLemmas HeapLemmas2 HeapLemmas3 HeapLemmas4 HeapLemmas5 SweepModel SweepLemmas CallSpec.
Import ListNotations.
Local Open Scope nat_scope.

Section CallL.
Context (A : Arith) (V : Vals A) (W : wfun A V).
Notation num := (num A).
Notation val := (val V).
Notation heap := (heap A V).
Notation rel := (rel A V).
Notation nax h a := (nth_error (h_ax h) a).
Notation nrel h r := (nth_error (h_rel h) r).
Notation ny h l := (nth_error (h_yarr h) l).
Notation wf := (wf A V).
Notation isrel := (isrel A V).
Notation made := (made A V).
Notation keeps := (keeps A V).
Notation bind' := (bindM A V).
Notation none := (fun _ : loc => False).
Notation ext := (ext A V none).
Notation ok := (ok A V none).

Definition krel (h : heap) (l : loc) (c : rel) (cf : hconfig A V) : Prop := exists x y, isrel h l KRel x y c cf.
Lemma krel_ext h h' l c cf : ext h h' -> krel h l c cf -> krel h' l c cf.
Proof. intros X (x & y & H). exists x, y. eapply isrel_ext; eauto. Qed.

Definition law_value (f : rel -> result (list val)) (c : rel) : result rel := do y <- f c; rel_make A V (r_x c) y.
Lemma estimate_val h r k x y c cf f : isrel h r k x y c cf ->
  ok h (estimate A V f r) (fun l h' => exists cl, law_value f c = Ok cl /\ keeps h h' /\ length (h_rel h) <= l /\
      krel h' l cl (h_cfg h)) (fun e => law_value f c = Err e).
Proof.
  intros Hr. unfold estimate. eapply rel_bind; eauto. intros o Ho E1 E2 E3 E4.
  eapply content_bind; eauto. unfold law_value. apply ok_lift_bind; [|intros e He; rewrite He; reflexivity]. intros y' Hy'.
  destruct (isrel_ax _ _ _ _ _ _ _ _ _ Hr) as (ax & Hx & Ep). rewrite E2, Hy'. cbn [bind]. rewrite <- Ep.
  eapply ok_weaken; [apply new_plain_axis; eauto| |].
  - intros l [=].
  - cbn beta. intros l h' _ _ (HM & (yl & G & G1 & G2) & _ & G3 & _). eexists. split; [exact HM|]. split; auto. split; auto.
    exists x, yl. exact G.
  - intros e He. exact He.
Qed.

Definition law_arg (h : heap) (l : option loc) (c : option rel) : Prop :=
  match l, c with Some l, Some c => krel h l c (h_cfg h) | None, None => True | _, _ => False end.
(** a finished sweep object by content *)
Definition sweep_obj (h : heap) (r : loc) (s : sweepv A V) (cf : hconfig A V) : Prop :=
  exists x yl o lf la, isrel h r KSweep x yl (sw_rel s) cf /\ nrel h r = Some o /\
    ro_ft o = Some lf /\ ro_at o = Some la /\ krel h lf (sw_ft s) cf /\ krel h la (sw_at s) cf.
Lemma sweep_obj_ext h h' r s cf : ext h h' -> sweep_obj h r s cf -> sweep_obj h' r s cf.
Proof.
  intros X (x & yl & o & lf & la & H1 & H2 & H3 & H4 & H5 & H6).
  destruct (fr_rel _ _ _ _ _ _ _ (ext_frame _ _ _ _ _ X) r o H2) as (o' & Ho' & _ & _ & _ & _ & F1 & F2 & _).
  exists x, yl, o', lf, la. split; [eapply isrel_ext; eauto|]. split; auto. split; auto. split; auto.
  split; eapply krel_ext; eauto.
Qed.
Lemma sweep_obj_is h r s cf : sweep_obj h r s cf -> sweep_is A V h r s.
Proof.
  intros (x & yl & o & lf & la & H1 & H2 & H3 & H4 & (xf & yf & H5) & (xa & ya & H6)).
  apply view_isrel in H1, H5, H6. unfold sweep_is. split; [tauto|]. split; [tauto|]. exists lf, la.
  unfold laws_of. rewrite H2. cbn. rewrite H3, H4. tauto.
Qed.

Definition sweep_value (sc : sconfig A V) (p : axis A) (y : list val) (f a : option rel) : result (sweepv A V) :=
  do c <- rel_make A V p y; val_sweep A V sc c f a.
Lemma new_sweep_val h a ax y ft at_ f b : nax h a = Some ax -> law_arg h ft f -> law_arg h at_ b ->
  ok h (new_sweep A V (XaAxis a) (Some y) ft at_)
    (fun r h' => exists s, sweep_value (h_scfg h) (ao_p ax) y f b = Ok s /\ sweep_obj h' r s (h_cfg h) /\ length (h_rel h) <= r)
    (fun e => sweep_value (h_scfg h) (ao_p ax) y f b = Err e).
Proof.
  intros Hax Hf Hb. unfold sweep_value, new_sweep. eapply ok_bind.
  { eapply ok_weaken; [eapply (new_plain_axis A V none h KSweep a ax y None); [exact Hax|intros ? [=]]|intros r h' _ _ G; exact G|].
    cbn beta. intros e He. rewrite He. reflexivity. }
  cbn beta. intros r h1 W1 X1 (HM & (yl & I1 & Lr & _) & _ & K1 & ro & Hro & _ & Hf0 & Ha0).
  rewrite HM. cbn [bind]. set (c := mkRel (ao_p ax) y) in *. unfold val_sweep.
  apply ok_scfg_bind. rewrite (ext_scfg _ _ _ _ _ X1).
  pose proof (ext_cfg _ _ _ _ _ X1) as C1.
  apply ok_bind with (Q1 := fun l h2 => exists cl,
     match f with Some f => Ok f | None => law_value (sc_ft A V (h_scfg h)) c end = Ok cl /\
     keeps h1 h2 /\ krel h2 l cl (h_cfg h)).
  { destruct ft as [l|], f as [cl|]; try contradiction; cbn [law_arg] in Hf.
    - apply ok_ret. intros _. exists cl. split; auto. split; [unfold HeapLemmas.keeps; auto|]. eapply krel_ext; eauto.
    - eapply ok_weaken; [eapply estimate_val; exact I1| |].
      + cbn beta. intros l h2 _ _ (cl & J1 & J2 & J3 & J4). exists cl. rewrite <- C1. auto.
      + cbn beta. intros e He. unfold law_value in He. rewrite He. reflexivity. }
  intros lf h2 W2 X2 (cf & Ef & K2 & Kf).
  assert (Ef' : match f with Some f => Ok f | None => do y <- sc_ft A V (h_scfg h) c; rel_make A V (r_x c) y end = Ok cf) by exact Ef.
  rewrite Ef'. cbn [bind]. clear Ef Ef'.
  assert (Lf : lf < length (h_rel h2)) by (destruct Kf as (? & ? & o & ? & Ho & _); eapply nth_lt; eauto).
  eapply set_ft_bind; [apply K2; eauto|exact Hf0|exact Lf|].
  intros h3 W3 X3 Len3 Hr3 Hoth3.
  assert (I3 : isrel h3 r KSweep a yl c (h_cfg h)) by (eapply isrel_ext; [exact X3|]; eapply isrel_ext; [exact X2|]; exact I1).
  apply ok_bind with (Q1 := fun l h4 => exists cl,
     match b with Some f => Ok f | None => law_value (sc_at A V (h_scfg h)) c end = Ok cl /\
     keeps h3 h4 /\ krel h4 l cl (h_cfg h)).
  { destruct at_ as [l|], b as [cl|]; try contradiction; cbn [law_arg] in Hb.
    - apply ok_ret. intros _. exists cl. split; auto. split; [unfold HeapLemmas.keeps; auto|].
      eapply krel_ext; [exact X3|]. eapply krel_ext; [exact X2|]. eapply krel_ext; [exact X1|]. exact Hb.
    - eapply ok_weaken; [eapply estimate_val; exact I3| |].
      + cbn beta. intros l h4 _ _ (cl & J1 & J2 & J3 & J4). exists cl.
        rewrite <- C1, <- (ext_cfg _ _ _ _ _ X2), <- (ext_cfg _ _ _ _ _ X3). auto.
      + cbn beta. intros e He. unfold law_value in He. rewrite He. reflexivity. }
  intros la h4 W4 X4 (cb & Eb & K4 & Kb).
  assert (Eb' : match b with Some f => Ok f | None => do y <- sc_at A V (h_scfg h) c; rel_make A V (r_x c) y end = Ok cb) by exact Eb.
  rewrite Eb'. cbn [bind]. clear Eb Eb'.
  assert (La : la < length (h_rel h4)) by (destruct Kb as (? & ? & o & ? & Ho & _); eapply nth_lt; eauto).
  eapply set_at_bind; [apply K4; eauto|exact Ha0|exact La|].
  intros h5 W5 X5 Len5 Hr5 Hoth5. cbn in Hr5.
  assert (I5 : isrel h5 r KSweep a yl c (h_cfg h)) by (eapply isrel_ext; [exact X5|]; eapply isrel_ext; [exact X4|]; exact I3).
  eapply content_bind; [exact I5|].
  apply ok_lift_bind; [|intros e He; rewrite He; reflexivity]. intros u Hu. rewrite Hu. cbn [bind].
  apply ok_ret. intros _. eexists. split; [reflexivity|]. split; [|exact Lr].
  eexists a, yl, _, lf, la. cbn [sw_rel sw_ft sw_at]. split; [exact I5|]. split; [exact Hr5|]. cbn. split; auto. split; auto.
  split.
  - eapply krel_ext; [exact X5|]. eapply krel_ext; [exact X4|]. eapply krel_ext; [exact X3|]. exact Kf.
  - eapply krel_ext; [exact X5|]. exact Kb.
Qed.

Lemma plain_bind {U} h a ax y (j : loc -> M A V U) Q (E : exn -> Prop) : nax h a = Some ax ->
  (forall r h1 ax1, rel_make A V (ao_p ax) y = Ok (mkRel (ao_p ax) y) -> wf h1 -> ext h h1 -> nax h1 a = Some ax1 -> ao_p ax1 = ao_p ax ->
     krel h1 r (mkRel (ao_p ax) y) (h_cfg h) -> ok h1 (j r) Q E) ->
  (forall e, rel_make A V (ao_p ax) y = Err e -> E e) ->
  ok h (bind' (new_plain A V KRel (XaAxis a) (Some y) None) j) Q E.
Proof.
  intros Hax H HE. eapply ok_bind.
  { eapply ok_weaken; [eapply (new_plain_axis A V none h KRel a ax y None); [exact Hax|intros ? [=]]|intros r h' _ _ G; exact G|exact HE]. }
  cbn beta. intros r h1 W1 X1 (HM & (yl & I1 & _) & _). destruct (ext_ax _ _ _ _ _ _ _ X1 Hax) as (ax1 & Hax1 & Ep1).
  eapply H; eauto. exists a, yl. exact I1.
Qed.

Lemma call_val h g u t ut tht0 : gen_is A V W h g u -> time_is A V h t ut ->
  let v := us_call A V W (hc_base (h_cfg h)) (h_scfg h) u ut tht0 in
  ok h (h_call A V g t tht0) (fun r h' => exists s, v = Ok s /\ sweep_obj h' r s (h_cfg h) /\ length (h_rel h) <= r) (fun e => v = Err e).
Proof.
  intros (go & Hgo & Hcf & Htm & Hf & Ha & Ht & Hw) Hti v. unfold h_call. apply ok_rd_bind; [|congruence]. intros go' Hgo'.
  assert (go' = go) by congruence. subst go'. apply ok_cfg_bind. unfold v, us_call. rewrite <- Hcf.
  set (vx := match ut, u_time u with UtAxis a, _ => Ok a | UtSeq s, _ => _ | UtNone, Some a => Ok a | UtNone, None => Err EBadInput end).
  apply ok_bind with (Q1 := fun tl h1 => exists ax, nax h1 tl = Some ax /\ vx = Ok (ao_p ax)).
  { apply ok_wf. intros W0. unfold vx, time_is, ax_view in *. destruct t as [|a|s], ut as [|p|s']; try contradiction.
    - destruct (g_time go) as [a|].
      + destruct Htm as (p & Hp & ->). destruct (nax h a) as [ax|] eqn:Ex; [|discriminate]. cbn in Hp. injection Hp as <-.
        apply ok_ret. intros _. eauto.
      + rewrite Htm. apply ok_fail. auto.
    - destruct (nax h a) as [ax|] eqn:Ex; [|discriminate]. cbn in Hti. injection Hti as <-. apply ok_ret. intros _. eauto.
    - subst s'. unfold ax_from_array. apply ok_lift_bind.
      + intros p Hp. eapply ok_conseq; [apply ok_ax_new|]. cbn beta. intros l h1 _ _ (-> & (o & Ho & Eo) & _). exists o. rewrite Eo. auto.
      + intros e He. rewrite He. reflexivity. }
  intros tl h1 W1 X1 (ax & Hax & Ev). rewrite Ev. cbn [bind]. clear vx Ev.
  apply ok_rd_bind; [|congruence]. intros ax' Hax'. assert (ax' = ax) by congruence. subst ax'. clear Hax'.
  rewrite Hf. apply ok_lift_bind; [|intros e He; rewrite He; reflexivity]. intros fy Efy. rewrite Efy. cbn [bind].
  eapply plain_bind; [exact Hax| |intros e He; rewrite He; reflexivity]. intros fr h2 ax2 M2 W2 X2 Hax2 Ep2 Kf. rewrite M2. cbn [bind].
  rewrite Ha. apply ok_lift_bind; [|intros e He; rewrite He; reflexivity]. intros am Eam. rewrite Eam. cbn [bind].
  rewrite Ht. apply ok_lift_bind; [|intros e He; rewrite He; reflexivity]. intros th Eth. rewrite Eth. cbn [bind].
  rewrite <- Ep2. eapply plain_bind; [exact Hax2| |intros e He; rewrite He; reflexivity]. intros thr h3 ax3 M3 W3 X3 Hax3 Ep3 _.
  rewrite M3. cbn [bind].
  rewrite Hw. apply ok_lift_bind; [|intros e He; rewrite He; reflexivity]. intros y Ey. rewrite Ey. cbn [bind].
  rewrite <- Ep3. eapply plain_bind; [exact Hax3| |intros e He; rewrite He; reflexivity]. intros ar h4 ax4 M4 W4 X4 Hax4 Ep4 Ka.
  rewrite M4. cbn [bind].
  assert (C3 : h_cfg h3 = h_cfg h) by (rewrite (ext_cfg _ _ _ _ _ X3), (ext_cfg _ _ _ _ _ X2); apply (ext_cfg _ _ _ _ _ X1)).
  assert (C4 : h_cfg h4 = h_cfg h) by (rewrite (ext_cfg _ _ _ _ _ X4); exact C3).
  assert (S4 : h_scfg h4 = h_scfg h).
  { rewrite (ext_scfg _ _ _ _ _ X4), (ext_scfg _ _ _ _ _ X3), (ext_scfg _ _ _ _ _ X2). apply (ext_scfg _ _ _ _ _ X1). }
  rewrite <- S4, <- Ep4.
  eapply ok_weaken; [eapply (new_sweep_val h4 tl ax4 y (Some fr) (Some ar) (Some _) (Some _)); [exact Hax4| |]| |].
  - cbn [law_arg]. rewrite C4, <- (ext_cfg _ _ _ _ _ X1). eapply krel_ext; [exact X4|]. eapply krel_ext; [exact X3|]. exact Kf.
  - cbn [law_arg]. rewrite C4, <- C3. exact Ka.
  - cbn beta. unfold sweep_value. intros r h5 _ _ (s & Es & Ho & Hl). exists s. split; [rewrite <- Es, !Ep4, !Ep3, !Ep2; reflexivity|].
    rewrite C4 in Ho. split; auto. pose proof (ext_rel_len _ _ _ _ _ X1). pose proof (ext_rel_len _ _ _ _ _ X2).
    pose proof (ext_rel_len _ _ _ _ _ X3). pose proof (ext_rel_len _ _ _ _ _ X4). lia.
  - cbn beta. unfold sweep_value. intros e He. rewrite <- He, !Ep4, !Ep3, !Ep2. reflexivity.
Qed.

(** a number times a sweep object *)
Lemma sweep_op_val h o r b x y c cf : isrel h r KSweep x y c cf ->
  let v := do c' <- rel_op_num A V (hc_base cf) o c b; val_sweep A V (h_scfg h) c' None None in
  ok h (h_operation A V o r (HVal b))
    (fun r' h' => exists s, v = Ok s /\ sweep_obj h' r' s (h_cfg h) /\ length (h_rel h) <= r')
    (fun e => v = Err e).
Proof.
  intros Hr v. unfold h_operation. eapply rel_bind; eauto. intros ro Ho E1 E2 E3 E4. subst.
  eapply copy_bind; eauto. intros h1 ax W1 X1 Hr1 Hax Hp R1 Y1.
  eapply y_bind; eauto. unfold v, rel_op_num. apply ok_lift_bind.
  - intros y' Hy'. rewrite Hy'. cbn [bind]. rewrite E1. cbn [construct]. rewrite <- Hp.
    rewrite <- (ext_cfg _ _ _ _ _ X1), <- (ext_scfg _ _ _ _ _ X1), <- R1.
    apply (new_sweep_val h1 _ ax y' None None None None Hax I I).
  - intros e He. rewrite He. reflexivity.
Qed.

Lemma square_check (sc : sconfig A V) (c : rel) :
  match val_sweep A V sc c None None with Ok _ => sweep_check A V sc c = Ok tt | Err e => sweep_check A V sc c = Err e end.
Proof.
  unfold val_sweep, sweep_check, law_check. destruct (sc_ft A V sc c) as [yf|e]; cbn [bind]; [|reflexivity].
  destruct (rel_make A V (r_x c) yf) as [f|e]; cbn [bind]; [|reflexivity].
  destruct (sc_at A V sc c) as [ya|e]; cbn [bind]; [|reflexivity].
  destruct (rel_make A V (r_x c) ya) as [a|e]; cbn [bind]; [|reflexivity].
  destruct (sc_spectro A V sc c) as [[]|e]; reflexivity.
Qed.
Lemma norm_val_sweep sc cf c : norm_val A V sc cf KSweep c =
  do sq <- rel_op_num A V (hc_base cf) POW c (OVal (v_of V (n_of_Z A 2)));
  do _ <- val_sweep A V sc sq None None; rel_norm A V (hc_base cf) c.
Proof.
  unfold norm_val, chk, rel_norm. destruct (rel_op_num _ _ _ _ _ _) as [sq|e]; cbn [bind]; [|reflexivity].
  pose proof (square_check sc sq) as H. destruct (val_sweep A V sc sq None None) as [s|e]; rewrite H; reflexivity.
Qed.

Lemma apcall_val h g u t ut tht0 sg c k cf b : gen_is A V W h g u -> time_is A V h t ut ->
  rel_view A V h sg = Some c -> cls_of A V h sg = Some k -> k <> KSweep -> cfg_of A V h sg = Some cf ->
  let v := ap_call A V W (hc_base (h_cfg h)) (hc_base cf) (h_scfg h) u c ut tht0 b in
  ok h (h_apcall A V (norm_ratio A V W) g sg t tht0 b)
    (fun r h' => exists s, v = Ok s /\ sweep_obj h' r s (h_cfg h) /\ length (h_rel h) <= r) (fun e => v = Err e).
Proof.
  intros Hg Hti Hv Hk Hn Hcf v. unfold h_apcall, v, ap_call. clear v. eapply ok_bind.
  { eapply ok_weaken; [apply (call_val h g u t ut tht0 Hg Hti)|intros r h' _ _ G; exact G|]. cbn beta zeta. intros e He. rewrite He. reflexivity. }
  cbn beta zeta. intros sw h1 W1 X1 (s & Es & Ho & Hl). rewrite Es. cbn [bind].
  destruct b; [|apply ok_ret; intros _; exists s; auto].
  destruct (isrel_view _ _ _ _ _ Hv) as (k' & x' & y' & cf' & Ir & Kr & _ & Cr).
  assert (k' = k) by congruence. assert (cf' = cf) by congruence. subst k' cf'.
  pose proof (ext_cfg _ _ _ _ _ X1) as C1. pose proof (ext_scfg _ _ _ _ _ X1) as S1.
  pose proof Ho as (xs & ys & o & lf & la & Is & _).
  eapply ok_bind.
  { eapply ok_weaken; [apply (norm_spec A V none h1 sw _ _ _ _ _ Is)|intros z h' _ _ G; exact G|].
    cbn beta. intros e He. rewrite norm_val_sweep, S1 in He.
    destruct (rel_op_num _ _ _ _ _ _) as [sq|e']; cbn [bind] in He |- *; [|injection He as ->; reflexivity].
    destruct (val_sweep _ _ _ sq _ _) as [s'|e']; cbn [bind] in He |- *; [|injection He as ->; reflexivity]. rewrite He. reflexivity. }
  cbn beta. intros ns h2 W2 X2 Hns. rewrite norm_val_sweep, S1 in Hns.
  destruct (rel_op_num _ _ _ _ _ _) as [sq|e']; cbn [bind] in Hns |- *; [|discriminate].
  destruct (val_sweep _ _ _ sq _ _) as [s'|e']; cbn [bind] in Hns |- *; [|discriminate]. rewrite Hns. cbn [bind].
  pose proof (isrel_ext _ _ _ _ _ _ _ _ _ _ _ X2 (isrel_ext _ _ _ _ _ _ _ _ _ _ _ X1 Ir)) as Ir2.
  eapply ok_bind.
  { eapply ok_weaken; [apply (norm_spec A V none h2 sg _ _ _ _ _ Ir2)|intros z h' _ _ G; exact G|].
    cbn beta. intros e He. rewrite norm_val_rel in He by auto. rewrite He. reflexivity. }
  cbn beta. intros na h3 W3 X3 Hna. rewrite norm_val_rel in Hna by auto. rewrite Hna. cbn [bind].
  apply ok_lift_bind; [|intros e He; rewrite He; reflexivity]. intros kk Ek. rewrite Ek. cbn [bind].
  assert (Ho3 : sweep_obj h3 sw s (h_cfg h)) by (eapply sweep_obj_ext; [exact X3|]; eapply sweep_obj_ext; [exact X2|]; exact Ho).
  destruct Ho3 as (x3 & y3 & o3 & lf3 & la3 & I3 & N3 & F3 & B3 & KF3 & (xa & ya & KA3)).
  apply ok_rd_bind; [|congruence]. intros o' Ho'. assert (o' = o3) by congruence. subst o'. rewrite B3.
  eapply ok_bind.
  { eapply ok_weaken; [apply operator_num; apply (op_num_spec A V none h3 MUL la3 (OVal kk) _ _ _ _ _ KA3)|intros z h' _ _ G; exact G|].
    cbn beta zeta. intros e He. rewrite chk_plain in He by discriminate. rewrite He. reflexivity. }
  cbn beta zeta. intros at' h4 W4 X4 (ca & Hca & _). rewrite chk_plain in Hca by discriminate. rewrite Hca. cbn [bind].
  pose proof (isrel_ext _ _ _ _ _ _ _ _ _ _ _ X4 I3) as I4.
  assert (C4 : h_cfg h4 = h_cfg h) by (rewrite (ext_cfg _ _ _ _ _ X4), (ext_cfg _ _ _ _ _ X3), (ext_cfg _ _ _ _ _ X2); exact C1).
  assert (S4 : h_scfg h4 = h_scfg h) by (rewrite (ext_scfg _ _ _ _ _ X4), (ext_scfg _ _ _ _ _ X3), (ext_scfg _ _ _ _ _ X2); exact S1).
  eapply ok_weaken; [apply operator_num; apply (sweep_op_val h4 MUL sw (OVal kk) _ _ _ _ I4)| |].
  - cbn beta zeta. rewrite S4, C4. intros r h5 _ _ (s5 & Es5 & Ho5 & Hl5). exists s5. split; [exact Es5|]. split; [exact Ho5|].
    pose proof (ext_rel_len _ _ _ _ _ X1). pose proof (ext_rel_len _ _ _ _ _ X2).
    pose proof (ext_rel_len _ _ _ _ _ X3). pose proof (ext_rel_len _ _ _ _ _ X4). lia.
  - cbn beta zeta. rewrite S4. auto.
Qed.

Context (F : vfun A V).
Notation exec := (exec A V F).
Notation step := (step A V F).
Notation reachable := (reachable A V F).

Lemma gen_is_step h g u o : wf h -> gen_is A V W h g u ->
  (forall a, gen_axis A V h g = Some (Some a) -> ~ ax_target A V h o a) -> gen_is A V W (step h o) g u.
Proof.
  intros Wh (go & Hgo & Hcf & Htm & Hrest) Ht. destruct (step_frame A V F h o Wh) as (_ & X & _).
  exists go. split; [apply (fr_gen _ _ _ _ _ _ _ X g go Hgo)|]. split; [exact Hcf|]. split; [|exact Hrest].
  destruct (g_time go) as [a|] eqn:Et; [|exact Htm]. destruct Htm as (p & Hp & Eu). exists p. split; [|exact Eu].
  apply (step_ax A V F); auto. apply Ht. unfold gen_axis. rewrite Hgo. cbn. congruence.
Qed.
Lemma gen_is_set h g u f a v p : gen_is A V W h g u -> gen_axis A V h g = Some (Some a) -> u_time u = Some p ->
  gen_is A V W (step h (OSet A V f a v)) g (mkUgen A V (Some (set_field A f v p)) (u_f u) (u_a u) (u_cfg u) (u_int u)).
Proof.
  intros (go & Hgo & Hcf & Htm & Hf & Ha & Ht & Hw) Hg Hp. unfold gen_axis in Hg. rewrite Hgo in Hg. cbn in Hg. injection Hg as Hg.
  rewrite Hg in Htm. destruct Htm as (p' & Hv & Ep). assert (p' = p) by congruence. subst p'.
  unfold ax_view in Hv. destruct (nax h a) as [ax|] eqn:Ex; [|discriminate]. cbn in Hv. injection Hv as Ev.
  unfold HeapModel.step, HeapModel.exec, HeapModel.none, bindM, ax_set, bindM, get_ax, rd. rewrite Ex. cbn.
  exists go. cbn. split; [exact Hgo|]. split; [exact Hcf|]. rewrite Hg. split; [|auto].
  exists (set_field A f v p). split; [|reflexivity]. unfold ax_view. cbn. rewrite upd_same by (eapply nth_lt; eauto). cbn. congruence.
Qed.
Lemma us_new_time cur int ut f a u : us_new A V cur int ut f a = Ok u ->
  u_cfg u = cur /\ u_int u = int /\
  match ut with UtNone => u_time u = None | UtAxis p => u_time u = Some p
  | UtSeq s => exists p, c_axis_from_array A V cur s true = Ok p /\ u_time u = Some p end.
Proof.
  unfold us_new, get_info_from_ftat. intros H. rewrite bind_ok in H. destruct H as (t & Et & H).
  rewrite bind_ok in H. destruct H as (i & Ei & H). injection H as <-. cbn. split; auto. split; auto.
  rewrite bind_ok in Ei. destruct Ei as (f' & Ef & Ei). rewrite bind_ok in Ei. destruct Ei as (a' & Ea & Ei).
  rewrite bind_ok in Ei. destruct Ei as (t' & Et' & Ei). injection Ei as <-. cbn.
  destruct ut as [|p|s].
  - injection Et as <-.
    assert (G : forall l r, extract_x_t A V cur TiNone l = Ok r -> fst r = None).
    { intros l r H. unfold extract_x_t in H. cbn [bind] in H. destruct l; try discriminate; try (injection H as <-; reflexivity).
      rewrite bind_ok in H. destruct H as (q & _ & H). injection H as <-. reflexivity. }
    rewrite (G _ _ Ef), (G _ _ Ea) in Et'. injection Et' as <-. reflexivity.
  - injection Et as <-. injection Et' as <-. reflexivity.
  - rewrite bind_ok in Et. destruct Et as (p & Ep & Et). injection Et as <-. injection Et' as <-. eauto.
Qed.
(** the generator object made from what [us_new] prepared *)
Lemma new_gen_val h t ut int f a u : us_new A V (hc_base (h_cfg h)) int ut f a = Ok u -> time_is A V h t ut ->
  let o := ONewGen A V t (fun c x => law_eval A V (hc_base c) (u_f u) x) (fun c x => law_tht A V W (hc_base c) (u_int u) (u_f u) x)
             (fun c x => law_eval A V (hc_base c) (u_a u) x) (wave A V W) in
  fst (exec o h) = Ok [] /\ gen_is A V W (step h o) (length (h_gen h)) u.
Proof.
  intros Hu Ht o. destruct (us_new_time _ _ _ _ _ _ Hu) as (Hc & Hi & Hm). unfold o, HeapModel.step. cbn [HeapModel.exec].
  unfold HeapModel.none, h_new_gen, bindM, get_cfg, time_is, ax_view in *. cbn.
  assert (N : forall T (l : list T) x, nth_error (l ++ [x]) (length l) = Some x).
  { intros T l x. rewrite nth_error_app2, Nat.sub_diag by lia. reflexivity. }
  destruct t as [|l|s], ut as [|p|s']; try contradiction.
  - cbn. split; [reflexivity|]. eexists. cbn. split; [apply N|]. cbn. auto 10.
  - unfold bindM, get_ax, rd. destruct (nax h l) as [ax|] eqn:Ex; [|discriminate]. cbn. split; [reflexivity|].
    eexists. cbn. split; [apply N|]. cbn. split; [auto|]. split; [|auto]. exists p. unfold ax_view. cbn. rewrite Ex. auto.
  - subst s'. destruct Hm as (p & Ep & Em). unfold bindM, ax_from_array, bindM, lift. rewrite Ep. cbn. split; [reflexivity|].
    eexists. cbn. split; [apply N|]. cbn. split; [auto|]. split; [|auto]. exists p. unfold ax_view. cbn. rewrite N. auto.
Qed.
Lemma sweep_is_step h r s o : wf h -> sweep_is A V h r s -> (forall a, ~ ax_target A V h o a) -> (forall r, ~ y_target A V o r) ->
  sweep_is A V (step h o) r s.
Proof.
  intros Wh (H1 & H2 & lf & la & H3 & H4 & H5) Ha Hy. destruct (step_frame A V F h o Wh) as (_ & X & _).
  assert (G : forall r c, rel_view A V h r = Some c -> rel_view A V (step h o) r = Some c).
  { intros r0 c H. destruct (isrel_view _ _ _ _ _ H) as (k & x & y & cf & I & _ & Hx & _).
    eapply (step_view A V F); eauto. }
  split; [eapply step_cls_of; eauto|]. split; [auto|]. exists lf, la. split; [|auto].
  unfold laws_of in *. destruct (nrel h r) as [o0|] eqn:Ho; [|discriminate]. cbn in H3. injection H3 as E1 E2.
  destruct (fr_rel _ _ _ _ _ _ _ X r o0 Ho) as (o' & Ho' & _ & _ & _ & _ & F1 & F2 & _). rewrite Ho'. cbn.
  rewrite (F1 lf E1), (F2 la E2). reflexivity.
Qed.
Lemma exec_call h g u t ut tht0 : wf h -> gen_is A V W h g u -> time_is A V h t ut ->
  match us_call A V W (hc_base (h_cfg h)) (h_scfg h) u ut tht0 with
  | Ok s => exists r, fst (exec (OCall A V g t tht0) h) = Ok [r] /\ sweep_is A V (step h (OCall A V g t tht0)) r s /\ cls_of A V h r = None
  | Err e => fst (exec (OCall A V g t tht0) h) = Err e end.
Proof.
  intros Wh Hg Ht. destruct (ok_one A V h _ _ _ (call_val h g u t ut tht0 Hg Ht) Wh) as (_ & _ & H).
  unfold HeapModel.step. cbn [HeapModel.exec]. cbn zeta in H. destruct (one A V (h_call A V g t tht0) h) as [[rs|e] h']; cbn in H |- *.
  - destruct H as (r & -> & s & -> & Ho & Hl). exists r. split; [reflexivity|]. split; [eapply sweep_obj_is; eauto|].
    unfold cls_of. apply nth_error_None in Hl. rewrite Hl. reflexivity.
  - rewrite H. reflexivity.
Qed.
Lemma exec_apcall h g u t ut tht0 sg c k cf b : wf h -> gen_is A V W h g u -> time_is A V h t ut ->
  rel_view A V h sg = Some c -> cls_of A V h sg = Some k -> k <> KSweep -> cfg_of A V h sg = Some cf ->
  let o := OApCall A V (norm_ratio A V W) g sg t tht0 b in
  match ap_call A V W (hc_base (h_cfg h)) (hc_base cf) (h_scfg h) u c ut tht0 b with
  | Ok s => exists r, fst (exec o h) = Ok [r] /\ sweep_is A V (step h o) r s /\ cls_of A V h r = None
  | Err e => fst (exec o h) = Err e end.
Proof.
  intros Wh Hg Ht H1 H2 H3 H4 o. destruct (ok_one A V h _ _ _ (apcall_val h g u t ut tht0 sg c k cf b Hg Ht H1 H2 H3 H4) Wh) as (_ & _ & H).
  unfold o, HeapModel.step. cbn [HeapModel.exec]. cbn zeta in H.
  destruct (one A V (h_apcall A V (norm_ratio A V W) g sg t tht0 b) h) as [[rs|e] h']; cbn in H |- *.
  - destruct H as (r & -> & s & -> & Ho & Hl). exists r. split; [reflexivity|]. split; [eapply sweep_obj_is; eauto|].
    unfold cls_of. apply nth_error_None in Hl. rewrite Hl. reflexivity.
  - rewrite H. reflexivity.
Qed.
End CallL.
