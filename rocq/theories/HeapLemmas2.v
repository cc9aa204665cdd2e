(** Specifications of the relation methods at object level: they compute the value-level result on
    fresh objects. *)
From Coq Require Import ZArith List Bool Lia.
From Verif Require Import Num Numpy AxisModel RelModel HeapModel HeapLemmas.
Import ListNotations.

Section HeapL2.
Context (A : Arith) (V : Vals A) (L : loc -> Prop).
Notation num := (num A).
Notation val := (val V).
Notation axis := (axis A).
Notation rel := (rel A V).
Notation heap := (heap A V).
Notation M := (M A V).
Notation nax h a := (nth_error (h_ax h) a).
Notation nrel h r := (nth_error (h_rel h) r).
Notation ny h l := (nth_error (h_yarr h) l).
Notation nf h l := (nth_error (h_farr h) l).
Notation wf := (wf A V).
Notation ext := (ext A V L).
Notation ok := (ok A V L).
Notation isrel := (isrel A V).
Notation made := (made A V).
Notation built := (built A V).
Notation keeps := (keeps A V).
Notation bind' := (bindM A V).

Ltac rdb := apply ok_rd_bind; [|try (unfold anyE; auto; fail); try congruence].
Ltac bnd := eapply ok_bind.

Lemma ok_step {T} h h1 (m m' : M T) Q E : m h = m' h1 -> wf h1 -> ext h h1 -> ok h1 m' Q E -> ok h m Q E.
Proof.
  intros E0 W1 X1 H W. rewrite E0. specialize (H W1). destruct (m' h1) as [[v|e] h2]; cbn in *;
    destruct H as (H1 & H2 & H3); (split; [auto|split; [eapply ext_trans; eauto|auto]]).
Qed.
Lemma upd_app_new {T} (l : list T) a b : upd (l ++ [a]) (length l) b = l ++ [b].
Proof. induction l; cbn; congruence. Qed.

(** ** Sweep constructor *)
Lemma content_bind {U} h r k x y c cf (j : rel -> M U) Q E : isrel h r k x y c cf ->
  ok h (j c) Q E -> ok h (bind' (content A V r) j) Q E.
Proof.
  intros (o & ax & Ho & E1 & E2 & E3 & E4 & Hx & Ep & Hy) H. subst.
  eapply ok_eq; [|exact H]. unfold content, bindM, get_rel, get_ax, get_y, rd, ret.
  rewrite Ho. cbn. rewrite Hx, Hy, Ep. destruct c; reflexivity.
Qed.
Lemma rel_bind {U} h r k x y c cf (j : relobj A V -> M U) Q E : isrel h r k x y c cf ->
  (forall o, nrel h r = Some o -> ro_cls o = k -> ro_x o = x -> ro_y o = y -> ro_cfg o = cf -> ok h (j o) Q E) ->
  ok h (bind' (get_rel A V r) j) Q E.
Proof.
  intros (o & ax & Ho & E1 & E2 & E3 & E4 & Hx & Ep & Hy) H.
  apply ok_rd_bind; [|congruence]. intros o' Ho'. assert (o' = o) by congruence. subst o'. auto.
Qed.
Lemma y_bind {U} h r k x y c cf (j : list val -> M U) Q E : isrel h r k x y c cf ->
  ok h (j (r_y c)) Q E -> ok h (bind' (get_y A V y) j) Q E.
Proof.
  intros (o & ax & Ho & E1 & E2 & E3 & E4 & Hx & Ep & Hy) H. apply ok_rd_bind; [|congruence].
  intros y' Hy'. assert (y' = r_y c) by congruence. subst. exact H.
Qed.
Lemma ax_bind {U} h r k x y c cf (j : axobj A -> M U) Q E : isrel h r k x y c cf ->
  (forall ax, nax h x = Some ax -> ao_p ax = r_x c -> ok h (j ax) Q E) -> ok h (bind' (get_ax A V x) j) Q E.
Proof.
  intros (o & ax & Ho & E1 & E2 & E3 & E4 & Hx & Ep & Hy) H. apply ok_rd_bind; [|congruence].
  intros ax' Hx'. assert (ax' = ax) by congruence. subst. auto.
Qed.
Lemma isrel_ax h r k x y c cf : isrel h r k x y c cf -> exists ax, nax h x = Some ax /\ ao_p ax = r_x c.
Proof. intros (o & ax & Ho & E1 & E2 & E3 & E4 & Hx & Ep & Hy). eauto. Qed.
Lemma isrel_nrel h r k x y c cf : isrel h r k x y c cf -> exists o, nrel h r = Some o /\ ro_cls o = k /\ ro_x o = x /\ ro_y o = y /\ ro_cfg o = cf.
Proof. intros (o & ax & Ho & E1 & E2 & E3 & E4 & Hx & Ep & Hy). exists o; auto. Qed.

Lemma copy_bind {U} h r k x y c cf (j : loc -> M U) Q E : isrel h r k x y c cf ->
  (forall h1 ax, wf h1 -> ext h h1 -> isrel h1 r k x y c cf ->
      nax h1 (length (h_ax h)) = Some ax -> ao_p ax = r_x c ->
      h_rel h1 = h_rel h -> h_yarr h1 = h_yarr h ->
      ok h1 (j (length (h_ax h))) Q E) ->
  ok h (bind' (ax_copy A V x) j) Q E.
Proof.
  intros Hr H. apply ok_wf. intros W. destruct (isrel_ax _ _ _ _ _ _ _ Hr) as (ax & Hx & Ep).
  unfold ax_copy. apply ok_assoc. apply ok_rd_bind; [|congruence].
  intros ax' Hx'. assert (ax' = ax) by congruence. subst ax'.
  eapply ok_bind; [apply ok_alloc_ax; eapply wf_good; eauto|]. intros l h1 W1 X1 [-> ->].
  eapply H; eauto.
  - eapply isrel_ext; eauto.
  - cbn. apply nth_app_new.
Qed.
Lemma array_bind {U} h r k x y c cf (j : list num -> M U) Q (E : exn -> Prop) : isrel h r k x y c cf ->
  (forall arr h1, axis_array A (r_x c) = Ok arr -> wf h1 -> ext h h1 -> isrel h1 r k x y c cf ->
     h_rel h1 = h_rel h -> h_yarr h1 = h_yarr h -> ok h1 (j arr) Q E) ->
  (forall e, axis_array A (r_x c) = Err e -> E e) ->
  ok h (bind' (ax_array A V x) j) Q E.
Proof.
  intros Hr H HE. destruct (isrel_ax _ _ _ _ _ _ _ Hr) as (ax & Hx & Ep).
  eapply ok_bind.
  - eapply ok_weaken; [apply (array_spec A V L h x ax Hx)| |].
    + intros arr h' _ _ G. exact G.
    + intros e He. apply HE. congruence.
  - intros arr h1 W1 X1 (Ha & G1 & G2). eapply H; eauto; [congruence|]. eapply isrel_ext; eauto.
Qed.
Lemma new_ax_bind {U} h p (j : loc -> M U) Q E :
  (forall h1 ax, wf h1 -> ext h h1 -> nax h1 (length (h_ax h)) = Some ax -> ao_p ax = p ->
     h_rel h1 = h_rel h -> h_yarr h1 = h_yarr h -> ok h1 (j (length (h_ax h))) Q E) ->
  ok h (bind' (ax_new A V p) j) Q E.
Proof.
  intros H. eapply ok_bind; [apply ok_ax_new|]. intros l h1 W1 X1 (-> & (ax & H1 & H2) & H3 & H4). eauto.
Qed.

(** the checks a finished [Sweep] passes: two law relations on its axis, and a spectrogram *)
Definition law_check (f : rel -> result (list val)) (c : rel) : result unit :=
  do y <- f c; do _ <- rel_make A V (r_x c) y; Ok tt.
Definition sweep_check (sc : sconfig A V) (c : rel) : result unit :=
  do _ <- law_check (sc_ft A V sc) c; do _ <- law_check (sc_at A V sc) c; do _ <- sc_spectro A V sc c; Ok tt.
Definition chk (k : cls) (sc : sconfig A V) (v : result rel) : result rel :=
  do c <- v; match k with KSweep => do _ <- sweep_check sc c; Ok c | _ => Ok c end.

Lemma estimate_spec h r k x y c cf f : isrel h r k x y c cf ->
  ok h (estimate A V f r) (fun l h' => law_check f c = Ok tt /\ keeps h h' /\ length (h_rel h) <= l /\
      exists o, nrel h' l = Some o /\ ro_cls o = KRel /\ ro_x o = x) (fun e => law_check f c = Err e).
Proof.
  intros Hr. unfold estimate. eapply rel_bind; eauto. intros o Ho E1 E2 E3 E4.
  eapply content_bind; eauto. unfold law_check. apply ok_lift_bind; [|intros e He; rewrite He; reflexivity]. intros y' Hy'.
  destruct (isrel_ax _ _ _ _ _ _ _ Hr) as (ax & Hx & Ep). rewrite E2, Hy'. cbn [bind]. rewrite <- Ep.
  eapply ok_weaken; [apply new_plain_axis; eauto| |].
  - intros l [=].
  - cbn beta. intros l h' _ _ (HM & (yl & G & G1 & G2) & _ & G3 & _). split; [rewrite HM; reflexivity|]. split; auto. split; auto.
    destruct (isrel_nrel _ _ _ _ _ _ _ G) as (o' & J1 & J2 & J3 & J4 & J5). exists o'. auto.
  - intros e He. rewrite He. reflexivity.
Qed.

Lemma set_ft_bind {U} h r o l (j : unit -> M U) Q E : nrel h r = Some o -> ro_ft o = None ->
  l < length (h_rel h) ->
  (forall h1, wf h1 -> ext h h1 -> length (h_rel h1) = length (h_rel h) ->
     nrel h1 r = Some (mkRo (ro_cls o) (ro_x o) (ro_y o) (ro_link o) (ro_cfg o) (Some l) (ro_at o)) ->
     (forall r', r' <> r -> nrel h1 r' = nrel h r') -> ok h1 (j tt) Q E) ->
  ok h (bind' (set_ft A V r l) j) Q E.
Proof.
  intros Ho Hn Hl H. apply ok_wf. intros W. unfold set_ft. apply ok_assoc.
  apply ok_rd_bind; [|congruence]. intros o' Ho'. assert (o' = o) by congruence. subst o'.
  set (o1 := mkRo (ro_cls o) (ro_x o) (ro_y o) (ro_link o) (ro_cfg o) (Some l) (ro_at o)).
  intros _. unfold bindM, put_rel. cbn [fst snd].
  set (h1 := with_rel A V h (upd (h_rel h) r o1)).
  assert (W1 : wf h1).
  { eapply wf_put_rel; eauto; cbn; auto.
    - intros l' Hl'. eapply wf_link; eauto.
    - intros l' [= <-]. exact Hl.
    - intros l' Hl'. eapply wf_at; eauto. }
  assert (X1 : ext h h1).
  { constructor; auto. eapply frame_put_rel; eauto; cbn; auto; congruence. }
  specialize (H h1 W1 X1). unfold h1 in H at 1. cbn in H. rewrite upd_length in H. specialize (H eq_refl).
  assert (G : nrel h1 r = Some o1) by (cbn; apply upd_same; eapply nth_lt; eauto).
  specialize (H G). assert (G2 : forall r', r' <> r -> nrel h1 r' = nrel h r').
  { intros r' Hne. cbn. apply upd_other. auto. }
  specialize (H G2 W1). cbn in H. destruct H as (H1 & H2 & H3).
  split; auto. split; auto. eapply ext_trans; eauto.
Qed.
Lemma set_at_bind {U} h r o l (j : unit -> M U) Q E : nrel h r = Some o -> ro_at o = None ->
  l < length (h_rel h) ->
  (forall h1, wf h1 -> ext h h1 -> length (h_rel h1) = length (h_rel h) ->
     nrel h1 r = Some (mkRo (ro_cls o) (ro_x o) (ro_y o) (ro_link o) (ro_cfg o) (ro_ft o) (Some l)) ->
     (forall r', r' <> r -> nrel h1 r' = nrel h r') -> ok h1 (j tt) Q E) ->
  ok h (bind' (set_at A V r l) j) Q E.
Proof.
  intros Ho Hn Hl H. apply ok_wf. intros W. unfold set_at. apply ok_assoc.
  apply ok_rd_bind; [|congruence]. intros o' Ho'. assert (o' = o) by congruence. subst o'.
  set (o1 := mkRo (ro_cls o) (ro_x o) (ro_y o) (ro_link o) (ro_cfg o) (ro_ft o) (Some l)).
  intros _. unfold bindM, put_rel. cbn [fst snd].
  set (h1 := with_rel A V h (upd (h_rel h) r o1)).
  assert (W1 : wf h1).
  { eapply wf_put_rel; eauto; cbn; auto.
    - intros l' Hl'. eapply wf_link; eauto.
    - intros l' Hl'. eapply wf_ft; eauto.
    - intros l' [= <-]. exact Hl. }
  assert (X1 : ext h h1).
  { constructor; auto. eapply frame_put_rel; eauto; cbn; auto; congruence. }
  specialize (H h1 W1 X1). unfold h1 in H at 1. cbn in H. rewrite upd_length in H. specialize (H eq_refl).
  assert (G : nrel h1 r = Some o1) by (cbn; apply upd_same; eapply nth_lt; eauto).
  specialize (H G). assert (G2 : forall r', r' <> r -> nrel h1 r' = nrel h r').
  { intros r' Hne. cbn. apply upd_other. auto. }
  specialize (H G2 W1). cbn in H. destruct H as (H1 & H2 & H3).
  split; auto. split; auto. eapply ext_trans; eauto.
Qed.

(** the law relations of a finished sweep: those passed in, or estimates built on the sweep's own axis *)
Definition law_of (h' : heap) (x : loc) (arg : option loc) (l : loc) : Prop :=
  match arg with Some l0 => l = l0
  | None => exists o, nrel h' l = Some o /\ ro_cls o = KRel /\ ro_x o = x end.
Definition valid_opt (h : heap) (l : option loc) : Prop := forall i, l = Some i -> i < length (h_rel h).

Lemma new_sweep_any h x y ft at_ : valid_opt h ft -> valid_opt h at_ ->
  ok h (new_sweep A V x y ft at_)
    (fun r h' => built h h' r KSweep x /\ keeps h h' /\ r = r /\
       exists o lf la, nrel h' r = Some o /\ ro_ft o = Some lf /\ ro_at o = Some la /\
         law_of h' (ro_x o) ft lf /\ law_of h' (ro_x o) at_ la)
    anyE.
Proof.
  intros Hft Hat. apply ok_wf. intros W. unfold new_sweep.
  eapply ok_bind; [apply new_plain_any; intros ? [=]|].
  intros r h1 W1 X1 (HB & K1 & ro & Hro & Hlk & Hf0 & Ha0).
  apply ok_scfg_bind. pose proof (ext_rel_len _ _ _ _ _ X1) as L1.
  destruct HB as (ro' & G0 & G1 & G2 & G3 & G4). assert (ro' = ro) by congruence. subst ro'. clear G0.
  destruct (isrel_of A V h1 r ro W1 Hro) as (c & Hc).
  (* frequency_time *)
  apply ok_bind with (Q1 := fun l h2 => keeps h1 h2 /\ l < length (h_rel h2) /\
     (ft = None -> length (h_rel h1) <= l) /\ law_of h2 (ro_x ro) ft l).
  { destruct ft as [l|].
    - apply ok_ret. intros _. split; [unfold HeapLemmas.keeps; auto|]. split; [|split; [discriminate|reflexivity]].
      pose proof (Hft l eq_refl). lia.
    - eapply ok_weaken; [eapply estimate_spec; eauto| |unfold anyE; auto]. cbn beta. intros l h2 _ _ (_ & J1 & J2 & o & J3 & J4).
      split; auto. split; [eapply nth_lt; eauto|]. split; [auto|]. cbn. eauto. }
  intros lf h2 W2 X2 (K2 & Lf & Nf & Law1).
  eapply set_ft_bind; [apply K2; eauto|exact Hf0|exact Lf|].
  intros h3 W3 X3 Len3 Hr3 Hoth3.
  set (ro3 := mkRo (ro_cls ro) (ro_x ro) (ro_y ro) (ro_link ro) (ro_cfg ro) (Some lf) (ro_at ro)) in *.
  destruct (isrel_of A V h3 r ro3 W3 Hr3) as (c3 & Hc3).
  pose proof (ext_rel_len _ _ _ _ _ X2) as L2.
  pose proof (nth_lt _ _ _ Hro) as Lr.
  (* amplitude_time *)
  apply ok_bind with (Q1 := fun l h4 => keeps h3 h4 /\ l < length (h_rel h4) /\
     (at_ = None -> length (h_rel h3) <= l) /\ law_of h4 (ro_x ro) at_ l).
  { destruct at_ as [l|].
    - apply ok_ret. intros _. split; [unfold HeapLemmas.keeps; auto|]. split; [|split; [discriminate|reflexivity]].
      pose proof (Hat l eq_refl). lia.
    - eapply ok_weaken; [eapply estimate_spec; eauto| |unfold anyE; auto]. cbn beta. intros l h4 _ _ (_ & J1 & J2 & o & J3 & J4).
      split; auto. split; [eapply nth_lt; eauto|]. split; [auto|]. cbn. eauto. }
  intros la h4 W4 X4 (K4 & La & Na & Law2).
  eapply set_at_bind; [apply K4; eauto|exact Ha0|exact La|].
  intros h5 W5 X5 Len5 Hr5 Hoth5. cbn in Hr5.
  set (ro5 := mkRo (ro_cls ro) (ro_x ro) (ro_y ro) (ro_link ro) (ro_cfg ro) (Some lf) (Some la)) in *.
  destruct (isrel_of A V h5 r ro5 W5 Hr5) as (c5 & Hc5).
  eapply content_bind; [exact Hc5|].
  apply ok_lift_bind; [|unfold anyE; auto]. intros _ _. apply ok_ret. intros _.
  split.
  - exists ro5. split; auto.
  - split.
    + intros r' o' Ho'. assert (r' <> r) by (apply nth_lt in Ho'; lia).
      rewrite Hoth5 by auto. apply K4. rewrite Hoth3 by auto. apply K2, K1, Ho'.
    + split; auto. exists ro5, lf, la. split; auto. split; auto. split; auto. cbn.
      assert (forall arg l m, law_of m (ro_x ro) arg l -> True) by auto.
      split.
      * destruct ft as [l|]; [exact Law1|]. destruct Law1 as (o & J1 & J2).
        exists o. split; auto. specialize (Nf eq_refl).
        rewrite Hoth5 by lia. apply K4. rewrite Hoth3 by lia. exact J1.
      * destruct at_ as [l|]; [exact Law2|]. destruct Law2 as (o & J1 & J2).
        exists o. split; auto. specialize (Na eq_refl). rewrite Hoth5 by lia. exact J1.
Qed.

(** ** [type(self)(x, y)] *)
Lemma sweep_tail h r x y c cf ro (Q : loc -> heap -> Prop) (E : exn -> Prop) : isrel h r KSweep x y c cf -> nrel h r = Some ro ->
  ro_ft ro = None -> ro_at ro = None ->
  (forall h', wf h' -> ext h h' -> sweep_check (h_scfg h) c = Ok tt ->
     (forall r' o', r' <> r -> nrel h r' = Some o' -> nrel h' r' = Some o') -> Q r h') ->
  (forall e, sweep_check (h_scfg h) c = Err e -> E e) ->
  ok h (bind' (get_scfg A V) (fun sc => bind' (estimate A V (sc_ft A V sc) r) (fun l => bind' (set_ft A V r l) (fun _ =>
     bind' (estimate A V (sc_at A V sc) r) (fun l => bind' (set_at A V r l) (fun _ => bind' (content A V r) (fun c =>
     bind' (lift A V (sc_spectro A V sc c)) (fun _ => ret A V r)))))))) Q E.
Proof.
  intros Hc Hro Hf0 Ha0 HQ HE. apply ok_scfg_bind. unfold sweep_check in *. pose proof (nth_lt _ _ _ Hro) as Lr.
  eapply ok_bind.
  { eapply ok_weaken; [eapply estimate_spec; eauto| |].
    - intros l h' _ _ H. exact H.
    - intros e He. apply HE. rewrite He. reflexivity. }
  intros lf h2 W2 X2 (C2 & K2 & Nf & o2 & Ho2 & _). rewrite C2 in HQ, HE. cbn [bind] in HQ, HE.
  eapply set_ft_bind; [apply K2; eauto|exact Hf0|eapply nth_lt; eauto|].
  intros h3 W3 X3 Len3 Hr3 Hoth3.
  assert (X13 : ext h h3) by (eapply ext_trans; eauto).
  pose proof (isrel_ext A V L _ _ _ _ _ _ _ _ X13 Hc) as Hc3.
  eapply ok_bind.
  { eapply ok_weaken; [eapply estimate_spec; eauto| |].
    - intros l h' _ _ H. exact H.
    - intros e He. apply HE. rewrite He. reflexivity. }
  intros la h4 W4 X4 (C4 & K4 & Na & o4 & Ho4 & _). rewrite C4 in HQ, HE. cbn [bind] in HQ, HE.
  eapply set_at_bind; [apply K4; eauto|exact Ha0|eapply nth_lt; eauto|].
  intros h5 W5 X5 Len5 Hr5 Hoth5.
  assert (X15 : ext h h5) by (eapply ext_trans; [|eauto]; eapply ext_trans; eauto).
  pose proof (isrel_ext A V L _ _ _ _ _ _ _ _ X15 Hc) as Hc5.
  eapply content_bind; [exact Hc5|]. apply ok_lift_bind.
  - intros z Hz. rewrite Hz in HQ. apply ok_ret. intros _. apply HQ; auto.
    intros r' o' Hne Ho'. rewrite Hoth5 by auto. apply K4. rewrite Hoth3 by auto. apply K2, Ho'.
  - intros e He. apply HE. rewrite He. reflexivity.
Qed.
Lemma chk_plain k sc v : k <> KSweep -> chk k sc v = v.
Proof. intros H. unfold chk. destruct v; destruct k; try reflexivity; congruence. Qed.

Lemma construct_axis h k a o y : nax h a = Some o ->
  let v := chk k (h_scfg h) (rel_make A V (ao_p o) y) in
  ok h (construct A V k (XaAxis a) (Some y))
    (fun r h' => v = Ok (mkRel (ao_p o) y) /\ made h h' r k a (mkRel (ao_p o) y) /\ keeps h h')
    (fun e => v = Err e).
Proof.
  intros Ho v. unfold v. destruct k.
  1,2,3: rewrite chk_plain by discriminate; cbn [construct]; eapply ok_weaken; [apply new_plain_axis; eauto; intros ? [=]|cbn beta; intros r h' _ _ (H1 & H2 & _ & H3 & _); auto|auto].
  cbn [construct].
  (* Sweep: the content follows from the plain constructor it starts with *)
  unfold new_sweep. eapply ok_bind.
  { eapply ok_weaken; [apply new_plain_axis; eauto; intros ? [=]| |].
    - intros r h' _ _ H. exact H.
    - intros e He. unfold chk. rewrite He. reflexivity. }
  intros r h1 W1 X1 (HM & Hmade & Hrl & K1 & ro & Hro & Hlk & Hf0 & Ha0).
  destruct Hmade as (yl & Hc & G1 & G2). pose proof (ext_scfg _ _ _ _ _ X1) as Es.
  unfold chk. rewrite HM. cbn [bind]. rewrite <- Es.
  eapply sweep_tail; eauto.
  - intros h' W' X' C' K'. rewrite C'. split; auto. split.
    + exists yl. split; auto. eapply isrel_ext; eauto.
    + intros r' o' Ho'. apply K'; [apply nth_lt in Ho'; lia|]. apply K1, Ho'.
  - intros e He. rewrite He. reflexivity.
Qed.
Lemma construct_any h k x y :
  ok h (construct A V k x y) (fun r h' => built h h' r k x /\ keeps h h') anyE.
Proof.
  destruct k.
  1,2,3: cbn [construct]; eapply ok_conseq; [apply new_plain_any; intros ? [=]|cbn beta; intros r h' _ _ (H1 & H2 & _); auto].
  cbn [construct]. eapply ok_conseq; [apply new_sweep_any; intros ? [=]|]. cbn beta. intros r h' _ _ (H1 & H2 & _); auto.
Qed.
Lemma construct_rel h k r0 k0 x0 y0 c cf : isrel h r0 k0 x0 y0 c cf ->
  ok h (construct A V k (XaRel r0) None)
    (fun r h' => exists x, length (h_ax h) <= x /\ made h h' r k x c /\ keeps h h' /\ chk k (h_scfg h) (Ok c) = Ok c)
    (fun e => chk k (h_scfg h) (Ok c) = Err e).
Proof.
  intros H0. destruct k.
  1,2,3: cbn [construct]; eapply ok_weaken; [eapply new_plain_rel; eauto; intros ? [=]| |intros e []];
    cbn beta; intros r h' _ _ (x & H1 & H2 & H3 & H4); exists x; auto.
  cbn [construct]. unfold new_sweep. eapply ok_bind.
  { eapply ok_weaken; [eapply new_plain_rel; eauto; intros ? [=]| |intros e []]. intros r h' _ _ H. exact H. }
  intros r h1 W1 X1 (x & Hx & Hmade & K1 & ro & Hro & Hlk & Hf0 & Ha0).
  destruct Hmade as (yl & Hc & G1 & G2). pose proof (ext_scfg _ _ _ _ _ X1) as Es.
  unfold chk. cbn [bind]. rewrite <- Es.
  eapply sweep_tail; eauto.
  - intros h' W' X' C' K'. exists x. rewrite C'. split; auto. split; [|split; auto].
    + exists yl. split; auto. eapply isrel_ext; eauto.
    + intros r' o' Ho'. apply K'; [apply nth_lt in Ho'; lia|]. apply K1, Ho'.
  - intros e He. rewrite He. reflexivity.
Qed.

(** ** deepcopy *)
Lemma nth_clone {T} (l : list T) f i w : nth_error (l ++ map f l) i = Some w ->
  nth_error l i = Some w \/ exists j o, i = length l + j /\ nth_error l j = Some o /\ w = f o.
Proof.
  intros H. destruct (Nat.lt_ge_cases i (length l)) as [Hi|Hi].
  - rewrite nth_error_app1 in H by auto. auto.
  - right. rewrite nth_error_app2 in H by auto. exists (i - length l). rewrite nth_error_map in H.
    destruct (nth_error l (i - length l)) as [o|] eqn:E; [|discriminate]. exists o.
    cbn in H. split; [lia|]. split; congruence.
Qed.
Lemma nth_clone_new {T} (l : list T) f j o : nth_error l j = Some o ->
  nth_error (l ++ map f l) (length l + j) = Some (f o).
Proof.
  intros H. rewrite nth_error_app2 by lia. replace (length l + j - length l) with j by lia.
  rewrite nth_error_map, H. reflexivity.
Qed.
Lemma nth_double {T} (l : list T) j v : nth_error l j = Some v -> nth_error (l ++ l) (length l + j) = Some v.
Proof. intros H. rewrite nth_error_app2 by lia. replace (length l + j - length l) with j by lia. exact H. Qed.

Lemma wf_clone h : wf h -> wf (clone_heap A V h).
Proof.
  intros W. constructor; cbn.
  - intros a o l Ho Hl. apply nth_clone in Ho. destruct Ho as [Ho|(j & o1 & -> & Ho & ->)].
    + destruct (wf_cache _ _ h W a o l Ho Hl) as (arr & H1 & H2). exists arr. split; auto using nth_app_old.
    + cbn in Hl. destruct (ao_cache o1) as [l1|] eqn:E; [|discriminate]. cbn in Hl. injection Hl as <-.
      destruct (wf_cache _ _ h W j o1 l1 Ho E) as (arr & H1 & H2). exists arr. split; auto. apply nth_double. exact H1.
  - intros a o v Ho Hv. apply nth_clone in Ho. destruct Ho as [Ho|(j & o1 & -> & Ho & ->)].
    + eapply wf_as; eauto.
    + cbn in *. eapply wf_as; eauto.
  - intros r o Ho. rewrite app_length, map_length. apply nth_clone in Ho. destruct Ho as [Ho|(j & o1 & -> & Ho & ->)].
    + pose proof (wf_x _ _ h W r o Ho). lia.
    + cbn. unfold shift_loc. pose proof (wf_x _ _ h W j o1 Ho). lia.
  - intros r o Ho. rewrite app_length. apply nth_clone in Ho. destruct Ho as [Ho|(j & o1 & -> & Ho & ->)].
    + pose proof (wf_y _ _ h W r o Ho). lia.
    + cbn. unfold shift_loc. pose proof (wf_y _ _ h W j o1 Ho). lia.
  - intros r1 r2 o1 o2 H1 H2 E. apply nth_clone in H1. apply nth_clone in H2.
    destruct H1 as [H1|(j1 & p1 & -> & H1 & ->)], H2 as [H2|(j2 & p2 & -> & H2 & ->)]; cbn in E; unfold shift_loc in E.
    + eapply wf_inj; eauto.
    + pose proof (wf_y _ _ h W r1 o1 H1). unfold loc in *. lia.
    + pose proof (wf_y _ _ h W r2 o2 H2). unfold loc in *. lia.
    + assert (E' : ro_y p1 = ro_y p2) by (unfold loc in *; lia).
      rewrite (wf_inj _ _ h W j1 j2 p1 p2 H1 H2 E'). reflexivity.
  - intros r o l Ho Hl. apply nth_clone in Ho. destruct Ho as [Ho|(j & o1 & -> & Ho & ->)].
    + destruct (wf_link _ _ h W r o l Ho Hl) as (o2 & H2 & C). exists o2. split; auto using nth_app_old.
    + cbn in Hl. destruct (ro_link o1) as [l1|] eqn:E; [|discriminate]. cbn in Hl. injection Hl as <-.
      destruct (wf_link _ _ h W j o1 l1 Ho E) as (o2 & H2 & C). exists (clone_rel A V h o2).
      split; [apply nth_clone_new; exact H2|]. exact C.
  - intros r o l Ho Hl. rewrite app_length, map_length. apply nth_clone in Ho. destruct Ho as [Ho|(j & o1 & -> & Ho & ->)].
    + pose proof (wf_ft _ _ h W r o l Ho Hl). lia.
    + cbn in Hl. destruct (ro_ft o1) as [l1|] eqn:E; [|discriminate]. cbn in Hl. injection Hl as <-.
      pose proof (wf_ft _ _ h W j o1 l1 Ho E). unfold shift_loc. lia.
  - intros r o l Ho Hl. rewrite app_length, map_length. apply nth_clone in Ho. destruct Ho as [Ho|(j & o1 & -> & Ho & ->)].
    + pose proof (wf_at _ _ h W r o l Ho Hl). lia.
    + cbn in Hl. destruct (ro_at o1) as [l1|] eqn:E; [|discriminate]. cbn in Hl. injection Hl as <-.
      pose proof (wf_at _ _ h W j o1 l1 Ho E). unfold shift_loc. lia.
  - intros g o a Ho Ha. rewrite app_length. pose proof (wf_gen _ _ h W g o a Ho Ha). lia.
Qed.
Lemma ext_clone h : ext h (clone_heap A V h).
Proof.
  constructor; auto. constructor; cbn; auto; intros; eauto using nth_app_old.
  - rewrite app_length; lia.
  - eexists; split; eauto using nth_app_old. repeat split; auto.
Qed.
Lemma deepcopy_spec h r k x y c cf : isrel h r k x y c cf ->
  ok h (deepcopy A V r) (fun r' h' => exists x' y', isrel h' r' k x' y' c cf /\ fresh A V h r' x' y' /\ keeps h h') (fun _ => False).
Proof.
  intros (o & ax & Ho & E1 & E2 & E3 & E4 & Hx & Ep & Hy). unfold deepcopy.
  apply ok_rd_bind; [|congruence]. intros o' _. intros W. cbn [fst snd].
  split; [apply wf_clone; auto|]. split; [apply ext_clone|].
  exists (length (h_ax h) + x), (length (h_yarr h) + y). split; [|split].
  - exists (clone_rel A V h o), (clone_ax A V h ax). cbn. unfold shift_loc. subst.
    split; [apply nth_clone_new; exact Ho|]. repeat split; auto.
    + apply nth_clone_new. exact Hx.
    + apply nth_double. exact Hy.
  - unfold fresh, shift_loc, loc. lia.
  - intros r1 o1 H1. cbn. apply nth_app_old. exact H1.
Qed.

(** ** Results of methods *)
Definition res (h h' : heap) (r : loc) (k : cls) (c : rel) (cf : hconfig A V) : Prop :=
  exists x y, isrel h' r k x y c cf /\ fresh A V h r x y.
Lemma res_from h0 h h' r k c cf : ext h0 h -> res h h' r k c cf -> res h0 h' r k c cf.
Proof. intros X (x & y & H & Fr). exists x, y. split; auto. eapply fresh_ext; eauto. Qed.
Lemma res_ext h h' h'' r k c cf : ext h' h'' -> res h h' r k c cf -> res h h'' r k c cf.
Proof. intros X (x & y & H & Fr). exists x, y. split; auto. eapply isrel_ext; eauto. Qed.
Lemma made_res h0 h h' r k x c : ext h0 h -> length (h_ax h0) <= x -> made h h' r k x c ->
  res h0 h' r k c (h_cfg h0).
Proof.
  intros X Hx (y & H & H1 & H2). exists x, y. pose proof (ext_cfg _ _ _ _ _ X) as Ec. rewrite Ec in H. split; auto.
  pose proof (ext_rel_len _ _ _ _ _ X). pose proof (ext_y_len _ _ _ _ _ X). repeat split; auto; lia.
Qed.

(** finish a method: constructor on a fresh axis *)
Lemma construct_fresh h0 h k a p y (E : exn -> Prop) (Q : loc -> heap -> Prop) :
  ext h0 h -> length (h_ax h0) <= a -> (exists o, nax h a = Some o /\ ao_p o = p) ->
  (forall r h', wf h' -> chk k (h_scfg h0) (rel_make A V p y) = Ok (mkRel p y) ->
     res h0 h' r k (mkRel p y) (h_cfg h0) -> ext h h' -> Q r h') ->
  (forall e, chk k (h_scfg h0) (rel_make A V p y) = Err e -> E e) ->
  ok h (construct A V k (XaAxis a) (Some y)) Q E.
Proof.
  intros X Ha (o & Ho & Ep) HQ HE. subst p. rewrite <- (ext_scfg _ _ _ _ _ X) in HQ, HE.
  eapply ok_weaken; [apply construct_axis; eauto| |exact HE].
  cbn beta. intros r h' W' X' (H1 & H2 & _). apply HQ; auto. eapply made_res; eauto.
Qed.

Lemma chk_err k sc v e : v = Err e -> chk k sc v = Err e.
Proof. intros ->. reflexivity. Qed.

Lemma op_num_spec h o r b k x y c cf : isrel h r k x y c cf ->
  let v := chk k (h_scfg h) (rel_op_num A V (hc_base cf) o c b) in
  ok h (h_operation A V o r (HVal b))
    (fun r' h' => exists c', v = Ok c' /\ res h h' r' k c' (h_cfg h))
    (fun e => v = Err e).
Proof.
  intros Hr v. unfold h_operation. eapply rel_bind; eauto. intros ro Ho E1 E2 E3 E4. subst.
  eapply copy_bind; eauto. intros h1 ax W1 X1 Hr1 Hax Hp R1 Y1.
  eapply y_bind; eauto. unfold v, rel_op_num. apply ok_lift_bind.
  - intros y' Hy'. rewrite Hy'. cbn [bind]. eapply construct_fresh; [exact X1|reflexivity|eauto| |auto].
    intros r' h' W' HM HR X'. exists (mkRel (r_x c) y'). split; auto.
  - intros e He. rewrite He. reflexivity.
Qed.

(** the new axis of [interpolate_extrapolate], relation.py 332-337 *)
Definition new_x_of (h : heap) (cf : hconfig A V) (x : xarg A) : result axis :=
  match x with
  | XaRel r => match nrel h r with
               | Some o => match nax h (ro_x o) with Some ax => Ok (ao_p ax) | None => Err EDangling end
               | None => Err EDangling end
  | XaAxis a => match nax h a with Some ax => Ok (ao_p ax) | None => Err EDangling end
  | XaSeq s => c_axis_from_array A V (hc_base cf) s false
  end.
Lemma interp_spec h r nx k x y c cf : isrel h r k x y c cf ->
  let v := chk k (h_scfg h) (do p <- new_x_of h cf nx; rel_interp A V (hc_base cf) p c) in
  ok h (h_interp A V r nx)
    (fun r' h' => exists c', v = Ok c' /\ res h h' r' k c' (h_cfg h))
    (fun e => v = Err e).
Proof.
  intros Hr v. apply ok_wf. intros W. unfold h_interp. eapply rel_bind; eauto. intros ro Ho E1 E2 E3 E4. subst.
  apply ok_bind with (Q1 := fun l h1 => l = length (h_ax h) /\ exists p ax,
     new_x_of h (ro_cfg ro) nx = Ok p /\ nax h1 l = Some ax /\ ao_p ax = p).
  { unfold v. destruct nx as [r'|a|s]; cbn.
    - apply ok_rd_bind.
      + intros o' Ho'. unfold ax_copy. destruct (nth_some _ _ (wf_x _ _ h W r' o' Ho')) as (ax & Hax).
        rewrite Ho', Hax. apply ok_rd_bind; [|congruence].
        intros ax' Hax'. assert (ax' = ax) by congruence. subst ax'.
        eapply ok_conseq; [apply ok_alloc_ax; eapply wf_good; eauto|]. cbn.
        intros l h' _ _ [-> ->]. split; auto. exists (ao_p ax), ax. cbn. rewrite nth_app_new. auto.
      + intros Hn. rewrite Hn. reflexivity.
    - unfold ax_copy. apply ok_rd_bind.
      + intros ax Hax. rewrite Hax.
        eapply ok_conseq; [apply ok_alloc_ax; eapply wf_good; eauto|]. cbn.
        intros l h' _ _ [-> ->]. split; auto. exists (ao_p ax), ax. cbn. rewrite nth_app_new. auto.
      + intros Hn. rewrite Hn. reflexivity.
    - unfold ax_from_array. apply ok_lift_bind; [|intros e He; rewrite He; reflexivity]. intros p Hp.
      eapply ok_conseq; [apply ok_ax_new|]. cbn. intros l h' _ _ (-> & (ax & H1 & H2) & _).
      split; auto. exists p, ax. auto. }
  intros l h1 W1 X1 (-> & p & ax & Hp & Hax & Eax).
  pose proof (isrel_ext A V L _ _ _ _ _ _ _ _ X1 Hr) as Hr1. unfold v. rewrite Hp. cbn [bind]. unfold rel_interp.
  eapply array_bind; [exact Hr1| |].
  2:{ intros e He. rewrite He. reflexivity. }
  intros arr h2 Harr W2 X2 Hr2 R2 Y2. rewrite Harr. cbn [bind].
  eapply y_bind; [exact Hr2|].
  destruct (ext_ax _ _ _ _ _ _ _ X2 Hax) as (ax2 & Hax2 & Eax2).
  apply ok_rd_bind; [|unfold loc in *; congruence]. intros ax2' H'. assert (ax2' = ax2) by congruence. subst ax2'.
  rewrite Eax2, Eax.
  apply ok_lift_bind.
  - intros y' Hy'. rewrite Hy'. cbn [bind].
    eapply construct_fresh with (p := p) (h0 := h); [eapply ext_trans; eauto|reflexivity|exists ax2; split; congruence| |auto].
    intros r' h' W' HM HR X'. exists (mkRel p y'). split; auto.
  - intros e He. rewrite He. reflexivity.
Qed.

(** [equalize] by content: [cur] is the current configuration, [cf1], [cf2] those the operands captured,
    [k1], [k2] their classes *)
Definition equalize_val (sc : sconfig A V) (cur cf1 cf2 : hconfig A V) (k1 k2 : cls) (same : bool) (c1 c2 : rel)
  : result (rel * rel) :=
  if same then Ok (c1, c2)
  else let p := c_common_x A V (hc_base cur) (r_x c1) (r_x c2) in
       do e1 <- chk k1 sc (rel_interp A V (hc_base cf1) p c1);
       do e2 <- chk k2 sc (rel_interp A V (hc_base cf2) p c2); Ok (e1, e2).
Lemma equalize_spec h r1 r2 k1 x1 y1 c1 cf1 k2 x2 y2 c2 cf2 :
  isrel h r1 k1 x1 y1 c1 cf1 -> isrel h r2 k2 x2 y2 c2 cf2 ->
  let v := equalize_val (h_scfg h) (h_cfg h) cf1 cf2 k1 k2 (Nat.eqb x1 x2) c1 c2 in
  ok h (h_equalize A V r1 r2)
    (fun e h' => exists d1 d2 g1 g2, v = Ok (d1, d2) /\
       res h h' (fst e) k1 d1 g1 /\ res h h' (snd e) k2 d2 g2)
    (fun e => v = Err e).
Proof.
  intros Hr1 Hr2 v. unfold h_equalize.
  eapply rel_bind; [exact Hr1|]. intros o1 Ho1 E1 E2 E3 E4.
  eapply rel_bind; [exact Hr2|]. intros o2 Ho2 G1 G2 G3 G4. rewrite E2, G2.
  unfold v, equalize_val. destruct (Nat.eqb x1 x2) eqn:Es.
  - eapply ok_bind.
    { eapply ok_weaken; [eapply deepcopy_spec; exact Hr1| |intros e []]. intros d h' _ _ H. exact H. }
    intros d1 h1 W1 X1 (a1 & b1 & J1 & J2 & _).
    eapply ok_bind.
    { eapply ok_weaken; [eapply deepcopy_spec; eapply isrel_ext; eauto| |intros e []]. intros d h' _ _ H. exact H. }
    intros d2 h2 W2 X2 (a2 & b2 & L1 & L2 & _). apply ok_ret. intros _. cbn.
    exists c1, c2, cf1, cf2. split; auto. split.
    + exists a1, b1. split; auto. eapply isrel_ext; eauto.
    + exists a2, b2. split; auto. eapply fresh_ext; eauto.
  - apply ok_cfg_bind.
    eapply ax_bind; [exact Hr1|]. intros ax1 Hax1 Ep1. eapply ax_bind; [exact Hr2|]. intros ax2 Hax2 Ep2.
    eapply new_ax_bind. intros h1 nx W1 X1 Hnx Enx R1 Y1. rewrite Ep1, Ep2 in Enx.
    set (p := c_common_x A V (hc_base (h_cfg h)) (r_x c1) (r_x c2)) in *.
    eapply ok_bind.
    { eapply ok_weaken; [eapply interp_spec; eapply isrel_ext; [exact X1|exact Hr1]| |].
      - intros d h' _ _ H. exact H.
      - cbn. unfold loc in *. rewrite Hnx, Enx. cbn [bind]. rewrite (ext_scfg _ _ _ _ _ X1).
        intros e He. rewrite He. reflexivity. }
    cbn. unfold loc in *. rewrite Hnx, Enx. cbn [bind]. rewrite (ext_scfg _ _ _ _ _ X1).
    intros d1 h2 W2 X2 (e1 & He1 & HR1). rewrite He1. cbn [bind].
    destruct (ext_ax _ _ _ _ _ _ _ X2 Hnx) as (nx2 & Hnx2 & Enx2).
    assert (X02 : ext h h2) by (eapply ext_trans; eauto).
    eapply ok_bind.
    { eapply ok_weaken; [eapply interp_spec; eapply isrel_ext; [exact X02|exact Hr2]| |].
      - intros d h' _ _ H. exact H.
      - cbn. unfold loc in *. rewrite Hnx2, Enx2, Enx. cbn [bind]. rewrite (ext_scfg _ _ _ _ _ X02).
        intros e He. rewrite He. reflexivity. }
    cbn. unfold loc in *. rewrite Hnx2, Enx2, Enx. cbn [bind]. rewrite (ext_scfg _ _ _ _ _ X02).
    intros d2 h3 W3 X3 (e2 & He2 & HR2). rewrite He2. cbn [bind].
    apply ok_ret. intros _. cbn. exists e1, e2, (h_cfg h1), (h_cfg h2).
    split; auto. split.
    + eapply res_from; [exact X1|]. eapply res_ext; [exact X3|]. exact HR1.
    + eapply res_from; [exact X02|]. exact HR2.
Qed.

(** operators between two relations, by content *)
Definition op_val (sc : sconfig A V) (cur cf1 cf2 : hconfig A V) (k1 k2 : cls) (o : mathop) (same : bool) (c1 c2 : rel)
  : result rel :=
  chk k1 sc (do e <- equalize_val sc cur cf1 cf2 k1 k2 same c1 c2;
             do y <- c_math A V (hc_base cf1) o (r_y (fst e)) (OArr (r_y (snd e)));
             rel_make A V (r_x (fst e)) y).
(** with one configuration and no sweeps this is the value-level operator *)
Lemma op_val_rel sc cf k1 k2 o same c1 c2 : k1 <> KSweep -> k2 <> KSweep ->
  op_val sc cf cf cf k1 k2 o same c1 c2 = rel_op A V (hc_base cf) o same c1 c2.
Proof.
  intros H1 H2. unfold op_val, equalize_val, rel_op, rel_equalize. rewrite !chk_plain by auto. reflexivity.
Qed.
Lemma op_rel_spec h o r1 r2 k1 x1 y1 c1 cf1 k2 x2 y2 c2 cf2 :
  isrel h r1 k1 x1 y1 c1 cf1 -> isrel h r2 k2 x2 y2 c2 cf2 ->
  let v := op_val (h_scfg h) (h_cfg h) cf1 cf2 k1 k2 o (Nat.eqb x1 x2) c1 c2 in
  ok h (h_operation A V o r1 (HRel r2))
    (fun r' h' => exists c', v = Ok c' /\ res h h' r' k1 c' (h_cfg h))
    (fun e => v = Err e).
Proof.
  intros Hr1 Hr2 v. unfold h_operation. eapply rel_bind; [exact Hr1|]. intros ro Ho E1 E2 E3 E4.
  unfold v, op_val.
  eapply ok_bind.
  { eapply ok_weaken; [eapply equalize_spec; eauto| |].
    - intros e h' _ _ H. exact H.
    - cbn beta zeta. intros e He. rewrite He. reflexivity. }
  cbn beta zeta.
  intros [d1 d2] h1 W1 X1 (e1 & e2 & g1 & g2 & Hv & (a1 & b1 & I1 & F1) & (a2 & b2 & I2 & F2)). cbn [fst snd] in *.
  rewrite Hv. cbn [bind fst snd].
  eapply rel_bind; [exact I1|]. intros p1 Hp1 P1 P2 P3 P4. subst.
  eapply rel_bind; [exact I2|]. intros p2 Hp2 Q1 Q2 Q3 Q4. subst.
  eapply copy_bind; [exact I1|]. intros h2 ax W2 X2 I1' Hax Eax R2 Y2.
  eapply y_bind; [exact I1'|].
  pose proof (isrel_ext A V L _ _ _ _ _ _ _ _ X2 I2) as I2'. eapply y_bind; [exact I2'|].
  assert (X02 : ext h h2) by (eapply ext_trans; eauto).
  apply ok_lift_bind.
  - intros y' Hy'. rewrite Hy'. cbn [bind].
    eapply construct_fresh with (h0 := h) (p := r_x e1); [exact X02| |eauto| |auto].
    + apply ext_ax_len in X1. exact X1.
    + intros r' h' W' HM HR X'. exists (mkRel (r_x e1) y'). split; auto.
  - intros e He. rewrite He. reflexivity.
Qed.

Lemma shift_axis_spec h r d k x y c cf : isrel h r k x y c cf ->
  let v := chk k (h_scfg h) (rel_shift A V d c) in
  ok h (h_shift_axis A V r d)
    (fun r' h' => exists c', v = Ok c' /\ res h h' r' k c' (h_cfg h))
    (fun e => v = Err e).
Proof.
  intros Hr v. unfold h_shift_axis. eapply rel_bind; [exact Hr|]. intros ro Ho E1 E2 E3 E4. subst.
  apply ok_wf. intros W. destruct (isrel_ax _ _ _ _ _ _ _ Hr) as (ax & Hx & Ep).
  set (p2 := set_end A (n_add A (a_end (r_x c)) d) (set_start A (n_add A (a_start (r_x c)) d) (r_x c))).
  set (h1 := with_ax A V h (h_ax h ++ [mkAx p2 None None])).
  destruct Hr as (ro' & ax' & Ho' & _ & _ & _ & _ & Hx' & _ & Hy).
  assert (W1 : wf h1) by (apply wf_alloc_ax; [exact W|apply good_new]).
  assert (X1 : ext h h1) by apply ext_alloc_ax.
  apply ok_step with (h1 := h1) (m' := construct A V (ro_cls ro) (XaAxis (length (h_ax h))) (Some (r_y c))); auto.
  - unfold ax_copy, ax_set, bindM, get_ax, get_y, rd, alloc_ax, put_ax. rewrite Hx. cbn -[construct].
    repeat (progress (cbn -[construct upd]; rewrite ?nth_app_new, ?upd_app_new, ?Hy, ?Ep)). reflexivity.
  - eapply construct_fresh with (h0 := h) (p := p2); [exact X1|reflexivity| | |auto].
    + exists (mkAx p2 None None). cbn. rewrite nth_app_new. auto.
    + intros r' h' W' HM HR X'. exists (mkRel p2 (r_y c)). split; auto.
Qed.

Lemma select_spec h r s e k x y c cf : isrel h r k x y c cf ->
  let v := chk k (h_scfg h) (rel_select A V s e c) in
  ok h (h_select A V r s e)
    (fun r' h' => exists c', v = Ok c' /\ res h h' r' k c' (h_cfg h))
    (fun er => v = Err er).
Proof.
  intros Hr v. unfold h_select. eapply rel_bind; [exact Hr|]. intros ro Ho E1 E2 E3 E4. subst.
  eapply ax_bind; [exact Hr|]. intros ax Hax Ep. rewrite Ep.
  unfold v, rel_select.
  set (s' := match s with Some v => v | None => _ end). set (e' := match e with Some v => v | None => _ end).
  eapply array_bind; [exact Hr| |].
  2:{ intros er He. rewrite He. reflexivity. }
  intros arr h1 Harr W1 X1 Hr1 R1 Y1. rewrite Harr. cbn [bind].
  set (m := map _ arr). destruct (mask m arr) as [|x0 sel] eqn:Es; [apply ok_fail; auto|].
  eapply new_ax_bind. intros h2 nx W2 X2 Hnx Enx R2 Y2.
  pose proof (isrel_ext A V L _ _ _ _ _ _ _ _ X2 Hr1) as Hr2. eapply y_bind; [exact Hr2|].
  destruct (Nat.eqb (length m) (length (r_y c))); [|apply ok_fail; auto].
  eapply construct_fresh with (h0 := h); [eapply ext_trans; eauto| |eauto| |auto].
  - apply ext_ax_len in X1. exact X1.
  - intros r' h' W' HM HR X'. eexists. split; [exact HM|exact HR].
Qed.

Lemma map_spec h r k' f k x y c cf : isrel h r k x y c cf ->
  let v := chk k' (h_scfg h) (rel_make A V (r_x c) (f (r_y c))) in
  ok h (h_map A V k' f r)
    (fun r' h' => exists c', v = Ok c' /\ res h h' r' k' c' (h_cfg h))
    (fun e => v = Err e).
Proof.
  intros Hr v. unfold h_map. eapply rel_bind; [exact Hr|]. intros ro Ho E1 E2 E3 E4. subst.
  eapply copy_bind; [exact Hr|]. intros h1 ax W1 X1 Hr1 Hax Hp R1 Y1. eapply y_bind; [exact Hr1|].
  eapply construct_fresh with (h0 := h); [exact X1|reflexivity|eauto| |auto].
  intros r' h' W' HM HR X'. eexists. split; [exact HM|exact HR].
Qed.

Lemma method_spec h r pick k x y c cf : isrel h r k x y c cf ->
  let v := chk k (h_scfg h) (do xy <- pick (hc_base cf) c; rel_make A V (fst xy) (snd xy)) in
  ok h (h_method A V pick r)
    (fun r' h' => exists c', v = Ok c' /\ res h h' r' k c' (h_cfg h))
    (fun e => v = Err e).
Proof.
  intros Hr v. unfold h_method. eapply rel_bind; [exact Hr|]. intros ro Ho E1 E2 E3 E4. subst.
  eapply content_bind; [exact Hr|]. unfold v. apply ok_lift_bind.
  - intros [p z] Hp. rewrite Hp. cbn [bind fst snd].
    eapply new_ax_bind. intros h1 nx W1 X1 Hnx Enx R1 Y1.
    eapply construct_fresh with (h0 := h); [exact X1|reflexivity|eauto| |auto].
    intros r' h' W' HM HR X'. eexists. split; [exact HM|exact HR].
  - intros e He. rewrite He. reflexivity.
Qed.

Lemma getitem_spec h r v k x y c cf : isrel h r k x y c cf ->
  ok h (h_getitem A V r v)
    (fun z h' => rel_getitem A V v c = Ok z /\ h_rel h' = h_rel h /\ h_yarr h' = h_yarr h)
    (fun e => rel_getitem A V v c = Err e).
Proof.
  intros Hr. unfold h_getitem, rel_getitem. eapply rel_bind; [exact Hr|]. intros ro Ho E1 E2 E3 E4. subst.
  eapply array_bind; [exact Hr| |].
  2:{ intros e He. rewrite He. reflexivity. }
  intros arr h1 Harr W1 X1 Hr1 R1 Y1. rewrite Harr. cbn [bind].
  destruct (argmin A _) as [i|]; [|apply ok_fail; auto].
  eapply y_bind; [exact Hr1|].
  destruct (nth_error arr i) as [a|]; [|apply ok_fail; auto].
  destruct (nth_error (r_y c) i) as [b|]; [|apply ok_fail; auto].
  apply ok_ret. auto.
Qed.

(** norm: [self**2] keeps the class for a number, whatever the class *)
Lemma operator_num_eq o r b h : h_operator A V o r (HVal (OVal b)) h = h_operation A V o r (HVal (OVal b)) h.
Proof.
  unfold h_operator, bindM at 1. unfold get_rel, rd.
  destruct (nrel h r) as [ro|] eqn:E.
  - cbn. destruct (converting o); cbn; auto. destruct (is_sig (ro_cls ro)); auto. destruct (is_spec (ro_cls ro)); auto.
  - cbn. unfold h_operation, bindM, get_rel, rd. rewrite E. reflexivity.
Qed.
Lemma operator_num h o r b Q E : ok h (h_operation A V o r (HVal (OVal b))) Q E -> ok h (h_operator A V o r (HVal (OVal b))) Q E.
Proof. intros H. eapply ok_eq; [symmetry; apply operator_num_eq|exact H]. Qed.
(** [get_norm] by content: [self**2] is an object of the class of [self] *)
Definition norm_val (sc : sconfig A V) (cf : hconfig A V) (k : cls) (c : rel) : result val :=
  do sq <- chk k sc (rel_op_num A V (hc_base cf) POW c (OVal (v_of V (n_of_Z A 2))));
  do i <- c_int_one A V (hc_base cf) sq;
  Ok (v_div V i (v_of V (a_sample (r_x c)))).
Lemma norm_val_rel sc cf k c : k <> KSweep -> norm_val sc cf k c = rel_norm A V (hc_base cf) c.
Proof. intros H. unfold norm_val. rewrite chk_plain by auto. reflexivity. Qed.
Lemma norm_spec h r k x y c cf : isrel h r k x y c cf ->
  ok h (h_norm A V r)
    (fun z h' => norm_val (h_scfg h) cf k c = Ok z)
    (fun e => norm_val (h_scfg h) cf k c = Err e).
Proof.
  intros Hr. unfold h_norm, norm_val. eapply rel_bind; [exact Hr|]. intros ro Ho E1 E2 E3 E4. subst.
  eapply ok_bind.
  { eapply ok_weaken; [apply operator_num; eapply op_num_spec; exact Hr| |].
    - intros z h' _ _ H. exact H.
    - cbn beta zeta. intros e He. rewrite He. reflexivity. }
  cbn beta zeta. intros sq h1 W1 X1 (c' & Hc' & x' & y' & I & Fr). rewrite Hc'. cbn [bind].
  eapply content_bind; [exact I|]. apply ok_lift_bind.
  - intros i Hi. rewrite Hi. cbn [bind].
    pose proof (isrel_ext A V L _ _ _ _ _ _ _ _ X1 Hr) as Hr1. eapply ax_bind; [exact Hr1|].
    intros ax Hax Ep. rewrite Ep. apply ok_ret. auto.
  - intros e He. rewrite He. auto.
Qed.
Lemma get_data_pre {U} h r k x y c cf (j : loc * loc -> M U) Q (E : exn -> Prop) : isrel h r k x y c cf ->
  (forall h1 a, rel_get_data A V c = Ok (a, r_y c) -> length a = length (r_y c) -> wf h1 -> ext h h1 ->
     h_rel h1 = h_rel h -> h_yarr h1 = h_yarr h ->
     ok h1 (bind' (alloc_f A V a) (fun fl => bind' (alloc_y A V (r_y c)) (fun yl => j (fl, yl)))) Q E) ->
  (forall e, rel_get_data A V c = Err e -> E e) ->
  ok h (bind' (h_get_data A V r) j) Q E.
Proof.
  intros Hr H HE. unfold h_get_data. apply ok_assoc.
  eapply rel_bind; [exact Hr|]. intros ro Ho E1 E2 E3 E4. subst.
  destruct (isrel_ax _ _ _ _ _ _ _ Hr) as (ax & Hx & Ep). apply ok_assoc.
  unfold rel_get_data in HE. unfold rel_get_data in H.
  eapply ok_bind.
  { eapply ok_weaken; [apply (size_spec A V L h _ ax Hx)| |].
    - intros n h' _ _ G. exact G.
    - intros e He. apply HE. rewrite <- Ep, He. reflexivity. }
  intros n h1 W1 X1 (Hn & R1 & Y1). rewrite Ep in Hn. rewrite Hn in H, HE. cbn [bind] in H, HE.
  pose proof (isrel_ext A V L _ _ _ _ _ _ _ _ X1 Hr) as Hr1. apply ok_assoc. eapply y_bind; [exact Hr1|].
  destruct (Nat.eqb_spec n (length (r_y c))) as [En|En].
  - apply ok_assoc. eapply array_bind; [exact Hr1| |].
    + intros arr h2 Harr W2 X2 Hr2 R2 Y2. rewrite Harr in H. cbn [bind] in H.
      assert (LA : length arr = length (r_y c)) by (apply array_length in Harr; congruence).
      specialize (H h2 arr eq_refl LA W2 (ext_trans _ _ _ _ _ _ X1 X2)).
      rewrite R2, R1, Y2, Y1 in H. specialize (H eq_refl eq_refl).
      apply ok_assoc. eapply ok_eq; [|exact H]. unfold bindM, alloc_f, alloc_y, ret. reflexivity.
    + intros e He. apply HE. rewrite He. reflexivity.
  - eapply ok_bind with (Q1 := fun _ _ => False); [|intros ? ? _ _ []]. apply ok_fail. auto.
Qed.
Lemma bind_ret {T} (m : M T) h : bind' m (ret A V) h = m h.
Proof. unfold bindM, ret. destruct (m h) as [[v|e] h']; reflexivity. Qed.
Lemma get_data_spec h r k x y c cf : isrel h r k x y c cf ->
  ok h (h_get_data A V r)
    (fun d h' => exists a, rel_get_data A V c = Ok (a, r_y c) /\ nf h' (fst d) = Some a /\ ny h' (snd d) = Some (r_y c) /\
        length a = length (r_y c) /\ length (h_farr h) <= fst d /\ length (h_yarr h) <= snd d /\ h_rel h' = h_rel h)
    (fun e => rel_get_data A V c = Err e).
Proof.
  intros Hr. eapply ok_eq; [apply bind_ret|]. eapply get_data_pre; [exact Hr| |auto].
  intros h1 a Ha LA W1 X1 R1 Y1.
  eapply ok_bind; [apply ok_alloc_f|]. intros fl h2 W2 X2 [-> ->].
  eapply ok_bind; [apply ok_alloc_y|]. intros yl h3 W3 X3 [-> ->].
  apply ok_ret. intros _. exists a. split; auto. cbn.
  split; [apply nth_app_new|]. split; [apply nth_app_new|]. split; auto.
  split; [eapply len_le; intros i' v' Hv'; exists v'; apply (fr_f _ _ _ _ _ _ _ (ext_frame _ _ _ _ _ X1)); exact Hv'|]. split; [apply (ext_y_len _ _ _ _ _ X1)|exact R1].
Qed.
Lemma get_data_write_spec h r i v j w k x y c cf : isrel h r k x y c cf ->
  ok h (h_get_data_write A V r i v j w) (anyQ A V) anyE.
Proof.
  intros Hr. unfold h_get_data_write. eapply get_data_pre; [exact Hr| |unfold anyE; auto].
  intros h1 a Ha LA W1 X1 R1 Y1.
  apply ok_step with (h1 := with_yarr A V (with_farr A V h1 (h_farr h1 ++ [upd a i v])) (h_yarr h1 ++ [upd (r_y c) j w])) (m' := ret A V tt).
  - unfold bindM, alloc_f, alloc_y, get_f, get_y, put_f, put_y, rd, ret.
    repeat (progress (cbn -[upd]; rewrite ?nth_app_new, ?upd_app_new)). reflexivity.
  - apply (wf_alloc_y A V (with_farr A V h1 (h_farr h1 ++ [upd a i v]))). apply wf_alloc_f. exact W1.
  - eapply ext_trans; [apply ext_alloc_f|].
    exact (ext_alloc_y A V L (with_farr A V h1 (h_farr h1 ++ [upd a i v])) (upd (r_y c) j w)).
  - apply ok_ret. unfold anyQ. auto.
Qed.
End HeapL2.
