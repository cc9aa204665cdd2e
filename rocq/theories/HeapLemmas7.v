(** Methods of signals and spectra by value (C62): what the objects compute is what the functions of
    FourierModel.v say, with remembered conversions taken into account. *)
From Coq Require Import ZArith List Bool Lia.
From Verif Require Import Num Numpy AxisModel RelModel HeapModel HeapSpec FourierModel SignalSpec
  HeapLemmas HeapLemmas2 HeapLemmas3 HeapLemmas4 HeapLemmas5.
Import ListNotations.

Section HeapL7.
Context (A : Arith) (V : Vals A) (F : vfun A V).
Notation num := (num A).
Notation val := (val V).
Notation axis := (axis A).
Notation rel := (rel A V).
Notation heap := (heap A V).
Notation M := (M A V).
Notation nax h a := (nth_error (h_ax h) a).
Notation nrel h r := (nth_error (h_rel h) r).
Notation ny h l := (nth_error (h_yarr h) l).
Notation wf := (wf A V).
Notation isrel := (isrel A V).
Notation res := (res A V).
Notation bind' := (bindM A V).
Notation L0 := (fun _ : loc => False).
Notation ok := (ok A V L0).
Notation ext := (ext A V L0).

(** *** Calls that set no link of an existing object *)
Definition links (h h' : heap) : Prop :=
  forall r o, nrel h r = Some o -> exists o', nrel h' r = Some o' /\ ro_link o' = ro_link o.
Definition still {T} (m : M T) : Prop := forall h, links h (snd (m h)).
Lemma links_refl h : links h h.
Proof. intros r o H. eauto. Qed.
Lemma links_trans h1 h2 h3 : links h1 h2 -> links h2 h3 -> links h1 h3.
Proof.
  intros H1 H2 r o Ho. destruct (H1 r o Ho) as (o1 & Ho1 & E1). destruct (H2 r o1 Ho1) as (o2 & Ho2 & E2).
  exists o2. split; congruence.
Qed.
Lemma links_same h h' : h_rel h' = h_rel h -> links h h'.
Proof. intros E r o H. rewrite E. eauto. Qed.
Lemma still_bind {T U} (m : M T) (k : T -> M U) : still m -> (forall x, still (k x)) -> still (bind' m k).
Proof.
  intros Hm Hk h. specialize (Hm h). unfold bindM. destruct (m h) as [[x|e] h1]; cbn in *; [|exact Hm].
  eapply links_trans; [exact Hm|apply Hk].
Qed.
Lemma still_ret {T} (x : T) : still (ret A V x).
Proof. intros h. apply links_refl. Qed.
Lemma still_fail {T} e : still (fail (T:=T) A V e).
Proof. intros h. apply links_refl. Qed.
Lemma still_lift {T} (r : result T) : still (lift A V r).
Proof. intros h. apply links_refl. Qed.
Lemma still_rd {T} (st : heap -> list T) l : still (rd A V st l).
Proof. intros h. unfold rd. destruct (nth_error (st h) l); apply links_refl. Qed.
Lemma still_cfg : still (get_cfg A V).
Proof. intros h. apply links_refl. Qed.
Lemma still_scfg : still (get_scfg A V).
Proof. intros h. apply links_refl. Qed.
Lemma still_alloc_f v : still (alloc_f A V v).
Proof. intros h. apply links_same. reflexivity. Qed.
Lemma still_alloc_y v : still (alloc_y A V v).
Proof. intros h. apply links_same. reflexivity. Qed.
Lemma still_alloc_ax v : still (alloc_ax A V v).
Proof. intros h. apply links_same. reflexivity. Qed.
Lemma still_alloc_rel v : still (alloc_rel A V v).
Proof. intros h r o H. exists o. split; [|reflexivity]. cbn. apply nth_app_old. exact H. Qed.
Lemma still_put_ax l v : still (put_ax A V l v).
Proof. intros h. apply links_same. reflexivity. Qed.
Lemma still_put_law r (f : relobj A V -> relobj A V) : (forall o, ro_link (f o) = ro_link o) ->
  still (bind' (get_rel A V r) (fun o => put_rel A V r (f o))).
Proof.
  intros Hf h r' o' H. unfold bindM, get_rel, rd. destruct (nrel h r) as [o|] eqn:E; cbn; [|eauto].
  destruct (Nat.eq_dec r r') as [<-|N].
  - rewrite upd_same by (eapply nth_lt; eauto). exists (f o). split; [reflexivity|]. rewrite Hf. congruence.
  - rewrite upd_other by exact N. eauto.
Qed.
Lemma still_set_ft r l : still (set_ft A V r l).
Proof. apply (still_put_law r (fun o => mkRo (ro_cls o) (ro_x o) (ro_y o) (ro_link o) (ro_cfg o) (Some l) (ro_at o))). reflexivity. Qed.
Lemma still_set_at r l : still (set_at A V r l).
Proof. apply (still_put_law r (fun o => mkRo (ro_cls o) (ro_x o) (ro_y o) (ro_link o) (ro_cfg o) (ro_ft o) (Some l))). reflexivity. Qed.
Create HintDb still.
Hint Resolve still_ret still_fail still_lift still_rd still_cfg still_scfg still_alloc_f still_alloc_y still_alloc_ax
  still_alloc_rel still_put_ax still_set_ft still_set_at : still.
Ltac st := repeat (first [ progress (auto with still)
  | apply still_bind; [|intros]
  | match goal with |- still (match ?x with _ => _ end) => destruct x end ]).
Lemma still_array_loc a : still (ax_array_loc A V a).
Proof. unfold ax_array_loc, get_ax. st. Qed.
Hint Resolve still_array_loc : still.
Lemma still_array a : still (ax_array A V a).
Proof. unfold ax_array, get_f. st. Qed.
Hint Resolve still_array : still.
Lemma still_size a : still (ax_size A V a).
Proof. unfold ax_size. st. Qed.
Lemma still_ax_new p : still (ax_new A V p).
Proof. unfold ax_new. st. Qed.
Lemma still_copy a : still (ax_copy A V a).
Proof. unfold ax_copy, get_ax. st. Qed.
Lemma still_set f a v : still (ax_set A V f a v).
Proof. unfold ax_set, get_ax. st. Qed.
Hint Resolve still_size still_ax_new still_copy still_set : still.
Lemma still_from_array c s b : still (ax_from_array A V c s b).
Proof. unfold ax_from_array. st. Qed.
Lemma still_content r : still (content A V r).
Proof. unfold content, get_rel, get_ax, get_y. st. Qed.
Hint Resolve still_from_array still_content : still.
Lemma still_init x y : still (init_xy A V x y).
Proof. unfold init_xy, get_rel, get_y. st. Qed.
Hint Resolve still_init : still.
Lemma still_new_plain k x y l : still (new_plain A V k x y l).
Proof. unfold new_plain. st. Qed.
Hint Resolve still_new_plain : still.
Lemma still_estimate f r : still (estimate A V f r).
Proof. unfold estimate, get_rel. st. Qed.
Hint Resolve still_estimate : still.
Lemma still_construct k x y : still (construct A V k x y).
Proof. unfold construct, new_sweep. st. Qed.
Lemma still_clone r : still (deepcopy A V r).
Proof.
  unfold deepcopy, get_rel. apply still_bind; [apply still_rd|]. intros _ h r' o H. cbn.
  exists o. split; [|reflexivity]. apply nth_app_old. exact H.
Qed.
Hint Resolve still_construct still_clone : still.
Lemma still_interp r x : still (h_interp A V r x).
Proof. unfold h_interp, get_rel, get_y, get_ax. st. Qed.
Hint Resolve still_interp : still.
Lemma still_equalize r1 r2 : still (h_equalize A V r1 r2).
Proof. unfold h_equalize, get_rel, get_ax. st. Qed.
Hint Resolve still_equalize : still.
Lemma still_operation o r b : still (h_operation A V o r b).
Proof. unfold h_operation, get_rel, get_y. st. Qed.
Lemma still_select r s e : still (h_select A V r s e).
Proof. unfold h_select, get_rel, get_y, get_ax. st. Qed.
Lemma still_map k f r : still (h_map A V k f r).
Proof. unfold h_map, get_rel, get_y. st. Qed.
Hint Resolve still_operation still_select still_map : still.
Lemma still_exp r : still (h_exp A V F r).
Proof. unfold h_exp, get_rel. st. Qed.
Lemma still_on_spec {T} r (m : M T) : still m -> still (on_spec A V r m).
Proof. intros H. unfold on_spec, get_rel. st. Qed.
Lemma still_amp r : still (h_amp A V F r).
Proof. apply still_on_spec. st. Qed.
Lemma still_phase r : still (h_phase A V F r).
Proof. apply still_on_spec. st. Qed.
Hint Resolve still_exp still_amp still_phase : still.
Lemma still_dom d : still (dom_content A V d).
Proof. unfold dom_content, get_ax. st. Qed.
Lemma still_dom_axis d p : still (dom_axis A V d p).
Proof. unfold dom_axis. st. Qed.
Hint Resolve still_dom still_dom_axis : still.

Lemma ok_still {T} h (m : M T) Q E : still m -> ok h m Q E -> ok h m (fun x h' => Q x h' /\ links h h') E.
Proof.
  intros S H W. specialize (H W). specialize (S h). cbn zeta in *.
  destruct (m h) as [[x|e] h']; cbn in *; tauto.
Qed.
Lemma ok_and {T} h (m : M T) Q1 E1 Q2 E2 : ok h m Q1 E1 -> ok h m Q2 E2 ->
  ok h m (fun x h' => Q1 x h' /\ Q2 x h') (fun e => E1 e /\ E2 e).
Proof.
  intros H1 H2 W. specialize (H1 W). specialize (H2 W). cbn zeta in *.
  destruct (m h) as [[x|e] h']; cbn in *; tauto.
Qed.

(** *** Calls that make a new object with the content [v] *)
Definition by_value (h : heap) (m : M loc) (k : cls) (v : result rel) : Prop :=
  ok h m (fun r' h' => (exists c', v = Ok c' /\ res h h' r' k c' (h_cfg h)) /\ links h h') (fun e => v = Err e).
Lemma by_intro h m k v : still m ->
  ok h m (fun r' h' => exists c', v = Ok c' /\ res h h' r' k c' (h_cfg h)) (fun e => v = Err e) -> by_value h m k v.
Proof. intros S H. unfold by_value. apply ok_still; auto. Qed.
Lemma by_seq h m j k k2 v1 v2 : by_value h m k v1 ->
  (forall c' h1 r' x y, v1 = Ok c' -> wf h1 -> ext h h1 -> isrel h1 r' k x y c' (h_cfg h1) -> length (h_ax h) <= x ->
     by_value h1 (j r') k2 (v2 c')) ->
  by_value h (bind' m j) k2 (do c <- v1; v2 c).
Proof.
  intros H1 H2. unfold by_value. eapply ok_bind.
  { eapply ok_weaken; [exact H1| |].
    - intros r' h' _ _ G. exact G.
    - intros e ->. reflexivity. }
  intros r' h1 W1 X1 [(c' & E1 & x & y & Hi & Hf) HL]. rewrite E1. cbn [bind].
  eapply ok_weaken; [eapply H2 with (x := x) (y := y); eauto| |auto].
  - rewrite (ext_cfg _ _ _ _ _ X1). exact Hi.
  - apply Hf.
  - cbn beta. intros r2 h2 W2 X2 [(c2 & E2 & HR) HL2]. split; [|eapply links_trans; eauto]. exists c2. split; auto.
    rewrite (ext_cfg _ _ _ _ _ X1) in HR. eapply res_from; eauto.
Qed.
Lemma by_bind {T} h (v1 : result T) (j : T -> M loc) k2 v2 :
  (forall x, v1 = Ok x -> by_value h (j x) k2 (v2 x)) -> by_value h (bind' (lift A V v1) j) k2 (do c <- v1; v2 c).
Proof.
  intros H. unfold by_value. apply ok_lift_bind.
  - intros x ->. apply H. reflexivity.
  - intros e ->. reflexivity.
Qed.
Lemma by_eq h m m' k v v' : (forall g, m g = m' g) -> v = v' -> by_value h m' k v' -> by_value h m k v.
Proof. intros E -> H. unfold by_value. eapply ok_eq; [|exact H]. symmetry. apply E. Qed.
Lemma by_on_spec h r x y c cf m k v : isrel h r KSpec x y c cf -> by_value h m k v -> by_value h (on_spec A V r m) k v.
Proof.
  intros Hi H. unfold by_value, on_spec. eapply rel_bind; [exact Hi|]. intros o _ -> _ _ _. exact H.
Qed.
Lemma by_map h f r x y c cf : isrel h r KSpec x y c cf ->
  by_value h (on_spec A V r (h_map A V KRel f r)) KRel (rel_make A V (r_x c) (f (r_y c))).
Proof. intros Hi. eapply by_on_spec; [exact Hi|]. pose proof (map_spec A V L0 h r KRel f _ _ _ _ _ Hi) as G.
  cbv zeta in G. rewrite chk_plain in G by discriminate. apply by_intro; [auto with still|exact G]. Qed.
Lemma by_amp h r x y c cf : isrel h r KSpec x y c cf -> by_value h (h_amp A V F r) KRel (val_amp A V F c).
Proof. apply by_map. Qed.
Lemma by_phase h r x y c cf : isrel h r KSpec x y c cf -> by_value h (h_phase A V F r) KRel (val_phase A V F c).
Proof. apply by_map. Qed.
Lemma by_exp h r x y c cf : isrel h r KRel x y c cf -> by_value h (h_exp A V F r) KRel (rel_map A V (vf_exp A V F) c).
Proof.
  intros Hi. unfold by_value, h_exp. eapply rel_bind; [exact Hi|]. intros o _ -> _ _ _.
  pose proof (map_spec A V L0 h r KRel (map (vf_exp A V F)) _ _ _ _ _ Hi) as G.
  cbv zeta in G. rewrite chk_plain in G by discriminate. apply by_intro; [auto with still|exact G].
Qed.
Lemma by_num h o r b x y c : isrel h r KRel x y c (h_cfg h) ->
  by_value h (h_operator A V o r (HVal (OVal b))) KRel (rel_op_num A V (hc_base (h_cfg h)) o c (OVal b)).
Proof.
  intros Hi. apply operator_num. pose proof (op_num_spec A V L0 h o r (OVal b) _ _ _ _ _ Hi) as H.
  cbv zeta in H. rewrite chk_plain in H by discriminate. apply by_intro; [auto with still|exact H].
Qed.
Lemma by_op h o r1 r2 x1 y1 c1 x2 y2 c2 : isrel h r1 KRel x1 y1 c1 (h_cfg h) -> isrel h r2 KRel x2 y2 c2 (h_cfg h) ->
  x1 <> x2 -> by_value h (h_operator A V o r1 (HRel r2)) KRel (rel_op A V (hc_base (h_cfg h)) o false c1 c2).
Proof.
  intros H1 H2 N. assert (G : by_value h (h_operation A V o r1 (HRel r2)) KRel (rel_op A V (hc_base (h_cfg h)) o false c1 c2)).
  { pose proof (op_rel_spec A V L0 h o r1 r2 _ _ _ _ _ _ _ _ _ _ H1 H2) as G. cbv zeta in G.
    apply Nat.eqb_neq in N. rewrite N in G. rewrite op_val_rel in G by discriminate. apply by_intro; [auto with still|exact G]. }
  unfold by_value, h_operator. eapply rel_bind; [exact H1|]. intros o1 _ E _ _ _. rewrite E.
  destruct (converting o); exact G.
Qed.
Lemma by_new h r0 k0 x0 y0 c cf k : isrel h r0 k0 x0 y0 c cf -> by_value h (new_plain A V k (XaRel r0) None None) k (Ok c).
Proof.
  intros Hi. apply by_intro; [auto with still|]. eapply ok_weaken; [eapply new_plain_rel; [exact Hi|intros ? [=]]| |contradiction].
  cbn. intros r h' _ _ (x & Hx & (yl & H1 & H2 & H3) & _). exists c. split; auto. exists x, yl. repeat split; auto.
Qed.
Lemma bind_ok_r {T} (v : result T) : (do c <- v; Ok c) = v.
Proof. destruct v; reflexivity. Qed.
Lemma isrel_lt h r k x y c cf : isrel h r k x y c cf -> x < length (h_ax h).
Proof. intros (o & ax & _ & _ & _ & _ & _ & Hx & _). eapply nth_lt; eauto. Qed.
Lemma move h h1 r k x y c : ext h h1 -> isrel h r k x y c (h_cfg h) -> isrel h1 r k x y c (h_cfg h1).
Proof. intros X H. rewrite (ext_cfg _ _ _ _ _ X). eapply isrel_ext; eauto. Qed.

Lemma by_from h am ph xa ya a xp yp p : isrel h am KRel xa ya a (h_cfg h) -> isrel h ph KRel xp yp p (h_cfg h) ->
  by_value h (h_from_amp_phase A V F am ph) KSpec (val_from_amp_phase A V F (h_cfg h) a p).
Proof.
  intros Ha Hp. unfold h_from_amp_phase, val_from_amp_phase.
  apply by_seq with (k := KRel); [apply (by_num _ _ _ _ _ _ _ Hp)|]. intros ic h1 i x1 y1 _ W1 X1 Hi Hx1.
  apply by_seq with (k := KRel); [eapply by_exp; exact Hi|]. intros ec h2 e x2 y2 _ W2 X2 He Hx2.
  eapply by_eq; [reflexivity| |].
  { symmetry. apply bind_ok_r. }
  pose proof (ext_trans _ _ _ _ _ _ X1 X2) as X.
  rewrite <- (ext_cfg _ _ _ _ _ X).
  apply by_seq with (k := KRel).
  { eapply by_op; [eapply move; eauto|exact He|]. pose proof (isrel_lt _ _ _ _ _ _ _ Ha). pose proof (ext_ax_len _ _ _ _ _ X1). lia. }
  intros c3 h3 r3 x3 y3 _ W3 X3 H3 _. eapply by_new. exact H3.
Qed.

(** the part of [Spectrum.add_phase] after the conversion of the argument *)
Definition phase_body (o : mathop) (r so : loc) : M loc :=
  bind' (h_amp A V F r) (fun am => bind' (h_phase A V F r) (fun p1 => bind' (h_phase A V F so) (fun p2 =>
    bind' (h_operator A V o p1 (HRel p2)) (fun p => h_from_amp_phase A V F am p)))).
Lemma by_body h o r so x1 y1 c1 cf1 x2 y2 c2 cf2 : isrel h r KSpec x1 y1 c1 cf1 -> isrel h so KSpec x2 y2 c2 cf2 ->
  by_value h (phase_body o r so) KSpec (val_spec_phase A V F (h_cfg h) o c1 c2).
Proof.
  intros H1 H2. unfold phase_body, val_spec_phase.
  apply by_seq with (k := KRel); [eapply by_amp; exact H1|]. intros ac h1 am xa ya _ W1 X1 Ha _.
  apply by_seq with (k := KRel); [eapply by_phase; eapply isrel_ext; eauto|]. intros pc1 h2 p1 xp1 yp1 _ W2 X2 Hp1 _.
  pose proof (ext_trans _ _ _ _ _ _ X1 X2) as X.
  apply by_seq with (k := KRel); [eapply by_phase; eapply isrel_ext; eauto|]. intros pc2 h3 p2 xp2 yp2 _ W3 X3 Hp2 Hx.
  pose proof (ext_trans _ _ _ _ _ _ X X3) as X'. rewrite <- (ext_cfg _ _ _ _ _ X').
  apply by_seq with (k := KRel).
  { eapply by_op; [eapply move; [exact X3|exact Hp1]|exact Hp2|]. pose proof (isrel_lt _ _ _ _ _ _ _ Hp1). unfold loc in *. lia. }
  intros pc h4 pp xp yp _ W4 X4 Hp _.
  rewrite <- (ext_cfg _ _ _ _ _ X4). eapply by_from; [|exact Hp].
  eapply move; [exact X4|]. eapply move; [exact X3|]. eapply move; [exact X2|]. exact Ha.
Qed.
Lemma still_num o r b : still (h_operator A V o r (HVal (OVal b))).
Proof. intros h. rewrite operator_num_eq. apply still_operation. Qed.

Lemma by_reverse h r percent subtract f0 f1 x y c cf : isrel h r KSpec x y c cf ->
  by_value h (h_reverse_filter A V F r percent subtract f0 f1) KSpec
    (val_reverse_filter A V F (h_cfg h) percent subtract f0 f1 c).
Proof.
  intros Hr. unfold h_reverse_filter, val_reverse_filter.
  apply by_seq with (k := KSpec).
  { eapply by_on_spec; [exact Hr|]. pose proof (select_spec A V L0 h r f0 f1 _ _ _ _ _ Hr) as G. cbv zeta in G.
    rewrite chk_plain in G by discriminate. apply by_intro; [auto with still|exact G]. }
  intros sc h1 s xs ys _ W1 X1 Hs _.
  apply by_seq with (k := KRel); [eapply by_amp; exact Hs|]. intros ac h2 am xa ya _ W2 X2 Ha _.
  unfold by_value. eapply content_bind; [exact Ha|]. apply by_bind. intros mx Emx.
  pose proof (ext_trans _ _ _ _ _ _ X1 X2) as X. rewrite <- (ext_cfg _ _ _ _ _ X).
  apply by_seq with (k := KRel); [eapply by_num; exact Ha|]. intros ac2 h3 am2 xa2 ya2 _ W3 X3 Ha2 _.
  rewrite <- (ext_cfg _ _ _ _ _ X3).
  apply by_seq with (k := KRel); [eapply by_num; exact Ha2|]. intros ic h4 inv xi yi _ W4 X4 Hi _.
  apply by_seq with (k := KRel).
  { eapply by_phase. eapply isrel_ext; [exact X4|]. eapply isrel_ext; [exact X3|]. eapply isrel_ext; [exact X2|]. exact Hs. }
  intros pc h5 ph xp yp _ W5 X5 Hp _. pose proof (ext_trans _ _ _ _ _ _ X4 X5) as X'. rewrite <- (ext_cfg _ _ _ _ _ X').
  apply by_seq with (k := KRel); [eapply by_num; exact Hp|]. intros pc2 h6 ph2 xp2 yp2 _ W6 X6 Hp2 _.
  rewrite <- (ext_cfg _ _ _ _ _ X6). eapply by_from; [|exact Hp2].
  eapply move; [exact X6|]. eapply move; [exact X5|]. exact Hi.
Qed.

(** *** Calls that may remember a conversion for some objects *)
Definition only (P : loc -> Prop) (h h' : heap) : Prop :=
  forall r o, ~ P r -> nrel h r = Some o -> exists o', nrel h' r = Some o' /\ ro_link o' = ro_link o.
Lemma only_refl P h : only P h h.
Proof. intros r o _ H. eauto. Qed.
Lemma only_trans P Q h1 h2 h3 : only P h1 h2 -> only Q h2 h3 ->
  (forall r, r < length (h_rel h1) -> Q r -> P r) -> only P h1 h3.
Proof.
  intros H1 H2 HQ r o N Ho. destruct (H1 r o N Ho) as (o1 & Ho1 & E1).
  destruct (H2 r o1) as (o2 & Ho2 & E2); auto.
  - intros G. apply N, HQ; auto. eapply nth_lt; eauto.
  - exists o2. split; congruence.
Qed.
Lemma links_only P h h' : links h h' -> only P h h'.
Proof. intros H r o _ Ho. apply H. exact Ho. Qed.
Lemma only_imp (P Q : loc -> Prop) h h' : (forall r, P r -> Q r) -> only P h h' -> only Q h h'.
Proof. intros I H r o N Ho. apply H; auto. Qed.

Notation spectrum_seen := (spectrum_seen A V).
Notation argument_seen := (argument_seen A V).
Lemma view_of h r k x y c cf : isrel h r k x y c cf -> rel_view A V h r = Some c.
Proof. intros H. apply (view_isrel A V _ _ _ _ _ _ _ H). Qed.
Lemma view_ext h h' r c : ext h h' -> rel_view A V h r = Some c -> rel_view A V h' r = Some c.
Proof.
  intros X H. destruct (isrel_view A V _ _ _ H) as (k & x & y & cf & Hi & _). eapply view_of. eapply isrel_ext; eauto.
Qed.
Lemma linked_view h r o l : wf h -> nrel h r = Some o -> ro_link o = Some l -> exists c, rel_view A V h l = Some c.
Proof.
  intros W Ho Hl. destruct (wf_link _ _ h W r o l Ho Hl) as (o' & H1 & _).
  destruct (isrel_of _ _ h l o' W H1) as (c & Hc). exists c. eapply view_of; eauto.
Qed.
(** looking again gives the same, unless the call remembered something else *)
Lemma seen_ext P h h1 r : wf h -> ext h h1 -> only P h h1 -> r < length (h_rel h) ->
  (~ P r \/ spectrum_seen h1 r = spectrum_seen h r) -> spectrum_seen h1 r = spectrum_seen h r.
Proof.
  intros W X HO Hlt HP. destruct (nth_some _ _ Hlt) as (o & Ho).
  destruct (isrel_of _ _ h r o W Ho) as (c & Hc). pose proof (view_of _ _ _ _ _ _ _ Hc) as Hv.
  destruct (ext_rel _ _ _ _ _ _ _ X Ho) as (o1 & Ho1 & Ecls & Ex & Ey & Ecf).
  destruct (ro_link o) as [l|] eqn:El.
  - assert (El1 : ro_link o1 = Some l).
    { destruct (fr_rel _ _ _ _ _ _ _ (ext_frame _ _ _ _ _ X) r o Ho) as (o2 & G1 & _ & _ & _ & _ & _ & _ & G).
      assert (o2 = o1) by congruence. subst. apply G; auto. }
    destruct (linked_view h r o l W Ho El) as (s & Hs).
    unfold SignalSpec.spectrum_seen. rewrite Ho, Hv, El, Hs, Ho1, (view_ext _ _ _ _ X Hv), El1, (view_ext _ _ _ _ X Hs). reflexivity.
  - destruct (ro_link o1) as [l1|] eqn:El1.
    + destruct HP as [N|HP]; auto. destruct (HO r o) as (o2 & G1 & G2); auto. congruence.
    + unfold SignalSpec.spectrum_seen. rewrite Ho, Hv, El, Ho1, (view_ext _ _ _ _ X Hv), El1, Ecf. reflexivity.
Qed.

Lemma seen_linked h r o l s : nrel h r = Some o -> ro_link o = Some l -> wf h -> rel_view A V h l = Some s ->
  spectrum_seen h r = Ok s.
Proof.
  intros Ho El W Hs. destruct (isrel_of _ _ h r o W Ho) as (c & Hc). pose proof (view_of _ _ _ _ _ _ _ Hc) as Hv.
  unfold SignalSpec.spectrum_seen. rewrite Ho, Hv, El, Hs. reflexivity.
Qed.
Lemma conv_none h v : conv_val A V h DaNone v = (do pz <- v (DNone A); rel_make A V (fst pz) (snd pz)).
Proof. reflexivity. Qed.

(** [get_spectrum()] *)
Lemma spectrum_bind {U} h r k x y c cf (j : loc -> M U) Q (E : exn -> Prop) : isrel h r k x y c cf -> is_sig k = true ->
  (forall sp h1 xs ys s cfs, wf h1 -> ext h h1 -> isrel h1 sp KSpec xs ys s cfs -> spectrum_seen h r = Ok s ->
     spectrum_seen h1 r = Ok s -> (exists o, nrel h1 r = Some o /\ ro_link o = Some sp) -> only (eq r) h h1 -> ok h1 (j sp) Q E) ->
  (forall e, spectrum_seen h r = Err e -> E e) ->
  ok h (bind' (h_get_spectrum A V r DaNone false) j) Q E.
Proof.
  intros Hi Hk HQ HE. apply ok_wf. intros W.
  destruct (isrel_nrel _ _ _ _ _ _ _ _ _ Hi) as (o & Ho & Ek & Ex & Ey & Ecf). subst k x y cf.
  pose proof (view_of _ _ _ _ _ _ _ Hi) as Hv.
  destruct (ro_link o) as [l|] eqn:El.
  - destruct (wf_link _ _ h W r o l Ho El) as (o' & H1 & Hcl).
    destruct (isrel_of _ _ h l o' W H1) as (s & Hs). pose proof (view_of _ _ _ _ _ _ _ Hs) as Hsv.
    assert (ro_cls o' = KSpec) as Ek' by (destruct Hcl as [[_ G]|[G _]]; [destruct (ro_cls o')|destruct (ro_cls o)]; discriminate || reflexivity).
    rewrite Ek' in Hs. pose proof (seen_linked h r o l s Ho El W Hsv) as Hseen.
    eapply ok_eq with (m := bind' (ret A V l) j).
    { unfold bindM. rewrite (get_spectrum_hit A V h r o l DaNone false Ho Hk El eq_refl). reflexivity. }
    apply ok_ret_bind. eapply HQ; eauto using ext_refl, only_refl.
  - assert (Hseen : spectrum_seen h r = conv_val A V h DaNone (fun d => hc_s2s A V (ro_cfg o) c d false)).
    { unfold SignalSpec.spectrum_seen. rewrite Ho, Hv, El. reflexivity. }
    eapply ok_bind.
    { eapply ok_weaken; [apply (get_spectrum_miss_x A V L0 h r o c DaNone false Ho Hi Hk (or_introl El) (or_introl El))| |].
      - intros r' h' _ _ G. exact G.
      - intros e He. apply HE. congruence. }
    cbn beta. intros sp h1 W1 X1 [(dv & p & z & Hd & Hz & (xs & q & (yl & Hs & _) & _ & Eq) & _ & Hlk & HK) (c' & Hc')].
    assert (Ec : c' = mkRel q z).
    { cbn in Hd. injection Hd as <-. rewrite conv_none, Hz in Hc'. cbn [bind fst snd] in Hc'. rewrite Eq.
      revert Hc'. rewrite rel_make_cases. destruct (axis_size A p); [|discriminate]. destruct (Nat.eqb _ _); [|discriminate].
      intros Hc'. injection Hc' as <-. reflexivity. }
    rewrite Ec, <- Hseen in Hc'.
    eapply HQ; eauto.
    + eapply seen_linked; [exact Hlk|reflexivity|exact W1|]. eapply view_of; eauto.
    + intros r1 o1 N Ho1. exists o1. split; auto.
Qed.

(** the end of the signal methods: back to a signal on the signal's own axis object, class [k] *)
Definition to_class (k : cls) (s x : loc) : M loc :=
  bind' (h_get_signal A V s (DaAxis x) None) (fun sg => construct A V k (XaRel sg) None).
Notation chk := (chk A V).
Notation byo P h m k v := (ok h m (fun r' h' => (exists c', v = Ok c' /\ res h h' r' k c' (h_cfg h)) /\ only P h h') (fun e => v = Err e)).
Lemma to_class_spec h s xs ys sc k x ax n : isrel h s KSpec xs ys sc (h_cfg h) -> unlinked A V h s ->
  nax h x = Some ax -> axis_size A (ao_p ax) = Ok n -> keeps_axis A V (h_cfg h) ->
  byo (eq s) h (to_class k s x) k (chk k (h_scfg h) (val_signal A V (h_cfg h) sc (DAxis A (ao_p ax)) None)).
Proof.
  intros Hi HU Hax Hn [_ HKA]. apply ok_wf. intros W.
  destruct (isrel_nrel _ _ _ _ _ _ _ _ _ Hi) as (o & Ho & Ek & Ex & Ey & Ecf).
  assert (Hi' : isrel h s (ro_cls o) (ro_x o) (ro_y o) sc (ro_cfg o)) by congruence.
  assert (Hconv : conv_val A V h (DaAxis x) (fun d => hc_sp2s A V (ro_cfg o) sc d None) =
                  val_signal A V (h_cfg h) sc (DAxis A (ao_p ax)) None).
  { unfold conv_val, dom_val, val_signal. rewrite Hax, Hn, Ecf. cbn [bind].
    destruct (hc_sp2s A V (h_cfg h) sc (DAxis A (ao_p ax)) None) as [[p z]|e] eqn:E; cbn [bind fst snd]; [|reflexivity].
    rewrite (HKA _ _ _ _ _ E). reflexivity. }
  unfold to_class. eapply ok_bind.
  { eapply ok_weaken; [apply (get_signal_miss_x A V L0 h s o sc (DaAxis x) None Ho Hi')| |].
    - rewrite Ek. reflexivity.
    - left. apply HU. exact Ho.
    - left. apply HU. exact Ho.
    - intros r' h' _ _ G. exact G.
    - intros e He. cbn beta in He. rewrite Hconv in He. rewrite He. destruct k; reflexivity. }
  cbn beta. rewrite Hconv. intros sg h1 W1 X1 [(dv & p & z & Hd & Hz & (xg & q & (yl & Hs & _) & _ & oa & Hoa & Eq) & _ & Hlk & HK) (c' & Hc')].
  assert (Ec : c' = mkRel q z).
  { rewrite <- Hconv in Hc'. unfold conv_val in Hc'. rewrite Hd in Hc'. cbn [bind] in Hc'. rewrite Hz in Hc'. cbn [bind fst snd] in Hc'.
    cbn in Hd. rewrite Hax, Hn in Hd. injection Hd as <-.
    rewrite rel_make_cases in Hc'. destruct (axis_size A (ao_p ax)); [|discriminate]. destruct (Nat.eqb _ _); [|discriminate].
    injection Hc' as <-. congruence. }
  subst c'. rewrite Hc'. cbn [bind].
  eapply ok_weaken; [eapply ok_still; [apply still_construct|eapply construct_rel; exact Hs]| |].
  - cbn beta. intros r' h' W' X' [(x' & Hx & Hm & _ & E) HL]. rewrite (ext_scfg _ _ _ _ _ X1) in E. split.
    + exists (mkRel q z). split; [exact E|]. eapply made_res; [exact X1| |exact Hm].
      pose proof (ext_ax_len _ _ _ _ _ X1). lia.
    + eapply only_trans; [|apply links_only with (P := L0); exact HL|contradiction].
      intros r1 o1 N Ho1. exists o1. split; auto.
  - cbn beta. rewrite (ext_scfg _ _ _ _ _ X1). auto.
Qed.

(** the argument as a spectrum *)
Lemma argument_bind {U} h r k x y c cf (j : loc -> M U) Q (E : exn -> Prop) : isrel h r k x y c cf ->
  (forall so h1 xs ys s cfs, wf h1 -> ext h h1 -> isrel h1 so KSpec xs ys s cfs -> argument_seen h r = Ok s ->
     only (eq r) h h1 -> ok h1 (j so) Q E) ->
  (forall e, argument_seen h r = Err e -> E e) ->
  ok h (bind' (to_spectrum A V (HRel r)) j) Q E.
Proof.
  intros Hi HQ HE. apply ok_wf. intros W.
  destruct (view_isrel A V _ _ _ _ _ _ _ Hi) as (Hv & Hk & _).
  assert (HA : argument_seen h r = if is_sig k then spectrum_seen h r else Ok c).
  { unfold SignalSpec.argument_seen. rewrite Hk, Hv. reflexivity. }
  unfold to_spectrum. apply ok_assoc. eapply rel_bind; [exact Hi|]. intros o Ho Ek _ _ _. rewrite Ek.
  destruct (is_sig k) eqn:Hs.
  - eapply spectrum_bind; [exact Hi|exact Hs| |].
    + intros sp h1 xs ys s cfs W1 X1 H1 H2 _ _ H3. eapply HQ; eauto. congruence.
    + intros e He. apply HE. congruence.
  - destruct (is_spec k) eqn:Hp.
    + apply ok_ret_bind. destruct k; try discriminate. eapply HQ; eauto using ext_refl, only_refl.
    + eapply ok_bind.
      { eapply ok_weaken; [eapply ok_still; [apply still_new_plain|eapply new_plain_rel; [exact Hi|intros ? [=]]]| |contradiction].
        intros r' h' _ _ G. exact G. }
      cbn beta. intros so h1 W1 X1 [(xs & _ & (ys & H1 & _) & _) HL]. eapply HQ; eauto. apply links_only. exact HL.
Qed.

Lemma ok_fresh_only {T} h h0 (m : M T) P Q E : ext h0 h -> only P h0 h -> 
  ok h m (fun x h' => Q x h' /\ links h h') E -> ok h m (fun x h' => Q x h' /\ only P h0 h') E.
Proof.
  intros X HO H. eapply ok_weaken; [exact H| |auto]. cbn. intros x h' _ _ [H1 H2]. split; auto.
  eapply only_trans; [exact HO|apply links_only with (P := L0); exact H2|contradiction].
Qed.

(** [Spectrum.add_phase], [sub_phase] *)
Lemma spec_phase_spec h o r r2 x y c cf k2 x2 y2 c2 cf2 : isrel h r KSpec x y c cf -> isrel h r2 k2 x2 y2 c2 cf2 ->
  byo (eq r2) h (h_spec_phase A V F o r (HRel r2)) KSpec
    (do t <- argument_seen h r2; val_spec_phase A V F (h_cfg h) o c t).
Proof.
  intros H1 H2. unfold h_spec_phase. eapply argument_bind; [exact H2| |].
  - intros so h1 xs ys s cfs W1 X1 Hs Ea HO. rewrite Ea. cbn [bind].
    pose proof (by_body h1 o r so _ _ _ _ _ _ _ _ (isrel_ext _ _ _ _ _ _ _ _ _ _ _ X1 H1) Hs) as G.
    rewrite (ext_cfg _ _ _ _ _ X1) in G. eapply ok_weaken; [exact G| |auto].
    cbn beta. intros r' h' W' X' [(c' & E1 & HR) HL]. split.
    + exists c'. split; auto. rewrite (ext_cfg _ _ _ _ _ X1) in HR. eapply res_from; eauto.
    + eapply only_trans; [exact HO|apply links_only with (P := L0); exact HL|contradiction].
  - intros e ->. reflexivity.
Qed.

Lemma sig_via h r k x y c cf n (m : loc -> M loc) v (P : loc -> Prop) : isrel h r k x y c cf -> is_sig k = true ->
  axis_size A (r_x c) = Ok n -> keeps_axis A V (h_cfg h) ->
  (forall sp h1 xs ys s cfs, wf h1 -> ext h h1 -> isrel h1 sp KSpec xs ys s cfs -> spectrum_seen h r = Ok s ->
     spectrum_seen h1 r = Ok s -> only (eq r) h h1 ->
     byo P h1 (m sp) KSpec (v s) /\ ok h1 (m sp) (fun r' h' => unlinked A V h' r') anyE) ->
  byo (fun q => q = r \/ P q) h
    (bind' (get_rel A V r) (fun ro => bind' (h_get_spectrum A V r DaNone false) (fun sp =>
       bind' (m sp) (fun s' => to_class (ro_cls ro) s' (ro_x ro)))))
    k (chk k (h_scfg h) (do s <- spectrum_seen h r; do s' <- v s; val_signal A V (h_cfg h) s' (DAxis A (r_x c)) None)).
Proof.
  intros Hi Hk Hn HKA Hm. eapply rel_bind; [exact Hi|]. intros o Ho Ek Ex _ _. rewrite Ek, Ex.
  eapply spectrum_bind; [exact Hi|exact Hk| |].
  2:{ intros e ->. apply chk_err. reflexivity. }
  intros sp h1 xs ys s cfs W1 X1 Hs E0 E1 _ HO. rewrite E0. cbn [bind].
  destruct (Hm sp h1 xs ys s cfs W1 X1 Hs E0 E1 HO) as [G1 G2].
  eapply ok_bind.
  { eapply ok_weaken; [apply (ok_and _ _ _ _ _ _ G1 G2)| |].
    - intros r' h' _ _ G. exact G.
    - intros e [-> _]. apply chk_err. reflexivity. }
  cbn beta. intros s' h2 W2 X2 [[(c' & Ev & x' & y' & Hi' & Hf) HO2] HU]. rewrite Ev. cbn [bind].
  pose proof (ext_trans _ _ _ _ _ _ X1 X2) as X.
  destruct (isrel_ax _ _ _ _ _ _ _ _ _ (isrel_ext _ _ _ _ _ _ _ _ _ _ _ X Hi)) as (ax & Hax & Eax).
  assert (Ecf : h_cfg h2 = h_cfg h) by apply (ext_cfg _ _ _ _ _ X).
  rewrite (ext_cfg _ _ _ _ _ X1), <- Ecf in Hi'.
  assert (Hn' : axis_size A (ao_p ax) = Ok n) by congruence.
  assert (HKA' : keeps_axis A V (h_cfg h2)) by (rewrite Ecf; exact HKA).
  pose proof (to_class_spec h2 s' x' y' c' k x ax n Hi' HU Hax Hn' HKA') as G.
  rewrite Eax, (ext_scfg _ _ _ _ _ X) in G. rewrite Ecf in G.
  eapply ok_weaken; [exact G| |auto].
  cbn beta. intros r' h' W' X' [(c2 & E2 & HR) HO3]. split.
  - exists c2. split; auto. eapply res_from; eauto.
  - eapply only_trans; [|exact HO3|].
    + eapply only_trans with (P := fun q => q = r \/ P q).
      * eapply only_imp; [|exact HO]. intros q <-. auto.
      * exact HO2.
      * intros q _ Hq. auto.
    + intros q Hq <-. destruct Hf as (Hf & _). pose proof (ext_rel_len _ _ _ _ _ X1). unfold loc in *. lia.
Qed.

Lemma seen_arg P h h1 r : wf h -> ext h h1 -> only P h h1 -> r < length (h_rel h) ->
  (~ P r \/ spectrum_seen h1 r = spectrum_seen h r) -> argument_seen h1 r = argument_seen h r.
Proof.
  intros W X HO Hlt HP. pose proof (seen_ext P h h1 r W X HO Hlt HP) as E.
  destruct (nth_some _ _ Hlt) as (o & Ho).
  destruct (isrel_of _ _ h r o W Ho) as (c & Hc). pose proof (isrel_ext _ _ _ _ _ _ _ _ _ _ _ X Hc) as Hc1.
  destruct (view_isrel A V _ _ _ _ _ _ _ Hc) as (V1 & K1 & _). destruct (view_isrel A V _ _ _ _ _ _ _ Hc1) as (V2 & K2 & _).
  unfold SignalSpec.argument_seen. rewrite V1, K1, V2, K2, E. reflexivity.
Qed.

(** [Signal.add_phase], [sub_phase] *)
Lemma sig_phase_spec h o r k x y c cf n r2 k2 x2 y2 c2 cf2 : isrel h r k x y c cf -> is_sig k = true ->
  axis_size A (r_x c) = Ok n -> keeps_axis A V (h_cfg h) -> isrel h r2 k2 x2 y2 c2 cf2 ->
  byo (fun q => q = r \/ r2 = q) h (h_sig_phase A V F o r (HRel r2)) k
    (chk k (h_scfg h) (do s <- spectrum_seen h r; do t <- argument_seen h r2; val_sig_phase A V F (h_cfg h) o c s t)).
Proof.
  intros Hi Hk Hn HKA H2. apply ok_wf. intros W.
  assert (Ev : chk k (h_scfg h) (do s <- spectrum_seen h r; do t <- argument_seen h r2; val_sig_phase A V F (h_cfg h) o c s t) =
    chk k (h_scfg h) (do s <- spectrum_seen h r; do s' <- (do t <- argument_seen h r2; val_spec_phase A V F (h_cfg h) o s t);
      val_signal A V (h_cfg h) s' (DAxis A (r_x c)) None)).
  { destruct (spectrum_seen h r); cbn [bind]; [|reflexivity]. destruct (argument_seen h r2); reflexivity. }
  rewrite Ev.
  eapply (sig_via h r k x y c cf n (fun sp => h_spec_phase A V F o sp (HRel r2))
            (fun s => do t <- argument_seen h r2; val_spec_phase A V F (h_cfg h) o s t) (eq r2)); eauto.
  intros sp h1 xs ys s cfs W1 X1 Hs E0 E1 HO. split.
  - pose proof (spec_phase_spec h1 o sp r2 _ _ _ _ _ _ _ _ _ Hs (isrel_ext _ _ _ _ _ _ _ _ _ _ _ X1 H2)) as G.
    rewrite (seen_arg (eq r) h h1 r2 W X1 HO) in G.
    + rewrite (ext_cfg _ _ _ _ _ X1) in G. rewrite (ext_cfg _ _ _ _ _ X1). exact G.
    + destruct (isrel_nrel _ _ _ _ _ _ _ _ _ H2) as (o2 & Ho2 & _). eapply nth_lt; eauto.
    + destruct (Nat.eq_dec r r2) as [<-|N]; [right; congruence|left; exact N].
  - eapply ok_conseq; [apply spec_phase_any|]. intros r' h' _ _ [_ G]. exact G.
Qed.

(** [Signal.get_reverse_signal] *)
Lemma reverse_signal_spec h r percent subtract f0 f1 k x y c cf n : isrel h r k x y c cf -> is_sig k = true ->
  axis_size A (r_x c) = Ok n -> keeps_axis A V (h_cfg h) ->
  byo (eq r) h (h_reverse_signal A V F r percent subtract f0 f1) k
    (chk k (h_scfg h) (do s <- spectrum_seen h r; val_reverse_signal A V F (h_cfg h) percent subtract f0 f1 c s)).
Proof.
  intros Hi Hk Hn HKA. eapply ok_weaken.
  { eapply (sig_via h r k x y c cf n (fun sp => h_reverse_filter A V F sp percent subtract f0 f1)
            (fun s => val_reverse_filter A V F (h_cfg h) percent subtract f0 f1 s) L0); eauto.
    intros sp h1 xs ys s cfs W1 X1 Hs E0 E1 HO. split.
    - pose proof (by_reverse h1 sp percent subtract f0 f1 _ _ _ _ Hs) as G. rewrite (ext_cfg _ _ _ _ _ X1) in G.
      eapply ok_weaken; [exact G| |auto]. cbn beta. intros r' h' _ _ [H1 H2]. split; auto. apply links_only; auto.
    - eapply ok_conseq; [apply reverse_filter_any|]. intros r' h' _ _ [_ G]. exact G. }
  - cbn beta. intros r' h' _ _ [H1 H2]. split; auto. eapply only_imp; [|exact H2]. intros q [->|[]]. reflexivity.
  - auto.
Qed.

Lemma seen_kept h h1 r o l : wf h -> ext h h1 -> nrel h r = Some o -> ro_link o = Some l ->
  spectrum_seen h1 r = spectrum_seen h r.
Proof.
  intros W X Ho El.
  destruct (isrel_of _ _ h r o W Ho) as (c & Hc). pose proof (view_of _ _ _ _ _ _ _ Hc) as Hv.
  destruct (fr_rel _ _ _ _ _ _ _ (ext_frame _ _ _ _ _ X) r o Ho) as (o1 & Ho1 & _ & _ & _ & _ & _ & _ & G).
  destruct (linked_view h r o l W Ho El) as (s & Hs).
  unfold SignalSpec.spectrum_seen. rewrite Ho, Hv, El, Hs, Ho1, (view_ext _ _ _ _ X Hv), (G l), (view_ext _ _ _ _ X Hs); auto.
Qed.
(** [Signal.shift] *)
Lemma sig_shift_spec h r d k x y c cf n : isrel h r k x y c cf -> is_sig k = true ->
  axis_size A (r_x c) = Ok n -> keeps_axis A V (h_cfg h) ->
  let v := chk k (h_scfg h) (do s <- spectrum_seen h r; val_sig_shift A V F (h_cfg h) d c s) in
  ok h (h_sig_shift A V F r d)
    (fun r' h' => (exists c', v = Ok c' /\ res h h' r' k c' (h_cfg h)) /\ only (eq r) h h' /\
       spectrum_seen h' r = spectrum_seen h r)
    (fun e => v = Err e).
Proof.
  intros Hi Hk Hn HKA. cbv zeta. unfold h_sig_shift. eapply spectrum_bind; [exact Hi|exact Hk| |].
  2:{ intros e ->. apply chk_err. reflexivity. }
  intros sp h1 xs ys s cfs W1 X1 Hs E0 E1 (or & Hor & Elr) HO. rewrite E0. cbn [bind]. unfold val_sig_shift.
  eapply rel_bind; [exact Hs|]. intros so Hso _ Exs _ _. rewrite Exs.
  destruct (isrel_ax _ _ _ _ _ _ _ _ _ Hs) as (ax & Hax & Eax).
  eapply ok_bind.
  { eapply ok_weaken; [eapply ok_still; [apply still_array|eapply array_spec; exact Hax]| |].
    - intros arr h' _ _ G. exact G.
    - cbn beta. rewrite Eax. intros e ->. apply chk_err. reflexivity. }
  cbn beta. intros arr h2 W2 X2 [(Harr & R2 & _) HL2].
  pose proof (isrel_ext _ _ _ _ _ _ _ _ _ _ _ X2 Hs) as Hs2.
  destruct (isrel_ax _ _ _ _ _ _ _ _ _ Hs2) as (ax2 & Hax2 & Eax2).
  rewrite Eax in Harr. rewrite Harr. cbn [bind].
  eapply ok_bind.
  { eapply ok_weaken; [eapply ok_still; [apply still_new_plain|eapply new_plain_axis; [exact Hax2|intros ? [=]]]| |].
    - intros sh h' _ _ G. exact G.
    - cbn beta. rewrite Eax2. intros e ->. apply chk_err. reflexivity. }
  cbn beta. rewrite Eax2. intros sh h3 W3 X3 [(Emk & (ysh & Hsh & Hlt & _) & _) HL3]. rewrite Emk. cbn [bind].
  pose proof (ext_trans _ _ _ _ _ _ X1 (ext_trans _ _ _ _ _ _ X2 X3)) as X.
  assert (HO3 : only (eq r) h h3).
  { eapply only_trans; [exact HO|apply links_only with (P := L0)|contradiction]. eapply links_trans; eauto. }
  assert (Ecf : h_cfg h3 = h_cfg h) by apply (ext_cfg _ _ _ _ _ X).
  assert (HKA' : keeps_axis A V (h_cfg h3)) by (rewrite Ecf; exact HKA).
  pose proof (sig_phase_spec h3 ADD r k x y c cf n sh _ _ _ _ _ (isrel_ext _ _ _ _ _ _ _ _ _ _ _ X Hi) Hk Hn HKA' Hsh) as G.
  assert (Es : spectrum_seen h3 r = Ok s).
  { rewrite <- E1. apply (seen_ext L0); auto.
    - eapply ext_trans; eauto.
    - apply links_only. eapply links_trans; eauto.
    - destruct (isrel_nrel _ _ _ _ _ _ _ _ _ (isrel_ext _ _ _ _ _ _ _ _ _ _ _ X1 Hi)) as (o2 & Ho2 & _). eapply nth_lt; eauto. }
  assert (Ea : argument_seen h3 sh = Ok (mkRel (r_x s) (map (fun f => vf_phasor A V F f d) arr))).
  { destruct (view_isrel A V _ _ _ _ _ _ _ Hsh) as (V1 & K1 & _). unfold SignalSpec.argument_seen. rewrite V1, K1. reflexivity. }
  rewrite Es, Ea, Ecf, (ext_scfg _ _ _ _ _ X) in G. cbn [bind] in G.
  eapply ok_weaken; [exact G| |auto].
  cbn beta. intros r' h' W' X' [(c2 & E2 & HR) HO4]. split; [|split].
  - exists c2. split; auto. eapply res_from; eauto.
  - eapply only_trans; [exact HO3|exact HO4|]. intros q Hq [->| <-]; auto.
    pose proof (ext_rel_len _ _ _ _ _ X1). pose proof (ext_rel_len _ _ _ _ _ X2). unfold loc in *. lia.
  - rewrite <- E1. eapply seen_kept; [exact W1| |exact Hor|exact Elr].
    eapply ext_trans; [exact X2|]. eapply ext_trans; [exact X3|exact X'].
Qed.
End HeapL7.
