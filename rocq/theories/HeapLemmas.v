(** Invariants and frame of the object level: every API call keeps the heap well formed and changes
    no existing axis or sample array, except the assignments that say so. *)
From Coq Require Import ZArith List Bool Lia.
From Verif Require Import Num Numpy AxisModel RelModel HeapModel.
Import ListNotations.

Lemma upd_length {T} (l : list T) i v : length (upd l i v) = length l.
Proof. revert i; induction l as [|a l IH]; intros [|i]; cbn; auto. Qed.
Lemma upd_same {T} (l : list T) i v : i < length l -> nth_error (upd l i v) i = Some v.
Proof. revert i; induction l as [|a l IH]; intros [|i]; cbn; intros H; try lia; auto. apply IH. lia. Qed.
Lemma upd_other {T} (l : list T) i j v : i <> j -> nth_error (upd l i v) j = nth_error l j.
Proof. revert i j; induction l as [|a l IH]; intros [|i] [|j]; cbn; intros H; auto; try lia. Qed.
Lemma nth_lt {T} (l : list T) i v : nth_error l i = Some v -> i < length l.
Proof. intros H. apply nth_error_Some. congruence. Qed.
Lemma nth_app_old {T} (l m : list T) i v : nth_error l i = Some v -> nth_error (l ++ m) i = Some v.
Proof. intros H. rewrite nth_error_app1; auto. eapply nth_lt; eauto. Qed.
Lemma nth_app_new {T} (l : list T) v : nth_error (l ++ [v]) (length l) = Some v.
Proof. rewrite nth_error_app2 by lia. rewrite Nat.sub_diag. reflexivity. Qed.
Lemma nth_app_inv {T} (l : list T) v i w :
  nth_error (l ++ [v]) i = Some w -> nth_error l i = Some w \/ (i = length l /\ w = v).
Proof.
  intros H. destruct (Nat.lt_ge_cases i (length l)) as [Hi|Hi].
  - rewrite nth_error_app1 in H by auto. auto.
  - rewrite nth_error_app2 in H by auto. destruct (i - length l) as [|k] eqn:E.
    + right. cbn in H. split; [lia|congruence].
    + cbn in H. destruct k; discriminate.
Qed.
Lemma nth_upd_inv {T} (l : list T) i v j w :
  nth_error (upd l i v) j = Some w -> (i = j /\ w = v) \/ (i <> j /\ nth_error l j = Some w).
Proof.
  intros H. destruct (Nat.eq_dec i j) as [->|Hne].
  - left. split; auto. rewrite upd_same in H; [congruence|].
    apply nth_lt in H. rewrite upd_length in H. exact H.
  - right. rewrite upd_other in H by auto. auto.
Qed.
Lemma nth_some {T} (l : list T) i : i < length l -> exists v, nth_error l i = Some v.
Proof. intros H. destruct (nth_error l i) eqn:E; eauto. apply nth_error_None in E. lia. Qed.

Section HeapL.
Context (A : Arith) (V : Vals A) (L : loc -> Prop).
Notation num := (num A).
Notation val := (val V).
Notation axis := (axis A).
Notation rel := (rel A V).
Notation heap := (heap A V).
Notation M := (M A V).
Notation nax h a := (nth_error (h_ax h) a).
Notation nrel h r := (nth_error (h_rel h) r).
Notation ny h l := (nth_error (h_yarr h) l).
Notation nf h l := (nth_error (h_farr h) l).

(** ** Well-formed heaps *)
Record wf (h : heap) : Prop := mkWf {
  wf_cache : forall a o l, nax h a = Some o -> ao_cache o = Some l ->
    exists arr, nf h l = Some arr /\ axis_array A (ao_p o) = Ok arr;
  wf_as : forall a o v, nax h a = Some o -> ao_as o = Some v ->
    exists arr, axis_array A (ao_p o) = Ok arr /\ actual_sample A arr = Ok v;
  wf_x : forall r o, nrel h r = Some o -> ro_x o < length (h_ax h);
  wf_y : forall r o, nrel h r = Some o -> ro_y o < length (h_yarr h);
  wf_inj : forall r1 r2 o1 o2, nrel h r1 = Some o1 -> nrel h r2 = Some o2 -> ro_y o1 = ro_y o2 -> r1 = r2;
  wf_link : forall r o l, nrel h r = Some o -> ro_link o = Some l ->
    exists o', nrel h l = Some o' /\
      ((is_sig (ro_cls o) = true /\ is_spec (ro_cls o') = true) \/
       (is_spec (ro_cls o) = true /\ is_sig (ro_cls o') = true));
  wf_ft : forall r o l, nrel h r = Some o -> ro_ft o = Some l -> l < length (h_rel h);
  wf_at : forall r o l, nrel h r = Some o -> ro_at o = Some l -> l < length (h_rel h);
  wf_gen : forall g o a, nth_error (h_gen h) g = Some o -> g_time o = Some a -> a < length (h_ax h)
}.

(** ** Frame: [h'] contains [h]; axes outside [P], sample arrays outside [Q], and conversion caches once
    filled of relations outside [L], are unchanged. *)
Record frame (P Q : loc -> Prop) (h h' : heap) : Prop := mkFrame {
  fr_f : forall l v, nf h l = Some v -> nf h' l = Some v;
  fr_y : forall l v, ~ Q l -> ny h l = Some v -> ny h' l = Some v;
  fr_ylen : length (h_yarr h) <= length (h_yarr h');
  fr_ax : forall a o, nax h a = Some o -> exists o', nax h' a = Some o' /\ (~ P a -> ao_p o' = ao_p o);
  fr_rel : forall r o, nrel h r = Some o -> exists o', nrel h' r = Some o' /\
     ro_cls o' = ro_cls o /\ ro_x o' = ro_x o /\ ro_y o' = ro_y o /\ ro_cfg o' = ro_cfg o /\
     (forall l, ro_ft o = Some l -> ro_ft o' = Some l) /\ (forall l, ro_at o = Some l -> ro_at o' = Some l) /\
     (forall l, ~ L r -> ro_link o = Some l -> ro_link o' = Some l);
  fr_gen : forall g o, nth_error (h_gen h) g = Some o -> nth_error (h_gen h') g = Some o
}.
Record ext (h h' : heap) : Prop := mkExt {
  ext_frame : frame (fun _ => False) (fun _ => False) h h';
  ext_cfg : h_cfg h' = h_cfg h;
  ext_scfg : h_scfg h' = h_scfg h
}.

Lemma len_le {T} (l m : list T) : (forall i v, nth_error l i = Some v -> exists w, nth_error m i = Some w) ->
  length l <= length m.
Proof.
  intros H. destruct (Nat.le_gt_cases (length l) (length m)) as [|Hgt]; auto. exfalso.
  destruct (nth_some l (length m) Hgt) as [v Hv]. destruct (H _ _ Hv) as [w Hw].
  apply nth_lt in Hw. lia.
Qed.

Lemma frame_refl P Q h : frame P Q h h.
Proof. constructor; intros; eauto. eexists; split; eauto. repeat split; auto. Qed.
Lemma frame_trans P Q h1 h2 h3 : frame P Q h1 h2 -> frame P Q h2 h3 -> frame P Q h1 h3.
Proof.
  intros H1 H2. constructor.
  - intros. apply (fr_f _ _ _ _ H2), (fr_f _ _ _ _ H1). assumption.
  - intros. apply (fr_y _ _ _ _ H2), (fr_y _ _ _ _ H1); assumption.
  - etransitivity; [apply (fr_ylen _ _ _ _ H1)|apply (fr_ylen _ _ _ _ H2)].
  - intros a o Ho. destruct (fr_ax _ _ _ _ H1 a o Ho) as (o1 & Ho1 & E1).
    destruct (fr_ax _ _ _ _ H2 a o1 Ho1) as (o2 & Ho2 & E2). exists o2. split; auto.
    intros N. rewrite E2, E1; auto.
  - intros r o Ho. destruct (fr_rel _ _ _ _ H1 r o Ho) as (o1 & Ho1 & A1 & A2 & A3 & A4 & A5 & A6 & A7).
    destruct (fr_rel _ _ _ _ H2 r o1 Ho1) as (o2 & Ho2 & B1 & B2 & B3 & B4 & B5 & B6 & B7).
    exists o2. split; auto. repeat split; try congruence; auto.
  - intros. apply (fr_gen _ _ _ _ H2), (fr_gen _ _ _ _ H1). assumption.
Qed.
Lemma frame_weaken (P Q P' Q' : loc -> Prop) h h' :
  (forall l, P l -> P' l) -> (forall l, Q l -> Q' l) -> frame P Q h h' -> frame P' Q' h h'.
Proof.
  intros HP HQ H. constructor.
  - apply (fr_f _ _ _ _ H).
  - intros l v N. apply (fr_y _ _ _ _ H). intros q. apply N, HQ, q.
  - apply (fr_ylen _ _ _ _ H).
  - intros a o Ho. destruct (fr_ax _ _ _ _ H a o Ho) as (o1 & Ho1 & E1). exists o1. split; auto.
  - apply (fr_rel _ _ _ _ H).
  - apply (fr_gen _ _ _ _ H).
Qed.
Lemma ext_refl h : ext h h.
Proof. constructor; auto. apply frame_refl. Qed.
Lemma ext_trans h1 h2 h3 : ext h1 h2 -> ext h2 h3 -> ext h1 h3.
Proof.
  intros [f1 c1 s1] [f2 c2 s2]. constructor; try congruence. eapply frame_trans; eauto.
Qed.
Lemma frame_ax_len P Q h h' : frame P Q h h' -> length (h_ax h) <= length (h_ax h').
Proof. intros H. apply len_le. intros i v Hv. destruct (fr_ax _ _ _ _ H i v Hv) as (o & Ho & _). eauto. Qed.
Lemma frame_rel_len P Q h h' : frame P Q h h' -> length (h_rel h) <= length (h_rel h').
Proof. intros H. apply len_le. intros i v Hv. destruct (fr_rel _ _ _ _ H i v Hv) as (o & Ho & _). eauto. Qed.
Lemma frame_f_len P Q h h' : frame P Q h h' -> length (h_farr h) <= length (h_farr h').
Proof. intros H. apply len_le. intros i v Hv. pose proof (fr_f _ _ _ _ H i v Hv). eauto. Qed.

Lemma ext_ax h h' a o : ext h h' -> nax h a = Some o -> exists o', nax h' a = Some o' /\ ao_p o' = ao_p o.
Proof.
  intros [H _ _] Ho. destruct (fr_ax _ _ _ _ H a o Ho) as (o' & Ho' & E). exists o'. split; auto.
Qed.
Lemma ext_y h h' l v : ext h h' -> ny h l = Some v -> ny h' l = Some v.
Proof. intros [H _ _] Ho. apply (fr_y _ _ _ _ H); auto. Qed.
Lemma ext_f h h' l v : ext h h' -> nf h l = Some v -> nf h' l = Some v.
Proof. intros [H _ _] Ho. apply (fr_f _ _ _ _ H); auto. Qed.
Lemma ext_rel h h' r o : ext h h' -> nrel h r = Some o -> exists o', nrel h' r = Some o' /\
  ro_cls o' = ro_cls o /\ ro_x o' = ro_x o /\ ro_y o' = ro_y o /\ ro_cfg o' = ro_cfg o.
Proof.
  intros [H _ _] Ho. destruct (fr_rel _ _ _ _ H r o Ho) as (o' & Ho' & E1 & E2 & E3 & E4 & _).
  exists o'. auto.
Qed.
Lemma ext_ax_len h h' : ext h h' -> length (h_ax h) <= length (h_ax h').
Proof. intros [H _ _]. eapply frame_ax_len; eauto. Qed.
Lemma ext_rel_len h h' : ext h h' -> length (h_rel h) <= length (h_rel h').
Proof. intros [H _ _]. eapply frame_rel_len; eauto. Qed.
Lemma ext_y_len h h' : ext h h' -> length (h_yarr h) <= length (h_yarr h').
Proof. intros [H _ _]. apply (fr_ylen _ _ _ _ H). Qed.

(** ** Program logic *)
Definition ok {T} (h : heap) (m : M T) (Q : T -> heap -> Prop) (E : exn -> Prop) : Prop :=
  wf h -> let rh := m h in
  wf (snd rh) /\ ext h (snd rh) /\ match fst rh with Ok x => Q x (snd rh) | Err e => E e end.

Lemma ok_ret {T} h (x : T) (Q : T -> heap -> Prop) E : (wf h -> Q x h) -> ok h (ret A V x) Q E.
Proof. intros H W. cbn. auto using ext_refl. Qed.
Lemma ok_fail {T} h e (Q : T -> heap -> Prop) (E : exn -> Prop) : (wf h -> E e) -> ok h (fail A V e) Q E.
Proof. intros H W. cbn. auto using ext_refl. Qed.
Lemma ok_lift {T} h (r : result T) (Q : T -> heap -> Prop) (E : exn -> Prop) :
  (forall x, r = Ok x -> Q x h) -> (forall e, r = Err e -> E e) -> ok h (lift A V r) Q E.
Proof. intros H1 H2 W. cbn. destruct r; auto using ext_refl. Qed.
Lemma ok_bind {T U} h (m : M T) (k : T -> M U) Q1 Q E :
  ok h m Q1 E ->
  (forall x h1, wf h1 -> ext h h1 -> Q1 x h1 -> ok h1 (k x) Q E) ->
  ok h (bindM A V m k) Q E.
Proof.
  intros Hm Hk W. specialize (Hm W). unfold bindM in *. destruct (m h) as [[x|e] h1] eqn:Em; cbn in *.
  - destruct Hm as (W1 & X1 & q). specialize (Hk x h1 W1 X1 q W1). cbn in Hk.
    destruct (k x h1) as [r h2]. cbn in *. destruct Hk as (W2 & X2 & q2). split; auto. split; auto.
    eapply ext_trans; eauto.
  - exact Hm.
Qed.
Lemma ok_weaken {T} h (m : M T) (Q Q' : T -> heap -> Prop) (E E' : exn -> Prop) :
  ok h m Q E -> (forall x h', wf h' -> ext h h' -> Q x h' -> Q' x h') -> (forall e, E e -> E' e) -> ok h m Q' E'.
Proof.
  intros H HQ HE W. specialize (H W). cbn in *. destruct (m h) as [[x|e] h']; cbn in *; intuition.
Qed.
Lemma ok_conseq {T} h (m : M T) (Q Q' : T -> heap -> Prop) (E : exn -> Prop) :
  ok h m Q E -> (forall x h', wf h' -> ext h h' -> Q x h' -> Q' x h') -> ok h m Q' E.
Proof. intros H HQ. eapply ok_weaken; eauto. Qed.
Lemma ok_wf {T} h (m : M T) Q E : (wf h -> ok h m Q E) -> ok h m Q E.
Proof. intros H W. apply H; auto. Qed.
Definition anyE : exn -> Prop := fun _ => True.
Definition anyQ {T} : T -> heap -> Prop := fun _ _ => True.

Lemma ok_rd {T} (st : heap -> list T) h l (Q : T -> heap -> Prop) (E : exn -> Prop) :
  (forall o, nth_error (st h) l = Some o -> Q o h) -> (nth_error (st h) l = None -> E EDangling) ->
  ok h (rd A V st l) Q E.
Proof.
  intros H1 H2 W. unfold rd. destruct (nth_error (st h) l) eqn:En; cbn; auto using ext_refl.
Qed.
(** reading in the middle of a program *)
Lemma ok_rd_bind {T U} (st : heap -> list T) h l (k : T -> M U) Q (E : exn -> Prop) :
  (forall o, nth_error (st h) l = Some o -> ok h (k o) Q E) ->
  (nth_error (st h) l = None -> E EDangling) ->
  ok h (bindM A V (rd A V st l) k) Q E.
Proof.
  intros H1 H2 W. unfold bindM, rd. destruct (nth_error (st h) l) eqn:En; cbn.
  - apply (H1 _ eq_refl W).
  - auto using ext_refl.
Qed.
Lemma ok_lift_bind {T U} h (r : result T) (k : T -> M U) Q (E : exn -> Prop) :
  (forall x, r = Ok x -> ok h (k x) Q E) -> (forall e, r = Err e -> E e) ->
  ok h (bindM A V (lift A V r) k) Q E.
Proof.
  intros H1 H2 W. unfold bindM, lift. destruct r as [x|e]; cbn; [apply (H1 _ eq_refl W)|].
  auto using ext_refl.
Qed.
Lemma ok_ret_bind {T U} h (x : T) (k : T -> M U) Q E :
  ok h (k x) Q E -> ok h (bindM A V (ret A V x) k) Q E.
Proof. intros H W. apply (H W). Qed.
Lemma ok_cfg_bind {U} h (k : hconfig A V -> M U) Q E :
  ok h (k (h_cfg h)) Q E -> ok h (bindM A V (get_cfg A V) k) Q E.
Proof. intros H W. apply (H W). Qed.
Lemma ok_scfg_bind {U} h (k : sconfig A V -> M U) Q E :
  ok h (k (h_scfg h)) Q E -> ok h (bindM A V (get_scfg A V) k) Q E.
Proof. intros H W. apply (H W). Qed.
Lemma bind_assoc {T U W} (m : M T) (k : T -> M U) (j : U -> M W) h :
  bindM A V (bindM A V m k) j h = bindM A V m (fun x => bindM A V (k x) j) h.
Proof. unfold bindM. destruct (m h) as [[x|e] h1]; reflexivity. Qed.
Lemma ok_eq {T} h (m m' : M T) Q E : m h = m' h -> ok h m Q E -> ok h m' Q E.
Proof. intros He H W. specialize (H W). cbn in *. rewrite <- He. exact H. Qed.
Lemma ok_assoc {T U W} h (m : M T) (k : T -> M U) (j : U -> M W) Q E :
  ok h (bindM A V m (fun x => bindM A V (k x) j)) Q E -> ok h (bindM A V (bindM A V m k) j) Q E.
Proof. intros H. eapply ok_eq; [|exact H]. symmetry. apply bind_assoc. Qed.

(** ** Stores: allocation *)
Ltac wfcases H := first [apply nth_app_inv in H | apply nth_upd_inv in H].

Lemma wf_alloc_f h v : wf h -> wf (with_farr A V h (h_farr h ++ [v])).
Proof.
  intros W. constructor; cbn; try apply W.
  intros a o l Ho Hl. destruct (wf_cache h W a o l Ho Hl) as (arr & Hf & Ha).
  exists arr. split; auto. apply nth_app_old; auto.
Qed.
Lemma ext_alloc_f h v : ext h (with_farr A V h (h_farr h ++ [v])).
Proof.
  constructor; cbn; auto. constructor; cbn; auto; intros; eauto using nth_app_old.
  eexists; split; eauto. repeat split; auto.
Qed.
Lemma wf_alloc_y h v : wf h -> wf (with_yarr A V h (h_yarr h ++ [v])).
Proof.
  intros W. constructor; cbn; try apply W.
  intros r o Ho. rewrite app_length. pose proof (wf_y h W r o Ho). lia.
Qed.
Lemma ext_alloc_y h v : ext h (with_yarr A V h (h_yarr h ++ [v])).
Proof.
  constructor; cbn; auto. constructor; cbn; auto; intros; eauto using nth_app_old.
  - rewrite app_length; lia.
  - eexists; split; eauto. repeat split; auto.
Qed.
(** an axis object whose caches are coherent *)
Definition good_ax (h : heap) (o : axobj A) : Prop :=
  (forall l, ao_cache o = Some l -> exists arr, nf h l = Some arr /\ axis_array A (ao_p o) = Ok arr) /\
  (forall v, ao_as o = Some v -> exists arr, axis_array A (ao_p o) = Ok arr /\ actual_sample A arr = Ok v).
Lemma wf_good h a o : wf h -> nax h a = Some o -> good_ax h o.
Proof. intros W Ho. split; intros; [eapply wf_cache|eapply wf_as]; eauto. Qed.
Lemma good_new h p : good_ax h (mkAx p None None).
Proof. split; cbn; discriminate. Qed.
Lemma wf_alloc_ax h o : wf h -> good_ax h o -> wf (with_ax A V h (h_ax h ++ [o])).
Proof.
  intros W [G1 G2]. constructor; cbn; try apply W.
  - intros a o' l Ho Hl. apply nth_app_inv in Ho. destruct Ho as [Ho|[-> ->]]; [eapply wf_cache; eauto|auto].
  - intros a o' l Ho Hl. apply nth_app_inv in Ho. destruct Ho as [Ho|[-> ->]]; [eapply wf_as; eauto|auto].
  - intros r o' Ho. rewrite app_length. pose proof (wf_x h W r o' Ho). lia.
  - intros g o' a Ho Ha. rewrite app_length. pose proof (wf_gen h W g o' a Ho Ha). lia.
Qed.
Lemma ext_alloc_ax h o : ext h (with_ax A V h (h_ax h ++ [o])).
Proof.
  constructor; cbn; auto. constructor; cbn; auto; intros; eauto using nth_app_old.
  eexists; split; eauto. repeat split; auto.
Qed.
Lemma wf_alloc_rel h o : wf h -> ro_x o < length (h_ax h) -> ro_y o < length (h_yarr h) ->
  (forall r o', nrel h r = Some o' -> ro_y o' <> ro_y o) ->
  (forall l, ro_link o = Some l -> exists o', nrel h l = Some o' /\
      ((is_sig (ro_cls o) = true /\ is_spec (ro_cls o') = true) \/
       (is_spec (ro_cls o) = true /\ is_sig (ro_cls o') = true))) ->
  (forall l, ro_ft o = Some l -> l < length (h_rel h)) -> (forall l, ro_at o = Some l -> l < length (h_rel h)) ->
  wf (with_rel A V h (h_rel h ++ [o])).
Proof.
  intros W Hx Hy Hi Hl Hf Ha. constructor; cbn; try apply W.
  - intros r o' Ho. apply nth_app_inv in Ho. destruct Ho as [Ho|[-> ->]]; auto. eapply wf_x; eauto.
  - intros r o' Ho. apply nth_app_inv in Ho. destruct Ho as [Ho|[-> ->]]; auto. eapply wf_y; eauto.
  - intros r1 r2 o1 o2 H1 H2 E. apply nth_app_inv in H1. apply nth_app_inv in H2.
    destruct H1 as [H1|[-> ->]], H2 as [H2|[-> ->]]; auto.
    + eapply wf_inj; eauto.
    + exfalso. eapply Hi; eauto.
    + exfalso. eapply Hi; eauto.
  - intros r o' l Ho Hk. apply nth_app_inv in Ho. destruct Ho as [Ho|[-> ->]].
    + destruct (wf_link h W r o' l Ho Hk) as (o2 & Ho2 & C). exists o2. split; auto using nth_app_old.
    + destruct (Hl l Hk) as (o2 & Ho2 & C). exists o2. split; auto using nth_app_old.
  - intros r o' l Ho Hk. rewrite app_length. apply nth_app_inv in Ho. destruct Ho as [Ho|[-> ->]].
    + pose proof (wf_ft h W r o' l Ho Hk). lia.
    + pose proof (Hf l Hk). lia.
  - intros r o' l Ho Hk. rewrite app_length. apply nth_app_inv in Ho. destruct Ho as [Ho|[-> ->]].
    + pose proof (wf_at h W r o' l Ho Hk). lia.
    + pose proof (Ha l Hk). lia.
Qed.
Lemma ext_alloc_rel h o : ext h (with_rel A V h (h_rel h ++ [o])).
Proof.
  constructor; cbn; auto. constructor; cbn; auto; intros; eauto using nth_app_old.
  eexists; split; eauto using nth_app_old. repeat split; auto.
Qed.
(** replacing a relation object by one with the same class, axis, samples and configuration *)
Lemma wf_put_rel h r o o' : wf h -> nrel h r = Some o ->
  ro_cls o' = ro_cls o -> ro_x o' = ro_x o -> ro_y o' = ro_y o ->
  (forall l, ro_link o' = Some l -> exists o2, nrel h l = Some o2 /\
      ((is_sig (ro_cls o) = true /\ is_spec (ro_cls o2) = true) \/
       (is_spec (ro_cls o) = true /\ is_sig (ro_cls o2) = true))) ->
  (forall l, ro_ft o' = Some l -> l < length (h_rel h)) -> (forall l, ro_at o' = Some l -> l < length (h_rel h)) ->
  wf (with_rel A V h (upd (h_rel h) r o')).
Proof.
  intros W Ho Ec Ex Ey Hl Hf Ha. pose proof (nth_lt _ _ _ Ho) as Hr.
  assert (key : forall r' o2, nth_error (upd (h_rel h) r o') r' = Some o2 ->
     exists o1, nrel h r' = Some o1 /\ ro_cls o2 = ro_cls o1 /\ ro_x o2 = ro_x o1 /\ ro_y o2 = ro_y o1).
  { intros r' o2 H. apply nth_upd_inv in H. destruct H as [[-> ->]|[_ H]]; [exists o|exists o2]; auto. }
  assert (link : forall r' o1, nrel h r' = Some o1 -> exists o2,
     nth_error (upd (h_rel h) r o') r' = Some o2 /\ ro_cls o2 = ro_cls o1).
  { intros r' o1 H. destruct (Nat.eq_dec r r') as [->|Hne].
    - exists o'. rewrite upd_same by auto. split; auto. congruence.
    - exists o1. rewrite upd_other by auto. auto. }
  constructor; cbn; try apply W.
  - intros r' o2 H. destruct (key r' o2 H) as (o1 & H1 & _ & E & _). rewrite E. eapply wf_x; eauto.
  - intros r' o2 H. destruct (key r' o2 H) as (o1 & H1 & _ & _ & E). rewrite E. eapply wf_y; eauto.
  - intros r1 r2 o1 o2 H1 H2 E. destruct (key _ _ H1) as (p1 & P1 & _ & _ & E1).
    destruct (key _ _ H2) as (p2 & P2 & _ & _ & E2). eapply wf_inj; eauto. congruence.
  - intros r' o2 l H Hk. apply nth_upd_inv in H. destruct H as [[-> ->]|[_ H]].
    + destruct (Hl l Hk) as (o3 & H3 & C). destruct (link _ _ H3) as (o4 & H4 & E4).
      exists o4. split; auto. rewrite Ec, E4. auto.
    + destruct (wf_link h W _ _ l H Hk) as (o3 & H3 & C). destruct (link _ _ H3) as (o4 & H4 & E4).
      exists o4. split; auto. rewrite E4. auto.
  - intros r' o2 l H Hk. rewrite upd_length. apply nth_upd_inv in H. destruct H as [[-> ->]|[_ H]]; auto.
    eapply wf_ft; eauto.
  - intros r' o2 l H Hk. rewrite upd_length. apply nth_upd_inv in H. destruct H as [[-> ->]|[_ H]]; auto.
    eapply wf_at; eauto.
Qed.
Lemma frame_put_rel P Q h r o o' : nrel h r = Some o ->
  ro_cls o' = ro_cls o -> ro_x o' = ro_x o -> ro_y o' = ro_y o -> ro_cfg o' = ro_cfg o ->
  (forall l, ro_ft o = Some l -> ro_ft o' = Some l) -> (forall l, ro_at o = Some l -> ro_at o' = Some l) ->
  (forall l, ~ L r -> ro_link o = Some l -> ro_link o' = Some l) ->
  frame P Q h (with_rel A V h (upd (h_rel h) r o')).
Proof.
  intros Ho. intros. constructor; cbn; auto; intros; eauto.
  destruct (Nat.eq_dec r r0) as [->|Hne].
  - exists o'. rewrite upd_same by (eapply nth_lt; eauto). assert (o0 = o) by congruence. subst o0.
    repeat split; auto.
  - exists o0. rewrite upd_other by auto. repeat split; auto.
Qed.
(** replacing an axis object *)
Lemma wf_put_ax h a o : wf h -> good_ax h o -> wf (with_ax A V h (upd (h_ax h) a o)).
Proof.
  intros W [G1 G2]. constructor; cbn; try apply W.
  - intros a' o' l Ho Hl. apply nth_upd_inv in Ho. destruct Ho as [[-> ->]|[_ Ho]]; [auto|eapply wf_cache; eauto].
  - intros a' o' l Ho Hl. apply nth_upd_inv in Ho. destruct Ho as [[-> ->]|[_ Ho]]; [auto|eapply wf_as; eauto].
  - intros r o' Ho. rewrite upd_length. eapply wf_x; eauto.
  - intros g o' a' Ho Ha. rewrite upd_length. eapply wf_gen; eauto.
Qed.
Lemma frame_put_ax (P Q : loc -> Prop) h a o o' : nax h a = Some o -> (P a \/ ao_p o' = ao_p o) ->
  frame P Q h (with_ax A V h (upd (h_ax h) a o')).
Proof.
  intros Ho HP. constructor; cbn; auto; intros; eauto.
  - destruct (Nat.eq_dec a a0) as [->|Hne].
    + exists o'. rewrite upd_same by (eapply nth_lt; eauto). split; auto. intros N.
      assert (o0 = o) by congruence. subst o0. tauto.
    + exists o0. rewrite upd_other by auto. auto.
  - eexists; split; eauto. repeat split; auto.
Qed.

(** ** Axis operations *)
Lemma ok_alloc_f h v (E : exn -> Prop) :
  ok h (alloc_f A V v) (fun l h' => l = length (h_farr h) /\ h' = with_farr A V h (h_farr h ++ [v])) E.
Proof. intros W. cbn. auto using wf_alloc_f, ext_alloc_f. Qed.
Lemma ok_alloc_y h v (E : exn -> Prop) :
  ok h (alloc_y A V v) (fun l h' => l = length (h_yarr h) /\ h' = with_yarr A V h (h_yarr h ++ [v])) E.
Proof. intros W. cbn. auto using wf_alloc_y, ext_alloc_y. Qed.
Lemma ok_alloc_ax h o (E : exn -> Prop) : good_ax h o ->
  ok h (alloc_ax A V o) (fun l h' => l = length (h_ax h) /\ h' = with_ax A V h (h_ax h ++ [o])) E.
Proof. intros G W. cbn. auto using wf_alloc_ax, ext_alloc_ax. Qed.
Lemma ok_ax_new h p (E : exn -> Prop) :
  ok h (ax_new A V p) (fun l h' => l = length (h_ax h) /\ (exists o, nax h' l = Some o /\ ao_p o = p) /\
     h_rel h' = h_rel h /\ h_yarr h' = h_yarr h) E.
Proof.
  eapply ok_conseq; [apply ok_alloc_ax; apply good_new|]. cbn. intros x h' _ _ [-> ->]. split; auto.
  split; [|cbn; auto]. eexists. cbn. rewrite nth_app_new. split; reflexivity.
Qed.
Lemma ok_ax_copy h a (E : exn -> Prop) : E EDangling ->
  ok h (ax_copy A V a) (fun l h' => l = length (h_ax h) /\
     exists o, nax h a = Some o /\ exists o', nax h' l = Some o' /\ ao_p o' = ao_p o) E.
Proof.
  intros HE. apply ok_wf. intros W. unfold ax_copy. apply ok_rd_bind; [|auto]. intros o Ho.
  eapply ok_conseq; [apply ok_alloc_ax; eapply wf_good; eauto|].
  cbn. intros x h' _ _ [-> ->]. split; auto. exists o. split; auto. exists o. cbn. rewrite nth_app_new. auto.
Qed.

(** reading [.array] returns the array computed from the current parameters and only fills a cache *)
Lemma array_loc_spec h a o : nax h a = Some o ->
  ok h (ax_array_loc A V a)
    (fun l h' => exists arr, nf h' l = Some arr /\ axis_array A (ao_p o) = Ok arr /\
        h_rel h' = h_rel h /\ h_yarr h' = h_yarr h)
    (fun e => axis_array A (ao_p o) = Err e).
Proof.
  intros Ho. apply ok_wf. intros W. unfold ax_array_loc. apply ok_rd_bind; [|congruence].
  intros o' Ho'. assert (o' = o) by congruence. subst o'. clear Ho'.
  destruct (ao_cache o) as [l|] eqn:Ec.
  - apply ok_ret. intros _. destruct (wf_cache h W a o l Ho Ec) as (arr & H1 & H2). eauto.
  - apply ok_lift_bind; [|auto]. intros arr Ha.
    intros _. cbn. unfold put_ax. cbn.
    set (o' := mkAx (ao_p o) (Some (length (h_farr h))) (ao_as o)).
    set (h1 := with_farr A V h (h_farr h ++ [arr])).
    assert (W1 : wf h1) by (apply wf_alloc_f; auto).
    assert (G : good_ax h1 o').
    { split; cbn.
      - intros l [= <-]. exists arr. split; auto. apply nth_app_new.
      - intros v Hv. eapply wf_as; eauto. }
    split; [exact (wf_put_ax h1 a o' W1 G)|]. split.
    + apply ext_trans with h1; [apply ext_alloc_f|]. constructor; auto.
      exact (frame_put_ax _ _ h1 a o o' Ho (or_intror eq_refl)).
    + exists arr. split; [apply nth_app_new|]. auto.
Qed.
Lemma array_spec h a o : nax h a = Some o ->
  ok h (ax_array A V a)
    (fun arr h' => axis_array A (ao_p o) = Ok arr /\ h_rel h' = h_rel h /\ h_yarr h' = h_yarr h)
    (fun e => axis_array A (ao_p o) = Err e).
Proof.
  intros Ho. unfold ax_array. eapply ok_bind; [apply array_loc_spec; eauto|].
  intros l h1 W1 X1 (arr & Hf & Ha & Hr & Hy). apply ok_rd.
  - intros arr' Ha'. assert (arr' = arr) by congruence. subst. auto.
  - unfold loc in *. congruence.
Qed.
Lemma array_length p arr : axis_array A p = Ok arr -> axis_size A p = Ok (length arr).
Proof.
  unfold axis_array. destruct (axis_size A p) as [n|e] eqn:E; cbn; [|discriminate].
  intros [= <-]. f_equal. clear. unfold linspace. destruct n as [|[|n]]; auto.
  rewrite app_length, map_length, seq_length. cbn. lia.
Qed.
Lemma array_err p e : axis_array A p = Err e <-> axis_size A p = Err e.
Proof. unfold axis_array. destruct (axis_size A p) as [n|e']; cbn; split; congruence. Qed.
Lemma size_array p n : axis_size A p = Ok n -> exists arr, axis_array A p = Ok arr /\ length arr = n.
Proof.
  intros H. destruct (axis_array A p) as [arr|e] eqn:E.
  - exists arr. split; auto. apply array_length in E. congruence.
  - apply array_err in E. congruence.
Qed.
Lemma size_spec h a o : nax h a = Some o ->
  ok h (ax_size A V a)
    (fun n h' => axis_size A (ao_p o) = Ok n /\ h_rel h' = h_rel h /\ h_yarr h' = h_yarr h)
    (fun e => axis_size A (ao_p o) = Err e).
Proof.
  intros Ho. unfold ax_size. eapply ok_bind.
  - eapply ok_weaken; [apply array_spec; eauto| |intros e He; apply array_err; exact He].
    intros x h' _ _ H. exact H.
  - intros arr h1 W1 X1 (Ha & Hr & Hy). apply ok_ret. intros _. split; auto. apply array_length; auto.
Qed.
Lemma actual_spec h a o : nax h a = Some o ->
  ok h (ax_actual A V a)
    (fun v h' => (do arr <- axis_array A (ao_p o); actual_sample A arr) = Ok v)
    (fun e => (do arr <- axis_array A (ao_p o); actual_sample A arr) = Err e).
Proof.
  intros Ho. apply ok_wf. intros W. unfold ax_actual. apply ok_rd_bind; [|congruence].
  intros o' Ho'. assert (o' = o) by congruence. subst o'. clear Ho'.
  destruct (ao_as o) as [v|] eqn:Es.
  - apply ok_ret. intros _. destruct (wf_as h W a o v Ho Es) as (arr & H1 & H2). rewrite H1. exact H2.
  - eapply ok_bind.
    + eapply ok_weaken; [apply array_spec; eauto| |].
      * intros x h' _ _ H. exact H.
      * intros e He. cbn. rewrite He. reflexivity.
    + intros arr h1 W1 X1 (Ha & Hr & Hy). apply ok_lift_bind; [|intros e He; rewrite Ha; exact He].
      intros v Hv. destruct (ext_ax _ _ _ _ X1 Ho) as (o1 & Ho1 & Ep).
      apply ok_rd_bind; [|congruence]. intros o1' Ho1'. assert (o1' = o1) by congruence. subst o1'.
      intros _. unfold bindM, put_ax. cbn.
      set (o2 := mkAx (ao_p o1) (ao_cache o1) (Some v)).
      assert (G : good_ax h1 o2).
      { split; cbn.
        - intros l Hl. eapply wf_cache; eauto.
        - intros v' [= <-]. exists arr. split; auto. congruence. }
      split; [apply wf_put_ax; auto|]. split.
      * constructor; auto. eapply frame_put_ax; [exact Ho1|]. right. reflexivity.
      * rewrite Ha. exact Hv.
Qed.

(** ** What a relation reference denotes *)
Definition isrel (h : heap) (r : loc) (k : cls) (x y : loc) (c : rel) (cf : hconfig A V) : Prop :=
  exists o ax, nrel h r = Some o /\ ro_cls o = k /\ ro_x o = x /\ ro_y o = y /\ ro_cfg o = cf /\
    nax h x = Some ax /\ ao_p ax = r_x c /\ ny h y = Some (r_y c).
Lemma isrel_ext h h' r k x y c cf : ext h h' -> isrel h r k x y c cf -> isrel h' r k x y c cf.
Proof.
  intros X (o & ax & Ho & E1 & E2 & E3 & E4 & Hx & Ep & Hy).
  destruct (ext_rel _ _ _ _ X Ho) as (o' & Ho' & F1 & F2 & F3 & F4).
  destruct (ext_ax _ _ _ _ X Hx) as (ax' & Hx' & Ep').
  exists o', ax'. repeat split; try congruence; auto. eapply ext_y; eauto.
Qed.
Lemma isrel_of h r o : wf h -> nrel h r = Some o ->
  exists c, isrel h r (ro_cls o) (ro_x o) (ro_y o) c (ro_cfg o).
Proof.
  intros W Ho. destruct (nth_some _ _ (wf_x h W r o Ho)) as [ax Hax].
  destruct (nth_some _ _ (wf_y h W r o Ho)) as [y Hy].
  exists (mkRel (ao_p ax) y), o, ax. repeat split; auto.
Qed.
Lemma isrel_det h r k x y c cf k' x' y' c' cf' :
  isrel h r k x y c cf -> isrel h r k' x' y' c' cf' -> k = k' /\ x = x' /\ y = y' /\ c = c' /\ cf = cf'.
Proof.
  intros (o & ax & H1 & H2 & H3 & H4 & H5 & H6 & H7 & H8) (o' & ax' & G1 & G2 & G3 & G4 & G5 & G6 & G7 & G8).
  assert (o' = o) by congruence. subst o'. subst.
  assert (ax' = ax) by congruence. subst ax'. repeat split; auto.
  destruct c as [p1 y1], c' as [p2 y2]. cbn in *. f_equal; congruence.
Qed.
Definition fresh (h : heap) (r x y : loc) : Prop :=
  length (h_rel h) <= r /\ length (h_ax h) <= x /\ length (h_yarr h) <= y.
Lemma fresh_ext h h' r x y : ext h h' -> fresh h' r x y -> fresh h r x y.
Proof.
  intros X (H1 & H2 & H3). pose proof (ext_ax_len _ _ X). pose proof (ext_rel_len _ _ X).
  pose proof (ext_y_len _ _ X). repeat split; lia.
Qed.

(** result of a constructor call given an axis object *)
Definition made (h h' : heap) (r : loc) (k : cls) (x : loc) (c : rel) : Prop :=
  exists y, isrel h' r k x y c (h_cfg h) /\ length (h_rel h) <= r /\ length (h_yarr h) <= y.
Lemma made_ext h h' h'' r k x c : ext h' h'' -> made h h' r k x c -> made h h'' r k x c.
Proof. intros X (y & H & H1 & H2). exists y. split; auto. eapply isrel_ext; eauto. Qed.

(** every relation object of [h] is literally unchanged in [h'] *)
Definition keeps (h h' : heap) : Prop := forall r o, nrel h r = Some o -> nrel h' r = Some o.
Lemma keeps_trans h1 h2 h3 : keeps h1 h2 -> keeps h2 h3 -> keeps h1 h3.
Proof. unfold keeps; auto. Qed.

Definition link_ok (h : heap) (k : cls) (link : option loc) : Prop :=
  forall l, link = Some l -> exists o, nrel h l = Some o /\
    ((is_sig k = true /\ is_spec (ro_cls o) = true) \/ (is_spec k = true /\ is_sig (ro_cls o) = true)).

Lemma rel_make_cases p y : rel_make A V p y =
  match axis_size A p with Ok n => if Nat.eqb n (length y) then Ok (mkRel p y) else Err (ENotEqual n (length y))
                         | Err e => Err e end.
Proof. unfold rel_make. destruct (axis_size A p); reflexivity. Qed.

Lemma new_plain_axis h k a o y link : nax h a = Some o -> link_ok h k link ->
  ok h (new_plain A V k (XaAxis a) (Some y) link)
    (fun r h' => rel_make A V (ao_p o) y = Ok (mkRel (ao_p o) y) /\
       made h h' r k a (mkRel (ao_p o) y) /\ r = length (h_rel h) /\
       keeps h h' /\
       exists ro, nrel h' r = Some ro /\ ro_link ro = link /\ ro_ft ro = None /\ ro_at ro = None)
    (fun e => rel_make A V (ao_p o) y = Err e).
Proof.
  intros Ho Hlk. apply ok_wf. intros W. unfold new_plain. apply ok_cfg_bind. unfold init_xy.
  apply ok_assoc. eapply ok_bind; [apply ok_alloc_y|]. intros yl h1 W1 X1 [-> ->].
  set (h1 := with_yarr A V h (h_yarr h ++ [y])) in *.
  apply ok_assoc. apply ok_cfg_bind. apply ok_assoc. apply ok_ret_bind. apply ok_assoc.
  eapply ok_bind.
  { eapply ok_weaken; [apply (size_spec h1 a o Ho)| |].
    - intros n h' _ _ Hn. exact Hn.
    - intros e He. rewrite rel_make_cases, He. reflexivity. }
  intros n h2 W2 X2 (Hn & Hr2 & Hy2).
  assert (HL : length (h_yarr h2) = S (length (h_yarr h))).
  { rewrite Hy2. cbn. rewrite app_length. cbn. lia. }
  rewrite rel_make_cases, Hn.
  destruct (Nat.eqb_spec n (length y)) as [En|En].
  - apply ok_ret_bind. cbn [fst snd].
    set (ro := mkRo k a (length (h_yarr h)) link (h_cfg h) None None).
    intros _. cbn. 
    destruct (ext_ax _ _ _ _ X2 Ho) as (ax2 & Hax2 & Ep2).
    assert (Hnr : forall r o', nrel h2 r = Some o' -> nrel h r = Some o') by (intros; rewrite Hr2 in *; auto).
    split.
    + apply wf_alloc_rel; auto.
      * eapply nth_lt; eauto.
      * cbn. rewrite HL. unfold loc. lia.
      * intros r o' Ho'. apply Hnr in Ho'. cbn. pose proof (wf_y h W r o' Ho'). unfold loc in *. lia.
      * intros l Hl. cbn in Hl. destruct (Hlk l Hl) as (o2 & Ho2 & C). exists o2.
        split; auto. rewrite Hr2. exact Ho2.
      * cbn. discriminate.
      * cbn. discriminate.
    + split; [apply ext_alloc_rel|]. split; auto. rewrite Hr2. cbn [h_rel with_yarr h1].
      split; [|split; [auto|split]].
      * exists (length (h_yarr h)). split; [|unfold loc; split; lia].
        exists ro, ax2. cbn. rewrite nth_app_new. repeat split; auto.
        rewrite Hy2. cbn. apply nth_app_new.
      * intros r1 o1 H1. cbn. apply nth_app_old. exact H1.
      * exists ro. cbn. rewrite nth_app_new. auto.
  - apply ok_bind with (Q1 := fun _ _ => False); [apply ok_fail; auto|]. intros ? ? _ _ [].
Qed.

Lemma new_plain_rel h k r0 link k0 x0 y0 c cf : isrel h r0 k0 x0 y0 c cf -> link_ok h k link ->
  ok h (new_plain A V k (XaRel r0) None link)
    (fun r h' => exists x, length (h_ax h) <= x /\ made h h' r k x c /\
       keeps h h' /\
       exists ro, nrel h' r = Some ro /\ ro_link ro = link /\ ro_ft ro = None /\ ro_at ro = None)
    (fun _ => False).
Proof.
  intros (o & ax & Ho & E1 & E2 & E3 & E4 & Hx & Ep & Hy) Hlk. apply ok_wf. intros W.
  unfold new_plain. apply ok_cfg_bind. unfold init_xy.
  apply ok_assoc. apply ok_rd_bind; [|congruence]. intros o' Ho'. assert (o' = o) by congruence. subst o'.
  apply ok_assoc. rewrite E2.
  unfold ax_copy. apply ok_assoc. apply ok_rd_bind; [|congruence]. intros ax' Hx'.
  assert (ax' = ax) by congruence. subst ax'.
  eapply ok_bind; [apply ok_alloc_ax; eapply wf_good; eauto|]. intros xl h1 W1 X1 [-> ->].
  apply ok_assoc. apply ok_rd_bind; [|cbn; congruence]. rewrite E3. cbn. intros y' Hy'.
  assert (y' = r_y c) by congruence. subst y'.
  apply ok_assoc. eapply ok_bind; [apply ok_alloc_y|]. intros yl h2 W2 X2 [-> ->].
  apply ok_ret_bind. cbn [fst snd].
  set (h1 := with_ax A V h (h_ax h ++ [ax])) in *.
  set (h2 := with_yarr A V h1 (h_yarr h1 ++ [r_y c])) in *.
  set (ro := mkRo k (length (h_ax h)) (length (h_yarr h1)) link (h_cfg h) None None).
  intros _. cbn. split.
  - apply (wf_alloc_rel h2 ro); auto; cbn.
    + rewrite app_length. cbn. unfold loc. lia.
    + rewrite app_length. cbn. unfold loc. lia.
    + intros r o' Ho2. pose proof (wf_y h W r o' Ho2). unfold loc in *. lia.
    + discriminate.
    + discriminate.
  - split; [exact (ext_alloc_rel h2 ro)|]. exists (length (h_ax h)). split; [unfold loc; lia|]. split; [|split].
    + exists (length (h_yarr h)). split; [|unfold loc; split; lia].
      exists ro, ax. cbn. rewrite !nth_app_new. repeat split; auto.
    + intros r1 o1 H1. cbn. apply nth_app_old. exact H1.
    + exists ro. cbn. rewrite nth_app_new. auto.
Qed.

(** the constructor always keeps the frame, whatever its arguments *)
Lemma ok_ax_from_array h c s b :
  ok h (ax_from_array A V c s b) (fun l h' => l = length (h_ax h) /\ (exists o, nax h' l = Some o) /\
     h_rel h' = h_rel h /\ h_yarr h' = h_yarr h) anyE.
Proof.
  unfold ax_from_array. apply ok_lift_bind; [|unfold anyE; auto]. intros p _.
  eapply ok_conseq; [apply ok_ax_new|]. cbn. intros x h' _ _ (H & (o & Ho & _) & H2). eauto.
Qed.
(** any constructor call: the new object's samples are its own; its axis is the one given, or new *)
Definition built (h h' : heap) (r : loc) (k : cls) (x : xarg A) : Prop :=
  exists o, nrel h' r = Some o /\ length (h_rel h) <= r /\ ro_cls o = k /\ length (h_yarr h) <= ro_y o /\
    match x with XaAxis a => ro_x o = a | _ => length (h_ax h) <= ro_x o end.
Lemma built_ext h h' h'' r k x : ext h' h'' -> built h h' r k x -> built h h'' r k x.
Proof.
  intros X (o & Ho & H1 & H2 & H3 & H4). destruct (ext_rel _ _ _ _ X Ho) as (o' & Ho' & E1 & E2 & E3 & E4).
  exists o'. rewrite E1, E2, E3. auto.
Qed.
Lemma new_plain_any h k x y link : link_ok h k link ->
  ok h (new_plain A V k x y link)
    (fun r h' => built h h' r k x /\ keeps h h' /\
       exists ro, nrel h' r = Some ro /\ ro_link ro = link /\ ro_ft ro = None /\ ro_at ro = None) anyE.
Proof.
  intros Hl. apply ok_wf. intros W. destruct x as [r0|a|s].
  - destruct (nrel h r0) as [o|] eqn:Ho.
    + destruct (isrel_of h r0 o W Ho) as (c & Hc).
      eapply ok_weaken; [eapply ok_eq; [|eapply new_plain_rel; eauto]| |].
      * destruct y; reflexivity.
      * cbn. intros r h' _ _ (x & Hx & (yl & (o2 & ax & G) & H1 & H2) & H3). split; auto.
        exists o2. destruct G as (G1 & G2 & G3 & G4 & _). subst. auto.
      * intros e [].
    + unfold new_plain. apply ok_cfg_bind. apply ok_assoc. apply ok_rd_bind; [congruence|unfold anyE; auto].
  - destruct y as [y|].
    + destruct (nax h a) as [o|] eqn:Ho.
      * eapply ok_weaken; [eapply new_plain_axis; eauto| |unfold anyE; auto].
        cbn. intros r h' _ _ (_ & (yl & (o2 & ax & G) & H1 & H2) & _ & H3). split; auto.
        exists o2. destruct G as (G1 & G2 & G3 & G4 & _). subst. auto.
      * unfold new_plain. apply ok_cfg_bind. unfold init_xy. apply ok_assoc.
        eapply ok_bind; [apply ok_alloc_y|]. intros yl h1 W1 X1 [-> ->].
        apply ok_assoc. apply ok_cfg_bind. apply ok_assoc. apply ok_ret_bind. apply ok_assoc.
        unfold ax_size, ax_array, ax_array_loc.
        repeat apply ok_assoc. apply ok_rd_bind; [cbn; congruence|unfold anyE; auto].
    + unfold new_plain. apply ok_cfg_bind. cbn. apply ok_bind with (Q1 := fun _ _ => False).
      * apply ok_fail. unfold anyE; auto.
      * intros ? ? _ _ [].
  - destruct y as [y|].
    + unfold new_plain. apply ok_cfg_bind. unfold init_xy. apply ok_assoc.
      eapply ok_bind; [apply ok_alloc_y|]. intros yl h1 W1 X1 [-> ->].
      apply ok_assoc. apply ok_cfg_bind. apply ok_assoc.
      eapply ok_bind; [apply ok_ax_from_array|]. intros a h2 W2 X2 (Ea & (o & Ho) & Hr2 & Hy2).
      apply ok_assoc. eapply ok_bind.
      { eapply ok_weaken; [apply (size_spec h2 a o Ho)| |unfold anyE; auto]. intros n h' _ _ Hn. exact Hn. }
      intros n h3 W3 X3 (Hn & Hr3 & Hy3).
      destruct (Nat.eqb n (length y)).
      * apply ok_ret_bind. cbn [fst snd]. intros _. cbn.
        rewrite Hr2 in Hr3. rewrite Hy2 in Hy3. cbn in Hr3, Hy3.
        assert (LY : length (h_yarr h3) = S (length (h_yarr h))) by (rewrite Hy3, app_length; cbn; lia).
        pose proof (ext_ax_len _ _ X3) as L3. pose proof (nth_lt _ _ _ Ho) as L4.
        pose proof (ext_ax_len _ _ X1) as L5. cbn in Ea.
        split; [|split; [apply ext_alloc_rel|]].
        -- apply wf_alloc_rel; auto; cbn.
           ++ unfold loc in *. lia.
           ++ unfold loc in *. lia.
           ++ intros r o' Ho2. rewrite Hr3 in Ho2. pose proof (wf_y h W r o' Ho2). unfold loc in *. lia.
           ++ intros l Hl2. destruct (Hl l Hl2) as (o2 & Ho2 & C). exists o2. split; auto. rewrite Hr3. exact Ho2.
           ++ discriminate.
           ++ discriminate.
        -- set (ro := mkRo k a (length (h_yarr h)) link (h_cfg h) None None).
           assert (G : nth_error (h_rel h3 ++ [ro]) (length (h_rel h3)) = Some ro) by apply nth_app_new.
           split; [|split; [|exists ro; auto]].
           ++ exists ro. cbn. rewrite Hr3 in *. split; auto. unfold loc in *. repeat split; lia.
           ++ intros r1 o1 H1. cbn. apply nth_app_old. rewrite Hr3. exact H1.
      * apply ok_bind with (Q1 := fun _ _ => False); [apply ok_fail; unfold anyE; auto|]. intros ? ? _ _ [].
    + unfold new_plain. apply ok_cfg_bind. cbn. apply ok_bind with (Q1 := fun _ _ => False).
      * apply ok_fail. unfold anyE; auto.
      * intros ? ? _ _ [].
Qed.
End HeapL.
