(** Property-level lemmas about objects (C03, C04, C08-C12). *)
From Coq Require Import ZArith List Bool Lia.
From Verif Require Import Num Numpy AxisModel RelModel HeapModel HeapSpec HeapLemmas HeapLemmas2 HeapLemmas3 HeapLemmas4.
Import ListNotations.

Section HeapL5.
Context (A : Arith) (V : Vals A) (F : vfun A V).
Notation num := (num A).
Notation val := (val V).
Notation axis := (axis A).
Notation rel := (rel A V).
Notation heap := (heap A V).
Notation M := (M A V).
Notation nax h a := (nth_error (h_ax h) a).
Notation nrel h r := (nth_error (h_rel h) r).
Notation ny h l := (nth_error (h_yarr h) l).
Notation nf h l := (nth_error (h_farr h) l).
Notation wf := (wf A V).
Notation isrel := (isrel A V).
Notation res := (res A V).
Notation bind' := (bindM A V).
Notation step := (step A V F).
Notation exec := (exec A V F).
Notation run := (run A V F).
Notation op := (op A V).
Notation reachable := (reachable A V F).
Notation outcome := (outcome A V F).
Notation along := (along A V F).
Notation ok0 := (ok A V (fun _ => False)).

Lemma reachable_step h o : reachable h -> reachable (step h o).
Proof. intros H. exact (reachable_run A V F h [o] H). Qed.

(** *** C03 *)
Theorem never_stale h a p : reachable h -> ax_view A V h a = Some p ->
  read_array A V h a = axis_array A p /\ read_size A V h a = axis_size A p /\
  read_actual A V h a = (do arr <- axis_array A p; actual_sample A arr).
Proof.
  intros R Ha. apply reachable_wf in R. auto using read_array_wf, read_size_wf, read_actual_wf.
Qed.
Lemma step_set h f a v : step h (OSet A V f a v) =
  match nax h a with Some o => with_ax A V h (upd (h_ax h) a (mkAx (set_field A f v (ao_p o)) None None)) | None => h end.
Proof.
  unfold HeapModel.step. cbn [HeapModel.exec]. rewrite snd_none. unfold ax_set, bindM, get_ax, rd, put_ax.
  destruct (nax h a); reflexivity.
Qed.
Theorem set_view h f a v p : ax_view A V h a = Some p ->
  ax_view A V (step h (OSet A V f a v)) a = Some (set_field A f v p).
Proof.
  intros H. rewrite step_set. unfold ax_view in *. destruct (nax h a) as [o|] eqn:E; [|discriminate].
  injection H as <-. cbn. rewrite upd_same by (eapply nth_lt; eauto). reflexivity.
Qed.
Theorem set_read h f a v p : reachable h -> ax_view A V h a = Some p ->
  read_array A V (step h (OSet A V f a v)) a = axis_array A (set_field A f v p).
Proof.
  intros R H. apply never_stale; [apply reachable_step; auto|]. apply set_view. auto.
Qed.

(** *** C04 *)
Theorem copy_view h a p : ax_view A V h a = Some p ->
  exists c, fst (ax_copy A V a h) = Ok c /\ snd (ax_copy A V a h) = step h (OCopyAxis A V a) /\
    ax_view A V h c = None /\ ax_view A V (step h (OCopyAxis A V a)) c = Some p /\
    ax_view A V (step h (OCopyAxis A V a)) a = Some p.
Proof.
  intros H. unfold ax_view in *. destruct (nax h a) as [o|] eqn:E; [|discriminate]. injection H as <-.
  exists (length (h_ax h)). unfold HeapModel.step. cbn [HeapModel.exec]. rewrite snd_none.
  unfold ax_copy, bindM, get_ax, rd. rewrite E. cbn. rewrite nth_app_new. rewrite (nth_app_old _ _ _ _ E).
  rewrite (proj2 (nth_error_None _ _)) by lia. auto.
Qed.
Theorem copy_independent h a p c ops : reachable h -> ax_view A V h a = Some p -> fst (ax_copy A V a h) = Ok c ->
  let h1 := step h (OCopyAxis A V a) in
  (along (fun h o => ~ ax_target A V h o a) h1 ops -> ax_view A V (run ops h1) a = Some p) /\
  (along (fun h o => ~ ax_target A V h o c) h1 ops -> ax_view A V (run ops h1) c = Some p).
Proof.
  intros R H Hc h1. destruct (copy_view h a p H) as (c' & E & _ & _ & V1 & V2).
  assert (c' = c) by congruence. subst c'.
  pose proof (reachable_wf _ _ _ _ (reachable_step h (OCopyAxis A V a) R)) as W. fold h1 in W.
  split; intros Hal; apply run_ax; auto.
Qed.
(** element write after the array was read and then the axis copied: both see it *)
Lemma array_loc_hit h a o l : nax h a = Some o -> ao_cache o = Some l -> ax_array_loc A V a h = (Ok l, h).
Proof. intros H1 H2. unfold ax_array_loc, bindM, get_ax, rd. rewrite H1, H2. reflexivity. Qed.
Lemma array_hit h a o l arr : nax h a = Some o -> ao_cache o = Some l -> nf h l = Some arr ->
  ax_array A V a h = (Ok arr, h).
Proof.
  intros H1 H2 H3. unfold ax_array. unfold bindM at 1. rewrite (array_loc_hit _ _ _ _ H1 H2). unfold get_f, rd. rewrite H3. reflexivity.
Qed.
Lemma array_miss h a o arr : nax h a = Some o -> ao_cache o = None -> axis_array A (ao_p o) = Ok arr ->
  ax_array_loc A V a h =
    (Ok (length (h_farr h)), with_ax A V (with_farr A V h (h_farr h ++ [arr]))
        (upd (h_ax h) a (mkAx (ao_p o) (Some (length (h_farr h))) (ao_as o)))).
Proof.
  intros H1 H2 H3. unfold ax_array_loc, bindM, get_ax, rd. rewrite H1, H2. unfold lift. rewrite H3. reflexivity.
Qed.
Lemma read_caches h a o arr : wf h -> nax h a = Some o -> axis_array A (ao_p o) = Ok arr ->
  exists o' l, nax (step h (OArray A V a)) a = Some o' /\ ao_cache o' = Some l /\ nf (step h (OArray A V a)) l = Some arr.
Proof.
  intros W H1 H3. unfold HeapModel.step. cbn [HeapModel.exec]. rewrite snd_none. unfold ax_array, bindM.
  destruct (ao_cache o) as [l|] eqn:E.
  - rewrite (array_loc_hit _ _ _ _ H1 E). unfold get_f, rd. destruct (wf_cache _ _ _ W _ _ _ H1 E) as (arr' & G1 & G2).
    rewrite G1. cbn. exists o, l. repeat split; auto. congruence.
  - rewrite (array_miss _ _ _ _ H1 E H3). unfold get_f, rd. cbn. rewrite nth_app_new. cbn.
    rewrite upd_same by (eapply nth_lt; eauto). eexists. eexists. split; [reflexivity|]. cbn. split; [reflexivity|]. apply nth_app_new.
Qed.
Lemma write_hit h a o l arr i v : nax h a = Some o -> ao_cache o = Some l -> nf h l = Some arr ->
  write_array A V a i v h = with_farr A V h (upd (h_farr h) l (upd arr i v)).
Proof.
  intros H1 H2 H3. unfold write_array. unfold bindM at 1. rewrite (array_loc_hit _ _ _ _ H1 H2). unfold bindM, get_f, rd. rewrite H3. reflexivity.
Qed.
Theorem copy_shares_array h a p arr c i v : reachable h -> ax_view A V h a = Some p -> axis_array A p = Ok arr ->
  let h1 := step h (OArray A V a) in fst (ax_copy A V a h1) = Ok c ->
  let h2 := write_array A V c i v (step h1 (OCopyAxis A V a)) in
  read_array A V h2 a = Ok (upd arr i v) /\ read_array A V h2 c = Ok (upd arr i v).
Proof.
  intros R H Harr h1 Hc h2. pose proof (reachable_wf _ _ _ _ R) as W.
  unfold ax_view in H. destruct (nax h a) as [o|] eqn:E; [|discriminate]. injection H as <-.
  destruct (read_caches h a o arr W E Harr) as (o' & l & G1 & G2 & G3). fold h1 in G1, G3.
  unfold ax_copy, bindM, get_ax, rd in Hc. rewrite G1 in Hc. cbn in Hc. injection Hc as <-.
  assert (S : step h1 (OCopyAxis A V a) = with_ax A V h1 (h_ax h1 ++ [o'])).
  { unfold HeapModel.step. cbn [HeapModel.exec]. rewrite snd_none. unfold ax_copy, bindM, get_ax, rd. rewrite G1. reflexivity. }
  subst h2. rewrite S.
  assert (Ha : nax (with_ax A V h1 (h_ax h1 ++ [o'])) a = Some o') by (cbn; apply nth_app_old; auto).
  assert (Hc : nax (with_ax A V h1 (h_ax h1 ++ [o'])) (length (h_ax h1)) = Some o') by (cbn; apply nth_app_new).
  rewrite (write_hit _ _ _ l arr i v Hc G2 G3).
  unfold read_array. rewrite (array_hit _ a o' l (upd arr i v)); auto.
  - split; [reflexivity|]. rewrite (array_hit _ (length (h_ax h1)) o' l (upd arr i v)); auto.
    cbn. apply upd_same. eapply nth_lt; eauto.
  - cbn. apply upd_same. eapply nth_lt; eauto.
Qed.
(** ... but not if the array had not been read since the last assignment *)
Theorem copy_unread h f a p v0 arr c i v : reachable h -> ax_view A V h a = Some p ->
  axis_array A (set_field A f v0 p) = Ok arr ->
  let h1 := step h (OSet A V f a v0) in fst (ax_copy A V a h1) = Ok c ->
  let h2 := write_array A V c i v (step h1 (OCopyAxis A V a)) in
  read_array A V h2 a = Ok arr /\ read_array A V h2 c = Ok (upd arr i v).
Proof.
  intros R H Harr h1 Hc h2.
  unfold ax_view in H. destruct (nax h a) as [o|] eqn:E; [|discriminate]. injection H as <-.
  pose proof (nth_lt _ _ _ E) as Hlt.
  assert (G1 : nax h1 a = Some (mkAx (set_field A f v0 (ao_p o)) None None)).
  { subst h1. rewrite step_set, E. cbn. apply upd_same. auto. }
  unfold ax_copy, bindM, get_ax, rd in Hc. rewrite G1 in Hc. cbn in Hc. injection Hc as <-.
  set (o' := mkAx (set_field A f v0 (ao_p o)) None None) in *.
  assert (S : step h1 (OCopyAxis A V a) = with_ax A V h1 (h_ax h1 ++ [o'])).
  { unfold HeapModel.step. cbn [HeapModel.exec]. rewrite snd_none. unfold ax_copy, bindM, get_ax, rd. rewrite G1. reflexivity. }
  subst h2. rewrite S. pose proof (nth_lt _ _ _ G1) as Hlt1.
  assert (Ha : nax (with_ax A V h1 (h_ax h1 ++ [o'])) a = Some o') by (cbn; apply nth_app_old; auto).
  assert (Hc : nax (with_ax A V h1 (h_ax h1 ++ [o'])) (length (h_ax h1)) = Some o') by (cbn; apply nth_app_new).
  set (g := with_ax A V h1 (h_ax h1 ++ [o'])) in *. set (c := length (h_ax h1)) in *.
  set (g2 := write_array A V c i v g).
  assert (G : g2 = with_farr A V (with_ax A V (with_farr A V g (h_farr g ++ [arr]))
        (upd (h_ax g) c (mkAx (ao_p o') (Some (length (h_farr g))) (ao_as o'))))
        (upd (h_farr g ++ [arr]) (length (h_farr g)) (upd arr i v))).
  { unfold g2, write_array. unfold bindM at 1. rewrite (array_miss g c o' arr Hc eq_refl Harr).
    unfold bindM, get_f, rd. cbn [h_farr with_ax with_farr]. rewrite nth_app_new. reflexivity. }
  assert (Ha2 : nax g2 a = Some o').
  { rewrite G. cbn. rewrite upd_other; [exact Ha|]. unfold c. unfold loc in *. lia. }
  assert (Hc2 : nax g2 c = Some (mkAx (ao_p o') (Some (length (h_farr h1))) (ao_as o'))).
  { rewrite G. cbn. apply upd_same. rewrite app_length. cbn. unfold c. lia. }
  split.
  - unfold read_array, ax_array. unfold bindM at 1. rewrite (array_miss g2 a o' arr Ha2 eq_refl Harr).
    unfold get_f, rd. cbn [h_farr with_ax with_farr]. rewrite nth_app_new. reflexivity.
  - unfold read_array. rewrite (array_hit g2 c _ (length (h_farr h1)) (upd arr i v) Hc2 eq_refl); [reflexivity|].
    rewrite G. cbn. apply upd_same. rewrite app_length. cbn. lia.
Qed.

(** *** C08, C09 *)
Lemma isrel_view h r c : rel_view A V h r = Some c -> exists k x y cf, isrel h r k x y c cf /\
  cls_of A V h r = Some k /\ axis_of A V h r = Some x /\ cfg_of A V h r = Some cf.
Proof.
  unfold rel_view, cls_of, axis_of, cfg_of. destruct (nrel h r) as [o|] eqn:E; [|discriminate].
  destruct (nax h (ro_x o)) as [ax|] eqn:Ex; [|discriminate]. destruct (ny h (ro_y o)) as [y|] eqn:Ey; [|discriminate].
  intros [= <-]. exists (ro_cls o), (ro_x o), (ro_y o), (ro_cfg o). split; [|auto].
  exists o, ax. cbn. repeat split; auto.
Qed.
Lemma view_isrel h r k x y c cf : isrel h r k x y c cf -> rel_view A V h r = Some c /\ cls_of A V h r = Some k /\
  axis_of A V h r = Some x /\ cfg_of A V h r = Some cf.
Proof.
  intros (o & ax & H1 & H2 & H3 & H4 & H5 & H6 & H7 & H8). unfold rel_view, cls_of, axis_of, cfg_of.
  rewrite H1, H3, H4, H6, H8, H7. cbn. destruct c. repeat split; congruence.
Qed.
Theorem get_data_cases h r c : reachable h -> rel_view A V h r = Some c ->
  let h' := snd (h_get_data A V r h) in
  match fst (h_get_data A V r h) with
  | Ok (fl, yl) => exists arr, axis_array A (r_x c) = Ok arr /\ length arr = length (r_y c) /\
      nf h' fl = Some arr /\ ny h' yl = Some (r_y c) /\
      (forall a o, nax h a = Some o -> ao_cache o <> Some fl) /\
      (forall r' o, nrel h' r' = Some o -> ro_y o <> yl)
  | Err e => axis_array A (r_x c) = Err e \/
             exists arr, axis_array A (r_x c) = Ok arr /\ length arr <> length (r_y c) /\
                         e = ENotEqual (length arr) (length (r_y c))
  end.
Proof.
  intros R Hv h'. apply reachable_wf in R. destruct (isrel_view _ _ _ Hv) as (k & x & y & cf & I & _).
  destruct (get_data_spec A V (fun _ => False) h r k x y c cf I R) as (W' & X & H). fold h' in W', X, H.
  destruct (fst (h_get_data A V r h)) as [[fl yl]|e].
  - destruct H as (arr & H1 & H2 & H3 & H4 & H5 & H6 & H7). cbn in *. unfold rel_get_data in H1.
    exists arr. split.
    { destruct (axis_size A (r_x c)) as [n|]; [|discriminate]. cbn in H1. destruct (Nat.eqb n (length (r_y c))); [|discriminate].
      destruct (axis_array A (r_x c)); [|discriminate]. cbn in H1. congruence. }
    split; auto. split; auto. split; auto. split.
    + intros a o Ha Hc. destruct (wf_cache _ _ _ R _ _ _ Ha Hc) as (z & Hz & _). apply nth_lt in Hz. lia.
    + intros r' o Ho E. rewrite H7 in Ho. pose proof (wf_y _ _ _ R _ _ Ho). unfold loc in *. lia.
  - unfold rel_get_data in H. destruct (axis_size A (r_x c)) as [n|e'] eqn:En.
    + destruct (size_array A (r_x c) n En) as (arr & Ha & Hl). cbn in H. rewrite Ha in H.
      destruct (Nat.eqb_spec n (length (r_y c))); [discriminate|]. right. exists arr. injection H as <-.
      split; auto. split; congruence.
    + left. cbn in H. apply (array_err A). congruence.
Qed.
Theorem operands_kept h o : reachable h -> ~ assigns A V o ->
  (forall r c, rel_view A V h r = Some c -> rel_view A V (step h o) r = Some c) /\
  (forall a p, ax_view A V h a = Some p -> ax_view A V (step h o) a = Some p /\
     read_array A V (step h o) a = read_array A V h a) /\
  (forall r a, axis_of A V h r = Some a -> axis_of A V (step h o) r = Some a) /\
  (forall r k, cls_of A V h r = Some k -> cls_of A V (step h o) r = Some k).
Proof.
  intros R Hn. pose proof (reachable_wf _ _ _ _ R) as W.
  assert (Hx : forall a, ~ ax_target A V h o a) by (intros a; destruct o; cbn in *; auto).
  assert (Hy : forall r, ~ y_target A V o r) by (intros r; destruct o; cbn in *; auto).
  split; [|split; [|split]].
  - intros r c Hc. destruct (view_axis _ _ _ _ _ Hc) as (a & Ha & _). eapply step_view; eauto.
  - intros a p Ha. assert (Hb : ax_view A V (step h o) a = Some p) by (apply step_ax; auto). split; auto.
    rewrite (proj1 (never_stale h a p R Ha)). apply never_stale; auto. apply reachable_step. auto.
  - intros r a Ha. apply step_axis_of; auto.
  - intros r k Hk. apply step_cls_of; auto.
Qed.

(** *** C10 *)
Lemma newo_new h h' r k : newo A V h h' r k -> new_object A V h h' r.
Proof.
  intros (o & H1 & _ & H2 & H3 & H4). exists o. split; auto. split; [apply nth_error_None; auto|].
  split; apply nth_error_None; auto.
Qed.
Lemma Forall2_in_r {T U} (R : T -> U -> Prop) l l' y : Forall2 R l l' -> In y l' -> exists x, R x y.
Proof. induction 1; intros []; subst; eauto. Qed.
Theorem results_new h o rs h' : reachable h -> ~ assigns A V o -> ~ sets_config A V o -> independent_result A V o ->
  exec o h = (Ok rs, h') -> forall r, In r rs -> new_object A V h h' r.
Proof.
  intros R Hn Hs Hi He r Hr. apply reachable_wf in R.
  assert (Hw : ~ writes A V o) by (destruct o; cbn in *; auto).
  destruct (exec_ok A V F o h Hw R) as (_ & _ & H). rewrite He in H. cbn in H.
  destruct (Forall2_in_r _ _ _ _ H Hr) as (P & k & _ & _ & N). eapply newo_new; eauto.
Qed.
(** later histories that only assign through the result leave the earlier objects alone, and the other way round *)
Theorem old_unchanged h o rs h' ops r0 c : reachable h -> ~ assigns A V o -> exec o h = (Ok rs, h') ->
  rel_view A V h r0 = Some c -> along (only_through A V h true) h' ops -> rel_view A V (run ops h') r0 = Some c.
Proof.
  intros R Hn He Hc Hal. assert (Hs : h' = step h o) by (unfold HeapModel.step; rewrite He; reflexivity). subst h'.
  destruct (operands_kept h o R Hn) as (H1 & _ & H3 & _). destruct (view_axis _ _ _ _ _ Hc) as (a & Ha & Hp).
  eapply run_view; eauto.
  - apply reachable_wf with (F := F). apply reachable_step. auto.
  - eapply along_impl; [|exact Hal]. intros g q [G1 G2]. split.
    + intros T. apply G1 in T. unfold ax_view in Hp. rewrite T in Hp. discriminate.
    + intros T. apply G2 in T. unfold rel_view in Hc. rewrite T in Hc. discriminate.
Qed.
Theorem result_unchanged h o rs h' ops r c : reachable h -> ~ assigns A V o -> ~ sets_config A V o ->
  independent_result A V o -> exec o h = (Ok rs, h') -> In r rs ->
  rel_view A V h' r = Some c -> along (only_through A V h false) h' ops -> rel_view A V (run ops h') r = Some c.
Proof.
  intros R Hn Hsc Hi He Hr Hc Hal. assert (Hs : h' = step h o) by (unfold HeapModel.step; rewrite He; reflexivity).
  destruct (results_new h o rs h' R Hn Hsc Hi He r Hr) as (ro & H1 & H2 & H3 & H4).
  assert (W : wf h') by (subst h'; apply reachable_wf with (F := F); apply reachable_step; auto).
  destruct (view_axis _ _ _ _ _ Hc) as (a & Ha & Hp).
  assert (a = ro_x ro) by (unfold axis_of in Ha; rewrite H1 in Ha; cbn in Ha; congruence). subst a.
  eapply run_view; eauto. eapply along_impl; [|exact Hal]. intros g q [G1 G2]. split.
  - intros T. apply G1 in T. auto.
  - intros T. apply G2 in T. auto.
Qed.

(** *** C11 *)
Theorem built_on_axis h k a y r h' : reachable h -> exec (ONew A V k (XaAxis a) y) h = (Ok [r], h') ->
  axis_of A V h r = None /\ axis_of A V h' r = Some a.
Proof.
  intros R He. apply reachable_wf in R.
  destruct (ok_one A V h _ _ _ (construct_any A V (fun _ => False) h k (XaAxis a) y) R) as (_ & _ & H).
  cbn [HeapModel.exec] in He. rewrite He in H. cbn in H. destruct H as (r' & [= <-] & (o & H1 & H2 & H3 & H4 & H5) & _).
  unfold axis_of. rewrite H1. rewrite (proj2 (nth_error_None _ _)) by auto. cbn. split; congruence.
Qed.
Lemma step_relset h f r v a : axis_of A V h r = Some a -> step h (ORelSet A V f r v) = step h (OSet A V f a v).
Proof.
  intros H. unfold axis_of in H. destruct (nrel h r) as [o|] eqn:E; [|discriminate]. injection H as <-.
  unfold HeapModel.step. cbn [HeapModel.exec]. rewrite !snd_none. unfold bindM at 1, get_rel, rd. rewrite E. reflexivity.
Qed.
Theorem assign_exact h f r v a r0 c0 a0 : reachable h -> axis_of A V h r = Some a ->
  rel_view A V h r0 = Some c0 -> axis_of A V h r0 = Some a0 ->
  rel_view A V (step h (ORelSet A V f r v)) r0 =
    Some (if Nat.eqb a0 a then mkRel (set_field A f v (r_x c0)) (r_y c0) else c0).
Proof.
  intros R Ha Hc Ha0. rewrite (step_relset h f r v a Ha), step_set.
  unfold axis_of in Ha0. unfold rel_view in *. destruct (nrel h r0) as [ro|] eqn:E; [|discriminate]. injection Ha0 as <-.
  destruct (nax h (ro_x ro)) as [ax|] eqn:Ex; [|discriminate]. destruct (ny h (ro_y ro)) as [y|] eqn:Ey; [|discriminate].
  injection Hc as <-.
  destruct (Nat.eqb_spec (ro_x ro) a) as [<-|N].
  - rewrite Ex. cbn. rewrite E. rewrite upd_same by (eapply nth_lt; eauto). rewrite Ey. reflexivity.
  - destruct (nax h a); cbn; rewrite E; [rewrite upd_other by auto|]; rewrite Ex, Ey; reflexivity.
Qed.

(** *** Results by value (C12, C61) *)
Lemma outcome_one L h o m k v cf : exec o = one A V m ->
  ok A V L h m (fun r' h' => exists c', v = Ok c' /\ res h h' r' k c' cf) (fun e => v = Err e) -> wf h ->
  outcome o h = (do c <- v; Ok [(Some k, Some c)]).
Proof.
  intros Ho H W. destruct (ok_one A V h _ _ _ H W) as (_ & _ & G). unfold HeapSpec.outcome. rewrite Ho.
  destruct (one A V m h) as [[rs|e] h']; cbn in G.
  - destruct G as (r & -> & c' & -> & x & y & I & _). apply view_isrel in I. destruct I as (I1 & I2 & _).
    cbn [map bind]. rewrite I1, I2. reflexivity.
  - rewrite G. reflexivity.
Qed.
Definition checked (k : cls) (sc : sconfig A V) (v : result rel) : result (list (option cls * option rel)) :=
  do c <- chk A V k sc v; Ok [(Some k, Some c)].

Section OneRel.
Context (h : heap) (r : loc) (k : cls) (c : rel) (cf : hconfig A V).
Hypothesis (W : wf h).
Hypothesis (Hc : rel_view A V h r = Some c).
Hypothesis (Hk : cls_of A V h r = Some k).
Hypothesis (Hcf : cfg_of A V h r = Some cf).
Lemma one_isrel : exists x y, isrel h r k x y c cf.
Proof.
  destruct (isrel_view _ _ _ Hc) as (k' & x & y & cf' & I & E1 & E2 & E3). exists x, y.
  assert (k' = k) by congruence. assert (cf' = cf) by congruence. subst. auto.
Qed.
Lemma out_diff : outcome (ODiff A V r) h = checked k (h_scfg h) (rel_diff A V (hc_base cf) c).
Proof.
  destruct one_isrel as (x & y & I). eapply (outcome_one (fun _ => False)); [reflexivity| |auto].
  apply method_spec with (1 := I).
Qed.
Lemma out_integrate : outcome (OIntegrate A V r) h = checked k (h_scfg h) (rel_integrate A V (hc_base cf) c).
Proof.
  destruct one_isrel as (x & y & I). eapply (outcome_one (fun _ => False)); [reflexivity| |auto].
  apply method_spec with (1 := I).
Qed.
Lemma out_select s e : outcome (OSelect A V r s e) h = checked k (h_scfg h) (rel_select A V s e c).
Proof.
  destruct one_isrel as (x & y & I). eapply (outcome_one (fun _ => False)); [reflexivity| |auto].
  apply select_spec with (1 := I).
Qed.
Lemma out_interp nx : outcome (OInterp A V r nx) h =
  checked k (h_scfg h) (do p <- new_x_of A V h cf nx; rel_interp A V (hc_base cf) p c).
Proof.
  destruct one_isrel as (x & y & I). eapply (outcome_one (fun _ => False)); [reflexivity| |auto].
  apply interp_spec with (1 := I).
Qed.
Lemma out_op_num o v : outcome (OOperator A V o r (HVal (OVal v))) h =
  checked k (h_scfg h) (rel_op_num A V (hc_base cf) o c (OVal v)).
Proof.
  destruct one_isrel as (x & y & I). eapply (outcome_one (fun _ => False)); [reflexivity| |auto].
  apply operator_num. apply op_num_spec with (1 := I).
Qed.
Lemma out_shift d : is_sig k = false -> outcome (OShift A V r d) h = checked k (h_scfg h) (rel_shift A V d c).
Proof.
  intros Hs. destruct one_isrel as (x & y & I). eapply (outcome_one (fun _ => False)); [reflexivity| |auto].
  unfold h_shift. eapply rel_bind; [exact I|]. intros o _ -> _ _ _. rewrite Hs. apply shift_axis_spec with (1 := I).
Qed.
Lemma out_exp : outcome (OExp A V r) h = checked k (h_scfg h) (rel_map A V (vf_exp A V F) c).
Proof.
  destruct one_isrel as (x & y & I). eapply (outcome_one (fun _ => False)); [reflexivity| |auto].
  unfold h_exp. eapply rel_bind; [exact I|]. intros o _ -> _ _ _. apply map_spec with (1 := I).
Qed.
Lemma val_norm : fst (h_norm A V r h) = norm_val A V (h_scfg h) cf k c.
Proof.
  destruct one_isrel as (x & y & I). destruct (norm_spec A V (fun _ => False) h r k x y c cf I W) as (_ & _ & H).
  destruct (fst (h_norm A V r h)); auto.
Qed.
Lemma val_getitem v : fst (h_getitem A V r v h) = rel_getitem A V v c.
Proof.
  destruct one_isrel as (x & y & I). destruct (getitem_spec A V (fun _ => False) h r v k x y c cf I W) as (_ & _ & H).
  destruct (fst (h_getitem A V r v h)); auto. destruct H as (H & _). auto.
Qed.
End OneRel.
Lemma checked_plain k sc v : k <> KSweep -> checked k sc v = (do c <- v; Ok [(Some k, Some c)]).
Proof. intros H. unfold checked. rewrite chk_plain; auto. Qed.

(** two relations *)
Section TwoRel.
Context (h : heap) (r1 r2 : loc) (k1 k2 : cls) (c1 c2 : rel) (cf1 cf2 : hconfig A V) (a1 a2 : loc).
Hypothesis (W : wf h).
Hypothesis (Hc1 : rel_view A V h r1 = Some c1) (Hc2 : rel_view A V h r2 = Some c2).
Hypothesis (Hk1 : cls_of A V h r1 = Some k1) (Hk2 : cls_of A V h r2 = Some k2).
Hypothesis (Hf1 : cfg_of A V h r1 = Some cf1) (Hf2 : cfg_of A V h r2 = Some cf2).
Hypothesis (Ha1 : axis_of A V h r1 = Some a1) (Ha2 : axis_of A V h r2 = Some a2).
Lemma two_isrel : (exists y, isrel h r1 k1 a1 y c1 cf1) /\ (exists y, isrel h r2 k2 a2 y c2 cf2).
Proof.
  destruct (isrel_view _ _ _ Hc1) as (k & x & y & cf & I & E1 & E2 & E3).
  destruct (isrel_view _ _ _ Hc2) as (k' & x' & y' & cf' & I' & E1' & E2' & E3').
  assert (k = k1) by congruence. assert (k' = k2) by congruence. assert (x = a1) by congruence. assert (x' = a2) by congruence.
  assert (cf = cf1) by congruence. assert (cf' = cf2) by congruence. subst. eauto.
Qed.
Lemma out_op_rel o : (converting o = true -> (is_sig k1 = true -> is_spec k2 = false) /\ (is_spec k1 = true -> is_sig k2 = false)) ->
  outcome (OOperator A V o r1 (HRel r2)) h =
  (do c <- op_val A V (h_scfg h) (h_cfg h) cf1 cf2 k1 k2 o (Nat.eqb a1 a2) c1 c2; Ok [(Some k1, Some c)]).
Proof.
  intros Hcl. destruct two_isrel as ((y1 & I1) & y2 & I2).
  eapply (outcome_one (fun _ => False)); [reflexivity| |auto].
  pose proof (op_rel_spec A V (fun _ => False) h o r1 r2 _ _ _ _ _ _ _ _ _ _ I1 I2) as S. cbn zeta in S.
  unfold h_operator. eapply rel_bind; [exact I1|]. intros o1 _ -> _ _ _.
  destruct (converting o); cbn [negb]; [|exact S]. destruct (Hcl eq_refl) as [G1 G2].
  destruct (is_sig k1) eqn:Hs.
  - eapply rel_bind; [exact I2|]. intros o2 _ -> _ _ _. rewrite (G1 eq_refl). exact S.
  - destruct (is_spec k1) eqn:Hp; [|exact S]. eapply rel_bind; [exact I2|]. intros o2 _ -> _ _ _. rewrite (G2 eq_refl). exact S.
Qed.
Lemma out_equalize : outcome (OEqualize A V r1 r2) h =
  (do e <- equalize_val A V (h_scfg h) (h_cfg h) cf1 cf2 k1 k2 (Nat.eqb a1 a2) c1 c2;
   Ok [(Some k1, Some (fst e)); (Some k2, Some (snd e))]).
Proof.
  destruct two_isrel as ((y1 & I1) & y2 & I2).
  destruct (equalize_spec A V (fun _ => False) h r1 r2 _ _ _ _ _ _ _ _ _ _ I1 I2 W) as (_ & _ & G).
  unfold HeapSpec.outcome. cbn [HeapModel.exec]. unfold bindM, ret.
  destruct (h_equalize A V r1 r2 h) as [[e|er] h']; cbn in G |- *.
  - destruct G as (d1 & d2 & g1 & g2 & -> & (x & y & J1 & _) & (x' & y' & J2 & _)).
    apply view_isrel in J1. apply view_isrel in J2. destruct J1 as (-> & -> & _). destruct J2 as (-> & -> & _). reflexivity.
  - rewrite G. reflexivity.
Qed.
Lemma out_lagged_custom l f : lag_method A V l (h_cfg h) = Some f ->
  outcome (OLagged A V l KRel (HRel r1) (HRel r2)) h =
  (do xy <- f c1 c2; do c <- rel_make A V (fst xy) (snd xy); Ok [(Some KRel, Some c)]).
Proof.
  intros Hf. destruct two_isrel as ((y1 & I1) & y2 & I2).
  transitivity (do c <- (do xy <- f c1 c2; rel_make A V (fst xy) (snd xy)); Ok [(Some KRel, Some c)]).
  2:{ destruct (f c1 c2); reflexivity. }
  eapply (outcome_one (fun _ => False)); [reflexivity| |auto].
  unfold h_lagged, h_rel_lagged. cbn [is_sig is_spec]. apply ok_cfg_bind. rewrite Hf.
  apply ok_assoc. eapply content_bind; [exact I1|]. apply ok_assoc. eapply content_bind; [exact I2|].
  apply ok_lift_bind.
  - intros xy Hxy. apply new_ax_bind. intros h1 ax W1 X1 Hax Hp R1 Y1.
    eapply construct_fresh with (h0 := h); [exact X1|apply Nat.le_refl|eauto| |].
    + intros r h' W' Hm Hres X'. rewrite Hxy. cbn. rewrite chk_plain in Hm by discriminate. eauto.
    + intros e He. rewrite Hxy. cbn. rewrite chk_plain in He by discriminate. auto.
  - intros e He. rewrite He. reflexivity.
Qed.
End TwoRel.
End HeapL5.
