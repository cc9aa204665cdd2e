(** Proofs about texts of objects and components of a signal (C79, C80). *)
From Coq Require Import ZArith Reals List Bool Lia Lra.
From Verif Require Import Num Numpy AxisModel RelModel HeapModel HeapSpec HeapLemmas HeapLemmas2 HeapLemmas3 HeapLemmas4
  HeapLemmas5 UtilModel.
From Verif Require Import RLemmas AxisLemmas Spec InterpLemmas RelLemmas.
Import ListNotations.

Section Gen.
Context (A : Arith) (V : Vals A) (F : vfun A V).
Notation axis := (axis A).
Notation rel := (rel A V).
Notation heap := (heap A V).
Notation val := (val V).
Notation step := (step A V F).
Notation run := (run A V F).
Notation op := (op A V).
Notation reachable := (reachable A V F).
Notation nax h a := (nth_error (h_ax h) a).
Notation nrel h r := (nth_error (h_rel h) r).

(** what a history of calls that assign nothing keeps *)
Definition quiet (ops : list op) : Prop := Forall (fun o => ~ assigns A V o) ops.
Lemma quiet_run ops : forall h, quiet ops -> reachable h ->
  reachable (run ops h) /\
  (forall r c, rel_view A V h r = Some c -> rel_view A V (run ops h) r = Some c) /\
  (forall a p, ax_view A V h a = Some p -> ax_view A V (run ops h) a = Some p) /\
  (forall r a, axis_of A V h r = Some a -> axis_of A V (run ops h) r = Some a) /\
  (forall r k, cls_of A V h r = Some k -> cls_of A V (run ops h) r = Some k).
Proof.
  induction ops as [|o ops IH]; intros h Q R.
  - cbn. auto.
  - inversion Q as [|? ? Q1 Q2]; subst. destruct (operands_kept A V F h o R Q1) as (H1 & H2 & H3 & H4).
    destruct (IH (step h o) Q2 (reachable_step A V F h o R)) as (G0 & G1 & G2 & G3 & G4). cbn [HeapModel.run fold_left].
    change (fold_left step ops (step h o)) with (run ops (step h o)).
    split; [exact G0|]. split; [|split; [|split]]; intros; auto.
    apply G2. apply H2. auto.
Qed.

Ltac quiet_tac := unfold quiet; repeat (apply Forall_cons; [cbn; tauto|]); apply Forall_nil.
(** *** texts *)
Lemma axis_text_spec h a p : reachable h -> ax_view A V h a = Some p ->
  fst (h_axis_str A V a h) = axis_str A p /\ exists ops, quiet ops /\ snd (h_axis_str A V a h) = run ops h.
Proof.
  intros R Ha.
  assert (Ho : exists o, nax h a = Some o /\ ao_p o = p).
  { unfold ax_view in Ha. destruct (nax h a) as [o|]; [|discriminate]. exists o. split; auto. cbn in Ha. congruence. }
  destruct Ho as (o & Ho & Hp).
  destruct (never_stale A V F h a p R Ha) as (_ & Hs & _). unfold read_size in Hs.
  assert (S1 : snd (ax_size A V a h) = step h (OSize A V a)).
  { unfold HeapModel.step. cbn [HeapModel.exec]. rewrite snd_none. reflexivity. }
  assert (Eq : h_axis_str A V a h = match ax_size A V a h with
    | (Ok n, h1) => match ax_actual A V a h1 with
                    | (Ok d, h2) => (Ok (mkText (a_start (ao_p o)) (a_end (ao_p o)) (a_sample (ao_p o)) n d), h2)
                    | (Err e, h2) => (Err e, h2) end
    | (Err e, h1) => (Err e, h1) end).
  { unfold h_axis_str, bindM, get_ax, rd. rewrite Ho. reflexivity. }
  rewrite Eq. clear Eq.
  destruct (ax_size A V a h) as [[n|e] h1] eqn:E1; cbn [fst snd] in *; unfold axis_str; rewrite <- Hs; cbn [bind].
  - subst h1. assert (Q1 : ~ assigns A V (OSize A V a)) by (cbn; tauto).
    destruct (operands_kept A V F h _ R Q1) as (_ & K & _). destruct (K a p Ha) as [Ha1 _].
    pose proof (reachable_step A V F h (OSize A V a) R) as R1.
    destruct (never_stale A V F _ a p R1 Ha1) as (_ & _ & Hd). unfold read_actual in Hd.
    assert (S2 : snd (ax_actual A V a (step h (OSize A V a))) = step (step h (OSize A V a)) (OActual A V a)).
    { unfold HeapModel.step at 2. cbn [HeapModel.exec]. rewrite snd_none. reflexivity. }
    destruct (ax_actual A V a (step h (OSize A V a))) as [[d|e] h2] eqn:E2; cbn [fst snd ret] in *.
    + split.
      * destruct (axis_array A p) as [xs|e]; cbn [bind] in *; [|discriminate]. rewrite <- Hd. cbn [bind]. rewrite Hp. reflexivity.
      * exists [OSize A V a; OActual A V a]. split; [quiet_tac|exact S2].
    + split.
      * destruct (axis_array A p) as [xs|e']; cbn [bind] in *; [|congruence]. rewrite <- Hd. reflexivity.
      * exists [OSize A V a; OActual A V a]. split; [quiet_tac|exact S2].
  - split; [reflexivity|]. exists [OSize A V a]. split; [quiet_tac|exact S1].
Qed.
Lemma rel_text_spec h r c : reachable h -> rel_view A V h r = Some c ->
  fst (h_rel_str A V r h) = rel_str A V c /\ exists ops, quiet ops /\ snd (h_rel_str A V r h) = run ops h.
Proof.
  intros R H. destruct (isrel_view A V h r c H) as (k & x & y & cf & (o & ax & H1 & H2 & H3 & H4 & H5 & H6 & H7 & H8) & _).
  assert (Hv : ax_view A V h x = Some (r_x c)). { unfold ax_view. rewrite H6. cbn. congruence. }
  destruct (axis_text_spec h x (r_x c) R Hv) as (G1 & ops & Q & G2).
  assert (Eq : h_rel_str A V r h = match h_axis_str A V x h with (Ok t, h1) => (Ok (r_y c, t), h1) | (Err e, h1) => (Err e, h1) end).
  { unfold h_rel_str, bindM, get_rel, get_y, rd. rewrite H1, H4, H8, H3. reflexivity. }
  rewrite Eq. clear Eq. destruct (h_axis_str A V x h) as [[t|e] h1]; cbn [fst snd ret] in *; unfold rel_str; rewrite <- G1; cbn [bind];
    (split; [reflexivity|]); exists ops; auto.
Qed.

(** *** components *)
Definition component (h h' : heap) (p : axis) (r : loc) (k : list val) : Prop :=
  cls_of A V h' r = Some KSig /\ rel_view A V h' r = Some (mkRel p k) /\
  exists a, axis_of A V h' r = Some a /\ ax_view A V h a = None /\ cls_of A V h r = None.
Lemma component_step h a p n k : reachable h -> ax_view A V h a = Some p -> axis_size A p = Ok n ->
  exists h1 ops, quiet ops /\ h1 = run ops h /\
  bindM A V (ax_copy A V a) (fun c => new_plain A V KSig (XaAxis c) (Some k) None) h =
    (if Nat.eqb n (length k) then Ok (length (h_rel h)) else Err (ENotEqual n (length k)), h1) /\
  (n = length k -> component h h1 p (length (h_rel h)) k).
Proof.
  intros R Ha Hn.
  destruct (copy_view A V F h a p Ha) as (c & E1 & E2 & N1 & V1 & V2).
  set (h0 := step h (OCopyAxis A V a)) in *.
  pose proof (reachable_step A V F h (OCopyAxis A V a) R) as R0. fold h0 in R0.
  assert (Hlen : length (h_rel h0) = length (h_rel h)).
  { unfold h0, HeapModel.step. cbn [HeapModel.exec]. rewrite snd_none. unfold ax_copy, bindM, get_ax, rd.
    destruct (nax h a); reflexivity. }
  assert (Ho : exists o, nax h0 c = Some o /\ ao_p o = p).
  { unfold ax_view in V1. destruct (nax h0 c) as [o|]; [|discriminate]. exists o. split; auto. cbn in V1. congruence. }
  destruct Ho as (o & Ho & Hp).
  destruct (new_plain_axis A V (fun _ => False) h0 KSig c o k None Ho ltac:(intros l; discriminate) (reachable_wf A V F h0 R0))
    as (W1 & X1 & G).
  assert (Hs : snd (new_plain A V KSig (XaAxis c) (Some k) None h0) = step h0 (ONew A V KSig (XaAxis c) (Some k))).
  { unfold HeapModel.step. cbn [HeapModel.exec]. unfold one, bindM, construct.
    destruct (new_plain A V KSig (XaAxis c) (Some k) None h0) as [[?|?] ?]; reflexivity. }
  exists (step h0 (ONew A V KSig (XaAxis c) (Some k))), [OCopyAxis A V a; ONew A V KSig (XaAxis c) (Some k)].
  split; [quiet_tac|]. split; [reflexivity|].
  unfold bindM. destruct (ax_copy A V a h) as [rc hc]. cbn [fst snd] in E1, E2. subst rc hc.
  rewrite rel_make_cases, Hp, Hn in G.
  destruct (new_plain A V KSig (XaAxis c) (Some k) None h0) as [[r|e] h1]; cbn [fst snd] in *; subst h1.
  - destruct G as (G1 & (y & G2 & G3 & G4) & -> & _). destruct (Nat.eqb_spec n (length k)) as [En|En]; [|discriminate].
    rewrite Hlen in *. split; [reflexivity|]. intros _. destruct (view_isrel A V _ _ _ _ _ _ _ G2) as (I1 & I2 & I3 & _).
    split; [exact I2|]. split; [exact I1|]. exists c. split; [exact I3|]. split; [exact N1|].
    unfold cls_of. rewrite (proj2 (nth_error_None _ _)) by lia. reflexivity.
  - destruct (Nat.eqb_spec n (length k)) as [En|En]; [discriminate|]. injection G as <-. split; [reflexivity|]. contradiction.
Qed.
Lemma view_none_cls h r : cls_of A V h r = None -> rel_view A V h r = None.
Proof. unfold cls_of, rel_view. destruct (nrel h r); [discriminate|reflexivity]. Qed.
Lemma components_ok a p n : axis_size A p = Ok n -> forall ks h, reachable h -> ax_view A V h a = Some p ->
  Forall (fun k => length k = n) ks ->
  exists rs ops, quiet ops /\ h_components A V a ks h = (Ok rs, run ops h) /\
    Forall2 (component h (run ops h) p) rs ks /\ NoDup rs /\ NoDup (map (axis_of A V (run ops h)) rs).
Proof.
  intros Hn. induction ks as [|k ks IH]; intros h R Ha Hk.
  - exists [], []. split; [constructor|]. cbn. split; [reflexivity|]. repeat split; constructor.
  - inversion Hk as [|? ? Hk1 Hk2]; subst.
    destruct (component_step h a p _ k R Ha Hn) as (h1 & ops1 & Q1 & E1 & E2 & C1).
    specialize (C1 eq_refl). rewrite Nat.eqb_refl in E2.
    destruct (quiet_run ops1 h Q1 R) as (R1 & K1 & K2 & K3 & K4). rewrite <- E1 in *.
    destruct (IH h1 R1 (K2 _ _ Ha) Hk2) as (rs & ops2 & Q2 & E3 & C2 & D1 & D2).
    destruct (quiet_run ops2 h1 Q2 R1) as (R2 & L1 & L2 & L3 & L4).
    assert (Er : run (ops1 ++ ops2) h = run ops2 h1).
    { rewrite E1. unfold HeapModel.run. apply fold_left_app. }
    exists (length (h_rel h) :: rs), (ops1 ++ ops2). split; [apply Forall_app; auto|]. rewrite Er.
    split.
    { cbn [h_components]. unfold bindM in E2. unfold bindM at 1. destruct (ax_copy A V a h) as [[c|e] h0]; [|discriminate].
      unfold bindM at 1. rewrite E2. unfold bindM. rewrite E3. reflexivity. }
    destruct C1 as (B1 & B2 & ax1 & B3 & B4 & B5).
    assert (Hold : forall r k', component h1 (run ops2 h1) p r k' -> r <> length (h_rel h) /\ axis_of A V (run ops2 h1) r <> Some ax1).
    { intros r k' (_ & _ & a' & T1 & T2 & T3). split.
      - intros Hr. rewrite Hr in T3. congruence.
      - intros T4. assert (a' = ax1) by congruence. subst a'.
        destruct (view_axis A V h1 _ _ B2) as (a2 & T5 & T6). congruence. }
    split; [|split].
    + constructor.
      * split; [apply L4; auto|]. split; [apply L1; auto|]. exists ax1. split; [apply L3; auto|auto].
      * clear -C2 K2 K4 R1. induction C2 as [|r k' rs ks (T1 & T2 & a' & T3 & T4 & T5) _ IH2]; constructor; auto.
        split; auto. split; auto. exists a'. split; auto. split.
        -- destruct (ax_view A V h a') as [q|] eqn:E; auto. apply K2 in E. congruence.
        -- destruct (cls_of A V h r) as [q|] eqn:E; auto. apply K4 in E. congruence.
    + constructor; auto. intros Hi. clear -Hold C2 Hi. induction C2 as [|r k' rs ks C _ IH2]; cbn in Hi; [auto|].
      destruct Hi as [Hi|Hi]; auto. exact (proj1 (Hold _ _ C) Hi).
    + cbn [map]. rewrite (L3 _ _ B3). constructor; auto. intros Hi. clear -Hold C2 Hi.
      induction C2 as [|r k' rs ks C _ IH2]; cbn in Hi; [auto|].
      destruct Hi as [Hi|Hi]; auto. exact (proj2 (Hold _ _ C) Hi).
Qed.
Lemma components_err a p n : axis_size A p = Ok n -> forall ks1 k ks2 h, reachable h -> ax_view A V h a = Some p ->
  Forall (fun k => length k = n) ks1 -> length k <> n ->
  exists ops, quiet ops /\ h_components A V a (ks1 ++ k :: ks2) h = (Err (ENotEqual n (length k)), run ops h).
Proof.
  intros Hn. induction ks1 as [|k1 ks1 IH]; intros k ks2 h R Ha Hk Hl.
  - destruct (component_step h a p _ k R Ha Hn) as (h1 & ops1 & Q1 & E1 & E2 & _).
    destruct (Nat.eqb_spec n (length k)); [congruence|]. exists ops1. split; auto. cbn [app h_components].
    unfold bindM in E2. unfold bindM at 1. destruct (ax_copy A V a h) as [[c|e] h0].
    + unfold bindM at 1. rewrite E2. congruence.
    + congruence.
  - inversion Hk as [|? ? Hk1 Hk2]; subst.
    destruct (component_step h a p _ k1 R Ha Hn) as (h1 & ops1 & Q1 & E1 & E2 & _). rewrite Nat.eqb_refl in E2.
    destruct (quiet_run ops1 h Q1 R) as (R1 & K1 & K2 & K3 & K4). rewrite <- E1 in *.
    destruct (IH k ks2 h1 R1 (K2 _ _ Ha) Hk2 Hl) as (ops2 & Q2 & E3).
    exists (ops1 ++ ops2). split; [apply Forall_app; auto|]. cbn [app h_components].
    unfold bindM in E2. unfold bindM at 1. destruct (ax_copy A V a h) as [[c|e] h0]; [|discriminate].
    unfold bindM at 1. rewrite E2. unfold bindM. rewrite E3. rewrite E1. f_equal. unfold HeapModel.run. symmetry. apply fold_left_app.
Qed.
Lemma imfs_start emd h r c a : rel_view A V h r = Some c -> axis_of A V h r = Some a ->
  h_imfs A V emd r h = match emd (r_y c) with Ok ks => h_components A V a ks h | Err e => (Err e, h) end.
Proof.
  intros H Ha. destruct (isrel_view A V h r c H) as (k & x & y & cf & (o & ax & H1 & H2 & H3 & H4 & H5 & H6 & H7 & H8) & _ & Hx & _).
  unfold h_imfs, bindM at 1, get_rel, rd. rewrite H1. unfold bindM at 1, get_y, rd. rewrite H4, H8. rewrite H3.
  unfold bindM, lift. destruct (emd (r_y c)); [|reflexivity]. congruence.
Qed.
Lemma imfs_ok emd h r c n ks : reachable h -> rel_view A V h r = Some c -> emd (r_y c) = Ok ks ->
  axis_size A (r_x c) = Ok n -> Forall (fun k => length k = n) ks ->
  exists rs ops, quiet ops /\ h_imfs A V emd r h = (Ok rs, run ops h) /\
    Forall2 (component h (run ops h) (r_x c)) rs ks /\ NoDup rs /\ NoDup (map (axis_of A V (run ops h)) rs).
Proof.
  intros R H He Hn Hk. destruct (view_axis A V h r c H) as (a & Ha & Hp). rewrite (imfs_start emd h r c a H Ha), He.
  apply (components_ok a (r_x c) n Hn ks h R Hp Hk).
Qed.
Lemma imfs_err emd h r c n ks1 k ks2 : reachable h -> rel_view A V h r = Some c -> emd (r_y c) = Ok (ks1 ++ k :: ks2) ->
  axis_size A (r_x c) = Ok n -> Forall (fun k => length k = n) ks1 -> length k <> n ->
  exists ops, quiet ops /\ h_imfs A V emd r h = (Err (ENotEqual n (length k)), run ops h).
Proof.
  intros R H He Hn Hk Hl. destruct (view_axis A V h r c H) as (a & Ha & Hp). rewrite (imfs_start emd h r c a H Ha), He.
  apply (components_err a (r_x c) n Hn ks1 k ks2 h R Hp Hk Hl).
Qed.
End Gen.

Section Real.
Local Open Scope R_scope.
Lemma text_values s e d : d <> 0 -> exists n, round_half_even (Rabs (e - s) / Rabs d) (Z.of_nat n - 1) /\ (1 <= n)%nat /\
  axis_str RA (mkAxis (A:=RA) s e d) =
    if Nat.eqb n 1 then Err EValue else Ok (mkText (A:=RA) s e d n ((e - s) / INR (n - 1))).
Proof.
  intros Hd. destruct (axis_array_shape s e d Hd) as (n & arr & H1 & H2 & H3 & H4 & H5 & H6 & H7 & H8).
  exists n. split; [exact H5|]. split; [exact H4|]. unfold axis_str. rewrite H1, H2. cbn [bind].
  destruct (Nat.eqb_spec n 1) as [->|N].
  - rewrite (proj2 (actual_sample_err arr)); [reflexivity|]. change (num RA) with R in *. lia.
  - rewrite (proj2 (actual_sample_spec arr ((e - s) / INR (n - 1)))); [reflexivity|]. split.
    + destruct (nth_error arr 1) as [y|] eqn:E1; [|apply nth_error_None in E1; change (num RA) with R in *; lia].
      exists 0%nat, s, y. split; [exact H6|]. split; [exact E1|]. exact (H8 0%nat s y H6 E1).
    + intros i a b Ha Hb. rewrite (H8 i a b Ha Hb). apply Rle_refl.
Qed.
(** the axis has a single point exactly when it spans at most half a sample *)
Lemma one_point s e d n : d <> 0 -> round_half_even (Rabs (e - s) / Rabs d) (Z.of_nat n - 1) ->
  n = 1%nat <-> 2 * Rabs (e - s) <= Rabs d.
Proof.
  intros Hd H. pose proof (Rabs_pos_lt d Hd) as Pd. pose proof (Rabs_pos (e - s)) as Pe.
  set (q := Rabs (e - s) / Rabs d) in *.
  assert (Hq : Rabs (e - s) = q * Rabs d) by (unfold q; field; lra).
  assert (Pq : 0 <= q) by (unfold q; apply Rle_mult_inv_pos; auto).
  split.
  - intros ->. cbn in H. assert (q <= / 2).
    { destruct H as [H|[H _]]; rewrite Rminus_0_r, Rabs_right in H by lra; lra. }
    rewrite Hq. nra.
  - intros Hle. assert (q <= / 2) by nra.
    assert (HR : round_half_even q 0).
    { unfold round_half_even. rewrite Rminus_0_r, Rabs_right by lra. destruct (Rle_lt_or_eq_dec q (/2)) as [L|L]; [lra| |].
      - left. exact L.
      - right. split; [exact L|]. exists 0%Z. reflexivity. }
    pose proof (round_half_even_unique q _ _ H HR). lia.
Qed.
Context {V : Vals RA} (L : VLaws V).
Lemma sum_from_spec p n : axis_size RA p = Ok n -> forall ks k0, length k0 = n -> Forall (fun k => length k = n) ks ->
  sum_from RA V (default_config RA V) (mkRel p k0) (map (mkRel p) ks) =
    Ok (mkRel p (fold_left (fun s k => map2 (v_add V) s k) ks k0)).
Proof.
  intros Hn. induction ks as [|k ks IH]; intros k0 H0 Hk; [reflexivity|].
  inversion Hk as [|? ? Hk1 Hk2]; subst. cbn [map sum_from].
  rewrite (rel_op_equal_axes L ADD false (mkRel p k0) (mkRel p k)); cbn [r_x r_y]; auto.
  - cbn [bind]. rewrite IH; auto. rewrite map2_length; auto.
  - unfold valid. cbn. congruence.
Qed.
Lemma sum_from_value p n ks k0 y : axis_size RA p = Ok n -> length k0 = n -> Forall (fun k => length k = n) ks -> length y = n ->
  (forall i v, nth_error y i = Some v -> v = fold_left (v_add V) (map (fun k => nth i k (v_of V 0)) ks) (nth i k0 (v_of V 0))) ->
  sum_from RA V (default_config RA V) (mkRel p k0) (map (mkRel p) ks) = Ok (mkRel p y).
Proof.
  intros Hn H0 Hk Hy Hv. rewrite (sum_from_spec p n Hn ks k0 H0 Hk). f_equal. f_equal.
  assert (HG : forall ks k0, length k0 = n -> Forall (fun k => length k = n) ks ->
     length (fold_left (fun s k => map2 (v_add V) s k) ks k0) = n /\
     forall i, (i < n)%nat -> nth i (fold_left (fun s k => map2 (v_add V) s k) ks k0) (v_of V 0) =
       fold_left (v_add V) (map (fun k => nth i k (v_of V 0)) ks) (nth i k0 (v_of V 0))).
  { clear. induction ks as [|k ks IH]; intros k0 H0 Hk; [cbn; auto|]. inversion Hk as [|? ? Hk1 Hk2]; subst. cbn [fold_left map].
    destruct (IH (map2 (v_add V) k0 k)) as [I1 I2]; auto.
    { rewrite map2_length; auto. }
    split; [exact I1|]. intros i Hi. rewrite I2 by auto. f_equal.
    apply nth_error_nth. apply map2_nth; apply nth_error_nth'; lia. }
  destruct (HG ks k0 H0 Hk) as [G1 G2]. apply nth_ext with (d := v_of V 0) (d' := v_of V 0); [congruence|].
  intros i Hi. rewrite G1 in Hi. rewrite G2 by auto. symmetry. apply Hv. apply nth_error_nth'. lia.
Qed.
End Real.
