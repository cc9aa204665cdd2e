(** Sweep generators: laws, angles, samples (C40-C44, C46, C47). *)
From Coq Require Import Reals ZArith List Bool Lra Lia.
From Coquelicot Require Import Complex Coquelicot.
From Verif Require Import Num Numpy AxisModel RelModel HeapModel FourierModel Spec RLemmas AxisLemmas InterpLemmas
  VInst RelLemmas RelLemmas2 RelLemmas3 SweepModel SweepSpec.
Import ListNotations.

(** ** any arithmetic *)
Section Any.
Context (A : Arith) (V : Vals A) (W : wfun A V).
Notation num := (num A).
Notation val := (val V).
Notation axis := (axis A).
Notation rel := (rel A V).
Notation config := (config A V).

Lemma rel_make_any (x : axis) (y : list val) r :
  rel_make A V x y = Ok r <-> r = mkRel x y /\ axis_size A x = Ok (length y).
Proof.
  unfold rel_make. destruct (axis_size A x) as [n|e]; cbn [bind].
  - destruct (Nat.eqb_spec n (length y)) as [->|Hne]; split; intros H.
    + injection H as <-. auto.
    + destruct H as [-> _]. reflexivity.
    + discriminate.
    + destruct H as [_ H]. injection H as H. contradiction.
  - split; [discriminate|]. intros [_ H]. discriminate.
Qed.
Lemma bind_ok {T U} (a : result T) (k : T -> result U) u : bind a k = Ok u <-> exists t, a = Ok t /\ k t = Ok u.
Proof.
  destruct a as [t|e]; cbn; split.
  - intros H. exists t. auto.
  - intros (t' & E & H). injection E as ->. exact H.
  - discriminate.
  - intros (t & E & _). discriminate.
Qed.

Lemma law_eval_on (cur : config) l (x : axis) y : law_eval A V cur l x = Ok y <-> law_on cur l x y.
Proof.
  destruct l as [c|[us ys]]; cbn [law_eval].
  - rewrite bind_ok. split.
    + intros (ts & E & H). econstructor; eassumption.
    + intros H. inversion H; subst. eauto.
  - unfold ia_call. cbn [ia_x ia_y]. rewrite bind_ok. split.
    + intros (ts & E & H). destruct us as [|u0 us]; [discriminate|]. cbn [stretch] in E. injection E as <-.
      constructor. exact H.
    + intros H. inversion H; subst. eexists. split; [reflexivity|]. assumption.
Qed.
Lemma wave_same (tht0 : num) (am th : list val) : length am = length th ->
  wave A V W tht0 am th = Ok (map2 (v_mul V) am (map (fun v => w_sin A V W (v_add V v (v_of V tht0))) th)).
Proof. intros E. unfold wave. rewrite map_length, E, Nat.eqb_refl. reflexivity. Qed.
Lemma map2_len {S T U} (f : S -> T -> U) l m : length l = length m -> length (map2 f l m) = length l.
Proof.
  revert m; induction l as [|a l IH]; intros [|b m] H; try discriminate; [reflexivity|]. cbn.
  rewrite IH by (cbn in H; lia). reflexivity.
Qed.

Lemma us_call_exact (cur : config) (sc : sconfig A V) (g : ugen A V) (t : utime A) (tht0 : num) (s : sweepv A V) :
  us_call A V W cur sc g t tht0 = Ok s <->
  exists x fy am th,
    calling_axis (u_cfg g) (u_time g) t x /\
    law_on cur (u_f g) x fy /\ law_on cur (u_a g) x am /\ angle_on W cur (u_int g) (u_f g) x fy th /\
    axis_size A x = Ok (length fy) /\ length am = length fy /\ length th = length fy /\
    s = mkSweepv (mkRel x (map2 (v_mul V) am (map (fun v => w_sin A V W (v_add V v (v_of V tht0))) th)))
                 (mkRel x fy) (mkRel x am) /\
    sc_spectro A V sc (sw_rel s) = Ok tt.
Proof.
  unfold us_call. split.
  - intros H. rewrite bind_ok in H. destruct H as (x & Ex & H).
    rewrite bind_ok in H. destruct H as (fy & Ef & H).
    rewrite bind_ok in H. destruct H as (fr & Efr & H). apply rel_make_any in Efr. destruct Efr as [-> Nf].
    rewrite bind_ok in H. destruct H as (am & Ea & H).
    rewrite bind_ok in H. destruct H as (th & Et & H).
    rewrite bind_ok in H. destruct H as (tr & Etr & H). apply rel_make_any in Etr. destruct Etr as [_ Nt].
    rewrite bind_ok in H. destruct H as (y & Ey & H).
    rewrite bind_ok in H. destruct H as (ar & Ear & H). apply rel_make_any in Ear. destruct Ear as [-> Na].
    rewrite bind_ok in H. destruct H as (c & Ec & H). apply rel_make_any in Ec. destruct Ec as [-> Nc].
    assert (La : length am = length fy) by congruence. assert (Lt : length th = length fy) by congruence.
    rewrite wave_same in Ey by congruence. injection Ey as <-.
    unfold val_sweep in H. cbn [bind] in H. rewrite bind_ok in H. destruct H as ([] & Es & H). injection H as <-.
    exists x, fy, am, th. split.
    { destruct t as [|a|q].
      - destruct (u_time g) as [a|] eqn:E; [|discriminate]. injection Ex as ->. constructor. reflexivity.
      - injection Ex as ->. constructor.
      - constructor. exact Ex. }
    split; [apply law_eval_on; exact Ef|]. split; [apply law_eval_on; exact Ea|]. split.
    { destruct (u_f g) as [c|f]; cbn [law_tht law_eval] in *; [constructor; exact Et|].
      rewrite Ef in Et. cbn [bind] in Et. unfold array_tht in Et.
      assert (Em : rel_make A V x fy = Ok (mkRel x fy)) by (apply rel_make_any; auto).
      rewrite Em in Et. cbn [bind] in Et. rewrite bind_ok in Et. destruct Et as (i & Ei & Et). injection Et as <-.
      constructor. exact Ei. }
    repeat (split; [assumption || reflexivity|]). exact Es.
  - intros (x & fy & am & th & Cx & Lf & La & An & Nx & Nam & Nth & -> & Es). cbn [sw_rel] in Es.
    apply law_eval_on in Lf. apply law_eval_on in La.
    rewrite bind_ok. exists x. split; [destruct Cx; [reflexivity|assumption|rewrite H; reflexivity]|].
    assert (Em : forall y, length y = length fy -> rel_make A V x y = Ok (mkRel x y)).
    { intros y Hy. apply rel_make_any. split; [reflexivity|]. congruence. }
    rewrite Lf. cbn [bind]. rewrite Em by reflexivity. cbn [bind]. rewrite La. cbn [bind].
    assert (Et : law_tht A V W cur (u_int g) (u_f g) x = Ok th).
    { destruct An as [c x fy th E|f x fy i E]; cbn [law_tht law_eval] in *; [exact E|].
      rewrite Lf. cbn [bind]. unfold array_tht. rewrite Em by reflexivity. cbn [bind]. rewrite E. reflexivity. }
    rewrite Et. cbn [bind]. rewrite Em by assumption. cbn [bind]. rewrite wave_same by congruence. cbn [bind].
    rewrite Em by assumption. cbn [bind]. rewrite Em by (rewrite map2_len; rewrite ?map_length; congruence). cbn [bind].
    unfold val_sweep. cbn [bind]. rewrite Es. reflexivity.
Qed.

(** no time *)
Lemma us_new_none (cur : config) int f a g : us_new A V cur int UtNone f a = Ok g -> u_time g = None.
Proof.
  unfold us_new. cbn [bind]. intros H. rewrite bind_ok in H. destruct H as (i & Ei & H). injection H as <-. cbn [u_time].
  unfold get_info_from_ftat in Ei. rewrite bind_ok in Ei. destruct Ei as (f' & Ef & Ei).
  rewrite bind_ok in Ei. destruct Ei as (a' & Ea & Ei).
  assert (G : forall l p, extract_x_t A V cur TiNone l = Ok p -> fst p = None).
  { intros l p E. unfold extract_x_t in E. cbn [bind] in E. destruct l; try discriminate; try (injection E as <-; reflexivity).
    rewrite bind_ok in E. destruct E as (q & _ & E). injection E as <-. reflexivity. }
  apply G in Ef, Ea. rewrite Ef, Ea in Ei. cbn [bind] in Ei. injection Ei as <-. reflexivity.
Qed.
Lemma us_call_none (cur : config) sc int f a g tht0 (cur0 : config) : us_new A V cur0 int UtNone f a = Ok g ->
  us_call A V W cur sc g UtNone tht0 = Err EBadInput.
Proof. intros H. apply us_new_none in H. unfold us_call. rewrite H. reflexivity. Qed.
Lemma us_new_array_f (cur : config) int y a : us_new A V cur int UtNone (LiArr y) a = Err EBadInput.
Proof. reflexivity. Qed.
Lemma us_new_array_a (cur : config) int f y :
  (exists e, us_new A V cur int UtNone f (LiArr y) = Err e) /\
  ((exists g, us_new A V cur int UtNone f LiNone = Ok g) -> us_new A V cur int UtNone f (LiArr y) = Err EBadInput).
Proof.
  unfold us_new, get_info_from_ftat. cbn [bind default_law].
  destruct (extract_x_t A V cur TiNone (default_law A V (linear_time A V) f)) as [p|e]; cbn [bind].
  - split; [eexists; reflexivity|]. intros _. reflexivity.
  - split; [eexists; reflexivity|]. intros [g H]. discriminate.
Qed.

(** normalisation loses the laws *)
Lemma ap_call_estimates (cur scfg : config) sc (g : ugen A V) sg t tht0 s :
  ap_call A V W cur scfg sc g sg t tht0 true = Ok s ->
  r_x (sw_ft s) = r_x (sw_rel s) /\ r_x (sw_at s) = r_x (sw_rel s) /\
  sc_ft A V sc (sw_rel s) = Ok (r_y (sw_ft s)) /\ sc_at A V sc (sw_rel s) = Ok (r_y (sw_at s)).
Proof.
  unfold ap_call. intros H. rewrite bind_ok in H. destruct H as (s0 & _ & H).
  repeat (rewrite bind_ok in H; destruct H as (? & _ & H)).
  unfold val_sweep in H. rewrite bind_ok in H. destruct H as (f & Ef & H). rewrite bind_ok in H. destruct H as (a & Ea & H).
  rewrite bind_ok in H. destruct H as (q & _ & H). injection H as <-. cbn [sw_rel sw_ft sw_at].
  rewrite bind_ok in Ef. destruct Ef as (yf & Ef & Mf). rewrite bind_ok in Ea. destruct Ea as (ya & Ea & Ma).
  apply rel_make_any in Mf, Ma. destruct Mf as [-> _], Ma as [-> _]. auto.
Qed.
Lemma ap_call_raw (cur scfg : config) sc (g : ugen A V) sg t tht0 :
  ap_call A V W cur scfg sc g sg t tht0 false = us_call A V W cur sc g t tht0.
Proof. unfold ap_call. destruct us_call; reflexivity. Qed.
End Any.

(** ** reals *)
Local Open Scope R_scope.

Lemma incr_affine x k b : 0 < k -> incr x -> incr (map (fun u => u * k + b) x).
Proof.
  intros Hk Hx i j p q Hij Hp Hq. rewrite nth_error_map in Hp, Hq.
  destruct (nth_error x i) as [a|] eqn:Ea; [|discriminate]. destruct (nth_error x j) as [c|] eqn:Ec; [|discriminate].
  injection Hp as <-. injection Hq as <-. pose proof (Hx i j a c Hij Ea Ec). nra.
Qed.

Section Laws.
Context {V : Vals RA} (L : VLaws V).
Notation val := (val V).
Notation DC := (default_config RA V).
Add Field VF : (vl_field V L).

Lemma pl_affine (xs : list R) (ys : list val) k b t v : 0 < k ->
  pl_value (map (fun u => u * k + b) xs) ys t v -> pl_value xs ys ((t - b) / k) v.
Proof.
  intros Hk H. destruct H as [i y Hx Hy|i x0 x1 y0 y1 Hx0 Hx1 Hy0 Hy1 Ht|Hne Hout].
  - rewrite nth_error_map in Hx. destruct (nth_error xs i) as [u|] eqn:Eu; [|discriminate]. injection Hx as <-.
    apply PL_point with i; [|exact Hy]. rewrite Eu. f_equal. field. lra.
  - rewrite nth_error_map in Hx0, Hx1.
    destruct (nth_error xs i) as [u0|] eqn:Eu0; [|discriminate].
    destruct (nth_error xs (S i)) as [u1|] eqn:Eu1; [|discriminate].
    injection Hx0 as <-. injection Hx1 as <-.
    assert (Hne : u0 <> u1) by (intros ->; lra).
    replace (line (V:=V) (u0 * k + b) y0 (u1 * k + b) y1 t) with (line (V:=V) u0 y0 u1 y1 ((t - b) / k)).
    + apply PL_between with i; auto.
      assert (Eq : t = (t - b) / k * k + b) by (field; lra). set (q := (t - b) / k) in *. rewrite Eq in Ht.
      destruct Ht as [Ht|Ht]; [left|right]; split; nra.
    + unfold line. do 3 f_equal. field. split; [|lra].
      replace (u1 * k + b - (u0 * k + b)) with ((u1 - u0) * k) by ring. apply Rmult_integral_contrapositive. lra.
  - apply PL_outside; [destruct xs; [tauto|discriminate]|].
    assert (Eq : t = (t - b) / k * k + b) by (field; lra). set (q := (t - b) / k) in *. rewrite Eq in Hout.
    destruct Hout as [Ho|Ho]; [left|right]; intros x Hx;
      pose proof (Ho _ (in_map (fun u => u * k + b) _ _ Hx)) as HH; cbv beta in HH; nra.
Qed.

(** interpolation onto an axis *)
Lemma interp_default_eq (xs : list R) (ys : list val) (a : axis RA) n : length xs = length ys ->
  axis_size RA a = Ok n ->
  interpolate_default RA V xs ys a =
  Ok (map (interp_at RA V (sort_pts RA V (combine xs ys))) (grid (a_start a) (a_end a) n)).
Proof.
  intros Hl Hn. unfold interpolate_default, interp1d. rr. rewrite Hl, Nat.eqb_refl. cbn [bind].
  rewrite (axis_array_size a n Hn). reflexivity.
Qed.
Lemma interp_default_pl (xs : list R) (ys : list val) (a : axis RA) n : incr xs \/ decr xs -> length xs = length ys -> xs <> [] ->
  axis_size RA a = Ok n ->
  exists y, interpolate_default RA V xs ys a = Ok y /\ length y = n /\
    forall i t v, nth_error (grid (a_start a) (a_end a) n) i = Some t ->
      (nth_error y i = Some v <-> pl_value xs ys t v).
Proof.
  intros Hm Hl Hne Hn. eexists. split; [exact (interp_default_eq xs ys a n Hl Hn)|].
  split; [rewrite map_length; apply grid_length|].
  intros i t v Ht. rr. rewrite nth_error_map, Ht. cbn [option_map]. rewrite (interp_pl L) by assumption.
  split; [intros E; injection E as <-; reflexivity | intros ->; reflexivity].
Qed.

Definition law_time (x : list R) (s e t : R) : R := (t - s + nth 0 x 0) / (e - s) * last x 0.

Lemma last_indep {T} (l : list T) d d' : l <> [] -> last l d = last l d'.
Proof.
  induction l as [|a [|b l] IH]; intros H; [tauto|reflexivity|]. change (last (b :: l) d = last (b :: l) d').
  apply IH. discriminate.
Qed.

Lemma ia_call_pl (x : list R) (y : list val) (a : axis RA) n :
  incr x -> x <> [] -> length x = length y -> 0 < last x 0 -> a_start a < a_end a -> axis_size RA a = Ok n ->
  exists w, ia_call RA V DC (mkIA (A:=RA) (V:=V) x y) a = Ok w /\ length w = n /\
    forall i t v, nth_error (grid (a_start a) (a_end a) n) i = Some t -> nth_error w i = Some v ->
      pl_value x y (law_time x (a_start a) (a_end a) t) v.
Proof.
  intros Hi Hne Hl Hp Hse Hn. destruct x as [|x0 xr]; [tauto|].
  set (k := (a_end a - a_start a) / last (x0 :: xr) 0). assert (Hk : 0 < k) by (apply Rdiv_lt_0_compat; rr; lra).
  set (f := fun u : R => u * k + (a_start a - x0)).
  assert (E : ia_call RA V DC (mkIA (A:=RA) (V:=V) (x0 :: xr) y) a = interpolate_default RA V (map f (x0 :: xr)) y a).
  { unfold ia_call. cbn [ia_x ia_y stretch bind]. cbn [default_config c_interp]. apply (f_equal (fun l => interpolate_default RA V l y a)).
    rr. rewrite (last_indep (x0 :: xr) x0 0) by discriminate. apply map_ext. intros u. unfold f, k. cbn [RA n_add n_sub n_mul n_div].
    match goal with |- @eq _ ?p ?q => change (@eq R p q) end. rr. ring. }
  destruct (interp_default_pl (map f (x0 :: xr)) y a n) as (w & Ew & Lw & Hw).
  - left. apply (incr_affine (x0 :: xr) k (a_start a - x0) Hk Hi).
  - rewrite map_length. exact Hl.
  - discriminate.
  - exact Hn.
  - exists w. rewrite E. split; [exact Ew|]. split; [exact Lw|]. intros i t v Ht Hv.
    apply (Hw i t v Ht) in Hv. unfold f in Hv. apply pl_affine in Hv; [|exact Hk].
    replace (law_time (x0 :: xr) (a_start a) (a_end a) t) with ((t - (a_start a - x0)) / k); [exact Hv|].
    unfold law_time, k. cbn [nth]. rr. set (q := last (x0 :: xr) 0) in *. field. split; lra.
Qed.

Lemma grid_last s e n : (2 <= n)%nat -> nth_error (grid s e n) (n - 1) = Some e.
Proof.
  intros H. rewrite grid_nth by lia. destruct n as [|[|m]]; try lia. replace (S (S m) - 1)%nat with (S m) by lia.
  rewrite grid_pt_last. reflexivity.
Qed.
Lemma grid_first s e n : (0 < n)%nat -> nth_error (grid s e n) 0 = Some s.
Proof. intros H. rewrite grid_nth by lia. unfold grid_pt. f_equal. cbn. ring. Qed.

Lemma nth0 (x : list R) x0 : nth_error x 0 = Some x0 -> nth 0 x 0 = x0.
Proof. destruct x; [discriminate|]. intros H. injection H as ->. reflexivity. Qed.

(** a law that starts at time 0 *)
Lemma stretch_zero (x : list R) (y : list val) (a : axis RA) n :
  incr x -> length x = length y -> nth_error x 0 = Some 0 -> 0 < last x 0 ->
  a_start a < a_end a -> axis_size RA a = Ok n ->
  exists w, ia_call RA V DC (mkIA (A:=RA) (V:=V) x y) a = Ok w /\ length w = n /\
    (forall i t v, nth_error (grid (a_start a) (a_end a) n) i = Some t -> nth_error w i = Some v ->
      at_fraction x y ((t - a_start a) / (a_end a - a_start a)) v) /\
    nth_error w 0 = nth_error y 0 /\
    ((2 <= n)%nat -> nth_error w (n - 1) = nth_error y (length y - 1)).
Proof.
  intros Hi Hl H0 Hp Hse Hn. assert (Hne : x <> []) by (intros ->; discriminate).
  destruct (ia_call_pl x y a n Hi Hne Hl Hp Hse Hn) as (w & Ew & Lw & Hw).
  exists w. split; [exact Ew|]. split; [exact Lw|].
  assert (G : forall i t v, nth_error (grid (a_start a) (a_end a) n) i = Some t -> nth_error w i = Some v ->
      at_fraction x y ((t - a_start a) / (a_end a - a_start a)) v).
  { intros i t v Ht Hv. specialize (Hw i t v Ht Hv). unfold law_time in Hw. rewrite (nth0 x 0 H0) in Hw.
    unfold at_fraction. replace (t - a_start a + 0) with (t - a_start a) in Hw by lra. exact Hw. }
  split; [exact G|].
  assert (Hn0 : (0 < n)%nat) by (eapply axis_size_pos; exact Hn).
  assert (U : forall i u v v', nth_error x i = Some u -> nth_error y i = Some v' -> pl_value x y u v -> v = v').
  { intros i u v v' Hu Hv' Hv. apply (pl_value_incr L) in Hv; [|assumption..]. rewrite Hv. symmetry.
    apply (pl_value_incr L); [assumption..|]. eapply PL_point; eassumption. }
  split.
  - destruct (nth_error_lt w 0 ltac:(lia)) as [v Hv]. destruct (nth_error_lt y 0) as [v' Hv'].
    { rewrite <- Hl. eapply nth_error_len. exact H0. }
    rewrite Hv, Hv'. f_equal. apply (U 0%nat 0); [exact H0|exact Hv'|].
    pose proof (G 0%nat (a_start a) v (grid_first _ _ _ Hn0) Hv) as HG. unfold at_fraction in HG.
    replace ((a_start a - a_start a) / (a_end a - a_start a) * last x 0) with 0 in HG; [exact HG|]. rr. field. lra.
  - intros H2. destruct (nth_error_lt w (n - 1) ltac:(lia)) as [v Hv].
    assert (Hyl : (length y - 1 < length y)%nat) by (pose proof (nth_error_len _ _ _ H0); lia).
    destruct (nth_error_lt y _ Hyl) as [v' Hv'].
    rewrite Hv, Hv'. f_equal. apply (U (length y - 1)%nat (last x 0)); [|exact Hv'|].
    { rewrite <- Hl. apply last_nth_error. exact Hne. }
    pose proof (G _ (a_end a) v (grid_last _ _ _ H2) Hv) as HG. unfold at_fraction in HG.
    replace ((a_end a - a_start a) / (a_end a - a_start a) * last x 0) with (last x 0) in HG; [exact HG|]. rr. field. lra.
Qed.
(** a law that starts later is lost at the end *)
Lemma stretch_late (x : list R) (y : list val) (a : axis RA) n x0 :
  incr x -> length x = length y -> nth_error x 0 = Some x0 -> 0 < x0 ->
  a_start a < a_end a -> axis_size RA a = Ok n -> (2 <= n)%nat ->
  exists w, ia_call RA V DC (mkIA (A:=RA) (V:=V) x y) a = Ok w /\ length w = n /\ nth_error w (n - 1) = Some (v_of V 0) /\
    (forall i t v, nth_error (grid (a_start a) (a_end a) n) i = Some t -> nth_error w i = Some v ->
      a_end a - x0 < t -> v = v_of V 0).
Proof.
  intros Hi Hl H0 Hp Hse Hn H2. assert (Hne : x <> []) by (intros ->; discriminate).
  assert (Hmax : forall u, In u x -> u <= last x 0).
  { intros u Hu. apply In_nth_error in Hu. destruct Hu as [i Hu].
    pose proof (last_nth_error x 0 Hne) as Hla. pose proof (nth_error_len _ _ _ Hu).
    destruct (Nat.eq_dec i (length x - 1)) as [->|Hd]; [rewrite Hu in Hla; injection Hla as ->; lra|].
    apply Rlt_le. apply (Hi i (length x - 1)%nat); [lia|exact Hu|exact Hla]. }
  assert (Hlast : 0 < last x 0) by (specialize (Hmax x0 (nth_error_In _ _ H0)); lra).
  destruct (ia_call_pl x y a n Hi Hne Hl Hlast Hse Hn) as (w & Ew & Lw & Hw).
  exists w. split; [exact Ew|]. split; [exact Lw|].
  assert (G : forall i t v, nth_error (grid (a_start a) (a_end a) n) i = Some t -> nth_error w i = Some v ->
      a_end a - x0 < t -> v = v_of V 0).
  { intros i t v Ht Hv Hlt. specialize (Hw i t v Ht Hv).
    apply (pl_value_incr L) in Hw; [|assumption..]. rewrite Hw. symmetry. apply (pl_value_incr L); [assumption..|].
    apply PL_outside; [exact Hne|]. left. intros u Hu. apply Hmax in Hu. unfold law_time. rewrite (nth0 x x0 H0). rr.
    assert (1 < (t - a_start a + x0) / (a_end a - a_start a)).
    { apply Rlt_div_r; lra. }
    nra. }
  split; [|exact G].
  destruct (nth_error_lt w (n - 1) ltac:(lia)) as [v Hv]. rewrite Hv. f_equal.
  apply (G _ (a_end a) v (grid_last _ _ _ H2) Hv). rr. lra.
Qed.

(** ** resampling of law arrays *)
Lemma law_axis_size (t : axis RA) m : (2 <= m)%nat -> a_start t <> a_end t ->
  exists ct, law_axis RA t m = Ok ct /\ a_start ct = a_start t /\ a_end ct = a_end t /\ axis_size RA ct = Ok m.
Proof.
  intros Hm Hne. unfold law_axis. replace (Nat.eqb m 1) with false by (symmetry; apply Nat.eqb_neq; lia).
  eexists. split; [reflexivity|]. split; [reflexivity|]. split; [reflexivity|].
  assert (Hz : 0 < IZR (Z.of_nat m - 1)) by (apply IZR_lt; lia).
  rewrite axis_size_nz.
  - cbn [a_start a_end a_sample RA n_div n_sub n_of_Z]. rr. f_equal.
    replace ((a_end t - a_start t) / ((a_start t - a_end t) / IZR (Z.of_nat m - 1))) with (- IZR (Z.of_nat m - 1))
      by (field; lra).
    rewrite Rabs_Ropp, Rabs_right by lra. rewrite Rround_IZR. lia.
  - cbn [a_sample RA n_div n_sub n_of_Z]. rr. unfold Rdiv. apply Rmult_integral_contrapositive. split; [lra|]. apply Rinv_neq_0_compat. lra.
Qed.
Lemma resample_same (t : axis RA) (y : list val) : axis_size RA t = Ok (length y) -> resample RA V DC t y = Ok y.
Proof. intros H. unfold resample. rewrite H. cbn [bind]. rewrite Nat.eqb_refl. reflexivity. Qed.
Lemma resample_pl (t : axis RA) (y : list val) n : (2 <= length y)%nat -> a_start t <> a_end t ->
  axis_size RA t = Ok n -> n <> length y ->
  exists w, resample RA V DC t y = Ok w /\ length w = n /\
    (forall i u v, nth_error (grid (a_start t) (a_end t) n) i = Some u -> nth_error w i = Some v ->
       pl_value (grid (a_start t) (a_end t) (length y)) y u v) /\
    nth_error w 0 = nth_error y 0 /\
    ((2 <= n)%nat -> nth_error w (n - 1) = nth_error y (length y - 1)).
Proof.
  intros Hm Hne Hn Hd. unfold resample. rr. rewrite Hn. cbn [bind].
  replace (Nat.eqb n (length y)) with false by (symmetry; apply Nat.eqb_neq; exact Hd).
  destruct (law_axis_size t (length y) Hm Hne) as (ct & Ec & Es & Ee & Ez). rr. rewrite Ec. cbn [bind].
  pose proof (axis_array_size ct _ Ez) as Ea. rr. rewrite Ea. cbn [bind]. rewrite Es, Ee in *. cbn [default_config c_interp].
  assert (Hg : incr (grid (a_start t) (a_end t) (length y)) \/ decr (grid (a_start t) (a_end t) (length y))).
  { eapply axis_mono. exact Ea. }
  assert (Hgl : length (grid (a_start t) (a_end t) (length y)) = length y) by apply grid_length.
  assert (Hgn : grid (a_start t) (a_end t) (length y) <> []).
  { intros E. rewrite E in Hgl. cbn in Hgl. lia. }
  destruct (interp_default_pl _ y t n Hg Hgl Hgn Hn) as (w & Ew & Lw & Hw).
  exists w. split; [exact Ew|]. split; [exact Lw|]. split; [intros i u v Hu Hv; apply (Hw i u v Hu); exact Hv|].
  assert (Hn0 : (0 < n)%nat) by (eapply axis_size_pos; exact Hn).
  split.
  - destruct (nth_error_lt y 0) as [v' Hv']; [lia|]. rewrite Hv'.
    apply (Hw 0%nat (a_start t)); [apply grid_first; lia|]. apply PL_point with 0%nat; [apply grid_first; lia|exact Hv'].
  - intros H2. destruct (nth_error_lt y (length y - 1)) as [v' Hv']; [lia|]. rewrite Hv'.
    apply (Hw (n - 1)%nat (a_end t)); [apply grid_last; lia|].
    apply PL_point with (length y - 1)%nat; [apply grid_last; lia|exact Hv'].
Qed.
End Laws.
