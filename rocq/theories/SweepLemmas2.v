(** Sweep generators at the reals: angles (C41), bounds and success (C40), normalisation (C46), spectrogram axes (C49). *)
From Coq Require Import Reals ZArith List Bool Lra Lia.
From Coquelicot Require Import Coquelicot.
From Verif Require Import Num Numpy AxisModel RelModel HeapModel FourierModel Spec RLemmas AxisLemmas InterpLemmas
  VInst RelLemmas RelLemmas2 RelLemmas3 SweepModel SweepSpec SweepLemmas.
Import ListNotations.
Local Open Scope R_scope.

Notation DR := (default_config RA RV).
Notation rrel := (rel RA RV).

Lemma map2_nth {S T U} (f : S -> T -> U) l m i a b : nth_error l i = Some a -> nth_error m i = Some b ->
  nth_error (map2 f l m) i = Some (f a b).
Proof.
  revert m i; induction l as [|x l IH]; intros [|y m] [|i] Ha Hb; try discriminate; cbn in *.
  - congruence.
  - apply IH; assumption.
Qed.

(** ** angle of a law given by points *)
Lemma array_angle (cfg_int : integrator RA RV) f (x : axis RA) (fy th : list R) :
  axis_size RA x = Ok (length fy) ->
  angle_on RW DR cfg_int (LawArr f) x fy th ->
  nth_error th 0 = Some 0 /\
  (forall k, (S k < length fy)%nat ->
     nth (S k) th 0 - nth k th 0 = 2 * PI * a_sample x * ((nth k fy 0 + nth (S k) fy 0) / 2)).
Proof.
  intros Hn H. inversion H as [|f' x' fy' i Ei]; subst. rewrite rel_int_eq in Ei. apply rel_make_ok in Ei.
  destruct Ei as [-> Ei]. cbn [r_y r_x] in *. split; [reflexivity|].
  assert (G : forall k, (S k < length fy)%nat ->
    nth (S k) (v_of RV (n_of_Z RA 0) :: map (v_mul RV (w_2pi RA RV RW))
      (map (fun v => v_mul RV v (v_of RV (a_sample x))) (cum_trapz RA RV fy))) 0
    = 2 * PI * a_sample x * vsum (V:=RV) (fun i => (nth i fy 0 + nth (S i) fy 0) / 2) (S k)).
  { intros k Hk. cbn [nth]. apply nth_nth_error. rewrite !nth_error_map, (cum_trapz_nth RV_laws) by exact Hk.
    cbn [option_map]. f_equal. cbn [RV v_mul v_of v_add v_sub v_div w_2pi RW]. rr.
    rewrite (vsum_ext (V:=RV) _ (fun i => (nth i fy 0 + nth (S i) fy 0) / 2)).
    - match goal with |- @eq _ ?p ?q => change (@eq R p q) end. rr. change (val RV) with R in *. ring.
    - intros j _. apply (f_equal (fun z => z / 2)), Rplus_comm. }
  intros k Hk. rewrite G by exact Hk. destruct k as [|k].
  - cbn [nth vsum RV v_add v_of RA n_of_Z]. rr. match goal with |- @eq _ ?p ?q => change (@eq R p q) end. field.
  - rewrite G by lia. cbn [vsum]. cbn [RV v_add]. set (q := vsum (V:=RV) _ k). change (val RV) with R in *. ring.
Qed.

(** ** angle of a function law, default integration method *)
Lemma tl_grid s e n : (0 < n)%nat -> tl (grid s e n) = map (grid_pt s e n) (seq 1 (n - 1)).
Proof. intros H. unfold grid. destruct n as [|n]; [lia|]. cbn [seq map tl]. replace (S n - 1)%nat with n by lia. reflexivity. Qed.

Lemma func_angle (quad : (R -> R) -> R -> R -> R) (c : callable RA RV) (x : axis RA) n (th : list R) :
  axis_size RA x = Ok n ->
  integrate_function_default RA RV RW quad c x = Ok th ->
  length th = n /\ nth_error th 0 = Some 0 /\
  forall i, (0 < i < n)%nat -> exists g, cl_num c = Ok g /\
    nth_error th i = Some (2 * PI * quad g (a_start x) (grid_pt (a_start x) (a_end x) n i)).
Proof.
  intros Hn H. unfold integrate_function_default in H. rewrite (axis_array_size x n Hn) in H. cbn [bind] in H.
  pose proof (axis_size_pos x n Hn) as Hp. rr.
  rewrite tl_grid in H by exact Hp. remember (map _ _) as ts eqn:Hdef in H.
  assert (Hts : length ts = (n - 1)%nat) by (rewrite Hdef, map_length, seq_length; reflexivity).
  destruct ts as [|t0 tr].
  - injection H as <-. cbn in Hts. split; [cbn; lia|]. split; [reflexivity|]. intros i Hi. lia.
  - destruct (cl_num c) as [g|e]; [|discriminate]. cbn [bind] in H. injection H as <-.
    split; [cbn [length] in *; rewrite map_length; cbn [length]; lia|]. split; [reflexivity|].
    intros i Hi. exists g. split; [reflexivity|]. destruct i as [|i]; [lia|]. change (nth_error (map (fun t => 2 * PI * quad g (a_start x) t) (t0 :: tr)) i = Some (2 * PI * quad g (a_start x) (grid_pt (a_start x) (a_end x) n (S i)))). rewrite nth_error_map.
    rewrite Hdef, nth_error_map. rewrite (nth_error_nth' _ i 0%nat) by (rewrite seq_length; lia).
    rewrite seq_nth by lia. reflexivity.
Qed.

Lemma integrate_ok (quad : (R -> R) -> R -> R -> R) (c : callable RA RV) (x : axis RA) n g :
  axis_size RA x = Ok n -> cl_num c = Ok g -> exists th, integrate_function_default RA RV RW quad c x = Ok th.
Proof.
  intros Hn Hg. unfold integrate_function_default. rewrite (axis_array_size x n Hn). cbn [bind].
  destruct (tl _); [eexists; reflexivity|]. rewrite Hg. eexists. reflexivity.
Qed.

Lemma linear_integral (c1 c0 a b : R) :
  is_RInt (fun t => c1 * t + c0) a b (c0 * (b - a) + c1 * (b * b - a * a) / 2).
Proof.
  replace (c0 * (b - a) + c1 * (b * b - a * a) / 2) with (minus (c1 * b * b / 2 + c0 * b) (c1 * a * a / 2 + c0 * a))
    by (unfold minus, plus, opp; cbn; field).
  apply (is_RInt_derive (fun t => c1 * t * t / 2 + c0 * t) (fun t => c1 * t + c0)).
  - intros t _. auto_derive; [exact I|]. field.
  - intros t _. apply (ex_derive_continuous (fun t => c1 * t + c0)). auto_derive. exact I.
Qed.

(** ** samples *)
Lemma sin_bound a b : Rabs (a * sin b) <= Rabs a.
Proof.
  rewrite Rabs_mult. pose proof (SIN_bound b). pose proof (Rabs_pos a).
  assert (Rabs (sin b) <= 1) by (apply Rabs_le; lra). nra.
Qed.

Section Call.
Context (cur : config RA RV) (sc : sconfig RA RV) (g : ugen RA RV) (t : utime RA) (tht0 : R) (s : sweepv RA RV).
Hypothesis Hs : us_call RA RV RW cur sc g t tht0 = Ok s.

Lemma call_sample : exists x fy am th,
  calling_axis (u_cfg g) (u_time g) t x /\ law_on cur (u_f g) x fy /\ law_on cur (u_a g) x am /\
  angle_on RW cur (u_int g) (u_f g) x fy th /\ axis_size RA x = Ok (length fy) /\ length am = length fy /\
  length th = length fy /\
  r_x (sw_rel s) = x /\ sw_ft s = mkRel x fy /\ sw_at s = mkRel x am /\ length (r_y (sw_rel s)) = length fy /\
  forall i, (i < length fy)%nat ->
    nth i (r_y (sw_rel s)) 0 = nth i am 0 * sin (nth i th 0 + tht0).
Proof.
  destruct (proj1 (us_call_exact RA RV RW cur sc g t tht0 s) Hs) as (x & fy & am & th & Cx & Lf & La & An & Nx & Nam & Nth & E & _).
  exists x, fy, am, th. rewrite E. cbn [sw_rel sw_ft sw_at r_x r_y].
  do 7 (split; [assumption|]). do 3 (split; [reflexivity|]).
  split; [rewrite map2_len by (rewrite map_length; congruence); exact Nam|].
  intros i Hi. apply nth_nth_error. change (val RV) with R in *.
  rewrite (map2_nth _ _ _ i (nth i am 0) (sin (nth i th 0 + tht0))); [reflexivity| |].
  - apply nth_error_nth'. change (val RV) with R in *. lia.
  - rewrite nth_error_map. change (val RV) with R in *. rewrite (nth_error_nth' th i 0) by lia. reflexivity.
Qed.

Lemma call_bound : forall i, (i < length (r_y (sw_rel s)))%nat ->
  length (r_y (sw_at s)) = length (r_y (sw_rel s)) /\
  Rabs (nth i (r_y (sw_rel s)) 0) <= Rabs (nth i (r_y (sw_at s)) 0).
Proof.
  destruct call_sample as (x & fy & am & th & _ & _ & _ & _ & _ & Na & _ & _ & _ & -> & Lr & H).
  intros i Hi. cbn [r_y]. split; [congruence|]. rewrite H by (change (val RV) with R in *; lia). apply sin_bound.
Qed.
Lemma call_start : 
  (exists f, u_f g = LawArr f) \/ (exists quad, u_int g = integrate_function_default RA RV RW quad) ->
  nth 0 (r_y (sw_rel s)) 0 = nth 0 (r_y (sw_at s)) 0 * sin tht0.
Proof.
  destruct call_sample as (x & fy & am & th & _ & _ & _ & An & Nx & Na & Nt & _ & _ & -> & Lr & H).
  pose proof (axis_size_pos x _ Nx) as Hp. intros Hc. cbn [r_y]. rewrite H by exact Hp.
  assert (E : nth 0 th 0 = 0).
  { destruct Hc as [[f E]|[quad E]]; rewrite E in An.
    - inversion An. reflexivity.
    - inversion An as [c x' fy' th' Ei|]; subst; [|reflexivity].
      destruct (func_angle quad c x _ th Nx Ei) as (_ & E0 & _). apply nth_nth_error. exact E0. }
  rewrite E, Rplus_0_l. reflexivity.
Qed.
End Call.

(** array laws: increments of the angle in terms of the returned frequency law *)
Lemma call_array sc (g : ugen RA RV) t tht0 s f : us_call RA RV RW DR sc g t tht0 = Ok s -> u_f g = LawArr f ->
  exists th : list R, length th = length (r_y (sw_rel s)) /\
    (forall i, (i < length th)%nat -> nth i (r_y (sw_rel s)) 0 = nth i (r_y (sw_at s)) 0 * sin (nth i th 0 + tht0)) /\
    nth_error th 0 = Some 0 /\
    (forall k, (S k < length th)%nat ->
       nth (S k) th 0 - nth k th 0 =
       2 * PI * a_sample (r_x (sw_rel s)) * ((nth k (r_y (sw_ft s)) 0 + nth (S k) (r_y (sw_ft s)) 0) / 2)).
Proof.
  intros Hs Hf. destruct (call_sample DR sc g t tht0 s Hs) as (x & fy & am & th & _ & _ & _ & An & Nx & Na & Nt & Ex & -> & -> & Lr & H).
  rewrite Hf in An. destruct (array_angle _ f x fy th Nx An) as [H0 Hk].
  exists th. cbn [r_y]. rewrite Ex. change (val RV) with R in *.
  split; [congruence|]. split; [intros i Hi; apply H; congruence|]. split; [exact H0|]. intros k Hi. apply Hk. congruence.
Qed.
Lemma call_func quad cur sc (g : ugen RA RV) t tht0 s c : quad_exact quad ->
  us_call RA RV RW cur sc g t tht0 = Ok s -> u_f g = LawFun c ->
  u_int g = integrate_function_default RA RV RW quad ->
  let x := r_x (sw_rel s) in let n := length (r_y (sw_rel s)) in
  forall i, (0 < i < n)%nat -> exists f, cl_num c = Ok f /\
    (ex_RInt f (a_start x) (grid_pt (a_start x) (a_end x) n i) ->
     nth i (r_y (sw_rel s)) 0 =
     nth i (r_y (sw_at s)) 0 * sin (2 * PI * RInt f (a_start x) (grid_pt (a_start x) (a_end x) n i) + tht0)).
Proof.
  intros Hq Hs Hf Hi x n i Hin.
  destruct (call_sample cur sc g t tht0 s Hs) as (x' & fy & am & th & _ & _ & _ & An & Nx & Na & Nt & Ex & _ & -> & Lr & H).
  subst x. rewrite Ex. rewrite Hf, Hi in An. inversion An as [c' x'' fy' th' Ei|]; subst.
  change (val RV) with R in *. subst n. rewrite Lr in *.
  destruct (func_angle quad c (r_x (sw_rel s)) _ th Nx Ei) as (_ & _ & G). destruct (G i Hin) as (f & Ef & Eth).
  exists f. split; [exact Ef|]. intros Hex. cbn [r_y]. rewrite H by lia. rewrite <- (Hq _ _ _ Hex).
  apply (nth_nth_error _ _ 0) in Eth. rewrite Eth. reflexivity.
Qed.
Lemma call_linear quad cur sc (g : ugen RA RV) t tht0 s c c1 c0 : quad_exact quad ->
  us_call RA RV RW cur sc g t tht0 = Ok s -> u_f g = LawFun c -> cl_num c = Ok (fun u => c1 * u + c0) ->
  u_int g = integrate_function_default RA RV RW quad ->
  let x := r_x (sw_rel s) in let n := length (r_y (sw_rel s)) in
  forall i, (i < n)%nat ->
    let u := grid_pt (a_start x) (a_end x) n i in
    nth i (r_y (sw_rel s)) 0 =
    nth i (r_y (sw_at s)) 0 *
      sin (2 * PI * (c0 * (u - a_start x) + c1 * (u * u - a_start x * a_start x) / 2) + tht0).
Proof.
  intros Hq Hs Hf Hc Hi x n i Hin u. destruct i as [|i].
  - rewrite (call_start cur sc g t tht0 s Hs) by (right; eauto).
    assert (E : u = a_start x) by (unfold u, grid_pt; cbn [INR]; rr; ring). rewrite E. do 2 f_equal.
    unfold Rdiv. rr. ring.
  - destruct (call_func quad cur sc g t tht0 s c Hq Hs Hf Hi (S i)) as (f & Ef & G); [fold n; lia|].
    rewrite Hc in Ef. injection Ef as <-. rewrite G.
    + fold x n u. rewrite (is_RInt_unique _ _ _ _ (linear_integral c1 c0 _ _)). reflexivity.
    + eexists. apply linear_integral.
Qed.
