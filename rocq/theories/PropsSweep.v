(** Theorems about sweep generators: C40-C44, C46, C47, C49. *)
From Coq Require Import Reals ZArith List Bool Lra Lia QArith.
From Coquelicot Require Import Coquelicot.
From Verif Require Import Num Numpy AxisModel RelModel HeapModel FourierModel Spec RLemmas AxisLemmas InterpLemmas
  VInst RelLemmas RelLemmas2 RelLemmas3 SweepModel SweepSpec SweepLemmas SweepLemmas2 SweepLemmas3.
Import ListNotations.
Local Open Scope R_scope.

(** ** C40 samples follow the laws *)
(** Exact description of a successful call, for every arithmetic, configuration, law and time. *)
Theorem C40_call : forall (A : Arith) (V : Vals A) (W : wfun A V) (cur : config A V) (sc : sconfig A V)
  (g : ugen A V) (t : utime A) (tht0 : num A) (s : sweepv A V),
  us_call A V W cur sc g t tht0 = Ok s <->
  exists x fy am th,
    calling_axis (u_cfg g) (u_time g) t x /\
    law_on cur (u_f g) x fy /\ law_on cur (u_a g) x am /\ angle_on W cur (u_int g) (u_f g) x fy th /\
    axis_size A x = Ok (length fy) /\ length am = length fy /\ length th = length fy /\
    s = mkSweepv (mkRel x (map2 (v_mul V) am (map (fun v => w_sin A V W (v_add V v (v_of V tht0))) th)))
                 (mkRel x fy) (mkRel x am) /\
    sc_spectro A V sc (sw_rel s) = Ok tt.
Proof. exact us_call_exact. Qed.
Print Assumptions C40_call.
Theorem C40_samples : forall cur sc (g : ugen RA RV) t tht0 s, us_call RA RV RW cur sc g t tht0 = Ok s ->
  exists th : list R, length th = length (r_y (sw_rel s)) /\
    r_x (sw_ft s) = r_x (sw_rel s) /\ r_x (sw_at s) = r_x (sw_rel s) /\
    law_on cur (u_f g) (r_x (sw_rel s)) (r_y (sw_ft s)) /\ law_on cur (u_a g) (r_x (sw_rel s)) (r_y (sw_at s)) /\
    angle_on RW cur (u_int g) (u_f g) (r_x (sw_rel s)) (r_y (sw_ft s)) th /\
    forall i, (i < length (r_y (sw_rel s)))%nat ->
      nth i (r_y (sw_rel s)) 0 = nth i (r_y (sw_at s)) 0 * sin (nth i th 0 + tht0).
Proof.
  intros cur sc g t tht0 s H.
  destruct (call_sample cur sc g t tht0 s H) as (x & fy & am & th & _ & Lf & La & An & _ & _ & Nt & Ex & -> & -> & Lr & Hi).
  exists th. cbn [r_x r_y]. rewrite Ex. change (val RV) with R in *. rewrite Lr. auto 10.
Qed.
Print Assumptions C40_samples.
Theorem C40_bounded : forall cur sc (g : ugen RA RV) t tht0 s, us_call RA RV RW cur sc g t tht0 = Ok s ->
  forall i, (i < length (r_y (sw_rel s)))%nat ->
  length (r_y (sw_at s)) = length (r_y (sw_rel s)) /\
  Rabs (nth i (r_y (sw_rel s)) 0) <= Rabs (nth i (r_y (sw_at s)) 0).
Proof. exact call_bound. Qed.
Print Assumptions C40_bounded.
Theorem C40_start : forall cur sc (g : ugen RA RV) t tht0 s, us_call RA RV RW cur sc g t tht0 = Ok s ->
  (exists f, u_f g = LawArr f) \/ (exists quad, u_int g = integrate_function_default RA RV RW quad) ->
  nth 0 (r_y (sw_rel s)) 0 = nth 0 (r_y (sw_at s)) 0 * sin tht0.
Proof. exact call_start. Qed.
Print Assumptions C40_start.
Theorem C40_succeeds : forall sc (g : ugen RA RV) t tht0 (x : axis RA) n (fy am : list R),
  calling_axis (u_cfg g) (u_time g) t x -> axis_size RA x = Ok n ->
  law_on DR (u_f g) x fy -> length fy = n -> law_on DR (u_a g) x am -> length am = n ->
  (forall c, sc_spectro RA RV sc c = Ok tt) ->
  match u_f g with
  | LawFun c => exists quad f, u_int g = integrate_function_default RA RV RW quad /\ cl_num c = Ok f
  | LawArr _ => 0 < a_sample x /\ a_start x <= a_end x /\ (2 <= n)%nat /\
                ~ is_tie ((a_end x - a_start x) / a_sample x)
  end ->
  exists s, us_call RA RV RW DR sc g t tht0 = Ok s.
Proof. exact call_ok. Qed.
Print Assumptions C40_succeeds.

(** a generator with a linear frequency law t -> 8 t + 1 and the default amplitude law on 0, 1/4, ..., 1 *)
Definition ex_axis : axis RA := mkAxis (A:=RA) 0 1 (1/4).
Definition ex_lin : callable RA RV := mkCallable (A:=RA) (V:=RV) (fun l : list R => Ok (map (fun t => 8 * t + 1) l)) (Ok (fun t : R => 8 * t + 1)).
Definition ex_sc : sconfig RA RV := mkSconfig RA RV (fun c => Ok (r_y c)) (fun c => Ok (r_y c)) (fun _ => Ok tt).
Definition ex_gen (f : law_in RA RV) : result (ugen RA RV) :=
  us_new RA RV DR (integrate_function_default RA RV RW (fun (g : R -> R) a b => RInt g a b)) (UtAxis ex_axis) f LiNone.
Lemma ex_size : axis_size RA ex_axis = Ok 5%nat.
Proof. apply (axis_size_exact ex_axis 4). split; cbn; lra. Qed.
Example C40_case : exists g s, ex_gen (LiFun ex_lin) = Ok g /\ us_call RA RV RW DR ex_sc g UtNone (PI / 2) = Ok s.
Proof.
  eexists. assert (E : forall g, ex_gen (LiFun ex_lin) = Ok g -> exists s, us_call RA RV RW DR ex_sc g UtNone (PI / 2) = Ok s).
  { intros g E. cbn [ex_gen us_new get_info_from_ftat extract_x_t default_law bind fst snd] in E.
    injection E as <-. eapply (C40_succeeds ex_sc _ UtNone (PI / 2) ex_axis 5).
    - constructor. reflexivity.
    - exact ex_size.
    - econstructor; [exact (axis_array_size ex_axis 5 ex_size)|reflexivity].
    - rewrite map_length. apply grid_length.
    - econstructor; [exact (axis_array_size ex_axis 5 ex_size)|reflexivity].
    - rewrite repeat_length. apply grid_length.
    - reflexivity.
    - cbn [u_f u_int]. eexists. eexists. split; reflexivity. }
  destruct (E _ eq_refl) as [s Hs]. exists s. split; [reflexivity|exact Hs].
Qed.

(** ** C41 the angle integrates the frequency law *)
Theorem C41_array_law : forall sc (g : ugen RA RV) t tht0 s f,
  us_call RA RV RW DR sc g t tht0 = Ok s -> u_f g = LawArr f ->
  exists th : list R, length th = length (r_y (sw_rel s)) /\
    (forall i, (i < length th)%nat -> nth i (r_y (sw_rel s)) 0 = nth i (r_y (sw_at s)) 0 * sin (nth i th 0 + tht0)) /\
    nth_error th 0 = Some 0 /\
    (forall k, (S k < length th)%nat ->
       nth (S k) th 0 - nth k th 0 =
       2 * PI * a_sample (r_x (sw_rel s)) * ((nth k (r_y (sw_ft s)) 0 + nth (S k) (r_y (sw_ft s)) 0) / 2)).
Proof. exact call_array. Qed.
Print Assumptions C41_array_law.
Theorem C41_function_law : forall quad cur sc (g : ugen RA RV) t tht0 s c, quad_exact quad ->
  us_call RA RV RW cur sc g t tht0 = Ok s -> u_f g = LawFun c ->
  u_int g = integrate_function_default RA RV RW quad ->
  let x := r_x (sw_rel s) in let n := length (r_y (sw_rel s)) in
  forall i, (0 < i < n)%nat -> exists f, cl_num c = Ok f /\
    (ex_RInt f (a_start x) (grid_pt (a_start x) (a_end x) n i) ->
     nth i (r_y (sw_rel s)) 0 =
     nth i (r_y (sw_at s)) 0 * sin (2 * PI * RInt f (a_start x) (grid_pt (a_start x) (a_end x) n i) + tht0)).
Proof. exact call_func. Qed.
Print Assumptions C41_function_law.
Theorem C41_linear_law : forall quad cur sc (g : ugen RA RV) t tht0 s c c1 c0, quad_exact quad ->
  us_call RA RV RW cur sc g t tht0 = Ok s -> u_f g = LawFun c -> cl_num c = Ok (fun u => c1 * u + c0) ->
  u_int g = integrate_function_default RA RV RW quad ->
  let x := r_x (sw_rel s) in let n := length (r_y (sw_rel s)) in
  forall i, (i < n)%nat ->
    let u := grid_pt (a_start x) (a_end x) n i in
    nth i (r_y (sw_rel s)) 0 =
    nth i (r_y (sw_at s)) 0 *
      sin (2 * PI * (c0 * (u - a_start x) + c1 * (u * u - a_start x * a_start x) / 2) + tht0).
Proof. exact call_linear. Qed.
Print Assumptions C41_linear_law.
Example C41_quad_case : quad_exact (fun (g : R -> R) a b => RInt g a b).
Proof. intros g a b _. reflexivity. Qed.
(** a law given by five numbers on the same axis *)
Example C41_array_case : exists g s f, ex_gen (LiArr (A:=RA) (V:=RV) [1; 2; 4; 2; 1]) = Ok g /\ u_f g = LawArr f /\
  us_call RA RV RW DR ex_sc g UtNone 0 = Ok s.
Proof.
  assert (X : forall g, ex_gen (LiArr (A:=RA) (V:=RV) [1; 2; 4; 2; 1]) = Ok g ->
    u_f g = LawArr (mkIA (A:=RA) (V:=RV) (grid 0 1 5) [1; 2; 4; 2; 1]) /\ exists s, us_call RA RV RW DR ex_sc g UtNone 0 = Ok s).
  { intros g E. unfold ex_gen, us_new, get_info_from_ftat, extract_x_t in E. cbn [default_law bind fst snd] in E.
    rewrite (resample_same (V:=RV) ex_axis) in E by exact ex_size. cbn [bind ia_new] in E.
    rewrite (axis_array_size ex_axis 5 ex_size) in E. cbn [bind fst snd] in E. injection E as <-. split; [reflexivity|].
    destruct (stretch_zero RV_laws (grid 0 1 5) [1; 2; 4; 2; 1] ex_axis 5) as (w & Ew & Lw & _).
    - apply grid_incr. lra.
    - reflexivity.
    - apply grid_first. lia.
    - change (0 < grid_pt 0 1 5 4). unfold grid_pt. cbn [INR Nat.sub]. lra.
    - cbn. lra.
    - exact ex_size.
    - eapply (C40_succeeds ex_sc _ UtNone 0 ex_axis 5).
      + constructor. reflexivity.
      + exact ex_size.
      + apply law_eval_on. exact Ew.
      + exact Lw.
      + econstructor; [exact (axis_array_size ex_axis 5 ex_size)|reflexivity].
      + rewrite repeat_length. apply grid_length.
      + reflexivity.
      + cbn [u_f ex_axis a_start a_end a_sample]. split; [lra|]. split; [lra|]. split; [lia|].
        intros [k Hk]. assert (H : IZR (2 * k) = IZR 7) by (rewrite mult_IZR; lra). apply eq_IZR in H. lia. }
  assert (Y : exists g, ex_gen (LiArr (A:=RA) (V:=RV) [1; 2; 4; 2; 1]) = Ok g).
  { unfold ex_gen, us_new, get_info_from_ftat, extract_x_t. cbn [default_law bind fst snd].
    rewrite (resample_same (V:=RV) ex_axis) by exact ex_size. cbn [bind ia_new].
    rewrite (axis_array_size ex_axis 5 ex_size). eexists. reflexivity. }
  destruct Y as [g Eg]. destruct (X g Eg) as (Ef & s & Es). exists g, s. eexists. eauto.
Qed.

(** without laws the frequency is the time itself and the amplitude is one: the sweep is sin (pi (t^2 - t0^2) + tht0) *)
Theorem C41_default_laws : forall quad sc (x : axis RA) n tht0, quad_exact quad -> axis_size RA x = Ok n ->
  (forall c, sc_spectro RA RV sc c = Ok tt) ->
  exists g s, us_new RA RV DR (integrate_function_default RA RV RW quad) (UtAxis x) LiNone LiNone = Ok g /\
    us_call RA RV RW DR sc g UtNone tht0 = Ok s /\ r_x (sw_rel s) = x /\ length (r_y (sw_rel s)) = n /\
    r_y (sw_ft s) = grid (a_start x) (a_end x) n /\ r_y (sw_at s) = repeat 1 n /\
    forall i, (i < n)%nat -> let u := grid_pt (a_start x) (a_end x) n i in
      nth i (r_y (sw_rel s)) 0 = sin (PI * (u * u - a_start x * a_start x) + tht0).
Proof.
  intros quad sc x n tht0 Hq Hn Hsp. eexists.
  assert (E : forall g, us_new RA RV DR (integrate_function_default RA RV RW quad) (UtAxis x) LiNone LiNone = Ok g ->
    exists s, us_call RA RV RW DR sc g UtNone tht0 = Ok s).
  { intros g E. cbn [us_new get_info_from_ftat extract_x_t default_law bind fst snd] in E.
    injection E as <-. eapply (C40_succeeds sc _ UtNone tht0 x n).
    - constructor. reflexivity.
    - exact Hn.
    - econstructor; [exact (axis_array_size x n Hn)|reflexivity].
    - rewrite map_length. apply grid_length.
    - econstructor; [exact (axis_array_size x n Hn)|reflexivity].
    - rewrite repeat_length. apply grid_length.
    - exact Hsp.
    - cbn [u_f u_int]. eexists. eexists. split; reflexivity. }
  destruct (E _ eq_refl) as [s Hs]. exists s. split; [reflexivity|]. split; [exact Hs|]. clear E.
  destruct (call_sample _ _ _ _ _ _ Hs) as (x' & fy & am & th & Cx & Lf & La & _ & Nx & Na & _ & Ex & Eft & Eat & Lr & _).
  assert (EX : x' = x) by (inversion Cx; cbn in *; congruence). rewrite EX in *. clear x' EX. pose proof (eq_trans (eq_sym Hn) Nx) as Nx'. injection Nx' as Nx'.
  assert (G : forall c y, law_on DR (LawFun c) x y -> cl_arr c (grid (a_start x) (a_end x) n) = Ok y).
  { intros c y H. pose proof (axis_array_size x n Hn) as Ha. inversion H as [c0 x0 ts y0 Hts Hy|]. congruence. }
  apply G in Lf, La. cbn [linear_time const_one cl_arr] in Lf, La. injection Lf as Lf. injection La as La. rewrite <- Lf in *. rewrite <- La in *.
  change (val RV) with R in *. rewrite repeat_length in *. rewrite grid_length in *.
  rewrite <- Nx' in Lr. split; [exact Ex|]. split; [exact Lr|].
  split; [rewrite Eft; cbn [r_y RV v_of]; apply map_id|]. split; [rewrite Eat; cbn [r_y RV v_of RA n_of_Z]; reflexivity|].
  intros i Hi u.
  pose proof (C41_linear_law quad DR sc _ UtNone tht0 s (linear_time RA RV) 1 0 Hq Hs eq_refl) as HL.
  cbn [linear_time cl_num RV v_of u_int] in HL. 
  assert (Hf : Ok (fun u0 : R => u0) = Ok (fun u0 : R => 1 * u0 + 0)).
  { f_equal. apply FunctionalExtensionality.functional_extensionality. intros z. ring. }
  specialize (HL Hf eq_refl i). cbv zeta in HL. change (val RV) with R in *. rewrite Lr, Ex in HL. specialize (HL Hi). rewrite HL, Eat. cbn [r_y].
  fold u. assert (H1 : nth i (repeat 1 n) 0 = 1) by (rewrite (nth_indep _ 0 1) by (rewrite repeat_length; exact Hi); apply nth_repeat).
  cbn [RV v_of RA n_of_Z]. rewrite H1, Rmult_1_l. f_equal. field.
Qed.
Print Assumptions C41_default_laws.

(** ** C42 no time *)
Theorem C42_call_without_time : forall (A : Arith) (V : Vals A) (W : wfun A V) cur0 cur sc int f a g tht0,
  us_new A V cur0 int UtNone f a = Ok g -> us_call A V W cur sc g UtNone tht0 = Err EBadInput.
Proof. intros. eapply us_call_none. eassumption. Qed.
Print Assumptions C42_call_without_time.
Theorem C42_array_law_without_time : forall (A : Arith) (V : Vals A) cur int y a,
  us_new A V cur int UtNone (LiArr y) a = Err EBadInput.
Proof. exact us_new_array_f. Qed.
Print Assumptions C42_array_law_without_time.
Theorem C42_amplitude_array_without_time : forall (A : Arith) (V : Vals A) cur int f y,
  (exists e, us_new A V cur int UtNone f (LiArr y) = Err e) /\
  ((exists g, us_new A V cur int UtNone f LiNone = Ok g) -> us_new A V cur int UtNone f (LiArr y) = Err EBadInput).
Proof. exact us_new_array_a. Qed.
Print Assumptions C42_amplitude_array_without_time.
(** relations carry a time axis, but the generator still has no time *)
Example C42_case : forall int, exists g,
  us_new QA QV (default_config QA QV) int UtNone (LiRel (mkRel (A:=QA) (V:=QV) (mkAxis (A:=QA) 0%Q 2%Q 1%Q) [1; 2; 3]%Q)) LiNone = Ok g
  /\ u_time g = None.
Proof. intros int. eexists. split; reflexivity. Qed.

(** ** C43 stretching of laws *)
Theorem C43_stretched_from_zero : forall (V : Vals RA) (L : VLaws V) (x : list R) (y : list (val V)) (a : axis RA) n,
  incr x -> length x = length y -> nth_error x 0 = Some 0 -> 0 < last x 0 ->
  a_start a < a_end a -> axis_size RA a = Ok n ->
  exists w, ia_call RA V (default_config RA V) (mkIA (A:=RA) (V:=V) x y) a = Ok w /\ length w = n /\
    (forall i t v, nth_error (grid (a_start a) (a_end a) n) i = Some t -> nth_error w i = Some v ->
      at_fraction x y ((t - a_start a) / (a_end a - a_start a)) v) /\
    nth_error w 0 = nth_error y 0 /\
    ((2 <= n)%nat -> nth_error w (n - 1) = nth_error y (length y - 1)).
Proof. exact @stretch_zero. Qed.
Print Assumptions C43_stretched_from_zero.
Theorem C43_late_start_lost : forall (V : Vals RA) (L : VLaws V) (x : list R) (y : list (val V)) (a : axis RA) n x0,
  incr x -> length x = length y -> nth_error x 0 = Some x0 -> 0 < x0 ->
  a_start a < a_end a -> axis_size RA a = Ok n -> (2 <= n)%nat ->
  exists w, ia_call RA V (default_config RA V) (mkIA (A:=RA) (V:=V) x y) a = Ok w /\ length w = n /\
    nth_error w (n - 1) = Some (v_of V 0) /\
    (forall i t v, nth_error (grid (a_start a) (a_end a) n) i = Some t -> nth_error w i = Some v ->
      a_end a - x0 < t -> v = v_of V 0).
Proof. exact @stretch_late. Qed.
Print Assumptions C43_late_start_lost.
Theorem C43_general : forall (V : Vals RA) (L : VLaws V) (x : list R) (y : list (val V)) (a : axis RA) n,
  incr x -> x <> [] -> length x = length y -> 0 < last x 0 -> a_start a < a_end a -> axis_size RA a = Ok n ->
  exists w, ia_call RA V (default_config RA V) (mkIA (A:=RA) (V:=V) x y) a = Ok w /\ length w = n /\
    forall i t v, nth_error (grid (a_start a) (a_end a) n) i = Some t -> nth_error w i = Some v ->
      at_fraction x y ((t - a_start a + nth 0 x 0) / (a_end a - a_start a)) v.
Proof. exact @ia_call_pl. Qed.
Print Assumptions C43_general.
(** a law given as a relation on an axis starting at s > 0, evaluated on that very axis, is 0 at the end *)
Theorem C43_own_axis_lost : forall (V : Vals RA) (L : VLaws V) (r : rel RA V),
  valid r -> (2 <= length (r_y r))%nat -> 0 < a_start (r_x r) < a_end (r_x r) ->
  exists f w, ia_new RA V (IaRel r) None = Ok f /\ ia_call RA V (default_config RA V) f (r_x r) = Ok w /\
    nth_error w (length (r_y r) - 1) = Some (v_of V 0).
Proof.
  intros V L r Hv H2 [H0 Hse]. pose proof (valid_array r Hv) as Ha.
  destruct (stretch_late L (xs_of r) (r_y r) (r_x r) (length (r_y r)) (a_start (r_x r))) as (w & Ew & _ & Hw & _).
  - apply grid_incr. exact Hse.
  - apply xs_of_length.
  - apply grid_first. rr. lia.
  - exact H0.
  - exact Hse.
  - exact Hv.
  - exact H2.
  - exists (mkIA (A:=RA) (V:=V) (xs_of r) (r_y r)), w. cbn [ia_new]. rr. rewrite Ha. auto.
Qed.
Print Assumptions C43_own_axis_lost.
Definition q_stretch (x y : list Q) (s e d : Q) : result (list Q) :=
  ia_call QA QV (default_config QA QV) (mkIA (A:=QA) (V:=QV) x y) (mkAxis (A:=QA) s e d).
Example C43_case : q_stretch [0; 1; 2]%Q [5; 7; 9]%Q 10%Q 14%Q 1%Q = Ok [5; 6; 7; 8; 9]%Q /\
  q_stretch [1; 2; 3]%Q [5; 7; 9]%Q 1%Q 3%Q 1%Q = Ok [6; 9; 0]%Q.
Proof. split; vm_compute; reflexivity. Qed.

(** ** C44 law arrays of another length *)
Theorem C44_helper_axis : forall (t : axis RA) m, (2 <= m)%nat -> a_start t <> a_end t ->
  exists ct, law_axis RA t m = Ok ct /\ a_start ct = a_start t /\ a_end ct = a_end t /\ axis_size RA ct = Ok m.
Proof. exact law_axis_size. Qed.
Print Assumptions C44_helper_axis.
Theorem C44_resampled : forall (V : Vals RA) (L : VLaws V) (t : axis RA) (y : list (val V)) n,
  (2 <= length y)%nat -> a_start t <> a_end t -> axis_size RA t = Ok n -> n <> length y ->
  exists w, resample RA V (default_config RA V) t y = Ok w /\ length w = n /\
    (forall i u v, nth_error (grid (a_start t) (a_end t) n) i = Some u -> nth_error w i = Some v ->
       pl_value (grid (a_start t) (a_end t) (length y)) y u v) /\
    nth_error w 0 = nth_error y 0 /\
    ((2 <= n)%nat -> nth_error w (n - 1) = nth_error y (length y - 1)).
Proof. exact @resample_pl. Qed.
Print Assumptions C44_resampled.
Theorem C44_same_length_kept : forall (V : Vals RA) (t : axis RA) (y : list (val V)),
  axis_size RA t = Ok (length y) -> resample RA V (default_config RA V) t y = Ok y.
Proof. exact @resample_same. Qed.
Print Assumptions C44_same_length_kept.
Definition q_resample (y : list Q) (s e d : Q) : result (list Q) := resample QA QV (default_config QA QV) (mkAxis (A:=QA) s e d) y.
Example C44_case : q_resample [0; 4; 2]%Q 1%Q 3%Q (1#2)%Q = Ok [0; 2; 4; 3; 2]%Q.
Proof. vm_compute. reflexivity. Qed.

(** ** C46 normalisation *)
Theorem C46_same_norm : forall scfg sc (g : ugen RA RV) sg t tht0 s,
  ap_call RA RV RW DR scfg sc g sg t tht0 true = Ok s ->
  rel_norm RA RV DR (sw_rel s) = rel_norm RA RV scfg sg.
Proof. exact ap_call_same_norm. Qed.
Print Assumptions C46_same_norm.
Theorem C46_when : forall scfg sc (g : ugen RA RV) sg t tht0 s0 (ns na : R),
  us_call RA RV RW DR sc g t tht0 = Ok s0 ->
  (exists sq s1, rel_op_num RA RV DR POW (sw_rel s0) (OVal (A:=RA) (V:=RV) 2) = Ok sq /\ val_sweep RA RV sc sq None None = Ok s1) ->
  rel_norm RA RV DR (sw_rel s0) = Ok ns -> rel_norm RA RV scfg sg = Ok na ->
  (0 < ns -> 0 <= na -> exists c : rel RA RV, r_x c = r_x (sw_rel s0) /\
     r_y c = map (fun v => v * (sqrt na / sqrt ns)) (r_y (sw_rel s0)) /\
     rel_norm RA RV DR c = Ok na /\
     ap_call RA RV RW DR scfg sc g sg t tht0 true = val_sweep RA RV sc c None None) /\
  (ns = 0 -> 0 <= na -> ap_call RA RV RW DR scfg sc g sg t tht0 true = Err EArith) /\
  (ns < 0 \/ na < 0 -> ap_call RA RV RW DR scfg sc g sg t tht0 true = Err EValue).
Proof. exact ap_call_norm. Qed.
Print Assumptions C46_when.
Theorem C46_not_normalised : forall (A : Arith) (V : Vals A) (W : wfun A V) cur scfg sc (g : ugen A V) sg t tht0,
  ap_call A V W cur scfg sc g sg t tht0 false = us_call A V W cur sc g t tht0.
Proof. exact ap_call_raw. Qed.
Print Assumptions C46_not_normalised.
Example C46_case : exists g s0 ns, ex_gen (LiFun ex_lin) = Ok g /\
  us_call RA RV RW DR ex_sc g UtNone (PI / 2) = Ok s0 /\ rel_norm RA RV DR (sw_rel s0) = Ok ns /\ 0 < ns /\
  exists sq s1, rel_op_num RA RV DR POW (sw_rel s0) (OVal (A:=RA) (V:=RV) 2) = Ok sq /\ val_sweep RA RV ex_sc sq None None = Ok s1.
Proof.
  destruct C40_case as (g & s & Eg & Es).
  destruct (call_valid ex_sc g UtNone (PI / 2) s Es) as (Vs & _ & _).
  assert (Hg : exists l, u_f g = LawFun ex_lin /\ u_a g = LawFun (const_one RA RV) /\ u_time g = Some ex_axis /\ u_int g = integrate_function_default RA RV RW l).
  { cbn [ex_gen us_new get_info_from_ftat extract_x_t default_law bind fst snd] in Eg. injection Eg as <-. eexists. repeat split. }
  destruct Hg as (quad & _ & Ha & Ht & Hi).
  destruct (call_sample DR ex_sc g UtNone (PI / 2) s Es) as (x & fy & am & th & Cx & _ & La & _ & Nx & Na & _ & Ex & _ & Eat & Lr & _).
  assert (EX : x = ex_axis) by (inversion Cx; congruence). rewrite EX in *. clear x EX. rewrite ex_size in Nx. injection Nx as Nx.
  pose proof (call_start DR ex_sc g UtNone (PI / 2) s Es (or_intror (ex_intro _ quad Hi))) as H0.
  rewrite Eat in H0. cbn [r_y] in H0. rewrite Ha in La. inversion La as [c0 x0 ts y0 Hts Hy|]; subst.
  cbn [const_one cl_arr] in Hy. injection Hy as <-. change (val RV) with R in *. rewrite sin_PI2, Rmult_1_r in H0.
  destruct (norm_nonneg (sw_rel s) Vs) as (ns & Ens & Hns).
  { rewrite Ex. cbn. lra. }
  exists g, s, ns. split; [exact Eg|]. split; [exact Es|]. split; [exact Ens|]. split.
  2:{ pose proof Ens as Hq. unfold rel_norm in Hq. rewrite bind_ok in Hq. destruct Hq as (sq & Esq & _).
      exists sq. pose proof Esq as Eq. unfold rel_op_num in Eq. rewrite bind_ok in Eq. destruct Eq as (yq & _ & Eq).
      apply rel_make_any in Eq. destruct Eq as [-> Nq].
      eexists. split; [exact Esq|]. unfold val_sweep, ex_sc. cbn [sc_ft sc_at sc_spectro bind r_x r_y].
      assert (Em : rel_make RA RV (r_x (sw_rel s)) yq = Ok (mkRel (A:=RA) (V:=RV) (r_x (sw_rel s)) yq)) by (apply rel_make_any; auto).
      rewrite Em. cbn [bind]. reflexivity. }
  destruct (Req_EM_T ns 0) as [Hz|Hz]; [|cbn in *; lra]. exfalso. rewrite Hz in Ens.
  assert (Hall : forall y, In y (r_y (sw_rel s)) -> y = 0).
  { apply (norm_zero (sw_rel s) Vs); [rewrite Ex; cbn; lra | change (val RV) with R in *; lia | exact Ens]. }
  rewrite repeat_length in Na. destruct ts as [|t0 ts]; [cbn in Na; lia|]. cbn in H0.
  assert (H1 : nth 0 (r_y (sw_rel s)) 0 = 0) by (apply Hall, nth_In; change (val RV) with R in *; lia).
  cbn in H1. change (val RV) with R in *. lra.
Qed.

(** ** C47 normalised sweeps carry estimates, not laws *)
Theorem C47_estimates : forall (A : Arith) (V : Vals A) (W : wfun A V) cur scfg sc (g : ugen A V) sg t tht0 s,
  ap_call A V W cur scfg sc g sg t tht0 true = Ok s ->
  r_x (sw_ft s) = r_x (sw_rel s) /\ r_x (sw_at s) = r_x (sw_rel s) /\
  sc_ft A V sc (sw_rel s) = Ok (r_y (sw_ft s)) /\ sc_at A V sc (sw_rel s) = Ok (r_y (sw_at s)).
Proof. exact ap_call_estimates. Qed.
Print Assumptions C47_estimates.
(** two generators whose normalised sweeps have equal samples give equal laws, whatever their design laws *)
Theorem C47_laws_forgotten : forall (A : Arith) (V : Vals A) (W : wfun A V) cur scfg scfg' sc (g g' : ugen A V) sg sg' t t' p p' s s',
  ap_call A V W cur scfg sc g sg t p true = Ok s -> ap_call A V W cur scfg' sc g' sg' t' p' true = Ok s' ->
  sw_rel s = sw_rel s' -> s = s'.
Proof.
  intros A V W cur scfg scfg' sc g g' sg sg' t t' p p' s s' H H' E.
  apply C47_estimates in H, H'. destruct H as (X1 & X2 & F & B), H' as (X1' & X2' & F' & B').
  rewrite <- E in *. destruct s as [c [fx fy] [bx by0]], s' as [c' [fx' fy'] [bx' by']]. cbn [sw_rel sw_ft sw_at r_x r_y] in *.
  congruence.
Qed.
Print Assumptions C47_laws_forgotten.
Definition ex_ident : wfun QA QV := mkWfun QA QV (fun x => x) 1%Q (fun x => Ok x) (fun x => x).
Definition q_ap (law : Q) : option (list Q * list Q) :=
  let one := mkCallable (A:=QA) (V:=QV) (fun l => Ok (map (fun _ => law) l)) (Ok (fun _ => law)) in
  let sc := mkSconfig QA QV (fun c => Ok (r_y c)) (fun c => Ok (r_y c)) (fun _ => Ok tt) in
  let g := us_new QA QV (default_config QA QV) (fun f x => do a <- axis_array QA x; cl_arr f a) (UtAxis (mkAxis (A:=QA) 0%Q 2%Q 1%Q)) (LiFun one) LiNone in
  match (do g <- g; ap_call QA QV ex_ident (default_config QA QV) (default_config QA QV) sc g
    (mkRel (A:=QA) (V:=QV) (mkAxis (A:=QA) 0%Q 2%Q 1%Q) [1; 1; 1]%Q) UtNone 0%Q true) with
  | Ok s => Some (r_y (sw_rel s), r_y (sw_ft s)) | Err _ => None end.
(** test with stand-ins for sin and sqrt: the frequency law 4 is not what the sweep carries *)
Example C47_case : q_ap 4%Q = Some ([1 # 4; 1 # 4; 1 # 4], [1 # 4; 1 # 4; 1 # 4])%Q.
Proof. vm_compute. reflexivity. Qed.

(** ** C49 spectrogram axes *)
Theorem C49_image_kept : forall (A : Arith) (V : Vals A) (cur : config A V) s p,
  get_spectrogram_axes A V cur s = Ok p -> sp_image p = sg_image s.
Proof. exact sg_image_kept. Qed.
Print Assumptions C49_image_kept.
Theorem C49_axes : forall (V : Vals RA) image (c : rel RA V), (0 < length (r_y c))%nat -> 0 < a_sample (r_x c) ->
  let n := length (r_y c) in let dt := a_sample (r_x c) in
  exists p, sweep_spectrogram RA V (default_config RA V) image c = Ok p /\
    sp_image p = rev (image (seg_rows n) (seg_cols n)) /\
    spectro_axis (INR (seg_len n) / 2 * dt) (INR (seg_step n) * dt) (seg_cols n) (sp_time p) /\
    spectro_axis 0 (1 / (INR (seg_len n) * dt)) (seg_rows n) (sp_freq p).
Proof. exact spectrogram_axes. Qed.
Print Assumptions C49_axes.
(** every sweep of fewer than 480 samples: one image column, two points on the time axis *)
Theorem C49_short_sweep : forall (V : Vals RA) image (c : rel RA V),
  (0 < length (r_y c) < 480)%nat -> 0 < a_sample (r_x c) ->
  (forall rows cols, List.Forall (fun row => length row = cols) (image rows cols)) ->
  exists p, sweep_spectrogram RA V (default_config RA V) image c = Ok p /\
    axis_size RA (sp_time p) = Ok 2%nat /\ List.Forall (fun row => length row = 1%nat) (sp_image p).
Proof.
  intros V image c [Hn Hl] Hd Hi. destruct (spectrogram_axes V image c Hn Hd) as (p & Ep & Im & [T1 _] & _).
  pose proof (proj2 (seg_cols_one (length (r_y c)) Hn) Hl) as E. exists p. split; [exact Ep|]. split.
  - apply T1 in E. apply axis_array_inv in E. destruct E as [E _]. exact E.
  - rewrite Im, E. apply List.Forall_rev, Hi.
Qed.
Print Assumptions C49_short_sweep.
(** 1376 samples at 1 ms: six image columns, five points on the time axis *)
Definition q_sizes (n : nat) (dt : Q) : option (nat * nat * nat) :=
  let c := mkRel (A:=QA) (V:=QV) (mkAxis (A:=QA) 0%Q (dt * inject_Z (Z.of_nat n - 1))%Q dt) (repeat 0%Q n) in
  match sweep_spectrogram QA QV (default_config QA QV) (fun r k => repeat (repeat 0%Q k) r) c with
  | Ok p => match axis_size QA (sp_time p), sp_image p with Ok m, row :: _ => Some (m, length row, length (sp_image p)) | _, _ => None end
  | Err _ => None end.
Theorem C49_long_sweep_refuted : q_sizes 1376 (1 # 1000)%Q = Some (5, 6, 129)%nat.
Proof. vm_compute. reflexivity. Qed.
Print Assumptions C49_long_sweep_refuted.
Example C49_case : q_sizes 300 (1 # 1000)%Q = Some (2, 1, 129)%nat /\ q_sizes 1000 (1 # 500)%Q = Some (4, 4, 129)%nat.
Proof. split; vm_compute; reflexivity. Qed.
