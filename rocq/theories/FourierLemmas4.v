(** Signals recomputed without an axis (C30). *)
From Coq Require Import Reals ZArith List Bool Lra Lia.
From Coquelicot Require Import Complex.
From Verif Require Import Num Numpy Spec AxisModel RelModel HeapModel RLemmas AxisLemmas InterpLemmas VInst
  RelLemmas RelLemmas2 FourierSpec FourierModel DftLemmas FourierLemmas FourierLemmas2.
Import ListNotations.
Local Open Scope R_scope.

(** time step of a signal of [n] samples rebuilt from its spectrum *)
Definition rebuilt_step (n : nat) (d : R) : R := if Nat.even n then d else INR n * d / INR (n - 1).
Lemma rebuilt_step_eq n d : (2 <= n)%nat -> 0 < d ->
  2 * (a_end (faxis n d) - a_start (faxis n d)) = / rebuilt_step n d /\ 0 < rebuilt_step n d.
Proof.
  intros Hn Hd. assert (N := INR_nz n ltac:(lia)). assert (N0 : 0 < INR n) by (apply lt_0_INR; lia).
  unfold rebuilt_step, faxis. cbn [a_end a_start]. destruct (Nat.even n) eqn:E.
  - apply Nat.even_spec in E. destruct E as [h ->]. rewrite half_e. split; [|exact Hd].
    assert (H : INR (2 * h) = 2 * INR h) by (rewrite mult_INR; reflexivity). rewrite H in *. field. split; lra.
  - assert (O : Nat.odd n = true) by (unfold Nat.odd; rewrite E; reflexivity). apply Nat.odd_spec in O. destruct O as [h ->].
    rewrite half_o. replace (2 * h + 1 - 1)%nat with (2 * h)%nat by lia.
    assert (H : INR (2 * h) = 2 * INR h) by (rewrite mult_INR; reflexivity).
    assert (Hh : 0 < INR h) by (apply lt_0_INR; lia). rewrite H. split.
    + field. repeat split; lra.
    + apply Rdiv_lt_0_compat; [apply Rmult_lt_0_compat; auto|lra].
Qed.
Lemma dt_of n d : (2 <= n)%nat -> 0 < d -> 1 / (2 * (a_end (faxis n d) - a_start (faxis n d))) = rebuilt_step n d.
Proof. intros Hn Hd. destruct (rebuilt_step_eq n d Hn Hd) as [-> H]. field. lra. Qed.
Lemma span_of s dt n : 0 < dt -> exact_span s (s + INR (n - 1) * dt) dt (n - 1).
Proof. intros H. unfold exact_span. split; [exact H|ring]. Qed.

Lemma signal_rebuilt (n : nat) (d : R) (dm : dom RA) (sz : option Z) (X : list C) (y : list C) st p :
  (2 <= n)%nat -> 0 < d -> (dm = DNone RA \/ exists k, dm = DInt RA k) -> fft_size dm = Ok sz -> irfft X sz = Ok y -> (1 <= length y)%nat ->
  let s := match st with Some s => s | None => 0 end in let dt := rebuilt_step n d in
  (p <= length y)%nat -> negatives s dt (length y) p ->
  val_signal RA CV FC (mkRel (A:=RA) (V:=CV) (faxis n d) X) dm st =
    Ok (mkRel (A:=RA) (V:=CV) (mkAxis (A:=RA) s (s + INR (length y - 1) * dt) dt) (rotl p y)).
Proof.
  intros Hn Hd Hdm Hsz Hy Ly s dt Hp Hneg. destruct (rebuilt_step_eq n d Hn Hd) as [W P]. fold dt in W, P.
  unfold val_signal. cbn [fourier_config hc_sp2s]. unfold spectrum2signal. cbn [r_x r_y]. rewrite Hsz. cbn [bind]. rewrite Hy. cbn [bind].
  assert (Wz : Reqb (2 * (a_end (faxis n d) - a_start (faxis n d))) 0 = false).
  { apply Reqb_false. rewrite W. apply Rinv_neq_0_compat. lra. }
  assert (Et : (match dm with
           | DAxis a => Ok a
           | _ => if Reqb (2 * (a_end (faxis n d) - a_start (faxis n d))) 0 then Err EArith
               else match st with
                    | None => Ok (mkAxis (A:=RA) 0 (INR (length y - 1) * (1 / (2 * (a_end (faxis n d) - a_start (faxis n d))))) (1 / (2 * (a_end (faxis n d) - a_start (faxis n d)))))
                    | Some s => Ok (mkAxis (A:=RA) s (s + INR (length y - 1) * (1 / (2 * (a_end (faxis n d) - a_start (faxis n d))))) (1 / (2 * (a_end (faxis n d) - a_start (faxis n d)))))
                    end
           end) = Ok (mkAxis (A:=RA) s (s + INR (length y - 1) * dt) dt)).
  { rewrite Wz, dt_of by auto. fold dt. unfold s. destruct Hdm as [->|[k ->]]; destruct st; try reflexivity; f_equal; f_equal; ring. }
  cbv zeta. cbn [RA num] in Et |- *. rewrite Et. cbn [bind].
  assert (Sp := span_of s dt (length y) P). set (t := mkAxis (A:=RA) s (s + INR (length y - 1) * dt) dt) in *.
  assert (L1 : (length y - 1 + 1)%nat = length y) by lia.
  rewrite (reorder_exact t (length y - 1) p); [|exact Sp|lia|lia|rewrite L1; exact Hneg].
  cbn [bind fst snd]. apply make_CV with (n := length y); [|apply rotl_length].
  rewrite (axis_size_exact t (length y - 1) Sp). f_equal. exact L1.
Qed.

Lemma irfft_len X sz y : irfft X sz = Ok y -> length y = Z.to_nat (match sz with Some z => z | None => (2 * (Z.of_nat (length X) - 1))%Z end).
Proof.
  unfold irfft. destruct (_ <? 1)%Z; [discriminate|]. intros H. injection H as <-. rewrite map_length, seq_length. reflexivity.
Qed.
(** asking for the original number of samples *)
Lemma rebuilt_count (x : raxis) (u : list R) z st p : (2 <= length u)%nat -> a_start x = 0 ->
  exact_span (a_start x) (a_end x) (a_sample x) (length u - 1) ->
  let n := length u in let s := match st with Some s => s | None => 0 end in let dt := rebuilt_step n (a_sample x) in
  (p <= n)%nat -> negatives s dt n p ->
  exists S w, val_spectrum RA CV FC (mkRel (A:=RA) (V:=CV) x (reals u)) (DNone RA) z = Ok S /\
    val_signal RA CV FC S (DInt RA (Z.of_nat n)) st = Ok (mkRel (A:=RA) (V:=CV) (mkAxis (A:=RA) s (s + INR (n - 1) * dt) dt) (reals w)) /\
    rotated_left (Z.of_nat p) u w /\
    (Nat.even n = true -> val_signal RA CV FC S (DNone RA) st = val_signal RA CV FC S (DInt RA (Z.of_nat n)) st).
Proof.
  intros Hu Hs Hx n s dt Hp Hneg. assert (Hd : 0 < a_sample x) by apply Hx.
  exists (mkRel (A:=RA) (V:=CV) (faxis n (a_sample x)) (dft n u)), (rotl p u).
  assert (I : irfft (dft n u) (Some (Z.of_nat n)) = Ok (reals u)).
  { rewrite <- (turned_0 n u eq_refl) at 2. rewrite <- irfft_modulated by lia. f_equal. unfold dft. apply map_ext. intros j. symmetry. apply modulate_0. }
  assert (Lr : length (reals u) = n) by (unfold reals; rewrite map_length; reflexivity).
  assert (V1 : val_signal RA CV FC (mkRel (A:=RA) (V:=CV) (faxis n (a_sample x)) (dft n u)) (DInt RA (Z.of_nat n)) st =
    Ok (mkRel (A:=RA) (V:=CV) (mkAxis (A:=RA) s (s + INR (n - 1) * dt) dt) (reals (rotl p u)))).
  { rewrite <- rotl_reals. rewrite (signal_rebuilt n (a_sample x) (DInt RA (Z.of_nat n)) (Some (Z.of_nat n)) (dft n u) (reals u) st p); auto.
    - rewrite Lr. reflexivity.
    - eauto.
    - rewrite Lr. lia.
    - rewrite Lr. exact Hp.
    - rewrite Lr. exact Hneg. }
  split; [apply spectrum_zero; auto|]. split; [exact V1|]. split; [apply rotl_rotated; exact Hp|].
  intros Ev. unfold val_signal. cbn [fourier_config hc_sp2s]. unfold spectrum2signal. cbn [fft_size bind r_y r_x].
  assert (I0 : irfft (dft n u) None = irfft (dft n u) (Some (Z.of_nat n))).
  { unfold irfft. rewrite dft_length. apply Nat.even_spec in Ev. destruct Ev as [h Eh]. rewrite Eh, half_e.
    replace (2 * (Z.of_nat (h + 1) - 1))%Z with (Z.of_nat (2 * h)) by lia. reflexivity. }
  rewrite I0. reflexivity.
Qed.
(** odd lengths without the number of samples *)
Lemma rebuilt_odd (x : raxis) (u : list R) z st p : (2 <= length u)%nat -> a_start x = 0 ->
  exact_span (a_start x) (a_end x) (a_sample x) (length u - 1) -> Nat.even (length u) = false ->
  let n := length u in let s := match st with Some s => s | None => 0 end in let dt := INR n * a_sample x / INR (n - 1) in
  (p <= n - 1)%nat -> negatives s dt (n - 1) p ->
  exists S y, val_spectrum RA CV FC (mkRel (A:=RA) (V:=CV) x (reals u)) (DNone RA) z = Ok S /\
    val_signal RA CV FC S (DNone RA) st = Ok (mkRel (A:=RA) (V:=CV) (mkAxis (A:=RA) s (s + INR (n - 2) * dt) dt) y) /\ length y = (n - 1)%nat.
Proof.
  intros Hu Hs Hx Od n s dt Hp Hneg. assert (Hd : 0 < a_sample x) by apply Hx.
  assert (Edt : rebuilt_step n (a_sample x) = dt) by (unfold rebuilt_step, n; rewrite Od; reflexivity).
  assert (O : Nat.odd n = true) by (unfold Nat.odd, n; rewrite Od; reflexivity). apply Nat.odd_spec in O. destruct O as [h Eh].
  assert (Hh : (n / 2)%nat = h) by (rewrite Eh; apply half_o).
  destruct (irfft (dft n u) None) as [y|e] eqn:I.
  2:{ unfold irfft in I. destruct (_ <? 1)%Z eqn:E1; [|discriminate I]. apply Z.ltb_lt in E1. rewrite dft_length in E1. fold n in Hu. lia. }
  assert (Ly : length y = (n - 1)%nat) by (rewrite (irfft_len _ _ _ I), dft_length; fold n in Hu; lia).
  exists (mkRel (A:=RA) (V:=CV) (faxis n (a_sample x)) (dft n u)), (rotl p y).
  split; [apply spectrum_zero; auto|]. split; [|rewrite rotl_length; exact Ly].
  rewrite (signal_rebuilt n (a_sample x) (DNone RA) None (dft n u) y st p); auto.
  - rewrite Ly, Edt. replace (n - 1 - 1)%nat with (n - 2)%nat by lia. reflexivity.
  - fold n in Hu. lia.
  - rewrite Ly. exact Hp.
  - rewrite Ly, Edt. exact Hneg.
Qed.

(** *** signals that do not reach time 0 are filled up with zeros (C31) *)
Lemma late_start (x : raxis) (y : list C) (d : dom RA) N : axis_size RA x = Ok (length y) -> 0 < a_start x -> a_start x <= a_end x ->
  axis_size RA (mkAxis (A:=RA) 0 (a_end x) (a_sample x)) = Ok N ->
  (length y <= N)%nat /\
  val_spectrum RA CV FC (mkRel (A:=RA) (V:=CV) x y) d false =
  val_spectrum RA CV FC (mkRel (A:=RA) (V:=CV) (mkAxis (A:=RA) 0 (a_end x) (a_sample x)) (repeat (RtoC 0) (N - length y) ++ y)) d true.
Proof.
  intros Hc Hs Hse HN.
  assert (Hle : (length y <= N)%nat).
  { eapply axis_size_mono; [| exact Hc | exact HN |]; cbn; [reflexivity|]. rewrite !Rabs_right by lra. lra. }
  split; [exact Hle|]. unfold val_spectrum. cbn [fourier_config hc_s2s]. unfold signal2spectrum. cbn [r_x r_y].
  assert (E : Rltb 0 (a_start x) = true) by (apply Rltb_true; exact Hs). rewrite E.
  unfold set_start. change (n_of_Z RA 0) with 0. rewrite HN. cbn [bind]. change (val CV) with C. destruct (Nat.ltb_spec N (length y)); [lia|]. reflexivity.
Qed.
Lemma early_end (x : raxis) (y : list C) (d : dom RA) N : axis_size RA x = Ok (length y) -> a_end x < 0 -> a_start x <= a_end x ->
  axis_size RA (mkAxis (A:=RA) (a_start x) 0 (a_sample x)) = Ok N ->
  (length y <= N)%nat /\
  val_spectrum RA CV FC (mkRel (A:=RA) (V:=CV) x y) d false =
  val_spectrum RA CV FC (mkRel (A:=RA) (V:=CV) (mkAxis (A:=RA) (a_start x) 0 (a_sample x)) (y ++ repeat (RtoC 0) (N - length y))) d true.
Proof.
  intros Hc Hs Hse HN.
  assert (Hle : (length y <= N)%nat).
  { eapply axis_size_mono; [| exact Hc | exact HN |]; cbn; [reflexivity|].
    rewrite (Rabs_right (a_end x - a_start x)), (Rabs_right (0 - a_start x)) by lra. lra. }
  split; [exact Hle|]. unfold val_spectrum. cbn [fourier_config hc_s2s]. unfold signal2spectrum. cbn [r_x r_y].
  assert (E : Rltb 0 (a_start x) = false) by (apply Rltb_false; lra). rewrite E.
  assert (E2 : Rltb (a_end x) 0 = true) by (apply Rltb_true; exact Hs). rewrite E2.
  unfold set_end. change (n_of_Z RA 0) with 0. rewrite HN. cbn [bind]. change (val CV) with C. destruct (Nat.ltb_spec N (length y)); [lia|]. reflexivity.
Qed.
Lemma map_repeat_val {S T} (f : S -> T) v n : map f (repeat v n) = repeat (f v) n.
Proof. induction n; [reflexivity|]. cbn. rewrite IHn. reflexivity. Qed.
