(** Proofs for C91: how errors go through the Fourier transforms. *)
From Coq Require Import Reals ZArith List Bool Lia Lra.
From Coquelicot Require Import Complex.
From Verif Require Import Num Numpy Spec AxisModel RelModel HeapModel RLemmas AxisLemmas InterpLemmas VInst
  RelLemmas RelLemmas2 RelLemmas3 CorrLemmas FourierSpec FourierModel DftLemmas FourierLemmas FourierLemmas2 SpectrumLemmas SpectrumLemmas2 HilbertLemmas InexactSpec.
Import ListNotations.
Local Open Scope R_scope.

Notation FC := fourier_config.
Notation mk := (@mkRel RA CV).

(** ** lists *)
Lemma off_length e y y' : off e y y' -> length y' = length y.
Proof. intros H. induction H as [|a b y y' _ _ IH]; cbn [length]; congruence. Qed.
Lemma off_same e y : 0 <= e -> off e y y.
Proof. intros He. induction y as [|a y IH]; constructor; [|exact IH]. unfold Cminus. rewrite Cplus_opp_r, Cmod_0. exact He. Qed.
Lemma off_nth e y y' k : 0 <= e -> off e y y' -> Cmod (Cminus (nth k y' (RtoC 0)) (nth k y (RtoC 0))) <= e.
Proof.
  intros He H. revert k. induction H as [|a b y y' Hab H IH]; intros [|k]; cbn [nth]; try apply IH; try exact Hab.
  all: unfold Cminus; rewrite Cplus_opp_r, Cmod_0; exact He.
Qed.
Lemma off_trans a b x y z : off a x y -> off b y z -> off (a + b) x z.
Proof.
  unfold off. intros H. revert z. induction H as [|p q x y Hpq H IH]; intros z Hz; inversion Hz as [|q' r y' z' Hqr Hz']; subst; constructor; [|apply IH; exact Hz'].
  replace (Cminus r p) with (Cplus (Cminus r q) (Cminus q p)) by ring. eapply Rle_trans; [apply Cmod_triangle|]. lra.
Qed.
Lemma off_mono a b x y : a <= b -> off a x y -> off b x y.
Proof. intros Hab H. induction H as [|p q x y Hpq H IH]; constructor; [lra|exact IH]. Qed.
Lemma off_mask e m y y' : off e y y' -> off e (mask m y) (mask m y').
Proof.
  intros H. revert m. induction H as [|a b y y' Hab H IH]; intros [|[|] m]; cbn [mask]; try constructor; auto; apply IH.
Qed.
Lemma off_app e u u' v v' : off e u u' -> off e v v' -> off e (u ++ v) (u' ++ v').
Proof. apply Forall2_app. Qed.
Lemma off_firstn e n y y' : off e y y' -> off e (firstn n y) (firstn n y').
Proof. intros H. revert n. induction H as [|a b y y' Hab H IH]; intros [|n]; cbn [firstn]; constructor; auto. apply IH. Qed.
Lemma off_fit e n y y' : 0 <= e -> off e y y' -> off e (fit (RtoC 0) n y) (fit (RtoC 0) n y').
Proof.
  intros He H. unfold fit. rewrite (off_length _ _ _ H). apply off_app; [apply off_firstn; exact H|apply off_same; exact He].
Qed.
Lemma off_reorder e t y y' w : off e y y' -> reorder t y = Ok w -> exists w', reorder t y' = Ok w' /\ off e w w'.
Proof.
  intros H. unfold reorder. destruct (axis_array RA t) as [arr|]; [|discriminate]. cbn [bind]. rewrite (off_length _ _ _ H).
  match goal with |- (if ?b then _ else _) = _ -> _ => destruct b eqn:Q end; [|discriminate]. intros E. injection E as <-. eexists. split; [reflexivity|].
  apply off_app; apply off_mask; exact H.
Qed.

(** ** sums *)
Lemma rsum_near f g b n : (forall k, (k < n)%nat -> Rabs (g k - f k) <= b) -> Rabs (rsum g n - rsum f n) <= INR n * b.
Proof.
  induction n as [|n IH]; intros H.
  - cbn. rewrite Rminus_0_r, Rabs_R0. lra.
  - cbn [rsum]. rewrite S_INR. assert (A : Rabs (rsum g n - rsum f n) <= INR n * b) by (apply IH; intros; apply H; lia).
    specialize (H n (le_n _)). replace (rsum g n + g n - (rsum f n + f n)) with ((rsum g n - rsum f n) + (g n - f n)) by ring.
    eapply Rle_trans; [apply Rabs_triang|]. lra.
Qed.
Lemma turn_part z t : Rabs (fst z * cos t - snd z * sin t) <= Cmod z.
Proof.
  replace (fst z * cos t - snd z * sin t) with (fst (Cmult z (cis t))) by (unfold Cmult, cis; cbn; ring).
  eapply Rle_trans; [apply fst_le_mod|]. rewrite Cmod_mult, cis_mod. lra.
Qed.
Lemma fst_minus a b : fst (Cminus a b) = fst a - fst b. Proof. reflexivity. Qed.
Lemma snd_minus a b : snd (Cminus a b) = snd a - snd b. Proof. reflexivity. Qed.
Lemma count_terms n : (1 <= n)%nat -> 1 + 2 * INR ((n - 1) / 2) + (if Nat.even n then 1 else 0) = INR n.
Proof.
  intros Hn. destruct (Nat.even n) eqn:E.
  - apply Nat.even_spec in E as [k ->]. replace ((2 * k - 1) / 2)%nat with (k - 1)%nat.
    2:{ apply Nat.div_unique with 1%nat; lia. }
    rewrite minus_INR, mult_INR by lia. cbn [INR]. lra.
  - assert (O : Nat.odd n = true) by (unfold Nat.odd; rewrite E; reflexivity). apply Nat.odd_spec in O as [k ->].
    replace ((2 * k + 1 - 1) / 2)%nat with k.
    2:{ apply Nat.div_unique with 0%nat; lia. }
    rewrite plus_INR, mult_INR. cbn [INR]. lra.
Qed.
Lemma irfft_near n X X' j e : (1 <= n)%nat -> 0 <= e -> off e X X' -> Rabs (irfft_at n X' j - irfft_at n X j) <= e.
Proof.
  intros Hn He H. unfold irfft_at. assert (Pn : 0 < INR n) by (apply lt_0_INR; lia).
  set (z := RtoC 0) in *. set (t0 := fst (nth 0 X z)). set (t0' := fst (nth 0 X' z)).
  set (f := fun k => 2 * (fst (nth (S k) X z) * cos (ang n (S k) j) - snd (nth (S k) X z) * sin (ang n (S k) j))).
  set (f' := fun k => 2 * (fst (nth (S k) X' z) * cos (ang n (S k) j) - snd (nth (S k) X' z) * sin (ang n (S k) j))).
  set (l := if Nat.even n then fst (nth (n / 2) X z) * cos (ang n (n / 2) j) else 0).
  set (l' := if Nat.even n then fst (nth (n / 2) X' z) * cos (ang n (n / 2) j) else 0).
  assert (B0 : Rabs (t0' - t0) <= e).
  { unfold t0, t0'. rewrite <- fst_minus. eapply Rle_trans; [apply fst_le_mod|]. apply off_nth; assumption. }
  assert (B1 : Rabs (rsum f' ((n - 1) / 2) - rsum f ((n - 1) / 2)) <= INR ((n - 1) / 2) * (2 * e)).
  { apply rsum_near. intros k _. unfold f, f'.
    match goal with |- Rabs ?a <= _ => replace a with (2 * (fst (Cminus (nth (S k) X' z) (nth (S k) X z)) * cos (ang n (S k) j)
      - snd (Cminus (nth (S k) X' z) (nth (S k) X z)) * sin (ang n (S k) j))) by (rewrite fst_minus, snd_minus; ring) end.
    rewrite Rabs_mult, (Rabs_right 2) by lra. apply Rmult_le_compat_l; [lra|]. eapply Rle_trans; [apply turn_part|]. apply off_nth; assumption. }
  assert (B2 : Rabs (l' - l) <= (if Nat.even n then 1 else 0) * e).
  { unfold l, l'. destruct (Nat.even n); [|rewrite Rminus_0_r, Rabs_R0; lra]. rewrite <- Rmult_minus_distr_r, <- fst_minus, Rabs_mult.
    assert (C1 : Rabs (cos (ang n (n / 2) j)) <= 1) by (apply Rabs_le; apply COS_bound).
    apply Rle_trans with (Rabs (fst (Cminus (nth (n / 2) X' z) (nth (n / 2) X z))) * 1); [apply Rmult_le_compat_l; [apply Rabs_pos|exact C1]|].
    rewrite Rmult_1_r, Rmult_1_l. eapply Rle_trans; [apply fst_le_mod|]. apply off_nth; assumption. }
  pose proof (count_terms n Hn) as CT.
  replace (/ INR n * (t0' + rsum f' ((n - 1) / 2) + l') - / INR n * (t0 + rsum f ((n - 1) / 2) + l))
    with (/ INR n * ((t0' - t0) + ((rsum f' ((n - 1) / 2) - rsum f ((n - 1) / 2)) + (l' - l)))) by ring.
  rewrite Rabs_mult, (Rabs_right (/ INR n)) by (apply Rle_ge, Rlt_le, Rinv_0_lt_compat; exact Pn).
  apply Rmult_le_reg_l with (INR n); [exact Pn|]. rewrite <- Rmult_assoc, Rinv_r, Rmult_1_l by lra.
  eapply Rle_trans; [apply Rabs_triang|]. pose proof (Rabs_triang (rsum f' ((n - 1) / 2) - rsum f ((n - 1) / 2)) (l' - l)) as T.
  assert (E : INR n * e = e + INR ((n - 1) / 2) * (2 * e) + (if Nat.even n then 1 else 0) * e) by (rewrite <- CT; ring). lra.
Qed.
Lemma off_map {T} e (f g : T -> C) l : (forall t, In t l -> Cmod (Cminus (g t) (f t)) <= e) -> off e (map f l) (map g l).
Proof. induction l as [|t l IH]; intros H; cbn [map]; constructor; [apply H; left; reflexivity|apply IH; intros; apply H; right; assumption]. Qed.
Lemma irfft_off e X X' sz y : 0 <= e -> off e X X' -> irfft X sz = Ok y -> exists y', irfft X' sz = Ok y' /\ off e y y'.
Proof.
  intros He H. unfold irfft. rewrite (off_length _ _ _ H).
  set (m := match sz with Some z => z | None => (2 * (Z.of_nat (length X) - 1))%Z end). destruct (m <? 1)%Z eqn:Em; [discriminate|].
  intros E. injection E as <-. eexists. split; [reflexivity|]. apply off_map. intros j _.
  apply Z.ltb_ge in Em. rewrite <- RtoC_minus, Cmod_R. apply irfft_near; [lia|exact He|]. apply off_fit; assumption.
Qed.

(** the inverse transform never enlarges an error *)
Lemma sp2s_off e x X X' d st t y : 0 <= e -> off e X X' -> spectrum2signal (mk x X) d st = Ok (t, y) ->
  exists y', spectrum2signal (mk x X') d st = Ok (t, y') /\ off e y y'.
Proof.
  intros He H. unfold spectrum2signal. cbn [r_x r_y]. destruct (fft_size d) as [sz|]; [|discriminate]. cbn [bind].
  destruct (irfft X sz) as [v|] eqn:Ev; [|discriminate]. destruct (irfft_off e X X' sz v He H Ev) as (v' & Ev' & Hv).
  change (val CV) with C in *. rewrite Ev'. cbn [bind]. rewrite (off_length _ _ _ Hv).
  match goal with |- context [bind ?b _] => destruct b as [t'|]; [|discriminate] end. cbn [bind].
  destruct (reorder t' v) as [w|] eqn:Ew; [|discriminate]. destruct (off_reorder e t' v v' w Hv Ew) as (w' & -> & Hw).
  cbn [bind]. intros E. injection E as <- <-. eexists. split; [reflexivity|exact Hw].
Qed.

(** ** the transform itself *)
Lemma dft_part (d th : nat -> R) n : Cmod (rsum (fun j => d j * cos (th j)) n, - rsum (fun j => d j * sin (th j)) n) <= rsum (fun j => Rabs (d j)) n.
Proof.
  induction n as [|n IH]; cbn [rsum].
  - replace (0, - 0) with (RtoC 0) by (unfold RtoC; f_equal; ring). rewrite Cmod_0. lra.
  - set (A := rsum (fun j => d j * cos (th j)) n) in *. set (B := rsum (fun j => d j * sin (th j)) n) in *.
    replace (A + d n * cos (th n), - (B + d n * sin (th n))) with (Cplus (A, - B) (Cmult (RtoC (d n)) (cis (- th n)))).
    2:{ unfold Cplus, Cmult, cis, RtoC. cbn [fst snd]. rewrite cos_neg, sin_neg. f_equal; ring. }
    eapply Rle_trans; [apply Cmod_triangle|]. rewrite Cmod_mult, cis_mod, Cmod_R. lra.
Qed.
Lemma distance_nonneg y y' : 0 <= distance y y'.
Proof. revert y'. induction y as [|a y IH]; intros [|b y']; cbn [distance]; try lra. pose proof (IH y'). pose proof (Cmod_ge_0 (Cminus b a)). lra. Qed.
Lemma rsum_distance y y' n : length y' = length y ->
  rsum (fun j => Rabs (nth j (map fst y') 0 - nth j (map fst y) 0)) n <= distance y y'.
Proof.
  revert y' n. induction y as [|a y IH]; intros [|b y'] n L; try discriminate.
  - cbn [map distance]. rewrite (rsum_ext _ (fun _ => 0)), rsum_zero; [lra|]. intros [|j] _; cbn [nth]; rewrite Rminus_0_r, Rabs_R0; reflexivity.
  - destruct n as [|n]; [pose proof (distance_nonneg (a :: y) (b :: y')); cbn [rsum]; lra|]. rewrite rsum_head. cbn [map nth distance].
    pose proof (IH y' n ltac:(cbn in L; lia)) as H. rewrite <- fst_minus. pose proof (fst_le_mod (Cminus b a)). lra.
Qed.
Lemma nth_fit (l : list R) n j : (j < n)%nat -> nth j (fit 0 n l) 0 = nth j l 0.
Proof.
  intros Hj. unfold fit. destruct (Nat.lt_ge_cases j (length l)) as [H|H].
  - rewrite app_nth1 by (rewrite firstn_length; lia). revert n j Hj H. induction l as [|a l IH]; intros [|n] [|j] Hj H; cbn in *; try lia; try reflexivity. apply IH; lia.
  - rewrite (nth_overflow l) by exact H. rewrite app_nth2 by (rewrite firstn_length; lia). apply nth_repeat.
Qed.
Lemma rfft_near n y y' k : length y' = length y ->
  Cmod (Cminus (rfft_at n (fit 0 n (map fst y')) k) (rfft_at n (fit 0 n (map fst y)) k)) <= distance y y'.
Proof.
  intros L. set (u' := fit 0 n (map fst y')). set (u := fit 0 n (map fst y)).
  replace (Cminus (rfft_at n u' k) (rfft_at n u k)) with
    (rsum (fun j => (nth j u' 0 - nth j u 0) * cos (ang n k j)) n, - rsum (fun j => (nth j u' 0 - nth j u 0) * sin (ang n k j)) n).
  2:{ unfold rfft_at, Cminus, Cplus, Copp. cbn [fst snd]. f_equal.
      - transitivity (rsum (fun j => nth j u' 0 * cos (ang n k j)) n - rsum (fun j => nth j u 0 * cos (ang n k j)) n); [|ring].
        rewrite <- rsum_minus. apply rsum_ext. intros; ring.
      - transitivity (- (rsum (fun j => nth j u' 0 * sin (ang n k j)) n - rsum (fun j => nth j u 0 * sin (ang n k j)) n)); [|ring].
        rewrite <- rsum_minus. f_equal. apply rsum_ext. intros; ring. }
  eapply Rle_trans; [apply (dft_part (fun j => nth j u' 0 - nth j u 0) (ang n k))|].
  rewrite (rsum_ext _ (fun j => Rabs (nth j (map fst y') 0 - nth j (map fst y) 0))); [apply rsum_distance; exact L|].
  intros j Hj. unfold u, u'. rewrite !nth_fit by exact Hj. reflexivity.
Qed.
Lemma rfft_off y y' sz w : length y' = length y -> rfft y sz = Ok w -> exists w', rfft y' sz = Ok w' /\ off (distance y y') w w'.
Proof.
  intros L. unfold rfft. rewrite L. set (m := match sz with Some z => z | None => Z.of_nat (length y) end). destruct (m <? 1)%Z; [discriminate|].
  intros E. injection E as <-. eexists. split; [reflexivity|]. apply off_map. intros k _. apply rfft_near. exact L.
Qed.
Lemma distance_app u u' v v' : length u' = length u -> distance (u ++ v) (u' ++ v') = distance u u' + distance v v'.
Proof. revert u'. induction u as [|a u IH]; intros [|b u'] L; try discriminate; cbn [app distance]; [ring|]. rewrite IH by (cbn in L; lia). ring. Qed.
Lemma distance_refl y : distance y y = 0.
Proof. induction y as [|a y IH]; cbn [distance]; [reflexivity|]. rewrite IH. unfold Cminus. rewrite Cplus_opp_r, Cmod_0. ring. Qed.
Lemma mask_len {T} m (y y' : list T) : length y' = length y -> length (mask m y') = length (mask m y).
Proof.
  revert y y'. induction m as [|[|] m IH]; intros [|a y] [|b y'] L; try discriminate; cbn [mask length]; try reflexivity; try apply (f_equal S); apply IH; cbn in L; lia.
Qed.
Lemma distance_mask m y y' : length y' = length y -> length m = length y ->
  distance (mask m y) (mask m y') + distance (mask (map negb m) y) (mask (map negb m) y') = distance y y'.
Proof.
  revert y y'. induction m as [|[|] m IH]; intros [|a y] [|b y'] L M; try discriminate; cbn [mask map negb distance]; try ring.
  all: rewrite <- (IH y y') by (cbn in L, M; lia); ring.
Qed.
Lemma reorder_distance t y y' w : length y' = length y -> reorder t y = Ok w ->
  exists w', reorder t y' = Ok w' /\ length w' = length w /\ distance w w' = distance y y'.
Proof.
  intros L. unfold reorder. destruct (axis_array RA t) as [arr|]; [|discriminate]. cbn [bind]. rewrite L.
  match goal with |- (if ?b then _ else _) = _ -> _ => destruct b eqn:E end; [|discriminate]. apply Nat.eqb_eq in E. intros H. apply (f_equal (fun r => match r with Ok v => v | Err _ => [] end)) in H.
  assert (N : map (fun x => n_lt RA x 0) arr = map negb (map (fun x => n_le RA 0 x) arr)).
  { rewrite map_map. apply map_ext. intros x. cbn. unfold Rltb, Rleb. destruct (Rlt_dec x 0); destruct (Rle_dec 0 x); try reflexivity; lra. }
  set (m := map (fun x => n_le RA 0 x) arr) in *. set (m' := map (fun x => n_lt RA x 0) arr) in *. subst w.
  eexists. split; [reflexivity|]. rewrite !app_length, distance_app by (apply mask_len; exact L).
  split; [rewrite !(mask_len _ y y' L); reflexivity|]. rewrite N. apply distance_mask; [exact L|]. unfold m. rewrite map_length. exact E.
Qed.
Lemma calc_off t y y' d f w : length y' = length y -> calculate_spectrum t y d = Ok (f, w) ->
  exists w', calculate_spectrum t y' d = Ok (f, w') /\ off (distance y y') w w'.
Proof.
  intros L. unfold calculate_spectrum. destruct (fft_size d) as [sz|]; [|discriminate]. cbn [bind].
  destruct (reorder t y) as [v|] eqn:Ev; [|discriminate]. destruct (reorder_distance t y y' v L Ev) as (v' & -> & Lv & Dv). cbn [bind].
  destruct (rfft v sz) as [s|] eqn:Es; [|discriminate]. destruct (rfft_off v v' sz s Lv Es) as (s' & -> & Hs). cbn [bind]. rewrite Lv. rewrite Dv in Hs.
  destruct d as [|n|a].
  1,2: destruct (rfftfreq (length v) (a_sample t)) as [q|]; [|discriminate]; cbn [bind]; destruct (axis_of_array RA _ false) as [x|]; [|discriminate];
    cbn [bind]; intros E; injection E as <- <-; eexists; split; [reflexivity|exact Hs].
  intros E. injection E as <- <-. eexists. split; [reflexivity|exact Hs].
Qed.
Lemma s2s_off x y y' d z f w : length y' = length y -> signal2spectrum (mk x y) d z = Ok (f, w) ->
  exists w', signal2spectrum (mk x y') d z = Ok (f, w') /\ off (distance y y') w w'.
Proof.
  intros L. unfold signal2spectrum. cbn [r_x r_y]. change (val CV) with C in *. rewrite L.
  destruct z; [apply calc_off; exact L|]. destruct (Rltb 0 (a_start x)).
  - destruct (axis_size RA (set_start RA 0 x)) as [n|]; [|discriminate]. cbn [bind]. destruct (Nat.ltb n (length y)); [discriminate|].
    intros E. replace (distance y y') with (distance (repeat (RtoC 0) (n - length y) ++ y) (repeat (RtoC 0) (n - length y) ++ y'))
      by (rewrite distance_app, distance_refl by reflexivity; ring).
    apply calc_off; [rewrite !app_length, L; reflexivity|exact E].
  - destruct (Rltb (a_end x) 0); [|apply calc_off; exact L].
    destruct (axis_size RA (set_end RA 0 x)) as [n|]; [|discriminate]. cbn [bind]. destruct (Nat.ltb n (length y)); [discriminate|].
    intros E. replace (distance y y') with (distance (y ++ repeat (RtoC 0) (n - length y)) (y' ++ repeat (RtoC 0) (n - length y)))
      by (rewrite distance_app, distance_refl by exact L; ring).
    apply calc_off; [rewrite !app_length, L; reflexivity|exact E].
Qed.

(** ** methods with such transforms *)
Section Inexact.
Context (e1 e2 : crel -> R) (cfg : hconfig RA CV) (HI : inexact e1 e2 cfg).

Lemma make_off e x y y' (S : crel) : off e y y' -> rel_make RA CV x y = Ok S -> S = mk x y /\ rel_make RA CV x y' = Ok (mk x y').
Proof.
  intros H. unfold rel_make. destruct (axis_size RA x) as [n|]; [|discriminate]. cbn [bind]. pose proof (off_length _ _ _ H) as L. change (val CV) with C in *. rewrite L.
  match goal with |- (if ?b then _ else _) = _ -> _ => destruct b eqn:E end; [|discriminate]. intros Q. injection Q as <-. split; reflexivity.
Qed.
Lemma spectrum_inexact c d z S : val_spectrum RA CV FC c d z = Ok S ->
  exists S', val_spectrum RA CV cfg c d z = Ok S' /\ r_x S' = r_x S /\ off (e1 c) (r_y S) (r_y S').
Proof.
  destruct HI as (_ & _ & _ & H1 & _). unfold val_spectrum. cbn [fourier_config hc_s2s]. destruct (signal2spectrum c d z) as [[x y]|] eqn:E; [|discriminate]. cbn [bind fst snd].
  intros M. destruct (H1 c d z x y E) as (y' & -> & O). cbn [bind fst snd]. destruct (make_off _ _ _ _ _ O M) as [-> ->]. eexists. split; [reflexivity|]. split; [reflexivity|exact O].
Qed.
Lemma signal_inexact (S S' : crel) d st w e : 0 <= e -> r_x S' = r_x S -> off e (r_y S) (r_y S') -> val_signal RA CV FC S d st = Ok w ->
  exists w', val_signal RA CV cfg S' d st = Ok w' /\ r_x w' = r_x w /\ off (e + e2 S') (r_y w) (r_y w').
Proof.
  destruct HI as (_ & _ & P2 & _ & H2). intros He Hx Ho. destruct S as [x y]. destruct S' as [x' y']. cbn [r_x r_y] in *. subst x'.
  unfold val_signal. cbn [fourier_config hc_sp2s]. destruct (spectrum2signal (mk x y) d st) as [[t v]|] eqn:E; [|discriminate]. cbn [bind fst snd].
  intros M. destruct (sp2s_off e x y y' d st t v He Ho E) as (v1 & E1 & O1). destruct (H2 _ d st t v1 E1) as (v2 & -> & O2). cbn [bind fst snd].
  pose proof (off_trans _ _ _ _ _ O1 O2) as O. destruct (make_off _ _ _ _ _ O M) as [-> ->]. eexists. split; [reflexivity|]. split; [reflexivity|exact O].
Qed.
Lemma round_trip_inexact c d z S d' st w : val_spectrum RA CV FC c d z = Ok S -> val_signal RA CV FC S d' st = Ok w ->
  exists S' w', val_spectrum RA CV cfg c d z = Ok S' /\ val_signal RA CV cfg S' d' st = Ok w' /\ r_x w' = r_x w /\
    off (e1 c + e2 S') (r_y w) (r_y w').
Proof.
  intros HS Hw. destruct (spectrum_inexact c d z S HS) as (S' & E1 & X & O).
  destruct (signal_inexact S S' d' st w (e1 c) (proj1 (proj2 HI) c) X O Hw) as (w' & E2 & X2 & O2). exists S', w'. auto.
Qed.
Lemma shift_as_signal (c sp : crel) s fs : axis_array RA (r_x sp) = Ok fs -> length fs = length (r_y sp) ->
  val_sig_shift RA CV CF cfg s c sp =
  val_signal RA CV cfg (mk (r_x sp) (map2 (fun z f => Cmult z (cis (- (2 * PI * f * s)))) (r_y sp) fs)) (DAxis RA (r_x c)) None.
Proof.
  intros Hf Hl. destruct sp as [fx X]. cbn [r_x r_y] in *. unfold val_sig_shift. cbn [r_x]. rewrite Hf. cbn [bind].
  assert (Hs : axis_size RA fx = Ok (length X)) by (apply axis_array_inv in Hf; destruct Hf as [Hf _]; rewrite <- Hl; exact Hf).
  rewrite (make_CV fx _ (length X) Hs) by (rewrite map_length; exact Hl). cbn [bind]. unfold val_sig_phase.
  assert (B : forall a b, val_spec_phase RA CV CF cfg ADD a b = val_spec_phase RA CV CF FC ADD a b).
  { intros a b. unfold val_spec_phase, val_from_amp_phase. rewrite (proj1 HI). reflexivity. }
  rewrite B, (spec_phase_eq ADD fx X _ (length X)); [|auto|exact Hs|reflexivity|rewrite map_length; exact Hl].
  cbn [bind]. do 2 f_equal. rewrite map2_map_r. apply map2_ext. intros z f. cbn [turn]. f_equal. rewrite phasor_arg. apply phasor_unit, cis_mod.
Qed.
Lemma off_turn e X X' (fs : list R) (g : R -> R) : off e X X' ->
  off e (map2 (fun z f => Cmult z (cis (g f))) X fs) (map2 (fun z f => Cmult z (cis (g f))) X' fs).
Proof.
  intros H. revert fs. induction H as [|a b X X' Hab H IH]; intros [|f fs]; cbn [map2]; constructor; [|apply IH].
  replace (Cminus (Cmult b (cis (g f))) (Cmult a (cis (g f)))) with (Cmult (Cminus b a) (cis (g f))) by ring. rewrite Cmod_mult, cis_mod. lra.
Qed.
Lemma map_turn_mod X (fs : list R) (g : R -> R) : length fs = length X -> map Cmod (map2 (fun z f => Cmult z (cis (g f))) X fs) = map Cmod X.
Proof.
  revert fs. induction X as [|a X IH]; intros [|f fs] L; try discriminate; cbn [map2 map]; [reflexivity|]. rewrite IH by (cbn in L; lia). rewrite Cmod_mult, cis_mod. f_equal. lra.
Qed.
Lemma val_spectrum_size (k : hconfig RA CV) c d z S : val_spectrum RA CV k c d z = Ok S -> axis_size RA (r_x S) = Ok (length (r_y S)).
Proof.
  unfold val_spectrum. destruct (hc_s2s RA CV k c d z) as [[x y]|]; [|discriminate]. cbn [bind fst snd]. intros M. apply rel_make_iff in M. destruct M as [-> (arr & E & L)]. apply axis_array_inv in E. destruct E as [E _]. cbn [r_x r_y]. rewrite <- L. exact E.
Qed.
Lemma shift_inexact c z s S w : val_spectrum RA CV FC c (DNone RA) z = Ok S -> val_sig_shift RA CV CF FC s c S = Ok w ->
  exists (S' T w' : crel), val_spectrum RA CV cfg c (DNone RA) z = Ok S' /\ r_x T = r_x S' /\ map Cmod (r_y T) = map Cmod (r_y S') /\
    val_sig_shift RA CV CF cfg s c S' = Ok w' /\ r_x w' = r_x w /\ off (e1 c + e2 T) (r_y w) (r_y w').
Proof.
  intros HS Hw. destruct (spectrum_inexact c (DNone RA) z S HS) as (S' & E1 & X & O). pose proof (val_spectrum_size _ _ _ _ _ HS) as Sz.
  pose proof (off_length _ _ _ O) as L. change (val CV) with C in *.
  pose proof (axis_array_size _ _ Sz) as Ar. set (fs := grid (a_start (r_x S)) (a_end (r_x S)) (length (r_y S))) in *.
  assert (Lf : length fs = length (r_y S)) by apply grid_length.
  destruct S as [fx Y]. cbn [r_x r_y] in *. rewrite (shift_spec c fx Y s fs Ar Lf) in Hw.
  destruct S' as [fx' Y']. cbn [r_x r_y] in *. subst fx'.
  destruct (signal_inexact (mk fx (map2 (fun z f => Cmult z (cis (- (2 * PI * f * s)))) Y fs)) (mk fx (map2 (fun z f => Cmult z (cis (- (2 * PI * f * s)))) Y' fs)) _ _ w (e1 c) (proj1 (proj2 HI) c) eq_refl
    (off_turn _ _ _ fs (fun f => - (2 * PI * f * s)) O) Hw) as (w' & E2 & X2 & O2).
  exists (mk fx Y'), (mk fx (map2 (fun z f => Cmult z (cis (- (2 * PI * f * s)))) Y' fs)), w'.
  split; [exact E1|]. split; [reflexivity|]. split; [exact (map_turn_mod Y' fs (fun f => - (2 * PI * f * s)) (eq_trans Lf (eq_sym L)))|].
  split; [|split; [exact X2|exact O2]]. rewrite <- E2. refine (shift_as_signal c (mk fx Y') s fs Ar _). exact (eq_trans Lf (eq_sym L)).
Qed.
End Inexact.

Lemma mod_near a b : Rabs (Cmod b - Cmod a) <= Cmod (Cminus b a).
Proof.
  assert (A : Cmod b <= Cmod (Cminus b a) + Cmod a). { replace b with (Cplus (Cminus b a) a) at 1 by ring. apply Cmod_triangle. }
  assert (B : Cmod a <= Cmod (Cminus b a) + Cmod b).
  { replace a with (Cplus (Copp (Cminus b a)) b) at 1 by ring. eapply Rle_trans; [apply Cmod_triangle|]. rewrite Cmod_opp. lra. }
  apply Rabs_le. lra.
Qed.
Lemma amp_off e (S S' A0 : crel) : r_x S' = r_x S -> off e (r_y S) (r_y S') -> val_amp RA CV CF S = Ok A0 ->
  exists A', val_amp RA CV CF S' = Ok A' /\ r_x A' = r_x A0 /\ off e (r_y A0) (r_y A').
Proof.
  intros Hx Ho. unfold val_amp, rel_map. rewrite Hx.
  assert (O : off e (map (fun z => RtoC (Cmod z)) (r_y S)) (map (fun z => RtoC (Cmod z)) (r_y S'))).
  { induction Ho as [|a b y y' Hab H IH]; cbn [map]; constructor; [|exact IH]. rewrite <- RtoC_minus, Cmod_R. eapply Rle_trans; [apply mod_near|exact Hab]. }
  intros M. destruct (make_off e (r_x S) _ _ A0 O M) as [-> E]. eexists. split; [exact E|]. split; [reflexivity|exact O].
Qed.

(** just above and just below the negative real axis *)
Lemma arg_above t : 0 < t -> PI / 2 < Carg (-1, t).
Proof.
  intros Ht. pose proof (arg_cos_sin (-1, t)) as [Hc Hs]. cbn [fst snd] in *. pose proof (arg_range (-1, t)) as R. pose proof PI_RGT_0 as P.
  set (g := Carg (-1, t)) in *. set (m := Cmod (-1, t)) in *. pose proof (Cmod_ge_0 (-1, t)) as M. fold m in M.
  assert (G : 0 < g). { apply Rnot_le_lt. intros G. assert (sin g <= 0) by (apply sin_le_0' || (pose proof (sin_ge_0 (- g) ltac:(lra) ltac:(lra)) as S; rewrite sin_neg in S; lra)).
    assert (m * sin g <= m * 0) by (apply Rmult_le_compat_l; lra). lra. }
  apply Rnot_le_lt. intros H. assert (0 <= cos g) by (apply cos_ge_0; lra). assert (0 <= m * cos g) by (apply Rmult_le_pos; lra). lra.
Qed.
Lemma arg_below t : 0 < t -> Carg (-1, - t) < - (PI / 2).
Proof.
  intros Ht. pose proof (arg_cos_sin (-1, - t)) as [Hc Hs]. cbn [fst snd] in *. pose proof (arg_range (-1, - t)) as R. pose proof PI_RGT_0 as P.
  set (g := Carg (-1, - t)) in *. set (m := Cmod (-1, - t)) in *. pose proof (Cmod_ge_0 (-1, - t)) as M. fold m in M.
  assert (G : g < 0). { apply Rnot_le_lt. intros G. assert (0 <= sin g) by (apply sin_ge_0; lra). assert (0 <= m * sin g) by (apply Rmult_le_pos; lra). lra. }
  apply Rnot_le_lt. intros H. assert (0 <= cos g) by (apply cos_ge_0; lra). assert (0 <= m * cos g) by (apply Rmult_le_pos; lra). lra.
Qed.
Lemma phase_unstable e : 0 < e -> exists (x : raxis) (X X' : list C) (p q : R), off e X X' /\
  val_phase RA CV CF (mk x X) = Ok (mk x [RtoC p]) /\ val_phase RA CV CF (mk x X') = Ok (mk x [RtoC q]) /\ PI < p - q.
Proof.
  intros He. set (t := e / 2). assert (Ht : 0 < t) by (unfold t; lra). set (x := mkAxis (A:=RA) 0 0 1).
  assert (Sx : axis_size RA x = Ok 1%nat).
  { apply (axis_size_exact x 0). split; cbn; lra. }
  exists x, [(-1, t)], [(-1, - t)], (Carg (-1, t)), (Carg (-1, - t)). split.
  { constructor; [|constructor]. replace (Cminus (-1, - t) (-1, t)) with (Cmult (RtoC (- e)) Ci).
    - rewrite Cmod_mult, Cmod_R, Rabs_Ropp, Rabs_right by lra. replace (Cmod Ci) with 1; [lra|]. unfold Cmod, Ci. cbn [fst snd]. replace (0 ^ 2 + 1 ^ 2) with 1 by ring. rewrite sqrt_1. reflexivity.
    - unfold Cminus, Cplus, Copp, Cmult, RtoC, Ci, t. cbn [fst snd]. f_equal; lra. }
  split; [exact (phase_eq x [(-1, t)] 1 Sx eq_refl)|]. split; [exact (phase_eq x [(-1, - t)] 1 Sx eq_refl)|].
  pose proof (arg_above t Ht). pose proof (arg_below t Ht). lra.
Qed.
