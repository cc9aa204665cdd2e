(** Error bounds for linear interpolation, the trapezoidal rule and central differences. *)
From Coq Require Import Reals ZArith List Bool Lia Lra Psatz.
From Coquelicot Require Import Coquelicot.
From Verif Require Import Num Numpy Spec AxisModel RelModel RLemmas AxisLemmas InterpLemmas VInst RelLemmas RelLemmas2 RelLemmas3
  HeapModel FourierModel SweepModel SweepSpec SweepLemmas SweepLemmas2 SweepLemmas3 PreparedLemmas8 AccuracySpec.
Import ListNotations.
Local Open Scope R_scope.

(** *** functions *)
Lemma derive_val (f : R -> R) x (l m : R) : l = m -> is_derive f x l -> is_derive f x m.
Proof. intros ->. exact (fun H => H). Qed.
Lemma integral_val (f : R -> R) u v (l m : R) : l = m -> is_RInt f u v l -> is_RInt f u v m.
Proof. intros ->. exact (fun H => H). Qed.
Lemma mvt (g g' : R -> R) u v : u <= v -> (forall t, u <= t <= v -> is_derive g t (g' t)) ->
  exists c, u <= c <= v /\ g v - g u = g' c * (v - u).
Proof.
  intros Huv Hd. destruct (MVT_gen g u v g') as (c & Hc & E).
  - intros x Hx. rewrite Rmin_left, Rmax_right in Hx by lra. apply Hd. lra.
  - intros x Hx. rewrite Rmin_left, Rmax_right in Hx by lra. apply continuity_pt_filterlim.
    apply (ex_derive_continuous g x). exists (g' x). apply Hd. exact Hx.
  - rewrite Rmin_left, Rmax_right in Hc by lra. exists c. split; assumption.
Qed.
Definition chord (f : R -> R) (u v s : R) : R := f u + (f v - f u) * ((s - u) / (v - u)).
Lemma convex_chord (g g' : R -> R) u v s : u < v -> u <= s <= v ->
  (forall t, u <= t <= v -> is_derive g t (g' t)) -> (forall p q, u <= p -> p <= q -> q <= v -> g' p <= g' q) ->
  g s <= chord g u v s.
Proof.
  intros Huv Hs Hd Hi. unfold chord.
  destruct (mvt g g' u s) as (c1 & H1 & E1); [lra|intros; apply Hd; lra|].
  destruct (mvt g g' s v) as (c2 & H2 & E2); [lra|intros; apply Hd; lra|].
  assert (Hc : g' c1 <= g' c2) by (apply Hi; lra).
  assert (Hm : (v - s) * (g s - g u) <= (s - u) * (g v - g s)).
  { rewrite E1, E2. replace ((v - s) * (g' c1 * (s - u))) with ((v - s) * (s - u) * g' c1) by ring.
    replace ((s - u) * (g' c2 * (v - s))) with ((v - s) * (s - u) * g' c2) by ring.
    apply Rmult_le_compat_l; [apply Rmult_le_pos; lra|exact Hc]. }
  apply (Rmult_le_reg_r (v - u)); [lra|].
  replace ((g u + (g v - g u) * ((s - u) / (v - u))) * (v - u)) with (g u * (v - u) + (g v - g u) * (s - u)) by (field; lra).
  nra.
Qed.
Section Smooth.
Context (f f' : R -> R) (a b M : R) (Hf : smooth_on f f' a b M).
Lemma lipschitz_le u v : a <= u -> u <= v -> v <= b -> - M * (v - u) <= f' v - f' u <= M * (v - u).
Proof.
  intros H1 H2 H3. destruct Hf as [_ L]. specialize (L v u ltac:(lra) ltac:(lra)).
  rewrite (Rabs_right (v - u)) in L by lra. apply Rabs_le_between in L. lra.
Qed.
Lemma chord_error u v s : a <= u -> u < v -> v <= b -> u <= s <= v ->
  Rabs (f s - chord f u v s) <= M / 2 * ((s - u) * (v - s)).
Proof.
  intros Ha Huv Hb Hs. destruct Hf as [D _].
  assert (U : f s + M / 2 * (s * s) <= chord (fun t => f t + M / 2 * (t * t)) u v s).
  { apply (convex_chord (fun t => f t + M / 2 * (t * t)) (fun t => f' t + M * t) u v s Huv Hs).
    - intros t Ht. eapply derive_val; [|apply (is_derive_plus f (fun t => M / 2 * (t * t)) t (f' t) (M * t)); [apply D; lra|auto_derive; [exact I|lra]]].
      reflexivity.
    - intros p q H1 H2 H3. pose proof (lipschitz_le p q ltac:(lra) ltac:(lra) ltac:(lra)). nra. }
  assert (L : - f s + M / 2 * (s * s) <= chord (fun t => - f t + M / 2 * (t * t)) u v s).
  { apply (convex_chord (fun t => - f t + M / 2 * (t * t)) (fun t => - f' t + M * t) u v s Huv Hs).
    - intros t Ht. eapply derive_val; [|apply (is_derive_plus (fun t => - f t) (fun t => M / 2 * (t * t)) t (- f' t) (M * t));
        [apply (is_derive_opp f t (f' t)), D; lra|auto_derive; [exact I|lra]]].
      reflexivity.
    - intros p q H1 H2 H3. pose proof (lipschitz_le p q ltac:(lra) ltac:(lra) ltac:(lra)). nra. }
  unfold chord in *.
  assert (E : u * u + (v * v - u * u) * ((s - u) / (v - u)) - s * s = (s - u) * (v - s)) by (field; lra).
  set (q := (s - u) / (v - u)) in *. rewrite <- E.
  replace (f u + M / 2 * (u * u) + (f v + M / 2 * (v * v) - (f u + M / 2 * (u * u))) * q)
    with (f u + (f v - f u) * q + M / 2 * (u * u + (v * v - u * u) * q)) in U by ring.
  replace (- f u + M / 2 * (u * u) + (- f v + M / 2 * (v * v) - (- f u + M / 2 * (u * u))) * q)
    with (- (f u + (f v - f u) * q) + M / 2 * (u * u + (v * v - u * u) * q)) in L by ring.
  rewrite Rmult_minus_distr_l. apply Rabs_le. lra.
Qed.
Lemma f_ex_RInt u v : a <= u -> u <= v -> v <= b -> ex_RInt f u v.
Proof.
  intros H1 H2 H3. apply (ex_RInt_continuous (V:=R_CompleteNormedModule) f u v). intros z Hz.
  rewrite Rmin_left, Rmax_right in Hz by lra. apply (ex_derive_continuous f z). exists (f' z). apply (proj1 Hf). lra.
Qed.
Lemma trapezoid_error u v : a <= u -> u < v -> v <= b ->
  Rabs ((v - u) * ((f u + f v) / 2) - RInt f u v) <= M / 12 * (v - u) ^ 3.
Proof.
  intros Ha Huv Hb. rewrite Rabs_minus_sym.
  pose proof (RInt_correct f u v (f_ex_RInt u v Ha ltac:(lra) Hb)) as If.
  assert (Ic : is_RInt (fun s => chord f u v s) u v ((v - u) * ((f u + f v) / 2))).
  { eapply is_RInt_ext; [|eapply integral_val; [|apply (linear_integral ((f v - f u) / (v - u)) (f u - (f v - f u) / (v - u) * u) u v)]].
    - intros x _. unfold chord. match goal with |- ?l = ?r => change (@eq R l r) end. field. lra.
    - field. lra. }
  assert (Ib : is_RInt (fun s => M / 2 * ((s - u) * (v - s))) u v (M / 12 * (v - u) ^ 3)).
  { eapply integral_val.
    2: { apply (is_RInt_derive (fun s => M / 2 * ((v - u) * (s - u) ^ 2 / 2 - (s - u) ^ 3 / 3)) (fun s => M / 2 * ((s - u) * (v - s)))).
         - intros x _. auto_derive; [exact I|]. field.
         - intros x _. apply (ex_derive_continuous (fun s => M / 2 * ((s - u) * (v - s)))). auto_derive. exact I. }
    unfold minus, plus, opp. cbn. field. }
  pose proof (is_RInt_minus (V:=R_NormedModule) _ _ _ _ _ _ If Ic) as Id.
  apply (norm_RInt_le (V:=R_NormedModule) _ _ _ _ _ _ (Rlt_le _ _ Huv) (fun x Hx => chord_error u v x Ha Huv Hb Hx) Id Ib).
Qed.
Lemma central_error t d : 0 < d -> a <= t -> t + d <= b ->
  Rabs ((f (t + d) - f t) / d - f' (t + d / 2)) <= M / 4 * d.
Proof.
  intros Hd Ha Hb. destruct Hf as [D _]. set (m := t + d / 2).
  assert (G : forall e : R, e = 1 \/ e = -1 -> e * (f (m + d / 2) - f (m - d / 2) - d * f' m) <= M / 4 * (d * d)).
  { intros e He.
    destruct (mvt (fun s => e * (f (m + s) - f (m - s) - 2 * s * f' m) - M * (s * s))
                  (fun s => e * (f' (m + s) + f' (m - s) - 2 * f' m) - 2 * M * s) 0 (d / 2)) as (c & Hc & E).
    - lra.
    - intros s Hs.
      assert (D1 : is_derive f (m + s) (f' (m + s))) by (apply D; unfold m; lra).
      assert (D2 : is_derive f (m - s) (f' (m - s))) by (apply D; unfold m; lra).
      auto_derive.
      + split; [exists (f' (m + s)); exact D1|]. split; [exists (f' (m - s)); exact D2|exact I].
      + replace (m + - s) with (m - s) by ring. 
        pose proof (is_derive_unique f _ _ D1 : Derive (fun x : R => f x) (m + s) = f' (m + s)) as E1.
        pose proof (is_derive_unique f _ _ D2 : Derive (fun x : R => f x) (m - s) = f' (m - s)) as E2. rewrite E1, E2. ring.
    - assert (B : e * (f' (m + c) + f' (m - c) - 2 * f' m) - 2 * M * c <= 0).
      { pose proof (lipschitz_le m (m + c) ltac:(unfold m; lra) ltac:(lra) ltac:(unfold m; lra)).
        pose proof (lipschitz_le (m - c) m ltac:(unfold m; lra) ltac:(lra) ltac:(unfold m; lra)).
        destruct He as [-> | ->]; lra. }
      rewrite !Rplus_0_r, !Rminus_0_r in E.
      assert (E0 : e * (f m - f m - 2 * 0 * f' m) - M * (0 * 0) = 0) by ring. rewrite E0 in E.
      assert ((e * (f' (m + c) + f' (m - c) - 2 * f' m) - 2 * M * c) * (d / 2) <= 0) by (apply Rmult_le_0_r; lra) || nra.
      nra. }
  pose proof (G 1 (or_introl eq_refl)) as G1. pose proof (G (-1) (or_intror eq_refl)) as G2.
  replace (m + d / 2) with (t + d) in * by (unfold m; lra). replace (m - d / 2) with t in * by (unfold m; lra).
  apply Rabs_le. split; apply (Rmult_le_reg_r d); try exact Hd.
  - replace (((f (t + d) - f t) / d - f' m) * d) with (f (t + d) - f t - d * f' m) by (field; lra). nra.
  - replace (((f (t + d) - f t) / d - f' m) * d) with (f (t + d) - f t - d * f' m) by (field; lra). nra.
Qed.
End Smooth.

(** *** running sums *)
Lemma running_error (f f' : R -> R) a b M d eps (y : nat -> R) n : smooth_on f f' a b M -> 0 < d -> a + INR n * d <= b ->
  (forall i, (i <= n)%nat -> Rabs (y i - f (a + INR i * d)) <= eps) ->
  Rabs (d * vsum (V:=RV) (fun i => (y i + y (S i)) / 2) n - RInt f a (a + INR n * d)) <= (M / 12 * d ^ 2 + eps) * (INR n * d).
Proof.
  intros Hf Hd. induction n as [|n IH]; intros Hb Hy.
  - cbn [vsum INR]. rewrite Rmult_0_l, Rplus_0_r, RInt_point. change (v_of RV _) with 0. change (zero (G:=R_CompleteNormedModule)) with 0.
    rewrite Rmult_0_r, Rmult_0_r, Rminus_0_r, Rabs_R0. lra.
  - rewrite S_INR in *. assert (Hn : 0 <= INR n) by apply pos_INR.
    assert (Hnd : 0 <= INR n * d) by (apply Rmult_le_pos; lra).
    specialize (IH ltac:(lra) ltac:(intros; apply Hy; lia)).
    set (u := a + INR n * d) in *. replace (a + (INR n + 1) * d) with (u + d) in * by (unfold u; ring).
    assert (Hau : a <= u) by (unfold u; lra). assert (Hub : u <= b) by lra.
    pose proof (trapezoid_error f f' a b M Hf u (u + d) Hau ltac:(lra) Hb) as Ht.
    pose proof (Hy n ltac:(lia)) as Y0. pose proof (Hy (S n) ltac:(lia)) as Y1. rewrite S_INR in Y1.
    fold u in Y0. replace (a + (INR n + 1) * d) with (u + d) in Y1 by (unfold u; ring).
    pose proof (RInt_Chasles f a u (u + d) (f_ex_RInt f f' a b M Hf a u ltac:(lra) Hau Hub)
                 (f_ex_RInt f f' a b M Hf u (u + d) Hau ltac:(lra) Hb)) as Ec.
    change (plus (RInt f a u) (RInt f u (u + d))) with (RInt f a u + RInt f u (u + d)) in Ec. rewrite <- Ec.
    cbn [vsum]. change (v_add RV ?p ?q) with (p + q).
    replace (u + d - u) with d in Ht by ring. set (S0 := vsum _ n) in *. set (I0 := RInt f a u) in *. set (I1 := RInt f u (u + d)) in *.
    set (z0 := y n) in *. set (z1 := y (S n)) in *. set (w0 := f u) in *. set (w1 := f (u + d)) in *.
    change (val RV) with R in *.
    replace (d * (S0 + (z0 + z1) / 2) - (I0 + I1))
      with ((d * S0 - I0) + ((d * ((w0 + w1) / 2) - I1) + d / 2 * ((z0 - w0) + (z1 - w1)))) by field.
    assert (B : Rabs (d / 2 * ((z0 - w0) + (z1 - w1))) <= eps * d).
    { rewrite Rabs_mult, (Rabs_right (d / 2)) by lra. pose proof (Rabs_triang (z0 - w0) (z1 - w1)). nra. }
    pose proof (Rabs_triang (d * S0 - I0) ((d * ((w0 + w1) / 2) - I1) + d / 2 * ((z0 - w0) + (z1 - w1)))).
    pose proof (Rabs_triang (d * ((w0 + w1) / 2) - I1) (d / 2 * ((z0 - w0) + (z1 - w1)))).
    replace ((M / 12 * d ^ 2 + eps) * ((INR n + 1) * d)) with ((M / 12 * d ^ 2 + eps) * (INR n * d) + (M / 12 * d ^ 3 + eps * d)) by ring.
    lra.
Qed.
Lemma samples_nth f s e n i : (i < n)%nat -> nth i (samples_of f s e n) 0 = f (grid_pt s e n i).
Proof. intros Hi. unfold samples_of. apply nth_nth_error. rewrite nth_error_map, grid_nth by exact Hi. reflexivity. Qed.
Lemma samples_len f s e n : length (samples_of f s e n) = n.
Proof. unfold samples_of. rewrite map_length. apply grid_length. Qed.
Lemma exact_pt s e d m i : exact_span s e d m -> (0 < m)%nat -> grid_pt s e (m + 1) i = s + INR i * d.
Proof.
  intros [_ He] Hm. unfold grid_pt. replace (m + 1 - 1)%nat with m by lia. rewrite He.
  assert (0 < INR m) by (apply lt_0_INR; lia). field. lra.
Qed.

(** *** interpolation *)
Lemma smooth_pos f f' a b M : smooth_on f f' a b M -> a < b -> 0 <= M.
Proof.
  intros Hf Hab. pose proof (lipschitz_le f f' a b M Hf a b ltac:(lra) ltac:(lra) ltac:(lra)). nra.
Qed.
Lemma pl_smooth f f' s e M n t v : smooth_on f f' s e M -> s < e -> (2 <= n)%nat -> s <= t <= e ->
  pl_value (V:=RV) (grid s e n) (samples_of f s e n) t v -> Rabs (v - f t) <= M / 8 * ((e - s) / INR (n - 1)) ^ 2.
Proof.
  intros Hf Hse Hn Ht Hp. pose proof (smooth_pos _ _ _ _ _ Hf Hse) as HM.
  assert (Hm : 0 < INR (n - 1)) by (apply lt_0_INR; lia).
  set (H := (e - s) / INR (n - 1)). assert (H0 : 0 < H) by (apply Rdiv_lt_0_compat; lra).
  destruct Hp as [i y Hx Hy|i u0 u1 y0 y1 Hu0 Hu1 Hy0 Hy1 Hb|Hne Ho].
  - apply grid_nth_inv in Hx. destruct Hx as [Hi ->]. unfold samples_of in Hy. rewrite nth_error_map, grid_nth in Hy by exact Hi.
    injection Hy as <-. rewrite Rminus_eq_0, Rabs_R0. apply Rmult_le_pos; [lra|]. apply pow2_ge_0.
  - apply grid_nth_inv in Hu0, Hu1. destruct Hu0 as [Hi0 E0], Hu1 as [Hi1 E1].
    unfold samples_of in Hy0, Hy1. rewrite nth_error_map, grid_nth in Hy0, Hy1 by assumption.
    injection Hy0 as <-. injection Hy1 as <-. rewrite <- E0, <- E1.
    assert (D : u1 - u0 = H) by (rewrite E0, E1; unfold grid_pt, H; rewrite S_INR; ring).
    assert (Bt : u0 < t < u1) by lra.
    assert (U0 : s <= u0).
    { rewrite E0. unfold grid_pt. fold H. pose proof (pos_INR i). assert (0 <= INR i * H) by (apply Rmult_le_pos; lra). lra. }
    assert (U1 : u1 <= e).
    { rewrite E1. unfold grid_pt. fold H. assert (INR (S i) <= INR (n - 1)) by (apply le_INR; lia).
      assert (INR (S i) * H <= INR (n - 1) * H) by (apply Rmult_le_compat_r; lra).
      assert (INR (n - 1) * H = e - s) by (unfold H; field; lra). lra. }
    pose proof (chord_error f f' s e M Hf u0 u1 t U0 ltac:(lra) U1 ltac:(lra)) as C.
    unfold line. cbn [RV v_add v_mul v_sub v_of]. rewrite Rabs_minus_sym.
    change (Rabs (f t - chord f u0 u1 t) <= M / 8 * H ^ 2). eapply Rle_trans; [exact C|].
    assert (Q : (t - u0) * (u1 - t) <= H ^ 2 / 4).
    { rewrite <- D. pose proof (pow2_ge_0 ((t - u0) - (u1 - t))). nra. }
    replace (M / 8 * H ^ 2) with (M / 2 * (H ^ 2 / 4)) by field. apply Rmult_le_compat_l; lra.
  - exfalso. assert (I0 : In s (grid s e n)) by (eapply nth_error_In; apply grid_first; lia).
    assert (I1 : In e (grid s e n)) by (eapply nth_error_In; apply grid_last; lia).
    destruct Ho as [Ho|Ho]; [specialize (Ho _ I1)|specialize (Ho _ I0)]; lra.
Qed.

(** *** relations *)
Lemma interp_close (f f' : R -> R) M (r : rel RA RV) (nx : axis RA) : valid r -> (2 <= length (r_y r))%nat ->
  a_start (r_x r) < a_end (r_x r) -> smooth_on f f' (a_start (r_x r)) (a_end (r_x r)) M ->
  r_y r = samples_of f (a_start (r_x r)) (a_end (r_x r)) (length (r_y r)) -> a_sample nx <> 0 ->
  exists arr r', axis_array RA nx = Ok arr /\ rel_interp RA RV (default_config RA RV) nx r = Ok r' /\ r_x r' = nx /\
    length (r_y r') = length arr /\
    forall i t v, nth_error arr i = Some t -> nth_error (r_y r') i = Some v -> a_start (r_x r) <= t <= a_end (r_x r) ->
      Rabs (v - f t) <= M / 8 * ((a_end (r_x r) - a_start (r_x r)) / INR (length (r_y r) - 1)) ^ 2.
Proof.
  intros Hv Hn Hse Hf Hy Hd. destruct (interp_full RV_laws r nx Hv Hd) as (xs & arr & r' & Ex & Ea & Er & Xr & Lr & Hp).
  exists arr, r'. split; [exact Ea|]. split; [exact Er|]. split; [exact Xr|]. split; [exact Lr|].
  intros i t v Hi Hw Ht. specialize (Hp i t v Hi Hw).
  rewrite (axis_array_size _ _ Hv) in Ex. injection Ex as <-. rewrite Hy in Hp at 2.
  exact (pl_smooth f f' _ _ M _ t v Hf Hse Hn Ht Hp).
Qed.

(** *** sweeps *)
Lemma sin_lipschitz x y : Rabs (sin x - sin y) <= Rabs (x - y).
Proof.
  assert (W : forall u v, u <= v -> Rabs (sin v - sin u) <= v - u).
  { intros u v Huv. destruct (mvt sin cos u v Huv) as (c & _ & E).
    - intros t _. apply is_derive_Reals. apply derivable_pt_lim_sin.
    - rewrite E, Rabs_mult, (Rabs_right (v - u)) by lra. pose proof (COS_bound c) as B.
      assert (Rabs (cos c) <= 1) by (apply Rabs_le; lra). nra. }
  destruct (Rle_lt_dec x y) as [H|H].
  - rewrite (Rabs_minus_sym (sin x)), (Rabs_minus_sym x), (Rabs_right (y - x)) by lra. apply W. exact H.
  - rewrite (Rabs_right (x - y)) by lra. apply W. lra.
Qed.
Lemma resample_close (f f' : R -> R) M (x : axis RA) m p : (1 <= m)%nat -> (2 <= p)%nat -> a_start x = 0 ->
  exact_span 0 (a_end x) (a_sample x) m -> smooth_on f f' 0 (a_end x) M ->
  exists fy, resample RA RV (default_config RA RV) x (samples_of f 0 (a_end x) p) = Ok fy /\ length fy = (m + 1)%nat /\
    forall i, (i <= m)%nat -> Rabs (nth i fy 0 - f (INR i * a_sample x)) <= resampling_error M (a_end x) p (m + 1).
Proof.
  intros Hm Hp H0 Hs Hf. assert (Hd : 0 < a_sample x) by apply Hs.
  assert (Hn : axis_size RA x = Ok (m + 1)%nat) by (apply axis_size_exact; rewrite H0; exact Hs).
  assert (HT : 0 < a_end x). { destruct Hs as [_ E]. rewrite Rminus_0_r in E. rewrite E. apply Rmult_lt_0_compat; [apply lt_0_INR; lia|exact Hd]. }
  assert (Hpt : forall i, grid_pt 0 (a_end x) (m + 1) i = INR i * a_sample x)
    by (intros i; rewrite (exact_pt _ _ _ m i Hs) by lia; ring).
  unfold resampling_error. destruct (Nat.eqb_spec p (m + 1)) as [->|Hne].
  - exists (samples_of f 0 (a_end x) (m + 1)). split; [apply (resample_own x _ _ Hn); apply samples_len|].
    split; [apply samples_len|]. intros i Hi. rewrite samples_nth, Hpt by lia. rewrite Rminus_eq_0, Rabs_R0. lra.
  - destruct (resample_pl (V:=RV) RV_laws x (samples_of f 0 (a_end x) p) (m + 1)) as (w & Ew & Lw & Hw & _).
    + rewrite samples_len. exact Hp.
    + rewrite H0. apply Rlt_not_eq. exact HT.
    + exact Hn.
    + rewrite samples_len. lia.
    + exists w. split; [exact Ew|]. split; [exact Lw|]. intros i Hi. rewrite H0, samples_len in Hw.
      specialize (Hw i (INR i * a_sample x) (nth i w 0)).
      rewrite grid_nth, Hpt in Hw by lia.
      change (val RV) with R in *. assert (Hiw : (i < length w)%nat) by lia.
      specialize (Hw eq_refl (List.nth_error_nth' w 0 Hiw)).
      replace (a_end x) with (a_end x - 0) at 1 by ring.
      apply (pl_smooth f f' 0 (a_end x) M p (INR i * a_sample x) _ Hf HT Hp); [|exact Hw].
      destruct Hs as [_ E]. rewrite Rminus_0_r in E. rewrite E. pose proof (pos_INR i). split; [apply Rmult_le_pos; lra|].
      apply Rmult_le_compat_r; [lra|]. apply le_INR. exact Hi.
Qed.
Lemma sweep_close int sc (f f' al al' : R -> R) Mf Ma (x : axis RA) m pf pa tht0 : (1 <= m)%nat -> (2 <= pf)%nat -> (2 <= pa)%nat ->
  a_start x = 0 -> exact_span 0 (a_end x) (a_sample x) m -> (forall c, sc_spectro RA RV sc c = Ok tt) ->
  smooth_on f f' 0 (a_end x) Mf -> smooth_on al al' 0 (a_end x) Ma ->
  exists g sw, us_new RA RV (default_config RA RV) int (UtAxis x) (LiArr (A:=RA) (V:=RV) (samples_of f 0 (a_end x) pf))
      (LiArr (A:=RA) (V:=RV) (samples_of al 0 (a_end x) pa)) = Ok g /\
    us_call RA RV RW (default_config RA RV) sc g UtNone tht0 = Ok sw /\
    r_x (sw_rel sw) = x /\ r_x (sw_ft sw) = x /\ r_x (sw_at sw) = x /\
    length (r_y (sw_rel sw)) = (m + 1)%nat /\ length (r_y (sw_ft sw)) = (m + 1)%nat /\ length (r_y (sw_at sw)) = (m + 1)%nat /\
    forall i, (i <= m)%nat -> let t := INR i * a_sample x in
      Rabs (nth i (r_y (sw_ft sw)) 0 - f t) <= resampling_error Mf (a_end x) pf (m + 1) /\
      Rabs (nth i (r_y (sw_at sw)) 0 - al t) <= resampling_error Ma (a_end x) pa (m + 1) /\
      Rabs (nth i (r_y (sw_rel sw)) 0 - nth i (r_y (sw_at sw)) 0 * sin (2 * PI * RInt f 0 t + tht0))
        <= Rabs (nth i (r_y (sw_at sw)) 0) * (2 * PI * t * (Mf / 12 * a_sample x ^ 2 + resampling_error Mf (a_end x) pf (m + 1))).
Proof.
  intros Hm Hpf Hpa H0 Hs Hsc Hf Ha. assert (Hd : 0 < a_sample x) by apply Hs.
  assert (Hn : axis_size RA x = Ok (m + 1)%nat) by (apply axis_size_exact; rewrite H0; exact Hs).
  assert (ET : a_end x = INR m * a_sample x) by (destruct Hs as [_ E]; lra).
  assert (HT : 0 < a_end x) by (rewrite ET; apply Rmult_lt_0_compat; [apply lt_0_INR; lia|exact Hd]).
  destruct (resample_close f f' Mf x m pf Hm Hpf H0 Hs Hf) as (fy & Efy & Lf & Cf).
  destruct (resample_close al al' Ma x m pa Hm Hpa H0 Hs Ha) as (ay & Eay & La & Ca).
  destruct (arrays_call int sc x fy ay (m + 1) tht0 H0 HT Hn ltac:(lia) Hd) as (ys & th & Lys & Lth & Ec & Hy & T0 & Hk); try assumption.
  { replace (a_end x / a_sample x) with (INR m) by (rewrite ET; field; lra). apply not_tie_INR. }
  eexists _, _. split; [exact (arrays_new int x _ _ fy ay _ Hn Efy Eay)|]. split; [exact Ec|].
  do 3 (split; [reflexivity|]). do 3 (split; [assumption|]).
  intros i Hi t. cbn [sw_rel sw_ft sw_at r_x r_y]. split; [apply Cf; exact Hi|]. split; [apply Ca; exact Hi|].
  rewrite Hy by lia. set (eps := resampling_error Mf (a_end x) pf (m + 1)) in *.
  assert (Eth : forall k, (k <= m)%nat -> nth k th 0 = 2 * PI * (a_sample x * vsum (V:=RV) (fun j => (nth j fy 0 + nth (S j) fy 0) / 2) k)).
  { induction k as [|k IH]; intros Hkm.
    - rewrite T0. cbn [vsum]. change (v_of RV _) with 0. ring.
    - specialize (Hk k ltac:(lia)). specialize (IH ltac:(lia)). cbn [vsum]. change (v_add RV ?p ?q) with (p + q).
      replace (nth (S k) th 0) with (nth k th 0 + (nth (S k) th 0 - nth k th 0)) by ring. rewrite Hk, IH. change (val RV) with R. ring. }
  rewrite (Eth i Hi).
  pose proof (running_error f f' 0 (a_end x) Mf (a_sample x) eps (fun j => nth j fy 0) i Hf Hd) as B.
  rewrite Rplus_0_l in B. fold t in B. cbv beta in B.
  specialize (B ltac:(unfold t; rewrite ET; apply Rmult_le_compat_r; [lra|]; apply le_INR; exact Hi)
               ltac:(intros j Hj; rewrite Rplus_0_l; apply Cf; lia)).
  set (th_i := a_sample x * vsum (V:=RV) (fun j : nat => (nth j fy 0 + nth (S j) fy 0) / 2) i) in *. change (val RV) with R in *. set (I := RInt f 0 t) in *.
  replace (nth i ay 0 * sin (2 * PI * th_i + tht0) - nth i ay 0 * sin (2 * PI * I + tht0))
    with (nth i ay 0 * (sin (2 * PI * th_i + tht0) - sin (2 * PI * I + tht0))) by ring.
  rewrite Rabs_mult. apply Rmult_le_compat_l; [apply Rabs_pos|]. eapply Rle_trans; [apply sin_lipschitz|].
  replace (2 * PI * th_i + tht0 - (2 * PI * I + tht0)) with (2 * PI * (th_i - I)) by ring.
  pose proof PI_RGT_0. rewrite Rabs_mult, (Rabs_right (2 * PI)) by lra.
  replace (2 * PI * t * (Mf / 12 * a_sample x ^ 2 + eps)) with (2 * PI * ((Mf / 12 * a_sample x ^ 2 + eps) * t)) by ring.
  apply Rmult_le_compat_l; [lra|]. exact B.
Qed.

(** *** differences, integrals and energy *)
Lemma exact_rel (r : rel RA RV) (f : R -> R) m : (1 <= m)%nat -> exact_span (a_start (r_x r)) (a_end (r_x r)) (a_sample (r_x r)) m ->
  r_y r = samples_of f (a_start (r_x r)) (a_end (r_x r)) (m + 1) ->
  valid r /\ 0 < a_sample (r_x r) /\ a_start (r_x r) < a_end (r_x r) /\ length (r_y r) = (m + 1)%nat /\
  ~ is_tie (qspan r) /\ (forall i, (i <= m)%nat -> nth i (r_y r) 0 = f (a_start (r_x r) + INR i * a_sample (r_x r))).
Proof.
  intros Hm Hs Hy. assert (Hd : 0 < a_sample (r_x r)) by apply Hs.
  assert (L : length (r_y r) = (m + 1)%nat) by (rewrite Hy; apply samples_len).
  assert (Hp : 0 < INR m) by (apply lt_0_INR; lia).
  split; [unfold valid; change (val RV) with R in *; rewrite L; apply axis_size_exact; exact Hs|]. split; [exact Hd|].
  split. { destruct Hs as [_ E]. assert (0 < INR m * a_sample (r_x r)) by (apply Rmult_lt_0_compat; assumption). lra. }
  split; [exact L|]. split.
  - unfold qspan. destruct Hs as [_ E]. rewrite E. replace (INR m * a_sample (r_x r) / a_sample (r_x r)) with (INR m) by (field; lra).
    apply not_tie_INR.
  - intros i Hi. rewrite Hy, samples_nth by lia. rewrite (exact_pt _ _ _ m i Hs) by lia. reflexivity.
Qed.
(** the axes of the results *)
Lemma exact_points (x : axis RA) m : exact_span (a_start x) (a_end x) (a_sample x) m ->
  exists arr, axis_array RA x = Ok arr /\ length arr = (m + 1)%nat /\
    forall i t, nth_error arr i = Some t -> (i <= m)%nat /\ t = a_start x + INR i * a_sample x.
Proof.
  intros Hs. exists (grid (a_start x) (a_end x) (m + 1)). split; [apply axis_array_size, axis_size_exact; exact Hs|].
  split; [apply grid_length|]. intros i t Hi. apply grid_nth_inv in Hi. destruct Hi as [Hi ->]. split; [lia|].
  destruct m as [|m].
  - unfold grid_pt. cbn [plus] in Hi. replace i with 0%nat by lia. cbn [INR]. match goal with |- ?l = ?r => change (@eq R l r) end. ring.
  - apply (exact_pt _ _ _ (S m) i Hs). lia.
Qed.
Lemma diff_close (f f' : R -> R) M (r : rel RA RV) m : (1 <= m)%nat ->
  exact_span (a_start (r_x r)) (a_end (r_x r)) (a_sample (r_x r)) m ->
  smooth_on f f' (a_start (r_x r)) (a_end (r_x r)) M ->
  r_y r = samples_of f (a_start (r_x r)) (a_end (r_x r)) (m + 1) ->
  exists r' arr, rel_diff RA RV (default_config RA RV) r = Ok r' /\ axis_array RA (r_x r') = Ok arr /\
    length (r_y r') = m /\ length arr = m /\
    forall i t v, nth_error arr i = Some t -> nth_error (r_y r') i = Some v ->
      Rabs (v - f' t) <= M / 4 * a_sample (r_x r).
Proof.
  intros Hm Hs Hf Hy. destruct (exact_rel r f m Hm Hs Hy) as (Hv & Hd & Hse & L & Ht & Hn).
  change (val RV) with R in *.
  destruct (diff_ok (V:=RV) r Hv Hd (Rlt_le _ _ Hse) ltac:(change (val RV) with R; lia) Ht) as (r' & E & _ & X & Lr & Hr).
  change (val RV) with R in *. rewrite L in Lr, Hr. replace (m + 1 - 1)%nat with m in Lr by lia.
  assert (Hs' : exact_span (a_start (r_x r')) (a_end (r_x r')) (a_sample (r_x r')) (m - 1)).
  { rewrite X. cbn [diff_axis a_start a_end a_sample]. split; [exact Hd|]. rewrite minus_INR by lia. destruct Hs as [_ E1]. cbn [INR]. lra. }
  destruct (exact_points _ _ Hs') as (arr & Ea & La & Hp). exists r', arr. split; [exact E|]. split; [exact Ea|].
  split; [exact Lr|]. split; [lia|]. intros i t v Hi Hvv. destruct (Hp i t Hi) as [Him ->].
  apply nth_error_nth with (d := 0) in Hvv. subst v. change (v_of RV 0) with 0 in Hr. rewrite (Hr i) by lia. rewrite !Hn by lia.
  rewrite X. cbn [diff_axis a_start a_end a_sample RV v_div v_sub v_of].
  set (d := a_sample (r_x r)) in *. set (s := a_start (r_x r)) in *.
  pose proof (central_error f f' s (a_end (r_x r)) M Hf (s + INR i * d) d Hd) as C.
  rewrite S_INR. replace (s + (INR i + 1) * d) with (s + INR i * d + d) by ring.
  replace (s + d / 2 + INR i * d) with (s + INR i * d + d / 2) by ring. apply C.
  - pose proof (pos_INR i). assert (0 <= INR i * d) by (apply Rmult_le_pos; lra). lra.
  - destruct Hs as [_ E1]. assert (INR i + 1 <= INR m) by (rewrite <- S_INR; apply le_INR; lia).
    assert ((INR i + 1) * d <= INR m * d) by (apply Rmult_le_compat_r; lra). lra.
Qed.

Lemma int_values (f : R -> R) (r : rel RA RV) m : (1 <= m)%nat ->
  exact_span (a_start (r_x r)) (a_end (r_x r)) (a_sample (r_x r)) m ->
  r_y r = samples_of f (a_start (r_x r)) (a_end (r_x r)) (m + 1) ->
  exists r' arr, rel_integrate RA RV (default_config RA RV) r = Ok r' /\ axis_array RA (r_x r') = Ok arr /\
    length (r_y r') = m /\ length arr = m /\
    forall i t v, nth_error arr i = Some t -> nth_error (r_y r') i = Some v ->
      (i < m)%nat /\ t = a_start (r_x r) + INR (S i) * a_sample (r_x r) /\
      v = a_sample (r_x r) * vsum (V:=RV) (fun j => (nth j (r_y r) 0 + nth (S j) (r_y r) 0) / 2) (S i).
Proof.
  intros Hm Hs Hy. destruct (exact_rel r f m Hm Hs Hy) as (Hv & Hd & Hse & L & Ht & Hn).
  change (val RV) with R in *.
  destruct (int_ok (V:=RV) RV_laws r Hv Hd (Rlt_le _ _ Hse) ltac:(change (val RV) with R; lia) Ht) as (r' & E & _ & X & Lr & Hr).
  change (val RV) with R in *. rewrite L in Lr, Hr. replace (m + 1 - 1)%nat with m in Lr by lia.
  assert (Hs' : exact_span (a_start (r_x r')) (a_end (r_x r')) (a_sample (r_x r')) (m - 1)).
  { rewrite X. cbn [int_axis a_start a_end a_sample]. split; [exact Hd|]. rewrite minus_INR by lia. destruct Hs as [_ E1]. cbn [INR]. lra. }
  destruct (exact_points _ _ Hs') as (arr & Ea & La & Hp). exists r', arr. split; [exact E|]. split; [exact Ea|].
  split; [exact Lr|]. split; [lia|]. intros i t v Hi Hvv. destruct (Hp i t Hi) as [Him ->]. split; [lia|].
  split. { rewrite X. cbn [int_axis a_start a_end a_sample]. rewrite S_INR. match goal with |- ?l = ?r => change (@eq R l r) end. ring. }
  apply nth_error_nth with (d := 0) in Hvv. subst v. change (v_of RV 0) with 0 in Hr. rewrite (Hr i) by lia. reflexivity.
Qed.
Lemma step_in s e d m i : exact_span s e d m -> (i <= m)%nat -> s + INR i * d <= e.
Proof.
  intros [Hd E] Hi. assert (INR i <= INR m) by (apply le_INR; exact Hi). assert (INR i * d <= INR m * d) by (apply Rmult_le_compat_r; lra). lra.
Qed.
Lemma int_close (f f' : R -> R) M (r : rel RA RV) m : (1 <= m)%nat ->
  exact_span (a_start (r_x r)) (a_end (r_x r)) (a_sample (r_x r)) m ->
  smooth_on f f' (a_start (r_x r)) (a_end (r_x r)) M ->
  r_y r = samples_of f (a_start (r_x r)) (a_end (r_x r)) (m + 1) ->
  exists r' arr, rel_integrate RA RV (default_config RA RV) r = Ok r' /\ axis_array RA (r_x r') = Ok arr /\
    length (r_y r') = m /\ length arr = m /\
    forall i t v, nth_error arr i = Some t -> nth_error (r_y r') i = Some v ->
      Rabs (v - RInt f (a_start (r_x r)) t) <= M / 12 * a_sample (r_x r) ^ 2 * (t - a_start (r_x r)).
Proof.
  intros Hm Hs Hf Hy. destruct (exact_rel r f m Hm Hs Hy) as (_ & Hd & _ & _ & _ & Hn).
  destruct (int_values f r m Hm Hs Hy) as (r' & arr & E & Ea & Lr & La & H). exists r', arr.
  split; [exact E|]. split; [exact Ea|]. split; [exact Lr|]. split; [exact La|]. intros i t v Hi Hvv.
  destruct (H i t v Hi Hvv) as (Him & -> & ->).
  pose proof (running_error f f' _ _ M _ 0 (fun j => nth j (r_y r) 0) (S i) Hf Hd (step_in _ _ _ m (S i) Hs ltac:(lia))) as B.
  cbv beta in B. eapply Rle_trans; [apply B|].
  - intros j Hj. rewrite Hn by lia. rewrite Rminus_eq_0, Rabs_R0. lra.
  - right. ring.
Qed.
Lemma norm_close (f g : R -> R) M (r : rel RA RV) m : (1 <= m)%nat ->
  exact_span (a_start (r_x r)) (a_end (r_x r)) (a_sample (r_x r)) m ->
  smooth_on (fun t => f t * f t) g (a_start (r_x r)) (a_end (r_x r)) M ->
  r_y r = samples_of f (a_start (r_x r)) (a_end (r_x r)) (m + 1) ->
  exists v, rel_norm RA RV (default_config RA RV) r = Ok v /\
    Rabs (v * a_sample (r_x r) - RInt (fun t => f t * f t) (a_start (r_x r)) (a_end (r_x r)))
      <= M / 12 * a_sample (r_x r) ^ 2 * (a_end (r_x r) - a_start (r_x r)).
Proof.
  intros Hm Hs Hf Hy. destruct (exact_rel r f m Hm Hs Hy) as (Hv & Hd & _ & L & _ & Hn).
  eexists. split; [exact (norm_eq r Hv)|]. change (val RV) with R in *. rewrite L. replace (m + 1 - 1)%nat with m by lia.
  assert (Hp : 0 < INR m) by (apply lt_0_INR; lia). unfold energy_sum.
  pose proof (running_error _ g _ _ M _ 0 (fun j => nth j (r_y r) 0 * nth j (r_y r) 0) m Hf Hd (step_in _ _ _ m m Hs ltac:(lia))) as B.
  cbv beta in B. destruct Hs as [_ Es].
  replace (a_start (r_x r) + INR m * a_sample (r_x r)) with (a_end (r_x r)) in B by lra.
  set (S := vsum _ m) in *. change (val RV) with R in *. rewrite Es.
  replace (INR m * a_sample (r_x r) / INR m / a_sample (r_x r) * S * a_sample (r_x r)) with (a_sample (r_x r) * S) by (field; lra).
  eapply Rle_trans; [apply B|].
  - intros j Hj. rewrite Hn by lia. rewrite Rminus_eq_0, Rabs_R0. lra.
  - right. ring.
Qed.

(** *** the bounds are attained *)
Lemma smooth_square a b : smooth_on (fun t => t * t) (fun t => 2 * t) a b 2.
Proof.
  split.
  - intros t _. auto_derive; [exact I|]. ring.
  - intros u v _ _. replace (2 * u - 2 * v) with (2 * (u - v)) by ring. rewrite Rabs_mult, (Rabs_right 2) by lra. lra.
Qed.
Lemma derive_abs (t : R) : is_derive (fun u : R => u * Rabs u) t (2 * Rabs t).
Proof.
  destruct (Rtotal_order t 0) as [H|[->|H]].
  - apply (is_derive_ext_loc (fun u : R => - (u * u))).
    + exists (mkposreal (- t) ltac:(lra)). intros u Hu. unfold ball in Hu. cbn in Hu. unfold AbsRing_ball, abs, minus, plus, opp in Hu. cbn in Hu.
      apply Rabs_def2 in Hu. rewrite Rabs_left by lra. match goal with |- ?l = ?r => change (@eq R l r) end; ring.
    + rewrite Rabs_left by lra. auto_derive; [exact I|]. ring.
  - rewrite Rabs_R0, Rmult_0_r. apply is_derive_Reals. intros eps He. exists (mkposreal eps He). intros h Hh Hb. cbn in Hb.
    rewrite Rplus_0_l, Rmult_0_l, !Rminus_0_r. replace (h * Rabs h / h) with (Rabs h) by (field; exact Hh). rewrite Rabs_Rabsolu. exact Hb.
  - apply (is_derive_ext_loc (fun u : R => u * u)).
    + exists (mkposreal t H). intros u Hu. unfold ball in Hu. cbn in Hu. unfold AbsRing_ball, abs, minus, plus, opp in Hu. cbn in Hu.
      apply Rabs_def2 in Hu. rewrite Rabs_right by lra. match goal with |- ?l = ?r => change (@eq R l r) end. ring.
    + rewrite Rabs_right by lra. auto_derive; [exact I|]. ring.
Qed.
Lemma smooth_abs a b : smooth_on (fun t => t * Rabs t) (fun t => 2 * Rabs t) a b 2.
Proof.
  split; [intros t _; apply derive_abs|]. intros u v _ _. rewrite <- Rmult_minus_distr_l, Rabs_mult, (Rabs_right 2) by lra.
  apply Rmult_le_compat_l; [lra|]. apply Rabs_triang_inv2.
Qed.
Lemma square_integral u v : RInt (fun t => t * t) u v = (v ^ 3 - u ^ 3) / 3.
Proof.
  apply is_RInt_unique. eapply integral_val; [|apply (is_RInt_derive (fun t => t ^ 3 / 3) (fun t => t * t))].
  - unfold minus, plus, opp. cbn. field.
  - intros x _. auto_derive; [exact I|]. cbn. field.
  - intros x _. apply (ex_derive_continuous (fun t => t * t)). auto_derive. exact I.
Qed.
Lemma int_attained (r : rel RA RV) m : (1 <= m)%nat ->
  exact_span (a_start (r_x r)) (a_end (r_x r)) (a_sample (r_x r)) m ->
  r_y r = samples_of (fun t => t * t) (a_start (r_x r)) (a_end (r_x r)) (m + 1) ->
  smooth_on (fun t => t * t) (fun t => 2 * t) (a_start (r_x r)) (a_end (r_x r)) 2 /\
  exists r' arr, rel_integrate RA RV (default_config RA RV) r = Ok r' /\ axis_array RA (r_x r') = Ok arr /\
    forall i t v, nth_error arr i = Some t -> nth_error (r_y r') i = Some v ->
      v - RInt (fun t => t * t) (a_start (r_x r)) t = 2 / 12 * a_sample (r_x r) ^ 2 * (t - a_start (r_x r)).
Proof.
  intros Hm Hs Hy. split; [apply smooth_square|]. destruct (exact_rel r _ m Hm Hs Hy) as (_ & Hd & _ & _ & _ & Hn).
  destruct (int_values _ r m Hm Hs Hy) as (r' & arr & E & Ea & Lr & La & H). exists r', arr.
  split; [exact E|]. split; [exact Ea|]. intros i t v Hi Hvv. destruct (H i t v Hi Hvv) as (Him & -> & ->). clear Hi Hvv H E Ea La Lr.
  rewrite square_integral. set (s := a_start (r_x r)) in *. set (d := a_sample (r_x r)) in *.
  assert (G : forall k, (k <= m)%nat ->
    d * vsum (V:=RV) (fun j => (nth j (r_y r) 0 + nth (S j) (r_y r) 0) / 2) k = ((s + INR k * d) ^ 3 - s ^ 3) / 3 + 2 / 12 * d ^ 2 * (INR k * d)).
  { induction k as [|k IH]; intros Hk.
    - cbn [vsum INR]. change (v_of RV _) with 0. field.
    - cbn [vsum]. change (v_add RV ?p ?q) with (p + q). rewrite Rmult_plus_distr_l, IH by lia. rewrite !Hn by lia. rewrite S_INR. field. }
  rewrite G by lia. ring.
Qed.
Definition rx_ (s e d : R) : axis RA := mkAxis (A:=RA) s e d.
Lemma span_rx s e d m : 0 < d -> e - s = INR m * d -> exact_span (a_start (rx_ s e d)) (a_end (rx_ s e d)) (a_sample (rx_ s e d)) m.
Proof. intros H1 H2. split; assumption. Qed.
Lemma interp_attained : exists (f f' : R -> R) M (r : rel RA RV) (nx : axis RA) arr r' i t v,
  valid r /\ (2 <= length (r_y r))%nat /\ a_start (r_x r) < a_end (r_x r) /\
  smooth_on f f' (a_start (r_x r)) (a_end (r_x r)) M /\
  r_y r = samples_of f (a_start (r_x r)) (a_end (r_x r)) (length (r_y r)) /\ a_sample nx <> 0 /\
  axis_array RA nx = Ok arr /\ rel_interp RA RV (default_config RA RV) nx r = Ok r' /\
  nth_error arr i = Some t /\ nth_error (r_y r') i = Some v /\ a_start (r_x r) <= t <= a_end (r_x r) /\
  Rabs (v - f t) = M / 8 * ((a_end (r_x r) - a_start (r_x r)) / INR (length (r_y r) - 1)) ^ 2 /\ 0 < Rabs (v - f t).
Proof.
  set (f := fun t : R => t * t).
  set (r := mkRel (A:=RA) (V:=RV) (rx_ 0 2 2) (samples_of f 0 2 2)). set (nx := rx_ 0 2 1).
  assert (Sr : exact_span (a_start (r_x r)) (a_end (r_x r)) (a_sample (r_x r)) 1) by (apply span_rx; cbn [INR]; lra).
  assert (Sn : exact_span (a_start nx) (a_end nx) (a_sample nx) 2) by (apply span_rx; cbn [INR]; lra).
  destruct (exact_rel r f 1 ltac:(lia) Sr eq_refl) as (Hv & _ & Hse & L & _ & _).
  destruct (interp_full (V:=RV) RV_laws r nx Hv) as (xs & arr & r' & Ex & Ea & Er & Xr & Lr & Hp). { cbn. lra. }
  pose proof (axis_array_size _ _ (axis_size_exact _ _ Sn)) as Ea'. rewrite Ea in Ea'. injection Ea' as ->.
  pose proof (axis_array_size _ _ (axis_size_exact _ _ Sr)) as Ex'. rewrite Ex in Ex'. injection Ex' as ->.
  rewrite grid_length in Lr. change (val RV) with R in *.
  assert (G1 : nth_error (grid (a_start nx) (a_end nx) (2 + 1)) 1 = Some 1).
  { rewrite grid_nth by lia. rewrite (exact_pt _ _ _ 2 1 Sn) by lia. cbn. f_equal. lra. }
  destruct (nth_error (r_y r') 1) as [v|] eqn:Ev. 2:{ apply nth_error_None in Ev. change (val RV) with R in *. lia. }
  pose proof (Hp 1%nat 1 v G1 Ev) as Pv.
  assert (V2 : v = 2).
  { apply (pl_unique (V:=RV) RV_laws (r_x r) _ (r_y r) 1 v 2 Ex); [rewrite grid_length; reflexivity|exact Pv|].
    assert (E2 : line (V:=RV) 0 (0 * 0) 2 (2 * 2) 1 = 2) by (unfold line; cbn [RV v_add v_mul v_sub v_of]; match goal with |- ?l = ?r => change (@eq R l r) end; field).
    cut (pl_value (V:=RV) (grid (a_start (r_x r)) (a_end (r_x r)) (1 + 1)) (r_y r) 1 (line (V:=RV) 0 (0 * 0) 2 (2 * 2) 1)); [rewrite E2; exact (fun P => P)|].
    - apply (PL_between (V:=RV) _ _ 1 0 0 2 (0 * 0) (2 * 2)).
      + rewrite grid_first by lia. reflexivity.
      + change 1%nat with (2 - 1)%nat. rewrite (grid_last _ _ 2) by lia. reflexivity.
      + unfold r, samples_of. cbn [r_y]. rewrite nth_error_map, grid_first by lia. reflexivity.
      + unfold r, samples_of. cbn [r_y]. change 1%nat with (2 - 1)%nat. rewrite nth_error_map, (grid_last _ _ 2) by lia. reflexivity.
      + left. lra. }
  assert (E1 : Rabs (v - f 1) = 1) by (subst v; unfold f; rewrite Rabs_right; lra).
  exists f, (fun t => 2 * t), 2, r, nx, (grid (a_start nx) (a_end nx) (2 + 1)), r', 1%nat, 1, v.
  split; [exact Hv|]. split; [change (val RV) with R; lia|]. split; [exact Hse|]. split; [apply smooth_square|].
  split; [change (val RV) with R in *; rewrite L; reflexivity|]. split; [cbn; lra|]. split; [exact Ea|]. split; [exact Er|].
  split; [exact G1|]. split; [exact Ev|]. split; [cbn; lra|]. rewrite E1. split; [|lra].
  change (val RV) with R in *. rewrite L. cbn. field.
Qed.
Lemma diff_attained : exists (f f' : R -> R) M (r : rel RA RV) r' arr i t v,
  exact_span (a_start (r_x r)) (a_end (r_x r)) (a_sample (r_x r)) 1 /\
  smooth_on f f' (a_start (r_x r)) (a_end (r_x r)) M /\
  r_y r = samples_of f (a_start (r_x r)) (a_end (r_x r)) 2 /\
  rel_diff RA RV (default_config RA RV) r = Ok r' /\ axis_array RA (r_x r') = Ok arr /\
  nth_error arr i = Some t /\ nth_error (r_y r') i = Some v /\
  Rabs (v - f' t) = M / 4 * a_sample (r_x r) /\ 0 < Rabs (v - f' t).
Proof.
  set (f := fun t : R => t * Rabs t).
  set (r := mkRel (A:=RA) (V:=RV) (rx_ (-1) 1 2) (samples_of f (-1) 1 2)).
  assert (Sr : exact_span (a_start (r_x r)) (a_end (r_x r)) (a_sample (r_x r)) 1) by (apply span_rx; cbn [INR]; lra).
  destruct (exact_rel r f 1 ltac:(lia) Sr eq_refl) as (Hv & Hd & Hse & L & Ht & Hn). change (val RV) with R in *.
  destruct (diff_ok (V:=RV) r Hv Hd (Rlt_le _ _ Hse) ltac:(change (val RV) with R; lia) Ht) as (r' & E & _ & X & Lr & Hr).
  change (val RV) with R in *. change (v_of RV 0) with 0 in Hr. rewrite L in Lr, Hr.
  specialize (Hr 0%nat ltac:(lia)). rewrite !Hn in Hr by lia.
  assert (V1 : nth 0 (r_y r') 0 = 1).
  { eapply eq_trans; [exact Hr|]. unfold f. cbn [r r_x rx_ a_start a_sample RV v_div v_sub v_of INR].
    replace (-1 + 1 * 2) with 1 by lra. replace (-1 + 0 * 2) with (-1) by lra.
    rewrite (Rabs_right 1), (Rabs_left (-1)) by lra. lra. }
  assert (Hs' : exact_span (a_start (r_x r')) (a_end (r_x r')) (a_sample (r_x r')) 0) by (rewrite X; apply span_rx; cbn [r r_x rx_ a_start a_end a_sample INR]; lra).
  exists f, (fun t => 2 * Rabs t), 2, r, r', (grid (a_start (r_x r')) (a_end (r_x r')) (0 + 1)), 0%nat, 0, 1.
  split; [exact Sr|]. split; [apply smooth_abs|]. split; [reflexivity|]. split; [exact E|].
  split; [apply axis_array_size, axis_size_exact; exact Hs'|].
  split. { rewrite grid_first by lia. rewrite X. cbn. f_equal. lra. }
  split. { assert (Hl : (0 < @length R (r_y r'))%nat) by lia. eapply eq_trans; [exact (List.nth_error_nth' (A:=R) (r_y r') 0 Hl)|]. apply (f_equal (@Some R)). exact V1. }
  rewrite Rabs_R0, Rmult_0_r, Rminus_0_r, (Rabs_right 1) by lra. cbn. split; lra.
Qed.
