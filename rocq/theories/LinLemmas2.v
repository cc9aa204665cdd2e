(** Proofs for C85: correlation and convolution are bilinear, the Fourier transforms linear. *)
From Coq Require Import Reals ZArith List Bool Lia Lra Field.
From Coquelicot Require Import Complex.
From Verif Require Import Num Numpy Spec AxisModel RelModel RLemmas AxisLemmas InterpLemmas VInst RelLemmas RelLemmas2 RelLemmas3
  CorrLemmas DftLemmas HeapModel FourierModel ProgModel LinSpec LinLemmas.
Import ListNotations.
Local Open Scope R_scope.

Lemma map2_app {S T U} (f : S -> T -> U) l1 m1 : forall l2 m2, length l1 = length l2 -> map2 f (l1 ++ m1) (l2 ++ m2) = map2 f l1 l2 ++ map2 f m1 m2.
Proof. induction l1 as [|a l1 IH]; intros [|b l2] m2 E; try discriminate; [reflexivity|]. injection E as E. cbn. rewrite IH by exact E. reflexivity. Qed.
Lemma map2_rev {S T U} (f : S -> T -> U) l1 : forall l2, length l1 = length l2 -> rev (map2 f l1 l2) = map2 f (rev l1) (rev l2).
Proof.
  induction l1 as [|a l1 IH]; intros [|b l2] E; try discriminate; [reflexivity|]. injection E as E. cbn. rewrite IH by exact E.
  rewrite map2_app by (rewrite !rev_length; exact E). reflexivity.
Qed.
Lemma map2_nth_error {S T U} (f : S -> T -> U) l1 : forall l2 i, length l1 = length l2 ->
  nth_error (map2 f l1 l2) i = match nth_error l1 i, nth_error l2 i with Some a, Some b => Some (f a b) | _, _ => None end.
Proof.
  induction l1 as [|a l1 IH]; intros [|b l2] i E; try discriminate; [destruct i; reflexivity|]. injection E as E.
  destruct i as [|i]; [reflexivity|]. cbn. apply IH. exact E.
Qed.
Lemma map2_repeat {S T U} (f : S -> T -> U) a b n : map2 f (repeat a n) (repeat b n) = repeat (f a b) n.
Proof. induction n as [|n IH]; [reflexivity|]. cbn. rewrite IH. reflexivity. Qed.
Lemma map2_firstn {S T U} (f : S -> T -> U) n : forall l1 l2, firstn n (map2 f l1 l2) = map2 f (firstn n l1) (firstn n l2).
Proof. induction n as [|n IH]; intros [|a l1] [|b l2]; try reflexivity. cbn. rewrite IH. reflexivity. Qed.
Lemma map_map2_gen {S T U W} (f : S -> T -> U) (g : U -> W) l1 l2 : map g (map2 f l1 l2) = map2 (fun a b => g (f a b)) l1 l2.
Proof. revert l2. induction l1 as [|a l1 IH]; intros [|b l2]; try reflexivity. cbn. rewrite IH. reflexivity. Qed.
Lemma map2_map {S T S' T' U} (f : S -> T -> U) (g : S' -> S) (h : T' -> T) l1 l2 : map2 f (map g l1) (map h l2) = map2 (fun a b => f (g a) (h b)) l1 l2.
Proof. revert l2. induction l1 as [|a l1 IH]; intros [|b l2]; try reflexivity. cbn. rewrite IH. reflexivity. Qed.
Lemma map2_same {S U} (f : S -> S -> U) (l : list S) : map2 f l l = map (fun a => f a a) l.
Proof. induction l as [|a l IH]; [reflexivity|]. cbn. rewrite IH. reflexivity. Qed.

Section Bilinear.
Context {V : Vals RA} (L : VLaws V) (a b : val V).
Notation rel := (rel RA V).
Notation DC := (default_config RA V).
Notation alike := (alike RA V).
Notation mix := (mix RA V a b).
Notation res_mix := (res_mix RA V a b).
Notation lin := (lin (V:=V) a b).
Add Field VfieldB : (vl_field V L).
Definition res_lin (r q : result (list (val V))) : result (list (val V)) :=
  match r, q with Ok x, Ok y => Ok (map2 lin x y) | Err e, _ => Err e | _, Err e => Err e end.

Lemma sum_mix (g h : nat -> val V) l : v_sum RA V (map (fun t => lin (g t) (h t)) l) = lin (v_sum RA V (map g l)) (v_sum RA V (map h l)).
Proof.
  unfold v_sum. change (n_of_Z RA 0) with 0.
  assert (G : forall u v, fold_left (v_add V) (map (fun t => lin (g t) (h t)) l) (lin u v)
    = lin (fold_left (v_add V) (map g l) u) (fold_left (v_add V) (map h l) v)).
  { induction l as [|t l IH]; intros u v; [reflexivity|]. cbn [map fold_left]. rewrite (lin_add L a b). apply IH. }
  rewrite <- G. rewrite (lin_0 L a b). reflexivity.
Qed.
Lemma conv_first y1 y2 w k j : length y1 = length y2 ->
  conv_term RA V (map2 lin y1 y2) w k j = lin (conv_term RA V y1 w k j) (conv_term RA V y2 w k j).
Proof.
  intros E. unfold conv_term. rewrite map2_nth_error by exact E. change (n_of_Z RA 0) with 0.
  destruct (if (j <=? k)%nat then nth_error w (k - j) else None) as [c|]; [|symmetry; apply (lin_0 L a b)].
  destruct (nth_error y1 j) as [u|] eqn:E1, (nth_error y2 j) as [v|] eqn:E2.
  - apply (lin_mul L a b).
  - apply nth_error_None in E2. assert (j < length y1)%nat by (apply nth_error_Some; congruence). lia.
  - apply nth_error_None in E1. assert (j < length y2)%nat by (apply nth_error_Some; congruence). lia.
  - symmetry. apply (lin_0 L a b).
Qed.
Lemma conv_second y w1 w2 k j : length w1 = length w2 ->
  conv_term RA V y (map2 lin w1 w2) k j = lin (conv_term RA V y w1 k j) (conv_term RA V y w2 k j).
Proof.
  intros E. unfold conv_term. rewrite map2_nth_error by exact E. change (n_of_Z RA 0) with 0.
  destruct (j <=? k)%nat; [|symmetry; apply (lin_0 L a b)].
  destruct (nth_error w1 (k - j)) as [u|] eqn:E1, (nth_error w2 (k - j)) as [v|] eqn:E2.
  - destruct (nth_error y j) as [c|]; [apply (lin_rmul L a b)|symmetry; apply (lin_0 L a b)].
  - apply nth_error_None in E2. assert (k - j < length w1)%nat by (apply nth_error_Some; congruence). lia.
  - apply nth_error_None in E1. assert (k - j < length w2)%nat by (apply nth_error_Some; congruence). lia.
  - symmetry. apply (lin_0 L a b).
Qed.
Lemma convolve_first y1 y2 w : length y1 = length y2 -> np_convolve RA V (map2 lin y1 y2) w = res_lin (np_convolve RA V y1 w) (np_convolve RA V y2 w).
Proof.
  intros E. destruct y1 as [|u y1], y2 as [|v y2]; try discriminate; [reflexivity|]. destruct w as [|c w]; [reflexivity|].
  set (A1 := u :: y1) in *. set (A2 := v :: y2) in *. set (W := c :: w).
  change (Ok (convolve_full RA V (map2 lin A1 A2) W) = Ok (map2 lin (convolve_full RA V A1 W) (convolve_full RA V A2 W))). f_equal.
  unfold convolve_full. rewrite map2_length, <- E, Nat.min_id, map2_map, map2_same. apply map_ext. intros k.
  rewrite <- sum_mix. f_equal. apply map_ext. intros j. apply conv_first. exact E.
Qed.
Lemma convolve_second y w1 w2 : length w1 = length w2 -> np_convolve RA V y (map2 lin w1 w2) = res_lin (np_convolve RA V y w1) (np_convolve RA V y w2).
Proof.
  intros E. destruct y as [|u y]; [reflexivity|]. destruct w1 as [|c w1], w2 as [|d w2]; try discriminate; [reflexivity|].
  set (Y := u :: y). set (W1 := c :: w1) in *. set (W2 := d :: w2) in *.
  change (Ok (convolve_full RA V Y (map2 lin W1 W2)) = Ok (map2 lin (convolve_full RA V Y W1) (convolve_full RA V Y W2))). f_equal.
  unfold convolve_full. rewrite map2_length, <- E, Nat.min_id, map2_map, map2_same. apply map_ext. intros k.
  rewrite <- sum_mix. f_equal. apply map_ext. intros j. apply conv_second. exact E.
Qed.
Lemma correlate_first y1 y2 w : length y1 = length y2 -> np_correlate RA V (map2 lin y1 y2) w = res_lin (np_correlate RA V y1 w) (np_correlate RA V y2 w).
Proof. unfold np_correlate. apply convolve_first. Qed.
Lemma same_refl r : alike r r.
Proof. split; reflexivity. Qed.
Lemma equalize_first r1 r2 q : alike r1 r2 ->
  rel_equalize RA V DC false (mix r1 r2) q
  = match rel_equalize RA V DC false r1 q, rel_equalize RA V DC false r2 q with
    | Ok (e1, f), Ok (e2, _) => Ok (mix e1 e2, f) | Err e, _ => Err e | _, Err e => Err e end.
Proof.
  intros H. unfold rel_equalize. change (r_x (mix r1 r2)) with (r_x r1). rewrite <- (proj1 H).
  set (x := c_common_x RA V DC _ _). rewrite (interp_mix L a b x _ _ H). pose proof (interp_alike x _ _ H) as G.
  destruct (rel_interp RA V DC x r1) as [e1|z], (rel_interp RA V DC x r2) as [e2|z']; try contradiction; [|reflexivity]. cbn [bind LinSpec.res_mix].
  destruct (rel_interp RA V DC x q); reflexivity.
Qed.
Lemma equalize_second r q1 q2 : alike q1 q2 ->
  rel_equalize RA V DC false r (mix q1 q2)
  = match rel_equalize RA V DC false r q1, rel_equalize RA V DC false r q2 with
    | Ok (e, f1), Ok (_, f2) => Ok (e, mix f1 f2) | Err e, _ => Err e | _, Err e => Err e end.
Proof.
  intros H. unfold rel_equalize. change (r_x (mix q1 q2)) with (r_x q1). rewrite <- (proj1 H).
  set (x := c_common_x RA V DC _ _). rewrite (interp_mix L a b x _ _ H). pose proof (interp_alike x _ _ H) as G.
  destruct (rel_interp RA V DC x r) as [e|z]; [|reflexivity]. cbn [bind].
  destruct (rel_interp RA V DC x q1) as [e1|z], (rel_interp RA V DC x q2) as [e2|z']; try contradiction; reflexivity.
Qed.
Lemma lagged_first comb r1 r2 q : alike r1 r2 ->
  (forall y1 y2 w, length y1 = length y2 -> comb (map2 lin y1 y2) w = res_lin (comb y1 w) (comb y2 w)) ->
  (forall y1 y2 w w', length y1 = length y2 -> length w = length w' -> both (fun y y' => length y = length y') (comb y1 w) (comb y2 w')) ->
  rel_lagged RA V DC comb (mix r1 r2) q = res_mix (rel_lagged RA V DC comb r1 q) (rel_lagged RA V DC comb r2 q).
Proof.
  intros H Hc Hl. unfold rel_lagged. change (r_x (mix r1 r2)) with (r_x r1). rewrite <- (proj1 H).
  rewrite (shift_mix a b _ _ _ H). set (u := n_opp RA (a_start (r_x r1))). pose proof (shift_alike u _ _ H) as G1.
  destruct (rel_shift RA V u r1) as [s1|z], (rel_shift RA V u r2) as [s2|z']; try contradiction; [|reflexivity]. cbn [bind LinSpec.res_mix].
  destruct (rel_shift RA V _ q) as [t|z]; [|reflexivity]. cbn [bind]. rewrite (equalize_first _ _ _ G1).
  pose proof (equalize_alike s1 s2 t t G1 (same_refl t)) as G.
  destruct (rel_equalize RA V DC false s1 t) as [[e1 f1]|z] eqn:E1, (rel_equalize RA V DC false s2 t) as [[e2 f2]|z'] eqn:E2; try contradiction; [|reflexivity].
  assert (Ef : f1 = f2).
  { unfold rel_equalize in E1, E2. rewrite (proj1 G1) in E1. destruct (rel_interp RA V DC _ s1); [|discriminate].
    destruct (rel_interp RA V DC _ s2); [|discriminate]. cbn [bind] in E1, E2. destruct (rel_interp RA V DC _ t); [|discriminate].
    cbn [bind] in E1, E2. congruence. }
  subst f2. cbn [bind both fst snd] in *. destruct G as [[Gx Gl] _]. cbn [fst snd] in *. cbv zeta.
  change (r_y (mix e1 e2)) with (map2 lin (r_y e1) (r_y e2)). change (r_x (mix e1 e2)) with (r_x e1). rewrite (Hc _ _ _ Gl), <- Gx.
  pose proof (Hl _ _ _ _ Gl (eq_refl (length (r_y f1)))) as M.
  destruct (comb (r_y e1) (r_y f1)) as [y|z], (comb (r_y e2) (r_y f1)) as [y'|z']; try contradiction; [|reflexivity]. cbn [bind res_lin].
  apply make_mix. exact M.
Qed.
Lemma map2_first (f : val V -> val V -> val V) y1 y2 : forall w, length y1 = length y2 -> (forall u v c, f (lin u v) c = lin (f u c) (f v c)) ->
  map2 f (map2 lin y1 y2) w = map2 lin (map2 f y1 w) (map2 f y2 w).
Proof.
  intros w E Hf. revert y2 w E. induction y1 as [|u y1 IH]; intros [|v y2] w E; try discriminate; [destruct w; reflexivity|]. injection E as E.
  destruct w as [|c w]; [reflexivity|]. cbn [map2]. rewrite Hf, IH by exact E. reflexivity.
Qed.
(** multiplication and division by a fixed relation *)
Lemma op_first o r1 r2 q : linear_num o = true -> alike r1 r2 ->
  rel_op RA V DC o false (mix r1 r2) q = res_mix (rel_op RA V DC o false r1 q) (rel_op RA V DC o false r2 q).
Proof.
  intros Ho H. unfold rel_op. rewrite (equalize_first _ _ q H). pose proof (equalize_alike _ _ _ _ H (same_refl q)) as G.
  destruct (rel_equalize RA V DC false r1 q) as [[e1 f1]|z] eqn:E1, (rel_equalize RA V DC false r2 q) as [[e2 f2]|z'] eqn:E2; try contradiction; [|reflexivity].
  assert (Ef : f1 = f2).
  { unfold rel_equalize in E1, E2. rewrite (proj1 H) in E1. destruct (rel_interp RA V DC _ r1); [|discriminate].
    destruct (rel_interp RA V DC _ r2); [|discriminate]. cbn [bind] in E1, E2. destruct (rel_interp RA V DC _ q); [|discriminate].
    cbn [bind] in E1, E2. congruence. }
  subst f2. apply equalized_lengths in E1, E2. cbn [bind both fst snd] in *. destruct G as [[Gx Gl] _]. cbn [fst snd default_config c_math] in *.
  destruct E1 as [E1 _], E2 as [E2 _]. unfold math_operation. change (r_y (mix e1 e2)) with (map2 lin (r_y e1) (r_y e2)).
  replace (Nat.eqb (length (map2 lin (r_y e1) (r_y e2))) (length (r_y f1))) with true
    by (symmetry; apply Nat.eqb_eq; rewrite map2_length, <- Gl, Nat.min_id; exact E1).
  rewrite E1, E2, !Nat.eqb_refl. cbn [bind]. change (r_x (mix e1 e2)) with (r_x e1). rewrite <- Gx.
  rewrite <- make_mix by (rewrite !map2_length; congruence). f_equal. apply map2_first; [exact Gl|]. intros u v c. apply (lin_num L a b). exact Ho.
Qed.
End Bilinear.

(** the second operand is conjugated, and so are its factors *)
Lemma correlate_second {V : Vals RA} (L : VLaws V) (CL : CLaws V) a b y w1 w2 : length w1 = length w2 ->
  np_correlate RA V y (map2 (lin a b) w1 w2) = res_lin (v_conj V a) (v_conj V b) (np_correlate RA V y w1) (np_correlate RA V y w2).
Proof.
  intros E. unfold np_correlate. rewrite <- (convolve_second L) by (rewrite !rev_length, !map_length; exact E). f_equal.
  rewrite <- map2_rev by (rewrite !map_length; exact E). f_equal. rewrite map_map2_gen, map2_map.
  clear E. revert w2. induction w1 as [|u w1 IH]; intros [|v w2]; try reflexivity. cbn [map2]. rewrite IH. f_equal. unfold lin.
  rewrite (cl_add V CL), !(cl_mul V CL). reflexivity.
Qed.
Lemma lagged_second {V : Vals RA} (L : VLaws V) a b a' b' comb r q1 q2 : alike RA V q1 q2 ->
  (forall y w1 w2, length w1 = length w2 -> comb y (map2 (lin a b) w1 w2) = res_lin a' b' (comb y w1) (comb y w2)) ->
  (forall y1 y2 w w', length y1 = length y2 -> length w = length w' -> both (fun y y' => length y = length y') (comb y1 w) (comb y2 w')) ->
  rel_lagged RA V (default_config RA V) comb r (mix RA V a b q1 q2) = res_mix RA V a' b' (rel_lagged RA V (default_config RA V) comb r q1) (rel_lagged RA V (default_config RA V) comb r q2).
Proof.
  intros H Hc Hl. unfold rel_lagged. change (r_x (mix RA V a b q1 q2)) with (r_x q1). rewrite <- (proj1 H).
  rewrite (shift_mix a b _ _ _ H). set (u := n_opp RA (a_start (r_x q1))). pose proof (shift_alike u _ _ H) as G1.
  destruct (rel_shift RA V _ r) as [t|z]; [|reflexivity]. cbn [bind].
  destruct (rel_shift RA V u q1) as [s1|z], (rel_shift RA V u q2) as [s2|z']; try contradiction; [|reflexivity]. cbn [bind LinSpec.res_mix].
  rewrite (equalize_second L a b _ _ _ G1). pose proof (equalize_alike t t s1 s2 (same_refl t) G1) as G.
  destruct (rel_equalize RA V (default_config RA V) false t s1) as [[e1 f1]|z] eqn:E1, (rel_equalize RA V (default_config RA V) false t s2) as [[e2 f2]|z'] eqn:E2; try contradiction; [|reflexivity].
  assert (Ef : e1 = e2).
  { unfold rel_equalize in E1, E2. rewrite (proj1 G1) in E1. destruct (rel_interp RA V (default_config RA V) _ t); [|discriminate]. cbn [bind] in E1, E2.
    destruct (rel_interp RA V (default_config RA V) _ s1); [|discriminate]. destruct (rel_interp RA V (default_config RA V) _ s2); [|discriminate]. cbn [bind] in E1, E2. congruence. }
  subst e2. cbn [bind both fst snd] in *. destruct G as [_ [Gx Gl]]. cbn [fst snd] in *. cbv zeta.
  change (r_y (mix RA V a b f1 f2)) with (map2 (lin a b) (r_y f1) (r_y f2)). rewrite (Hc _ _ _ Gl).
  pose proof (Hl _ _ _ _ (eq_refl (length (r_y e1))) Gl) as M.
  destruct (comb (r_y e1) (r_y f1)) as [y|z], (comb (r_y e1) (r_y f2)) as [y'|z']; try contradiction; [|reflexivity]. cbn [bind res_lin].
  apply make_mix. exact M.
Qed.

Section Fourier.
Context (p q : R).
Notation DC := (default_config RA CV).
Notation cl := (LinLemmas.lin (V:=CV) (RtoC p) (RtoC q)).
Definition rl (u v : R) : R := p * u + q * v.
Lemma cl_pair u v : cl u v = (rl (fst u) (fst v), rl (snd u) (snd v)).
Proof. unfold LinLemmas.lin, rl. destruct u, v. cbn. apply injective_projections; cbn; ring. Qed.
Lemma cl_0 : cl (RtoC 0) (RtoC 0) = RtoC 0.
Proof. rewrite cl_pair. unfold rl. cbn. apply injective_projections; cbn; ring. Qed.
Definition lin_l (r1 r2 r : result (list C)) : Prop :=
  match r1, r2 with Ok y1, Ok y2 => length y1 = length y2 /\ r = Ok (map2 cl y1 y2) | Err e, Err e' => e = e' /\ r = Err e | _, _ => False end.
Definition lin_p (r1 r2 r : result (raxis * list C)) : Prop :=
  match r1, r2 with
  | Ok (t1, y1), Ok (t2, y2) => t1 = t2 /\ length y1 = length y2 /\ r = Ok (t1, map2 cl y1 y2)
  | Err e, Err e' => e = e' /\ r = Err e | _, _ => False end.
Lemma lin_bind r1 r2 r f1 f2 f : lin_l r1 r2 r ->
  (forall y1 y2, r1 = Ok y1 -> r2 = Ok y2 -> length y1 = length y2 -> lin_p (f1 y1) (f2 y2) (f (map2 cl y1 y2))) -> lin_p (bind r1 f1) (bind r2 f2) (bind r f).
Proof.
  intros H G. destruct r1 as [y1|e], r2 as [y2|e']; try contradiction; destruct H as [H ->]; cbn [bind].
  - apply G; auto.
  - split; [exact H|reflexivity].
Qed.

Lemma fit_length {T} (z : T) n l : length (fit z n l) = n.
Proof. unfold fit. rewrite app_length, firstn_length, repeat_length. lia. Qed.
Lemma fit_map2 {T} (f : T -> T -> T) z n l1 l2 : f z z = z -> length l1 = length l2 -> fit z n (map2 f l1 l2) = map2 f (fit z n l1) (fit z n l2).
Proof.
  intros Hz E. unfold fit. rewrite map2_length, <- E, Nat.min_id, map2_firstn.
  rewrite map2_app by (rewrite !firstn_length, <- E; reflexivity). rewrite map2_repeat, Hz. reflexivity.
Qed.
Lemma nth_map2 {T} (f : T -> T -> T) z l1 l2 i : f z z = z -> length l1 = length l2 -> nth i (map2 f l1 l2) z = f (nth i l1 z) (nth i l2 z).
Proof.
  intros Hz. revert l2 i. induction l1 as [|a l1 IH]; intros [|b l2] i E; try discriminate; [destruct i; symmetry; exact Hz|].
  injection E as E. destruct i; [reflexivity|]. cbn. apply IH. exact E.
Qed.
Lemma rl_0 : rl 0 0 = 0. Proof. unfold rl. ring. Qed.
Lemma rsum_rl f g n : rsum (fun i => rl (f i) (g i)) n = rl (rsum f n) (rsum g n).
Proof. unfold rl. rewrite rsum_plus, !rsum_scal. reflexivity. Qed.
Lemma rfft_at_mix n l1 l2 k : length l1 = length l2 -> rfft_at n (map2 rl l1 l2) k = cl (rfft_at n l1 k) (rfft_at n l2 k).
Proof.
  intros E. rewrite cl_pair. unfold rfft_at. cbn [fst snd]. f_equal.
  - rewrite <- rsum_rl. apply rsum_ext. intros i _. rewrite (nth_map2 rl 0 _ _ _ rl_0 E). unfold rl. ring.
  - transitivity (- rl (rsum (fun j => nth j l1 0 * sin (ang n k j)) n) (rsum (fun j => nth j l2 0 * sin (ang n k j)) n)); [|unfold rl; ring].
    f_equal. rewrite <- rsum_rl. apply rsum_ext. intros i _. rewrite (nth_map2 rl 0 _ _ _ rl_0 E). unfold rl. ring.
Qed.
Lemma len_cl (y1 y2 : list C) : length y1 = length y2 -> @length C (map2 cl y1 y2) = length y1.
Proof. intros E. change C with (val CV). rewrite map2_length. change (val CV) with C. rewrite <- E. apply Nat.min_id. Qed.
Lemma rfft_mix y1 y2 size : length y1 = length y2 -> lin_l (rfft y1 size) (rfft y2 size) (rfft (map2 cl y1 y2) size).
Proof.
  intros E. unfold rfft. cbv zeta. rewrite <- ?E, (len_cl _ _ E).
  destruct (_ <? 1)%Z; [split; reflexivity|]. set (n := Z.to_nat _). split; [rewrite !map_length; reflexivity|].
  apply (f_equal (@Ok (list C))). rewrite map2_map, map2_same. apply map_ext. intros k.
  rewrite <- rfft_at_mix by (rewrite !fit_length; reflexivity). f_equal.
  rewrite <- (fit_map2 rl 0 _ _ _ rl_0) by (rewrite !map_length; exact E). f_equal.
  rewrite map_map2_gen, map2_map. clear. revert y2. induction y1 as [|a y1 IH]; intros [|b y2]; try reflexivity. cbn [map2].
  rewrite IH, cl_pair. reflexivity.
Qed.
Lemma irfft_at_mix n X Y j : length X = length Y -> irfft_at n (map2 cl X Y) j = rl (irfft_at n X j) (irfft_at n Y j).
Proof.
  intros E. unfold irfft_at. rewrite !(nth_map2 cl _ _ _ _ cl_0 E), !cl_pair. cbn [fst snd].
  rewrite (rsum_ext _ (fun k => rl
    (2 * (fst (nth (S k) X (RtoC 0)) * cos (ang n (S k) j) - snd (nth (S k) X (RtoC 0)) * sin (ang n (S k) j)))
    (2 * (fst (nth (S k) Y (RtoC 0)) * cos (ang n (S k) j) - snd (nth (S k) Y (RtoC 0)) * sin (ang n (S k) j))))).
  2:{ intros i _. rewrite (nth_map2 cl _ _ _ _ cl_0 E), cl_pair. cbn [fst snd]. unfold rl. ring. }
  rewrite rsum_rl. unfold rl. change (val CV) with C. destruct (Nat.even n); ring.
Qed.
Lemma irfft_mix y1 y2 size : length y1 = length y2 -> lin_l (irfft y1 size) (irfft y2 size) (irfft (map2 cl y1 y2) size).
Proof.
  intros E. unfold irfft. cbv zeta. rewrite <- ?E, (len_cl _ _ E).
  destruct (_ <? 1)%Z; [split; reflexivity|]. set (n := Z.to_nat _). split; [rewrite !map_length; reflexivity|].
  apply (f_equal (@Ok (list C))). rewrite map2_map, map2_same. apply map_ext. intros k.
  rewrite (fit_map2 cl _ _ _ _ cl_0 E), irfft_at_mix by (rewrite !fit_length; reflexivity).
  rewrite cl_pair. cbn [fst snd RtoC]. rewrite rl_0. reflexivity.
Qed.
Lemma mask_length (m : list bool) : forall (l1 l2 : list C), length l1 = length l2 -> length (mask m l1) = length (mask m l2).
Proof.
  induction m as [|c m IH]; intros [|a l1] [|b l2] E; try discriminate; [reflexivity..|]. injection E as E. destruct c; cbn; rewrite (IH _ _ E); reflexivity.
Qed.
Lemma reorder_mix t y1 y2 : length y1 = length y2 -> lin_l (reorder t y1) (reorder t y2) (reorder t (map2 cl y1 y2)).
Proof.
  intros E. unfold reorder. destruct (axis_array RA t) as [arr|e]; [|split; reflexivity]. cbn [bind].
  rewrite <- ?E, (len_cl _ _ E). destruct (Nat.eqb _ _); [|split; reflexivity].
  split; [rewrite !app_length, !(mask_length _ _ _ E); reflexivity|]. apply (f_equal (@Ok (list C))).
  rewrite map2_app by (apply mask_length; exact E). change C with (val CV). rewrite <- !(mask_mix (V:=CV) (RtoC p) (RtoC q)) by exact E. reflexivity.
Qed.
Lemma calc_mix t y1 y2 d : length y1 = length y2 -> lin_p (calculate_spectrum t y1 d) (calculate_spectrum t y2 d) (calculate_spectrum t (map2 cl y1 y2) d).
Proof.
  intros E. unfold calculate_spectrum. destruct (fft_size d) as [size|e]; [|split; reflexivity]. cbn [bind].
  apply lin_bind; [apply reorder_mix; exact E|]. clear E. intros z1 z2 _ _ E. apply lin_bind; [apply rfft_mix; exact E|].
  intros s1 s2 _ _ Es. rewrite <- ?E, (len_cl _ _ E).
  destruct d as [|n|a]; [| |split; [reflexivity|split; [exact Es|reflexivity]]];
  (destruct (rfftfreq _ _) as [f|e]; [|split; reflexivity]; cbn [bind]; destruct (axis_of_array RA _ false) as [x|e]; [|split; reflexivity];
   cbn [bind]; split; [reflexivity|split; [exact Es|reflexivity]]).
Qed.
Lemma s2s_mix r1 r2 d z : alike RA CV r1 r2 -> lin_p (signal2spectrum r1 d z) (signal2spectrum r2 d z) (signal2spectrum (mix RA CV (RtoC p) (RtoC q) r1 r2) d z).
Proof.
  intros [Ex E]. unfold signal2spectrum. cbv zeta. change (r_x (mix RA CV (RtoC p) (RtoC q) r1 r2)) with (r_x r1). rewrite <- Ex.
  change (r_y (mix RA CV (RtoC p) (RtoC q) r1 r2)) with (map2 cl (r_y r1) (r_y r2)).
  pose proof (len_cl _ _ E) as El. change (val CV) with C in *. rewrite <- ?E, El. destruct z; [apply calc_mix; exact E|].
  destruct (Rltb 0 _).
  - destruct (axis_size RA _) as [n|e]; [|split; reflexivity]. cbn [bind]. destruct (n <? _)%nat; [split; reflexivity|].
    pose proof (calc_mix (set_start RA 0 (r_x r1)) (repeat (RtoC 0) (n - length (r_y r1)) ++ r_y r1) (repeat (RtoC 0) (n - length (r_y r1)) ++ r_y r2) d) as G.
    rewrite map2_app in G by reflexivity. rewrite map2_repeat, cl_0 in G. apply G. rewrite !app_length. f_equal. exact E.
  - destruct (Rltb _ 0); [|apply calc_mix; exact E].
    destruct (axis_size RA _) as [n|e]; [|split; reflexivity]. cbn [bind]. destruct (n <? _)%nat; [split; reflexivity|].
    pose proof (calc_mix (set_end RA 0 (r_x r1)) (r_y r1 ++ repeat (RtoC 0) (n - length (r_y r1))) (r_y r2 ++ repeat (RtoC 0) (n - length (r_y r1))) d) as G.
    rewrite map2_app in G by exact E. rewrite map2_repeat, cl_0 in G. apply G. rewrite !app_length. f_equal. exact E.
Qed.
Lemma sp2s_mix r1 r2 d st : alike RA CV r1 r2 -> lin_p (spectrum2signal r1 d st) (spectrum2signal r2 d st) (spectrum2signal (mix RA CV (RtoC p) (RtoC q) r1 r2) d st).
Proof.
  intros [Ex E]. unfold spectrum2signal. cbv zeta. change (r_x (mix RA CV (RtoC p) (RtoC q) r1 r2)) with (r_x r1). rewrite <- Ex.
  change (r_y (mix RA CV (RtoC p) (RtoC q) r1 r2)) with (map2 cl (r_y r1) (r_y r2)).
  destruct (fft_size d) as [size|e]; [|split; reflexivity]. cbn [bind]. apply lin_bind; [apply irfft_mix; exact E|].
  clear E. intros y1 y2 _ _ E. rewrite <- ?E, (len_cl _ _ E).
  destruct (match d with DAxis a => Ok a | _ => _ end) as [t|e]; [|split; reflexivity]. cbn [bind].
  apply lin_bind; [apply reorder_mix; exact E|]. clear E. intros z1 z2 _ _ E. split; [reflexivity|split; [exact E|reflexivity]].
Qed.
Lemma finish_mix r1 r2 r : lin_p r1 r2 r ->
  (do fa <- r; rel_make RA CV (fst fa) (snd fa))
  = res_mix RA CV (RtoC p) (RtoC q) (do fa <- r1; rel_make RA CV (fst fa) (snd fa)) (do fa <- r2; rel_make RA CV (fst fa) (snd fa)).
Proof.
  intros H. destruct r1 as [[t1 y1]|e], r2 as [[t2 y2]|e']; try contradiction.
  - destruct H as (<- & E & ->). cbn [bind fst snd]. apply make_mix. exact E.
  - destruct H as [<- ->]. reflexivity.
Qed.
Lemma spectrum_mix r1 r2 d z : alike RA CV r1 r2 ->
  val_spectrum RA CV fourier_config (mix RA CV (RtoC p) (RtoC q) r1 r2) d z
  = res_mix RA CV (RtoC p) (RtoC q) (val_spectrum RA CV fourier_config r1 d z) (val_spectrum RA CV fourier_config r2 d z).
Proof. intros H. unfold val_spectrum. cbn [fourier_config hc_s2s]. apply finish_mix, s2s_mix, H. Qed.
Lemma signal_mix r1 r2 d st : alike RA CV r1 r2 ->
  val_signal RA CV fourier_config (mix RA CV (RtoC p) (RtoC q) r1 r2) d st
  = res_mix RA CV (RtoC p) (RtoC q) (val_signal RA CV fourier_config r1 d st) (val_signal RA CV fourier_config r2 d st).
Proof. intros H. unfold val_signal. cbn [fourier_config hc_sp2s]. apply finish_mix, sp2s_mix, H. Qed.
Lemma spectrum_alike r1 r2 d z : alike RA CV r1 r2 ->
  both (alike RA CV) (val_spectrum RA CV fourier_config r1 d z) (val_spectrum RA CV fourier_config r2 d z).
Proof.
  intros H. unfold val_spectrum. cbn [fourier_config hc_s2s]. pose proof (s2s_mix _ _ d z H) as G.
  destruct (signal2spectrum r1 d z) as [[t1 y1]|e], (signal2spectrum r2 d z) as [[t2 y2]|e']; try contradiction; cbn [bind fst snd].
  - destruct G as (<- & E & _). apply make_alike. exact E.
  - exact (proj1 G).
Qed.
Lemma signal_alike r1 r2 d st : alike RA CV r1 r2 ->
  both (alike RA CV) (val_signal RA CV fourier_config r1 d st) (val_signal RA CV fourier_config r2 d st).
Proof.
  intros H. unfold val_signal. cbn [fourier_config hc_sp2s]. pose proof (sp2s_mix _ _ d st H) as G.
  destruct (spectrum2signal r1 d st) as [[t1 y1]|e], (spectrum2signal r2 d st) as [[t2 y2]|e']; try contradiction; cbn [bind fst snd].
  - destruct G as (<- & E & _). apply make_alike. exact E.
  - exact (proj1 G).
Qed.
End Fourier.
