(** Proofs for C85. *)
From Coq Require Import Reals ZArith List Bool Lia Lra Field.
From Verif Require Import Num Numpy Spec AxisModel RelModel RLemmas AxisLemmas InterpLemmas VInst RelLemmas RelLemmas2 RelLemmas3
  CorrLemmas HeapModel ProgModel LinSpec.
Import ListNotations.

Lemma map2_length {S T U} (f : S -> T -> U) l m : length (map2 f l m) = Nat.min (length l) (length m).
Proof. revert m. induction l as [|a l IH]; intros [|b m]; cbn; auto. Qed.

(** *** shapes, for any number system *)
Section Shapes.
Context {A : Arith} {V : Vals A} (F : vfun A V).
Notation rel := (rel A V).
Notation DC := (default_config A V).
Notation alike := (alike A V).

Lemma make_alike (x : axis A) (y y' : list (val V)) : length y = length y' -> both alike (rel_make A V x y) (rel_make A V x y').
Proof.
  intros E. unfold rel_make. rewrite <- E. destruct (axis_size A x) as [n|e]; [|reflexivity]. cbn [bind].
  destruct (Nat.eqb n (length y)); cbn; [split; auto|reflexivity].
Qed.
Lemma diffs_length {T U} (f : T -> T -> U) l : length (diffs f l) = (length l - 1)%nat.
Proof. induction l as [|a l IH]; [reflexivity|]. destruct l as [|b l]; [reflexivity|]. cbn [diffs length] in *. rewrite IH. lia. Qed.
Lemma cumul_from_length {T} (f : T -> T -> T) a l : length (cumul_from f a l) = length l.
Proof. revert a. induction l as [|b l IH]; intros a; [reflexivity|]. cbn. rewrite IH. reflexivity. Qed.
Lemma cumul_length {T} (f : T -> T -> T) l : length (cumul f l) = length l.
Proof. destruct l as [|b l]; [reflexivity|]. cbn. rewrite cumul_from_length. reflexivity. Qed.
Lemma mask_length {S T} m (l : list S) (l' : list T) : length l = length l' -> length (mask m l) = length (mask m l').
Proof.
  revert l l'. induction m as [|b m IH]; intros [|a l] [|a' l'] E; try discriminate; [reflexivity..|]. injection E as E. cbn. destruct b; cbn; rewrite (IH _ _ E); reflexivity.
Qed.
Lemma diff_alike r1 r2 : alike r1 r2 -> both alike (rel_diff A V DC r1) (rel_diff A V DC r2).
Proof.
  intros [Ex El]. unfold rel_diff. cbn [default_config c_diff differentiate_default bind fst snd]. rewrite Ex. apply make_alike.
  rewrite !map_length. unfold np_diff_val. rewrite !diffs_length, El. reflexivity.
Qed.
Lemma int_alike r1 r2 : alike r1 r2 -> both alike (rel_integrate A V DC r1) (rel_integrate A V DC r2).
Proof.
  intros [Ex El]. unfold rel_integrate. cbn [default_config c_integrate integrate_default bind fst snd]. rewrite Ex. apply make_alike.
  rewrite !map_length. unfold cum_trapz. rewrite !cumul_length, !diffs_length, El. reflexivity.
Qed.
Lemma map_alike f r1 r2 : alike r1 r2 -> both alike (rel_map A V f r1) (rel_map A V f r2).
Proof. intros [Ex El]. unfold rel_map. rewrite Ex. apply make_alike. rewrite !map_length. exact El. Qed.
Lemma select_alike s e r1 r2 : alike r1 r2 -> both alike (rel_select A V s e r1) (rel_select A V s e r2).
Proof.
  intros [Ex El]. unfold rel_select. rewrite Ex. destruct (axis_array A (r_x r2)) as [arr|z]; [|reflexivity]. cbn [bind]. cbv zeta.
  set (m := map _ arr). destruct (mask m arr) as [|x0 sel]; [reflexivity|]. rewrite El.
  destruct (Nat.eqb (length m) (length (r_y r2))); [|reflexivity]. apply make_alike. apply mask_length. exact El.
Qed.
Lemma shift_alike u r1 r2 : alike r1 r2 -> both alike (rel_shift A V u r1) (rel_shift A V u r2).
Proof. intros [Ex El]. unfold rel_shift. rewrite Ex. apply make_alike. exact El. Qed.
Lemma interp_alike nx r1 r2 : alike r1 r2 -> both alike (rel_interp A V DC nx r1) (rel_interp A V DC nx r2).
Proof.
  intros [Ex El]. unfold rel_interp. rewrite Ex. destruct (axis_array A (r_x r2)) as [arr|z]; [|reflexivity]. cbn [bind default_config c_interp].
  unfold interpolate_default, interp1d. rewrite El. destruct (Nat.eqb (length arr) (length (r_y r2))); [|reflexivity]. cbn [bind].
  destruct (axis_array A nx) as [a|z]; [|reflexivity]. cbn [bind]. apply make_alike. rewrite !map_length. reflexivity.
Qed.
Lemma equalize_alike r1 r2 q1 q2 : alike r1 r2 -> alike q1 q2 ->
  both (fun p p' => alike (fst p) (fst p') /\ alike (snd p) (snd p')) (rel_equalize A V DC false r1 q1) (rel_equalize A V DC false r2 q2).
Proof.
  intros H1 H2. unfold rel_equalize. destruct H1 as [Ex1 El1] eqn:E1, H2 as [Ex2 El2] eqn:E2. rewrite Ex1, Ex2. clear E1 E2.
  set (x := c_common_x A V DC _ _).
  pose proof (interp_alike x r1 r2 (conj Ex1 El1)) as G1. pose proof (interp_alike x q1 q2 (conj Ex2 El2)) as G2.
  destruct (rel_interp A V DC x r1) as [e1|z], (rel_interp A V DC x r2) as [e2|z']; try contradiction; [|exact G1]. cbn [bind].
  destruct (rel_interp A V DC x q1) as [f1|z], (rel_interp A V DC x q2) as [f2|z']; try contradiction; [|exact G2]. cbn [bind]. split; assumption.
Qed.
Lemma math_alike o y1 y1' y2 y2' : length y1 = length y1' -> length y2 = length y2' ->
  both (fun a b => length a = length b) (math_operation A V o y1 (OArr y2)) (math_operation A V o y1' (OArr y2')).
Proof.
  intros E1 E2. unfold math_operation. rewrite <- E1, <- E2. destruct (Nat.eqb (length y1) (length y2)) eqn:E.
  - cbn. rewrite !map2_length. congruence.
  - destruct y2 as [|b [|b2 y2]], y2' as [|b' [|b2' y2']]; try discriminate.
    + destruct y1 as [|a [|a2 y1]], y1' as [|a' [|a2' y1']]; try discriminate; cbn; reflexivity.
    + cbn. rewrite !map_length. exact E1.
    + destruct y1 as [|a [|a2 y1]], y1' as [|a' [|a2' y1']]; try discriminate; cbn; try reflexivity. cbn in E2. rewrite !map_length. congruence.
Qed.
Lemma op_alike o r1 r2 q1 q2 : alike r1 r2 -> alike q1 q2 -> both alike (rel_op A V DC o false r1 q1) (rel_op A V DC o false r2 q2).
Proof.
  intros H1 H2. unfold rel_op. pose proof (equalize_alike r1 r2 q1 q2 H1 H2) as G.
  destruct (rel_equalize A V DC false r1 q1) as [[e1 f1]|z], (rel_equalize A V DC false r2 q2) as [[e2 f2]|z']; try contradiction; [|exact G].
  cbn [bind both fst snd] in *. destruct G as [[Gx Gl] [Hx Hl]]. cbn [fst snd] in *. cbn [default_config c_math].
  pose proof (math_alike o (r_y e1) (r_y e2) (r_y f1) (r_y f2) Gl Hl) as M.
  destruct (math_operation A V o (r_y e1) (OArr (r_y f1))) as [y|z], (math_operation A V o (r_y e2) (OArr (r_y f2))) as [y'|z']; try contradiction; [|exact M].
  cbn [bind]. rewrite Gx. apply make_alike. exact M.
Qed.
Lemma op_num_alike o r1 r2 v : alike r1 r2 -> both alike (rel_op_num A V DC o r1 (OVal v)) (rel_op_num A V DC o r2 (OVal v)).
Proof. intros [Ex El]. unfold rel_op_num. cbn [default_config c_math math_operation bind]. rewrite Ex. apply make_alike. rewrite !map_length. exact El. Qed.
Lemma lagged_alike comb r1 r2 q1 q2 : alike r1 r2 -> alike q1 q2 ->
  (forall a b a' b', length a = length a' -> length b = length b' -> both (fun y y' => length y = length y') (comb a b) (comb a' b')) ->
  both alike (rel_lagged A V DC comb r1 q1) (rel_lagged A V DC comb r2 q2).
Proof.
  intros H1 H2 Hc. unfold rel_lagged. rewrite (proj1 H1), (proj1 H2).
  pose proof (shift_alike (n_opp A (a_start (r_x r2))) r1 r2 H1) as G1. pose proof (shift_alike (n_opp A (a_start (r_x q2))) q1 q2 H2) as G2.
  destruct (rel_shift A V _ r1) as [s1|z], (rel_shift A V _ r2) as [s2|z']; try contradiction; [|exact G1]. cbn [bind].
  destruct (rel_shift A V _ q1) as [t1|z], (rel_shift A V _ q2) as [t2|z']; try contradiction; [|exact G2]. cbn [bind].
  pose proof (equalize_alike s1 s2 t1 t2 G1 G2) as G.
  destruct (rel_equalize A V DC false s1 t1) as [[e1 f1]|z], (rel_equalize A V DC false s2 t2) as [[e2 f2]|z']; try contradiction; [|exact G].
  cbn [bind both fst snd] in *. destruct G as [[Gx Gl] [Hx Hl]]. cbn [fst snd] in *. cbv zeta. pose proof (Hc _ _ _ _ Gl Hl) as M.
  destruct (comb (r_y e1) (r_y f1)) as [y|z], (comb (r_y e2) (r_y f2)) as [y'|z']; try contradiction; [|exact M].
  cbn [bind]. rewrite Gx. apply make_alike. exact M.
Qed.
Lemma convolve_alike a b a' b' : length a = length a' -> length b = length b' -> both (fun y y' => length y = length y') (np_convolve A V a b) (np_convolve A V a' b').
Proof.
  intros E1 E2. unfold np_convolve, convolve_full. destruct a as [|u a], a' as [|u' a']; try discriminate; [reflexivity|].
  destruct b as [|w b], b' as [|w' b']; try discriminate; [reflexivity|]. cbn [both]. rewrite !map_length, !seq_length, E1, E2. reflexivity.
Qed.
Lemma correlate_alike a b a' b' : length a = length a' -> length b = length b' -> both (fun y y' => length y = length y') (np_correlate A V a b) (np_correlate A V a' b').
Proof. intros E1 E2. unfold np_correlate. apply convolve_alike; [exact E1|]. rewrite !rev_length, !map_length. exact E2. Qed.

(** expressions and programs *)
Definition both_ran {T} (P : T -> T -> Prop) (a b : ran T) : Prop :=
  match a, b with inl x, inl y => P x y | inr e, inr e' => e = e' | _, _ => False end.
Lemma raised_both (a b : result rel) : both alike a b -> both_ran alike (raised a) (raised b).
Proof. destruct a, b; cbn; intros H; try contradiction; [exact H|rewrite H; reflexivity]. Qed.
Lemma meth_alike m r1 r2 : alike r1 r2 -> both alike (v_meth A V F DC m r1) (v_meth A V F DC m r2).
Proof.
  intros H. destruct m; cbn [v_meth]; [apply diff_alike|apply int_alike|apply map_alike|apply select_alike|apply shift_alike]; exact H.
Qed.
Lemma eval_alike e s1 s2 : alike_env A V s1 s2 -> both_ran alike (v_eval A V F DC s1 e) (v_eval A V F DC s2 e).
Proof.
  intros Hs. induction e as [x|o e1 IH1 e2 IH2|o e IH v|m e IH]; cbn [v_eval].
  - specialize (Hs x). destruct (s1 x), (s2 x); try contradiction; [exact Hs|reflexivity].
  - destruct (v_eval A V F DC s1 e1) as [r1|z], (v_eval A V F DC s2 e1) as [r2|z']; try contradiction; [|exact IH1].
    destruct (v_eval A V F DC s1 e2) as [q1|z], (v_eval A V F DC s2 e2) as [q2|z']; try contradiction; [|exact IH2].
    apply raised_both, op_alike; assumption.
  - destruct (v_eval A V F DC s1 e) as [r1|z], (v_eval A V F DC s2 e) as [r2|z']; try contradiction; [|exact IH].
    apply raised_both, op_num_alike; assumption.
  - destruct (v_eval A V F DC s1 e) as [r1|z], (v_eval A V F DC s2 e) as [r2|z']; try contradiction; [|exact IH].
    apply raised_both, meth_alike; assumption.
Qed.
End Shapes.


Section ShapePrograms.
Context {A : Arith} {V : Vals A} (F : vfun A V).
Notation DC := (default_config A V).
Lemma bind_alike x s1 s2 a b : alike_env A V s1 s2 -> both_ran (alike A V) a b ->
  snd (v_bind A V x s1 a) = snd (v_bind A V x s2 b) /\ alike_env A V (fst (v_bind A V x s1 a)) (fst (v_bind A V x s2 b)).
Proof.
  intros Hs H. destruct a as [r1|z], b as [r2|z']; try contradiction; cbn; [split; [reflexivity|]|split; [rewrite H; reflexivity|exact Hs]].
  intros y. unfold bind_name. destruct (Nat.eqb y x); [exact H|apply Hs].
Qed.
Lemma exec_alike p : forall s1 s2, alike_env A V s1 s2 ->
  snd (v_exec A V F DC p s1) = snd (v_exec A V F DC p s2) /\ alike_env A V (fst (v_exec A V F DC p s1)) (fst (v_exec A V F DC p s2)).
Proof.
  induction p as [x e|x o e|x o v|n b IH| |p IHp q IHq]; intros s1 s2 Hs; cbn [v_exec].
  - apply bind_alike; [exact Hs|]. apply eval_alike. exact Hs.
  - apply bind_alike; [exact Hs|]. apply eval_alike. exact Hs.
  - apply bind_alike; [exact Hs|]. apply eval_alike. exact Hs.
  - cut (forall n (a a' : env (rel A V) * option stop), snd a = snd a' -> alike_env A V (fst a) (fst a') ->
      snd (loop n (fun st => v_exec A V F DC b (fst st)) is_stopped a) = snd (loop n (fun st => v_exec A V F DC b (fst st)) is_stopped a') /\
      alike_env A V (fst (loop n (fun st => v_exec A V F DC b (fst st)) is_stopped a)) (fst (loop n (fun st => v_exec A V F DC b (fst st)) is_stopped a'))).
    { intros G. apply (G n (s1, None) (s2, None) eq_refl Hs). }
    clear n s1 s2 Hs. induction n as [|n IHn]; intros a a' Ea R; cbn [loop]; [split; assumption|].
    destruct (IH _ _ R) as [E1 R1]. unfold is_stopped at 1 3 5 7. rewrite E1.
    destruct (snd (v_exec A V F DC b (fst a'))) eqn:Es; [split; [congruence|exact R1]|]. apply IHn; [congruence|exact R1].
  - split; [reflexivity|exact Hs].
  - destruct (IHp s1 s2 Hs) as [E1 R1]. unfold is_stopped. rewrite E1.
    destruct (snd (v_exec A V F DC p s2)) eqn:Es; [split; [congruence|exact R1]|]. apply IHq. exact R1.
Qed.
End ShapePrograms.

(** *** superposition, for real and complex samples *)
Local Open Scope R_scope.
Section Mix.
Context {V : Vals RA} (L : VLaws V) (F : vfun RA V) (a b : val V).
Notation rel := (rel RA V).
Notation DC := (default_config RA V).
Notation alike := (alike RA V).
Notation mix := (mix RA V a b).
Notation res_mix := (res_mix RA V a b).
Add Field VfieldL : (vl_field V L).
Definition lin (u v : val V) : val V := v_add V (v_mul V a u) (v_mul V b v).

Lemma div_inv u w : v_div V u w = v_mul V u (v_div V (v_of V 1) w).
Proof. exact (Fdiv_def (vl_field V L) u w). Qed.
Lemma lin_add u v u' v' : v_add V (lin u v) (lin u' v') = lin (v_add V u u') (v_add V v v').
Proof. unfold lin. ring. Qed.
Lemma lin_sub u v u' v' : v_sub V (lin u v) (lin u' v') = lin (v_sub V u u') (v_sub V v v').
Proof. unfold lin. ring. Qed.
Lemma lin_mul u v w : v_mul V (lin u v) w = lin (v_mul V u w) (v_mul V v w).
Proof. unfold lin. ring. Qed.
Lemma lin_rmul u v w : v_mul V w (lin u v) = lin (v_mul V w u) (v_mul V w v).
Proof. unfold lin. ring. Qed.
Lemma lin_div u v w : v_div V (lin u v) w = lin (v_div V u w) (v_div V v w).
Proof.
  unfold lin. rewrite (div_inv (v_add V (v_mul V a u) (v_mul V b v)) w), (div_inv u w), (div_inv v w).
  generalize (v_div V (v_of V 1) w). intros i. ring.
Qed.
Lemma lin_0 : lin (v_of V 0) (v_of V 0) = v_of V 0.
Proof. unfold lin. ring. Qed.
Lemma lin_num o u v w : linear_num o = true -> op_apply RA V o (lin u v) w = lin (op_apply RA V o u w) (op_apply RA V o v w).
Proof. destruct o; intros E; try discriminate; cbn [op_apply]; [apply lin_mul|apply lin_rmul|apply lin_div]. Qed.
Lemma lin_bin o u v u' v' : linear_bin o = true -> op_apply RA V o (lin u v) (lin u' v') = lin (op_apply RA V o u u') (op_apply RA V o v v').
Proof. destruct o; intros E; try discriminate; cbn [op_apply]; [apply lin_add|apply lin_add|apply lin_sub|apply lin_sub]. Qed.

Lemma map_mix f y1 y2 : (forall u v, f (lin u v) = lin (f u) (f v)) -> map f (map2 lin y1 y2) = map2 lin (map f y1) (map f y2).
Proof. intros Hf. revert y2. induction y1 as [|u y1 IH]; intros [|v y2]; [reflexivity..|]. cbn. rewrite Hf, IH. reflexivity. Qed.
Lemma map2_mix f y1 y2 : forall w1 w2, length y1 = length y2 -> length w1 = length w2 ->
  (forall u v u' v', f (lin u v) (lin u' v') = lin (f u u') (f v v')) ->
  map2 f (map2 lin y1 y2) (map2 lin w1 w2) = map2 lin (map2 f y1 w1) (map2 f y2 w2).
Proof.
  revert y2. induction y1 as [|u y1 IH]; intros [|v y2] w1 w2 E1 E2 Hf; try discriminate; [reflexivity|].
  destruct w1 as [|u' w1], w2 as [|v' w2]; try discriminate; [reflexivity|]. cbn. rewrite Hf, IH; auto.
Qed.
Lemma diffs_mix f y1 : forall y2, length y1 = length y2 ->
  (forall u v u' v', f (lin u v) (lin u' v') = lin (f u u') (f v v')) ->
  diffs f (map2 lin y1 y2) = map2 lin (diffs f y1) (diffs f y2).
Proof.
  induction y1 as [|u y1 IH]; intros [|v y2] E Hf; try discriminate; [reflexivity|]. injection E as E.
  destruct y1 as [|u' y1], y2 as [|v' y2]; try discriminate; [reflexivity|]. specialize (IH (v' :: y2) E Hf).
  cbn [map2 diffs] in *. rewrite Hf. f_equal. exact IH.
Qed.
Lemma cumul_from_mix y1 : forall y2 u v, length y1 = length y2 ->
  cumul_from (v_add V) (lin u v) (map2 lin y1 y2) = map2 lin (cumul_from (v_add V) u y1) (cumul_from (v_add V) v y2).
Proof.
  induction y1 as [|u' y1 IH]; intros [|v' y2] u v E; try discriminate; [reflexivity|]. injection E as E. cbn [map2 cumul_from].
  rewrite lin_add. f_equal. apply IH. exact E.
Qed.
Lemma cumul_mix y1 y2 : length y1 = length y2 -> cumul (v_add V) (map2 lin y1 y2) = map2 lin (cumul (v_add V) y1) (cumul (v_add V) y2).
Proof.
  destruct y1 as [|u y1], y2 as [|v y2]; intros E; try discriminate; [reflexivity|]. injection E as E. cbn [map2 cumul]. f_equal.
  apply cumul_from_mix. exact E.
Qed.
Lemma cum_trapz_mix y1 y2 : length y1 = length y2 -> cum_trapz RA V (map2 lin y1 y2) = map2 lin (cum_trapz RA V y1) (cum_trapz RA V y2).
Proof.
  intros E. unfold cum_trapz. rewrite diffs_mix; [|exact E|]. { apply cumul_mix. rewrite !diffs_length, E. reflexivity. }
  intros u v u' v'. rewrite lin_add. apply lin_div.
Qed.
Lemma mask_mix m y1 y2 : mask m (map2 lin y1 y2) = map2 lin (mask m y1) (mask m y2).
Proof.
  revert y1 y2. induction m as [|c m IH]; intros y1 y2; [reflexivity|]. destruct y1 as [|u y1]; [reflexivity|].
  destruct y2 as [|v y2]. { cbn. destruct c; cbn; [reflexivity|]. destruct (mask m y1); reflexivity. }
  cbn. destruct c; cbn; rewrite IH; reflexivity.
Qed.

Lemma make_mix (x : axis RA) y1 y2 : length y1 = length y2 -> rel_make RA V x (map2 lin y1 y2) = res_mix (rel_make RA V x y1) (rel_make RA V x y2).
Proof.
  intros E. unfold rel_make. rewrite map2_length, <- E, Nat.min_id. destruct (axis_size RA x) as [n|e]; [|reflexivity]. cbn [bind].
  destruct (Nat.eqb n (length y1)); reflexivity.
Qed.
Lemma diff_mix r1 r2 : alike r1 r2 -> rel_diff RA V DC (mix r1 r2) = res_mix (rel_diff RA V DC r1) (rel_diff RA V DC r2).
Proof.
  intros [Ex El]. rewrite !rel_diff_eq, <- Ex. change (r_x (mix r1 r2)) with (r_x r1).
  rewrite <- make_mix by (rewrite !map_length; unfold np_diff_val; rewrite !diffs_length, El; reflexivity). f_equal.
  change (r_y (mix r1 r2)) with (map2 lin (r_y r1) (r_y r2)). unfold np_diff_val. rewrite diffs_mix; [|exact El|exact lin_sub].
  apply map_mix. intros u v. apply lin_div.
Qed.
Lemma int_mix r1 r2 : alike r1 r2 -> rel_integrate RA V DC (mix r1 r2) = res_mix (rel_integrate RA V DC r1) (rel_integrate RA V DC r2).
Proof.
  intros [Ex El]. rewrite !rel_int_eq, <- Ex. change (r_x (mix r1 r2)) with (r_x r1).
  rewrite <- make_mix by (rewrite !map_length; unfold cum_trapz; rewrite !cumul_length, !diffs_length, El; reflexivity). f_equal.
  change (r_y (mix r1 r2)) with (map2 lin (r_y r1) (r_y r2)). rewrite cum_trapz_mix by exact El. apply map_mix. intros u v. apply lin_mul.
Qed.
Lemma select_mix s e r1 r2 : alike r1 r2 -> rel_select RA V s e (mix r1 r2) = res_mix (rel_select RA V s e r1) (rel_select RA V s e r2).
Proof.
  intros [Ex El]. unfold rel_select. change (r_x (mix r1 r2)) with (r_x r1). change (r_y (mix r1 r2)) with (map2 lin (r_y r1) (r_y r2)).
  rewrite <- Ex. destruct (axis_array RA (r_x r1)) as [arr|z]; [|reflexivity]. cbn [bind]. cbv zeta.
  set (m := map _ arr). destruct (mask m arr) as [|x0 sel]; [reflexivity|]. rewrite map2_length, <- El, Nat.min_id.
  destruct (Nat.eqb (length m) (length (r_y r1))); [|reflexivity]. rewrite mask_mix. apply make_mix. apply mask_length. exact El.
Qed.
Lemma shift_mix u r1 r2 : alike r1 r2 -> rel_shift RA V u (mix r1 r2) = res_mix (rel_shift RA V u r1) (rel_shift RA V u r2).
Proof. intros [Ex El]. unfold rel_shift. rewrite <- Ex. apply make_mix. exact El. Qed.
Lemma op_num_mix o w r1 r2 : linear_num o = true -> alike r1 r2 ->
  rel_op_num RA V DC o (mix r1 r2) (OVal w) = res_mix (rel_op_num RA V DC o r1 (OVal w)) (rel_op_num RA V DC o r2 (OVal w)).
Proof.
  intros Ho [Ex El]. unfold rel_op_num. cbn [default_config c_math math_operation bind]. rewrite <- Ex.
  rewrite <- make_mix by (rewrite !map_length; exact El). f_equal.
  change (r_y (mix r1 r2)) with (map2 lin (r_y r1) (r_y r2)). apply map_mix. intros u v. apply lin_num. exact Ho.
Qed.

(** interpolation: points with two ordinates *)
Notation pt2 := (R * (val V * val V))%type.
Definition o1 (p : pt2) : R * val V := (fst p, fst (snd p)).
Definition o2 (p : pt2) : R * val V := (fst p, snd (snd p)).
Definition ol (p : pt2) : R * val V := (fst p, lin (fst (snd p)) (snd (snd p))).
Fixpoint ins2 (p : pt2) (l : list pt2) : list pt2 :=
  match l with [] => [p] | q :: t => if Rltb (fst q) (fst p) then q :: ins2 p t else p :: l end.
Definition sort2 (l : list pt2) : list pt2 := fold_right ins2 [] l.
Lemma sort2_map (g : pt2 -> R * val V) (l : list pt2) : (forall p, fst (g p) = fst p) -> sort_pts RA V (map g l) = map g (sort2 l).
Proof.
  intros Hg. assert (I : forall p m, insert_pt RA V (g p) (map g m) = map g (ins2 p m)).
  { intros p. induction m as [|q m IH]; [reflexivity|]. cbn [map insert_pt ins2 RA n_lt]. rr. rewrite !Hg.
    destruct (Rltb (fst q) (fst p)); [|reflexivity]. cbn [map]. f_equal. exact IH. }
  induction l as [|p l IH]; [reflexivity|]. unfold sort_pts, sort2 in *. cbn [map fold_right]. rewrite IH. apply I.
Qed.
Lemma interp_in_mix (l : list pt2) (x : R) : interp_in RA V (map ol l) x = lin (interp_in RA V (map o1 l) x) (interp_in RA V (map o2 l) x).
Proof.
  induction l as [|[x0 [u0 v0]] l IH]; [symmetry; exact lin_0|]. destruct l as [|[x1 [u1 v1]] l]; [reflexivity|].
  change (interp_in RA V (map ol ((x0, (u0, v0)) :: (x1, (u1, v1)) :: l)) x) with
    (if Rltb x x1 then if Reqb x0 x then lin u0 v0
       else v_add V (v_mul V (v_div V (v_sub V (lin u1 v1) (lin u0 v0)) (v_of V (x1 - x0))) (v_of V (x - x0))) (lin u0 v0)
     else interp_in RA V (map ol ((x1, (u1, v1)) :: l)) x).
  change (interp_in RA V (map o1 ((x0, (u0, v0)) :: (x1, (u1, v1)) :: l)) x) with
    (if Rltb x x1 then if Reqb x0 x then u0 else v_add V (v_mul V (v_div V (v_sub V u1 u0) (v_of V (x1 - x0))) (v_of V (x - x0))) u0
     else interp_in RA V (map o1 ((x1, (u1, v1)) :: l)) x).
  change (interp_in RA V (map o2 ((x0, (u0, v0)) :: (x1, (u1, v1)) :: l)) x) with
    (if Rltb x x1 then if Reqb x0 x then v0 else v_add V (v_mul V (v_div V (v_sub V v1 v0) (v_of V (x1 - x0))) (v_of V (x - x0))) v0
     else interp_in RA V (map o2 ((x1, (u1, v1)) :: l)) x).
  destruct (Rltb x x1); [|exact IH]. destruct (Reqb x0 x); [reflexivity|]. rewrite lin_sub, lin_div, lin_mul, lin_add. reflexivity.
Qed.
Lemma last_fst (g : pt2 -> R * val V) (l : list pt2) p q : (forall p, fst (g p) = fst p) -> fst p = fst q -> fst (last (map g l) p) = fst (last l q).
Proof.
  intros Hg E. induction l as [|w l IH]; [exact E|]. destruct l as [|w' l]; [apply Hg|]. exact IH.
Qed.
Lemma interp_at_mix (l : list pt2) (x : R) : interp_at RA V (map ol l) x = lin (interp_at RA V (map o1 l) x) (interp_at RA V (map o2 l) x).
Proof.
  destruct l as [|[x0 [u0 v0]] l]; [symmetry; exact lin_0|]. set (m := (x0, (u0, v0)) :: l).
  assert (G : forall g : pt2 -> R * val V, (forall p, fst (g p) = fst p) ->
    interp_at RA V (map g m) x = if Rltb x x0 || Rltb (fst (last m (x, (u0, v0)))) x then v_of V 0 else interp_in RA V (map g m) x).
  { intros g Hg. rewrite <- (last_fst g m (x, v_of V 0) (x, (u0, v0)) Hg eq_refl).
    assert (E : map g m = (x0, snd (g (x0, (u0, v0)))) :: map g l).
    { unfold m. cbn [map]. f_equal. rewrite (surjective_pairing (g (x0, (u0, v0)))) at 1. rewrite Hg. reflexivity. }
    rewrite E. reflexivity. }
  rewrite !G by reflexivity. destruct (Rltb x x0 || Rltb (fst (last m (x, (u0, v0)))) x); [symmetry; exact lin_0|]. apply interp_in_mix.
Qed.
Lemma combine_mix (xs : list R) y1 y2 : length y1 = length y2 ->
  combine xs (map2 lin y1 y2) = map ol (combine xs (combine y1 y2)) /\
  combine xs y1 = map o1 (combine xs (combine y1 y2)) /\ combine xs y2 = map o2 (combine xs (combine y1 y2)).
Proof.
  revert y1 y2. induction xs as [|x xs IH]; intros y1 y2 E; [auto|]. destruct y1 as [|u y1], y2 as [|v y2]; try discriminate; [auto|].
  injection E as E. destruct (IH _ _ E) as (E1 & E2 & E3). cbn [map2 combine map]. rewrite E1, E2, E3. auto.
Qed.
Lemma map_map2 {S} (f g : S -> val V) l : map (fun t => lin (f t) (g t)) l = map2 lin (map f l) (map g l).
Proof. induction l as [|t l IH]; [reflexivity|]. cbn. rewrite IH. reflexivity. Qed.
Lemma interp_mix nx r1 r2 : alike r1 r2 -> rel_interp RA V DC nx (mix r1 r2) = res_mix (rel_interp RA V DC nx r1) (rel_interp RA V DC nx r2).
Proof.
  intros [Ex El]. unfold rel_interp. change (r_x (mix r1 r2)) with (r_x r1). change (r_y (mix r1 r2)) with (map2 lin (r_y r1) (r_y r2)).
  rewrite <- Ex. destruct (axis_array RA (r_x r1)) as [xs|z]; [|reflexivity]. cbn [bind default_config c_interp].
  unfold interpolate_default, interp1d. rewrite map2_length, <- El, Nat.min_id. destruct (Nat.eqb (length xs) (length (r_y r1))); [|reflexivity]. cbn [bind].
  destruct (axis_array RA nx) as [arr|z]; [|reflexivity]. cbn [bind]. rewrite <- make_mix by (rewrite !map_length; reflexivity). f_equal.
  rewrite <- map_map2. apply map_ext. intros t. destruct (combine_mix xs (r_y r1) (r_y r2) El) as (E1 & E2 & E3).
  rr. rewrite E1, E2, E3. change (num RA) with R. rewrite (sort2_map ol _ (fun p => eq_refl)), (sort2_map o1 _ (fun p => eq_refl)), (sort2_map o2 _ (fun p => eq_refl)).
  apply interp_at_mix.
Qed.

Definition pair_mix (p q : rel * rel) : rel * rel := (mix (fst p) (fst q), mix (snd p) (snd q)).
Definition res_pair_mix (p q : result (rel * rel)) : result (rel * rel) :=
  match p, q with Ok x, Ok y => Ok (pair_mix x y) | Err e, _ => Err e | _, Err e => Err e end.
Lemma equalize_mix r1 r2 q1 q2 : alike r1 r2 -> alike q1 q2 ->
  rel_equalize RA V DC false (mix r1 r2) (mix q1 q2) = res_pair_mix (rel_equalize RA V DC false r1 q1) (rel_equalize RA V DC false r2 q2).
Proof.
  intros H1 H2. unfold rel_equalize. change (r_x (mix r1 r2)) with (r_x r1). change (r_x (mix q1 q2)) with (r_x q1).
  rewrite <- (proj1 H1), <- (proj1 H2). set (x := c_common_x RA V DC _ _). rewrite (interp_mix x _ _ H1), (interp_mix x _ _ H2).
  pose proof (interp_alike x _ _ H1) as G1. pose proof (interp_alike x _ _ H2) as G2.
  destruct (rel_interp RA V DC x r1) as [e1|z], (rel_interp RA V DC x r2) as [e2|z']; try contradiction; [|reflexivity]. cbn [bind res_mix].
  destruct (rel_interp RA V DC x q1) as [f1|z], (rel_interp RA V DC x q2) as [f2|z']; try contradiction; reflexivity.
Qed.
Lemma equalized_lengths r q e f : rel_equalize RA V DC false r q = Ok (e, f) -> length (r_y e) = length (r_y f) /\ r_x e = r_x f.
Proof.
  unfold rel_equalize. set (x := c_common_x RA V DC _ _). unfold rel_interp, rel_make.
  destruct (axis_array RA (r_x r)) as [xs|z]; [|discriminate]. cbn [bind]. destruct (c_interp RA V DC xs (r_y r) x) as [y|z]; [|discriminate]. cbn [bind].
  destruct (axis_size RA x) as [n|z]; [|discriminate]. cbn [bind]. destruct (Nat.eqb_spec n (length y)) as [E1|]; [|discriminate]. cbn [bind].
  destruct (axis_array RA (r_x q)) as [xs'|z]; [|discriminate]. cbn [bind]. destruct (c_interp RA V DC xs' (r_y q) x) as [y'|z]; [|discriminate]. cbn [bind].
  destruct (Nat.eqb_spec n (length y')) as [E2|]; [|discriminate]. cbn [bind]. intros E. injection E as <- <-. cbn. split; [congruence|reflexivity].
Qed.
Lemma op_mix o r1 r2 q1 q2 : linear_bin o = true -> alike r1 r2 -> alike q1 q2 ->
  rel_op RA V DC o false (mix r1 r2) (mix q1 q2) = res_mix (rel_op RA V DC o false r1 q1) (rel_op RA V DC o false r2 q2).
Proof.
  intros Ho H1 H2. unfold rel_op. rewrite (equalize_mix _ _ _ _ H1 H2). pose proof (equalize_alike _ _ _ _ H1 H2) as G.
  destruct (rel_equalize RA V DC false r1 q1) as [[e1 f1]|z] eqn:E1, (rel_equalize RA V DC false r2 q2) as [[e2 f2]|z'] eqn:E2; try contradiction; [|reflexivity].
  apply equalized_lengths in E1, E2. cbn [bind both fst snd res_pair_mix pair_mix] in *. destruct G as [[Gx Gl] [Hx Hl]]. cbn [fst snd default_config c_math] in *.
  destruct E1 as [E1 _], E2 as [E2 _]. unfold math_operation. change (r_y (mix e1 e2)) with (map2 lin (r_y e1) (r_y e2)).
  change (r_y (mix f1 f2)) with (map2 lin (r_y f1) (r_y f2)). 
  replace (Nat.eqb (length (map2 lin (r_y e1) (r_y e2))) (length (map2 lin (r_y f1) (r_y f2)))) with true
    by (symmetry; apply Nat.eqb_eq; rewrite !map2_length; congruence).
  rewrite E1, E2, !Nat.eqb_refl. cbn [bind]. change (r_x (mix e1 e2)) with (r_x e1). rewrite <- Gx.
  rewrite <- make_mix by (rewrite !map2_length; congruence). f_equal. apply map2_mix; [exact Gl|exact Hl|]. intros u v u' v'. apply lin_bin. exact Ho.
Qed.
End Mix.

Section MixPrograms.
Context {V : Vals RA} (L : VLaws V) (F : vfun RA V) (a b : val V).
Notation rel := (rel RA V).
Notation DC := (default_config RA V).
Notation alike := (alike RA V).
Notation mix := (mix RA V a b).
Definition ran_mix (r q : ran rel) : ran rel := match r, q with inl x, inl y => inl (mix x y) | inr z, _ => inr z | _, inr z => inr z end.
Lemma raised_mix r q : raised (res_mix RA V a b r q) = ran_mix (raised r) (raised q).
Proof. destruct r, q; reflexivity. Qed.
Lemma eval_mix e s1 s2 : linear_e RA V e = true -> alike_env RA V s1 s2 ->
  v_eval RA V F DC (mix_env RA V a b s1 s2) e = ran_mix (v_eval RA V F DC s1 e) (v_eval RA V F DC s2 e).
Proof.
  intros He Hs. induction e as [x|o e1 IH1 e2 IH2|o e IH v|m e IH]; cbn [v_eval linear_e] in *.
  - specialize (Hs x). unfold mix_env. destruct (s1 x), (s2 x); try contradiction; reflexivity.
  - apply andb_prop in He. destruct He as [He He2]. apply andb_prop in He. destruct He as [Ho He1].
    rewrite (IH1 He1), (IH2 He2). pose proof (eval_alike F e1 s1 s2 Hs) as G1. pose proof (eval_alike F e2 s1 s2 Hs) as G2.
    destruct (v_eval RA V F DC s1 e1) as [r1|z], (v_eval RA V F DC s2 e1) as [r2|z']; try contradiction; [|reflexivity]. cbn [ran_mix].
    destruct (v_eval RA V F DC s1 e2) as [q1|z], (v_eval RA V F DC s2 e2) as [q2|z']; try contradiction; [|reflexivity]. cbn [ran_mix].
    rewrite (op_mix L a b o _ _ _ _ Ho G1 G2). apply raised_mix.
  - apply andb_prop in He. destruct He as [Ho He]. rewrite (IH He). pose proof (eval_alike F e s1 s2 Hs) as G.
    destruct (v_eval RA V F DC s1 e) as [r1|z], (v_eval RA V F DC s2 e) as [r2|z']; try contradiction; [|reflexivity]. cbn [ran_mix].
    rewrite (op_num_mix L a b o v _ _ Ho G). apply raised_mix.
  - assert (He' : linear_e RA V e = true) by (destruct m; try exact He; discriminate). rewrite (IH He').
    pose proof (eval_alike F e s1 s2 Hs) as G.
    destruct (v_eval RA V F DC s1 e) as [r1|z], (v_eval RA V F DC s2 e) as [r2|z']; try contradiction; [|reflexivity]. cbn [ran_mix].
    rewrite <- raised_mix. f_equal. destruct m; cbn [v_meth]; [apply (diff_mix L)|apply (int_mix L)|discriminate|apply select_mix|apply shift_mix]; exact G.
Qed.
Lemma bind_mix x s1 s2 r q (s : env rel) : both_ran alike r q -> (forall y, s y = mix_env RA V a b s1 s2 y) ->
  snd (v_bind RA V x s (ran_mix r q)) = snd (v_bind RA V x s1 r) /\
  forall y, fst (v_bind RA V x s (ran_mix r q)) y = mix_env RA V a b (fst (v_bind RA V x s1 r)) (fst (v_bind RA V x s2 q)) y.
Proof.
  intros H Hs. destruct r as [r1|z], q as [r2|z']; try contradiction; cbn; split; try reflexivity; [|exact Hs].
  intros y. unfold bind_name, mix_env. destruct (Nat.eqb y x); [reflexivity|apply Hs].
Qed.
Lemma eval_ext e (s s' : env rel) : (forall y, s y = s' y) -> v_eval RA V F DC s e = v_eval RA V F DC s' e.
Proof.
  intros Hs. induction e as [x|o e1 IH1 e2 IH2|o e IH v|m e IH]; cbn [v_eval].
  - rewrite Hs. reflexivity.
  - rewrite IH1, IH2. reflexivity.
  - rewrite IH. reflexivity.
  - rewrite IH. reflexivity.
Qed.
Lemma exec_mix p : linear_p RA V p = true -> forall s1 s2 s, alike_env RA V s1 s2 -> (forall y, s y = mix_env RA V a b s1 s2 y) ->
  snd (v_exec RA V F DC p s) = snd (v_exec RA V F DC p s1) /\
  forall y, fst (v_exec RA V F DC p s) y = mix_env RA V a b (fst (v_exec RA V F DC p s1)) (fst (v_exec RA V F DC p s2)) y.
Proof.
  assert (B : forall x e, linear_e RA V e = true -> forall s1 s2 s, alike_env RA V s1 s2 -> (forall y, s y = mix_env RA V a b s1 s2 y) ->
    snd (v_bind RA V x s (v_eval RA V F DC s e)) = snd (v_bind RA V x s1 (v_eval RA V F DC s1 e)) /\
    forall y, fst (v_bind RA V x s (v_eval RA V F DC s e)) y
      = mix_env RA V a b (fst (v_bind RA V x s1 (v_eval RA V F DC s1 e))) (fst (v_bind RA V x s2 (v_eval RA V F DC s2 e))) y).
  { intros x e He s1 s2 s Hs Es. rewrite (eval_ext e _ _ Es), (eval_mix e s1 s2 He Hs). apply bind_mix; [apply eval_alike; exact Hs|exact Es]. }
  induction p as [x e|x o e|x o v|n p IH| |p IHp q IHq]; intros Hp s1 s2 s Hs Es; cbn [v_exec linear_p] in *.
  - apply B; assumption.
  - apply B; [|exact Hs|exact Es]. cbn [linear_e]. apply andb_prop in Hp. destruct Hp as [-> ->]. reflexivity.
  - apply B; [|exact Hs|exact Es]. cbn [linear_e]. rewrite Hp. reflexivity.
  - cut (forall n (t1 t2 t : env rel * option stop), snd t = snd t1 -> alike_env RA V (fst t1) (fst t2) ->
      (forall y, fst t y = mix_env RA V a b (fst t1) (fst t2) y) -> snd t1 = snd t2 ->
      let f := fun st => v_exec RA V F DC p (fst st) in
      snd (loop n f is_stopped t) = snd (loop n f is_stopped t1) /\
      forall y, fst (loop n f is_stopped t) y = mix_env RA V a b (fst (loop n f is_stopped t1)) (fst (loop n f is_stopped t2)) y).
    { intros G. apply (G n (s1, None) (s2, None) (s, None) eq_refl Hs Es eq_refl). }
    clear n s1 s2 s Hs Es. induction n as [|n IHn]; intros t1 t2 t E R M E12; cbn [loop]; [split; assumption|].
    destruct (IH Hp (fst t1) (fst t2) (fst t) R M) as [E1 M1]. destruct (exec_alike F p (fst t1) (fst t2) R) as [E2 R2].
    unfold is_stopped at 1 3 5 7 9. rewrite E1, <- E2.
    destruct (snd (v_exec RA V F DC p (fst t1))) eqn:Ez; [split; [congruence|exact M1]|]. apply IHn; [congruence|exact R2|exact M1|congruence].
  - split; [reflexivity|exact Es].
  - apply andb_prop in Hp. destruct Hp as [Hp Hq]. destruct (IHp Hp s1 s2 s Hs Es) as [E1 M1]. destruct (exec_alike F p s1 s2 Hs) as [E2 R2].
    unfold is_stopped. rewrite E1, <- E2. destruct (snd (v_exec RA V F DC p s1)) eqn:Ez; [split; [congruence|exact M1]|]. apply IHq; assumption.
Qed.
End MixPrograms.
