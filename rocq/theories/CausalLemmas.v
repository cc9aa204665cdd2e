(** Proofs for C89: which samples a result depends on. *)
From Coq Require Import Reals ZArith List Bool Lia Lra.
From Verif Require Import PreparedSpec Num Numpy Spec AxisModel RelModel RLemmas RelLemmas RelLemmas2 InterpLemmas CorrLemmas LinSpec LinLemmas CausalSpec SweepModel SweepSpec SweepLemmas AxisLemmas PreparedLemmas7 PreparedSpec.
Import ListNotations.

(** ** lists *)
Lemma upto_map {S T} (f : S -> T) m l l' : upto m l l' -> upto m (map f l) (map f l').
Proof. intros H i Hi. rewrite !nth_error_map, (H i Hi). reflexivity. Qed.
Lemma upto_cons {T} m (a : T) l l' : upto m l l' -> upto (S m) (a :: l) (a :: l').
Proof. intros H [|i] Hi; [reflexivity|]. apply H. lia. Qed.
Lemma upto_tl {T} m (a a' : T) l l' : upto (S m) (a :: l) (a' :: l') -> a = a' /\ upto m l l'.
Proof. intros H. split; [specialize (H 0%nat); cbn in H; assert (X : Some a = Some a') by (apply H; lia); congruence|]. intros i Hi. apply (H (S i)). lia. Qed.
Lemma upto_le {T} k m (l l' : list T) : (k <= m)%nat -> upto m l l' -> upto k l l'.
Proof. intros E H i Hi. apply H. lia. Qed.
Lemma map2_get {S T U} (f : S -> T -> U) l1 : forall l2 i, nth_error (map2 f l1 l2) i =
  match nth_error l1 i, nth_error l2 i with Some a, Some b => Some (f a b) | _, _ => None end.
Proof.
  induction l1 as [|a l1 IH]; intros [|b l2] [|i]; cbn; try reflexivity.
  - destruct (nth_error l1 i); reflexivity.
  - apply IH.
Qed.
Lemma upto_map2 {S T U} (f : S -> T -> U) m l1 l1' l2 l2' : upto m l1 l1' -> upto m l2 l2' -> upto m (map2 f l1 l2) (map2 f l1' l2').
Proof. intros H1 H2 i Hi. rewrite !map2_get, (H1 i Hi), (H2 i Hi). reflexivity. Qed.
Lemma diffs_nth {U T} (f : U -> U -> T) l : forall i, nth_error (diffs f l) i =
  match nth_error l i, nth_error l (S i) with Some a, Some b => Some (f b a) | _, _ => None end.
Proof.
  induction l as [|a l IH]; intros i; [destruct i; reflexivity|]. destruct l as [|b l].
  - destruct i as [|[|i]]; reflexivity.
  - destruct i as [|i]; [reflexivity|]. change (nth_error (diffs f (a :: b :: l)) (S i)) with (nth_error (diffs f (b :: l)) i). apply IH.
Qed.
Lemma upto_diffs {U T} (f : U -> U -> T) m l l' : upto (Datatypes.S m) l l' -> upto m (diffs f l) (diffs f l').
Proof. intros H i Hi. rewrite !diffs_nth, (H i), (H (Datatypes.S i)) by lia. reflexivity. Qed.
Lemma upto_cumul_from {T} (op : T -> T -> T) m : forall l l' acc, upto m l l' -> upto m (cumul_from op acc l) (cumul_from op acc l').
Proof.
  induction m as [|m IH]; intros l l' acc H i Hi; [lia|].
  destruct l as [|a l], l' as [|a' l']; [reflexivity|specialize (H 0%nat ltac:(lia)); discriminate H|specialize (H 0%nat ltac:(lia)); discriminate H|].
  apply upto_tl in H as [-> H]. cbn [cumul_from]. destruct i as [|i]; [reflexivity|]. apply (IH l l' (op acc a') H i). lia.
Qed.
Lemma upto_cumul {T} (op : T -> T -> T) m l l' : upto m l l' -> upto m (cumul op l) (cumul op l').
Proof.
  intros H. destruct m as [|m]; [intros i Hi; lia|].
  destruct l as [|a l], l' as [|a' l']; [intros i Hi; reflexivity|specialize (H 0%nat ltac:(lia)); discriminate H|specialize (H 0%nat ltac:(lia)); discriminate H|].
  apply upto_tl in H as [-> H]. cbn [cumul]. apply upto_cons, upto_cumul_from. exact H.
Qed.
Lemma mask_same {T} m : forall (l l' : list T), length l = length l' ->
  (forall i, nth_error m i = Some true -> nth_error l i = nth_error l' i) -> mask m l = mask m l'.
Proof.
  induction m as [|b m IH]; intros [|a l] [|a' l'] E H; try discriminate; [reflexivity..|]. injection E as E. cbn [mask].
  rewrite (IH l l' E (fun i Hi => H (S i) Hi)). destruct b; [|reflexivity]. specialize (H 0%nat eq_refl). cbn in H. congruence.
Qed.

(** ** operations, for every number system *)
Section Any.
Context {A : Arith} {V : Vals A}.
Notation rel := (rel A V).
Notation DC := (default_config A V).
Notation early := (early A V).
Lemma make_early m x y y' : length y = length y' -> upto m y y' -> both (early m) (rel_make A V x y) (rel_make A V x y').
Proof.
  intros E H. unfold rel_make. destruct (axis_size A x) as [n|e]; [|reflexivity]. cbn [bind]. rewrite E. destruct (Nat.eqb n (length y')); [|reflexivity].
  split; [split; [reflexivity|exact E]|exact H].
Qed.
Lemma both_early m (a b : result rel) : both (alike A V) a b ->
  (forall q q', a = Ok q -> b = Ok q' -> upto m (r_y q) (r_y q')) -> both (early m) a b.
Proof. intros H G. destruct a, b; cbn in *; try assumption. split; [exact H|]. apply G; reflexivity. Qed.
Lemma early_num m o r r' v : early m r r' -> both (early m) (rel_op_num A V DC o r (OVal v)) (rel_op_num A V DC o r' (OVal v)).
Proof. intros [[Ex El] H]. unfold rel_op_num. cbn [default_config c_math math_operation bind]. rewrite Ex. apply make_early; [rewrite !map_length; exact El|apply upto_map, H]. Qed.
Lemma early_map m f r r' : early m r r' -> both (early m) (rel_map A V f r) (rel_map A V f r').
Proof. intros [[Ex El] H]. unfold rel_map. rewrite Ex. apply make_early; [rewrite !map_length; exact El|apply upto_map, H]. Qed.
Lemma early_shift m u r r' : early m r r' -> both (early m) (rel_shift A V u r) (rel_shift A V u r').
Proof. intros [[Ex El] H]. unfold rel_shift. rewrite Ex. apply make_early; assumption. Qed.
Lemma early_op m o r r' q q' : early m r r' -> early m q q' -> length (r_y r) = length (r_y q) ->
  both (early m) (rel_op A V DC o true r q) (rel_op A V DC o true r' q').
Proof.
  intros [[Ex El] H] [[Fx Fl] G] E. unfold rel_op, rel_equalize. cbn [bind fst snd default_config c_math math_operation].
  rewrite <- El, <- Fl, E, Nat.eqb_refl. cbn [bind]. rewrite Ex. apply make_early; [|apply upto_map2; assumption].
  rewrite !map2_length; congruence.
Qed.
Lemma early_diff m r r' : early (S m) r r' -> both (early m) (rel_diff A V DC r) (rel_diff A V DC r').
Proof.
  intros [[Ex El] H]. unfold rel_diff. cbn [default_config c_diff differentiate_default bind fst snd]. rewrite Ex. apply make_early.
  - rewrite !map_length. unfold np_diff_val. rewrite !diffs_length, El. reflexivity.
  - apply upto_map, upto_diffs, H.
Qed.
Lemma early_int m r r' : early (S m) r r' -> both (early m) (rel_integrate A V DC r) (rel_integrate A V DC r').
Proof.
  intros [[Ex El] H]. unfold rel_integrate. cbn [default_config c_integrate integrate_default bind fst snd]. rewrite Ex. apply make_early.
  - rewrite !map_length. unfold cum_trapz. rewrite !cumul_length, !diffs_length, El. reflexivity.
  - apply upto_map, upto_cumul, upto_diffs, H.
Qed.
Lemma window_select s e (r r' : rel) : same_where (fun x => n_le A s x = true /\ n_le A x e = true) r r' ->
  rel_select A V (Some s) (Some e) r = rel_select A V (Some s) (Some e) r'.
Proof.
  intros (Ex & El & H). unfold rel_select. cbv zeta. rewrite <- Ex. destruct (axis_array A (r_x r)) as [xs|z] eqn:X; [|reflexivity]. cbn [bind].
  specialize (H xs eq_refl). set (m := map _ xs). rewrite <- El. destruct (mask m xs) as [|x0 sel]; [reflexivity|].
  destruct (Nat.eqb (length m) (length (r_y r))); [|reflexivity]. f_equal. apply mask_same; [exact El|]. intros i Hi.
  unfold m in Hi. rewrite nth_error_map in Hi. destruct (nth_error xs i) as [x|] eqn:E; [|discriminate]. cbn in Hi. injection Hi as Hi. apply andb_prop in Hi.
  apply (H i x E Hi).
Qed.
Lemma early_convolve m (a a' v v' : list (val V)) : length a = length a' -> length v = length v' -> upto m a a' -> upto m v v' ->
  upto m (convolve_full A V a v) (convolve_full A V a' v').
Proof.
  intros Ea Ev Ha Hv i Hi. unfold convolve_full. rewrite !nth_error_map, <- Ea, <- Ev. destruct (nth_error (seq 0 (length a + length v - 1)) i) as [k|] eqn:E; [|reflexivity].
  assert (k = i).
  { pose proof (nth_error_len _ _ _ E) as Li. rewrite seq_length in Li. apply nth_error_nth with (d := 0%nat) in E. rewrite seq_nth in E by lia. lia. }
  subst k. cbn [option_map]. do 2 f_equal. apply map_ext_in. intros j Hj. unfold conv_term. destruct (Nat.leb_spec j i) as [Hl|]; [|reflexivity].
  rewrite (Ha j), (Hv (i - j)%nat) by lia. reflexivity.
Qed.
Lemma early_np_convolve m (a a' v v' : list (val V)) : length a = length a' -> length v = length v' -> upto m a a' -> upto m v v' ->
  both (fun y y' => length y = length y' /\ upto m y y') (np_convolve A V a v) (np_convolve A V a' v').
Proof.
  intros Ea Ev Ha Hv. pose proof (convolve_alike _ _ _ _ Ea Ev) as L. unfold np_convolve in *.
  destruct a as [|x a], a' as [|x' a']; try discriminate; [reflexivity|]. destruct v as [|w v], v' as [|w' v']; try discriminate; [reflexivity|].
  split; [exact L|]. apply early_convolve; assumption.
Qed.
(** the sweep of laws given by points *)
Lemma early_sweep W sc sc' (g g' : ugen A V) t t' tht0 s s' m f f' :
  us_call A V W DC sc g t tht0 = Ok s -> us_call A V W DC sc' g' t' tht0 = Ok s' ->
  u_f g = LawArr f -> u_f g' = LawArr f' -> r_x (sw_rel s) = r_x (sw_rel s') ->
  upto m (r_y (sw_ft s)) (r_y (sw_ft s')) -> upto m (r_y (sw_at s)) (r_y (sw_at s')) -> upto m (r_y (sw_rel s)) (r_y (sw_rel s')).
Proof.
  intros H H' Ef Ef' Ex Hf Ha. apply us_call_exact in H as (x & fy & am & th & _ & _ & _ & An & Sx & La & Lt & -> & _).
  apply us_call_exact in H' as (x' & fy' & am' & th' & _ & _ & _ & An' & Sx' & La' & Lt' & -> & _). cbn [sw_rel sw_ft sw_at r_x r_y] in *. subst x'.
  apply upto_map2; [exact Ha|]. apply upto_map. rewrite Ef in An. rewrite Ef' in An'. inversion An as [|? ? ? i Hi]. inversion An' as [|? ? ? i' Hi']. subst.
  destruct m as [|m]; [intros j Hj; lia|]. apply upto_cons, upto_map.
  assert (E : early (S m) (mkRel x fy) (mkRel x fy')).
  { split; [split; [reflexivity|]|exact Hf]. cbn [r_y]. rewrite Sx in Sx'. congruence. }
  pose proof (early_int m _ _ E) as B. rewrite Hi, Hi' in B. apply B.
Qed.
End Any.

(** ** interpolation and operations across axes, over the reals *)
Local Open Scope R_scope.
Section Local.
Context {V : Vals RA} (L : VLaws V).
Notation rel := (rel RA V).
Notation DR := (default_config RA V).
Notation early := (early RA V).
Lemma pl_local (x : axis RA) xs (ys ys' : list (val V)) t v : axis_array RA x = Ok xs -> length xs = length ys ->
  (forall i u, nth_error xs i = Some u -> beside x (length ys) t u -> nth_error ys i = nth_error ys' i) ->
  pl_value xs ys t v -> pl_value xs ys' t v.
Proof.
  intros X Ln H P. destruct P as [i y Hx Hy|i x0 x1 y0 y1 Hx0 Hx1 Hy0 Hy1 Ht|Hn Ho].
  - apply PL_point with i; [exact Hx|]. rewrite <- (H i t Hx); [exact Hy|left; reflexivity].
  - assert (D : x1 - x0 = (a_end x - a_start x) / INR (length ys - 1)).
    { unfold axis_array in X. destruct (axis_size RA x) as [n|] eqn:E; [|discriminate]. pose proof (axis_array_size x n E) as X'. unfold axis_array in X'. rewrite E, X in X'. injection X' as ->.
      rewrite grid_length in Ln. subst n. apply grid_nth_inv in Hx0 as [_ ->]. apply grid_nth_inv in Hx1 as [_ ->]. apply grid_step. }
    apply PL_between with i; [exact Hx0|exact Hx1| | |exact Ht].
    + rewrite <- (H i x0 Hx0); [exact Hy0|right]. rewrite <- D. unfold Rabs. destruct (Rcase_abs _), (Rcase_abs _); lra.
    + rewrite <- (H (S i) x1 Hx1); [exact Hy1|right]. rewrite <- D. unfold Rabs. destruct (Rcase_abs _), (Rcase_abs _); lra.
  - apply PL_outside; assumption.
Qed.
Lemma interp_local nx (r r' q q' : rel) arr i t : valid r -> rel_interp RA V DR nx r = Ok q -> rel_interp RA V DR nx r' = Ok q' ->
  axis_array RA nx = Ok arr -> nth_error arr i = Some t -> same_where (beside (r_x r) (length (r_y r)) t) r r' -> nth_error (r_y q) i = nth_error (r_y q') i.
Proof.
  intros Hv Eq Eq' Ea Ht (Ex & El & H). assert (Hv' : valid r') by (unfold valid in *; rewrite <- Ex, <- El; exact Hv).
  assert (Hz : a_sample nx <> 0). { intros Z. destruct nx as [s e d]. cbn in Z. subst d. rewrite axis_array_zero in Ea. discriminate. }
  destruct (interp_full L r nx Hv Hz) as (xs & arr1 & q1 & X & A1 & E1 & _ & L1 & P1). destruct (interp_full L r' nx Hv' Hz) as (xs' & arr2 & q2 & X' & A2 & E2 & _ & L2 & P2).
  rewrite Eq in E1. injection E1 as <-. rewrite Eq' in E2. injection E2 as <-. rewrite Ea in A1, A2. injection A1 as <-. injection A2 as <-. rewrite <- Ex, X in X'. injection X' as <-.
  pose proof (nth_error_len _ _ _ Ht) as Li.
  destruct (nth_error (r_y q) i) as [v|] eqn:N; [|apply nth_error_None in N; rewrite L1 in N; lia].
  destruct (nth_error (r_y q') i) as [v'|] eqn:N'; [|apply nth_error_None in N'; rewrite L2 in N'; lia]. f_equal.
  assert (Lx : length xs = length (r_y r)). { rewrite (axis_array_size _ _ Hv) in X. injection X as <-. apply grid_length. }
  apply (pl_unique L (r_x r) xs (r_y r') t); [exact X|congruence| |apply (P2 i t v' Ht N')].
  apply (pl_local (r_x r) xs (r_y r)); [exact X|exact Lx| |apply (P1 i t v Ht N)]. intros j u Hj Hb. apply (H xs X j u Hj Hb).
Qed.
Lemma op_local o (r r' s s' q q' : rel) arr i t : valid r -> valid s -> rel_op RA V DR o false r s = Ok q -> rel_op RA V DR o false r' s' = Ok q' ->
  axis_array RA (r_x q) = Ok arr -> nth_error arr i = Some t ->
  same_where (beside (r_x r) (length (r_y r)) t) r r' -> same_where (beside (r_x s) (length (r_y s)) t) s s' -> nth_error (r_y q) i = nth_error (r_y q') i.
Proof.
  intros Vr Vs Eq Eq' Ea Ht (Ex & El & H) (Fx & Fl & G).
  assert (Vr' : valid r') by (unfold valid in *; rewrite <- Ex, <- El; exact Vr). assert (Vs' : valid s') by (unfold valid in *; rewrite <- Fx, <- Fl; exact Vs).
  destruct (rel_op_pl L o r s Vr Vs) as (xs & ys & a1 & q1 & X & Y & A1 & L1 & E1 & S1 & S2 & S3 & P1).
  destruct (rel_op_pl L o r' s' Vr' Vs') as (xs' & ys' & a2 & q2 & X' & Y' & A2 & L2 & E2 & T1 & T2 & T3 & P2).
  rewrite Eq in E1. injection E1 as <-. rewrite Eq' in E2. injection E2 as <-. rewrite <- Ex in T1, T2, T3, X'. rewrite <- Fx in T1, T2, T3, Y'.
  assert (Q : r_x q' = r_x q). { destruct (r_x q') as [b1 b2 b3], (r_x q) as [c1 c2 c3]. cbn [a_start a_end a_sample] in *. congruence. }
  rewrite Q in A2. rewrite Ea in A1, A2. injection A1 as <-. injection A2 as <-. rewrite X in X'. injection X' as <-. rewrite Y in Y'. injection Y' as <-.
  pose proof (nth_error_len _ _ _ Ht) as Li.
  destruct (nth_error (r_y q) i) as [v|] eqn:N; [|apply nth_error_None in N; rewrite L1 in N; lia].
  destruct (nth_error (r_y q') i) as [v'|] eqn:N'; [|apply nth_error_None in N'; rewrite L2 in N'; lia]. f_equal.
  destruct (P1 i t v Ht N) as (v1 & v2 & B1 & B2 & ->). destruct (P2 i t v' Ht N') as (w1 & w2 & C1 & C2 & ->).
  assert (Lx : length xs = length (r_y r)). { rewrite (axis_array_size _ _ Vr) in X. injection X as <-. apply grid_length. }
  assert (Ly : length ys = length (r_y s)). { rewrite (axis_array_size _ _ Vs) in Y. injection Y as <-. apply grid_length. }
  f_equal.
  - apply (pl_unique L (r_x r) xs (r_y r') t); [exact X|congruence| |exact C1]. apply (pl_local (r_x r) xs (r_y r)); [exact X|exact Lx| |exact B1]. intros j u Hj Hb. apply (H xs X j u Hj Hb).
  - apply (pl_unique L (r_x s) ys (r_y s') t); [exact Y|congruence| |exact C2]. apply (pl_local (r_x s) ys (r_y s)); [exact Y|exact Ly| |exact B2]. intros j u Hj Hb. apply (G ys Y j u Hj Hb).
Qed.
Lemma lagged_same comb (r1 r2 : rel) : valid r1 -> valid r2 -> r_x r1 = r_x r2 ->
  rel_lagged RA V DR comb r1 r2 = do y <- comb (r_y r1) (r_y r2);
    rel_make RA V (mkAxis (A:=RA) (- (a_end (r_x r1) - a_start (r_x r1))) (a_end (r_x r1) - a_start (r_x r1)) (a_sample (r_x r1))) y.
Proof.
  intros V1 V2 Hx. assert (Ln : length (r_y r2) = length (r_y r1)). { unfold valid in V1, V2. rewrite <- Hx in V2. congruence. }
  destruct (lag_y_self L r1 r2 V1 Hx) as (HT & Hd & Hs & Hy1).
  assert (Hy2 : lag_y r2 (lag_T r1 r2) (length (r_y r1)) = r_y r2).
  { destruct (lag_y_self L r2 r1 V2 (eq_sym Hx)) as (HT' & _ & _ & Hy). rewrite Ln in Hy. rewrite HT. rewrite HT' in Hy. rewrite <- Hx in Hy. exact Hy. }
  rewrite (lagged_eq comb r1 r2 (length (r_y r1)) V1 V2 Hs). rewrite Hy1, Hy2, HT, Hd. reflexivity.
Qed.
Lemma early_lagged comb m (r r' s s' : rel) : valid r -> valid s -> r_x r = r_x s -> early m r r' -> alike RA V s s' ->
  both (fun y y' => length y = length y' /\ upto m y y') (comb (r_y r) (r_y s)) (comb (r_y r') (r_y s')) ->
  both (early m) (rel_lagged RA V DR comb r s) (rel_lagged RA V DR comb r' s').
Proof.
  intros Vr Vs E [[Ex El] _] [Fx Fl] H.
  rewrite !lagged_same; try assumption; try congruence; try (unfold valid in *; rewrite <- ?Ex, <- ?El, <- ?Fx, <- ?Fl; assumption).
  destruct (comb (r_y r) (r_y s)) as [y|e], (comb (r_y r') (r_y s')) as [y'|e']; try contradiction; [|exact H].
  cbn [bind]. rewrite <- Ex. apply make_early; apply H.
Qed.
End Local.

(** ** sweeps of laws given by functions *)
Lemma sweep_fun_local quad cur sc sc' (g g' : ugen RA RV) t t' tht0 s s' c c' f f' T :
  quad_local quad -> us_call RA RV RW cur sc g t tht0 = Ok s -> us_call RA RV RW cur sc' g' t' tht0 = Ok s' ->
  u_f g = LawFun c -> u_f g' = LawFun c' -> by_element c f -> by_element c' f' ->
  u_int g = integrate_function_default RA RV RW quad -> u_int g' = integrate_function_default RA RV RW quad ->
  r_x (sw_rel s) = r_x (sw_rel s') -> a_start (r_x (sw_rel s)) <= a_end (r_x (sw_rel s)) ->
  (forall u, a_start (r_x (sw_rel s)) <= u <= T -> f u = f' u) ->
  same_where (A:=RA) (V:=RV) (fun u => u <= T) (sw_at s) (sw_at s') ->
  same_where (A:=RA) (V:=RV) (fun u => u <= T) (sw_ft s) (sw_ft s') /\ same_where (A:=RA) (V:=RV) (fun u => u <= T) (sw_rel s) (sw_rel s').
Proof.
  intros Q H H' Ef Ef' [Nf Af] [Nf' Af'] Ei Ei' Ex Hse Hf (Xa & La0 & Ha). pose proof H as H0. pose proof H' as H0'.
  apply us_call_exact in H as (x & fy & am & th & _ & Lf & _ & An & Sx & La & Lt & -> & _).
  apply us_call_exact in H' as (x' & fy' & am' & th' & _ & Lf' & _ & An' & Sx' & La' & Lt' & -> & _). cbn [sw_rel sw_ft sw_at r_x r_y] in *. subst x'.
  rewrite Ef in An, Lf. rewrite Ef' in An', Lf'. inversion An as [c0 x0 fy0 th0 Hi|]. inversion An' as [c1 x1 fy1 th1 Hi'|]. subst. clear An An'.
  inversion Lf as [c0 x0 ts y0 E1 E2|]. inversion Lf' as [c1 x1 ts' y1 E1' E2'|]. subst. clear Lf Lf'. rewrite E1 in E1'. injection E1' as <-.
  rewrite Af in E2. injection E2 as <-. rewrite Af' in E2'. injection E2' as <-. rewrite Ei in Hi. rewrite Ei' in Hi'.
  unfold integrate_function_default in Hi, Hi'. rewrite E1 in Hi, Hi'. cbn [bind] in Hi, Hi'.
  pose proof (axis_array_size _ _ Sx) as Gx. rewrite E1 in Gx. rewrite map_length in Gx. injection Gx as Gx.
  assert (P : forall i u, nth_error ts i = Some u -> u <= T -> a_start x <= u <= T).
  { intros i u Hu Hl. split; [|exact Hl]. rewrite Gx in Hu. apply nth_error_In in Hu. apply grid_between in Hu. unfold PreparedSpec.between in Hu. rewrite Rmin_left in Hu by exact Hse. apply Hu. }
  assert (W : forall i u, nth_error ts i = Some u -> u <= T -> nth_error th i = nth_error th' i).
  { intros i u Hu Hl. destruct ts as [|u0 us]; [destruct i; discriminate|]. cbn [tl] in Hi, Hi'. destruct us as [|u1 us]; [congruence|].
    rewrite Nf in Hi. rewrite Nf' in Hi'. cbn [bind] in Hi, Hi'. injection Hi as <-. injection Hi' as <-. destruct i as [|i]; [reflexivity|].
    cbn [nth_error] in Hu |- *. pose proof (P (S i) u Hu Hl) as Pu. change (nth_error (u1 :: us) i = Some u) in Hu.
    match goal with |- nth_error (?a :: map ?h us) i = nth_error (?a' :: map ?h' us) i =>
      change (nth_error (map h (u1 :: us)) i = nth_error (map h' (u1 :: us)) i) end.
    rewrite !nth_error_map. change (num RA) with R in *. rewrite Hu. cbn [option_map]. do 2 f_equal. apply Q; [apply Pu|]. intros w Hw. apply Hf. lra. }
  split; (split; [reflexivity|]); cbn [r_y r_x].
  - split; [rewrite !map_length; reflexivity|]. intros xs X i u Hu Hl. rewrite E1 in X. injection X as <-. rewrite !nth_error_map. change (num RA) with R in *. rewrite Hu. cbn [option_map]. f_equal. apply Hf, (P i u Hu Hl).
  - split; [rewrite !map2_length, !map_length, Lt, Lt', La0, !map_length; reflexivity|]. intros xs X i u Hu Hl. rewrite E1 in X. injection X as <-.
    rewrite !map2_get, !nth_error_map. rewrite (Ha ts E1 i u Hu Hl), (W i u Hu Hl). reflexivity.
Qed.
