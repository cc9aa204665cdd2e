(** Every default operation commutes with a map between sample types that respects arithmetic. *)
From Coq Require Import Reals ZArith List Bool Lia Lra.
From Coquelicot Require Import Complex.
From Verif Require Import Num Numpy AxisModel RelModel HeapModel FourierModel SweepModel TransferSpec Spec SweepSpec SweepLemmas PreparedSpec.
Import ListNotations.

Lemma rmap_bind {T U T' U'} (f : T -> T') (g : U -> U') (r : result T) (k : T -> result U) (k' : T' -> result U') :
  (forall x, k' (f x) = rmap g (k x)) -> bind (rmap f r) k' = rmap g (bind r k).
Proof. intros H. destruct r; cbn; [apply H|reflexivity]. Qed.
Lemma rmap_bind1 {T U U'} (g : U -> U') (r : result T) (k : T -> result U) (k' : T -> result U') :
  (forall x, k' x = rmap g (k x)) -> bind r k' = rmap g (bind r k).
Proof. intros H. destruct r; cbn; [apply H|reflexivity]. Qed.
Lemma mask_map {T U} (f : T -> U) m l : mask m (map f l) = map f (mask m l).
Proof. revert l; induction m as [|b m IH]; intros [|a l]; cbn; try reflexivity. destruct b; cbn; rewrite IH; reflexivity. Qed.
Lemma map2_map' {S T U S' T' U'} (f : S -> T -> U) (f' : S' -> T' -> U') (hs : S -> S') (ht : T -> T') (hu : U -> U') l m :
  (forall a b, f' (hs a) (ht b) = hu (f a b)) -> map2 f' (map hs l) (map ht m) = map hu (map2 f l m).
Proof. intros H. revert m; induction l as [|a l IH]; intros [|b m]; cbn; try reflexivity. rewrite H, IH. reflexivity. Qed.
Lemma diffs_map {T U T' U'} (f : T -> T -> U) (f' : T' -> T' -> U') (ht : T -> T') (hu : U -> U') l :
  (forall a b, f' (ht a) (ht b) = hu (f a b)) -> diffs f' (map ht l) = map hu (diffs f l).
Proof. intros H. induction l as [|a [|b l] IH]; cbn; try reflexivity. rewrite H. f_equal. exact IH. Qed.
Lemma cumul_map {T T'} (f : T -> T -> T) (f' : T' -> T' -> T') (hh : T -> T') l :
  (forall a b, f' (hh a) (hh b) = hh (f a b)) -> cumul f' (map hh l) = map hh (cumul f l).
Proof.
  intros H. destruct l as [|a l]; [reflexivity|]. cbn. f_equal. revert a. induction l as [|b l IH]; intros a; cbn; [reflexivity|].
  rewrite H, IH. reflexivity.
Qed.

Section Morph.
Context {A : Arith} {V V' : Vals A} (h : val V -> val V').
Hypothesis Hof : forall x, h (v_of V x) = v_of V' x.
Hypothesis Hadd : forall a b, v_add V' (h a) (h b) = h (v_add V a b).
Hypothesis Hsub : forall a b, v_sub V' (h a) (h b) = h (v_sub V a b).
Hypothesis Hmul : forall a b, v_mul V' (h a) (h b) = h (v_mul V a b).
Hypothesis Hdiv : forall a b, v_div V' (h a) (h b) = h (v_div V a b).
Hypothesis Hsq : forall a, v_pow V' (h a) (v_of V' (n_of_Z A 2)) = h (v_pow V a (v_of V (n_of_Z A 2))).
Hypothesis Hconj : forall a, v_conj V' (h a) = h (v_conj V a).
Hypothesis Hlt : forall a b, v_lt V' (h a) (h b) = v_lt V a b.
Notation D := (default_config A V).
Notation D' := (default_config A V').
Notation H_ := (hrel h).

Lemma tr_make x y : rel_make A V' x (map h y) = rmap H_ (rel_make A V x y).
Proof.
  unfold rel_make. apply rmap_bind1. intros n. rewrite map_length. destruct (Nat.eqb n (length y)); reflexivity.
Qed.
Lemma tr_op o a b : no_power o -> op_apply A V' o (h a) (h b) = h (op_apply A V o a b).
Proof. destruct o; cbn; intros H; try tauto; auto. Qed.
Lemma tr_math o y b : no_power o -> math_operation A V' o (map h y) (hoperand h b) = rmap (map h) (math_operation A V o y b).
Proof.
  intros Ho. destruct b as [v|l|]; cbn [hoperand math_operation]; [| |reflexivity].
  - cbn. f_equal. rewrite !map_map. apply map_ext. intros a. apply tr_op. exact Ho.
  - rewrite !map_length. destruct (Nat.eqb (length y) (length l)).
    + cbn. f_equal. apply map2_map'. intros a b. apply tr_op. exact Ho.
    + destruct l as [|v [|v2 l]], y as [|a [|a2 y]]; cbn [map rmap]; try reflexivity; rewrite ?map_map, ?tr_op by exact Ho; try reflexivity;
        first [rewrite (map_ext _ _ (fun x => tr_op o x v Ho)); reflexivity | rewrite (map_ext _ _ (fun x => tr_op o a x Ho)); reflexivity].
Qed.
Lemma tr_sum l : v_sum A V' (map h l) = h (v_sum A V l).
Proof.
  unfold v_sum. rewrite <- Hof. generalize (v_of V (n_of_Z A 0)) as acc. induction l as [|a l IH]; intros acc; cbn; [reflexivity|].
  rewrite Hadd. apply IH.
Qed.
Lemma tr_trapz y x : trapz A V' (map h y) x = h (trapz A V y x).
Proof.
  unfold trapz. rewrite <- tr_sum. f_equal. revert x. induction y as [|y0 y IH]; intros x; [reflexivity|].
  destruct y as [|y1 y]; [reflexivity|]. destruct x as [|x0 [|x1 x]]; [reflexivity..|].
  change (trapz_terms A V' (map h (y0 :: y1 :: y)) (x0 :: x1 :: x)) with
    (v_div V' (v_mul V' (v_of V' (n_sub A x1 x0)) (v_add V' (h y1) (h y0))) (v_of V' (n_of_Z A 2)) :: trapz_terms A V' (map h (y1 :: y)) (x1 :: x)).
  rewrite IH, <- !Hof, Hadd, Hmul, Hdiv. reflexivity.
Qed.
Lemma tr_data r : rel_get_data A V' (H_ r) = rmap (fun p => (fst p, map h (snd p))) (rel_get_data A V r).
Proof.
  unfold rel_get_data. cbn [hrel r_x r_y]. apply rmap_bind1. intros n. rewrite map_length. destruct (Nat.eqb n (length (r_y r))); [|reflexivity].
  apply rmap_bind1. reflexivity.
Qed.
Lemma tr_int_one r : one_integrate A V' (H_ r) = rmap h (one_integrate A V r).
Proof. unfold one_integrate. rewrite tr_data. apply rmap_bind. intros p. cbn [fst snd rmap]. rewrite tr_trapz. reflexivity. Qed.
Lemma tr_integrate r : rel_integrate A V' D' (H_ r) = rmap H_ (rel_integrate A V D r).
Proof.
  unfold rel_integrate. cbn [default_config c_integrate integrate_default bind fst snd hrel r_x r_y]. rewrite <- tr_make. f_equal.
  unfold cum_trapz. rewrite (diffs_map (fun b a => v_div V (v_add V b a) (v_of V (n_of_Z A 2))) _ h h).
  - rewrite (cumul_map (v_add V) _ h) by (intros; apply Hadd). rewrite !map_map. apply map_ext. intros a. rewrite <- Hof. apply Hmul.
  - intros a b. rewrite <- Hof, Hadd, Hdiv. reflexivity.
Qed.
Lemma tr_diff r : rel_diff A V' D' (H_ r) = rmap H_ (rel_diff A V D r).
Proof.
  unfold rel_diff. cbn [default_config c_diff differentiate_default bind fst snd hrel r_x r_y]. rewrite <- tr_make. f_equal.
  unfold np_diff_val. rewrite (diffs_map (v_sub V) _ h h) by (intros; apply Hsub). rewrite !map_map. apply map_ext. intros a. rewrite <- Hof. apply Hdiv.
Qed.
Definition hp (p : num A * val V) : num A * val V' := (fst p, h (snd p)).
Lemma tr_insert p l : insert_pt A V' (hp p) (map hp l) = map hp (insert_pt A V p l).
Proof. induction l as [|q l IH]; cbn; [reflexivity|]. destruct (n_lt A (fst q) (fst p)); cbn; rewrite ?IH; reflexivity. Qed.
Lemma tr_sort l : sort_pts A V' (map hp l) = map hp (sort_pts A V l).
Proof. unfold sort_pts. induction l as [|p l IH]; cbn; [reflexivity|]. rewrite IH. apply tr_insert. Qed.
Lemma tr_interp_in l x : interp_in A V' (map hp l) x = h (interp_in A V l x).
Proof.
  induction l as [|[x0 y0] l IH]; [cbn; symmetry; apply Hof|]. destruct l as [|[x1 y1] l]; [reflexivity|].
  change (interp_in A V' (map hp ((x0, y0) :: (x1, y1) :: l)) x) with
    (if n_lt A x x1 then if n_eq A x0 x then h y0 else
       v_add V' (v_mul V' (v_div V' (v_sub V' (h y1) (h y0)) (v_of V' (n_sub A x1 x0))) (v_of V' (n_sub A x x0))) (h y0)
     else interp_in A V' (map hp ((x1, y1) :: l)) x).
  change (interp_in A V ((x0, y0) :: (x1, y1) :: l) x) with
    (if n_lt A x x1 then if n_eq A x0 x then y0 else
       v_add V (v_mul V (v_div V (v_sub V y1 y0) (v_of V (n_sub A x1 x0))) (v_of V (n_sub A x x0))) y0
     else interp_in A V ((x1, y1) :: l) x).
  rewrite IH, <- !Hof, Hsub, Hdiv, Hmul, Hadd. destruct (n_lt A x x1); [|reflexivity]. destruct (n_eq A x0 x); reflexivity.
Qed.
Lemma last_map {S T} (f : S -> T) l d : last (map f l) (f d) = f (last l d).
Proof. induction l as [|a [|b l] IH]; cbn in *; auto. Qed.
Lemma tr_interp_at l x : interp_at A V' (map hp l) x = h (interp_at A V l x).
Proof.
  destruct l as [|[x0 y0] l]; [cbn; symmetry; apply Hof|].
  unfold interp_at. change (map hp ((x0, y0) :: l)) with ((x0, h y0) :: map hp l) at 1.
  rewrite <- Hof. change (x, h (v_of V (n_of_Z A 0))) with (hp (x, v_of V (n_of_Z A 0))). rewrite last_map.
  change (fst (hp (last ((x0, y0) :: l) (x, v_of V (n_of_Z A 0))))) with (fst (last ((x0, y0) :: l) (x, v_of V (n_of_Z A 0)))).
  destruct (n_lt A x x0 || _); [reflexivity | apply tr_interp_in].
Qed.
Lemma combine_hp x y : combine x (map h y) = map hp (combine x y).
Proof. revert y; induction x as [|a x IH]; intros [|b y]; cbn; try reflexivity. rewrite IH. reflexivity. Qed.
Lemma tr_interpolate x y nx : interpolate_default A V' x (map h y) nx = rmap (map h) (interpolate_default A V x y nx).
Proof.
  unfold interpolate_default, interp1d. rewrite map_length. destruct (Nat.eqb (length x) (length y)); [|reflexivity]. cbn [bind].
  apply rmap_bind1. intros a. cbn [rmap]. f_equal. rewrite map_map. apply map_ext. intros t. rewrite combine_hp, tr_sort. apply tr_interp_at.
Qed.
Lemma tr_interp nx r : rel_interp A V' D' nx (H_ r) = rmap H_ (rel_interp A V D nx r).
Proof.
  unfold rel_interp. cbn [hrel r_x r_y]. apply rmap_bind1. intros arr. cbn [default_config c_interp]. rewrite tr_interpolate.
  apply rmap_bind. intros y. apply tr_make.
Qed.
Lemma tr_init x y : rel_init A V' D' (hx_in h x) (option_map (map h) y) = rmap H_ (rel_init A V D x y).
Proof.
  destruct x as [r|a|s]; [reflexivity|..]; destruct y as [y|]; cbn [hx_in option_map rel_init]; try reflexivity.
  - apply tr_make.
  - apply rmap_bind1. intros a. apply tr_make.
Qed.
Lemma tr_select s e r : rel_select A V' s e (H_ r) = rmap H_ (rel_select A V s e r).
Proof.
  unfold rel_select. cbn [hrel r_x r_y]. apply rmap_bind1. intros arr. destruct (mask _ arr) as [|x0 sel]; [reflexivity|].
  rewrite (map_length h). destruct (Nat.eqb _ _); [|reflexivity]. rewrite mask_map. apply tr_make.
Qed.
Lemma tr_shift d r : rel_shift A V' d (H_ r) = rmap H_ (rel_shift A V d r).
Proof. unfold rel_shift. cbn [hrel r_x r_y]. apply tr_make. Qed.
Definition hpair (p : rel A V * rel A V) := (H_ (fst p), H_ (snd p)).
Lemma tr_equalize same r1 r2 : rel_equalize A V' D' same (H_ r1) (H_ r2) = rmap hpair (rel_equalize A V D same r1 r2).
Proof.
  unfold rel_equalize. destruct same; [reflexivity|]. cbn [default_config c_common_x]. rewrite !tr_interp.
  apply (rmap_bind H_). intros e1. apply (rmap_bind H_). intros e2. reflexivity.
Qed.
Lemma tr_rel_op o same r1 r2 : no_power o -> rel_op A V' D' o same (H_ r1) (H_ r2) = rmap H_ (rel_op A V D o same r1 r2).
Proof.
  intros Ho. unfold rel_op. rewrite tr_equalize. apply rmap_bind. intros [e1 e2]. cbn [hpair fst snd hrel r_x r_y default_config c_math].
  change (OArr (map h (r_y e2))) with (hoperand h (OArr (A:=A) (V:=V) (r_y e2))). rewrite tr_math by exact Ho. apply rmap_bind. intros y. apply tr_make.
Qed.
Lemma tr_rel_op_num o r b : no_power o -> rel_op_num A V' D' o (H_ r) (hoperand h b) = rmap H_ (rel_op_num A V D o r b).
Proof.
  intros Ho. unfold rel_op_num. cbn [default_config c_math hrel r_y r_x]. rewrite tr_math by exact Ho. apply rmap_bind. intros y. apply tr_make.
Qed.
Lemma tr_square r : rel_op_num A V' D' POW (H_ r) (OVal (v_of V' (n_of_Z A 2))) = rmap H_ (rel_op_num A V D POW r (OVal (v_of V (n_of_Z A 2)))).
Proof.
  unfold rel_op_num. cbn [default_config c_math math_operation bind hrel r_x r_y op_apply]. rewrite <- tr_make. f_equal. rewrite !map_map.
  apply map_ext. intros a. apply Hsq.
Qed.
Lemma tr_norm r : rel_norm A V' D' (H_ r) = rmap h (rel_norm A V D r).
Proof.
  unfold rel_norm. rewrite tr_square. apply (rmap_bind H_). intros sq. cbn [default_config c_int_one]. rewrite tr_int_one.
  apply rmap_bind. intros i. cbn [rmap hrel r_x]. f_equal. rewrite <- Hof. apply Hdiv.
Qed.
Lemma tr_max r : rel_max A V' (H_ r) = rmap h (rel_max A V r).
Proof.
  unfold rel_max, amax_val. cbn [hrel r_y]. destruct (r_y r) as [|a l]; [reflexivity|]. cbn [map rmap]. f_equal.
  revert a. induction l as [|b l IH]; intros a; cbn; [reflexivity|]. rewrite Hlt, <- IH. destruct (v_lt V a b); reflexivity.
Qed.
Lemma tr_min r : rel_min A V' (H_ r) = rmap h (rel_min A V r).
Proof.
  unfold rel_min, amin_val. cbn [hrel r_y]. destruct (r_y r) as [|a l]; [reflexivity|]. cbn [map rmap]. f_equal.
  revert a. induction l as [|b l IH]; intros a; cbn; [reflexivity|]. rewrite Hlt, <- IH. destruct (v_lt V b a); reflexivity.
Qed.
Lemma tr_getitem x r : rel_getitem A V' x (H_ r) = rmap (fun p => (fst p, h (snd p))) (rel_getitem A V x r).
Proof.
  unfold rel_getitem. cbn [hrel r_x r_y]. apply rmap_bind1. intros arr. destruct (argmin A _) as [i|]; [|reflexivity].
  rewrite nth_error_map. destruct (nth_error arr i), (nth_error (r_y r) i); reflexivity.
Qed.
Lemma tr_convolve a b : np_convolve A V' (map h a) (map h b) = rmap (map h) (np_convolve A V a b).
Proof.
  unfold np_convolve. destruct a as [|a0 a]; [reflexivity|]. destruct b as [|b0 b]; [reflexivity|].
  change (Ok (convolve_full A V' (map h (a0 :: a)) (map h (b0 :: b))) = Ok (map h (convolve_full A V (a0 :: a) (b0 :: b)))).
  generalize (a0 :: a) as u, (b0 :: b) as w. clear a0 a b0 b. intros u w. f_equal. unfold convolve_full. rewrite !map_length, !map_map. apply map_ext. intros k. rewrite <- tr_sum, map_map.
  f_equal. apply map_ext. intros j. unfold conv_term. rewrite !nth_error_map.
  destruct (Nat.leb j k); [|symmetry; apply Hof].
  destruct (nth_error w (k - j)); cbn [option_map]; [|symmetry; apply Hof]. destruct (nth_error u j); cbn [option_map]; [apply Hmul|symmetry; apply Hof].
Qed.
Lemma tr_correlate a b : np_correlate A V' (map h a) (map h b) = rmap (map h) (np_correlate A V a b).
Proof.
  unfold np_correlate. rewrite <- tr_convolve. f_equal. rewrite (map_rev h). f_equal. rewrite !map_map. apply map_ext. apply Hconj.
Qed.
Lemma tr_lagged comb comb' r1 r2 : (forall a b, comb' (map h a) (map h b) = rmap (map h) (comb a b)) ->
  rel_lagged A V' D' comb' (H_ r1) (H_ r2) = rmap H_ (rel_lagged A V D comb r1 r2).
Proof.
  intros Hc. unfold rel_lagged. rewrite !tr_shift. apply (rmap_bind H_). intros s1. apply (rmap_bind H_). intros s2.
  rewrite tr_equalize. apply rmap_bind. intros [e1 e2]. cbn [hpair fst snd hrel r_x r_y]. rewrite Hc. apply rmap_bind. intros y. apply tr_make.
Qed.

(** *** generators *)
Context (W : wfun A V) (W' : wfun A V').
Hypothesis Wsin : forall v, w_sin A V' W' (h v) = h (w_sin A V W v).
Hypothesis Wpi : w_2pi A V' W' = h (w_2pi A V W).
Hypothesis Wsqrt : forall v, w_sqrt A V' W' (h v) = rmap h (w_sqrt A V W v).
Hypothesis Wre : forall v, w_re A V' W' (h v) = w_re A V W v.
Context (sc : sconfig A V) (sc' : sconfig A V').
Hypothesis Sft : forall c, sc_ft A V' sc' (H_ c) = rmap (map h) (sc_ft A V sc c).
Hypothesis Sat : forall c, sc_at A V' sc' (H_ c) = rmap (map h) (sc_at A V sc c).
Hypothesis Ssp : forall c, sc_spectro A V' sc' (H_ c) = sc_spectro A V sc c.
Context (int : integrator A V) (int' : integrator A V').
Hypothesis Hint : forall c x, int' (hcallable h c) x = rmap (map h) (int c x).
Definition hgen (g : ugen A V) : ugen A V' := mkUgen A V' (u_time g) (hlaw h (u_f g)) (hlaw h (u_a g)) D' int'.
Definition of_default (g : ugen A V) : Prop := u_cfg g = D /\ u_int g = int.

Lemma tr_ia_call f x : ia_call A V' D' (hia h f) x = rmap (map h) (ia_call A V D f x).
Proof. unfold ia_call. cbn [hia ia_x ia_y]. apply rmap_bind1. intros xs. apply tr_interpolate. Qed.
Lemma tr_law_eval l x : law_eval A V' D' (hlaw h l) x = rmap (map h) (law_eval A V D l x).
Proof. destruct l as [c|f]; cbn [hlaw law_eval]; [apply rmap_bind1; reflexivity | apply tr_ia_call]. Qed.
Lemma tr_law_tht l x : law_tht A V' W' D' int' (hlaw h l) x = rmap (map h) (law_tht A V W D int l x).
Proof.
  destruct l as [c|f]; cbn [hlaw law_tht]; [apply Hint|]. rewrite tr_ia_call. apply rmap_bind. intros fy. unfold array_tht.
  rewrite tr_make. apply (rmap_bind H_). intros r. rewrite tr_integrate. apply (rmap_bind H_). intros i. cbn [rmap map hrel r_y]. f_equal.
  f_equal; [symmetry; apply Hof|]. rewrite !map_map. apply map_ext. intros a. rewrite Wpi. apply Hmul.
Qed.
Lemma tr_wave tht0 am th : wave A V' W' tht0 (map h am) (map h th) = rmap (map h) (wave A V W tht0 am th).
Proof.
  unfold wave. rewrite map_map.
  assert (E : map (fun x => w_sin A V' W' (v_add V' (h x) (v_of V' tht0))) th = map h (map (fun v => w_sin A V W (v_add V v (v_of V tht0))) th)).
  { rewrite map_map. apply map_ext. intros v. rewrite <- Hof, Hadd. apply Wsin. }
  rewrite E. set (s := map _ th). rewrite !map_length. destruct (Nat.eqb (length am) (length s)).
  - cbn. f_equal. apply map2_map'. apply Hmul.
  - destruct am as [|a [|a2 am]]; destruct s as [|b [|b2 s]]; cbn [map rmap]; try reflexivity; rewrite ?map_map, ?Hmul; try reflexivity;
      first [rewrite (map_ext _ _ (fun x => Hmul a x)); reflexivity | rewrite (map_ext _ _ (fun x => Hmul x b)); reflexivity].
Qed.
Lemma tr_val_sweep c f a : val_sweep A V' sc' (H_ c) (option_map H_ f) (option_map H_ a) = rmap (hsweep h) (val_sweep A V sc c f a).
Proof.
  unfold val_sweep.
  assert (G : forall (k : rel A V -> result (list (val V))) (k' : rel A V' -> result (list (val V'))) o,
    (forall c, k' (H_ c) = rmap (map h) (k c)) ->
    match option_map H_ o with Some f => Ok f | None => do y <- k' (H_ c); rel_make A V' (r_x (H_ c)) y end =
    rmap H_ (match o with Some f => Ok f | None => do y <- k c; rel_make A V (r_x c) y end)).
  { intros k k' o Hk. destruct o as [r|]; [reflexivity|]. cbn [option_map]. rewrite Hk. apply rmap_bind. intros y. apply tr_make. }
  rewrite (G (sc_ft A V sc)) by exact Sft. apply (rmap_bind H_). intros f'. rewrite (G (sc_at A V sc)) by exact Sat. apply (rmap_bind H_). intros a'.
  rewrite Ssp. apply rmap_bind1. intros []. reflexivity.
Qed.
Lemma tr_us_call g t tht0 : of_default g -> us_call A V' W' D' sc' (hgen g) t tht0 = rmap (hsweep h) (us_call A V W D sc g t tht0).
Proof.
  intros [Hc Hi]. unfold us_call. cbn [hgen u_time u_f u_a u_cfg u_int]. rewrite Hc, Hi.
  assert (E : match t, u_time g with
              | UtAxis a, _ => Ok a | UtSeq s, _ => c_axis_from_array A V' D' s true
              | UtNone, Some a => Ok a | UtNone, None => Err EBadInput end =
              match t, u_time g with
              | UtAxis a, _ => Ok a | UtSeq s, _ => c_axis_from_array A V D s true
              | UtNone, Some a => Ok a | UtNone, None => Err EBadInput end) by (destruct t, (u_time g); reflexivity).
  rewrite E. apply rmap_bind1. intros x. rewrite tr_law_eval. apply rmap_bind. intros fy. rewrite tr_make. apply (rmap_bind H_). intros fr.
  rewrite tr_law_eval. apply rmap_bind. intros am. rewrite tr_law_tht. apply rmap_bind. intros th. rewrite tr_make. apply (rmap_bind H_). intros _.
  rewrite tr_wave. apply rmap_bind. intros y. rewrite tr_make. apply (rmap_bind H_). intros ar. rewrite tr_make. apply (rmap_bind H_). intros c.
  apply (tr_val_sweep c (Some fr) (Some ar)).
Qed.
Lemma tr_norm_ratio na ns : norm_ratio A V' W' (h na) (h ns) = rmap h (norm_ratio A V W na ns).
Proof.
  unfold norm_ratio. rewrite !Wsqrt. apply (rmap_bind h). intros a. apply (rmap_bind h). intros s. rewrite Wre.
  destruct (n_eq A _ _); [reflexivity|]. cbn. f_equal. apply Hdiv.
Qed.
Lemma tr_ap_call g sg t tht0 nm : of_default g ->
  ap_call A V' W' D' D' sc' (hgen g) (H_ sg) t tht0 nm = rmap (hsweep h) (ap_call A V W D D sc g sg t tht0 nm).
Proof.
  intros Hg. unfold ap_call. rewrite tr_us_call by exact Hg. apply rmap_bind. intros s. destruct nm; [|reflexivity].
  cbn [hsweep sw_rel sw_at]. rewrite tr_square. apply (rmap_bind H_). intros sq. pose proof (tr_val_sweep sq None None) as Es. cbn [option_map] in Es. rewrite Es. apply rmap_bind. intros _.
  rewrite !tr_norm. apply (rmap_bind h). intros ns. apply (rmap_bind h). intros na. rewrite tr_norm_ratio.
  apply (rmap_bind h). intros k. change (OVal (h k)) with (hoperand h (OVal (A:=A) (V:=V) k)).
  rewrite !tr_rel_op_num by exact I. apply (rmap_bind H_). intros _. apply (rmap_bind H_). intros c. apply (tr_val_sweep c None None).
Qed.
End Morph.

(** ** real numbers among complex numbers *)
Local Open Scope R_scope.
Lemma RtoC_div_any (a b : R) : Cdiv (RtoC a) (RtoC b) = RtoC (a / b).
Proof.
  destruct (Req_EM_T b 0) as [->|H]; [|symmetry; apply RtoC_div; exact H].
  unfold Cdiv, Cinv, Cmult, RtoC. cbn [fst snd]. unfold Rdiv.
  replace (0 * (0 * 1) + 0 * (0 * 1)) with 0 by ring. cbn [pow]. replace (0 * (0 * 1) + 0 * (0 * 1)) with 0 by ring.
  rewrite !Rinv_0. f_equal; ring.
Qed.
Lemma Cltb_R (a b : R) : Cltb (RtoC a) (RtoC b) = Rltb a b.
Proof.
  unfold Cltb, RtoC. cbn [fst snd]. replace (Rltb 0 0) with false; [rewrite andb_false_r, orb_false_r; reflexivity|].
  symmetry. unfold Rltb. destruct (Rlt_dec 0 0); [lra|reflexivity].
Qed.
Lemma Csq_R (a : R) : Cpow_py (RtoC a) (RtoC 2) = RtoC (Rpow_py a 2).
Proof.
  unfold Cpow_py, Rpow_py. cbn [RtoC fst snd]. destruct (Req_EM_T 0 0) as [_|H]; [|tauto].
  assert (E : Rnat_of 2 = Some 2%nat).
  { replace 2 with (INR 2) by (cbn; lra). unfold Rnat_of. assert (E : Int_part (INR 2) = Z.of_nat 2) by apply Int_part_INR.
    rewrite E, <- INR_IZR_INZ. destruct (Req_EM_T (INR 2) (INR 2)) as [_|H]; [reflexivity|tauto]. }
  rewrite E. cbn [Cpow pow]. rewrite !RtoC_mult. reflexivity.
Qed.
Notation DR := (default_config RA RV).
Notation DC := (default_config RA CV).
Definition hR : val RV -> val CV := RtoC.
Lemma hR_of x : hR (v_of RV x) = v_of CV x. Proof. reflexivity. Qed.
Lemma hR_add a b : v_add CV (hR a) (hR b) = hR (v_add RV a b). Proof. symmetry. apply RtoC_plus. Qed.
Lemma hR_sub a b : v_sub CV (hR a) (hR b) = hR (v_sub RV a b). Proof. symmetry. apply RtoC_minus. Qed.
Lemma hR_mul a b : v_mul CV (hR a) (hR b) = hR (v_mul RV a b). Proof. symmetry. apply RtoC_mult. Qed.
Lemma hR_div a b : v_div CV (hR a) (hR b) = hR (v_div RV a b). Proof. apply RtoC_div_any. Qed.
Lemma hR_sq a : v_pow CV (hR a) (v_of CV (n_of_Z RA 2)) = hR (v_pow RV a (v_of RV (n_of_Z RA 2))). Proof. exact (Csq_R a). Qed.
Lemma hR_conj a : v_conj CV (hR a) = hR (v_conj RV a).
Proof. change (Cconj (RtoC a) = RtoC a). unfold Cconj, RtoC. cbn [fst snd]. rewrite Ropp_0. reflexivity. Qed.
Lemma hR_lt a b : v_lt CV (hR a) (hR b) = v_lt RV a b. Proof. exact (Cltb_R a b). Qed.
Lemma CW_sqrt (v : R) : w_sqrt RA CV CW (RtoC v) = rmap hR (w_sqrt RA RV RW v).
Proof. cbn [CW RW w_sqrt RtoC fst]. destruct (Rltb v 0); reflexivity. Qed.
Lemma real_back (l : list C) : real_list l -> map RtoC (map fst l) = l.
Proof.
  intros H. rewrite map_map. rewrite (map_ext_in _ (fun z => z)); [apply map_id|]. intros [a b] Hz. specialize (H _ Hz). cbn in *. subst. reflexivity.
Qed.
Lemma re_ft sc c : real_methods sc -> sc_ft RA CV sc (stored c) = rmap (map hR) (sc_ft RA RV (re_sconfig sc) c).
Proof.
  intros H. cbn [re_sconfig sc_ft]. specialize (H c). destruct (sc_ft RA CV sc (stored c)) as [ys|e]; [|reflexivity].
  cbn [rmap]. f_equal. symmetry. apply real_back. apply H. left. reflexivity.
Qed.
Lemma re_at sc c : real_methods sc -> sc_at RA CV sc (stored c) = rmap (map hR) (sc_at RA RV (re_sconfig sc) c).
Proof.
  intros H. cbn [re_sconfig sc_at]. specialize (H c). destruct (sc_at RA CV sc (stored c)) as [ys|e]; [|reflexivity].
  cbn [rmap]. f_equal. symmetry. apply real_back. apply H. right. reflexivity.
Qed.
Lemma stored_us_call sc int int' (g : ugen RA RV) t tht0 : real_methods sc -> extends_integrator int int' -> u_cfg g = DR -> u_int g = int ->
  us_call RA CV CW DC sc (stored_gen int' g) t tht0 = rmap (hsweep (V:=RV) (V':=CV) RtoC) (us_call RA RV RW DR (re_sconfig sc) g t tht0).
Proof.
  intros Hs Hi Hc Hg.
  apply (tr_us_call hR hR_of hR_add hR_sub hR_mul hR_div RW CW (fun _ => eq_refl) eq_refl (re_sconfig sc) sc
    (fun c => re_ft sc c Hs) (fun c => re_at sc c Hs) (fun _ => eq_refl) int int' Hi). split; assumption.
Qed.
Lemma stored_ap_call sc int int' (g : ugen RA RV) sg t tht0 nm : real_methods sc -> extends_integrator int int' -> u_cfg g = DR -> u_int g = int ->
  ap_call RA CV CW DC DC sc (stored_gen int' g) (stored sg) t tht0 nm = rmap (hsweep (V:=RV) (V':=CV) RtoC) (ap_call RA RV RW DR DR (re_sconfig sc) g sg t tht0 nm).
Proof.
  intros Hs Hi Hc Hg.
  apply (tr_ap_call hR hR_of hR_add hR_sub hR_mul hR_div hR_sq RW CW (fun _ => eq_refl) eq_refl CW_sqrt (fun _ => eq_refl) (re_sconfig sc) sc
    (fun c => re_ft sc c Hs) (fun c => re_at sc c Hs) (fun _ => eq_refl) int int' Hi). split; assumption.
Qed.
(** the default method, when the quadrature treats real integrands alike *)
Lemma default_extends quad quad' : (forall (g : R -> R) a b, quad' (fun t => RtoC (g t)) a b = RtoC (quad g a b)) ->
  extends_integrator (integrate_function_default RA RV RW quad) (integrate_function_default RA CV CW quad').
Proof.
  intros Hq c x. unfold integrate_function_default. destruct (axis_array RA x) as [arr|e]; [|reflexivity]. cbn [bind].
  destruct (tl arr) as [|a l]; [reflexivity|]. cbn [hcallable cl_num]. destruct (cl_num c) as [f|e]; [|reflexivity].
  cbn [bind rmap]. f_equal. cbn [map]. f_equal. f_equal.
  - rewrite Hq. exact (hR_mul (2 * PI) (quad f (a_start x) a)).
  - rewrite map_map. apply map_ext. intros t. rewrite Hq. exact (hR_mul (2 * PI) (quad f (a_start x) t)).
Qed.
