(** Proofs for C93: maximum and minimum. *)
From Coq Require Import Reals ZArith List Bool Lia Lra SpecFloat.
From Coquelicot Require Import Complex.
From Verif Require Import Num Numpy Spec AxisModel RelModel RLemmas AxisLemmas InterpLemmas VInst RelLemmas
  HeapModel HeapSpec HeapLemmas4 HeapLemmas5 FloatSpec FloatLemmas ExtremeModel ExtremeSpec.
Import ListNotations.
Local Open Scope R_scope.

Section Best.
Context {T : Type} (P : T -> Prop) (lt : T -> T -> bool).
Hypothesis asy : forall x y, P x -> P y -> lt x y = true -> lt y x = false.
Hypothesis irr : forall x, P x -> lt x x = false.
Hypothesis tra : forall x y z, P x -> P y -> P z -> lt x y = false -> lt y z = false -> lt x z = false.
Definition best := fold_left (fun m x : T => if lt m x then x else m).
Lemma best_in l a : In (best l a) (a :: l).
Proof.
  revert a. induction l as [|x l IH]; intros a; [left; reflexivity|]. cbn [best fold_left]. destruct (lt a x).
  - right. apply IH.
  - destruct (IH a) as [E|I]; [left; exact E|right; right; exact I].
Qed.
Lemma best_ge l a : Forall P (a :: l) -> forall w, In w (a :: l) -> lt (best l a) w = false.
Proof.
  revert a. induction l as [|x l IH]; intros a HP w Hw.
  - destruct Hw as [<-|[]]. apply irr. inversion HP; assumption.
  - inversion HP as [|? ? Pa HP1]; subst. inversion HP1 as [|? ? Px HP2]; subst. unfold best. cbn [fold_left]. fold best.
    destruct (lt a x) eqn:E.
    + destruct Hw as [<-|Hw]; [|apply IH; auto].
      assert (B : P (best l x)) by (rewrite Forall_forall in HP1; apply HP1, best_in).
      apply (tra _ x _ B Px Pa); [apply IH; [exact HP1|left; reflexivity]|apply asy; assumption].
    + assert (HF : Forall P (a :: l)) by (constructor; auto). assert (B : P (best l a)) by (rewrite Forall_forall in HF; apply HF, best_in).
      destruct Hw as [<-|[<-|Hw]]; [apply IH; [exact HF|left; reflexivity]| |apply IH; [exact HF|right; exact Hw]].
      apply (tra _ a _ B Pa Px); [apply IH; [exact HF|left; reflexivity]|exact E].
Qed.
End Best.

Section Which.
Context {A : Arith} (V : Vals A) (le : val V -> val V -> Prop) (P : val V -> Prop).
Hypothesis lt_le : forall x y, P x -> P y -> v_lt V x y = false <-> le y x.
Hypothesis le_tra : forall x y z, P x -> P y -> P z -> le x y -> le y z -> le x z.
Hypothesis le_tot : forall x y, P x -> P y -> le x y \/ le y x.
Lemma w_irr x : P x -> v_lt V x x = false.
Proof. intros H. apply lt_le; auto. destruct (le_tot x x H H); assumption. Qed.
Lemma w_asy x y : P x -> P y -> v_lt V x y = true -> v_lt V y x = false.
Proof. intros Hx Hy H. destruct (le_tot x y Hx Hy) as [L|L]; [apply lt_le; assumption|]. apply lt_le in L; auto. congruence. Qed.
Lemma w_tra x y z : P x -> P y -> P z -> v_lt V x y = false -> v_lt V y z = false -> v_lt V x z = false.
Proof. intros Hx Hy Hz H G. apply lt_le in H; auto. apply lt_le in G; auto. apply lt_le; auto. eapply le_tra; [exact Hz|exact Hy|exact Hx|exact G|exact H]. Qed.
Lemma max_which (r : rel A V) : Forall P (r_y r) -> r_y r <> [] -> exists v, rel_max A V r = Ok v /\ greatest le v (r_y r).
Proof.
  intros HP Hn. unfold rel_max, amax_val. destruct (r_y r) as [|a l]; [contradiction|]. eexists. split; [reflexivity|].
  fold (best (v_lt V) l a). split; [apply best_in|]. intros w Hw.
  pose proof (best_ge P (v_lt V) w_asy w_irr w_tra l a HP w Hw) as B. rewrite Forall_forall in HP. apply lt_le; auto. apply HP, best_in.
Qed.
Lemma min_which (r : rel A V) : Forall P (r_y r) -> r_y r <> [] -> exists v, rel_min A V r = Ok v /\ least le v (r_y r).
Proof.
  intros HP Hn. unfold rel_min, amin_val. destruct (r_y r) as [|a l]; [contradiction|]. eexists. split; [reflexivity|].
  set (gt := fun m x => v_lt V x m). change (fold_left _ l a) with (best gt l a). split; [apply best_in|]. intros w Hw.
  assert (B : gt (best gt l a) w = false).
  { apply (best_ge P gt); auto; unfold gt; intros; [apply w_asy|apply w_irr|eapply w_tra with (y := y)]; auto. }
  rewrite Forall_forall in HP. apply lt_le in B; auto. apply HP, best_in.
Qed.
Hypothesis le_anti : forall x y, P x -> P y -> le x y -> le y x -> x = y.
Lemma max_iff (r : rel A V) v : Forall P (r_y r) -> rel_max A V r = Ok v <-> greatest le v (r_y r).
Proof.
  intros HP. assert (HQ := HP). rewrite Forall_forall in HQ. split.
  - intros H. destruct (max_which r HP) as (u & E & G); [intros N; unfold rel_max in H; rewrite N in H; discriminate H|]. rewrite H in E. injection E as ->. exact G.
  - intros [I G]. destruct (max_which r HP) as (u & E & J & K); [intros N; rewrite N in I; destruct I|]. rewrite E. f_equal. apply le_anti; auto.
Qed.
Lemma min_iff (r : rel A V) v : Forall P (r_y r) -> rel_min A V r = Ok v <-> least le v (r_y r).
Proof.
  intros HP. assert (HQ := HP). rewrite Forall_forall in HQ. split.
  - intros H. destruct (min_which r HP) as (u & E & G); [intros N; unfold rel_min in H; rewrite N in H; discriminate H|]. rewrite H in E. injection E as ->. exact G.
  - intros [I G]. destruct (min_which r HP) as (u & E & J & K); [intros N; rewrite N in I; destruct I|]. rewrite E. f_equal. apply le_anti; auto.
Qed.
End Which.

Lemma max_none A (V : Vals A) (r : rel A V) e : rel_max A V r = Err e <-> r_y r = [] /\ e = EValue.
Proof. unfold rel_max, amax_val. destruct (r_y r) as [|a l]; split; intros H; try discriminate; [injection H as <-; auto|destruct H as [_ ->]; reflexivity|destruct H; discriminate]. Qed.
Lemma min_none A (V : Vals A) (r : rel A V) e : rel_min A V r = Err e <-> r_y r = [] /\ e = EValue.
Proof. unfold rel_min, amin_val. destruct (r_y r) as [|a l]; split; intros H; try discriminate; [injection H as <-; auto|destruct H as [_ ->]; reflexivity|destruct H; discriminate]. Qed.

Definition any {T} (x : T) : Prop := True.
Lemma all_any {T} (l : list T) : Forall any l. Proof. apply Forall_forall. intros x _. exact I. Qed.
Lemma real_max (r : rel RA RV) v : rel_max RA RV r = Ok v <-> greatest Rle v (r_y r).
Proof.
  apply (max_iff RV Rle any); [intros; apply Rltb_false|intros x y z _ _ _; apply Rle_trans|intros x y _ _; destruct (Rle_lt_dec x y); [left|right; apply Rlt_le]; assumption|
    intros x y _ _; apply Rle_antisym|apply all_any].
Qed.
Lemma real_min (r : rel RA RV) v : rel_min RA RV r = Ok v <-> least Rle v (r_y r).
Proof.
  apply (min_iff RV Rle any); [intros; apply Rltb_false|intros x y z _ _ _; apply Rle_trans|intros x y _ _; destruct (Rle_lt_dec x y); [left|right; apply Rlt_le]; assumption|
    intros x y _ _; apply Rle_antisym|apply all_any].
Qed.

Lemma Cltb_lexical (x y : C) : Cltb x y = false <-> lexical y x.
Proof.
  unfold Cltb, lexical. rewrite orb_false_iff, andb_false_iff, Rltb_false, Rltb_false. unfold Reqb. destruct (Req_EM_T (fst x) (fst y)) as [E|E].
  - split; [intros [_ [H|H]]; [discriminate H|right; auto]|intros [H|[_ H]]; [lra|split; [lra|right; exact H]]].
  - split; [intros [H _]; left; lra|intros [H|[H _]]; [split; [lra|left; reflexivity]|lra]].
Qed.
Lemma lexical_tra x y z : lexical x y -> lexical y z -> lexical x z. Proof. unfold lexical. intros; lra. Qed.
Lemma lexical_tot x y : lexical x y \/ lexical y x. Proof. unfold lexical. lra. Qed.
Lemma lexical_anti x y : lexical x y -> lexical y x -> x = y.
Proof. unfold lexical. destruct x as [a b], y as [c d]. cbn [fst snd]. intros H G. f_equal; lra. Qed.
Lemma complex_max (r : rel RA CV) v : rel_max RA CV r = Ok v <-> greatest lexical v (r_y r).
Proof.
  apply (max_iff CV lexical any); [intros; apply Cltb_lexical|intros x y z _ _ _; apply lexical_tra|intros x y _ _; apply lexical_tot|intros x y _ _; apply lexical_anti|apply all_any].
Qed.
Lemma complex_min (r : rel RA CV) v : rel_min RA CV r = Ok v <-> least lexical v (r_y r).
Proof.
  apply (min_iff CV lexical any); [intros; apply Cltb_lexical|intros x y z _ _ _; apply lexical_tra|intros x y _ _; apply lexical_tot|intros x y _ _; apply lexical_anti|apply all_any].
Qed.

Definition f64_le (x y : spec_float) : Prop := f64_val x <= f64_val y.
Lemma f64_ltb_false x y : f64_fin x -> f64_fin y -> SFltb x y = false <-> f64_le y x.
Proof.
  intros Fx Fy. pose proof (f64_ltb x y Fx Fy) as H. unfold f64_le. destruct (SFltb x y); split; intros G; try reflexivity; try discriminate G.
  - pose proof (proj1 H eq_refl). lra.
  - destruct (Rle_lt_dec (f64_val y) (f64_val x)) as [L|L]; [exact L|]. apply H in L. discriminate L.
Qed.
Lemma float_max (r : rel FA FV) : Forall f64_fin (r_y r) -> r_y r <> [] -> exists v, rel_max FA FV r = Ok v /\ greatest f64_le v (r_y r).
Proof.
  apply (max_which FV f64_le f64_fin); [exact f64_ltb_false|intros x y z _ _ _; apply Rle_trans|].
  intros x y _ _. unfold f64_le. destruct (Rle_lt_dec (f64_val x) (f64_val y)); [left|right; apply Rlt_le]; assumption.
Qed.
Lemma float_min (r : rel FA FV) : Forall f64_fin (r_y r) -> r_y r <> [] -> exists v, rel_min FA FV r = Ok v /\ least f64_le v (r_y r).
Proof.
  apply (min_which FV f64_le f64_fin); [exact f64_ltb_false|intros x y z _ _ _; apply Rle_trans|].
  intros x y _ _. unfold f64_le. destruct (Rle_lt_dec (f64_val x) (f64_val y)); [left|right; apply Rlt_le]; assumption.
Qed.

(** objects *)
Lemma h_max_view A (V : Vals A) (h : heap A V) r c : rel_view A V h r = Some c ->
  h_max A V r h = (rel_max A V c, h) /\ h_min A V r h = (rel_min A V c, h).
Proof.
  intros H. destruct (isrel_view A V h r c H) as (k & x & y & cf & (o & ax & H1 & H2 & H3 & H4 & H5 & H6 & H7 & H8) & _).
  unfold h_max, h_min, bindM, get_rel, get_y, rd, lift, rel_max, rel_min. rewrite H1, H4, H8.
  split; [destruct (amax_val A V (r_y c))|destruct (amin_val A V (r_y c))]; reflexivity.
Qed.

(** arithmetic over the reals *)
Lemma scaled (f : R -> R) (up : bool) l v : (forall x y, x <= y -> if up then f x <= f y else f y <= f x) ->
  (greatest Rle v l -> if up then greatest Rle (f v) (map f l) else least Rle (f v) (map f l)) /\
  (least Rle v l -> if up then least Rle (f v) (map f l) else greatest Rle (f v) (map f l)).
Proof.
  intros Hf. split; intros [I G]; destruct up; (split; [apply in_map; exact I|]); intros w Hw; apply in_map_iff in Hw; destruct Hw as (u & <- & Hu); apply Hf, G, Hu.
Qed.
Lemma made_y (x : axis RA) (y : list R) (q : rel RA RV) : rel_make RA RV x y = Ok q -> r_y q = y.
Proof. intros H. apply rel_make_ok in H. destruct H as [-> _]. reflexivity. Qed.
Lemma number_y (r q : rel RA RV) o (k : R) : rel_op_num RA RV (default_config RA RV) o r (OVal (V:=RV) k) = Ok q ->
  r_y q = map (fun x => op_apply RA RV o x k) (r_y r).
Proof. unfold rel_op_num. cbn [default_config c_math math_operation bind]. apply made_y. Qed.
Lemma max_scale (r q : rel RA RV) k M m : rel_max RA RV r = Ok M -> rel_min RA RV r = Ok m ->
  rel_op_num RA RV (default_config RA RV) MUL r (OVal (V:=RV) k) = Ok q ->
  (0 <= k -> rel_max RA RV q = Ok (M * k) /\ rel_min RA RV q = Ok (m * k)) /\
  (k <= 0 -> rel_max RA RV q = Ok (m * k) /\ rel_min RA RV q = Ok (M * k)).
Proof.
  intros H G E. apply real_max in H. apply real_min in G. apply number_y in E.
  split; intros Hk; (split; [apply real_max|apply real_min]); rewrite E.
  - apply (scaled (fun x => x * k) true _ M); [intros; apply Rmult_le_compat_r; assumption|exact H].
  - apply (scaled (fun x => x * k) true _ m); [intros; apply Rmult_le_compat_r; assumption|exact G].
  - apply (scaled (fun x => x * k) false _ m); [intros; rewrite (Rmult_comm x), (Rmult_comm y); apply Rmult_le_compat_neg_l; assumption|exact G].
  - apply (scaled (fun x => x * k) false _ M); [intros; rewrite (Rmult_comm x), (Rmult_comm y); apply Rmult_le_compat_neg_l; assumption|exact H].
Qed.
Lemma max_offset (r q : rel RA RV) k M m : rel_max RA RV r = Ok M -> rel_min RA RV r = Ok m ->
  rel_op_num RA RV (default_config RA RV) ADD r (OVal (V:=RV) k) = Ok q -> rel_max RA RV q = Ok (M + k) /\ rel_min RA RV q = Ok (m + k).
Proof.
  intros H G E. apply real_max in H. apply real_min in G. apply number_y in E. split; [apply real_max|apply real_min]; rewrite E.
  - apply (scaled (fun x => x + k) true _ M); [intros; lra|exact H].
  - apply (scaled (fun x => x + k) true _ m); [intros; lra|exact G].
Qed.
Lemma in_map2 {S T U} (f : S -> T -> U) l : forall m w, In w (map2 f l m) -> exists a b, In a l /\ In b m /\ w = f a b.
Proof.
  induction l as [|a l IH]; intros [|b m] w H; try destruct H as [<-|H]; try contradiction.
  - exists a, b. repeat split; left; reflexivity.
  - destruct (IH m w H) as (a' & b' & I & J & E). exists a', b'. repeat split; try (right; assumption). exact E.
Qed.
Lemma max_sum (r s q : rel RA RV) M m M' m' N n : length (r_y r) = length (r_y s) -> rel_max RA RV r = Ok M -> rel_min RA RV r = Ok m -> rel_max RA RV s = Ok M' -> rel_min RA RV s = Ok m' ->
  rel_op RA RV (default_config RA RV) ADD true r s = Ok q -> rel_max RA RV q = Ok N -> rel_min RA RV q = Ok n -> N <= M + M' /\ m + m' <= n.
Proof.
  intros L H G H' G' E K J. apply real_max in H, H', K. apply real_min in G, G', J. unfold rel_op, rel_equalize in E. cbn [bind fst snd default_config c_math] in E.
  unfold math_operation in E. rewrite L, Nat.eqb_refl in E. cbn [bind] in E. apply made_y in E. rewrite E in K, J.
  destruct K as [K _]. destruct J as [J _]. apply in_map2 in K. apply in_map2 in J. destruct K as (a & b & Ia & Ib & ->). destruct J as (c & d & Ic & Id & ->).
  cbn. pose proof (proj2 H _ Ia). pose proof (proj2 H' _ Ib). pose proof (proj2 G _ Ic). pose proof (proj2 G' _ Id). cbn in *. lra.
Qed.
Lemma in_mask {T} (x : T) : forall m l, In x (mask m l) -> In x l.
Proof. induction m as [|b m IH]; intros [|a l] H; try contradiction. destruct b; cbn in H; [destruct H as [<-|H]; [left; reflexivity|right; auto]|right; auto]. Qed.
Lemma max_part (l l' : list R) M m N n : (forall x, In x l' -> In x l) -> greatest Rle M l -> least Rle m l -> greatest Rle N l' -> least Rle n l' -> m <= n /\ N <= M.
Proof. intros S [_ H] [_ G] [I _] [J _]. auto. Qed.
Lemma select_part lo hi (r q : rel RA RV) x : rel_select RA RV lo hi r = Ok q -> In x (r_y q) -> In x (r_y r).
Proof.
  unfold rel_select. destruct (axis_array RA (r_x r)) as [arr|]; cbn [bind]; [|discriminate]. destruct (mask _ arr) as [|x0 sel]; [discriminate|].
  destruct (Nat.eqb _ _); [|discriminate]. intros H. apply made_y in H. rewrite H. apply in_mask.
Qed.
Lemma interp_range (r q : rel RA RV) (nx : axis RA) (M m N n : R) : valid r -> a_sample nx <> 0%R -> rel_interp RA RV (default_config RA RV) nx r = Ok q ->
  rel_max RA RV r = Ok M -> rel_min RA RV r = Ok m -> rel_max RA RV q = Ok N -> rel_min RA RV q = Ok n -> Rmin m 0 <= n /\ N <= Rmax M 0.
Proof.
  intros Hv Hz E H G K J. apply real_max in H, K. apply real_min in G, J.
  destruct (interp_full RV_laws r nx Hv Hz) as (xs & arr & q2 & H1 & H2 & H3 & _ & HL & H4). rewrite E in H3. injection H3 as <-.
  assert (B : forall y, In y (r_y r) -> m <= y <= M) by (intros y Hy; split; [apply G|apply H]; exact Hy).
  assert (R : forall v, In v (r_y q) -> Rmin m 0 <= v <= Rmax M 0).
  { intros v Iv. apply In_nth_error in Iv. destruct Iv as [i Iv]. destruct (nth_error arr i) as [t|] eqn:Et.
    - destruct (pl_bounds xs (r_y r) t v m M B (H4 i t v Et Iv)) as [L|[-> _]].
      + pose proof (Rmin_l m 0). pose proof (Rmax_l M 0). cbn in *. lra.
      + split; [apply Rmin_r|apply Rmax_r].
    - apply nth_error_None in Et. assert (nth_error (r_y q) i <> None) by congruence. apply nth_error_Some in H0. lia. }
  split; [apply (R n), J|apply (R N), K].
Qed.
