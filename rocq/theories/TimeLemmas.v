(** Proofs for C84: everything computed from relations follows a change of the origin and of the unit of time. *)
From Coq Require Import Reals ZArith List Bool Lia Lra Psatz Field.
From Verif Require Import Num Numpy Spec AxisModel RelModel RLemmas AxisLemmas InterpLemmas VInst RelLemmas RelLemmas2 RelLemmas3
  HeapModel ProgModel TimeSpec.
Import ListNotations.
Local Open Scope R_scope.


Lemma axis_eq (x y : axis RA) : @eq R (a_start x) (a_start y) -> @eq R (a_end x) (a_end y) -> @eq R (a_sample x) (a_sample y) -> x = y.
Proof. destruct x, y. cbn. intros -> -> ->. reflexivity. Qed.

Section Axes.
Context (c d : R) (Hc : 0 < c).
Notation phi := (retime c d).

Lemma phi_lt a b : Rltb (phi a) (phi b) = Rltb a b.
Proof.
  unfold retime. destruct (Rltb a b) eqn:E; rb.
  - apply Rltb_true. assert (c * a < c * b) by (apply Rmult_lt_compat_l; assumption). lra.
  - apply Rltb_false. assert (c * b <= c * a) by (apply Rmult_le_compat_l; lra). lra.
Qed.
Lemma phi_le a b : Rleb (phi a) (phi b) = Rleb a b.
Proof.
  unfold retime. destruct (Rleb a b) eqn:E; rb.
  - apply Rleb_true. assert (c * a <= c * b) by (apply Rmult_le_compat_l; lra). lra.
  - apply Rleb_false. assert (c * b < c * a) by (apply Rmult_lt_compat_l; lra). lra.
Qed.
Lemma phi_eq a b : Reqb (phi a) (phi b) = Reqb a b.
Proof.
  unfold retime. destruct (Reqb a b) eqn:E; rb.
  - apply Reqb_true. subst. reflexivity.
  - apply Reqb_false. intros H. apply E. apply (Rmult_eq_reg_l c); lra.
Qed.
Lemma mul_le a b : Rleb (c * a) (c * b) = Rleb a b.
Proof.
  destruct (Rleb a b) eqn:E; rb.
  - apply Rleb_true. apply Rmult_le_compat_l; lra.
  - apply Rleb_false. apply Rmult_lt_compat_l; lra.
Qed.
Lemma mul_lt a b : Rltb (c * a) (c * b) = Rltb a b.
Proof.
  destruct (Rltb a b) eqn:E; rb.
  - apply Rltb_true. apply Rmult_lt_compat_l; lra.
  - apply Rltb_false. apply Rmult_le_compat_l; lra.
Qed.

Lemma retime_size (x : axis RA) : axis_size RA (retime_axis c d x) = axis_size RA x.
Proof.
  unfold axis_size, retime_axis. cbn [a_start a_end a_sample RA n_eq n_of_Z n_sub n_div n_abs n_round]. rr.
  destruct (Req_EM_T (a_sample x) 0) as [H|H].
  - rewrite H, Rmult_0_r. replace (Reqb 0 0) with true by (symmetry; apply Reqb_true; reflexivity). reflexivity.
  - assert (Hs : c * a_sample x <> 0) by (apply Rmult_integral_contrapositive; split; lra).
    replace (Reqb (c * a_sample x) 0) with false by (symmetry; apply Reqb_false; exact Hs).
    replace (Reqb (a_sample x) 0) with false by (symmetry; apply Reqb_false; exact H).
    replace ((phi (a_end x) - phi (a_start x)) / (c * a_sample x)) with ((a_end x - a_start x) / a_sample x); [reflexivity|].
    unfold retime. field. split; [exact H|lra].
Qed.
Lemma retime_grid s e n : grid (phi s) (phi e) n = map phi (grid s e n).
Proof. unfold grid. rewrite map_map. apply map_ext. intros i. unfold grid_pt, retime, Rdiv. ring. Qed.
Lemma retime_array (x : axis RA) : axis_array RA (retime_axis c d x) = res_map (map phi) (axis_array RA x).
Proof.
  unfold axis_array. rewrite retime_size. destruct (axis_size RA x) as [n|e]; [|reflexivity]. cbn [bind res_map].
  rewrite !linspace_R. unfold retime_axis. cbn [a_start a_end]. rewrite retime_grid. reflexivity.
Qed.
Lemma retime_common (x1 x2 : axis RA) :
  common_x_default RA (retime_axis c d x1) (retime_axis c d x2) = retime_axis c d (common_x_default RA x1 x2).
Proof.
  unfold common_x_default, retime_axis. cbn [a_start a_end a_sample RA n_le]. rr. rewrite !phi_le, mul_le.
  destruct (Rleb (a_start x1) (a_start x2)), (Rleb (a_end x2) (a_end x1)), (Rleb (a_sample x1) (a_sample x2)); reflexivity.
Qed.
End Axes.

Section Retime.
Context {V : Vals RA} (L : VLaws V) (c d : R) (Hc : 0 < c).
Notation rel := (rel RA V).
Notation DC := (default_config RA V).
Add Field VfieldT : (vl_field V L).
Notation phi := (retime c d).
Notation phir := (retime_rel (V:=V) c d).

Lemma retime_make (x : axis RA) (y : list (val V)) : rel_make RA V (retime_axis c d x) y = res_map phir (rel_make RA V x y).
Proof.
  unfold rel_make. rewrite (retime_size c d Hc). destruct (axis_size RA x) as [n|e]; [|reflexivity]. cbn [bind].
  destruct (Nat.eqb n (length y)); reflexivity.
Qed.
Lemma retime_get_data (r : rel) : rel_get_data RA V (phir r) = res_map (fun p => (map phi (fst p), snd p)) (rel_get_data RA V r).
Proof.
  unfold rel_get_data. cbn [retime_rel r_x r_y]. rewrite (retime_size c d Hc), (retime_array c d Hc).
  destruct (axis_size RA (r_x r)) as [n|e]; [|reflexivity]. cbn [bind]. destruct (Nat.eqb n (length (r_y r))); [|reflexivity].
  destruct (axis_array RA (r_x r)); reflexivity.
Qed.

(** *** interpolation *)
Lemma insert_retime (p : R * val V) m : insert_pt RA V (opair phi p) (map (opair phi) m) = map (opair phi) (insert_pt RA V p m).
Proof.
  induction m as [|q m IHm]; [reflexivity|]. cbn [map insert_pt]. rr. rewrite IHm.
  cbn [opair fst snd RA n_lt]. rewrite (phi_lt c d Hc). destruct (Rltb (fst q) (fst p)); reflexivity.
Qed.
Lemma sort_retime (l : list (R * val V)) : sort_pts RA V (map (opair phi) l) = map (opair phi) (sort_pts RA V l).
Proof.
  unfold sort_pts. induction l as [|p l IH]; [reflexivity|]. cbn [map fold_right]. rr. rewrite IH. apply insert_retime.
Qed.
Lemma interp_in_retime (l : list (R * val V)) x : (forall p m, l = p :: m -> fst p <= x) ->
  interp_in RA V (map (opair phi) l) (phi x) = interp_in RA V l x.
Proof.
  induction l as [|[x0 y0] l IH]; intros H; [reflexivity|]. destruct l as [|[x1 y1] l]; [reflexivity|].
  change (interp_in RA V (map (opair phi) ((x0, y0) :: (x1, y1) :: l)) (phi x)) with
    (if Rltb (phi x) (phi x1) then if Reqb (phi x0) (phi x) then y0
       else v_add V (v_mul V (v_div V (v_sub V y1 y0) (v_of V (phi x1 - phi x0))) (v_of V (phi x - phi x0))) y0
     else interp_in RA V (map (opair phi) ((x1, y1) :: l)) (phi x)).
  change (interp_in RA V ((x0, y0) :: (x1, y1) :: l) x) with
    (if Rltb x x1 then if Reqb x0 x then y0 else v_add V (v_mul V (v_div V (v_sub V y1 y0) (v_of V (x1 - x0))) (v_of V (x - x0))) y0
     else interp_in RA V ((x1, y1) :: l) x).
  rewrite (phi_lt c d Hc), (phi_eq c d Hc).
  destruct (Rltb x x1) eqn:E1; rb.
  - destruct (Reqb x0 x) eqn:E0; rb; [reflexivity|]. f_equal.
    specialize (H _ _ eq_refl). cbn in H. assert (Hx : x1 - x0 <> 0) by lra.
    replace (phi x1 - phi x0) with (c * (x1 - x0)) by (unfold retime; ring).
    replace (phi x - phi x0) with (c * (x - x0)) by (unfold retime; ring).
    rewrite !(vl_of_mul V L).
    assert (Nc : v_of V c <> v_of V 0) by (intros E; apply (vl_of_inj V L) in E; lra).
    assert (Nx : v_of V (x1 - x0) <> v_of V 0) by (intros E; apply (vl_of_inj V L) in E; lra).
    field. split; assumption.
  - apply IH. intros p m Ep. injection Ep as <- <-. exact E1.
Qed.
Lemma last_map {S T} (f : S -> T) l a : last (map f l) (f a) = f (last l a).
Proof. induction l as [|p l IH]; [reflexivity|]. destruct l; [reflexivity|]. exact IH. Qed.
Lemma last_any {S} (l : list S) a b : l <> [] -> last l a = last l b.
Proof. induction l as [|p l IH]; intros H; [congruence|]. destruct l; [reflexivity|]. apply IH. discriminate. Qed.
Lemma interp_at_retime (l : list (R * val V)) x : interp_at RA V (map (opair phi) l) (phi x) = interp_at RA V l x.
Proof.
  destruct l as [|[x0 y0] l]; [reflexivity|].
  change (interp_at RA V (map (opair phi) ((x0, y0) :: l)) (phi x)) with
    (if Rltb (phi x) (phi x0) || Rltb (fst (last (map (opair phi) ((x0, y0) :: l)) (opair phi (x, v_of V 0)))) (phi x) then v_of V 0
     else interp_in RA V (map (opair phi) ((x0, y0) :: l)) (phi x)).
  change (interp_at RA V ((x0, y0) :: l) x) with
    (if Rltb x x0 || Rltb (fst (last ((x0, y0) :: l) (x, v_of V 0))) x then v_of V 0 else interp_in RA V ((x0, y0) :: l) x).
  rewrite last_map. change (fst (opair phi ?q)) with (phi (fst q)). rewrite !(phi_lt c d Hc).
  destruct (Rltb x x0) eqn:E0; [reflexivity|]. cbn [orb].
  match goal with |- (if ?b then _ else _) = _ => destruct b end; [reflexivity|].
  apply interp_in_retime. intros p m Ep. injection Ep as <- <-. rb. exact E0.
Qed.
Lemma combine_map_l {S T U} (f : S -> T) (l : list S) (m : list U) : combine (map f l) m = map (opair f) (combine l m).
Proof. revert m. induction l as [|a l IH]; intros [|b m]; [reflexivity..|]. cbn. f_equal. apply IH. Qed.
Lemma retime_interpolate (xs : list R) (y : list (val V)) (nx : axis RA) :
  interpolate_default RA V (map phi xs) y (retime_axis c d nx) = interpolate_default RA V xs y nx.
Proof.
  unfold interpolate_default, interp1d. rr. rewrite map_length. destruct (Nat.eqb (length xs) (length y)); [|reflexivity]. cbn [bind].
  rewrite (retime_array c d Hc). destruct (axis_array RA nx) as [arr|e]; [|reflexivity]. cbn [bind res_map].
  rewrite combine_map_l. rr. rewrite sort_retime, map_map. f_equal. apply map_ext. intros t. apply interp_at_retime.
Qed.
Lemma retime_interp (nx : axis RA) (r : rel) : rel_interp RA V DC (retime_axis c d nx) (phir r) = res_map phir (rel_interp RA V DC nx r).
Proof.
  unfold rel_interp. cbn [retime_rel r_x r_y default_config c_interp]. rewrite (retime_array c d Hc).
  destruct (axis_array RA (r_x r)) as [xs|e]; [|reflexivity]. cbn [bind res_map]. rr. rewrite retime_interpolate.
  destruct (interpolate_default RA V xs (r_y r) nx) as [y|e]; [|reflexivity]. cbn [bind]. apply retime_make.
Qed.
Lemma retime_equalize same (r1 r2 : rel) :
  rel_equalize RA V DC same (phir r1) (phir r2) = res_map (fun p => (phir (fst p), phir (snd p))) (rel_equalize RA V DC same r1 r2).
Proof.
  unfold rel_equalize. destruct same; [reflexivity|]. cbn [default_config c_common_x]. cbn [retime_rel r_x].
  rewrite (retime_common c d Hc). rewrite !retime_interp.
  destruct (rel_interp RA V DC _ r1) as [e1|e]; [|reflexivity]. cbn [bind res_map].
  destruct (rel_interp RA V DC _ r2) as [e2|e]; reflexivity.
Qed.
Lemma retime_op o same (r1 r2 : rel) : rel_op RA V DC o same (phir r1) (phir r2) = res_map phir (rel_op RA V DC o same r1 r2).
Proof.
  unfold rel_op. rewrite retime_equalize. destruct (rel_equalize RA V DC same r1 r2) as [[e1 e2]|e]; [|reflexivity].
  cbn [bind res_map fst snd retime_rel r_x r_y]. destruct (c_math RA V DC o (r_y e1) (OArr (r_y e2))) as [y|e]; [|reflexivity].
  cbn [bind]. apply retime_make.
Qed.
Lemma retime_op_num o (r : rel) b : rel_op_num RA V DC o (phir r) b = res_map phir (rel_op_num RA V DC o r b).
Proof.
  unfold rel_op_num. cbn [retime_rel r_x r_y]. destruct (c_math RA V DC o (r_y r) b) as [y|e]; [|reflexivity]. cbn [bind]. apply retime_make.
Qed.
Lemma retime_map f (r : rel) : rel_map RA V f (phir r) = res_map phir (rel_map RA V f r).
Proof. apply retime_make. Qed.
Lemma mask_map {S T} (f : S -> T) m l : mask m (map f l) = map f (mask m l).
Proof. revert l. induction m as [|b m IH]; intros [|a l]; [reflexivity..|]. cbn. destruct b; cbn; rewrite IH; reflexivity. Qed.
Lemma retime_select2 (s e : R) (r : rel) :
  rel_select RA V (Some (phi s)) (Some (phi e)) (phir r) = res_map phir (rel_select RA V (Some s) (Some e) r).
Proof.
  unfold rel_select. cbn [retime_rel r_x r_y]. rewrite (retime_array c d Hc).
  destruct (axis_array RA (r_x r)) as [arr|er]; [|reflexivity]. cbn [bind res_map]. rr.
  match goal with |- context [@map _ bool ?f (map phi arr)] =>
    replace (map f (map phi arr)) with (map (fun x : R => n_le RA s x && n_le RA x e) arr) end.
  2:{ rewrite map_map. apply map_ext. intros t. cbn [RA n_le]. rewrite !(phi_le c d Hc). reflexivity. }
  set (m := map (fun x : R => n_le RA s x && n_le RA x e) arr). rewrite mask_map. destruct (mask m arr) as [|x0 l]; [reflexivity|]. cbn [map].
  destruct (Nat.eqb (length m) (length (r_y r))); [|reflexivity].
  change (phi x0 :: map phi l) with (map phi (x0 :: l)). rewrite last_map.
  apply (retime_make (mkAxis (A:=RA) x0 (last (x0 :: l) x0) (a_sample (r_x r)))).
Qed.
Lemma retime_select s e (r : rel) :
  rel_select RA V (option_map phi s) (option_map phi e) (phir r) = res_map phir (rel_select RA V s e r).
Proof.
  destruct s as [s|], e as [e|].
  - apply retime_select2.
  - exact (retime_select2 s (a_end (r_x r)) r).
  - exact (retime_select2 (a_start (r_x r)) e r).
  - exact (retime_select2 (a_start (r_x r)) (a_end (r_x r)) r).
Qed.
Lemma retime_shift u (r : rel) : rel_shift RA V (c * u) (phir r) = res_map phir (rel_shift RA V u r).
Proof.
  unfold rel_shift. cbn [retime_rel r_x r_y]. rewrite <- retime_make. f_equal.
  unfold set_end, set_start, retime_axis, retime. cbn [a_start a_end a_sample RA n_add]. f_equal; rr; ring.
Qed.

(** *** derivatives and integrals *)
Lemma make_ok (x : axis RA) (y : list (val V)) r : rel_make RA V x y = Ok r -> r = mkRel x y /\ axis_size RA x = Ok (length y).
Proof.
  unfold rel_make. destruct (axis_size RA x) as [n|]; [|discriminate]. cbn [bind]. destruct (Nat.eqb_spec n (length y)) as [->|]; [|discriminate].
  intros E. injection E as <-. auto.
Qed.
Lemma scaled_make (x : axis RA) (y y' : list (val V)) o v : length y' = length y ->
  (axis_size RA x = Ok (length y) -> map (fun a => op_apply RA V o a v) y' = y) ->
  (do r <- rel_make RA V x y'; rel_op_num RA V DC o r (OVal v)) = rel_make RA V x y.
Proof.
  intros Hl H. unfold rel_make. rewrite Hl. destruct (axis_size RA x) as [n|e] eqn:En; [|reflexivity]. cbn [bind].
  destruct (Nat.eqb_spec n (length y)) as [->|]; [|reflexivity]. specialize (H eq_refl).
  cbn [bind rel_op_num]. unfold rel_op_num. cbn [r_x r_y default_config c_math math_operation bind]. unfold rel_make.
  rewrite En, H. cbn [bind]. rewrite Nat.eqb_refl. reflexivity.
Qed.
Lemma nz_c : v_of V c <> v_of V 0.
Proof. intros E. apply (vl_of_inj V L) in E. lra. Qed.
Lemma retime_diff (r : rel) :
  (do q <- rel_diff RA V DC (phir r); rel_op_num RA V DC MUL q (OVal (v_of V c))) = res_map phir (rel_diff RA V DC r).
Proof.
  rewrite !rel_diff_eq. rewrite <- retime_make.
  assert (Ex : diff_axis (r_x (phir r)) = retime_axis c d (diff_axis (r_x r))).
  { unfold diff_axis, retime_rel, retime_axis, retime. apply axis_eq; cbn [r_x a_start a_end a_sample].
    - field.
    - field.
    - reflexivity. }
  rewrite Ex.
  apply scaled_make; [rewrite !map_length; reflexivity|]. intros Hs.
  rewrite map_map. apply map_ext. intros v. cbn [op_apply retime_rel r_x retime_axis a_sample].
  assert (Hn : a_sample (r_x r) <> 0).
  { intros E. rewrite (retime_size c d Hc) in Hs. unfold axis_size, diff_axis in Hs. cbn [a_sample RA n_eq n_of_Z] in Hs. rr. rewrite E in Hs.
    replace (Reqb 0 0) with true in Hs by (symmetry; apply Reqb_true; reflexivity). discriminate. }
  rr. rewrite (vl_of_mul V L). pose proof nz_c.
  assert (v_of V (a_sample (r_x r)) <> v_of V 0) by (intros E; apply (vl_of_inj V L) in E; exact (Hn E)). field. split; assumption.
Qed.
Lemma retime_int (r : rel) :
  (do q <- rel_integrate RA V DC (phir r); rel_op_num RA V DC TRUEDIV q (OVal (v_of V c))) = res_map phir (rel_integrate RA V DC r).
Proof.
  rewrite !rel_int_eq. rewrite <- retime_make.
  assert (Ex : int_axis (r_x (phir r)) = retime_axis c d (int_axis (r_x r))).
  { unfold int_axis, retime_rel, retime_axis, retime. apply axis_eq; cbn [r_x a_start a_end a_sample].
    - ring.
    - reflexivity.
    - reflexivity. }
  rewrite Ex.
  apply scaled_make; [rewrite !map_length; reflexivity|]. intros _.
  rewrite map_map. apply map_ext. intros v. cbn [op_apply retime_rel r_x retime_axis a_sample].
  rr. rewrite (vl_of_mul V L). pose proof nz_c. field. assumption.
Qed.

(** *** other observations *)
Lemma trapz_retime (y : list (val V)) (x : list R) : trapz_terms RA V y (map phi x) = map (fun v => v_mul V (v_of V c) v) (trapz_terms RA V y x).
Proof.
  revert x. induction y as [|y0 y IH]; intros x; [reflexivity|]. destruct y as [|y1 y]; [reflexivity|]. destruct x as [|x0 [|x1 x]]; [reflexivity..|].
  cbn [map]. change (trapz_terms RA V (y0 :: y1 :: y) (phi x0 :: phi x1 :: map phi x))
    with (v_div V (v_mul V (v_of V (phi x1 - phi x0)) (v_add V y1 y0)) (v_of V 2) :: trapz_terms RA V (y1 :: y) (map phi (x1 :: x))).
  rewrite IH.
  change (trapz_terms RA V (y0 :: y1 :: y) (x0 :: x1 :: x))
    with (v_div V (v_mul V (v_of V (x1 - x0)) (v_add V y1 y0)) (v_of V 2) :: trapz_terms RA V (y1 :: y) (x1 :: x)). cbn [map]. f_equal.
  replace (phi x1 - phi x0) with (c * (x1 - x0)) by (unfold retime; ring). rewrite (vl_of_mul V L).
  assert (v_of V 2 <> v_of V 0) by (intros E; apply (vl_of_inj V L) in E; lra). field. assumption.
Qed.
Lemma sum_scaled (k : val V) l a : fold_left (v_add V) (map (fun v => v_mul V k v) l) (v_mul V k a) = v_mul V k (fold_left (v_add V) l a).
Proof.
  revert a. induction l as [|v l IH]; intros a; [reflexivity|]. cbn [map fold_left]. rewrite <- IH. f_equal. ring.
Qed.
Lemma retime_norm (r : rel) : rel_norm RA V DC (phir r) = rel_norm RA V DC r.
Proof.
  unfold rel_norm. rewrite retime_op_num. destruct (rel_op_num RA V DC POW r _) as [q|e] eqn:Eq; [|reflexivity]. cbn [bind res_map].
  assert (Hn : a_sample (r_x r) <> 0).
  { unfold rel_op_num in Eq. cbn [default_config c_math math_operation bind] in Eq. apply make_ok in Eq. destruct Eq as [_ Eq].
    intros E. rewrite axis_size_zero in Eq by exact E. discriminate. }
  cbn [default_config c_int_one]. unfold one_integrate. rewrite retime_get_data.
  destruct (rel_get_data RA V q) as [[xs y]|e]; [|reflexivity]. cbn [bind res_map fst snd retime_rel r_x retime_axis a_sample]. f_equal.
  unfold trapz, v_sum. rr. rewrite trapz_retime. cbn [RA n_of_Z].
  replace (v_of V 0) with (v_mul V (v_of V c) (v_of V 0)) at 1 by ring. rewrite sum_scaled. rewrite (vl_of_mul V L). pose proof nz_c.
  assert (v_of V (a_sample (r_x r)) <> v_of V 0) by (intros E; apply (vl_of_inj V L) in E; exact (Hn E)). field. split; assumption.
Qed.
Lemma argmin_retime i b m l : argmin_from RA i b (c * m) (map (Rmult c) l) = argmin_from RA i b m l.
Proof.
  revert i b m. induction l as [|a l IH]; intros i b m; [reflexivity|]. cbn [map argmin_from]. cbn [RA n_lt]. rewrite (mul_lt c Hc).
  destruct (Rltb a m); apply IH.
Qed.
Lemma retime_getitem t (r : rel) : rel_getitem RA V (phi t) (phir r) = res_map (opair phi) (rel_getitem RA V t r).
Proof.
  unfold rel_getitem. cbn [retime_rel r_x r_y]. rewrite (retime_array c d Hc).
  destruct (axis_array RA (r_x r)) as [arr|e]; [|reflexivity]. cbn [bind res_map]. rr.
  assert (E : argmin RA (map (fun x : R => n_abs RA (n_sub RA x (phi t))) (map phi arr)) = argmin RA (map (fun x : R => n_abs RA (n_sub RA x t)) arr)).
  { assert (E : map (fun x : R => n_abs RA (n_sub RA x (phi t))) (map phi arr) = map (Rmult c) (map (fun x : R => n_abs RA (n_sub RA x t)) arr)).
    { rewrite !map_map. apply map_ext. intros x. cbn [RA n_abs n_sub]. unfold retime.
      replace (c * x + d - (c * t + d)) with (c * (x - t)) by ring. rewrite Rabs_mult, (Rabs_right c) by lra. reflexivity. }
    rewrite E. destruct (map (fun x : R => n_abs RA (n_sub RA x t)) arr) as [|m l]; [reflexivity|]. unfold argmin. cbn [map]. rewrite argmin_retime. reflexivity. }
  pose (pick := fun (o : option nat) (l : list R) => match o with None => Err EValue
    | Some i => match nth_error l i, nth_error (r_y r) i with Some x, Some y => Ok (x, y) | _, _ => Err EIndex end end).
  change (pick (argmin RA (map (fun x : R => n_abs RA (n_sub RA x (phi t))) (map phi arr))) (map phi arr)
    = res_map (opair phi) (pick (argmin RA (map (fun x : R => n_abs RA (n_sub RA x t)) arr)) arr)).
  rewrite E. unfold pick. destruct (argmin RA (map _ arr)) as [i|]; [|reflexivity].
  rewrite nth_error_map. destruct (nth_error arr i) as [x|]; [|reflexivity]. cbn [option_map].
  destruct (nth_error (r_y r) i); reflexivity.
Qed.
End Retime.

Section Lag.
Context {V : Vals RA} (L : VLaws V) (c d1 d2 : R) (Hc : 0 < c).
Notation rel := (rel RA V).
Notation DC := (default_config RA V).
Lemma shift_retime d u (r : rel) : rel_shift RA V (c * u - d) (retime_rel c d r) = res_map (retime_rel c 0) (rel_shift RA V u r).
Proof.
  unfold rel_shift. cbn [retime_rel r_x r_y]. rewrite <- (retime_make c 0 Hc). f_equal.
  unfold set_end, set_start, retime_axis, retime. cbn [a_start a_end a_sample RA n_add]. f_equal; rr; ring.
Qed.
Lemma retime_lagged comb (r1 r2 : rel) :
  rel_lagged RA V DC comb (retime_rel c d1 r1) (retime_rel c d2 r2) = res_map (retime_rel c 0) (rel_lagged RA V DC comb r1 r2).
Proof.
  unfold rel_lagged. cbn [RA n_opp]. rr.
  replace (- a_start (r_x (retime_rel c d1 r1))) with (c * (- a_start (r_x r1)) - d1) by (cbn; unfold retime; ring).
  replace (- a_start (r_x (retime_rel c d2 r2))) with (c * (- a_start (r_x r2)) - d2) by (cbn; unfold retime; ring).
  rewrite !shift_retime. destruct (rel_shift RA V _ r1) as [s1|e]; [|reflexivity]. cbn [bind res_map].
  destruct (rel_shift RA V _ r2) as [s2|e]; [|reflexivity]. cbn [bind res_map]. rewrite (retime_equalize L c 0 Hc).
  destruct (rel_equalize RA V DC false s1 s2) as [[e1 e2]|e]; [|reflexivity]. cbn [bind res_map fst snd]. cbn [retime_rel r_y r_x].
  destruct (comb (r_y e1) (r_y e2)) as [y|e]; [|reflexivity]. cbn [bind]. rewrite <- (retime_make c 0 Hc). f_equal.
  unfold retime_axis, retime. cbn [a_start a_end a_sample]. f_equal; rr; ring.
Qed.
End Lag.

(** *** programs *)
Definition ran_map {S T} (f : S -> T) (r : ran S) : ran T := match r with inl v => inl (f v) | inr z => inr z end.
Section Programs.
Context {V : Vals RA} (L : VLaws V) (F : vfun RA V) (c d : R) (Hc : 0 < c).
Notation rel := (rel RA V).
Notation DC := (default_config RA V).
Notation phir := (retime_rel (V:=V) c d).
Lemma raised_map (r : result rel) : raised (res_map phir r) = ran_map phir (raised r).
Proof. destruct r; reflexivity. Qed.
Lemma raised_bind (r : result rel) (f : rel -> result rel) :
  match raised r with inl q => raised (f q) | inr z => inr z end = raised (bind r f).
Proof. destruct r; reflexivity. Qed.
Lemma eval_retime e s s' : retimed V c d s s' -> v_eval RA V F DC s' (retime_e V c d e) = ran_map phir (v_eval RA V F DC s e).
Proof.
  intros Hs. induction e as [x|o e1 IH1 e2 IH2|o e IH v|m e IH]; cbn [retime_e v_eval].
  - rewrite (Hs x). destruct (s x); reflexivity.
  - rewrite IH1. destruct (v_eval RA V F DC s e1) as [r1|z]; [|reflexivity]. cbn [ran_map]. rewrite IH2.
    destruct (v_eval RA V F DC s e2) as [r2|z]; [|reflexivity]. cbn [ran_map]. rewrite (retime_op L c d Hc). apply raised_map.
  - rewrite IH. destruct (v_eval RA V F DC s e) as [r1|z]; [|reflexivity]. cbn [ran_map]. rewrite (retime_op_num c d Hc). apply raised_map.
  - destruct m as [| | |s0 e0|u]; cbn [v_eval]; rewrite IH; destruct (v_eval RA V F DC s e) as [r1|z]; try reflexivity; cbn [ran_map v_meth];
      try rewrite raised_bind; rewrite <- raised_map; f_equal.
    + apply (retime_diff L c d Hc).
    + apply (retime_int L c d Hc).
    + apply (retime_map c d Hc).
    + apply (retime_select c d Hc).
    + apply (retime_shift c d Hc).
Qed.
(** what expressions do, programs do *)
Lemma exec_each (f : expr RA V -> expr RA V) :
  (forall x, f (EName RA V x) = EName RA V x) -> (forall o e1 e2, f (EBin RA V o e1 e2) = EBin RA V o (f e1) (f e2)) ->
  (forall o e v, f (ENum RA V o e v) = ENum RA V o (f e) v) ->
  (forall e s s', retimed V c d s s' -> v_eval RA V F DC s' (f e) = ran_map phir (v_eval RA V F DC s e)) ->
  forall p s s', retimed V c d s s' ->
    snd (v_exec RA V F DC (each_e V f p) s') = snd (v_exec RA V F DC p s) /\
    retimed V c d (fst (v_exec RA V F DC p s)) (fst (v_exec RA V F DC (each_e V f p) s')).
Proof.
  intros F1 F2 F3 Fe.
  assert (B : forall x e s s', retimed V c d s s' ->
    snd (v_bind RA V x s' (v_eval RA V F DC s' (f e))) = snd (v_bind RA V x s (v_eval RA V F DC s e)) /\
    retimed V c d (fst (v_bind RA V x s (v_eval RA V F DC s e))) (fst (v_bind RA V x s' (v_eval RA V F DC s' (f e))))).
  { intros x e s s' Hs. rewrite (Fe e s s' Hs). destruct (v_eval RA V F DC s e) as [r|z]; cbn; split; try reflexivity; [|exact Hs].
    intros y. unfold bind_name. destruct (Nat.eqb y x); [reflexivity|apply Hs]. }
  induction p as [x e|x o e|x o v|n b IH| |p IHp q IHq]; intros s s' Hs; cbn [each_e v_exec].
  - apply B. exact Hs.
  - pose proof (B x (EBin RA V o (EName RA V x) e) s s' Hs) as G. rewrite F2, F1 in G. exact G.
  - pose proof (B x (ENum RA V o (EName RA V x) v) s s' Hs) as G. rewrite F3, F1 in G. exact G.
  - cut (forall n (a a' : env rel * option stop), snd a' = snd a -> retimed V c d (fst a) (fst a') ->
      snd (loop n (fun st => v_exec RA V F DC (each_e V f b) (fst st)) is_stopped a') = snd (loop n (fun st => v_exec RA V F DC b (fst st)) is_stopped a) /\
      retimed V c d (fst (loop n (fun st => v_exec RA V F DC b (fst st)) is_stopped a)) (fst (loop n (fun st => v_exec RA V F DC (each_e V f b) (fst st)) is_stopped a'))).
    { intros G. apply (G n (s, None) (s', None) eq_refl Hs). }
    clear n s s' Hs. induction n as [|n IHn]; intros a a' E R; cbn [loop]; [split; assumption|].
    destruct (IH _ _ R) as [E1 R1]. unfold is_stopped at 1 3 5 7. rewrite E1.
    destruct (snd (v_exec RA V F DC b (fst a))) eqn:Es; [split; [congruence|exact R1]|]. apply IHn; [congruence|exact R1].
  - split; [reflexivity|exact Hs].
  - destruct (IHp s s' Hs) as [E1 R1]. unfold is_stopped. rewrite E1.
    destruct (snd (v_exec RA V F DC p s)) eqn:Es; [split; [congruence|exact R1]|]. apply IHq. exact R1.
Qed.
Lemma exec_retime p s s' : retimed V c d s s' ->
  snd (v_exec RA V F DC (retime_p V c d p) s') = snd (v_exec RA V F DC p s) /\
  retimed V c d (fst (v_exec RA V F DC p s)) (fst (v_exec RA V F DC (retime_p V c d p) s')).
Proof. apply exec_each; try reflexivity. intros e s0 s0' H. apply eval_retime. exact H. Qed.
End Programs.
Section Moved.
Context {V : Vals RA} (L : VLaws V) (F : vfun RA V) (d : R).
Notation rel := (rel RA V).
Notation DC := (default_config RA V).
Lemma move_phi t : retime 1 d t = t + d.
Proof. unfold retime. ring. Qed.
Add Field VfieldM : (vl_field V L).
Lemma mul_one (r : rel) : (do q <- rel_diff RA V DC r; rel_op_num RA V DC MUL q (OVal (v_of V 1))) = rel_diff RA V DC r.
Proof.
  rewrite rel_diff_eq. apply scaled_make; [reflexivity|]. intros _. rewrite map_map. apply map_ext. intros v. cbn [op_apply].
  match goal with |- v_mul V ?a _ = _ => generalize a end. intros a. ring.
Qed.
Lemma div_one (r : rel) : (do q <- rel_integrate RA V DC r; rel_op_num RA V DC TRUEDIV q (OVal (v_of V 1))) = rel_integrate RA V DC r.
Proof.
  rewrite rel_int_eq. apply scaled_make; [reflexivity|]. intros _. rewrite map_map. apply map_ext. intros v. cbn [op_apply].
  match goal with |- v_div V ?a _ = _ => generalize a end. intros a. field. intros E. apply (vl_of_inj V L) in E. lra.
Qed.
Lemma eval_move e s s' : retimed V 1 d s s' -> v_eval RA V F DC s' (move_e V d e) = ran_map (retime_rel 1 d) (v_eval RA V F DC s e).
Proof.
  intros Hs. assert (H1 : 0 < 1) by lra. induction e as [x|o e1 IH1 e2 IH2|o e IH v|m e IH]; cbn [move_e v_eval].
  - rewrite (Hs x). destruct (s x); reflexivity.
  - rewrite IH1. destruct (v_eval RA V F DC s e1) as [r1|z]; [|reflexivity]. cbn [ran_map]. rewrite IH2.
    destruct (v_eval RA V F DC s e2) as [r2|z]; [|reflexivity]. cbn [ran_map]. rewrite (retime_op L 1 d H1). apply raised_map.
  - rewrite IH. destruct (v_eval RA V F DC s e) as [r1|z]; [|reflexivity]. cbn [ran_map]. rewrite (retime_op_num 1 d H1). apply raised_map.
  - destruct m as [| | |s0 e0|u]; cbn [v_eval]; rewrite IH; destruct (v_eval RA V F DC s e) as [r1|z]; try reflexivity; cbn [ran_map v_meth];
      rewrite <- raised_map; f_equal.
    + rewrite <- (mul_one (retime_rel 1 d r1)). apply (retime_diff L 1 d H1).
    + rewrite <- (div_one (retime_rel 1 d r1)). apply (retime_int L 1 d H1).
    + apply (retime_map 1 d H1).
    + rewrite <- (retime_select 1 d H1). f_equal; [destruct s0|destruct e0]; cbn [option_map]; try reflexivity; f_equal; symmetry; apply move_phi.
    + rewrite <- (retime_shift 1 d H1). f_equal. rr. ring.
Qed.
Lemma exec_move p s s' : retimed V 1 d s s' ->
  snd (v_exec RA V F DC (move_p V d p) s') = snd (v_exec RA V F DC p s) /\
  retimed V 1 d (fst (v_exec RA V F DC p s)) (fst (v_exec RA V F DC (move_p V d p) s')).
Proof. apply (exec_each F 1 d (move_e V d)); try reflexivity. intros e s0 s0' H. apply eval_move. exact H. Qed.
End Moved.
