(** Proofs about relation.py and methods.py, value level (C07, C13-C24). *)
From Coq Require Import Reals ZArith List Bool Lia Lra Psatz.
From Verif Require Import Num Numpy Spec AxisModel RelModel RLemmas AxisLemmas InterpLemmas VInst.
Import ListNotations.
Local Open Scope R_scope.

(** *** generic facts (every number system) *)
Lemma linspace_length (A : Arith) s e n : length (linspace A s e n) = n.
Proof.
  destruct n as [|[|m]]; [reflexivity|reflexivity|].
  cbn [linspace]. rewrite app_length, map_length, seq_length. cbn. lia.
Qed.
Lemma axis_array_length (A : Arith) (a : axis A) l :
  axis_array A a = Ok l <-> axis_size A a = Ok (length l) /\ l = linspace A (a_start a) (a_end a) (length l).
Proof.
  unfold axis_array. destruct (axis_size A a) as [n|e]; cbn [bind]; split; intros H; try discriminate.
  - injection H as <-. rewrite linspace_length. auto.
  - destruct H as [H1 H2]. injection H1 as ->. congruence.
  - destruct H as [H1 _]. discriminate.
Qed.

(** C07 *)
Lemma rel_make_iff (A : Arith) (V : Vals A) (x : axis A) (y : list (val V)) r :
  rel_make A V x y = Ok r <->
  r = mkRel x y /\ exists arr, axis_array A x = Ok arr /\ length arr = length y.
Proof.
  unfold rel_make, axis_array. destruct (axis_size A x) as [n|e]; cbn [bind].
  - destruct (Nat.eqb_spec n (length y)) as [->|Hne]; split; intros H.
    + injection H as <-. split; [reflexivity|]. eexists. split; [reflexivity|]. apply linspace_length.
    + destruct H as [-> _]. reflexivity.
    + discriminate.
    + destruct H as (_ & arr & E & Hl). injection E as <-. rewrite linspace_length in Hl. contradiction.
  - split; [discriminate | intros (_ & arr & E & _); discriminate].
Qed.
Lemma rel_make_err (A : Arith) (V : Vals A) (x : axis A) (y : list (val V)) e :
  rel_make A V x y = Err e <->
  (axis_array A x = Err e) \/
  (exists arr, axis_array A x = Ok arr /\ length arr <> length y /\ e = ENotEqual (length arr) (length y)).
Proof.
  unfold rel_make, axis_array. destruct (axis_size A x) as [n|e0]; cbn [bind].
  - destruct (Nat.eqb_spec n (length y)) as [->|Hne]; split; intros H.
    + discriminate.
    + destruct H as [H|(arr & E & Hl & _)]; [discriminate|]. injection E as <-.
      rewrite linspace_length in Hl. contradiction.
    + injection H as <-. right. eexists. split; [reflexivity|]. rewrite linspace_length. auto.
    + destruct H as [H|(arr & E & Hl & ->)]; [discriminate|]. injection E as <-.
      rewrite linspace_length. reflexivity.
  - split; intros H.
    + injection H as <-. left. reflexivity.
    + destruct H as [H|(arr & E & _)]; [|discriminate]. injection H as <-. reflexivity.
Qed.

Lemma rel_init_axis_ok (A : Arith) (V : Vals A) cfg (a : axis A) (y : list (val V)) r :
  rel_init A V cfg (XAxis a) (Some y) = Ok r <->
  r = mkRel a y /\ exists arr, axis_array A a = Ok arr /\ length arr = length y.
Proof. apply rel_make_iff. Qed.
Lemma rel_init_axis_err (A : Arith) (V : Vals A) cfg (a : axis A) (y : list (val V)) e :
  rel_init A V cfg (XAxis a) (Some y) = Err e <->
  (axis_array A a = Err e) \/
  (exists arr, axis_array A a = Ok arr /\ length arr <> length y /\ e = ENotEqual (length arr) (length y)).
Proof. apply rel_make_err. Qed.
Lemma rel_init_seq (A : Arith) (V : Vals A) cfg (s : seq_in A) (y : list (val V)) :
  rel_init A V cfg (XSeq s) (Some y) =
  match c_axis_from_array A V cfg s true with
  | Ok a => rel_init A V cfg (XAxis a) (Some y)
  | Err e => Err e
  end.
Proof. cbn. destruct (c_axis_from_array A V cfg s true); reflexivity. Qed.
Lemma rel_init_none (A : Arith) (V : Vals A) cfg (x : x_in A V) :
  match x with
  | XRel r => rel_init A V cfg x None = Ok r
  | _ => rel_init A V cfg x None = Err EBadInput
  end.
Proof. destruct x as [[x y]|a|s]; reflexivity. Qed.
Lemma rel_init_rel (A : Arith) (V : Vals A) cfg (r : rel A V) y :
  rel_init A V cfg (XRel r) y = Ok r.
Proof. destruct r; reflexivity. Qed.

(** C13 *)
Lemma common_x_spec (x1 x2 : axis RA) :
  let c := common_x_default RA x1 x2 in
  a_start c = Rmin (a_start x1) (a_start x2) /\ a_end c = Rmax (a_end x1) (a_end x2) /\
  a_sample c = Rmin (a_sample x1) (a_sample x2).
Proof.
  cbn. unfold Rleb, Rmin, Rmax.
  repeat split; repeat destruct (Rle_dec _ _); lra.
Qed.
Lemma axis_eq (x y : axis RA) : a_start x = a_start y -> a_end x = a_end y -> a_sample x = a_sample y -> x = y.
Proof. destruct x, y; cbn; intros; congruence. Qed.
Lemma common_x_comm (x1 x2 : axis RA) : common_x_default RA x1 x2 = common_x_default RA x2 x1.
Proof.
  destruct (common_x_spec x1 x2) as (A1 & B1 & C1), (common_x_spec x2 x1) as (A2 & B2 & C2).
  apply axis_eq.
  - rewrite A1, A2. apply Rmin_comm.
  - rewrite B1, B2. apply Rmax_comm.
  - rewrite C1, C2. apply Rmin_comm.
Qed.
Lemma common_x_self (x : axis RA) : common_x_default RA x x = x.
Proof.
  destruct (common_x_spec x x) as (A1 & B1 & C1). apply axis_eq.
  - rewrite A1. apply Rmin_left. lra.
  - rewrite B1. apply Rmax_left. lra.
  - rewrite C1. apply Rmin_left. lra.
Qed.

(** *** map2 *)
Lemma map2_length {S T U} (f : S -> T -> U) l m : length l = length m -> length (map2 f l m) = length l.
Proof.
  revert m; induction l as [|a l IH]; intros [|b m] H; try discriminate; [reflexivity|].
  cbn. f_equal. apply IH. cbn in H. lia.
Qed.
Lemma map2_nth {S T U} (f : S -> T -> U) l m i a b :
  nth_error l i = Some a -> nth_error m i = Some b -> nth_error (map2 f l m) i = Some (f a b).
Proof.
  revert m i; induction l as [|x l IH]; intros [|y m] [|i] Ha Hb; try discriminate; cbn in *.
  - congruence.
  - apply IH; assumption.
Qed.
Lemma map2_map {S T U W} (f : T -> U -> W) (g : S -> T) (h : S -> U) l :
  map2 f (map g l) (map h l) = map (fun x => f (g x) (h x)) l.
Proof. induction l as [|a l IH]; [reflexivity|]. cbn. f_equal. exact IH. Qed.
Lemma map2_comm {S U} (f : S -> S -> U) l m : (forall a b, f a b = f b a) -> map2 f l m = map2 f m l.
Proof.
  intros H. revert m; induction l as [|a l IH]; intros [|b m]; try reflexivity.
  cbn. f_equal; [apply H | apply IH].
Qed.
Lemma map2_assoc {S} (f : S -> S -> S) l m n : (forall a b c, f (f a b) c = f a (f b c)) ->
  map2 f (map2 f l m) n = map2 f l (map2 f m n).
Proof.
  intros H. revert m n; induction l as [|a l IH]; intros [|b m] [|c n]; try reflexivity.
  cbn. f_equal; [apply H | apply IH].
Qed.

Section Ops.
Context {V : Vals RA} (L : VLaws V).
Notation val := (val V).
Notation DC := (default_config RA V).
Notation rel := (rel RA V).
Add Field Vfield2 : (vl_field V L).

(** C14 *)
Lemma interp_full (r : rel) (nx : axis RA) : axis_size RA (r_x r) = Ok (length (r_y r)) -> a_sample nx <> 0 ->
  exists xs arr r',
    axis_array RA (r_x r) = Ok xs /\ axis_array RA nx = Ok arr /\
    rel_interp RA V DC nx r = Ok r' /\ r_x r' = nx /\ length (r_y r') = length arr /\
    (forall i t v, nth_error arr i = Some t -> nth_error (r_y r') i = Some v -> pl_value xs (r_y r) t v).
Proof.
  intros Hv Hz. destruct (axis_size RA nx) as [n|e] eqn:E.
  2:{ rewrite axis_size_nz in E by exact Hz; discriminate. }
  exists (xs_of r), (grid (a_start nx) (a_end nx) n), (mkRel nx (map (ev r) (grid (a_start nx) (a_end nx) n))).
  split; [apply valid_array; exact Hv|]. split; [apply axis_array_size; exact E|].
  split; [apply rel_interp_eq; assumption|]. cbn. split; [reflexivity|].
  split; [rewrite map_length; reflexivity|].
  intros i t v Ht Hvv. rr. rewrite nth_error_map, Ht in Hvv. cbn in Hvv. injection Hvv as <-.
  apply ev_pl; [exact L|exact Hv|reflexivity].
Qed.
Lemma pl_unique (x : axis RA) xs (ys : list val) t v w :
  axis_array RA x = Ok xs -> length xs = length ys ->
  pl_value xs ys t v -> pl_value xs ys t w -> v = w.
Proof.
  intros Hx Hl H1 H2. pose proof (axis_mono _ _ Hx) as Hm.
  assert (Hne : xs <> []).
  { intros ->. apply axis_array_inv in Hx. destruct Hx as [Hx _]. apply axis_size_pos in Hx. cbn in Hx. lia. }
  apply (interp_pl L) in H1, H2; try assumption. congruence.
Qed.
Lemma interp_same_points (r : rel) (nx : axis RA) : axis_size RA (r_x r) = Ok (length (r_y r)) ->
  axis_array RA nx = axis_array RA (r_x r) -> rel_interp RA V DC nx r = Ok (mkRel nx (r_y r)).
Proof.
  intros Hv Ha. rewrite (valid_array r Hv) in Ha.
  apply axis_array_inv in Ha. destruct Ha as [Hs Hg].
  rewrite (rel_interp_eq r nx _ Hv Hs). rewrite <- Hg. rewrite (ev_map_xs L r Hv). reflexivity.
Qed.

(** operators *)
Lemma math_op_map2 o (l m : list val) : length l = length m ->
  math_operation RA V o l (OArr m) = Ok (map2 (op_apply RA V o) l m).
Proof. intros H. unfold math_operation. rewrite H, Nat.eqb_refl. reflexivity. Qed.

Lemma rel_equalize_eq (r1 r2 : rel) n : valid r1 -> valid r2 ->
  axis_size RA (common_x_default RA (r_x r1) (r_x r2)) = Ok n ->
  let c := common_x_default RA (r_x r1) (r_x r2) in
  let g := grid (a_start c) (a_end c) n in
  rel_equalize RA V DC false r1 r2 = Ok (mkRel c (map (ev r1) g), mkRel c (map (ev r2) g)).
Proof.
  intros H1 H2 Hn c g. unfold rel_equalize. cbn [default_config c_common_x]. fold c.
  rewrite (rel_interp_eq r1 c n H1 Hn). cbn [bind].
  rewrite (rel_interp_eq r2 c n H2 Hn). reflexivity.
Qed.
Lemma sample_nz (x : axis RA) n : axis_size RA x = Ok n -> a_sample x <> 0.
Proof. intros H Hz. rewrite axis_size_zero in H by exact Hz. discriminate. Qed.
Lemma common_size (x1 x2 : axis RA) n1 n2 : axis_size RA x1 = Ok n1 -> axis_size RA x2 = Ok n2 ->
  exists n, axis_size RA (common_x_default RA x1 x2) = Ok n.
Proof.
  intros H1 H2. apply sample_nz in H1, H2.
  destruct (common_x_spec x1 x2) as (_ & _ & Hs).
  rewrite axis_size_nz; [eexists; reflexivity|]. rewrite Hs. unfold Rmin. destruct Rle_dec; assumption.
Qed.

Lemma rel_op_eq o (r1 r2 : rel) n : valid r1 -> valid r2 ->
  axis_size RA (common_x_default RA (r_x r1) (r_x r2)) = Ok n ->
  let c := common_x_default RA (r_x r1) (r_x r2) in
  rel_op RA V DC o false r1 r2 =
  Ok (mkRel c (map (fun t => op_apply RA V o (ev r1 t) (ev r2 t)) (grid (a_start c) (a_end c) n))).
Proof.
  intros H1 H2 Hn c. unfold rel_op.
  rewrite (rel_equalize_eq r1 r2 n H1 H2 Hn). cbn [bind fst snd r_y r_x default_config c_math]. fold c.
  rewrite math_op_map2 by (rewrite !map_length; reflexivity). cbn [bind].
  rewrite map2_map. apply rel_make_eq. rewrite map_length, grid_length. exact Hn.
Qed.

(** C16 *)
Lemma rel_op_equal_axes o same (r1 r2 : rel) : valid r1 -> valid r2 -> r_x r1 = r_x r2 ->
  rel_op RA V DC o same r1 r2 = Ok (mkRel (r_x r1) (map2 (op_apply RA V o) (r_y r1) (r_y r2))).
Proof.
  intros H1 H2 Hx. assert (Hl : length (r_y r1) = length (r_y r2)).
  { unfold valid in *. rewrite Hx in H1. congruence. }
  unfold rel_op, rel_equalize. destruct same.
  - cbn [bind fst snd default_config c_math]. rewrite math_op_map2 by exact Hl. cbn [bind].
    apply rel_make_eq. rewrite map2_length by exact Hl. exact H1.
  - cbn [default_config c_common_x]. rewrite Hx, common_x_self. rewrite <- Hx.
    rewrite (interp_same_points r1 (r_x r1) H1 eq_refl). cbn [bind].
    rewrite Hx. rewrite (interp_same_points r2 (r_x r2) H2 eq_refl). cbn [bind fst snd r_x r_y default_config c_math].
    rewrite math_op_map2 by exact Hl. cbn [bind].
    apply rel_make_eq. rewrite map2_length by exact Hl. rewrite <- Hx. exact H1.
Qed.

(** C17 *)
Lemma rel_op_pl o (r1 r2 : rel) : valid r1 -> valid r2 ->
  exists xs1 xs2 arr r',
    axis_array RA (r_x r1) = Ok xs1 /\ axis_array RA (r_x r2) = Ok xs2 /\
    axis_array RA (r_x r') = Ok arr /\ length (r_y r') = length arr /\
    rel_op RA V DC o false r1 r2 = Ok r' /\
    a_start (r_x r') = Rmin (a_start (r_x r1)) (a_start (r_x r2)) /\
    a_end (r_x r') = Rmax (a_end (r_x r1)) (a_end (r_x r2)) /\
    a_sample (r_x r') = Rmin (a_sample (r_x r1)) (a_sample (r_x r2)) /\
    (forall i t v, nth_error arr i = Some t -> nth_error (r_y r') i = Some v ->
       exists v1 v2, pl_value xs1 (r_y r1) t v1 /\ pl_value xs2 (r_y r2) t v2 /\
                     v = op_apply RA V o v1 v2).
Proof.
  intros H1 H2. destruct (common_size (r_x r1) (r_x r2) _ _ H1 H2) as [n Hn].
  set (c := common_x_default RA (r_x r1) (r_x r2)) in *.
  exists (xs_of r1), (xs_of r2), (grid (a_start c) (a_end c) n),
    (mkRel c (map (fun t => op_apply RA V o (ev r1 t) (ev r2 t)) (grid (a_start c) (a_end c) n))).
  split; [apply valid_array; exact H1|]. split; [apply valid_array; exact H2|].
  split; [apply axis_array_size; exact Hn|]. cbn [r_x r_y]. split; [rewrite map_length; reflexivity|].
  split; [exact (rel_op_eq o r1 r2 n H1 H2 Hn)|].
  destruct (common_x_spec (r_x r1) (r_x r2)) as (A1 & B1 & C1).
  split; [exact A1|]. split; [exact B1|]. split; [exact C1|].
  intros i t v Ht Hv. rr. rewrite nth_error_map, Ht in Hv. cbn in Hv. injection Hv as <-.
  exists (ev r1 t), (ev r2 t). split; [apply ev_pl; auto|]. split; [apply ev_pl; auto|]. reflexivity.
Qed.

(** C18 *)
Lemma rel_op_comm o same (r1 r2 : rel) : (o = ADD \/ o = MUL) -> valid r1 -> valid r2 ->
  (same = true -> r_x r1 = r_x r2) ->
  rel_op RA V DC o same r1 r2 = rel_op RA V DC o same r2 r1.
Proof.
  intros Ho H1 H2 Hs.
  assert (Hc : forall a b, op_apply RA V o a b = op_apply RA V o b a).
  { intros a b. destruct Ho as [-> | ->]; cbn; ring. }
  destruct same.
  - specialize (Hs eq_refl). rewrite !rel_op_equal_axes by congruence.
    rewrite Hs. f_equal. f_equal. apply map2_comm. exact Hc.
  - destruct (common_size (r_x r1) (r_x r2) _ _ H1 H2) as [n Hn].
    rewrite (rel_op_eq o r1 r2 n H1 H2 Hn).
    rewrite common_x_comm in Hn. rewrite (rel_op_eq o r2 r1 n H2 H1 Hn).
    rewrite (common_x_comm (r_x r2) (r_x r1)). f_equal. f_equal. apply map_ext. intros t. apply Hc.
Qed.
Lemma rel_op_assoc o s1 s2 s3 s4 (r1 r2 r3 : rel) : (o = ADD \/ o = MUL) ->
  valid r1 -> valid r2 -> valid r3 -> r_x r1 = r_x r2 -> r_x r2 = r_x r3 ->
  (do a <- rel_op RA V DC o s1 r1 r2; rel_op RA V DC o s2 a r3) =
  (do b <- rel_op RA V DC o s3 r2 r3; rel_op RA V DC o s4 r1 b) /\
  is_ok (do a <- rel_op RA V DC o s1 r1 r2; rel_op RA V DC o s2 a r3) = true.
Proof.
  intros Ho H1 H2 H3 E12 E23.
  assert (Hc : forall a b c, op_apply RA V o (op_apply RA V o a b) c = op_apply RA V o a (op_apply RA V o b c)).
  { intros a b c. destruct Ho as [-> | ->]; cbn; ring. }
  assert (L12 : length (r_y r1) = length (r_y r2)) by (unfold valid in *; rewrite E12 in H1; congruence).
  assert (L23 : length (r_y r2) = length (r_y r3)) by (unfold valid in *; rewrite E23 in H2; congruence).
  rewrite (rel_op_equal_axes o s1 r1 r2) by assumption.
  rewrite (rel_op_equal_axes o s3 r2 r3) by assumption. cbn [bind].
  rewrite !rel_op_equal_axes; try assumption; cbn [r_x r_y]; try congruence.
  - rewrite map2_assoc by exact Hc. split; reflexivity.
  - unfold valid. cbn. rewrite map2_length by exact L23. exact H2.
  - unfold valid. cbn. rewrite map2_length by exact L12. exact H1.
Qed.
End Ops.

(** C16, generic: one axis object, any number system *)
Lemma rel_op_same_generic (A : Arith) (V : Vals A) o (r1 r2 : rel A V) :
  axis_size A (r_x r1) = Ok (length (r_y r1)) -> length (r_y r1) = length (r_y r2) ->
  rel_op A V (default_config A V) o true r1 r2 = Ok (mkRel (r_x r1) (map2 (op_apply A V o) (r_y r1) (r_y r2))).
Proof.
  intros Hs Hl. unfold rel_op, rel_equalize. cbn [bind fst snd default_config c_math].
  unfold math_operation. rewrite Hl, Nat.eqb_refl. cbn [bind]. unfold rel_make. rewrite Hs. cbn [bind].
  rewrite map2_length by exact Hl. rewrite Nat.eqb_refl. reflexivity.
Qed.
Lemma rel_op_num_generic (A : Arith) (V : Vals A) o (r : rel A V) v :
  axis_size A (r_x r) = Ok (length (r_y r)) ->
  rel_op_num A V (default_config A V) o r (OVal v) = Ok (mkRel (r_x r) (map (fun a => op_apply A V o a v) (r_y r))).
Proof.
  intros Hs. unfold rel_op_num. cbn [default_config c_math math_operation bind].
  unfold rel_make. rewrite Hs. cbn [bind]. rewrite map_length, Nat.eqb_refl. reflexivity.
Qed.

(** C15 *)
Lemma line_bounds x0 y0 x1 y1 t lo hi : (x0 < t < x1 \/ x1 < t < x0) ->
  lo <= y0 <= hi -> lo <= y1 <= hi -> lo <= line (V:=RV) x0 y0 x1 y1 t <= hi.
Proof.
  intros Ht H0 H1. unfold line. cbn.
  set (q := (t - x0) / (x1 - x0)).
  assert (Hq : 0 <= q <= 1).
  { unfold q. destruct Ht as [Ht|Ht].
    - split; [apply Rlt_le, Rdiv_lt_0_compat; lra|]. apply (Rmult_le_reg_r (x1 - x0)); [lra|].
      unfold Rdiv. rewrite Rmult_assoc, Rinv_l by lra. lra.
    - replace ((t - x0) / (x1 - x0)) with ((x0 - t) / (x0 - x1)) by (field; lra).
      split; [apply Rlt_le, Rdiv_lt_0_compat; lra|]. apply (Rmult_le_reg_r (x0 - x1)); [lra|].
      unfold Rdiv. rewrite Rmult_assoc, Rinv_l by lra. lra. }
  split; nra.
Qed.
Lemma pl_bounds xs (ys : list R) t v lo hi :
  (forall y, In y ys -> lo <= y <= hi) -> pl_value (V:=RV) xs ys t v ->
  lo <= v <= hi \/ (v = 0 /\ ((forall x, In x xs -> x < t) \/ (forall x, In x xs -> t < x))).
Proof.
  intros Hb [i y Hx Hy|i x0 x1 y0 y1 Hx0 Hx1 Hy0 Hy1 Ht|Hne Hout].
  - left. apply Hb. eapply nth_error_In; exact Hy.
  - left. apply line_bounds; [exact Ht| |]; apply Hb; eapply nth_error_In; eassumption.
  - right. auto.
Qed.
