(** Property theorems for relation.py and defaults/methods.py: C07, C13-C27.

    [valid r] (InterpLemmas.v) says that the axis of [r] has exactly as many points as [r] has
    samples, i.e. [axis_size (r_x r) = Ok (length (r_y r))]; C07 shows that this is what the
    constructor guarantees.  [VLaws V] / [CLaws V] (Spec.v) hold for real and for complex samples
    ([RV_laws], [CV_laws], [RV_claws], [CV_claws] in VInst.v). *)
From Coq Require Import Reals ZArith QArith List Bool Lia Lra.
From Coquelicot Require Import Complex.
From Verif Require Import Num Numpy Spec AxisModel RelModel RLemmas AxisLemmas InterpLemmas VInst
  RelLemmas RelLemmas2 RelLemmas3 CorrLemmas.
Import ListNotations.
Local Open Scope R_scope.

(** the example relation used below: x = 0,1,2,3 and four real samples *)
Definition ex_axis : axis RA := mkAxis (A:=RA) 0 3 1.
Definition ex_rel : rel RA RV := mkRel (A:=RA) (V:=RV) ex_axis [1; 2; 4; 8].
Lemma ex_valid : valid ex_rel.
Proof.
  unfold valid, ex_rel, ex_axis. cbn [r_x r_y length]. rewrite axis_size_nz by (cbn; lra). cbn [a_start a_end a_sample].
  replace (Rabs ((3 - 0) / 1)) with (INR 3) by (rewrite Rabs_right; cbn; lra). rewrite Rround_INR. reflexivity.
Qed.
(** rationals for the executable cases *)
Definition qx (s e d : Q) : axis QA := mkAxis (A:=QA) s e d.
Definition qrel (s e d : Q) (y : list Q) : rel QA QV := mkRel (A:=QA) (V:=QV) (qx s e d) y.
Arguments qx (s e d)%Q_scope.
Arguments qrel (s e d)%Q_scope y%Q_scope.
(** and one with a span that is not a whole number of samples: x = 0, 5/4, 5/2 *)
Definition ex_odd : rel RA RV := mkRel (A:=RA) (V:=RV) (mkAxis (A:=RA) 0 (5/2) 1) [1; 2; 4].
Lemma ex_odd_valid : valid ex_odd.
Proof.
  unfold valid, ex_odd. cbn [r_x r_y length]. rewrite axis_size_nz by (cbn; lra). cbn [a_start a_end a_sample].
  replace (Rround (Rabs ((5/2 - 0) / 1))) with 2%Z; [reflexivity|]. symmetry. apply Rround_iff. right.
  split; [|exists 1%Z; reflexivity]. rewrite (Rabs_right ((5/2 - 0) / 1)) by lra. rewrite Rabs_right; lra.
Qed.

(** ** C07 construction guard: every number system, every configuration *)
Theorem C07_axis_and_samples : forall (A : Arith) (V : Vals A) cfg (a : axis A) (y : list (val V)),
  (forall r, rel_init A V cfg (XAxis a) (Some y) = Ok r <->
     r = mkRel a y /\ exists arr, axis_array A a = Ok arr /\ length arr = length y) /\
  (forall e, rel_init A V cfg (XAxis a) (Some y) = Err e <->
     (axis_array A a = Err e) \/
     (exists arr, axis_array A a = Ok arr /\ length arr <> length y /\
                  e = ENotEqual (length arr) (length y))).
Proof. intros A V cfg a y. split; [exact (rel_init_axis_ok A V cfg a y) | exact (rel_init_axis_err A V cfg a y)]. Qed.
Print Assumptions C07_axis_and_samples.
Theorem C07_sequence_and_samples : forall (A : Arith) (V : Vals A) cfg (s : seq_in A) (y : list (val V)),
  rel_init A V cfg (XSeq s) (Some y) =
  match c_axis_from_array A V cfg s true with
  | Ok a => rel_init A V cfg (XAxis a) (Some y)
  | Err e => Err e
  end.
Proof. exact rel_init_seq. Qed.
Print Assumptions C07_sequence_and_samples.
Theorem C07_missing_y : forall (A : Arith) (V : Vals A) cfg (x : x_in A V),
  match x with
  | XRel r => rel_init A V cfg x None = Ok r
  | _ => rel_init A V cfg x None = Err EBadInput
  end.
Proof. exact rel_init_none. Qed.
Print Assumptions C07_missing_y.
Theorem C07_relation_ignores_y : forall (A : Arith) (V : Vals A) cfg (r : rel A V) y,
  rel_init A V cfg (XRel r) y = Ok r.
Proof. exact rel_init_rel. Qed.
Print Assumptions C07_relation_ignores_y.
Example C07_case : err_of (rel_init QA QV (default_config QA QV) (XAxis (qx 0 2 1)) (Some [1%Q; 2%Q])) = Some (ENotEqual 3 2)
  /\ is_ok (rel_init QA QV (default_config QA QV) (XAxis (qx 0 2 1)) (Some [1%Q; 2%Q; 3%Q])) = true.
Proof. split; vm_compute; reflexivity. Qed.

(** ** C13 common axis *)
Theorem C13_common_axis : forall x1 x2 : axis RA,
  let c := common_x_default RA x1 x2 in
  a_start c = Rmin (a_start x1) (a_start x2) /\ a_end c = Rmax (a_end x1) (a_end x2) /\
  a_sample c = Rmin (a_sample x1) (a_sample x2).
Proof. exact common_x_spec. Qed.
Print Assumptions C13_common_axis.
Theorem C13_common_axis_symmetric : forall x1 x2 : axis RA,
  common_x_default RA x1 x2 = common_x_default RA x2 x1.
Proof. exact common_x_comm. Qed.
Print Assumptions C13_common_axis_symmetric.
Example C13_case : common_x_default QA (qx 0 2 1) (qx (-1) 1 (1#2)) = qx (-1)%Q 2%Q (1#2)%Q.
Proof. vm_compute. reflexivity. Qed.

(** ** C14 interpolation *)
Theorem C14_interpolation : forall (V : Vals RA) (L : VLaws V) (r : rel RA V) (nx : axis RA),
  axis_size RA (r_x r) = Ok (length (r_y r)) -> a_sample nx <> 0 ->
  exists xs arr r',
    axis_array RA (r_x r) = Ok xs /\ axis_array RA nx = Ok arr /\
    rel_interp RA V (default_config RA V) nx r = Ok r' /\ r_x r' = nx /\ length (r_y r') = length arr /\
    (forall i t v, nth_error arr i = Some t -> nth_error (r_y r') i = Some v -> pl_value xs (r_y r) t v).
Proof. exact @interp_full. Qed.
Print Assumptions C14_interpolation.
(** the specification determines the value *)
Theorem C14_value_unique : forall (V : Vals RA) (L : VLaws V) (x : axis RA) xs (ys : list (val V)) t v w,
  axis_array RA x = Ok xs -> length xs = length ys ->
  pl_value xs ys t v -> pl_value xs ys t w -> v = w.
Proof. exact @pl_unique. Qed.
Print Assumptions C14_value_unique.
Theorem C14_same_points_identity : forall (V : Vals RA) (L : VLaws V) (r : rel RA V) (nx : axis RA),
  axis_size RA (r_x r) = Ok (length (r_y r)) -> axis_array RA nx = axis_array RA (r_x r) ->
  rel_interp RA V (default_config RA V) nx r = Ok (mkRel nx (r_y r)).
Proof. exact @interp_same_points. Qed.
Print Assumptions C14_same_points_identity.
Example C14_case : match rel_interp QA QV (default_config QA QV) (qx (-1) 3 (1#2))
    (qrel 0 2 1 [1; 3; 7]%Q) with Ok r => r_y r | Err _ => [] end
  = [0; 0; 1; 2; 3; 5; 7; 0; 0]%Q.
Proof. vm_compute. reflexivity. Qed.

(** ** C15 range of interpolated values *)
Theorem C15_interpolated_range : forall xs (ys : list R) t v lo hi,
  (forall y, In y ys -> lo <= y <= hi) -> pl_value (V:=RV) xs ys t v ->
  lo <= v <= hi \/ (v = 0 /\ ((forall x, In x xs -> x < t) \/ (forall x, In x xs -> t < x))).
Proof. exact pl_bounds. Qed.
Print Assumptions C15_interpolated_range.
Theorem C15_interpolation_bounded : forall (r : rel RA RV) (nx : axis RA) lo hi r',
  axis_size RA (r_x r) = Ok (length (r_y r)) -> a_sample nx <> 0 ->
  (forall y, In y (r_y r) -> lo <= y <= hi) ->
  rel_interp RA RV (default_config RA RV) nx r = Ok r' ->
  exists xs arr, axis_array RA (r_x r) = Ok xs /\ axis_array RA nx = Ok arr /\
  forall i t v, nth_error arr i = Some t -> nth_error (r_y r') i = Some v ->
    lo <= v <= hi \/ (v = 0 /\ ((forall x, In x xs -> x < t) \/ (forall x, In x xs -> t < x))).
Proof.
  intros r nx lo hi r' Hv Hz Hb E.
  destruct (interp_full RV_laws r nx Hv Hz) as (xs & arr & r2 & H1 & H2 & H3 & _ & _ & H4).
  rewrite E in H3. injection H3 as <-. exists xs, arr. split; [exact H1|]. split; [exact H2|].
  intros i t v Ht Hv'. eapply pl_bounds; [exact Hb | exact (H4 i t v Ht Hv')].
Qed.
Print Assumptions C15_interpolation_bounded.
Example C15_case : forall y, In y (r_y ex_rel) -> 1 <= y <= 8.
Proof. intros y Hy. cbn in Hy. destruct Hy as [<-|[<-|[<-|[<-|[]]]]]; lra. Qed.

(** ** C16 pointwise arithmetic *)
(** the meaning of the ten operator methods *)
Definition op_meaning (V : Vals RA) : list (mathop * (val V -> val V -> val V)) :=
  [ (ADD, fun a b => v_add V a b); (RADD, fun a b => v_add V b a);
    (SUB, fun a b => v_sub V a b); (RSUB, fun a b => v_sub V b a);
    (MUL, fun a b => v_mul V a b); (RMUL, fun a b => v_mul V b a);
    (TRUEDIV, fun a b => v_div V a b); (RTRUEDIV, fun a b => v_div V b a);
    (POW, fun a b => v_pow V a b); (RPOW, fun a b => v_pow V b a) ].
Lemma op_meaning_ok V o f : In (o, f) (op_meaning V) -> forall a b, op_apply RA V o a b = f a b.
Proof. cbn. intros H. repeat destruct H as [H|H]; try (injection H as <- <-; reflexivity). destruct H. Qed.
Theorem C16_equal_axes : forall (V : Vals RA) (L : VLaws V) o f same (r1 r2 : rel RA V),
  In (o, f) (op_meaning V) -> valid r1 -> valid r2 -> r_x r1 = r_x r2 ->
  exists r', rel_op RA V (default_config RA V) o same r1 r2 = Ok r' /\ r_x r' = r_x r1 /\
    length (r_y r') = length (r_y r1) /\
    forall i a b, nth_error (r_y r1) i = Some a -> nth_error (r_y r2) i = Some b ->
      nth_error (r_y r') i = Some (f a b).
Proof.
  intros V L o f same r1 r2 Ho H1 H2 Hx.
  assert (Hl : length (r_y r1) = length (r_y r2)).
  { unfold valid in H1, H2. rewrite Hx in H1. congruence. }
  eexists. split; [exact (rel_op_equal_axes L o same r1 r2 H1 H2 Hx)|]. split; [reflexivity|]. cbn [r_y].
  split; [apply map2_length; exact Hl|].
  intros i a b Ha Hb. rewrite <- (op_meaning_ok V o f Ho). apply map2_nth; assumption.
Qed.
Print Assumptions C16_equal_axes.
Theorem C16_with_number : forall (V : Vals RA) o f (r : rel RA V) (c : val V),
  In (o, f) (op_meaning V) -> valid r ->
  exists r', rel_op_num RA V (default_config RA V) o r (OVal c) = Ok r' /\ r_x r' = r_x r /\
    length (r_y r') = length (r_y r) /\
    forall i a, nth_error (r_y r) i = Some a -> nth_error (r_y r') i = Some (f a c).
Proof.
  intros V o f r c Ho Hv. eexists. split; [exact (rel_op_num_generic RA V o r c Hv)|].
  split; [reflexivity|]. cbn [r_y]. split; [apply map_length|].
  intros i a Ha. rewrite nth_error_map, Ha. cbn [option_map]. f_equal. apply (op_meaning_ok V o f Ho).
Qed.
Print Assumptions C16_with_number.
Example C16_case : valid ex_rel /\ In (SUB, fun a b => v_sub RV a b) (op_meaning RV).
Proof. split; [exact ex_valid | cbn; tauto]. Qed.
Example C16_run : match rel_op_num QA QV (default_config QA QV) RSUB
    (qrel 0 2 1 [1; 3; 7]%Q) (OVal (A:=QA) (V:=QV) 10%Q) with Ok r => r_y r | Err _ => [] end
  = [9; 7; 3]%Q.
Proof. vm_compute. reflexivity. Qed.

(** ** C17 arithmetic across axes *)
Theorem C17_different_axes : forall (V : Vals RA) (L : VLaws V) o f (r1 r2 : rel RA V),
  In (o, f) (op_meaning V) -> valid r1 -> valid r2 ->
  exists xs1 xs2 arr r',
    axis_array RA (r_x r1) = Ok xs1 /\ axis_array RA (r_x r2) = Ok xs2 /\
    axis_array RA (r_x r') = Ok arr /\ length (r_y r') = length arr /\
    rel_op RA V (default_config RA V) o false r1 r2 = Ok r' /\
    a_start (r_x r') = Rmin (a_start (r_x r1)) (a_start (r_x r2)) /\
    a_end (r_x r') = Rmax (a_end (r_x r1)) (a_end (r_x r2)) /\
    a_sample (r_x r') = Rmin (a_sample (r_x r1)) (a_sample (r_x r2)) /\
    (forall i t v, nth_error arr i = Some t -> nth_error (r_y r') i = Some v ->
       exists v1 v2, pl_value xs1 (r_y r1) t v1 /\ pl_value xs2 (r_y r2) t v2 /\ v = f v1 v2).
Proof.
  intros V L o f r1 r2 Ho H1 H2.
  destruct (rel_op_pl L o r1 r2 H1 H2) as (xs1 & xs2 & arr & r' & A1 & A2 & A3 & A4 & A5 & A6 & A7 & A8 & A9).
  exists xs1, xs2, arr, r'. repeat (split; [assumption|]).
  intros i t v Ht Hv. destruct (A9 i t v Ht Hv) as (v1 & v2 & P1 & P2 & E). exists v1, v2.
  rewrite <- (op_meaning_ok V o f Ho). auto.
Qed.
Print Assumptions C17_different_axes.
Example C17_case : valid ex_rel /\ valid ex_odd /\ r_x ex_rel <> r_x ex_odd.
Proof.
  split; [exact ex_valid|]. split; [exact ex_odd_valid|]. unfold ex_rel, ex_odd, ex_axis. cbn [r_x].
  intros E. apply (f_equal (fun a => a_end a)) in E. cbn in E. lra.
Qed.

(** ** C18 commutativity and associativity *)
Theorem C18_commutative : forall (V : Vals RA) (L : VLaws V) o same (r1 r2 : rel RA V),
  (o = ADD \/ o = MUL) -> valid r1 -> valid r2 -> (same = true -> r_x r1 = r_x r2) ->
  rel_op RA V (default_config RA V) o same r1 r2 = rel_op RA V (default_config RA V) o same r2 r1.
Proof. exact @rel_op_comm. Qed.
Print Assumptions C18_commutative.
Theorem C18_associative_equal_axes : forall (V : Vals RA) (L : VLaws V) o s1 s2 s3 s4 (r1 r2 r3 : rel RA V),
  (o = ADD \/ o = MUL) -> valid r1 -> valid r2 -> valid r3 -> r_x r1 = r_x r2 -> r_x r2 = r_x r3 ->
  (do a <- rel_op RA V (default_config RA V) o s1 r1 r2; rel_op RA V (default_config RA V) o s2 a r3) =
  (do b <- rel_op RA V (default_config RA V) o s3 r2 r3; rel_op RA V (default_config RA V) o s4 r1 b) /\
  is_ok (do a <- rel_op RA V (default_config RA V) o s1 r1 r2; rel_op RA V (default_config RA V) o s2 a r3) = true.
Proof. exact @rel_op_assoc. Qed.
Print Assumptions C18_associative_equal_axes.
(** misaligned axes 0,1,2 / 0.5,1.5 / 0,0.5,..,2 : the two ways of adding differ *)
Definition ys_of (r : result (rel QA QV)) : list Q := match r with Ok r => r_y r | Err _ => [] end.
Theorem C18_associative_refuted :
  let r1 := qrel 0 2 1 [1; 2; 3]%Q in
  let r2 := qrel (1#2) (3#2) 1 [1; 1]%Q in
  let r3 := qrel 0 2 (1#2) [1; 0; 1; 0; 1]%Q in
  let plus := rel_op QA QV (default_config QA QV) ADD false in
  ys_of (do a <- plus r1 r2; plus a r3) = [2; 2; 4; 3; 4]%Q /\
  ys_of (do b <- plus r2 r3; plus r1 b) = [2; 5#2; 4; 7#2; 4]%Q.
Proof. split; vm_compute; reflexivity. Qed.
Print Assumptions C18_associative_refuted.

(** ** C19 select_data *)
Theorem C19_select : forall (V : Vals RA) (r : rel RA V) (lo hi : option R) xs,
  axis_array RA (r_x r) = Ok xs -> length xs = length (r_y r) ->
  let a := match lo with Some v => v | None => a_start (r_x r) end in
  let b := match hi with Some v => v | None => a_end (r_x r) end in
  let wanted := filter (fun p => Rleb a (fst p) && Rleb (fst p) b) (combine xs (r_y r)) in
  (wanted = [] -> rel_select RA V lo hi r = Err EIndex) /\
  (wanted <> [] -> exists r' xs', rel_select RA V lo hi r = Ok r' /\
      axis_array RA (r_x r') = Ok xs' /\ length xs' = length (r_y r') /\
      combine xs' (r_y r') = wanted /\ a_sample (r_x r') = a_sample (r_x r)).
Proof.
  intros V r lo hi xs Hx Hl.
  assert (Hv : valid r) by (apply axis_array_inv in Hx; destruct Hx as [Hx _]; unfold valid; rewrite <- Hl; exact Hx).
  rewrite (valid_array r Hv) in Hx. injection Hx as <-. exact (select_spec r lo hi Hv).
Qed.
Print Assumptions C19_select.
Example C19_case : ys_of (rel_select QA QV (Some (1#2)%Q) (Some 2%Q)
   (qrel 0 (5#2) 1 [1; 2; 4]%Q)) = [2]%Q
  /\ err_of (rel_select QA QV (Some (1#10)%Q) (Some (1#5)%Q)
   (qrel 0 (5#2) 1 [1; 2; 4]%Q)) = Some EIndex.
Proof. split; vm_compute; reflexivity. Qed.

(** ** C20 indexing with a number *)
Theorem C20_nearest_sample : forall (V : Vals RA) (r : rel RA V) (v : R) xs,
  axis_array RA (r_x r) = Ok xs -> length xs = length (r_y r) ->
  exists i x y, rel_getitem RA V v r = Ok (x, y) /\
    nth_error xs i = Some x /\ nth_error (r_y r) i = Some y /\
    forall j x', nth_error xs j = Some x' ->
      Rabs (x - v) <= Rabs (x' - v) /\ ((j < i)%nat -> Rabs (x - v) < Rabs (x' - v)).
Proof.
  intros V r v xs Hx Hl.
  assert (Hv : valid r) by (apply axis_array_inv in Hx; destruct Hx as [Hx _]; unfold valid; rewrite <- Hl; exact Hx).
  rewrite (valid_array r Hv) in Hx. injection Hx as <-. exact (getitem_spec r v Hv).
Qed.
Print Assumptions C20_nearest_sample.
(** a tie goes to the first point *)
Example C20_case : rel_getitem QA QV (3#2)%Q (qrel 0 3 1 [5; 6; 7; 8]%Q) = Ok (1%Q, 6%Q).
Proof. vm_compute. reflexivity. Qed.

(** ** C21 shift *)
Theorem C21_shift : forall (V : Vals RA) (r : rel RA V) (d : R), valid r -> exists r' xs,
  rel_shift RA V d r = Ok r' /\ r_y r' = r_y r /\ axis_array RA (r_x r) = Ok xs /\
  axis_array RA (r_x r') = Ok (map (fun x => x + d) xs) /\
  a_start (r_x r') = a_start (r_x r) + d /\ a_end (r_x r') = a_end (r_x r) + d /\
  a_sample (r_x r') = a_sample (r_x r).
Proof. exact @shift_spec. Qed.
Print Assumptions C21_shift.
Theorem C21_shift_composes : forall (V : Vals RA) (r : rel RA V) (a b : R), valid r ->
  (do r1 <- rel_shift RA V a r; rel_shift RA V b r1) = rel_shift RA V (a + b) r.
Proof. exact @shift_shift. Qed.
Print Assumptions C21_shift_composes.
Theorem C21_shift_inverse : forall (V : Vals RA) (r : rel RA V) (d : R), valid r ->
  (do r1 <- rel_shift RA V d r; rel_shift RA V (- d) r1) = Ok r.
Proof. exact @shift_back. Qed.
Print Assumptions C21_shift_inverse.
(** binary64: the axis 0, 0.25, sample 0.1 has 3 points, moved by 0.3 it has 4; and any axis is lost
    when moved far enough *)
Theorem C21_binary64_refuted :
  let r := mkRel (A:=FA) (V:=FV) (mkAxis (A:=FA) (f64 0 1) (f64 1 4) (f64 1 10)) [f64 1 1; f64 1 1; f64 1 1] in
  let q := mkRel (A:=FA) (V:=FV) (mkAxis (A:=FA) (f64 0 1) (f64 1 1) (f64 1 1)) [f64 1 1; f64 1 1] in
  is_ok (rel_shift FA FV (f64 0 1) r) = true /\
  err_of (rel_shift FA FV (f64 3 10) r) = Some (ENotEqual 4 3) /\
  is_ok (rel_shift FA FV (f64 0 1) q) = true /\
  err_of (rel_shift FA FV (f64 (10^16) 1) q) = Some (ENotEqual 1 2).
Proof. repeat split; vm_compute; reflexivity. Qed.
Print Assumptions C21_binary64_refuted.

(** ** C22 diff and integrate *)
Theorem C22_diff : forall (V : Vals RA) (r : rel RA V),
  valid r -> 0 < a_sample (r_x r) -> a_start (r_x r) <= a_end (r_x r) ->
  (2 <= length (r_y r))%nat -> ~ is_tie ((a_end (r_x r) - a_start (r_x r)) / a_sample (r_x r)) ->
  exists r', rel_diff RA V (default_config RA V) r = Ok r' /\
    a_start (r_x r') = a_start (r_x r) + a_sample (r_x r) / 2 /\
    a_end (r_x r') = a_end (r_x r) - a_sample (r_x r) / 2 /\ a_sample (r_x r') = a_sample (r_x r) /\
    length (r_y r') = (length (r_y r) - 1)%nat /\
    forall i, (S i < length (r_y r))%nat ->
      nth i (r_y r') (v_of V 0) =
      v_div V (v_sub V (nth (S i) (r_y r) (v_of V 0)) (nth i (r_y r) (v_of V 0))) (v_of V (a_sample (r_x r))).
Proof.
  intros V r Hv Hd Hs Hn Ht. destruct (diff_ok r Hv Hd Hs Hn Ht) as (r' & E & _ & X & Ln & Y).
  exists r'. rewrite X. split; [exact E|]. do 3 (split; [reflexivity|]). split; assumption.
Qed.
Print Assumptions C22_diff.
Theorem C22_integrate : forall (V : Vals RA) (L : VLaws V) (r : rel RA V),
  valid r -> 0 < a_sample (r_x r) -> a_start (r_x r) <= a_end (r_x r) ->
  (2 <= length (r_y r))%nat -> ~ is_tie ((a_end (r_x r) - a_start (r_x r)) / a_sample (r_x r)) ->
  exists r', rel_integrate RA V (default_config RA V) r = Ok r' /\
    a_start (r_x r') = a_start (r_x r) + a_sample (r_x r) /\
    a_end (r_x r') = a_end (r_x r) /\ a_sample (r_x r') = a_sample (r_x r) /\
    length (r_y r') = (length (r_y r) - 1)%nat /\
    forall k, (S k < length (r_y r))%nat ->
      nth k (r_y r') (v_of V 0) = v_mul V (v_of V (a_sample (r_x r)))
        (vsum (fun i => v_div V (v_add V (nth i (r_y r) (v_of V 0)) (nth (S i) (r_y r) (v_of V 0))) (v_of V 2)) (S k)).
Proof.
  intros V L r Hv Hd Hs Hn Ht. destruct (int_ok L r Hv Hd Hs Hn Ht) as (r' & E & _ & X & Ln & Y).
  exists r'. rewrite X. split; [exact E|]. do 3 (split; [reflexivity|]). split; assumption.
Qed.
Print Assumptions C22_integrate.
Theorem C22_tie_fails : forall (V : Vals RA) (r : rel RA V),
  valid r -> 0 < a_sample (r_x r) -> a_start (r_x r) <= a_end (r_x r) ->
  (2 <= length (r_y r))%nat -> is_tie ((a_end (r_x r) - a_start (r_x r)) / a_sample (r_x r)) ->
  (exists m, m <> (length (r_y r) - 1)%nat /\
     rel_diff RA V (default_config RA V) r = Err (ENotEqual m (length (r_y r) - 1))) /\
  (exists m, m <> (length (r_y r) - 1)%nat /\
     rel_integrate RA V (default_config RA V) r = Err (ENotEqual m (length (r_y r) - 1))).
Proof. intros V r Hv Hd Hs Hn Ht. exact (proj2 (diff_int_ok r Hv Hd Hs Hn) Ht). Qed.
Print Assumptions C22_tie_fails.
Theorem C22_single_point_fails : forall (V : Vals RA) (r : rel RA V), valid r -> length (r_y r) = 1%nat ->
  (exists m, rel_diff RA V (default_config RA V) r = Err (ENotEqual m 0)) /\
  (exists m, rel_integrate RA V (default_config RA V) r = Err (ENotEqual m 0)).
Proof. exact @diff_int_single. Qed.
Print Assumptions C22_single_point_fails.
Example C22_case_tie : valid ex_odd /\ is_tie ((a_end (r_x ex_odd) - a_start (r_x ex_odd)) / a_sample (r_x ex_odd)).
Proof. split; [exact ex_odd_valid|]. exists 2%Z. cbn. lra. Qed.
Example C22_case_ok : valid ex_rel /\ ~ is_tie ((a_end (r_x ex_rel) - a_start (r_x ex_rel)) / a_sample (r_x ex_rel)).
Proof.
  split; [exact ex_valid|]. intros [k E]. cbn in E.
  assert (H : IZR (2 * k) = IZR 5) by (rewrite mult_IZR; lra). apply eq_IZR in H. lia.
Qed.

(** ** C23 discrete fundamental theorem *)
Theorem C23_integrate_then_diff : forall (V : Vals RA) (L : VLaws V) (r : rel RA V),
  valid r -> 0 < a_sample (r_x r) -> a_start (r_x r) <= a_end (r_x r) ->
  (3 <= length (r_y r))%nat -> ~ is_tie ((a_end (r_x r) - a_start (r_x r)) / a_sample (r_x r)) ->
  exists r', (do i <- rel_integrate RA V (default_config RA V) r; rel_diff RA V (default_config RA V) i) = Ok r' /\
    a_start (r_x r') = a_start (r_x r) + 3 / 2 * a_sample (r_x r) /\
    a_end (r_x r') = a_end (r_x r) - 1 / 2 * a_sample (r_x r) /\ a_sample (r_x r') = a_sample (r_x r) /\
    length (r_y r') = (length (r_y r) - 2)%nat /\
    forall k, (S (S k) < length (r_y r))%nat ->
      nth k (r_y r') (v_of V 0) =
      v_div V (v_add V (nth (S k) (r_y r) (v_of V 0)) (nth (S (S k)) (r_y r) (v_of V 0))) (v_of V 2).
Proof. exact @int_diff. Qed.
Print Assumptions C23_integrate_then_diff.
Theorem C23_diff_then_integrate : forall (V : Vals RA) (L : VLaws V) (r : rel RA V),
  valid r -> 0 < a_sample (r_x r) -> a_start (r_x r) <= a_end (r_x r) ->
  (3 <= length (r_y r))%nat -> ~ is_tie ((a_end (r_x r) - a_start (r_x r)) / a_sample (r_x r)) ->
  exists r', (do i <- rel_diff RA V (default_config RA V) r; rel_integrate RA V (default_config RA V) i) = Ok r' /\
    a_start (r_x r') = a_start (r_x r) + 3 / 2 * a_sample (r_x r) /\
    a_end (r_x r') = a_end (r_x r) - 1 / 2 * a_sample (r_x r) /\ a_sample (r_x r') = a_sample (r_x r) /\
    length (r_y r') = (length (r_y r) - 2)%nat /\
    forall k, (S (S k) < length (r_y r))%nat ->
      nth k (r_y r') (v_of V 0) =
      v_sub V (v_div V (v_add V (nth (S k) (r_y r) (v_of V 0)) (nth (S (S k)) (r_y r) (v_of V 0))) (v_of V 2))
              (v_div V (v_add V (nth 0 (r_y r) (v_of V 0)) (nth 1 (r_y r) (v_of V 0))) (v_of V 2)).
Proof. exact @diff_int. Qed.
Print Assumptions C23_diff_then_integrate.
Example C23_case : let r := qrel 0 3 1 [1; 2; 4; 8]%Q in
  ys_of (do i <- rel_integrate QA QV (default_config QA QV) r; rel_diff QA QV (default_config QA QV) i) = [3; 6]%Q /\
  ys_of (do i <- rel_diff QA QV (default_config QA QV) r; rel_integrate QA QV (default_config QA QV) i) = [3#2; 9#2]%Q.
Proof. split; vm_compute; reflexivity. Qed.

(** ** C24 get_norm *)
Theorem C24_norm_value : forall r : rel RA RV, valid r ->
  rel_norm RA RV (default_config RA RV) r =
  Ok ((a_end (r_x r) - a_start (r_x r)) / INR (length (r_y r) - 1) / a_sample (r_x r) *
      vsum (V:=RV) (fun i => (nth i (r_y r) 0 * nth i (r_y r) 0 + nth (S i) (r_y r) 0 * nth (S i) (r_y r) 0) / 2)
        (length (r_y r) - 1)).
Proof. exact norm_eq. Qed.
Print Assumptions C24_norm_value.
Theorem C24_norm_nonnegative : forall r : rel RA RV, valid r ->
  0 <= (a_end (r_x r) - a_start (r_x r)) / a_sample (r_x r) ->
  exists N, rel_norm RA RV (default_config RA RV) r = Ok N /\ 0 <= N.
Proof. exact norm_nonneg. Qed.
Print Assumptions C24_norm_nonnegative.
Theorem C24_norm_zero : forall r : rel RA RV, valid r ->
  0 < (a_end (r_x r) - a_start (r_x r)) / a_sample (r_x r) -> (2 <= length (r_y r))%nat ->
  (rel_norm RA RV (default_config RA RV) r = Ok 0 <-> forall y, In y (r_y r) -> y = 0).
Proof. exact norm_zero. Qed.
Print Assumptions C24_norm_zero.
Theorem C24_norm_homogeneous : forall (r : rel RA RV) (c : R), valid r -> exists r' N,
  rel_op_num RA RV (default_config RA RV) RMUL r (OVal (V:=RV) c) = Ok r' /\
  rel_norm RA RV (default_config RA RV) r = Ok N /\
  rel_norm RA RV (default_config RA RV) r' = Ok (c * c * N).
Proof. exact norm_scale. Qed.
Print Assumptions C24_norm_homogeneous.
(** complex samples: the square is not the squared modulus, so the "norm" of i, i is -1 *)
Theorem C24_complex_refuted :
  rel_norm RA CV (default_config RA CV) (mkRel (A:=RA) (V:=CV) (mkAxis (A:=RA) 0 1 1) [Ci; Ci]) = Ok (RtoC (-1)).
Proof. exact norm_complex. Qed.
Print Assumptions C24_complex_refuted.

(** ** C25 correlation *)
Theorem C25_correlate : forall (V : Vals RA) (L : VLaws V) (CL : CLaws V) (r1 r2 : rel RA V) xs1 xs2,
  axis_array RA (r_x r1) = Ok xs1 -> length xs1 = length (r_y r1) ->
  axis_array RA (r_x r2) = Ok xs2 -> length xs2 = length (r_y r2) ->
  let T := Rmax (a_end (r_x r1) - a_start (r_x r1)) (a_end (r_x r2) - a_start (r_x r2)) in
  let d := Rmin (a_sample (r_x r1)) (a_sample (r_x r2)) in
  exists n y1 y2, axis_size RA (mkAxis (A:=RA) 0 T d) = Ok n /\
    from_zero xs1 (r_y r1) T n y1 /\ from_zero xs2 (r_y r2) T n y2 /\
    (Rabs (Rabs (T / d) - INR (n - 1)) <= / 4 ->
       exists r', rel_correlate RA V (default_config RA V) r1 r2 = Ok r' /\ r_x r' = mkAxis (A:=RA) (- T) T d /\
         length (r_y r') = (2 * n - 1)%nat /\
         forall k, (k < 2 * n - 1)%nat ->
           nth k (r_y r') (v_of V 0) = corr_at y1 y2 (Z.of_nat k - (Z.of_nat n - 1))) /\
    (/ 4 < Rabs (Rabs (T / d) - INR (n - 1)) ->
       exists m, m <> (2 * n - 1)%nat /\
         rel_correlate RA V (default_config RA V) r1 r2 = Err (ENotEqual m (2 * n - 1))).
Proof. exact @correlate_full. Qed.
Print Assumptions C25_correlate.
Theorem C25_correlate_equal_axes : forall (V : Vals RA) (L : VLaws V) (CL : CLaws V) (r1 r2 : rel RA V),
  valid r1 -> valid r2 -> r_x r1 = r_x r2 ->
  let T := a_end (r_x r1) - a_start (r_x r1) in let d := a_sample (r_x r1) in let n := length (r_y r1) in
  (Rabs (Rabs (T / d) - INR (n - 1)) <= / 4 ->
     exists r', rel_correlate RA V (default_config RA V) r1 r2 = Ok r' /\ r_x r' = mkAxis (A:=RA) (- T) T d /\
       length (r_y r') = (2 * n - 1)%nat /\
       forall k, (k < 2 * n - 1)%nat ->
         nth k (r_y r') (v_of V 0) = corr_at (r_y r1) (r_y r2) (Z.of_nat k - (Z.of_nat n - 1))) /\
  (/ 4 < Rabs (Rabs (T / d) - INR (n - 1)) -> is_ok (rel_correlate RA V (default_config RA V) r1 r2) = false).
Proof. exact @correlate_equal_axes. Qed.
Print Assumptions C25_correlate_equal_axes.
Theorem C25_correlate_mirror : forall (V : Vals RA) (L : VLaws V) (CL : CLaws V) (r1 r2 r' r'' : rel RA V),
  valid r1 -> valid r2 ->
  rel_correlate RA V (default_config RA V) r1 r2 = Ok r' -> rel_correlate RA V (default_config RA V) r2 r1 = Ok r'' ->
  r_x r'' = r_x r' /\ r_y r'' = map (v_conj V) (rev (r_y r')).
Proof. exact @correlate_swap. Qed.
Print Assumptions C25_correlate_mirror.
Example C25_case : ys_of (rel_correlate QA QV (default_config QA QV)
    (qrel 1 3 1 [1; 2; 3]%Q) (qrel 0 2 1 [0; 1; 5]%Q))
  = [5; 11; 17; 3; 0]%Q
  /\ err_of (rel_correlate QA QV (default_config QA QV)
    (qrel 0 (5#2) 1 [1; 2; 3]%Q) (qrel 0 (5#2) 1 [0; 1; 5]%Q))
  = Some (ENotEqual 6 5).
Proof. split; vm_compute; reflexivity. Qed.

(** ** C26 autocorrelation *)
Theorem C26_autocorrelation_real : forall (r r' : rel RA RV), valid r ->
  rel_correlate RA RV (default_config RA RV) r r = Ok r' ->
  let E := vsum (V:=RV) (fun i => nth i (r_y r) 0 * nth i (r_y r) 0) (length (r_y r)) in
  nth_error (r_y r') (length (r_y r) - 1) = Some E /\ forall v, In v (r_y r') -> Rabs v <= E.
Proof. exact auto_real. Qed.
Print Assumptions C26_autocorrelation_real.
Theorem C26_autocorrelation_complex : forall (r r' : rel RA CV), valid r ->
  rel_correlate RA CV (default_config RA CV) r r = Ok r' ->
  let E := vsum (V:=RV) (fun i => Cmod (nth i (r_y r) (RtoC 0)) * Cmod (nth i (r_y r) (RtoC 0))) (length (r_y r)) in
  nth_error (r_y r') (length (r_y r) - 1) = Some (RtoC E) /\ forall v, In v (r_y r') -> Cmod v <= E.
Proof. exact auto_complex. Qed.
Print Assumptions C26_autocorrelation_complex.
Example C26_case : ys_of (rel_correlate QA QV (default_config QA QV)
    (qrel 1 3 1 [1; -2; 3]%Q) (qrel 1 3 1 [1; -2; 3]%Q))
  = [3; -8; 14; -8; 3]%Q.
Proof. vm_compute. reflexivity. Qed.

(** ** C27 convolution *)
Theorem C27_convolve_commutes : forall (V : Vals RA) (L : VLaws V) (r1 r2 : rel RA V), valid r1 -> valid r2 ->
  rel_convolve RA V (default_config RA V) r1 r2 = rel_convolve RA V (default_config RA V) r2 r1.
Proof. exact @convolve_comm. Qed.
Print Assumptions C27_convolve_commutes.
Theorem C27_convolve : forall (V : Vals RA) (L : VLaws V) (r1 r2 : rel RA V) xs1 xs2,
  axis_array RA (r_x r1) = Ok xs1 -> length xs1 = length (r_y r1) ->
  axis_array RA (r_x r2) = Ok xs2 -> length xs2 = length (r_y r2) ->
  let T := Rmax (a_end (r_x r1) - a_start (r_x r1)) (a_end (r_x r2) - a_start (r_x r2)) in
  let d := Rmin (a_sample (r_x r1)) (a_sample (r_x r2)) in
  exists n y1 y2, axis_size RA (mkAxis (A:=RA) 0 T d) = Ok n /\
    from_zero xs1 (r_y r1) T n y1 /\ from_zero xs2 (r_y r2) T n y2 /\
    (Rabs (Rabs (T / d) - INR (n - 1)) <= / 4 ->
       exists r', rel_convolve RA V (default_config RA V) r1 r2 = Ok r' /\ r_x r' = mkAxis (A:=RA) (- T) T d /\
         length (r_y r') = (2 * n - 1)%nat /\
         forall k, (k < 2 * n - 1)%nat -> nth k (r_y r') (v_of V 0) = conv_at y1 y2 (Z.of_nat k)) /\
    (/ 4 < Rabs (Rabs (T / d) - INR (n - 1)) ->
       exists m, m <> (2 * n - 1)%nat /\
         rel_convolve RA V (default_config RA V) r1 r2 = Err (ENotEqual m (2 * n - 1))).
Proof. exact @convolve_full_spec. Qed.
Print Assumptions C27_convolve.
(** convolution with a unit impulse at time 0 gives the samples of [r] but starting at -T *)
Theorem C27_impulse_moves_axis : forall (V : Vals RA) (L : VLaws V) (r : rel RA V) (m : nat), valid r ->
  exact_span (a_start (r_x r)) (a_end (r_x r)) (a_sample (r_x r)) m -> a_start (r_x r) = 0 ->
  exists r', rel_convolve RA V (default_config RA V) r
      (mkRel (r_x r) (v_of V 1 :: repeat (v_of V 0) (length (r_y r) - 1))) = Ok r' /\
    r_x r' = mkAxis (A:=RA) (- a_end (r_x r)) (a_end (r_x r)) (a_sample (r_x r)) /\
    r_y r' = r_y r ++ repeat (v_of V 0) (length (r_y r) - 1).
Proof. exact @convolve_impulse. Qed.
Print Assumptions C27_impulse_moves_axis.
Example C27_case : valid ex_rel /\ exact_span (a_start (r_x ex_rel)) (a_end (r_x ex_rel)) (a_sample (r_x ex_rel)) 3.
Proof. split; [exact ex_valid|]. unfold exact_span. cbn. lra. Qed.
