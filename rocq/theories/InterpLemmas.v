(** Piecewise-linear interpolation: the model's [interp1d] meets the specification [pl_value]. *)
From Coq Require Import Reals ZArith List Bool Lia Lra Sorted.
From Verif Require Import Num Numpy Spec AxisModel RelModel RLemmas AxisLemmas.
Import ListNotations.
Local Open Scope R_scope.

(** strictly increasing / decreasing lists *)
Definition incr (l : list R) : Prop :=
  forall i j a b, (i < j)%nat -> nth_error l i = Some a -> nth_error l j = Some b -> a < b.
Definition decr (l : list R) : Prop :=
  forall i j a b, (i < j)%nat -> nth_error l i = Some a -> nth_error l j = Some b -> b < a.

Lemma incr_tail x l : incr (x :: l) -> incr l.
Proof. intros H i j a b Hij Ha Hb. apply (H (S i) (S j)); [lia|exact Ha|exact Hb]. Qed.
Lemma incr_head x l a : incr (x :: l) -> In a l -> x < a.
Proof.
  intros H Ha. apply In_nth_error in Ha. destruct Ha as [i Hi].
  apply (H 0%nat (S i)); [lia|reflexivity|exact Hi].
Qed.
Lemma decr_tail x l : decr (x :: l) -> decr l.
Proof. intros H i j a b Hij Ha Hb. apply (H (S i) (S j)); [lia|exact Ha|exact Hb]. Qed.
Lemma decr_head x l a : decr (x :: l) -> In a l -> a < x.
Proof.
  intros H Ha. apply In_nth_error in Ha. destruct Ha as [i Hi].
  apply (H 0%nat (S i)); [lia|reflexivity|exact Hi].
Qed.
Lemma incr_inj l i j a : incr l -> nth_error l i = Some a -> nth_error l j = Some a -> i = j.
Proof.
  intros H Hi Hj. destruct (Nat.lt_trichotomy i j) as [Hl|[He|Hl]]; [|exact He|].
  - pose proof (H i j a a Hl Hi Hj). lra.
  - pose proof (H j i a a Hl Hj Hi). lra.
Qed.

Lemma grid_incr s e n : s < e -> incr (grid s e n).
Proof.
  intros Hse i j a b Hij Ha Hb. apply grid_nth_inv in Ha, Hb. destruct Ha as [Hi ->], Hb as [Hj ->].
  unfold grid_pt. assert (0 < (e - s) / INR (n - 1)).
  { apply Rdiv_lt_0_compat; [lra|]. apply lt_0_INR. lia. }
  apply Rplus_lt_compat_l. apply Rmult_lt_compat_r; [exact H|]. apply lt_INR. exact Hij.
Qed.
Lemma grid_decr s e n : e < s -> decr (grid s e n).
Proof.
  intros Hse i j a b Hij Ha Hb. apply grid_nth_inv in Ha, Hb. destruct Ha as [Hi ->], Hb as [Hj ->].
  unfold grid_pt. assert (0 < (s - e) / INR (n - 1)).
  { apply Rdiv_lt_0_compat; [lra|]. apply lt_0_INR. lia. }
  replace ((e - s) / INR (n - 1)) with (- ((s - e) / INR (n - 1))) by (unfold Rdiv; lra).
  assert (INR i < INR j) by (apply lt_INR; exact Hij).
  nra.
Qed.
Lemma single_incr (l : list R) : (length l <= 1)%nat -> incr l.
Proof.
  intros H i j a b Hij Ha Hb. apply nth_error_len in Ha, Hb. lia.
Qed.
Lemma axis_mono (a : axis RA) l : axis_array RA a = Ok l -> incr l \/ decr l.
Proof.
  intros H. apply axis_array_inv in H. destruct H as [Hs Hl].
  destruct (Nat.le_gt_cases (length l) 1) as [H1|H1]; [left; apply single_incr; exact H1|].
  pose proof (axis_size_two a _ Hs ltac:(lia)) as Hne.
  destruct (Rlt_le_dec (a_start a) (a_end a)) as [Hlt|Hle].
  - left. rewrite Hl. apply grid_incr. exact Hlt.
  - right. rewrite Hl. apply grid_decr. lra.
Qed.

Section Pts.
Context {V : Vals RA} (L : VLaws V).
Notation val := (val V).

Local Notation "0v" := (v_of V 0).
Add Field Vfield : (vl_field V L).

Lemma vof_nz (r : R) : r <> 0 -> v_of V r <> v_of V 0.
Proof. intros H E. apply H. exact (vl_of_inj V L r 0 E). Qed.
Lemma vof_opp (r : R) : v_of V (- r) = v_sub V (v_of V 0) (v_of V r).
Proof.
  assert (E : v_add V (v_of V (- r)) (v_of V r) = v_of V 0).
  { rewrite <- (vl_of_add V L). f_equal. lra. }
  rewrite <- E. ring.
Qed.
Lemma vof_sub (a b : R) : v_of V (a - b) = v_sub V (v_of V a) (v_of V b).
Proof. unfold Rminus. rewrite (vl_of_add V L), vof_opp. ring. Qed.
Lemma vof_inv (r : R) : r <> 0 -> v_of V (/ r) = v_div V (v_of V 1) (v_of V r).
Proof.
  intros Hr. assert (E : v_mul V (v_of V (/ r)) (v_of V r) = v_of V 1).
  { rewrite <- (vl_of_mul V L). f_equal. field. exact Hr. }
  rewrite <- E. field. apply vof_nz. exact Hr.
Qed.
Lemma vof_div (a b : R) : b <> 0 -> v_of V (a / b) = v_div V (v_of V a) (v_of V b).
Proof.
  intros Hb. unfold Rdiv. rewrite (vl_of_mul V L), vof_inv by exact Hb. field. apply vof_nz. exact Hb.
Qed.

Lemma line_sym x0 y0 x1 y1 t : x0 <> x1 -> line (V:=V) x0 y0 x1 y1 t = line x1 y1 x0 y0 t.
Proof.
  intros H. unfold line. rewrite !vof_div by lra. rewrite !vof_sub.
  field. rewrite <- !vof_sub. split; apply vof_nz; lra.
Qed.
Lemma line_model x0 y0 x1 y1 t : x0 <> x1 ->
  v_add V (v_mul V (v_div V (v_sub V y1 y0) (v_of V (x1 - x0))) (v_of V (t - x0))) y0
  = line x0 y0 x1 y1 t.
Proof.
  intros H. unfold line. rewrite vof_div by lra. field. apply vof_nz. lra.
Qed.
Lemma line_left x0 y0 x1 y1 : line (V:=V) x0 y0 x1 y1 x0 = y0.
Proof.
  unfold line. replace ((x0 - x0) / (x1 - x0)) with 0 by (unfold Rdiv; lra). ring.
Qed.

(** *** sorting *)
Lemma insert_front (p : R * val) l : (forall q, In q l -> fst p < fst q) -> insert_pt RA V p l = p :: l.
Proof.
  destruct l as [|q l]; [reflexivity|]. intros H. cbn [insert_pt RA n_lt]. rr.
  replace (Rltb (fst q) (fst p)) with false; [reflexivity|].
  symmetry. apply Rltb_false. apply Rlt_le, H. left. reflexivity.
Qed.
Lemma insert_back (p : R * val) l : (forall q, In q l -> fst q < fst p) -> insert_pt RA V p l = l ++ [p].
Proof.
  induction l as [|q l IH]; [reflexivity|]. intros H. cbn [insert_pt RA n_lt]. rr.
  replace (Rltb (fst q) (fst p)) with true by (symmetry; apply Rltb_true; apply H; left; reflexivity).
  cbn [app]. f_equal. apply IH. intros q' Hq'. apply H. right. exact Hq'.
Qed.
Lemma sort_incr (P : list (R * val)) : incr (map fst P) -> sort_pts RA V P = P.
Proof.
  induction P as [|p P IH]; intros H; [reflexivity|].
  change (sort_pts RA V (p :: P)) with (insert_pt RA V p (sort_pts RA V P)).
  rewrite IH by (eapply incr_tail; exact H). apply insert_front.
  intros q Hq. eapply incr_head; [exact H|]. apply in_map. exact Hq.
Qed.
Lemma sort_decr (P : list (R * val)) : decr (map fst P) -> sort_pts RA V P = rev P.
Proof.
  induction P as [|p P IH]; intros H; [reflexivity|].
  change (sort_pts RA V (p :: P)) with (insert_pt RA V p (sort_pts RA V P)).
  rewrite IH by (eapply decr_tail; exact H). cbn [rev]. apply insert_back.
  intros q Hq. apply in_rev in Hq. eapply decr_head; [exact H|]. apply in_map. exact Hq.
Qed.

(** *** evaluation on increasing points *)
Lemma interp_in_cons x0 y0 x1 y1 (P : list (R * val)) t :
  interp_in RA V ((x0, y0) :: (x1, y1) :: P) t =
  if Rltb t x1 then (if Reqb x0 t then y0
     else v_add V (v_mul V (v_div V (v_sub V y1 y0) (v_of V (x1 - x0))) (v_of V (t - x0))) y0)
  else interp_in RA V ((x1, y1) :: P) t.
Proof. reflexivity. Qed.

Lemma interp_in_point (P : list (R * val)) i t y :
  incr (map fst P) -> nth_error P i = Some (t, y) -> interp_in RA V P t = y.
Proof.
  revert i; induction P as [|[x0 y0] P IH]; intros i Hinc Hn; [destruct i; discriminate|].
  destruct P as [|[x1 y1] P].
  - destruct i as [|[|i]]; try discriminate. injection Hn as -> ->. reflexivity.
  - rewrite interp_in_cons. destruct i as [|i].
    + injection Hn as -> ->.
      assert (t < x1) by (apply (Hinc 0%nat 1%nat); [lia|reflexivity|reflexivity]).
      replace (Rltb t x1) with true by (symmetry; apply Rltb_true; exact H).
      replace (Reqb t t) with true by (symmetry; apply Reqb_true; reflexivity). reflexivity.
    + cbn [nth_error] in Hn.
      assert (x1 <= t).
      { destruct i as [|i]; [injection Hn as -> _; lra|]. apply Rlt_le.
        apply (Hinc 1%nat (S (S i))); [lia|reflexivity|]. cbn [map nth_error fst].
        rewrite nth_error_map. cbn [nth_error] in Hn. rewrite Hn. reflexivity. }
      replace (Rltb t x1) with false by (symmetry; apply Rltb_false; exact H).
      apply (IH i); [eapply incr_tail; exact Hinc | exact Hn].
Qed.
Lemma interp_in_between (P : list (R * val)) i x0 y0 x1 y1 t :
  incr (map fst P) -> nth_error P i = Some (x0, y0) -> nth_error P (S i) = Some (x1, y1) ->
  x0 < t < x1 -> interp_in RA V P t = line x0 y0 x1 y1 t.
Proof.
  revert i; induction P as [|[a0 b0] P IH]; intros i Hinc H0 H1 Ht; [destruct i; discriminate|].
  destruct P as [|[a1 b1] P]; [destruct i; discriminate|].
  rewrite interp_in_cons. destruct i as [|i].
  - cbn in H0, H1. injection H0 as -> ->. injection H1 as -> ->.
    replace (Rltb t x1) with true by (symmetry; apply Rltb_true; lra).
    replace (Reqb x0 t) with false by (symmetry; apply Reqb_false; lra).
    apply line_model. lra.
  - cbn [nth_error] in H0, H1.
    assert (a1 <= x0).
    { destruct i as [|i]; [injection H0 as -> _; lra|]. apply Rlt_le.
      apply (Hinc 1%nat (S (S i))); [lia|reflexivity|]. cbn [map nth_error fst].
      rewrite nth_error_map. cbn [nth_error] in H0. rewrite H0. reflexivity. }
    replace (Rltb t a1) with false by (symmetry; apply Rltb_false; lra).
    apply (IH i); [eapply incr_tail; exact Hinc | exact H0 | exact H1 | exact Ht].
Qed.

Lemma last_In {T} (l : list T) d : l <> [] -> In (last l d) l.
Proof.
  intros H. apply (nth_error_In _ (length l - 1)). apply last_nth_error. exact H.
Qed.
Lemma interp_at_unfold p (P : list (R * val)) t :
  interp_at RA V (p :: P) t =
  if Rltb t (fst p) || Rltb (fst (last (p :: P) (t, 0v))) t then 0v else interp_in RA V (p :: P) t.
Proof. destruct p. reflexivity. Qed.

Lemma interp_at_inside (P : list (R * val)) t p q :
  incr (map fst P) -> In p P -> In q P -> fst p <= t -> t <= fst q ->
  interp_at RA V P t = interp_in RA V P t.
Proof.
  intros Hinc Hp Hq Hpt Htq. destruct P as [|p0 P]; [destruct Hp|].
  rewrite interp_at_unfold. rr.
  assert (H1 : fst p0 <= t).
  { destruct Hp as [->|Hp]; [exact Hpt|].
    pose proof (incr_head (fst p0) (map fst P) (fst p) Hinc (in_map fst P p Hp)). lra. }
  assert (H2 : t <= fst (last (p0 :: P) (t, 0v))).
  { apply Rle_trans with (fst q); [exact Htq|].
    pose proof (last_nth_error (p0 :: P) (t, 0v) ltac:(discriminate)) as HL.
    apply In_nth_error in Hq. destruct Hq as [i Hi].
    assert (i <= length (p0 :: P) - 1)%nat by (apply nth_error_len in Hi; lia).
    destruct (Nat.eq_dec i (length (p0 :: P) - 1)) as [->|Hne].
    - assert (Eq : q = last (p0 :: P) (t, 0v)) by congruence. rewrite Eq. apply Rle_refl.
    - apply Rlt_le. apply (Hinc i (length (p0 :: P) - 1)%nat); [lia| |].
      + rewrite nth_error_map, Hi. reflexivity.
      + rewrite nth_error_map, HL. reflexivity. }
  replace (Rltb t (fst p0)) with false by (symmetry; apply Rltb_false; exact H1).
  replace (Rltb (fst (last (p0 :: P) (t, 0v))) t) with false by (symmetry; apply Rltb_false; exact H2).
  reflexivity.
Qed.
Lemma interp_at_outside (P : list (R * val)) t :
  ((forall p, In p P -> fst p < t) \/ (forall p, In p P -> t < fst p)) -> interp_at RA V P t = 0v.
Proof.
  intros H. destruct P as [|p0 P]; [reflexivity|]. rewrite interp_at_unfold. rr. destruct H as [H|H].
  - replace (Rltb (fst (last (p0 :: P) (t, 0v))) t) with true.
    + rewrite orb_true_r. reflexivity.
    + symmetry. apply Rltb_true. apply H. apply last_In. discriminate.
  - replace (Rltb t (fst p0)) with true; [reflexivity|].
    symmetry. apply Rltb_true. apply H. left. reflexivity.
Qed.

(** every t is at a point, between two neighbours, or outside *)
Lemma incr_locate (l : list R) t : incr l -> l <> [] ->
  (exists i, nth_error l i = Some t) \/
  (exists i a b, nth_error l i = Some a /\ nth_error l (S i) = Some b /\ a < t < b) \/
  (forall x, In x l -> x < t) \/ (forall x, In x l -> t < x).
Proof.
  induction l as [|a l IH]; intros Hinc Hne; [tauto|].
  destruct (Rtotal_order t a) as [Hlt|[->|Hgt]].
  - right; right; right. intros x [<-|Hx]; [exact Hlt|].
    pose proof (incr_head a l x Hinc Hx). lra.
  - left. exists 0%nat. reflexivity.
  - destruct l as [|b l].
    + right; right; left. intros x [<-|[]]. exact Hgt.
    + destruct (Rlt_le_dec t b) as [Htb|Hbt].
      * right; left. exists 0%nat, a, b. cbn. auto.
      * destruct (IH (incr_tail _ _ Hinc) ltac:(discriminate)) as [[i Hi]|[(i & c & d & Hc & Hd & Hcd)|[Hall|Hall]]].
        -- left. exists (S i). exact Hi.
        -- right; left. exists (S i), c, d. auto.
        -- right; right; left. intros x [<-|Hx]; [exact Hgt | exact (Hall x Hx)].
        -- exfalso. pose proof (Hall b (or_introl eq_refl)). lra.
Qed.

(** *** pl_value for points lists *)
Lemma nth_combine {S T} (l : list S) (m : list T) i a b :
  nth_error (combine l m) i = Some (a, b) <-> nth_error l i = Some a /\ nth_error m i = Some b.
Proof.
  revert m i; induction l as [|x l IH]; intros [|y m] [|i]; cbn; split; intros H;
    try discriminate; try (destruct H; discriminate).
  - injection H as -> ->; auto.
  - destruct H as [H1 H2]; injection H1 as ->; injection H2 as ->; reflexivity.
  - apply IH; exact H.
  - apply IH; exact H.
Qed.
Lemma map_fst_combine {S T} (l : list S) (m : list T) : length l = length m -> map fst (combine l m) = l.
Proof.
  revert m; induction l as [|x l IH]; intros [|y m] H; try discriminate; [reflexivity|].
  cbn. f_equal. apply IH. cbn in H. lia.
Qed.

Lemma pl_value_incr xs (ys : list val) t v : incr xs -> length xs = length ys -> xs <> [] ->
  (pl_value xs ys t v <-> v = interp_at RA V (combine xs ys) t).
Proof.
  intros Hinc Hlen Hne.
  assert (Hinc' : incr (map fst (combine xs ys))) by (rewrite map_fst_combine by exact Hlen; exact Hinc).
  assert (Hin : forall p, In p (combine xs ys) -> In (fst p) xs).
  { intros [a b] H. apply in_combine_l in H. exact H. }
  assert (fwd : forall w, pl_value xs ys t w -> w = interp_at RA V (combine xs ys) t).
  { intros w [i y Hx Hy|i x0 x1 y0 y1 Hx0 Hx1 Hy0 Hy1 Ht|_ Hout].
    - assert (Hp : nth_error (combine xs ys) i = Some (t, y)) by (apply nth_combine; auto).
      assert (Hp' := nth_error_In _ _ Hp).
      rewrite (interp_at_inside _ t (t, y) (t, y)); try assumption; cbn; try lra.
      symmetry. eapply interp_in_point; eassumption.
    - assert (H01 : x0 < x1) by (apply (Hinc i (S i)); [lia|assumption|assumption]).
      assert (Hp : nth_error (combine xs ys) i = Some (x0, y0)) by (apply nth_combine; auto).
      assert (Hq : nth_error (combine xs ys) (S i) = Some (x1, y1)) by (apply nth_combine; auto).
      rewrite (interp_at_inside _ t (x0, y0) (x1, y1));
        [|exact Hinc'|eapply nth_error_In; exact Hp|eapply nth_error_In; exact Hq|cbn; lra|cbn; lra].
      symmetry. apply (interp_in_between _ i); try assumption. lra.
    - symmetry. apply interp_at_outside. destruct Hout as [H|H]; [left|right]; intros p Hp; apply H, Hin, Hp. }
  split; [apply fwd|]. intros ->.
  assert (E : exists w, pl_value xs ys t w).
  { destruct (incr_locate xs t Hinc Hne) as [[i Hi]|[(i & a & b & Ha & Hb & Hab)|Hout]].
    - destruct (nth_error_lt ys i) as [y Hy]; [rewrite <- Hlen; eapply nth_error_len; exact Hi|].
      exists y. eapply PL_point; eassumption.
    - destruct (nth_error_lt ys i) as [y0 Hy0]; [rewrite <- Hlen; eapply nth_error_len; exact Ha|].
      destruct (nth_error_lt ys (S i)) as [y1 Hy1]; [rewrite <- Hlen; eapply nth_error_len; exact Hb|].
      exists (line a y0 b y1 t). exact (PL_between xs ys t i a b y0 y1 Ha Hb Hy0 Hy1 (or_introl Hab)).
    - exists 0v. apply PL_outside; assumption. }
  destruct E as [w Hw]. rewrite <- (fwd w Hw). exact Hw.
Qed.

Lemma nth_error_rev {T} (l : list T) i : (i < length l)%nat ->
  nth_error (rev l) i = nth_error l (length l - 1 - i).
Proof.
  revert i; induction l as [|a l IH]; intros i Hi; [cbn in Hi; lia|].
  cbn [rev length]. destruct (Nat.eq_dec i (length l)) as [->|Hne].
  - rewrite nth_error_app2 by (rewrite rev_length; lia). rewrite rev_length, Nat.sub_diag.
    replace (S (length l) - 1 - length l)%nat with 0%nat by lia. reflexivity.
  - cbn in Hi. rewrite nth_error_app1 by (rewrite rev_length; lia). rewrite IH by lia.
    replace (S (length l) - 1 - i)%nat with (S (length l - 1 - i)) by lia. reflexivity.
Qed.
Lemma combine_app' {S T} (l1 l2 : list S) (m1 m2 : list T) : length l1 = length m1 ->
  combine (l1 ++ l2) (m1 ++ m2) = combine l1 m1 ++ combine l2 m2.
Proof.
  revert m1; induction l1 as [|a l IH]; intros [|b m] H; try discriminate; [reflexivity|].
  cbn. f_equal. apply IH. cbn in H. lia.
Qed.
Lemma combine_rev {S T} (l : list S) (m : list T) : length l = length m ->
  rev (combine l m) = combine (rev l) (rev m).
Proof.
  revert m; induction l as [|a l IH]; intros [|b m] H; try discriminate; [reflexivity|].
  cbn [combine rev]. rewrite IH by (cbn in H; lia).
  rewrite combine_app' by (rewrite !rev_length; cbn in H; lia). reflexivity.
Qed.
Lemma decr_rev l : decr l -> incr (rev l).
Proof.
  intros H i j a b Hij Ha Hb.
  assert (Hi := nth_error_len _ _ _ Ha). assert (Hj := nth_error_len _ _ _ Hb). rewrite rev_length in Hi, Hj.
  rewrite nth_error_rev in Ha, Hb by assumption.
  apply (H (length l - 1 - j)%nat (length l - 1 - i)%nat); [lia|exact Hb|exact Ha].
Qed.
Lemma pl_value_rev xs (ys : list val) t v : length xs = length ys ->
  pl_value xs ys t v -> pl_value (rev xs) (rev ys) t v.
Proof.
  intros Hlen [i y Hx Hy|i x0 x1 y0 y1 Hx0 Hx1 Hy0 Hy1 Ht|Hne Hout].
  - assert (Hi := nth_error_len _ _ _ Hx). apply PL_point with (length xs - 1 - i)%nat.
    + rewrite nth_error_rev by lia. rewrite <- Hx. f_equal. lia.
    + rewrite nth_error_rev by lia. rewrite <- Hy. f_equal. lia.
  - assert (Hi := nth_error_len _ _ _ Hx1).
    rewrite line_sym by lra.
    apply PL_between with (length xs - 2 - i)%nat; try (rewrite nth_error_rev by lia).
    + rewrite <- Hx1. f_equal. lia.
    + rewrite <- Hx0. f_equal. lia.
    + rewrite <- Hy1. f_equal. lia.
    + rewrite <- Hy0. f_equal. lia.
    + lra.
  - apply PL_outside.
    + intros E. apply Hne. rewrite <- (rev_involutive xs), E. reflexivity.
    + destruct Hout as [H|H]; [left|right]; intros x Hx; apply H, in_rev, Hx.
Qed.

(** the model's interpolant is exactly the specification *)
Lemma interp_pl xs (ys : list val) t v : incr xs \/ decr xs -> length xs = length ys -> xs <> [] ->
  (pl_value xs ys t v <-> v = interp_at RA V (sort_pts RA V (combine xs ys)) t).
Proof.
  intros [Hm|Hm] Hlen Hne.
  - rewrite sort_incr by (rewrite map_fst_combine by exact Hlen; exact Hm).
    apply pl_value_incr; assumption.
  - rewrite sort_decr by (rewrite map_fst_combine by exact Hlen; exact Hm).
    rewrite combine_rev by exact Hlen.
    rewrite <- pl_value_incr.
    + split; intros H.
      * apply pl_value_rev; assumption.
      * rewrite <- (rev_involutive xs), <- (rev_involutive ys). apply pl_value_rev; [|exact H].
        rewrite !rev_length. exact Hlen.
    + apply decr_rev, Hm.
    + rewrite !rev_length. exact Hlen.
    + intros E. apply Hne. rewrite <- (rev_involutive xs), E. reflexivity.
Qed.

(** *** relations *)
(** a relation as built by the constructor: sizes agree *)
Definition valid (r : rel RA V) : Prop := axis_size RA (r_x r) = Ok (length (r_y r)).

Lemma rel_make_ok (x : axis RA) (y : list val) r :
  rel_make RA V x y = Ok r <-> r = mkRel x y /\ axis_size RA x = Ok (length y).
Proof.
  unfold rel_make. destruct (axis_size RA x) as [n|e]; cbn [bind].
  - destruct (Nat.eqb_spec n (length y)) as [->|Hne]; split; intros H.
    + injection H as <-. auto.
    + destruct H as [-> _]. reflexivity.
    + discriminate.
    + destruct H as [_ H]. congruence.
  - split; [discriminate | intros [_ H]; discriminate].
Qed.
Lemma rel_make_valid (x : axis RA) (y : list val) r : rel_make RA V x y = Ok r -> valid r.
Proof. intros H. apply rel_make_ok in H. destruct H as [-> H]. exact H. Qed.
Lemma rel_make_eq (x : axis RA) (y : list val) : axis_size RA x = Ok (length y) ->
  rel_make RA V x y = Ok (mkRel x y).
Proof. intros H. apply rel_make_ok. auto. Qed.

Definition xs_of (r : rel RA V) : list R := grid (a_start (r_x r)) (a_end (r_x r)) (length (r_y r)).

Lemma valid_array r : valid r -> axis_array RA (r_x r) = Ok (xs_of r).
Proof. intros H. apply axis_array_size. exact H. Qed.
Lemma valid_pos r : valid r -> (0 < length (r_y r))%nat.
Proof. intros H. eapply axis_size_pos. exact H. Qed.
Lemma xs_of_length r : length (xs_of r) = length (r_y r).
Proof. apply grid_length. Qed.
Lemma valid_mono r : valid r -> incr (xs_of r) \/ decr (xs_of r).
Proof. intros H. eapply axis_mono. apply valid_array. exact H. Qed.
Lemma valid_ne r : valid r -> xs_of r <> [].
Proof.
  intros H E. apply valid_pos in H. rewrite <- xs_of_length, E in H. cbn in H. lia.
Qed.

(** value of relation [r] at [t] (zero outside) *)
Definition ev (r : rel RA V) (t : R) : val := interp_at RA V (sort_pts RA V (combine (xs_of r) (r_y r))) t.
Lemma ev_pl r t v : valid r -> (pl_value (xs_of r) (r_y r) t v <-> v = ev r t).
Proof.
  intros H. apply interp_pl; [apply valid_mono; exact H | apply xs_of_length | apply valid_ne; exact H].
Qed.
Lemma ev_point r i t y : valid r -> nth_error (xs_of r) i = Some t -> nth_error (r_y r) i = Some y -> ev r t = y.
Proof. intros H Hx Hy. symmetry. apply ev_pl; [exact H|]. eapply PL_point; eassumption. Qed.
Lemma ev_map_xs r : valid r -> map (ev r) (xs_of r) = r_y r.
Proof.
  intros H. apply nth_error_ext; [rewrite map_length; apply xs_of_length|].
  intros i Hi. rewrite map_length in Hi.
  destruct (nth_error_lt (xs_of r) i Hi) as [t Ht].
  destruct (nth_error_lt (r_y r) i) as [y Hy]; [rewrite <- xs_of_length; exact Hi|].
  rewrite nth_error_map, Ht, Hy. cbn. f_equal. eapply ev_point; eassumption.
Qed.

Notation DC := (default_config RA V).
Lemma rel_interp_eq r (x : axis RA) n : valid r -> axis_size RA x = Ok n ->
  rel_interp RA V DC x r = Ok (mkRel x (map (ev r) (grid (a_start x) (a_end x) n))).
Proof.
  intros Hv Hn. unfold rel_interp. rewrite (valid_array r Hv). cbn [bind default_config c_interp].
  unfold interpolate_default, interp1d. rr. rewrite xs_of_length, Nat.eqb_refl. cbn [bind].
  rewrite (axis_array_size x n Hn). cbn [bind]. apply rel_make_eq.
  rewrite map_length, grid_length. exact Hn.
Qed.
Lemma rel_interp_zero r (x : axis RA) : valid r -> a_sample x = 0 -> rel_interp RA V DC x r = Err EArith.
Proof.
  intros Hv Hz. unfold rel_interp. rewrite (valid_array r Hv). cbn [bind default_config c_interp].
  unfold interpolate_default, interp1d. rr. rewrite xs_of_length, Nat.eqb_refl. cbn [bind].
  unfold axis_array. rewrite axis_size_zero by exact Hz. reflexivity.
Qed.
End Pts.
