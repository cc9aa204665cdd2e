(** Property theorems about the text of axes and relations and about components of a signal: C79, C80. *)
From Coq Require Import Reals ZArith QArith List Bool Lia Lra.
From Verif Require Import Num Numpy Spec AxisModel RelModel RLemmas AxisLemmas InterpLemmas VInst RelLemmas
  HeapModel HeapSpec HeapLemmas4 HeapLemmas5 UtilModel UtilLemmas PropsHeap.
Import ListNotations.

(** ** C79 printing *)
(** the text of an object is made of its present values, whatever was read or assigned before *)
Theorem C79_axis_text : forall A (V : Vals A) F (h : heap A V) a p, reachable A V F h -> ax_view A V h a = Some p ->
  fst (h_axis_str A V a h) = axis_str A p.
Proof. intros A V F h a p R H. exact (proj1 (axis_text_spec A V F h a p R H)). Qed.
Print Assumptions C79_axis_text.
Theorem C79_relation_text : forall A (V : Vals A) F (h : heap A V) r c, reachable A V F h -> rel_view A V h r = Some c ->
  fst (h_rel_str A V r h) = (do t <- axis_str A (r_x c); Ok (r_y c, t)).
Proof. intros A V F h r c R H. exact (proj1 (rel_text_spec A V F h r c R H)). Qed.
Print Assumptions C79_relation_text.
(** printing changes nothing that can be observed, whether it succeeds or raises *)
Theorem C79_changes_nothing : forall A (V : Vals A) F (h : heap A V) r c, reachable A V F h -> rel_view A V h r = Some c ->
  let h' := snd (h_rel_str A V r h) in
  reachable A V F h' /\
  (forall r0 c0, rel_view A V h r0 = Some c0 -> rel_view A V h' r0 = Some c0) /\
  (forall a p, ax_view A V h a = Some p -> ax_view A V h' a = Some p /\ read_array A V h' a = read_array A V h a) /\
  (forall r0 a, axis_of A V h r0 = Some a -> axis_of A V h' r0 = Some a) /\
  fst (h_rel_str A V r h') = fst (h_rel_str A V r h).
Proof.
  intros A V F h r c R H h'. destruct (rel_text_spec A V F h r c R H) as (E & ops & Q & E2). unfold h'. rewrite E2.
  destruct (quiet_run A V F ops h Q R) as (G0 & G1 & G2 & G3 & G4). split; [exact G0|]. split; [exact G1|].
  split; [|split; [exact G3|]].
  - intros a p Ha. split; [apply G2; exact Ha|].
    rewrite (proj1 (never_stale A V F _ a p G0 (G2 a p Ha))), (proj1 (never_stale A V F h a p R Ha)). reflexivity.
  - rewrite E. exact (proj1 (rel_text_spec A V F _ r c G0 (G1 r c H))).
Qed.
Print Assumptions C79_changes_nothing.
(** the values printed for an axis, and when printing raises: the span is at most half a sample, so that the axis
    has a single point and no sample can be calculated, or the sample is zero *)
Theorem C79_axis_values : forall s e d : R, d <> 0%R ->
  exists n, round_half_even (Rabs (e - s) / Rabs d) (Z.of_nat n - 1) /\
    ((2 * Rabs (e - s) <= Rabs d)%R -> axis_str RA (mkAxis (A:=RA) s e d) = Err EValue) /\
    ((Rabs d < 2 * Rabs (e - s))%R -> (2 <= n)%nat /\
       axis_str RA (mkAxis (A:=RA) s e d) = Ok (mkText (A:=RA) s e d n ((e - s) / INR (n - 1))%R)).
Proof.
  intros s e d Hd. destruct (text_values s e d Hd) as (n & H1 & H2 & H3). exists n. split; [exact H1|].
  pose proof (one_point s e d n Hd H1) as O. rewrite H3. split; intros L.
  - rewrite (proj2 O L). reflexivity.
  - assert (n <> 1%nat) by (intros E; apply O in E; lra). destruct (Nat.eqb_spec n 1); [contradiction|].
    split; [lia|reflexivity].
Qed.
Print Assumptions C79_axis_values.
Theorem C79_zero_sample : forall s e : R, axis_str RA (mkAxis (A:=RA) s e 0%R) = Err EArith.
Proof. intros s e. unfold axis_str. rewrite axis_size_zero; reflexivity. Qed.
Print Assumptions C79_zero_sample.
(** "every relation can be printed" is false: one built from one point on an axis of one point cannot *)
Theorem C79_every_relation_prints_refuted : exists (h : heap QA QV) r c, reachable QA QV qF h /\
  rel_view QA QV h r = Some c /\ axis_size QA (r_x c) = Ok (length (r_y c)) /\ fst (h_rel_str QA QV r h) = Err EValue.
Proof.
  set (ops := [ONewAxis QA QV (qax 2 2 1); ONew QA QV KRel (XaAxis (length (h_ax q1))) (Some [5]%Q)]).
  exists (qrun ops q1), (length (h_rel q1)), (mkRel (A:=QA) (V:=QV) (qax 2 2 1) [5]%Q).
  split; [apply q_reach|]. repeat split; vm_compute; reflexivity.
Qed.
Print Assumptions C79_every_relation_prints_refuted.
(** the relation 0 of PropsHeap.v, before and after the end of its axis is moved to 3.5 *)
Definition shown_text (t : result (list Q * axis_text QA)) :=
  match t with Ok (y, t) => Ok (y, (Qred (t_start t), Qred (t_end t), Qred (t_sample t), t_size t, Qred (t_calculated t)))
             | Err e => Err e end.
Example C79_case :
  shown_text (fst (h_rel_str QA QV 0%nat q1)) = Ok ([1; 2; 4; 8]%Q, (0%Q, 3%Q, 1%Q, 4%nat, 1%Q)) /\
  shown_text (fst (h_rel_str QA QV 0%nat (qrun [ORelSet QA QV FEnd 0%nat (7#2)%Q] q1))) =
    Ok ([1; 2; 4; 8]%Q, (0%Q, (7#2)%Q, 1%Q, 5%nat, (7#8)%Q)).
Proof. split; vm_compute; reflexivity. Qed.

(** ** C80 components *)
(** every component becomes a new signal on its own new axis with the parameters of the data's axis; nothing that
    existed before changes *)
Theorem C80_components : forall A (V : Vals A) F (h : heap A V) emd r c n ks, reachable A V F h ->
  rel_view A V h r = Some c -> emd (r_y c) = Ok ks -> axis_size A (r_x c) = Ok n -> Forall (fun k => length k = n) ks ->
  exists rs h', h_imfs A V emd r h = (Ok rs, h') /\ reachable A V F h' /\
    Forall2 (fun r' k => cls_of A V h' r' = Some KSig /\ rel_view A V h' r' = Some (mkRel (r_x c) k) /\
      exists a, axis_of A V h' r' = Some a /\ ax_view A V h a = None /\ cls_of A V h r' = None) rs ks /\
    NoDup rs /\ NoDup (map (axis_of A V h') rs) /\
    (forall r0 c0, rel_view A V h r0 = Some c0 -> rel_view A V h' r0 = Some c0) /\
    (forall a p, ax_view A V h a = Some p -> ax_view A V h' a = Some p) /\
    (forall r0 a, axis_of A V h r0 = Some a -> axis_of A V h' r0 = Some a).
Proof.
  intros A V F h emd r c n ks R H He Hn Hk.
  destruct (imfs_ok A V F emd h r c n ks R H He Hn Hk) as (rs & ops & Q & E & C & D1 & D2).
  destruct (quiet_run A V F ops h Q R) as (G0 & G1 & G2 & G3 & _).
  exists rs, (run A V F ops h). auto 10.
Qed.
Print Assumptions C80_components.
(** assigning to the start, end or sample of one component moves neither another component nor the data *)
Theorem C80_independent : forall A (V : Vals A) F (h h' : heap A V) emd r c n ks rs i j ri rj ci f v, reachable A V F h ->
  rel_view A V h r = Some c -> emd (r_y c) = Ok ks -> axis_size A (r_x c) = Ok n -> Forall (fun k => length k = n) ks ->
  h_imfs A V emd r h = (Ok rs, h') -> nth_error rs i = Some ri -> nth_error rs j = Some rj -> i <> j ->
  rel_view A V h' ri = Some ci ->
  rel_view A V (step A V F h' (ORelSet A V f rj v)) ri = Some ci /\
  rel_view A V (step A V F h' (ORelSet A V f rj v)) r = Some c.
Proof.
  intros A V F h h' emd r c n ks rs i j ri rj ci f v R H He Hn Hk E Hi Hj Nij Hci.
  destruct (imfs_ok A V F emd h r c n ks R H He Hn Hk) as (rs' & ops & Q & E' & C & D1 & D2).
  rewrite E' in E. injection E as -> <-. destruct (quiet_run A V F ops h Q R) as (G0 & G1 & G2 & G3 & _).
  assert (Hr : forall i ri, nth_error rs i = Some ri -> exists a, axis_of A V (run A V F ops h) ri = Some a /\ ax_view A V h a = None).
  { clear -C. induction C as [|r k rs ks (_ & _ & a & T1 & T2 & _) _ IH]; intros [|i] ri Hi; cbn in Hi; try discriminate.
    - injection Hi as <-. eauto.
    - eauto. }
  destruct (Hr i ri Hi) as (ai & Ai & _). destruct (Hr j rj Hj) as (aj & Aj & Fj).
  destruct (view_axis A V h r c H) as (a & Ha & Hp).
  split.
  - rewrite (assign_exact A V F _ f rj v aj ri ci ai G0 Aj Hci Ai).
    destruct (Nat.eqb_spec ai aj) as [Eij|_]; [|reflexivity]. exfalso. apply Nij.
    assert (Li : (i < length (map (axis_of A V (run A V F ops h)) rs))%nat).
    { rewrite map_length. apply nth_error_Some. congruence. }
    apply (proj1 (NoDup_nth_error _) D2 i j Li). rewrite !nth_error_map, Hi, Hj. cbn. congruence.
  - rewrite (assign_exact A V F _ f rj v aj r c a G0 Aj (G1 r c H) (G3 r a Ha)).
    destruct (Nat.eqb_spec a aj) as [Eij|_]; [|reflexivity]. congruence.
Qed.
Print Assumptions C80_independent.
(** the first component of another length is refused; an exception of the decomposition passes *)
Theorem C80_wrong_length : forall A (V : Vals A) F (h : heap A V) emd r c n ks1 k ks2, reachable A V F h ->
  rel_view A V h r = Some c -> emd (r_y c) = Ok (ks1 ++ k :: ks2) -> axis_size A (r_x c) = Ok n ->
  Forall (fun k => length k = n) ks1 -> length k <> n ->
  exists h', h_imfs A V emd r h = (Err (ENotEqual n (length k)), h') /\
    forall r0 c0, rel_view A V h r0 = Some c0 -> rel_view A V h' r0 = Some c0.
Proof.
  intros A V F h emd r c n ks1 k ks2 R H He Hn Hk Hl.
  destruct (imfs_err A V F emd h r c n ks1 k ks2 R H He Hn Hk Hl) as (ops & Q & E).
  exists (run A V F ops h). split; [exact E|]. apply (quiet_run A V F ops h Q R).
Qed.
Print Assumptions C80_wrong_length.
Theorem C80_decomposition_fails : forall A (V : Vals A) (h : heap A V) emd r c e,
  rel_view A V h r = Some c -> emd (r_y c) = Err e -> h_imfs A V emd r h = (Err e, h).
Proof.
  intros A V h emd r c e H He. destruct (view_axis A V h r c H) as (a & Ha & _).
  rewrite (imfs_start A V emd h r c a H Ha), He. reflexivity.
Qed.
Print Assumptions C80_decomposition_fails.
(** adding the components up with [+] gives the data back, if the decomposition is one *)
Theorem C80_sum : forall (V : Vals RA) (L : VLaws V) p n ks k0 y, axis_size RA p = Ok n -> length k0 = n ->
  Forall (fun k => length k = n) ks -> length y = n ->
  (forall i v, nth_error y i = Some v ->
     v = fold_left (v_add V) (map (fun k => nth i k (v_of V 0%R)) ks) (nth i k0 (v_of V 0%R))) ->
  sum_from RA V (default_config RA V) (mkRel p k0) (map (mkRel p) ks) = Ok (mkRel p y).
Proof. intros V L p n ks k0 y. exact (sum_from_value L p n ks k0 y). Qed.
Print Assumptions C80_sum.
(** a decomposition into halves of the relation 0 of PropsHeap.v *)
Definition halves (y : list Q) : result (list (list Q)) := Ok [map (fun v => Qred (v / 2)) y; map (fun v => Qred (v / 2)) y].
Example C80_case :
  match h_imfs QA QV halves 0%nat q1 with
  | (Ok [r1; r2], h') => rel_view QA QV h' r1 = rel_view QA QV h' r2 /\ r1 <> r2 /\
      match rel_view QA QV h' r1, rel_view QA QV h' 0%nat with
      | Some c1, Some c0 => r_x c1 = r_x c0 /\ map (fun v : Q => Qred (2 * v)) (r_y c1) = map Qred (r_y c0) | _, _ => False end
  | _ => False
  end.
Proof. vm_compute. repeat split; try reflexivity. discriminate. Qed.
