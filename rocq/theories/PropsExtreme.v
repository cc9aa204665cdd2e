(** Property theorems: C93, [max] and [min] of a relation. *)
From Coq Require Import Reals ZArith QArith List Bool Lia Lra SpecFloat.
From Coquelicot Require Import Complex.
From Verif Require Import Num Numpy Spec AxisModel RelModel RLemmas AxisLemmas InterpLemmas VInst RelLemmas
  HeapModel HeapSpec FloatSpec ExtremeModel ExtremeSpec ExtremeLemmas.
Import ListNotations.
Local Open Scope R_scope.

(** ** C93 maximum and minimum *)
(** Real samples: [max] answers with the greatest sample and nothing else, [min] with the least *)
Theorem C93_real : forall (r : rel RA RV) v,
  (rel_max RA RV r = Ok v <-> greatest Rle v (r_y r)) /\ (rel_min RA RV r = Ok v <-> least Rle v (r_y r)).
Proof. intros r v. split; [apply real_max|apply real_min]. Qed.
Print Assumptions C93_real.
(** Complex samples are compared by real part, then by imaginary part *)
Theorem C93_complex : forall (r : rel RA CV) v,
  (rel_max RA CV r = Ok v <-> greatest lexical v (r_y r)) /\ (rel_min RA CV r = Ok v <-> least lexical v (r_y r)).
Proof. intros r v. split; [apply complex_max|apply complex_min]. Qed.
Print Assumptions C93_complex.
(** Finite samples in binary64: one of the samples, no other is greater (smaller) *)
Theorem C93_binary64 : forall r : rel FA FV, Forall f64_fin (r_y r) -> r_y r <> [] ->
  (exists v, rel_max FA FV r = Ok v /\ greatest (fun x y => f64_val x <= f64_val y) v (r_y r)) /\
  (exists v, rel_min FA FV r = Ok v /\ least (fun x y => f64_val x <= f64_val y) v (r_y r)).
Proof. intros r HF HN. split; [exact (float_max r HF HN)|exact (float_min r HF HN)]. Qed.
Print Assumptions C93_binary64.
(** In every number system both fail exactly when there are no samples, with ValueError *)
Theorem C93_no_samples : forall A (V : Vals A) (r : rel A V) e,
  (rel_max A V r = Err e <-> r_y r = [] /\ e = EValue) /\ (rel_min A V r = Err e <-> r_y r = [] /\ e = EValue).
Proof. intros A V r e. split; [apply max_none|apply min_none]. Qed.
Print Assumptions C93_no_samples.
(** On an object they give the value of its present samples and leave every object as it was *)
Theorem C93_objects : forall A (V : Vals A) (h : heap A V) r c, rel_view A V h r = Some c ->
  h_max A V r h = (rel_max A V c, h) /\ h_min A V r h = (rel_min A V c, h).
Proof. intros A V h r c. apply h_max_view. Qed.
Print Assumptions C93_objects.

(** Scaling by a number scales them, a negative number exchanging the two; adding a number moves them *)
Theorem C93_scale : forall (r q : rel RA RV) k M m, rel_max RA RV r = Ok M -> rel_min RA RV r = Ok m ->
  rel_op_num RA RV (default_config RA RV) MUL r (OVal (V:=RV) k) = Ok q ->
  (0 <= k -> rel_max RA RV q = Ok (M * k) /\ rel_min RA RV q = Ok (m * k)) /\
  (k <= 0 -> rel_max RA RV q = Ok (m * k) /\ rel_min RA RV q = Ok (M * k)).
Proof. intros r q k M m. apply max_scale. Qed.
Print Assumptions C93_scale.
Theorem C93_offset : forall (r q : rel RA RV) k M m, rel_max RA RV r = Ok M -> rel_min RA RV r = Ok m ->
  rel_op_num RA RV (default_config RA RV) ADD r (OVal (V:=RV) k) = Ok q -> rel_max RA RV q = Ok (M + k) /\ rel_min RA RV q = Ok (m + k).
Proof. intros r q k M m. apply max_offset. Qed.
Print Assumptions C93_offset.
(** The sum of two relations sharing an axis lies between the sums of the minima and of the maxima *)
Theorem C93_sum : forall (r s q : rel RA RV) M m M' m' N n, length (r_y r) = length (r_y s) ->
  rel_max RA RV r = Ok M -> rel_min RA RV r = Ok m -> rel_max RA RV s = Ok M' -> rel_min RA RV s = Ok m' ->
  rel_op RA RV (default_config RA RV) ADD true r s = Ok q -> rel_max RA RV q = Ok N -> rel_min RA RV q = Ok n ->
  N <= M + M' /\ m + m' <= n.
Proof. exact max_sum. Qed.
Print Assumptions C93_sum.
(** A selection has no greater maximum and no smaller minimum *)
Theorem C93_select : forall lo hi (r q : rel RA RV) M m N n, rel_select RA RV lo hi r = Ok q ->
  rel_max RA RV r = Ok M -> rel_min RA RV r = Ok m -> rel_max RA RV q = Ok N -> rel_min RA RV q = Ok n -> m <= n /\ N <= M.
Proof.
  intros lo hi r q M m N n E H G K J. apply real_max in H, K. apply real_min in G, J.
  apply (max_part (r_y r) (r_y q)); try assumption. intros x. exact (select_part lo hi r q x E).
Qed.
Print Assumptions C93_select.
(** Neither has the relation interpolated to another axis, except for the zeros beyond the ends *)
Theorem C93_interpolate : forall (r q : rel RA RV) (nx : axis RA) (M m N n : R), axis_size RA (r_x r) = Ok (length (r_y r)) -> a_sample nx <> 0%R ->
  rel_interp RA RV (default_config RA RV) nx r = Ok q ->
  rel_max RA RV r = Ok M -> rel_min RA RV r = Ok m -> rel_max RA RV q = Ok N -> rel_min RA RV q = Ok n -> Rmin m 0 <= n /\ N <= Rmax M 0.
Proof. exact interp_range. Qed.
Print Assumptions C93_interpolate.
(** so the minimum of an interpolated relation may be below the minimum of the relation *)
Definition least_after (nx : axis QA) : option Q :=
  match rel_interp QA QV (default_config QA QV) nx (mkRel (V:=QV) (mkAxis (A:=QA) 0 2 1)%Q [3; 5; 4]%Q) with
  | Ok q => match rel_min QA QV q with Ok v => Some (Qred v) | Err _ => None end | Err _ => None end.
Theorem C93_interpolate_min_refuted : least_after (mkAxis (A:=QA) 0 3 1)%Q = Some 0%Q /\ least_after (mkAxis (A:=QA) 0 2 1)%Q = Some 3%Q.
Proof. split; vm_compute; reflexivity. Qed.
Print Assumptions C93_interpolate_min_refuted.
(** samples meeting the hypotheses *)
Example C93_case : greatest Rle 5 [3; 5; -4] /\ least Rle (-4) [3; 5; -4].
Proof. split; (split; [cbn; auto|]); intros w Hw; cbn in Hw; destruct Hw as [<-|[<-|[<-|[]]]]; lra. Qed.
Example C93_case_complex : greatest lexical (3, 1)%R [(3, 0); (3, 1); (-4, 7)]%R.
Proof. split; [cbn; auto|]. intros w Hw. cbn in Hw. unfold lexical. destruct Hw as [<-|[<-|[<-|[]]]]; cbn; lra. Qed.
Example C93_case_float : match rel_max FA FV (mkRel (V:=FV) (mkAxis (A:=FA) (f64 0 1) (f64 2 1) (f64 1 1)) [f64 1 3; f64 (-1) 3; f64 1 2]) with
  | Ok v => (v : spec_float) | Err _ => f64 0 1 end = f64 1 2.
Proof. vm_compute. reflexivity. Qed.
