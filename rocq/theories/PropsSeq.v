(** Property theorems about relations used as Python sequences: C75.  [fits r] (ProgSpec.v): as many samples as
    axis points, which the constructors guarantee (C07). *)
From Coq Require Import Reals ZArith QArith List Bool Lia Lra.
From Verif Require Import Num Numpy Spec AxisModel RelModel RLemmas AxisLemmas InterpLemmas VInst RelLemmas
  HeapModel HeapSpec ProgSpec SeqModel SeqLemmas PropsHeap.
Import ListNotations.

(** ** C75 a relation as a sequence *)
(** the length is the number of samples, and a relation is never false, not even after its axis was changed *)
Theorem C75_length : forall A (V : Vals A) (r : rel A V), fits A V r ->
  rel_len A V r = Ok (length (r_y r)) /\ rel_bool A V r = Ok true /\ r_y r <> [].
Proof.
  intros A V r H. split; [exact H|]. assert (P := size_positive A (r_x r) _ H). split.
  - unfold rel_bool, rel_len. rewrite H. cbn [bind]. destruct (length (r_y r)); [lia|reflexivity].
  - intros E. rewrite E in P. cbn in P. lia.
Qed.
Print Assumptions C75_length.
Theorem C75_never_false : forall A (V : Vals A) (r : rel A V) b, rel_bool A V r = Ok b -> b = true.
Proof. exact bool_true. Qed.
Print Assumptions C75_never_false.
(** on objects: the length is that of the axis as it is now *)
Theorem C75_length_of_object : forall A (V : Vals A) F (h : heap A V) r c, reachable A V F h ->
  rel_view A V h r = Some c -> fst (h_len A V r h) = axis_size A (r_x c).
Proof. exact len_view. Qed.
Print Assumptions C75_length_of_object.
(** iterating never ends: however many steps are made, each gives a point and the iteration goes on *)
Theorem C75_iteration_goes_on : forall A (V : Vals A) (r : rel A V) n, fits A V r ->
  exists items, steps A V n r = (items, Running) /\ length items = n /\
    forall i, (i < n)%nat -> exists p, nth_error items i = Some p /\ rel_item A V i r = Ok p.
Proof.
  intros A V r n H. apply (steps_from_all A V n 0 r). intros j. apply getitem_fits. exact H.
Qed.
Print Assumptions C75_iteration_goes_on.
(** step [i] gives the point nearest to the abscissa [i], not the [i]-th point *)
Theorem C75_item : forall (V : Vals RA) (r : rel RA V) i xs,
  axis_array RA (r_x r) = Ok xs -> length xs = length (r_y r) ->
  exists k x y, rel_item RA V i r = Ok (x, y) /\ nth_error xs k = Some x /\ nth_error (r_y r) k = Some y /\
    forall j x', nth_error xs j = Some x' -> (Rabs (x - INR i) <= Rabs (x' - INR i))%R /\
      ((j < k)%nat -> (Rabs (x - INR i) < Rabs (x' - INR i))%R).
Proof. exact @item_nearest. Qed.
Print Assumptions C75_item.
(** from the greatest abscissa on every step gives the point with the greatest abscissa *)
Theorem C75_items_settle : forall (V : Vals RA) (r : rel RA V) i xs x0 y0,
  axis_array RA (r_x r) = Ok xs -> length xs = length (r_y r) ->
  In (x0, y0) (combine xs (r_y r)) -> (forall x, In x xs -> (x <= x0)%R) -> (x0 <= INR i)%R ->
  rel_item RA V i r = Ok (x0, y0).
Proof. exact @item_last. Qed.
Print Assumptions C75_items_settle.
(** the first [n] steps are the points exactly as stored on the axis 0, 1, ..., n-1 *)
Theorem C75_whole_axis : forall (V : Vals RA) (y : list (val V)) i b, nth_error y i = Some b ->
  rel_item RA V i (mkRel (mkAxis (A:=RA) 0%R (INR (length y - 1)) 1%R) y) = Ok (INR i, b).
Proof. intros V y i b H. exact (item_whole y i b H). Qed.
Print Assumptions C75_whole_axis.
(** when the axis was changed afterwards to have more points than samples, the iteration ends, and where it ends
    does not depend on how many steps are allowed *)
Theorem C75_longer_axis : forall (V : Vals RA) (r : rel RA V) xs, axis_array RA (r_x r) = Ok xs ->
  (a_start (r_x r) < a_end (r_x r))%R -> (length (r_y r) < length xs)%nat ->
  exists k items, length items = k /\ (forall n, (k < n)%nat -> steps RA V n r = (items, Ended)) /\
    (forall i, (i < k)%nat -> exists p, nth_error items i = Some p /\ rel_item RA V i r = Ok p).
Proof. exact @iteration_ends. Qed.
Print Assumptions C75_longer_axis.
(** [reversed] makes [len(r)] steps, from the abscissa [len(r)-1] down to 0 *)
Theorem C75_reversed : forall A (V : Vals A) (r : rel A V), fits A V r ->
  exists items, rel_reversed A V r = Ok (items, Ended) /\ length items = length (r_y r) /\
    forall j, (j < length (r_y r))%nat -> exists p, nth_error items j = Some p /\
      rel_item A V (length (r_y r) - 1 - j) r = Ok p.
Proof.
  intros A V r H. unfold rel_reversed, rel_len. rewrite H. cbn [bind].
  destruct (back_from_all A V (length (r_y r)) r) as (items & -> & H1 & H2); [|eauto].
  intros j. apply getitem_fits. exact H.
Qed.
Print Assumptions C75_reversed.
(** a slice is a selection by abscissa whatever its step, and a key of another type gives nothing *)
Theorem C75_keys : forall A (V : Vals A) (r : rel A V) s e t,
  rel_index A V (KeySlice A s e t) r = (do r' <- rel_select A V s e r; Ok (ItRel A V r')) /\
  rel_index A V (KeyOther A) r = Ok (ItNone A V).
Proof. intros. split; reflexivity. Qed.
Print Assumptions C75_keys.

(** points at 0, 1/2, 1, 3/2: the five first items are at 0, 1, 3/2, 3/2, 3/2; with the end moved to 5/2 the
    iteration ends at the abscissa 2, whose nearest point has no sample *)
Definition half_axis : rel QA QV := mkRel (A:=QA) (V:=QV) (mkAxis (A:=QA) 0%Q (3#2)%Q (1#2)%Q) [5; 6; 7; 8]%Q.
Definition moved_end : rel QA QV := mkRel (A:=QA) (V:=QV) (mkAxis (A:=QA) 0%Q (5#2)%Q (1#2)%Q) [5; 6; 7; 8]%Q.
Definition shown_steps (s : list (Q * Q) * going) : list (Q * Q) * going := (map (fun p => (Qred (fst p), Qred (snd p))) (fst s), snd s).
Example C75_case : fits QA QV half_axis /\
  shown_steps (steps QA QV 5 half_axis) = ([(0, 5); (1, 7); (3#2, 8); (3#2, 8); (3#2, 8)]%Q, Running) /\
  (match rel_reversed QA QV half_axis with Ok s => shown_steps s | Err _ => ([], Running) end)
    = ([(3#2, 8); (3#2, 8); (1, 7); (0, 5)]%Q, Ended) /\
  shown_steps (steps QA QV 9 moved_end) = ([(0, 5); (1, 7)]%Q, Ended) /\ rel_len QA QV moved_end = Ok 6%nat.
Proof. split; [vm_compute; reflexivity|]. repeat split; vm_compute; reflexivity. Qed.
