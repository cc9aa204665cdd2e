(** Value level of sweep_design/relation.py and of the [Config]-replaceable numeric methods of
    sweep_design/defaults/methods.py used by [Relation]. *)
From Coq Require Import ZArith List Bool.
From Verif Require Import Num Numpy AxisModel.
Import ListNotations.

Section Rel.
Context (A : Arith) (V : Vals A).
Notation num := (num A).
Notation val := (val V).
Notation axis := (axis A).

(** The observable content of a [Relation]: axis parameters and samples (relation.py 107). *)
Record rel : Type := mkRel { r_x : axis; r_y : list val }.

(** core.py 35-52 [MathOperation] *)
Inductive mathop := ADD | RADD | SUB | RSUB | MUL | RMUL | TRUEDIV | RTRUEDIV | POW | RPOW.

(** second argument of a numpy operator method: a number, an array-like, or something numpy rejects *)
Inductive operand := OVal (v : val) | OArr (l : list val) | OBad.

Definition op_apply (o : mathop) (a b : val) : val :=
  match o with
  | ADD => v_add V a b | RADD => v_add V b a
  | SUB => v_sub V a b | RSUB => v_sub V b a
  | MUL => v_mul V a b | RMUL => v_mul V b a
  | TRUEDIV => v_div V a b | RTRUEDIV => v_div V b a
  | POW => v_pow V a b | RPOW => v_pow V b a
  end.

Fixpoint map2 {S T U} (f : S -> T -> U) (l : list S) (m : list T) : list U :=
  match l, m with a :: l', b :: m' => f a b :: map2 f l' m' | _, _ => [] end.

(** [math_operation], methods.py 42-70: numpy element-wise operation with broadcasting of a number
    or a one-element array; any numpy failure becomes TypeFuncError. *)
Definition math_operation (o : mathop) (y1 : list val) (y2 : operand) : result (list val) :=
  match y2 with
  | OVal v => Ok (map (fun a => op_apply o a v) y1)
  | OArr l =>
      if Nat.eqb (length y1) (length l) then Ok (map2 (op_apply o) y1 l)
      else match l, y1 with
           | [v], _ => Ok (map (fun a => op_apply o a v) y1)
           | _, [a] => Ok (map (fun v => op_apply o a v) l)
           | _, _ => Err ETypeFunc
           end
  | OBad => Err ETypeFunc
  end.

(** Constructor with an axis and samples: size check of relation.py 99-107. *)
Definition rel_make (x : axis) (y : list val) : result rel :=
  do n <- axis_size A x;
  if Nat.eqb n (length y) then Ok (mkRel x y) else Err (ENotEqual n (length y)).

(** [get_data], relation.py 208-223 *)
Definition rel_get_data (r : rel) : result (list num * list val) :=
  do n <- axis_size A (r_x r);
  if Nat.eqb n (length (r_y r)) then do a <- axis_array A (r_x r); Ok (a, r_y r)
  else Err (ENotEqual n (length (r_y r))).

(** *** Default methods of sweep_design/defaults/methods.py *)

(** [one_integrate], methods.py 73-86 *)
Definition one_integrate (r : rel) : result val :=
  do xy <- rel_get_data r; Ok (trapz A V (snd xy) (fst xy)).

(** [integrate], methods.py 89-105 *)
Definition integrate_default (r : rel) : result (axis * list val) :=
  let x := r_x r in
  Ok (set_start A (n_add A (a_start x) (a_sample x)) x,
      map (fun v => v_mul V v (v_of V (a_sample x))) (cum_trapz A V (r_y r))).

(** [differentiate], methods.py 108-124 *)
Definition differentiate_default (r : rel) : result (axis * list val) :=
  let x := r_x r in
  let h := n_div A (a_sample x) (n_of_Z A 2) in
  Ok (set_end A (n_sub A (a_end x) h) (set_start A (n_add A (a_start x) h) x),
      map (fun v => v_div V v (v_of V (a_sample x))) (np_diff_val A V (r_y r))).

(** [interpolate_extrapolate], methods.py 127-158 *)
Definition interpolate_default (x : list num) (y : list val) (new_x : axis) : result (list val) :=
  do f <- interp1d A V x y; do a <- axis_array A new_x; Ok (map f a).

(** [get_common_x], methods.py 161-181 *)
Definition common_x_default (x1 x2 : axis) : axis :=
  mkAxis (if n_le A (a_start x1) (a_start x2) then a_start x1 else a_start x2)
         (if n_le A (a_end x2) (a_end x1) then a_end x1 else a_end x2)
         (if n_le A (a_sample x1) (a_sample x2) then a_sample x1 else a_sample x2).

(** The replaceable methods (config/base_config.py 222-232) that [Relation] uses, as functions of
    the observable content of their arguments. *)
Record config : Type := mkConfig {
  c_axis_from_array : seq_in A -> bool -> result axis;
  c_math : mathop -> list val -> operand -> result (list val);
  c_interp : list num -> list val -> axis -> result (list val);
  c_int_one : rel -> result val;
  c_integrate : rel -> result (axis * list val);
  c_diff : rel -> result (axis * list val);
  c_common_x : axis -> axis -> axis
}.
Definition default_config : config :=
  {| c_axis_from_array := axis_of_array A; c_math := math_operation; c_interp := interpolate_default;
     c_int_one := one_integrate; c_integrate := integrate_default; c_diff := differentiate_default;
     c_common_x := common_x_default |}.

Section Methods.
Context (cfg : config).

(** [Relation.__init__], relation.py 57-107 *)
Inductive x_in := XRel (r : rel) | XAxis (a : axis) | XSeq (s : seq_in A).
Definition rel_init (x : x_in) (y : option (list val)) : result rel :=
  match x with
  | XRel r => Ok (mkRel (r_x r) (r_y r))
  | _ =>
      match y with
      | None => Err EBadInput
      | Some y =>
          do a <- (match x with XAxis a => Ok a | XSeq s => c_axis_from_array cfg s true
                              | XRel r => Ok (r_x r) end);
          rel_make a y
      end
  end.

(** [max], [min], relation.py 225-239 *)
Definition rel_max (r : rel) : result val :=
  match amax_val A V (r_y r) with Some v => Ok v | None => Err EValue end.
Definition rel_min (r : rel) : result val :=
  match amin_val A V (r_y r) with Some v => Ok v | None => Err EValue end.

(** [select_data], relation.py 253-282 *)
Definition rel_select (start stop : option num) (r : rel) : result rel :=
  let s := match start with Some v => v | None => a_start (r_x r) end in
  let e := match stop with Some v => v | None => a_end (r_x r) end in
  do arr <- axis_array A (r_x r);
  let m := map (fun x => n_le A s x && n_le A x e) arr in
  let sel := mask m arr in
  match sel with
  | [] => Err EIndex
  | x0 :: _ =>
      if Nat.eqb (length m) (length (r_y r))  (* boolean index of another length: IndexError *)
      then rel_make (mkAxis x0 (last sel x0) (a_sample (r_x r))) (mask m (r_y r))
      else Err EIndex
  end.

(** [exp] and other element-wise maps keeping the axis, relation.py 284-293 *)
Definition rel_map (f : val -> val) (r : rel) : result rel := rel_make (r_x r) (map f (r_y r)).

(** [diff], [integrate], relation.py 295-317 *)
Definition rel_diff (r : rel) : result rel := do xy <- c_diff cfg r; rel_make (fst xy) (snd xy).
Definition rel_integrate (r : rel) : result rel :=
  do xy <- c_integrate cfg r; rel_make (fst xy) (snd xy).

(** [interpolate_extrapolate], relation.py 319-340 *)
Definition rel_interp (new_x : axis) (r : rel) : result rel :=
  do arr <- axis_array A (r_x r);
  do y <- c_interp cfg arr (r_y r) new_x;
  rel_make new_x y.

(** [Relation.shift], relation.py 342-356 *)
Definition rel_shift (d : num) (r : rel) : result rel :=
  let x := r_x r in
  rel_make (set_end A (n_add A (a_end x) d) (set_start A (n_add A (a_start x) d) x)) (r_y r).

(** [equalize], relation.py 358-378.  [same] tells whether the two relations hold the same axis
    object ([ArrayAxis] has no [__eq__], so [==] is identity). *)
Definition rel_equalize (same : bool) (r1 r2 : rel) : result (rel * rel) :=
  if same then Ok (r1, r2)
  else let x := c_common_x cfg (r_x r1) (r_x r2) in
       do e1 <- rel_interp x r1; do e2 <- rel_interp x r2; Ok (e1, e2).

(** [_operation] followed by the constructor, relation.py 425-480: operators and reflected
    operators with another relation or with a number/array-like. *)
Definition rel_op (o : mathop) (same : bool) (r1 r2 : rel) : result rel :=
  do e <- rel_equalize same r1 r2;
  do y <- c_math cfg o (r_y (fst e)) (OArr (r_y (snd e)));
  rel_make (r_x (fst e)) y.
Definition rel_op_num (o : mathop) (r : rel) (b : operand) : result rel :=
  do y <- c_math cfg o (r_y r) b; rel_make (r_x r) y.

(** [get_norm], relation.py 241-251: integral of [self**2] divided by the sample *)
Definition rel_norm (r : rel) : result val :=
  do sq <- rel_op_num POW r (OVal (v_of V (n_of_Z A 2)));
  do i <- c_int_one cfg sq;
  Ok (v_div V i (v_of V (a_sample (r_x r)))).

(** [__getitem__] with a number, relation.py 519-522 *)
Definition rel_getitem (v : num) (r : rel) : result (num * val) :=
  do arr <- axis_array A (r_x r);
  match argmin A (map (fun x => n_abs A (n_sub A x v)) arr) with
  | None => Err EValue
  | Some i =>
      match nth_error arr i, nth_error (r_y r) i with
      | Some x, Some y => Ok (x, y)
      | _, _ => Err EIndex
      end
  end.

(** [correlate]/[convolve] of class [Relation] (not [Signal]): relation.py 380-423 with
    methods.py 184-225.  Both operands are moved to start 0 and brought to one axis; the
    shifted copies are distinct objects, so [equalize] always interpolates. *)
Definition rel_lagged (comb : list val -> list val -> result (list val)) (r1 r2 : rel) : result rel :=
  do s1 <- rel_shift (n_opp A (a_start (r_x r1))) r1;
  do s2 <- rel_shift (n_opp A (a_start (r_x r2))) r2;
  do e <- rel_equalize false s1 s2;
  let x := r_x (fst e) in
  do y <- comb (r_y (fst e)) (r_y (snd e));
  rel_make (mkAxis (n_opp A (a_end x)) (a_end x) (a_sample x)) y.
Definition rel_correlate := rel_lagged (np_correlate A V).
Definition rel_convolve := rel_lagged (np_convolve A V).

End Methods.
End Rel.
Arguments mkRel {A V} _ _.
Arguments r_x {A V} _.
Arguments r_y {A V} _.
Arguments OVal {A V} _.
Arguments OArr {A V} _.
Arguments OBad {A V}.
Arguments XRel {A V} _.
Arguments XAxis {A V} _.
Arguments XSeq {A V} _.
