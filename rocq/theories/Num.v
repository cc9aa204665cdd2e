(** Number systems, exceptions and sample values.

    The Python code works on Python/numpy floats.  The model is written once over a record
    [Arith] of operations and instantiated at the reals ([RA], exact arithmetic), the rationals
    ([QA], executable) and IEEE binary64 ([FA], executable, pure Gallina [SpecFloat]). *)
From Coq Require Import Reals ZArith QArith Qround Qabs List Bool Lra SpecFloat.
From Coquelicot Require Import Complex.
Import ListNotations.

(* ------------------------------------------------------------------ *)
(** ** Exceptions as values *)

(** One constructor per exception class raised by the modelled code:
    sweep_design/exc.py 1-21 and the Python/numpy built-in exceptions that
    the modelled statements can raise. *)
Inductive exn : Type :=
| ENotEqual (nx ny : nat)   (* exc.py 1-4 NotEqualError(x.size, y.size) *)
| EBadInput                 (* exc.py 7-8 BadInputError *)
| EConverting               (* exc.py 11-14 ConvertingError *)
| ETypeFunc                 (* exc.py 17-21 TypeFuncError *)
| EIndex                    (* IndexError *)
| EValue                    (* ValueError *)
| EArith                    (* ZeroDivisionError / OverflowError / nan-to-int *)
| ESegment                  (* prepared_sweeps/pseudorandom_shuffle.py 13-14 *)
| EType                     (* TypeError / AttributeError *)
| EDangling.                (* heap level only: no such object; references stored in reachable states never dangle (HeapLemmas.wf, reachable_wf) *)

Inductive result (T : Type) : Type := Ok (x : T) | Err (e : exn).
Arguments Ok {T} _.
Arguments Err {T} _.

Definition bind {T U} (r : result T) (f : T -> result U) : result U :=
  match r with Ok x => f x | Err e => Err e end.
Notation "'do' x <- a ; b" := (bind a (fun x => b))
  (at level 200, x pattern, a at level 100, b at level 200).

Definition err_of {T} (r : result T) : option exn := match r with Ok _ => None | Err e => Some e end.
Definition is_ok {T} (r : result T) : bool := match r with Ok _ => true | Err _ => false end.

(* ------------------------------------------------------------------ *)
(** ** Arithmetic *)

Record Arith : Type := mkArith {
  num : Type;
  n_of_Z : Z -> num;
  n_add : num -> num -> num;
  n_sub : num -> num -> num;
  n_mul : num -> num -> num;
  n_div : num -> num -> num;
  n_opp : num -> num;
  n_abs : num -> num;
  n_le : num -> num -> bool;      (* Python <= *)
  n_lt : num -> num -> bool;      (* Python <  *)
  n_eq : num -> num -> bool;      (* Python == *)
  n_round : num -> option Z       (* Python round(x): half to even; None for inf/nan (raises) *)
}.

(** Half-to-even rounding of floor [f] and fractional part compared with 1/2. *)
Definition half_even (f : Z) (c : comparison) : Z :=
  match c with
  | Lt => f
  | Gt => (f + 1)%Z
  | Eq => if Z.even f then f else (f + 1)%Z
  end.

(** *** Reals *)
Definition Rleb (x y : R) : bool := if Rle_dec x y then true else false.
Definition Rltb (x y : R) : bool := if Rlt_dec x y then true else false.
Definition Reqb (x y : R) : bool := if Req_EM_T x y then true else false.
Definition Rcomp (x y : R) : comparison :=
  if Rlt_dec x y then Lt else if Req_EM_T x y then Eq else Gt.
Definition Rround (x : R) : Z := half_even (Int_part x) (Rcomp (x - IZR (Int_part x)) (/ 2)).

Definition RA : Arith :=
  {| num := R; n_of_Z := IZR; n_add := Rplus; n_sub := Rminus; n_mul := Rmult; n_div := Rdiv;
     n_opp := Ropp; n_abs := Rabs; n_le := Rleb; n_lt := Rltb; n_eq := Reqb;
     n_round := fun x => Some (Rround x) |}.

(** *** Rationals (normalised, so that results compare by [=]) *)
Definition Qround_he (x : Q) : Z :=
  let f := Qfloor x in half_even f (Qcompare (x - inject_Z f) (1 # 2)).
Definition QA : Arith :=
  {| num := Q; n_of_Z := inject_Z;
     n_add := fun a b => Qred (a + b); n_sub := fun a b => Qred (a - b);
     n_mul := fun a b => Qred (a * b); n_div := fun a b => Qred (a / b);
     n_opp := fun a => Qred (- a); n_abs := fun a => Qred (Qabs a);
     n_le := Qle_bool; n_lt := fun a b => negb (Qle_bool b a); n_eq := Qeq_bool;
     n_round := fun x => Some (Qround_he x) |}.

(** *** IEEE binary64, round to nearest even *)
Definition f64_of_Z (z : Z) : spec_float := binary_normalize 53 1024 z 0 false.
(** Python [round] of a float: exact on the dyadic value, half to even; raises on inf and nan. *)
Definition f64_round (x : spec_float) : option Z :=
  match x with
  | S754_zero _ => Some 0%Z
  | S754_infinity _ | S754_nan => None
  | S754_finite s m e =>
      let z := if s then Z.neg m else Z.pos m in
      Some (match e with
            | Zneg p => let d := Z.pow_pos 2 p in
                        let f := (z / d)%Z in
                        half_even f (Z.compare (2 * (z - f * d)) d)
            | Z0 => z
            | Zpos p => (z * Z.pow_pos 2 p)%Z
            end)
  end.
Definition FA : Arith :=
  {| num := spec_float; n_of_Z := f64_of_Z;
     n_add := SFadd 53 1024; n_sub := SFsub 53 1024; n_mul := SFmul 53 1024; n_div := SFdiv 53 1024;
     n_opp := SFopp; n_abs := SFabs; n_le := SFleb; n_lt := SFltb; n_eq := SFeqb;
     n_round := f64_round |}.
(** Decimal literals p/q of Python source, correctly rounded (p, q exactly representable). *)
Definition f64 (p q : Z) : spec_float := SFdiv 53 1024 (f64_of_Z p) (f64_of_Z q).

(* ------------------------------------------------------------------ *)
(** ** Sample values *)

(** What the elements of a relation's [y] array can do (numpy element operations). *)
Record Vals (A : Arith) : Type := mkVals {
  val : Type;
  v_of : num A -> val;                 (* real number as a sample value *)
  v_add : val -> val -> val;
  v_sub : val -> val -> val;
  v_mul : val -> val -> val;
  v_div : val -> val -> val;
  v_pow : val -> val -> val;
  v_conj : val -> val;
  v_lt : val -> val -> bool            (* numpy ordering used by max/min *)
}.
Arguments val {A} _.
Arguments v_of {A} _ _.
Arguments v_add {A} _ _ _.
Arguments v_sub {A} _ _ _.
Arguments v_mul {A} _ _ _.
Arguments v_div {A} _ _ _.
Arguments v_pow {A} _ _ _.
Arguments v_conj {A} _ _.
Arguments v_lt {A} _ _ _.

(** Real power: numpy [**] on floats. Natural exponents are repeated products; other exponents
    use exp(e*ln b) (meaningful for b > 0; numpy yields nan for negative bases, not modelled). *)
Definition Rnat_of (e : R) : option nat :=
  if Req_EM_T e (IZR (Int_part e)) then
    if Z.leb 0 (Int_part e) then Some (Z.to_nat (Int_part e)) else None
  else None.
Definition Rpow_py (b e : R) : R :=
  match Rnat_of e with Some n => pow b n | None => Rpower b e end.

(** Real sample values over R. *)
Definition RV : Vals RA :=
  {| val := R : Type; v_of := (fun x => x) : num RA -> R;
     v_add := Rplus; v_sub := Rminus; v_mul := Rmult; v_div := Rdiv; v_pow := Rpow_py;
     v_conj := fun x => x; v_lt := Rltb |}.

(** Complex sample values over R (Coquelicot's [C]). *)
Fixpoint Cpow (b : C) (n : nat) : C :=
  match n with O => RtoC 1 | S n => Cmult b (Cpow b n) end.
(** numpy angle (arctan2(im, re)); 0 at 0. *)
Definition Carg (z : C) : R :=
  if Req_EM_T (Cmod z) 0 then 0%R
  else if Rle_dec 0 (snd z) then acos (fst z / Cmod z) else (- acos (fst z / Cmod z))%R.
(** complex exponential *)
Definition Cexp (z : C) : C := (exp (fst z) * cos (snd z), exp (fst z) * sin (snd z))%R.
Definition Clog (z : C) : C := (ln (Cmod z), Carg z).
Definition Cpow_py (b e : C) : C :=
  match (if Req_EM_T (snd e) 0 then Rnat_of (fst e) else None) with
  | Some n => Cpow b n
  | None => if Req_EM_T (Cmod b) 0 then RtoC 0 else Cexp (Cmult e (Clog b))
  end.
(** numpy orders complex numbers lexicographically *)
Definition Cltb (a b : C) : bool :=
  Rltb (fst a) (fst b) || (Reqb (fst a) (fst b) && Rltb (snd a) (snd b)).
Definition CV : Vals RA :=
  {| val := C : Type; v_of := (fun x => RtoC x) : num RA -> C;
     v_add := Cplus; v_sub := Cminus; v_mul := Cmult; v_div := Cdiv; v_pow := Cpow_py;
     v_conj := Cconj; v_lt := Cltb |}.

(** Real sample values over Q and binary64 (only [**2] is modelled for these two). *)
Definition sq_pow {A : Arith} (b e : num A) : num A :=
  if n_eq A e (n_of_Z A 2) then n_mul A b b else b.
Definition QV : Vals QA :=
  {| val := Q : Type; v_of := (fun x => x) : num QA -> Q;
     v_add := n_add QA; v_sub := n_sub QA; v_mul := n_mul QA; v_div := n_div QA;
     v_pow := @sq_pow QA; v_conj := fun x => x; v_lt := n_lt QA |}.
Definition FV : Vals FA :=
  {| val := spec_float : Type; v_of := (fun x => x) : num FA -> spec_float;
     v_add := n_add FA; v_sub := n_sub FA; v_mul := n_mul FA; v_div := n_div FA;
     v_pow := @sq_pow FA; v_conj := fun x => x; v_lt := n_lt FA |}.
