(** Vocabulary for the statements about sweep generators. *)
From Coq Require Import Reals ZArith List Bool.
From Coquelicot Require RInt Hierarchy.
From Verif Require Import Num Numpy AxisModel RelModel HeapModel Spec SweepModel.
Import ListNotations.

(** The axis a generator works on: the one given to the call, else the one given to the constructor. *)
Inductive calling_axis {A V} (cfg : config A V) (own : option (axis A)) : utime A -> axis A -> Prop :=
| CA_axis a : calling_axis cfg own (UtAxis a) a
| CA_seq s a : c_axis_from_array A V cfg s true = Ok a -> calling_axis cfg own (UtSeq s) a
| CA_own a : own = Some a -> calling_axis cfg own UtNone a.

(** [y] holds the values of a law on axis [x]: a function is applied to the times; a law given by points is
    moved onto the axis (abscissa u goes to u (end - start) / last - first + start) and interpolated. *)
Inductive law_on {A V} (cur : config A V) : law A V -> axis A -> list (val V) -> Prop :=
| LO_fun c x ts y : axis_array A x = Ok ts -> cl_arr c ts = Ok y -> law_on cur (LawFun c) x y
| LO_arr u0 us ys x y :
    c_interp A V cur
      (map (fun u => n_add A (n_sub A (n_mul A u (n_div A (n_sub A (a_end x) (a_start x)) (last (u0 :: us) u0))) u0) (a_start x)) (u0 :: us))
      ys x = Ok y ->
    law_on cur (LawArr (mkIA (u0 :: us) ys)) x y.

(** [th] holds the angle of a law on axis [x]: what the integration method of the generator gives for a
    function; 0 followed by 2 pi times the running integral of the samples [fy] for a law given by points. *)
Inductive angle_on {A V} (W : wfun A V) (cur : config A V) (int : integrator A V)
  : law A V -> axis A -> list (val V) -> list (val V) -> Prop :=
| AO_fun c x fy th : int c x = Ok th -> angle_on W cur int (LawFun c) x fy th
| AO_arr f x fy i : rel_integrate A V cur (mkRel x fy) = Ok i ->
    angle_on W cur int (LawArr f) x fy (v_of V (n_of_Z A 0) :: map (v_mul V (w_2pi A V W)) (r_y i)).

(** numpy and math functions on real samples *)
Definition RW : wfun RA RV :=
  mkWfun RA RV sin (2 * PI)%R (fun x => if Rltb x 0 then Err EValue else Ok (sqrt x)) (fun x => x).

(** [v] is the value at fraction [q] of the piecewise linear function through points (x,y) on [0, last x]. *)
Definition at_fraction {V : Vals RA} (x : list R) (y : list (val V)) (q : R) (v : val V) : Prop :=
  pl_value x y (q * last x 0)%R v.

(** The quadrature gives the integral of every integrable function. *)
Definition quad_exact (quad : (R -> R) -> R -> R -> R) : Prop :=
  forall (g : R -> R) (a b : R), RInt.ex_RInt (V:=Hierarchy.R_NormedModule) g a b ->
    quad g a b = RInt.RInt (V:=Hierarchy.R_CompleteNormedModule) g a b.

(** Segments of a spectrogram of [n] samples: length, distance, number of segments (columns of the image) and
    number of frequencies (rows). *)
Definition seg_len (n : nat) : nat := Nat.min n 256.
Definition seg_step (n : nat) : nat := (seg_len n - seg_len n / 8)%nat.
Definition seg_cols (n : nat) : nat := ((n - seg_len n / 8) / seg_step n)%nat.
Definition seg_rows (n : nat) : nat := (seg_len n / 2 + 1)%nat.


Local Open Scope R_scope.
(** axis made of [k] spacings [d]: two points for k = 1, rounded spacing otherwise *)
Definition spectro_axis (x0 d : R) (k : nat) (a : axis RA) : Prop :=
  (k = 1%nat -> axis_array RA a = Ok [x0; x0 + 1]%R) /\
  ((2 <= k)%nat -> exists d', rounded_spacing d d' /\ a = mkAxis (A:=RA) x0 (x0 + INR (k - 1) * d) d' /\
     forall m, axis_size RA a = Ok m <-> (0 < m)%nat /\ round_half_even (INR (k - 1) * (d / d')) (Z.of_nat m - 1)).
