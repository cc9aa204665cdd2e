(** Vocabulary for the statements about prepared sweeps and utility functions. *)
From Coq Require Import Reals ZArith List Bool.
From Coquelicot Require Import Complex.
From Verif Require Import Num Numpy AxisModel RelModel HeapModel Spec FourierSpec FourierModel SweepModel PreparedModel.
Import ListNotations.
Local Open Scope R_scope.

(** numpy and math functions on samples that are real numbers stored as complex ones *)
Definition CW : wfun RA CV :=
  mkWfun RA CV (fun z => RtoC (sin (fst z))) (RtoC (2 * PI))
    (fun z => if Rltb (fst z) 0 then Err EValue else Ok (RtoC (sqrt (fst z)))) fst.

(** strictly increasing; never decreasing *)
Definition increasing (l : list R) : Prop :=
  forall i j a b, (i < j)%nat -> nth_error l i = Some a -> nth_error l j = Some b -> a < b.
Definition never_decreasing (l : list R) : Prop :=
  forall i j a b, (i <= j)%nat -> nth_error l i = Some a -> nth_error l j = Some b -> a <= b.

(** all values between 0 and 1 *)
Definition unit_list (l : list R) : Prop := forall x, In x l -> 0 <= x <= 1.
(** the amplitude to which soft_clip compresses the amplitude [a]: itself up to limit*percent, then an arc of a
    sine, then the limit *)
Definition clipped (limit percent a : R) : R :=
  let linear := limit * percent in
  if Rleb a linear then a else if Rleb limit a then limit
  else linear + (limit - linear) * sin (PI / 2 * (a - linear) / (limit - linear)).
Definition power_of_two (m : Z) : Prop := exists k, (0 <= k)%Z /\ m = (2 ^ k)%Z.
(** [clog m] is what math.ceil(math.log(m, 2)) may give: some number within one part in 2^40 of the binary
    logarithm of m, rounded up; log(2)/log(2) is exactly 1.  (math.log(2**29, 2) is 29.000000000000004.) *)
Definition rounded_log (clog : Z -> Z) : Prop :=
  clog 2%Z = 1%Z /\
  forall m, (1 <= m)%Z -> exists v : R,
    (Rabs (v - ln (IZR m) / ln 2) <= / 2 ^ 40 * (ln (IZR m) / ln 2) /\ IZR (clog m) - 1 < v <= IZR (clog m))%R.
(** squared magnitudes of the samples of a spectrum *)
Definition energies (c : crel) : list R := map (fun z : C => Cmod z ^ 2) (r_y c).
(** first sample of the k-th segment, in samples *)
Definition seg_offset (q k : nat) : nat := match k with O => 0 | S _ => k * q + 1 end.
(** [r] has m+1 samples on an axis of exactly m steps *)
Definition exact_rel (r : rrel) (m : nat) : Prop :=
  exact_span (a_start (r_x r)) (a_end (r_x r)) (a_sample (r_x r)) m /\ length (r_y r) = (m + 1)%nat.
(** a decomposition with at least one component, all as long as the data *)
Definition keeps_length (emd : decomposition) : Prop :=
  forall y : list R, y <> [] -> exists first others, emd y = Ok (first :: others) /\ forall z, In z (first :: others) -> length z = length y.
(** [x] lies in the band between the two frequencies *)
Definition between (f_start f_end x : R) : Prop := Rmin f_start f_end <= x <= Rmax f_start f_end.
(** k-th sample of the convolution: the sum over j of u[j] v[k - j] *)
Definition convolved (u v : list R) (k : nat) : R :=
  tsum (fun j => nth j u 0 * (if Nat.ltb k j then 0 else nth (k - j) v 0)) (length u).
(** integral of samples [d] apart by trapezoids, up to the sample [i + 1] *)
Definition area (d : R) (l : nat -> R) (i : nat) : R := d * tsum (fun j => (l j + l (S j)) / 2) (S i).
(** [D] is the displacement of a mass under the force [f]: the integral of the integral, two samples shorter *)
Definition displaces (d mass : R) (f D : list R) : Prop :=
  length D = (length f - 2)%nat /\ forall i, (i < length D)%nat -> nth i D 0 = area d (area d (fun j => nth j f 0)) i / mass.
(** what one suppression multiplies the force by, for a displacement of size [a] *)
Definition suppression (limit percent c a : R) : R :=
  if Rle_dec a (limit * percent) then 1 else Rpow_py (clipped limit percent a / a) c.
(** products of samples at the same places *)
Definition products (u v : list R) : list R := map (fun p => fst p * snd p) (combine u v).
(** the force after [c] suppressions with the coefficient of the pass, [x] the displacements *)
Definition suppressed (limit percent coefficient : R) (c : nat) (x f : list R) : list R :=
  map (fun p => suppression limit percent coefficient (Rabs (fst p)) ^ c * snd p) (combine x f).
(** the displacement after a pass: two zeros, then the windowed first component of the displacement under [f] *)
Definition passed (emd : decomposition) (d mass : R) (w f nd : list R) : Prop :=
  exists D i others, displaces d mass f D /\ emd D = Ok (i :: others) /\ nd = 0 :: 0 :: products i (skipn 2 w).
(** [r] is the second difference of [u] *)
Definition bends (d : R) (u r : list R) : Prop :=
  length r = (length u - 2)%nat /\ forall i, (i < length r)%nat -> nth i r 0 = (nth (S (S i)) u 0 - 2 * nth (S i) u 0 + nth i u 0) / (d * d).
