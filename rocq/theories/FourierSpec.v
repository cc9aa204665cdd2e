(** Specifications used by the statements about signals and spectra; independent of the model code. *)
From Coq Require Import Reals ZArith List.
From Coquelicot Require Import Complex.
Import ListNotations.
Local Open Scope R_scope.

(** [l'] is [l] rotated left by [k] positions (right by [-k]) *)
Definition rotated_left {T} (k : Z) (l l' : list T) : Prop :=
  length l' = length l /\
  forall i, (i < length l)%nat ->
    nth_error l' i = nth_error l (Z.to_nat ((Z.of_nat i + k) mod Z.of_nat (length l))).

(** exactly the first [p] points of the progression [s], [s+d], ... are negative *)
Definition negatives (s d : R) (n p : nat) : Prop :=
  forall i, (i < n)%nat -> (s + INR i * d < 0 <-> (i < p)%nat).

(** real samples as complex numbers *)
Definition reals (u : list R) : list C := map RtoC u.

(** unit phasor of a complex number (1 for 0) *)
Definition phasor (z : C) : C := if Req_EM_T (Cmod z) 0 then RtoC 1 else Cdiv z (RtoC (Cmod z)).

(** ends of the time interval after the zero padding of methods.py 279-291: the interval is extended to
    contain time 0 unless the caller asks for [is_start_zero] *)
Definition ext_start (z : bool) (s : R) : R := if z then s else Rmin 0 s.
Definition ext_end (z : bool) (e : R) : R := if z then e else Rmax 0 e.

(** the unit complex number at angle [t] *)
Definition cis (t : R) : C := (cos t, sin t).
(** f 0 + ... + f (n-1) *)
Fixpoint csum (f : nat -> C) (n : nat) : C := match n with O => RtoC 0 | S m => Cplus (csum f m) (f m) end.
(** discrete Fourier transform: sum over j of u[j] exp(-2 pi i j k / n), n the number of samples *)
Definition fourier_at (u : list R) (k : nat) : C :=
  csum (fun j => Cmult (RtoC (nth j u 0)) (cis (- (2 * PI * INR j * INR k / INR (length u))))) (length u).
Definition fourier (u : list R) : list C := map (fourier_at u) (seq 0 (length u / 2 + 1)%nat).

(** [l] is obtained from [a] and [b] element by element *)
Definition pointwise {K T U} (f : K -> T -> U) (a : list K) (b : list T) (l : list U) : Prop :=
  length l = length a /\
  forall i x y, nth_error a i = Some x -> nth_error b i = Some y -> nth_error l i = Some (f x y).

(** f 0 + ... + f (n-1) *)
Fixpoint tsum (f : nat -> R) (n : nat) : R := match n with O => 0 | S m => tsum f m + f m end.
(** [w] is the circular convolution of [u] and [v]: w[i] is the sum over j of u[j] v[(i - j) mod n] *)
Definition circular (u v w : list R) : Prop :=
  length w = length u /\
  forall i, (i < length u)%nat ->
    nth i w 0 = tsum (fun j => nth j u 0 * nth (Z.to_nat ((Z.of_nat i - Z.of_nat j) mod Z.of_nat (length u))) v 0) (length u).
(** squared size of a complex number; energy of the full spectrum of [n] real samples from its half [X]: the
    frequencies other than 0 (and n/2 for even n) stand for two *)
Definition cnorm2 (z : C) : R := fst z * fst z + snd z * snd z.
Definition half_energy (n : nat) (X : list C) : R :=
  cnorm2 (nth 0 X (RtoC 0)) + tsum (fun k => 2 * cnorm2 (nth (S k) X (RtoC 0))) ((n - 1) / 2)
  + (if Nat.even n then cnorm2 (nth (n / 2) X (RtoC 0)) else 0).
