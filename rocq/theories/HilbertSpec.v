(** Specification vocabulary for the analytic signal; independent of the model code. *)
From Coq Require Import Reals ZArith List.
From Coquelicot Require Import Complex.
From Verif Require Import FourierSpec.
Import ListNotations.
Local Open Scope R_scope.

(** discrete Fourier transform of complex samples: sum over j of z[j] exp(-2 pi i j m / n) *)
Definition fourier_c (z : list C) (m : nat) : C :=
  csum (fun j => Cmult (nth j z (RtoC 0)) (cis (- (2 * PI * INR j * INR m / INR (length z))))) (length z).

(** [z] is the analytic signal of the real samples [x]: the real part is [x], there is nothing at the negative
    frequencies, and the constant part and the highest frequency (for even length) are those of [x] *)
Definition analytic (x : list R) (z : list C) : Prop :=
  map fst z = x /\
  (forall m, (m < length x)%nat -> (length x < 2 * m)%nat -> fourier_c z m = RtoC 0) /\
  (forall m, (m < length x)%nat -> m = O \/ (2 * m = length x)%nat -> fourier_c z m = fourier_c (reals x) m).

(** [n] samples of a harmonic that makes [k] turns over the record *)
Definition harmonic (n k : nat) (amp phi : R) : list R :=
  map (fun j => amp * cos (2 * PI * INR k * INR j / INR n + phi)) (seq 0 n).
