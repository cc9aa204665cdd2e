(** The default estimates of frequency and amplitude of a sweep through the analytic signal:
    sweep_design/defaults/sweep_methods.py 281-322, on real samples.

    Simplifications: exact arithmetic; sums are written out instead of a fast algorithm. *)
From Coq Require Import Reals ZArith List Bool.
From Coquelicot Require Import Complex.
From Verif Require Import Num Numpy AxisModel RelModel HeapModel FourierModel SweepModel.
Import ListNotations.
Local Open Scope R_scope.

(** the weights of scipy.signal.hilbert: 1 at 0 and at n/2 for even n, 2 in between, 0 after *)
Definition hilbert_weight (n k : nat) : R :=
  if Nat.eqb k 0 then 1
  else if Nat.even n then (if Nat.eqb k (n / 2) then 1 else if Nat.ltb k (n / 2) then 2 else 0)
  else (if Nat.ltb k ((n + 1) / 2) then 2 else 0).
(** sample [j] of np.fft.ifft(h * np.fft.fft(a)) *)
Definition hilbert_at (n : nat) (a : list R) (j : nat) : C :=
  (/ INR n * rsum (fun k => hilbert_weight n k * (fst (rfft_at n a k) * cos (ang n k j) - snd (rfft_at n a k) * sin (ang n k j))) n,
   / INR n * rsum (fun k => hilbert_weight n k * (fst (rfft_at n a k) * sin (ang n k j) + snd (rfft_at n a k) * cos (ang n k j))) n).
(** [scipy.signal.hilbert], sweep_methods.py 297 and 320; ValueError for no samples *)
Definition hilbert (a : list R) : result (list C) :=
  match a with [] => Err EValue | _ => Ok (map (hilbert_at (length a) a) (seq 0 (length a))) end.

(** [get_f_t], sweep_methods.py 281-303: the samples of the returned relation, which is on the sweep's axis *)
Definition get_f_t (c : rel RA RV) : result (list R) :=
  do z <- hilbert (r_y c);
  Ok (0 :: map (fun d => d / (2 * PI) / a_sample (r_x c)) (diffs Rminus (unwrap (map Carg z)))).
(** [get_a_t], sweep_methods.py 306-321 *)
Definition get_a_t (c : rel RA RV) : result (list R) := do z <- hilbert (r_y c); Ok (map Cmod z).
(** config/sweep_config.py: the default estimates; what the spectrogram does is left open *)
Definition hilbert_sconfig (spectro : rel RA RV -> result unit) : sconfig RA RV := mkSconfig RA RV get_f_t get_a_t spectro.
