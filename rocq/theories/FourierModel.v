(** Fourier transforms: numpy.fft and sweep_design/defaults/methods.py 228-343, and the value level of
    sweep_design/signal.py and sweep_design/spectrum.py.

    Simplifications: exact (real) arithmetic; sums are written out instead of a fast algorithm. *)
From Coq Require Import Reals ZArith List Bool.
From Coquelicot Require Import Complex.
From Verif Require Import Num Numpy AxisModel RelModel HeapModel.
Import ListNotations.
Local Open Scope R_scope.

(** sum of f 0 .. f (n-1) *)
Fixpoint rsum (f : nat -> R) (n : nat) : R := match n with O => 0 | S m => rsum f m + f m end.
(** 2 pi k j / n *)
Definition ang (n k j : nat) : R := 2 * PI * INR k * INR j / INR n.
(** crop or pad with [z] to length [n] (the [n] argument of numpy.fft functions) *)
Definition fit {T} (z : T) (n : nat) (l : list T) : list T := firstn n l ++ repeat z (n - length l).

(** [np.fft.rfft(a, n)], methods.py 242: sum of a[j] exp(-2 pi i j k / n) for k = 0 .. n//2.
    An imaginary part of the input is discarded (numpy documentation); n < 1 raises ValueError. *)
Definition rfft_at (n : nat) (a : list R) (k : nat) : C :=
  (rsum (fun j => nth j a 0 * cos (ang n k j)) n, - rsum (fun j => nth j a 0 * sin (ang n k j)) n).
Definition rfft (x : list C) (size : option Z) : result (list C) :=
  let m := match size with Some z => z | None => Z.of_nat (length x) end in
  if (m <? 1)%Z then Err EValue
  else let n := Z.to_nat m in
       Ok (map (rfft_at n (fit 0 n (map fst x))) (seq 0 (n / 2 + 1))).

(** [np.fft.irfft(X, n)], methods.py 324: the real sequence whose half-spectrum is X cropped or padded to
    n//2+1; n defaults to 2 (len - 1); imaginary parts at k = 0 and k = n/2 are ignored. *)
Definition irfft_at (n : nat) (X : list C) (j : nat) : R :=
  / INR n * (fst (nth 0 X (RtoC 0))
    + rsum (fun k => 2 * (fst (nth (S k) X (RtoC 0)) * cos (ang n (S k) j)
                          - snd (nth (S k) X (RtoC 0)) * sin (ang n (S k) j))) ((n - 1) / 2)
    + (if Nat.even n then fst (nth (n / 2) X (RtoC 0)) * cos (ang n (n / 2) j) else 0)).
Definition irfft (X : list C) (size : option Z) : result (list C) :=
  let m := match size with Some z => z | None => (2 * (Z.of_nat (length X) - 1))%Z end in
  if (m <? 1)%Z then Err EValue
  else let n := Z.to_nat m in
       Ok (map (fun j => RtoC (irfft_at n (fit (RtoC 0) (n / 2 + 1) X) j)) (seq 0 n)).

(** [np.fft.rfftfreq(n, d)], methods.py 245-247: k * (1 / (n d)) for k = 0 .. n//2 *)
Definition rfftfreq (n : nat) (d : R) : result (list R) :=
  if Reqb (INR n * d) 0 then Err EArith
  else Ok (map (fun k => INR k * (1 / (INR n * d))) (seq 0 (n / 2 + 1))).

Notation crel := (rel RA CV).
Notation raxis := (axis RA).
(** size argument for numpy.fft, methods.py 233-238 and 317-322 *)
Definition fft_size (d : dom RA) : result (option Z) :=
  match d with
  | DNone => Ok None
  | DInt n => Ok (Some n)
  | DAxis a => do n <- axis_size RA a; Ok (Some (Z.of_nat n))
  end.
(** [np.append(a[t.array >= 0.0], a[t.array < 0.0])], methods.py 240-241 and 338-339; IndexError when the
    array is not as long as the axis *)
Definition reorder (t : raxis) (y : list C) : result (list C) :=
  do arr <- axis_array RA t;
  if Nat.eqb (length arr) (length y)
  then Ok (mask (map (fun x => n_le RA 0 x) arr) y ++ mask (map (fun x => n_lt RA x 0) arr) y)
  else Err EIndex.

(** [_calculate_spectrum], methods.py 230-250 *)
Definition calculate_spectrum (t : raxis) (y : list C) (d : dom RA) : result (raxis * list C) :=
  do size <- fft_size d;
  do y' <- reorder t y;
  do sp <- rfft y' size;
  match d with
  | DAxis a => Ok (a, sp)
  | _ => do f <- rfftfreq (length y') (a_sample t);
         do x <- axis_of_array RA (mkSeq (A:=RA) true f) false;
         Ok (x, sp)
  end.

(** [signal2spectrum], methods.py 253-293.  numpy.zeros of a negative number raises ValueError. *)
Definition signal2spectrum (c : crel) (d : dom RA) (zero : bool) : result (raxis * list C) :=
  let t := r_x c in
  let y := r_y c in
  if zero then calculate_spectrum t y d
  else if Rltb 0 (a_start t) then
    let t' := set_start RA 0 t in
    do n <- axis_size RA t';
    if Nat.ltb n (length y) then Err EValue
    else calculate_spectrum t' (repeat (RtoC 0) (n - length y) ++ y) d
  else if Rltb (a_end t) 0 then
    let t' := set_end RA 0 t in
    do n <- axis_size RA t';
    if Nat.ltb n (length y) then Err EValue
    else calculate_spectrum t' (y ++ repeat (RtoC 0) (n - length y)) d
  else calculate_spectrum t y d.

(** [spectrum2signal], methods.py 296-343 *)
Definition spectrum2signal (c : crel) (d : dom RA) (st : option R) : result (raxis * list C) :=
  do size <- fft_size d;
  do y <- irfft (r_y c) size;
  do t <- (match d with
           | DAxis a => Ok a
           | _ =>
               let w := 2 * (a_end (r_x c) - a_start (r_x c)) in
               if Reqb w 0 then Err EArith
               else let dt := 1 / w in
                    match st with
                    | None => Ok (mkAxis (A:=RA) 0 (INR (length y - 1) * dt) dt)
                    | Some s => Ok (mkAxis (A:=RA) s (s + INR (length y - 1) * dt) dt)
                    end
           end);
  do y' <- reorder t y;
  Ok (t, y').

(** [np.unwrap], spectrum.py 137: consecutive jumps are brought into [-pi, pi] by multiples of 2 pi
    (numpy/lib/function_base.py, discont = pi, period = 2 pi) *)
Definition fmod (x y : R) : R := x - y * IZR (Int_part (x / y)).
Definition unwrap_corr (dd : R) : R :=
  let m := fmod (dd + PI) (2 * PI) - PI in
  let m := if Reqb m (- PI) && Rltb 0 dd then PI else m in
  if Rltb (Rabs dd) PI then 0 else m - dd.
Fixpoint unwrap_from (prev acc : R) (l : list R) : list R :=
  match l with
  | [] => []
  | p :: t => let acc := acc + unwrap_corr (p - prev) in (p + acc) :: unwrap_from p acc t
  end.
Definition unwrap (l : list R) : list R :=
  match l with [] => [] | p :: t => p :: unwrap_from p 0 t end.

(** numpy functions on complex samples: np.abs, np.unwrap(np.angle(.)), np.exp,
    np.exp(-1j * f * 2 * np.pi * s), 1.0j, m * percent / 100 *)
Definition CF : vfun RA CV :=
  mkVfun RA CV (fun z => RtoC (Cmod z)) (fun l => map RtoC (unwrap (map Carg l))) Cexp
    (fun f s => Cexp (Cmult (Cmult (Cmult (Cmult (Copp Ci) (RtoC f)) (RtoC 2)) (RtoC PI)) (RtoC s)))
    Ci (fun v p => Cdiv (Cmult v (RtoC p)) (RtoC 100)).

(** config/base_config.py 222-237: the default methods *)
Definition fourier_config : hconfig RA CV :=
  mkHconfig RA CV (default_config RA CV) signal2spectrum spectrum2signal None None.

(* ------------------------------------------------------------------ *)
(** ** signal.py and spectrum.py by value *)
Section SpectrumValue.
Context (A : Arith) (V : Vals A) (F : vfun A V) (cfg : hconfig A V).
Notation rel := (rel A V).
Notation num := (num A).
Notation base := (hc_base cfg).

(** [get_spectrum] / [get_signal] without a remembered conversion, signal.py 101-105, spectrum.py 104-109 *)
Definition val_spectrum (c : rel) (d : dom A) (zero : bool) : result rel :=
  do fa <- hc_s2s A V cfg c d zero; rel_make A V (fst fa) (snd fa).
Definition val_signal (c : rel) (d : dom A) (st : option num) : result rel :=
  do ta <- hc_sp2s A V cfg c d st; rel_make A V (fst ta) (snd ta).
(** [get_amp_spectrum], [get_phase_spectrum], spectrum.py 113-137 *)
Definition val_amp (c : rel) : result rel := rel_map A V (vf_abs A V F) c.
Definition val_phase (c : rel) : result rel := rel_make A V (r_x c) (vf_phase A V F (r_y c)).
(** [get_spectrum_from_amp_phase], spectrum.py 218-237; the two factors are always on different axis objects *)
Definition val_from_amp_phase (am ph : rel) : result rel :=
  do i <- rel_op_num A V base RMUL ph (OVal (vf_i A V F));
  do e <- rel_map A V (vf_exp A V F) i;
  rel_op A V base MUL false am e.
(** [add_phase], [sub_phase] of Spectrum, spectrum.py 179-216 *)
Definition val_spec_phase (o : mathop) (c other : rel) : result rel :=
  do am <- val_amp c;
  do p1 <- val_phase c;
  do p2 <- val_phase other;
  do p <- rel_op A V base o false p1 p2;
  val_from_amp_phase am p.
(** [get_reverse_filter], spectrum.py 139-177 *)
Definition val_reverse_filter (percent : num) (subtract : bool) (f0 f1 : option num) (c : rel) : result rel :=
  do s <- rel_select A V f0 f1 c;
  do am <- val_amp s;
  do mx <- rel_max A V am;
  do am2 <- rel_op_num A V base ADD am (OVal (vf_pct A V F mx percent));
  do inv <- rel_op_num A V base RTRUEDIV am2 (OVal (v_of V (n_of_Z A 1)));
  do ph <- val_phase s;
  do ph2 <- rel_op_num A V base RMUL ph (OVal (v_of V (n_of_Z A (if subtract then (-1) else 1))));
  val_from_amp_phase inv ph2.
(** [add_phase], [sub_phase] of Signal, signal.py 199-227: [sp] is the signal's spectrum, [other] the
    spectrum of the argument *)
Definition val_sig_phase (o : mathop) (c sp other : rel) : result rel :=
  do s <- val_spec_phase o sp other; val_signal s (DAxis A (r_x c)) None.
(** [Signal.shift], signal.py 150-156 *)
Definition val_sig_shift (d : num) (c sp : rel) : result rel :=
  do arr <- axis_array A (r_x sp);
  do sh <- rel_make A V (r_x sp) (map (fun f => vf_phasor A V F f d) arr);
  val_sig_phase ADD c sp sh.
(** [get_reverse_signal], signal.py 158-197 *)
Definition val_reverse_signal (percent : num) (subtract : bool) (f0 f1 : option num) (c sp : rel) : result rel :=
  do rf <- val_reverse_filter percent subtract f0 f1 sp; val_signal rf (DAxis A (r_x c)) None.
(** [Signal.correlate]/[convolve] with the default methods, signal.py 229-261, relation.py 380-423,
    methods.py 184-225: [Signal.shift] is used; [sp1], [sp2] are the spectra of the operands *)
Definition val_sig_lagged (comb : list (val V) -> list (val V) -> result (list (val V))) (c1 sp1 c2 sp2 : rel) : result rel :=
  do s1 <- val_sig_shift (n_opp A (a_start (r_x c1))) c1 sp1;
  do s2 <- val_sig_shift (n_opp A (a_start (r_x c2))) c2 sp2;
  do e <- rel_equalize A V base false s1 s2;
  let x := r_x (fst e) in
  do y <- comb (r_y (fst e)) (r_y (snd e));
  rel_make A V (mkAxis (n_opp A (a_end x)) (a_end x) (a_sample x)) y.
End SpectrumValue.
