(** Value level of sweep_design/prepared_sweeps/* and sweep_design/utility_functions/*.

    Simplifications: exact arithmetic; what [math.ceil(math.log(m, 2))] gives, a decomposition into intrinsic mode
    functions, the random choices and scipy's table of feedback taps are arguments; objects are represented by
    their content. *)
From Coq Require Import Reals ZArith List Bool.
From Coquelicot Require Import Complex.
From Verif Require Import Num Numpy AxisModel RelModel HeapModel FourierModel SweepModel.
Import ListNotations.

(* ------------------------------------------------------------------ *)
(** ** Codes *)

(** [math.ceil(math.log(m, 2))], code_m_sequence.py 26 and 61; ValueError (math domain error) for m <= 0.  [clog] is
    what the computation gives for the other m: the logarithm is rounded before it is rounded up *)
Definition log2_ceil (clog : Z -> Z) (m : Z) : result nat := if (m <=? 0)%Z then Err EValue else Ok (Z.to_nat (clog m)).
(** random bits, code_m_sequence.py 27-28, 64-65; [rnd] is what random.randint returns in order *)
Definition random_start (rnd : nat -> bool) (n : nat) : list Z := map (fun i => if rnd i then 1%Z else 0%Z) (seq 0 n).
(** [if np.all(start == 0): start[0] = 1], code_m_sequence.py 30-31, 67-68: the array afterwards.  The assignment is
    made in the array that was passed in, if one was *)
Definition nonzero_start (s : list Z) : result (list Z) :=
  if forallb (Z.eqb 0) s then match s with [] => Err EIndex | _ :: t => Ok (1%Z :: t) end else Ok s.
(** The shift register inside [scipy.signal.max_len_seq] as a queue: the first bit is put out; its sum modulo 2
    with the bits at the taps enters at the end. *)
Fixpoint shift_register (taps : list nat) (n : nat) (st : list bool) : list bool :=
  match n, st with
  | S k, b :: t => b :: shift_register taps k (t ++ [fold_left xorb (map (fun i => nth (i mod length st) st false) taps) b])
  | _, _ => []
  end.
(** [max_len_seq(nbits, state)[0]], code_m_sequence.py 33, 70-72: scipy knows taps for 2..32 bits, turns the
    state into booleans and wants exactly [nbits] of them, not all zero; the result has 2^nbits - 1 bits *)
Definition max_len_seq (taps : nat -> list nat) (nbits : nat) (state : list Z) : result (list bool) :=
  if Nat.ltb nbits 2 || Nat.ltb 32 nbits then Err EValue
  else if negb (Nat.eqb (length state) nbits) || forallb (Z.eqb 0) state then Err EValue
  else Ok (shift_register (taps nbits) (2 ^ nbits - 1) (map (fun z => negb (Z.eqb z 0)) state)).
(** [get_m_sequence_code], code_m_sequence.py 12-38 *)
Definition get_m_sequence_code (clog : Z -> Z) (taps : nat -> list nat) (rnd : nat -> bool) (length_code : Z) (is_full : bool) : result (list bool) :=
  do n <- log2_ceil clog (length_code - 1);
  do st <- nonzero_start (random_start rnd n);
  do m <- max_len_seq taps n st;
  Ok (if is_full then m else firstn (Z.to_nat (length_code - 1)) m).

(** [list * n], code_zinger.py 24 *)
Definition get_code_zinger {T} (code : list T) (periods : Z) : list T := concat (repeat code (Z.to_nat periods)).

Section Generic.
Context (A : Arith) (V : Vals A).
Notation num := (num A).
Notation val := (val V).
Notation axis := (axis A).
Notation rel := (rel A V).
Notation config := (config A V).
Notation n2 n := (n_of_Z A (Z.of_nat n)).

(** a bit as a sample *)
Definition bit_val (b : bool) : val := v_of V (n_of_Z A (if b then 1 else 0)).
(** [get_relation_m_sequence], code_m_sequence.py 41-79 *)
Definition get_relation_m_sequence (cfg : config) (clog : Z -> Z) (taps : nat -> list nat) (rnd : nat -> bool)
    (time : axis + seq_in A) (start : option (list Z)) (is_full : bool) : result rel :=
  do t <- (match time with inl a => Ok a | inr s => axis_of_array A s true end);
  do n <- axis_size A t;
  do k <- log2_ceil clog (Z.of_nat n - 1);
  do st <- nonzero_start (match start with Some s => s | None => random_start rnd k end);
  do m <- max_len_seq taps (length st) st;
  if is_full
  then rel_make A V (mkAxis (n_of_Z A 0) (n_mul A (a_sample t) (n_of_Z A (Z.of_nat (length m) - 1))) (a_sample t)) (map bit_val m)
  else rel_make A V t (map bit_val (firstn n m)).

(** [get_code_zinger_relation], code_zinger.py 27-46; [shift] is the method of the argument's class *)
Definition zinger_step (cfg : config) (shift : num -> rel -> result rel) (start : rel) (acc : result rel) (k : nat) : result rel :=
  do q <- acc; do s <- shift (n_mul A (a_end (r_x start)) (n2 k)) start; rel_op A V cfg ADD false q s.
Definition get_code_zinger_relation (cfg : config) (shift : num -> rel -> result rel) (start : rel) (periods : Z) : result rel :=
  if (1 <? periods)%Z
  then fold_left (zinger_step cfg shift start) (seq 0 (Z.to_nat periods)) (Ok start)
  else Ok start.

(** [get_code_sweep_segments], sweep_from_code.py 50-72, up to the final conversion to Sweep, which keeps axis and
    samples; IndexError for an empty code; [shift] is the method of the base's class *)
Fixpoint segments (cfg : config) (shift : num -> rel -> result rel) (base : rel) (cnt : nat) (code : list val) (acc : rel) : result rel :=
  match code with
  | [] => Ok acc
  | v :: code' =>
      do s <- shift (n_add A (n_mul A (n2 cnt) (a_end (r_x base))) (a_sample (r_x base))) base;
      do p <- rel_op_num A V cfg MUL s (OVal v);
      do acc' <- rel_op A V cfg ADD false acc p;
      segments cfg shift base (S cnt) code' acc'
  end.
Definition get_code_sweep_segments (cfg : config) (shift : num -> rel -> result rel) (code : list val) (base : rel) : result rel :=
  match code with
  | [] => Err EIndex
  | c0 :: rest => do b <- rel_op_num A V cfg MUL base (OVal c0); segments cfg shift base 1 rest b
  end.
(** [Signal.shift] of a signal whose spectrum is computed afresh, signal.py 150-156 *)
Definition signal_shift (F : vfun A V) (cfg : hconfig A V) (d : num) (c : rel) : result rel :=
  do sp <- val_spectrum A V cfg c (DNone A) false; val_sig_shift A V F cfg d c sp.

(** [get_convolution_sweep_and_code], sweep_from_code.py 13-47: the code as a relation (a list of numbers is put on
    the axis 0, sample, 2 sample, ...), the convolution cut off after code.size * sample, moved by base.end *)
Definition code_relation (base : rel) (code : rel + list val) : result rel :=
  match code with
  | inl c => Ok c
  | inr l => rel_make A V (mkAxis (n_of_Z A 0) (n_mul A (n_of_Z A (Z.of_nat (length l) - 1)) (a_sample (r_x base))) (a_sample (r_x base))) l
  end.
Definition get_convolution_sweep_and_code (F : vfun A V) (cfg : hconfig A V) (code : rel + list val) (base : rel) : result rel :=
  do c <- code_relation base code;
  do n <- axis_size A (r_x c);
  do sp1 <- val_spectrum A V cfg c (DNone A) false;
  do sp2 <- val_spectrum A V cfg base (DNone A) false;
  do r <- val_sig_lagged A V F cfg (np_convolve A V) c sp1 base sp2;
  do s <- rel_select A V None (Some (n_mul A (n2 n) (a_sample (r_x base)))) r;
  signal_shift F cfg (a_end (r_x base)) s.

(* ------------------------------------------------------------------ *)
(** ** Frequency laws, f_t.py *)

(** [f_t_linear_function], f_t.py 6-22: the value at one time *)
Definition f_t_linear_function (time_start time_end f_start f_end t : num) : num :=
  n_add A (n_div A (n_mul A t (n_sub A f_end f_start)) (n_sub A time_end time_start)) f_start.
(** [f_t_linear_array], f_t.py 25-39; IndexError for an empty array *)
Definition f_t_linear_array (time : list num) (f_start f_end : num) : result (list num) :=
  match time with
  | [] => Err EIndex
  | t0 :: _ =>
      let d := n_sub A (last time t0) t0 in
      Ok (map (fun t => n_add A (n_div A (n_mul A t (n_sub A f_end f_start)) d) f_start) time)
  end.

(** [proportional_freq2time], ftat_functions.py 11-26 *)
Definition proportional_freq2time (W : wfun A V) (F : vfun A V) (c : rel) : result (list num * list val * list val) :=
  do am <- val_amp A V F c;
  do f <- axis_array A (r_x am);
  let sq := map (fun v => v_pow V v (v_of V (n_of_Z A 2))) (r_y am) in
  let t := freq2time_time A f (map (w_re A V W) sq) in
  do k <- w_sqrt A V W (v_mul V (trapz A V sq f) (v_of V (n_of_Z A 2)));
  Ok (t, map (v_of V) f, repeat k (length t)).
End Generic.

Local Open Scope R_scope.
(** all but the last element, [l[:-1]] *)
Definition butlast {T} (l : list T) : list T := firstn (length l - 1) l.

(** [dwell], ftat_functions.py 41-63, on frequencies [f] and amplitudes [a]; [fc] None or 0 means the first
    frequency.  IndexError where numpy indexes an empty array. *)
Definition freq_ratio (freq : list R) : list R :=
  diffs (fun b a => if Reqb a 0 then 1 else b / a) freq.
Definition dwell_data (fc : option R) (f a : list R) : result (list R * list R * list R) :=
  do c <- (match fc, f with
           | Some c, f0 :: _ => Ok (if Reqb c 0 then f0 else c)
           | None, f0 :: _ => Ok f0
           | Some c, [] => if Reqb c 0 then Err EIndex else Ok c
           | None, [] => Err EIndex end);
  let low := map (fun x => Rleb x c) f in
  let freq := mask low f in
  let ratio := freq_ratio freq in
  let dur := cumul Rmult (map (fun r => 1 / Rpow_py r 4) ratio) in
  let energy := map (fun x => Rpow_py x 2) (butlast (mask low a)) in
  if negb (Nat.eqb (length dur) (length energy)) then Err EValue else
  let nT := cumul Rplus (0 :: map2 Rmult dur energy) in
  match dur with
  | [] => Err EIndex
  | d0 :: _ =>
      let nT2 := cumul Rplus (last nT 0 :: map (fun x => last dur d0 * Rpow_py x 2) (mask (map negb low) a)) in
      let at0 := cumul Rmult (1 :: map (fun r => Rpow_py r 2) ratio) in
      Ok (nT ++ tl nT2, f, at0 ++ repeat (last at0 1) (length a - length at0))
  end.
(** ... on the content of a spectrum: [spectrum.select_data(f_start, f_end).get_amp_spectrum().get_data()] *)
Definition dwell (f_start f_end fc : option R) (c : crel) : result (list R * list C * list C) :=
  do s <- rel_select RA CV f_start f_end c;
  do am <- val_amp RA CV CF s;
  do f <- axis_array RA (r_x am);
  do r <- dwell_data fc f (map fst (r_y am));
  Ok (fst (fst r), map RtoC (snd (fst r)), map RtoC (snd r)).

(* ------------------------------------------------------------------ *)
(** ** Envelopes, a_t.py *)

(** [scipy.signal.windows.hann(n)]: 1/2 + 1/2 cos of n points from -pi to pi; one for n <= 1 *)
Definition hann (n : nat) : list R :=
  if Nat.leb n 1 then repeat 1 n else map (fun x => 1 / 2 + 1 / 2 * cos x) (linspace RA (- PI) PI n).
(** [scipy.signal.windows.tukey(n, alpha)], a_t.py 41 *)
Definition tukey (n : nat) (alpha : R) : list R :=
  if Nat.leb n 1 then repeat 1 n
  else if Rleb alpha 0 then repeat 1 n
  else if Rleb 1 alpha then hann n
  else
    let m := INR (n - 1) in
    let width := Z.to_nat (Int_part (alpha * m / 2)) in
    map (fun k => / 2 * (1 + cos (PI * (-1 + 2 * INR k / alpha / m)))) (seq 0 (width + 1))
    ++ repeat 1 (n - 2 * (width + 1))
    ++ map (fun k => / 2 * (1 + cos (PI * (-2 / alpha + 1 + 2 * INR k / alpha / m)))) (seq (n - width - 1) (width + 1)).
(** the [location] argument; any other string behaves as [LocOther] *)
Inductive location := LocLeft | LocRight | LocBoth | LocOther.
(** [tukey_a_t], a_t.py 10-56; IndexError for an empty time array (unless the taper is None) *)
Definition tukey_a_t (time : list R) (taper : option R) (loc : location) : result (list R) :=
  let n := length time in
  match taper with
  | None => Ok (repeat 1 n)
  | Some tp =>
      match nth_error time (n / 2) with
      | None => Err EIndex
      | Some mid =>
          let alpha := if Rleb tp mid then INR (length (filter (fun t => Rleb t tp) time)) * 2 / INR n else 1 in
          let w := tukey n alpha in
          let half := firstn (n / 2) w ++ repeat 1 (n - n / 2) in
          Ok (match loc with LocBoth => w | LocLeft => half | LocRight => rev half | LocOther => repeat 1 n end)
      end
  end.

(* ------------------------------------------------------------------ *)
(** ** Correction for a source, source_sweep_correction.py and sweep_correction.py *)

Notation rrel := (rel RA RV).
Notation DRC := (default_config RA RV).
(** one row of [soft_clip], source_sweep_correction.py 18-34 *)
Definition clip_row (limit percent coefficient : R) (row : R * R) : R * R :=
  let linear := limit * percent in
  let amp := Rabs (fst row) in
  if Rleb amp linear then row
  else if Rleb limit amp then (fst row, Rpow_py (limit / amp) coefficient * snd row)
  else
    let scale := limit - linear in
    let compression := scale * sin (PI / 2 * (amp - linear) / scale) in
    (fst row, Rpow_py ((linear + compression) / amp) coefficient * snd row).
(** [soft_clip], source_sweep_correction.py 11-36; np.apply_along_axis raises ValueError on no rows *)
Definition soft_clip (limit percent coefficient : R) (rows : list (R * R)) : result (list (R * R)) :=
  match rows with [] => Err EValue | _ => Ok (map (clip_row limit percent coefficient) rows) end.
Fixpoint repeat_clip (n : nat) (limit percent coefficient : R) (rows : list (R * R)) : result (list (R * R)) :=
  match n with O => Ok rows | S k => do r <- soft_clip limit percent coefficient rows; repeat_clip k limit percent coefficient r end.

(** [get_IMFs_emd(...)[0]], emd_analyze.py 85-104: all components become signals on a copy of the axis
    ([NotEqualError] if one has another length), the first is taken (IndexError if there is none) *)
Definition decomposition := list R -> result (list (list R)).
Fixpoint imfs_on (x : axis RA) (l : list (list R)) : result (list rrel) :=
  match l with
  | [] => Ok []
  | y :: t => do r <- rel_make RA RV x y; do rs <- imfs_on x t; Ok (r :: rs)
  end.
Definition first_imf (emd : decomposition) (d : rrel) : result rrel :=
  do l <- emd (r_y d);
  do rs <- imfs_on (r_x d) l;
  match rs with [] => Err EIndex | r :: _ => Ok r end.
(** [signal.integrate().integrate() / mass]; a zero mass is not treated specially *)
Definition displacement_of (mass : R) (s : rrel) : result rrel :=
  do i <- rel_integrate RA RV DRC s;
  do ii <- rel_integrate RA RV DRC i;
  rel_op_num RA RV DRC TRUEDIV ii (OVal (V:=RV) mass).

(** one pass of the loop, source_sweep_correction.py 103-117: the new displacement *)
Definition correction_round (emd : decomposition) (mass limit percent : R) (coefficient : nat -> R)
    (new_time : axis RA) (window : rrel) (rows : list (R * R)) (cnt : nat) : result rrel :=
  do res <- repeat_clip cnt limit percent (coefficient cnt) rows;
  do force <- rel_make RA RV new_time (map snd res);
  do d <- displacement_of mass force;
  do i <- first_imf emd d;
  rel_op RA RV DRC MUL false i window.
(** the loop, source_sweep_correction.py 101-123, observed for [fuel] passes: [None] when it is still running,
    else the number of passes and the last displacement *)
Fixpoint correction_loop (pass : nat -> result rrel) (limit : R) (limit_iteration : option Z) (fuel cnt : nat)
    : result (option (nat * rrel)) :=
  match fuel with
  | O => Ok None
  | S fuel' =>
      do nd <- pass (S cnt);
      if forallb (fun y => Rltb (Rabs y) limit) (r_y nd) then Ok (Some (S cnt, nd))
      else if (match limit_iteration with Some m => (m <? Z.of_nat (S cnt) + 1)%Z | None => false end)
      then Ok (Some (S cnt, nd))
      else correction_loop pass limit limit_iteration fuel' (S cnt)
  end.
(** [get_correction_for_source], source_sweep_correction.py 39-127, observed for [fuel] passes of the loop: the
    number of passes and the corrected force *)
Record source_args := mkSource {
  so_mass : R; so_limits : option R; so_percent : R; so_iterations : option Z; so_window : R; so_coefficient : nat -> R }.
Definition source_time (s : rrel) : axis RA := set_start RA (a_start (r_x s) + 2 * a_sample (r_x s)) (r_x s).
Definition source_window (a : source_args) (s : rrel) : result rrel :=
  do arr <- axis_array RA (source_time s);
  do w <- tukey_a_t arr (Some (a_end (r_x s) * so_window a)) LocLeft;
  rel_make RA RV (source_time s) w.
Definition second_difference (mass : R) (d : rrel) : result rrel :=
  do a <- rel_diff RA RV DRC d;
  do b <- rel_diff RA RV DRC a;
  rel_op_num RA RV DRC MUL b (OVal (V:=RV) mass).
Definition get_correction_for_source (emd : decomposition) (a : source_args) (fuel : nat) (s : rrel)
    : result (option (nat * rrel)) :=
  do window <- source_window a s;
  do d <- displacement_of (so_mass a) s;
  do i <- first_imf emd d;
  do imf <- rel_op RA RV DRC MUL false i window;
  let inner := butlast (tl (r_y s)) in
  if negb (Nat.eqb (length (r_y imf)) (length inner)) then Err EValue else
  let rows := combine (r_y imf) inner in
  do out <- (match so_limits a with
             | None => Ok (Some (0%nat, imf))
             | Some limit =>
                 correction_loop (correction_round emd (so_mass a) limit (so_percent a) (so_coefficient a)
                                    (source_time s) window rows) limit (so_iterations a) fuel 0
             end);
  match out with
  | None => Ok None
  | Some (n, nd) => do r <- second_difference (so_mass a) nd; Ok (Some (n, r))
  end.

(** [correct_sweep], sweep_correction.py 6-37; [Signal(x, window)] builds its axis from the numbers of the array *)
Definition correct_sweep (emd : decomposition) (start_window : option R) (s : rrel) : result rrel :=
  do i <- rel_integrate RA RV DRC s;
  do d <- rel_integrate RA RV DRC i;
  do x <- axis_array RA (r_x d);
  do imf <- first_imf emd d;
  do nd <- (match start_window with
            | Some w =>
                do win <- tukey_a_t x (Some w) LocLeft;
                do ws <- rel_init RA RV DRC (XSeq (mkSeq true x)) (Some win);
                rel_op RA RV DRC MUL false imf ws
            | None => Ok imf end);
  do a <- rel_diff RA RV DRC nd;
  rel_diff RA RV DRC a.

(* ------------------------------------------------------------------ *)
(** ** Prepared sweeps *)

(** [math.ceil] *)
Definition Rceil (x : R) : Z := (- Int_part (- x))%Z.
(** [np.round(x, k)] *)
Definition round_digits (k : Z) (x : R) : R := IZR (Rround (x * powerRZ 10 k)) / powerRZ 10 k.
(** the frequency law of [get_shuffle], pseudorandom_shuffle.py 32-58 and 61: [shuffle] is what random.shuffle
    makes of the array; np.linspace raises ValueError for a negative count *)
Definition shuffle_law (shuffle : list R -> list R) (t : axis RA) (f_start f_end segment : R) (digits : option Z) : result (list R) :=
  if Rleb segment (a_sample t) then Err ESegment else
  let n := Rceil (a_end t / segment) in
  if (n + 1 <? 0)%Z then Err EValue else
  let f0 := linspace RA f_start f_end (Z.to_nat (n + 1)) in
  let f1 := match digits with Some k => if Z.eqb k 0 then f0 else map (round_digits k) f0 | None => f0 end in
  let fs := shuffle f1 in
  let m := (Rceil (segment / a_sample t) + 1)%Z in
  if (m <? 0)%Z then Err EValue else
  let x := linspace RA 0 segment (Z.to_nat m) in
  let my_cos := map (fun v => cos (v * PI / segment - PI) / 2 + 1 / 2) x in
  let f_t := concat (diffs (fun f2 f1 => tl (map (fun c => c * (f2 - f1) + f1) my_cos)) fs) in
  Ok (firstn (length f_t - 2) f_t).
(** time argument: an axis or an array *)
Definition time_axis (t : axis RA + seq_in RA) : result (axis RA) :=
  match t with inl a => Ok a | inr s => axis_of_array RA s true end.

Section Sweeps.
Context (W : wfun RA RV) (cur : config RA RV) (int : integrator RA RV) (sc : sconfig RA RV).
(** [get_shuffle], pseudorandom_shuffle.py 17-63 *)
Definition get_shuffle (shuffle : list R -> list R) (time : axis RA + seq_in RA) (f_start f_end segment : R)
    (digits : option Z) (taper : option R) : result (sweepv RA RV) :=
  do t <- time_axis time;
  do law <- shuffle_law shuffle t f_start f_end segment digits;
  do arr <- axis_array RA t;
  do am <- tukey_a_t arr taper LocBoth;
  do g <- us_new RA RV cur int (UtAxis t) (LiArr (V:=RV) law) (LiArr (V:=RV) am);
  us_call RA RV W cur sc g UtNone 0.
(** [get_linear_sweep], linear_sweep.py 11-24 *)
Definition get_linear_sweep (time : axis RA + seq_in RA) (f_start f_end : R) (taper : option R) : result (sweepv RA RV) :=
  do arr <- (match time with inl a => axis_array RA a | inr s => Ok (s_data s) end);
  do law <- f_t_linear_array RA arr f_start f_end;
  do am <- tukey_a_t arr taper LocBoth;
  do g <- us_new RA RV cur int (match time with inl a => UtAxis a | inr s => UtSeq s end) (LiArr (V:=RV) law) (LiArr (V:=RV) am);
  us_call RA RV W cur sc g UtNone 0.
End Sweeps.

(** [get_dwell_sweep], dwell_sweep.py 13-34, on complex samples.  The sweep returned by the call carries a copy of
    the time axis, so the product equalises the two axes; the product is a [Sweep] built from samples only.
    [W] are numpy's functions on samples, [scfg] the methods captured by the a-priori signal. *)
Definition get_dwell_sweep (W : wfun RA CV) (cfg : hconfig RA CV) (scfg : config RA CV) (int : integrator RA CV)
    (sc : sconfig RA CV) (time : axis RA + seq_in RA) (f_start f_central f_end : R) (taper : option R)
    (d : adata RA CV) : result (sweepv RA CV) :=
  do t <- time_axis time;
  do g <- ap_new RA CV cfg int (UtAxis t) d (dwell (Some f_start) (Some f_end) (Some f_central));
  do arr <- axis_array RA t;
  do win <- tukey_a_t arr taper LocBoth;
  do tw <- rel_make RA CV t (map RtoC win);
  do s <- ap_call RA CV W (hc_base cfg) scfg sc (fst g) (snd g) UtNone 0 true;
  do p <- rel_op RA CV (hc_base cfg) MUL false (sw_rel s) tw;
  val_sweep RA CV sc p None None.
