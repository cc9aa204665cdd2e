(** Value level of sweep_design/uncalculated_sweep.py, sweep_design/sweep.py and of the law handling in
    sweep_design/defaults/sweep_methods.py.

    Simplifications: samples of laws are one-dimensional; a law given as a sequence is already the
    numpy array made of it (uncalculated_sweep.py 67-90); the attribute a_prior_signal and logging are
    not represented. *)
From Coq Require Import ZArith List Bool.
From Verif Require Import Num Numpy AxisModel RelModel HeapModel FourierModel.
Import ListNotations.

Section Sweep.
Context (A : Arith) (V : Vals A).
Notation num := (num A).
Notation val := (val V).
Notation axis := (axis A).
Notation rel := (rel A V).
Notation config := (config A V).

(** numpy and math functions on samples *)
Record wfun : Type := mkWfun {
  w_sin : val -> val;               (* np.sin, uncalculated_sweep.py 150 *)
  w_2pi : val;                      (* 2 * np.pi, uncalculated_sweep.py 184, methods.py 368 *)
  w_sqrt : val -> result val;       (* math.sqrt, uncalculated_sweep.py 265; raises on negative numbers *)
  w_re : val -> num                 (* a real sample as a number *)
}.
Context (W : wfun).

(* ------------------------------------------------------------------ *)
(** ** Laws *)

(** [InterpolateArray], sweep_methods.py 47-102: the arrays [_x] and [_y] *)
Record interp_array : Type := mkIA { ia_x : list num; ia_y : list val }.
(** first argument of the constructor, sweep_methods.py 53-84 *)
Inductive ia_in := IaRel (r : rel) | IaAxis (a : axis) | IaSeq (l : list num).
Definition ia_new (x : ia_in) (y : option (list val)) : result interp_array :=
  match x, y with
  | IaRel r, _ => do arr <- axis_array A (r_x r); Ok (mkIA arr (r_y r))
  | _, None => Err EBadInput
  | IaAxis a, Some y => do arr <- axis_array A a; Ok (mkIA arr y)
  | IaSeq l, Some y => Ok (mkIA l y)
  end.
(** [stretch_old_x], sweep_methods.py 95-97.  numpy division by a zero last element gives inf or nan with a
    warning; here the division of the number system is used. *)
Definition stretch (x : list num) (nx : axis) : result (list num) :=
  match x with
  | [] => Err EIndex
  | x0 :: _ =>
      let k := n_div A (n_sub A (a_end nx) (a_start nx)) (last x x0) in
      Ok (map (fun v => n_add A (n_sub A (n_mul A v k) x0) (a_start nx)) x)
  end.
(** [InterpolateArray.__call__], sweep_methods.py 86-102, with the current [Config] *)
Definition ia_call (cur : config) (f : interp_array) (nx : axis) : result (list val) :=
  do x <- stretch (ia_x f) nx; c_interp A V cur x (ia_y f) nx.

(** A Python callable used as a law: on an array, and on one number (which scipy's quad needs; the
    error is what such a call raises). *)
Record callable : Type := mkCallable { cl_arr : list num -> result (list val); cl_num : result (num -> val) }.
(** [linear_time], [const_one], sweep_methods.py 191-206; [len] of a number raises TypeError *)
Definition linear_time : callable := mkCallable (fun l => Ok (map (v_of V) l)) (Ok (v_of V)).
Definition const_one : callable :=
  mkCallable (fun l => Ok (repeat (v_of V (n_of_Z A 1)) (length l))) (Err EType).

(** what the generator keeps: a callable or an [InterpolateArray] *)
Inductive law := LawFun (c : callable) | LawArr (f : interp_array).
(** argument of the generator.  An [InterpolateArray] has [__call__], so it is a callable too and the test
    for it at sweep_methods.py 236-237 is never reached. *)
Inductive law_in := LiNone | LiFun (c : callable) | LiInterp (f : interp_array) | LiRel (r : rel) | LiArr (y : list val).
Definition default_law (d : callable) (l : law_in) : law_in := match l with LiNone => LiFun d | _ => l end.

(** The helper axis and resampling of a law array of another length, sweep_methods.py 245-251.  With one
    sample the step divides by zero (ZeroDivisionError for Python numbers). *)
Definition law_axis (t : axis) (m : nat) : result axis :=
  if Nat.eqb m 1 then Err EArith
  else Ok (mkAxis (a_start t) (a_end t)
             (n_div A (n_sub A (a_start t) (a_end t)) (n_of_Z A (Z.of_nat m - 1)))).
Definition resample (cur : config) (t : axis) (y : list val) : result (list val) :=
  do n <- axis_size A t;
  if Nat.eqb n (length y) then Ok y
  else do ct <- law_axis t (length y);
       do arr <- axis_array A ct;
       c_interp A V cur arr y t.

(** optional time: an axis, or a numpy array (only when [get_info_from_ftat] is called directly) *)
Inductive time_in := TiNone | TiAxis (a : axis) | TiArr (s : seq_in A).
(** [_extract_x_t], sweep_methods.py 223-257 *)
Definition extract_x_t (cur : config) (t : time_in) (l : law_in) : result (option axis * law) :=
  do t' <- (match t with
            | TiNone => Ok None
            | TiAxis a => Ok (Some a)
            | TiArr s => do a <- c_axis_from_array A V cur s false; Ok (Some a) end);
  match l with
  | LiFun c => Ok (t', LawFun c)
  | LiInterp f => Ok (t', LawArr f)
  | LiRel r => do f <- ia_new (IaRel r) None; Ok (t', LawArr f)
  | LiArr y =>
      match t' with
      | Some a => do y' <- resample cur a y; do f <- ia_new (IaAxis a) (Some y'); Ok (t', LawArr f)
      | None => Err EBadInput
      end
  | LiNone => Err EBadInput
  end.
(** [get_info_from_ftat], sweep_methods.py 173-220 *)
Definition get_info_from_ftat (cur : config) (t : time_in) (f a : law_in) : result (option axis * law * law) :=
  do f' <- extract_x_t cur t (default_law linear_time f);
  do a' <- extract_x_t cur t (default_law const_one a);
  do t' <- (match t with
            | TiArr s => do x <- c_axis_from_array A V cur s true; Ok (Some x)
            | TiAxis x => Ok (Some x)
            | TiNone =>
                match fst f', fst a' with
                | None, Some t2 => Ok (Some t2)
                | Some t1, None => Ok (Some t1)
                | Some t1, Some t2 => Ok (Some (c_common_x A V cur t1 t2))
                | None, None => Ok None
                end
            end);
  Ok (t', snd f', snd a').

(* ------------------------------------------------------------------ *)
(** ** Generators *)

(** [Config.integrate_function_method]: the samples of the angle on the given axis.  A custom method
    returns an axis too; the default returns the one it was given (methods.py 346-372). *)
Definition integrator := callable -> axis -> result (list val).
(** [integrate_function], methods.py 346-372; [quad g a b] is the number scipy's quad returns first *)
Definition integrate_function_default (quad : (num -> val) -> num -> num -> val) : integrator :=
  fun f x =>
    do arr <- axis_array A x;
    match tl arr with
    | [] => Ok [v_of V (n_of_Z A 0)]
    | ts => do g <- cl_num f;
            Ok (v_of V (n_of_Z A 0) :: map (fun t => v_mul V (w_2pi W) (quad g (a_start x) t)) ts)
    end.

(** An [UncalculatedSweep], uncalculated_sweep.py 64-96 *)
Record ugen : Type := mkUgen {
  u_time : option axis; u_f : law; u_a : law; u_cfg : config; u_int : integrator }.
Inductive utime := UtNone | UtAxis (a : axis) | UtSeq (s : seq_in A).
Definition us_new (cur : config) (int : integrator) (t : utime) (f a : law_in) : result ugen :=
  do t' <- (match t with
            | UtNone => Ok TiNone
            | UtAxis x => Ok (TiAxis x)
            | UtSeq s => do x <- c_axis_from_array A V cur s true; Ok (TiAxis x) end);
  do i <- get_info_from_ftat cur t' f a;
  Ok (mkUgen (fst (fst i)) (snd (fst i)) (snd i) cur int).

(** a law on the calling axis, uncalculated_sweep.py 135-147 *)
Definition law_eval (cur : config) (l : law) (x : axis) : result (list val) :=
  match l with
  | LawFun c => do arr <- axis_array A x; cl_arr c arr
  | LawArr f => ia_call cur f x
  end.
(** [_array_tht] and [_func_tht], uncalculated_sweep.py 167-188: samples of the angle *)
Definition array_tht (cur : config) (fy : list val) (x : axis) : result (list val) :=
  do r <- rel_make A V x fy;
  do i <- rel_integrate A V cur r;
  Ok (v_of V (n_of_Z A 0) :: map (v_mul V (w_2pi W)) (r_y i)).
Definition law_tht (cur : config) (int : integrator) (l : law) (x : axis) : result (list val) :=
  match l with
  | LawFun c => int c x
  | LawArr f => do fy <- ia_call cur f x; array_tht cur fy x
  end.
(** [amplitude * np.sin(tht(calc_time).y + tht0)], uncalculated_sweep.py 149-150, with numpy broadcasting *)
Definition wave (tht0 : num) (am th : list val) : result (list val) :=
  let s := map (fun v => w_sin W (v_add V v (v_of V tht0))) th in
  if Nat.eqb (length am) (length s) then Ok (map2 (v_mul V) am s)
  else match am, s with
       | [a], _ => Ok (map (v_mul V a) s)
       | _, [b] => Ok (map (fun a => v_mul V a b) am)
       | _, _ => Err EValue
       end.

(** A [Sweep] by content: samples, [frequency_time], [amplitude_time] (sweep.py 67-86) *)
Record sweepv : Type := mkSweepv { sw_rel : rel; sw_ft : rel; sw_at : rel }.
Definition val_sweep (sc : sconfig A V) (c : rel) (ft at_ : option rel) : result sweepv :=
  do f <- (match ft with Some f => Ok f | None => do y <- sc_ft A V sc c; rel_make A V (r_x c) y end);
  do a <- (match at_ with Some a => Ok a | None => do y <- sc_at A V sc c; rel_make A V (r_x c) y end);
  do _ <- sc_spectro A V sc c;
  Ok (mkSweepv c f a).

(** [UncalculatedSweep.__call__], uncalculated_sweep.py 98-165; [cur] is the [Config] at the call *)
Definition us_call (cur : config) (sc : sconfig A V) (g : ugen) (t : utime) (tht0 : num) : result sweepv :=
  do x <- (match t, u_time g with
           | UtAxis a, _ => Ok a
           | UtSeq s, _ => c_axis_from_array A V (u_cfg g) s true
           | UtNone, Some a => Ok a
           | UtNone, None => Err EBadInput end);
  do fy <- law_eval cur (u_f g) x;
  do fr <- rel_make A V x fy;
  do am <- law_eval cur (u_a g) x;
  do th <- law_tht cur (u_int g) (u_f g) x;
  do _ <- rel_make A V x th;
  do y <- wave tht0 am th;
  do ar <- rel_make A V x am;
  do c <- rel_make A V x y;
  val_sweep sc c (Some fr) (Some ar).

(* ------------------------------------------------------------------ *)
(** ** Generators from a-priori data *)

(** A method that extracts laws from a spectrum: time, frequency, amplitude arrays (sweep_methods.py 16-18) *)
Definition ftat := rel -> result (list num * list val * list val).
(** [convert_freq2time], sweep_methods.py 105-127 *)
Definition convert_freq2time (m : ftat) (sp : rel) : result (law * law) :=
  do r <- m sp;
  Ok (LawArr (mkIA (fst (fst r)) (snd (fst r))), LawArr (mkIA (fst (fst r)) (snd r))).

(** a_prior_data by class; a spectrum comes with what its [get_signal()] yields and a signal with what its
    [get_spectrum()] yields (a remembered conversion or a new one) *)
Inductive adata :=
| AdSpec (c : rel) (sg : result rel) | AdSig (c : rel) (sp : result rel) | AdRel (c : rel) | AdSeq (y : list val)
| AdNone.
(** the a-priori signal and spectrum, sweep_methods.py 150-168, when [time] is not a relation *)
Definition ap_pair (cfg : hconfig A V) (t : utime) (d : adata) : result (rel * rel) :=
  match d with
  | AdSpec c sg => do s <- sg; Ok (s, c)
  | AdSig c sp => do s <- sp; Ok (c, s)
  | AdRel c => do s <- val_signal A V cfg c (DNone A) None; Ok (s, c)
  | AdSeq _ | AdNone =>
      do x <- (match t with UtAxis a => Ok (XAxis a) | UtSeq s => Ok (XSeq s) | UtNone => Err EValue end);
      do s <- rel_init A V (hc_base cfg) x (match d with AdSeq y => Some y | _ => None end);
      do p <- val_spectrum A V cfg s (DNone A) false;
      Ok (s, p)
  end.
(** ... and when [time] is a spectrum or another relation, sweep_methods.py 150-155 *)
Inductive arel := ArSpec (c : rel) (sg : result rel) | ArRel (c : rel).
Definition ap_pair_time (cfg : hconfig A V) (t : arel) : result (rel * rel) :=
  match t with
  | ArSpec c sg => do s <- sg; Ok (s, c)
  | ArRel c => do p <- val_spectrum A V cfg c (DNone A) false; Ok (c, p)
  end.
(** [get_info_from_a_prior_data], sweep_methods.py 130-170 *)
Definition get_info_from_a_prior_data (cfg : hconfig A V) (t : utime + arel) (d : adata) (m : ftat)
  : result (law * law * rel) :=
  do p <- (match t with inl t => ap_pair cfg t d | inr t => ap_pair_time cfg t end);
  do l <- convert_freq2time m (snd p);
  Ok (fst l, snd l, fst p).

(** An [ApriorUncalculatedSweep], uncalculated_sweep.py 207-237: generator and a-priori signal.  A relation
    given as [time] is handed on to numpy.array (uncalculated_sweep.py 67-68), which is not modelled. *)
Definition law_as_in (l : law) : law_in := match l with LawFun c => LiFun c | LawArr f => LiInterp f end.
Definition ap_new (cfg : hconfig A V) (int : integrator) (t : utime) (d : adata) (m : ftat) : result (ugen * rel) :=
  do i <- get_info_from_a_prior_data cfg (inl t) d m;
  do g <- us_new (hc_base cfg) int t (law_as_in (fst (fst i))) (law_as_in (snd (fst i)));
  Ok (g, snd i).
(** [sqrt(norm_a_prior) / sqrt(norm_sweep)], uncalculated_sweep.py 265 *)
Definition norm_ratio (na ns : val) : result val :=
  do a <- w_sqrt W na;
  do s <- w_sqrt W ns;
  if n_eq A (w_re W s) (n_of_Z A 0) then Err EArith else Ok (v_div V a s).
(** [ApriorUncalculatedSweep.__call__], uncalculated_sweep.py 239-271; [scfg] are the methods captured by the
    a-priori signal [sg].  [sweep.get_norm()] squares the sweep, relation.py 241-251, and the square is itself a
    [Sweep], for which the laws and a spectrogram are estimated; [sg] is not a [Sweep] *)
Definition ap_call (cur scfg : config) (sc : sconfig A V) (g : ugen) (sg : rel) (t : utime) (tht0 : num)
    (normalize : bool) : result sweepv :=
  do s <- us_call cur sc g t tht0;
  if normalize then
    do sq <- rel_op_num A V cur POW (sw_rel s) (OVal (v_of V (n_of_Z A 2)));
    do _ <- val_sweep sc sq None None;
    do ns <- rel_norm A V cur (sw_rel s);
    do na <- rel_norm A V scfg sg;
    do k <- norm_ratio na ns;
    do _ <- rel_op_num A V cur MUL (sw_at s) (OVal k);
    do c <- rel_op_num A V cur MUL (sw_rel s) (OVal k);
    val_sweep sc c None None
  else Ok s.

(** [simple_freq2time], sweep_methods.py 21-44, on the content of a spectrum; [F] gives np.abs *)
Definition freq2time_time (f : list num) (n : list num) : list num :=
  n_of_Z A 0 :: cumul (n_add A) (map2 (n_div A) (diffs (n_add A) n) (diffs (n_sub A) f)).
Definition simple_freq2time (F : vfun A V) (cur : config) (c : rel) : result (list num * list val * list val) :=
  do am <- val_amp A V F c;
  do f <- axis_array A (r_x am);
  do sq <- (Ok (map (fun v => w_re W (v_pow V v (v_of V (n_of_Z A 2)))) (r_y am)));
  let t := freq2time_time f sq in
  do k <- rel_norm A V cur am;
  Ok (t, map (v_of V) f, repeat k (length t)).

(* ------------------------------------------------------------------ *)
(** ** Spectrogram *)

(** [DataSpectrogram]: time, frequency, image by rows (help_types.py 27-29) *)
Record spectro := mkSpectro { sg_time : list num; sg_freq : list num; sg_image : list (list num) }.
(** [Spectrogram], spectrogram.py 8-16 *)
Record spectrogram := mkSpectrogram { sp_time : axis; sp_freq : axis; sp_image : list (list num) }.
(** [_get_spectrogram], sweep.py 89-119: the padded image is computed and not used; IndexError on empty time or
    frequency.  The arrays are float arrays. *)
Definition two_points (l : list num) : result (list num) :=
  match l with
  | [] => Err EIndex
  | [t] => Ok [t; n_add A t (n_of_Z A 1)]
  | _ => Ok l
  end.
Definition get_spectrogram_axes (cur : config) (s : spectro) : result spectrogram :=
  do t <- two_points (sg_time s);
  do f <- two_points (sg_freq s);
  do tx <- c_axis_from_array A V cur (mkSeq true t) true;
  do fx <- c_axis_from_array A V cur (mkSeq true f) true;
  Ok (mkSpectrogram tx fx (sg_image s)).

(** [scipy.signal.spectrogram(y, fs, nperseg=...)] as called by [get_spectrogram], sweep_methods.py 263-283:
    segment length min(n, 256), overlap nperseg // 8, one-sided frequencies k fs / nperseg, segment centres.
    Only the arrays of times and frequencies and the shape of the image are modelled; the image itself is
    the argument.  ValueError for no samples. *)
Definition nperseg (n : nat) : nat := if Nat.ltb n 256 then n else 256.
Definition n_segments (n : nat) : nat :=
  (n - nperseg n / 8) / (nperseg n - nperseg n / 8).
Definition segment_times (n : nat) (fs : num) : list num :=
  map (fun k => n_div A (n_add A (n_div A (n_of_nat A (nperseg n)) (n_of_Z A 2))
                                 (n_of_nat A (k * (nperseg n - nperseg n / 8)))) fs)
      (seq 0 (n_segments n)).
Definition segment_freqs (n : nat) (fs : num) : list num :=
  map (fun k => n_div A (n_of_nat A k) (n_mul A (n_of_nat A (nperseg n)) (n_div A (n_of_Z A 1) fs)))
      (seq 0 (nperseg n / 2 + 1)).
Definition sweep_spectrogram (cur : config) (image : nat -> nat -> list (list num)) (c : rel) : result spectrogram :=
  let n := length (r_y c) in
  if Nat.eqb n 0 then Err EValue
  else if n_eq A (a_sample (r_x c)) (n_of_Z A 0) then Err EArith
  else let fs := n_div A (n_of_Z A 1) (a_sample (r_x c)) in
       get_spectrogram_axes cur (mkSpectro (segment_times n fs) (segment_freqs n fs)
                                   (rev (image (nperseg n / 2 + 1) (n_segments n)))).

End Sweep.
Arguments mkIA {A V}. Arguments ia_x {A V}. Arguments ia_y {A V}.
Arguments IaRel {A V}. Arguments IaAxis {A V}. Arguments IaSeq {A V}.
Arguments mkCallable {A V}. Arguments cl_arr {A V}. Arguments cl_num {A V}.
Arguments LawFun {A V}. Arguments LawArr {A V}.
Arguments LiNone {A V}. Arguments LiFun {A V}. Arguments LiInterp {A V}. Arguments LiRel {A V}. Arguments LiArr {A V}.
Arguments TiNone {A}. Arguments TiAxis {A}. Arguments TiArr {A}.
Arguments UtNone {A}. Arguments UtAxis {A}. Arguments UtSeq {A}.
Arguments u_time {A V}. Arguments u_f {A V}. Arguments u_a {A V}. Arguments u_cfg {A V}. Arguments u_int {A V}.
Arguments sw_rel {A V}. Arguments sw_ft {A V}. Arguments sw_at {A V}. Arguments mkSweepv {A V}.
Arguments sp_time {A}. Arguments sp_freq {A}. Arguments sp_image {A}.
Arguments mkSpectro {A}. Arguments sg_time {A}. Arguments sg_freq {A}. Arguments sg_image {A}.
