(** Object level of axis.py, relation.py, signal.py, spectrum.py, sweep.py and
    uncalculated_sweep.py: Python objects live in a heap, methods are programs in a
    state-and-exception monad, and a history is a list of API calls.

    Simplifications:
    - The replaceable methods of [Config]/[SweepConfig] are pure functions of the observable content
      (axis parameters, samples) of their arguments; the axis caches they may fill and the temporary
      objects they create are not represented, and an axis they return is a new object, except that
      signal2spectrum/spectrum2signal hand back the very axis object they were given
      (methods.py 230-250, 296-343).  The default [correlate]/[convolve] call methods of their
      arguments, so they are transcribed as programs ([None] below); custom ones are pure functions.
    - Unreachable objects are never collected.
    - References are natural numbers; a call on a number that is not an object yields [EDangling]
      (this cannot happen to a Python program, which holds only valid references). *)
From Coq Require Import ZArith List Bool.
From Verif Require Import Num Numpy AxisModel RelModel.
Import ListNotations.

Definition loc := nat.
(** class of a relation object: relation.py 20, signal.py 23, spectrum.py 23, sweep.py 16 *)
Inductive cls := KRel | KSig | KSpec | KSweep.
Definition is_sig (k : cls) : bool := match k with KSig | KSweep => true | _ => false end.
Definition is_spec (k : cls) : bool := match k with KSpec => true | _ => false end.

(** [l[i] = v] on a Python list / numpy array, in range *)
Fixpoint upd {T} (l : list T) (i : nat) (v : T) : list T :=
  match l, i with
  | [], _ => []
  | _ :: t, O => v :: t
  | a :: t, S i => a :: upd t i v
  end.

Section Heap.
Context (A : Arith) (V : Vals A).
Notation num := (num A).
Notation val := (val V).
Notation axis := (axis A).
Notation rel := (rel A V).

(** numpy functions on samples used by signal.py and spectrum.py *)
Record vfun : Type := mkVfun {
  vf_abs : val -> val;                 (* np.abs, spectrum.py 125 *)
  vf_phase : list val -> list val;     (* np.unwrap(np.angle(.)), spectrum.py 137 *)
  vf_exp : val -> val;                 (* np.exp, relation.py 293 *)
  vf_phasor : num -> num -> val;       (* np.exp(-1j * f * 2 * np.pi * s), signal.py 154 *)
  vf_i : val;                          (* 1.0j, spectrum.py 237 *)
  vf_pct : val -> num -> val           (* m * percent / 100, spectrum.py 164 *)
}.
Context (F : vfun).

(** Optional [frequency]/[time] argument of signal2spectrum/spectrum2signal by content:
    nothing, an int, or an axis. *)
Inductive dom := DNone | DInt (n : Z) | DAxis (a : axis).

(** All replaceable methods of [Config], config/base_config.py 222-237 (the one for
    [integrate_function] belongs to the sweep generator below). *)
Record hconfig : Type := mkHconfig {
  hc_base : config A V;
  hc_s2s : rel -> dom -> bool -> result (axis * list val);        (* signal2spectrum_method *)
  hc_sp2s : rel -> dom -> option num -> result (axis * list val); (* spectrum2signal_method *)
  hc_corr : option (rel -> rel -> result (axis * list val));      (* None: default correlate *)
  hc_conv : option (rel -> rel -> result (axis * list val))       (* None: default convolve *)
}.
(** [SweepConfig], config/sweep_config.py: get_f_t, get_a_t (samples of the relation they build on
    the sweep's own axis, sweep_methods.py 286-322) and the spectrogram (only its possible failure). *)
Record sconfig : Type := mkSconfig {
  sc_ft : rel -> result (list val);
  sc_at : rel -> result (list val);
  sc_spectro : rel -> result unit
}.

(** An [ArrayAxis] object, axis.py 11-28: parameters, [_array], [_actual_sample]. *)
Record axobj : Type := mkAx { ao_p : axis; ao_cache : option loc; ao_as : option num }.
(** A [Relation] object, relation.py 84-107: axis and samples by reference, the methods captured from
    [Config]; [_spectrum]/[_signal] (signal.py 59, spectrum.py 62); [frequency_time], [amplitude_time]
    of a [Sweep] (sweep.py 69-78). *)
Record relobj : Type := mkRo {
  ro_cls : cls; ro_x : loc; ro_y : loc; ro_link : option loc; ro_cfg : hconfig;
  ro_ft : option loc; ro_at : option loc }.
(** An [UncalculatedSweep] object, uncalculated_sweep.py 64-96: its time axis by reference and its
    laws as functions of the content of the calling axis: frequency, angle (of [_array_tht] or
    [_func_tht]), amplitude, and [amplitude * np.sin(tht + tht0)].  The configuration captured at
    construction is [g_cfg]; the one current at the call is an argument of the laws because
    [InterpolateArray] reads it then. *)
Record genobj : Type := mkGen {
  g_time : option loc;
  g_cfg : hconfig;
  g_f : hconfig -> axis -> result (list val);
  g_tht : hconfig -> axis -> result (list val);
  g_a : hconfig -> axis -> result (list val);
  g_wave : num -> list val -> list val -> result (list val) }.

(** numpy arrays of axes, numpy arrays of samples, axes, relations, generators, current configuration *)
Record heap : Type := mkHeap {
  h_farr : list (list num); h_yarr : list (list val); h_ax : list axobj; h_rel : list relobj;
  h_gen : list genobj; h_cfg : hconfig; h_scfg : sconfig }.

Definition M (T : Type) : Type := heap -> result T * heap.
Definition ret {T} (x : T) : M T := fun h => (Ok x, h).
Definition fail {T} (e : exn) : M T := fun h => (Err e, h).
Definition bindM {T U} (m : M T) (k : T -> M U) : M U :=
  fun h => match m h with (Ok x, h1) => k x h1 | (Err e, h1) => (Err e, h1) end.
Notation "'do!' x <- a ; b" := (bindM a (fun x => b))
  (at level 200, x pattern, a at level 100, b at level 200).
Definition lift {T} (r : result T) : M T := fun h => (r, h).

(** reading and writing the stores *)
Definition rd {T} (st : heap -> list T) (l : loc) : M T :=
  fun h => match nth_error (st h) l with Some o => (Ok o, h) | None => (Err EDangling, h) end.
Definition get_f := rd h_farr.
Definition get_y := rd h_yarr.
Definition get_ax := rd h_ax.
Definition get_rel := rd h_rel.
Definition get_gen := rd h_gen.
Definition get_cfg : M hconfig := fun h => (Ok (h_cfg h), h).
Definition get_scfg : M sconfig := fun h => (Ok (h_scfg h), h).

Definition with_farr (h : heap) s := mkHeap s (h_yarr h) (h_ax h) (h_rel h) (h_gen h) (h_cfg h) (h_scfg h).
Definition with_yarr (h : heap) s := mkHeap (h_farr h) s (h_ax h) (h_rel h) (h_gen h) (h_cfg h) (h_scfg h).
Definition with_ax (h : heap) s := mkHeap (h_farr h) (h_yarr h) s (h_rel h) (h_gen h) (h_cfg h) (h_scfg h).
Definition with_rel (h : heap) s := mkHeap (h_farr h) (h_yarr h) (h_ax h) s (h_gen h) (h_cfg h) (h_scfg h).
Definition with_gen (h : heap) s := mkHeap (h_farr h) (h_yarr h) (h_ax h) (h_rel h) s (h_cfg h) (h_scfg h).
Definition with_cfg (h : heap) c := mkHeap (h_farr h) (h_yarr h) (h_ax h) (h_rel h) (h_gen h) c (h_scfg h).
Definition with_scfg (h : heap) c := mkHeap (h_farr h) (h_yarr h) (h_ax h) (h_rel h) (h_gen h) (h_cfg h) c.

Definition alloc_f (v : list num) : M loc := fun h => (Ok (length (h_farr h)), with_farr h (h_farr h ++ [v])).
Definition alloc_y (v : list val) : M loc := fun h => (Ok (length (h_yarr h)), with_yarr h (h_yarr h ++ [v])).
Definition alloc_ax (v : axobj) : M loc := fun h => (Ok (length (h_ax h)), with_ax h (h_ax h ++ [v])).
Definition alloc_rel (v : relobj) : M loc := fun h => (Ok (length (h_rel h)), with_rel h (h_rel h ++ [v])).
Definition alloc_gen (v : genobj) : M loc := fun h => (Ok (length (h_gen h)), with_gen h (h_gen h ++ [v])).
Definition put_f (l : loc) (v : list num) : M unit := fun h => (Ok tt, with_farr h (upd (h_farr h) l v)).
Definition put_y (l : loc) (v : list val) : M unit := fun h => (Ok tt, with_yarr h (upd (h_yarr h) l v)).
Definition put_ax (l : loc) (v : axobj) : M unit := fun h => (Ok tt, with_ax h (upd (h_ax h) l v)).
Definition put_rel (l : loc) (v : relobj) : M unit := fun h => (Ok tt, with_rel h (upd (h_rel h) l v)).

(* ------------------------------------------------------------------ *)
(** ** axis.py *)

(** [ArrayAxis.__init__], axis.py 11-28 *)
Definition ax_new (p : axis) : M loc := alloc_ax (mkAx p None None).
(** [ArrayAxis.array], axis.py 34-46: computed once and kept in [_array]; returns the array object *)
Definition ax_array_loc (a : loc) : M loc :=
  do! o <- get_ax a;
  match ao_cache o with
  | Some l => ret l
  | None =>
      do! arr <- lift (axis_array A (ao_p o));
      do! l <- alloc_f arr;
      do! _ <- put_ax a (mkAx (ao_p o) (Some l) (ao_as o));
      ret l
  end.
Definition ax_array (a : loc) : M (list num) := do! l <- ax_array_loc a; get_f l.
(** [size], axis.py 81-83 *)
Definition ax_size (a : loc) : M nat := do! arr <- ax_array a; ret (length arr).
(** [actual_sample], axis.py 66-70 *)
Definition ax_actual (a : loc) : M num :=
  do! o <- get_ax a;
  match ao_as o with
  | Some v => ret v
  | None =>
      do! arr <- ax_array a;
      do! v <- lift (actual_sample A arr);
      do! o1 <- get_ax a;
      do! _ <- put_ax a (mkAx (ao_p o1) (ao_cache o1) (Some v));
      ret v
  end.
(** [copy], axis.py 85-91: [copy.copy], so the copy refers to the same cached array *)
Definition ax_copy (a : loc) : M loc := do! o <- get_ax a; alloc_ax o.
(** property setters with [_reset_property], axis.py 30-32, 52-55, 61-64, 76-79 *)
Inductive field := FStart | FEnd | FSample.
Definition set_field (f : field) (v : num) (p : axis) : axis :=
  match f with FStart => set_start A v p | FEnd => set_end A v p | FSample => set_sample A v p end.
Definition ax_set (f : field) (a : loc) (v : num) : M unit :=
  do! o <- get_ax a; put_ax a (mkAx (set_field f v (ao_p o)) None None).
(** [get_array_axis_from_array_method] of a configuration, axis.py 119-136 *)
Definition ax_from_array (c : hconfig) (s : seq_in A) (round_dx : bool) : M loc :=
  do! p <- lift (c_axis_from_array A V (hc_base c) s round_dx); ax_new p.

(* ------------------------------------------------------------------ *)
(** ** relation.py *)

Inductive xarg := XaRel (r : loc) | XaAxis (a : loc) | XaSeq (s : seq_in A).

(** observable content of a relation: axis parameters and samples *)
Definition content (r : loc) : M rel :=
  do! o <- get_rel r; do! ax <- get_ax (ro_x o); do! y <- get_y (ro_y o); ret (mkRel (ao_p ax) y).

(** [Relation.__init__], relation.py 57-107: the axis and sample array of the new object *)
Definition init_xy (x : xarg) (y : option (list val)) : M (loc * loc) :=
  match x with
  | XaRel r =>
      do! o <- get_rel r;
      do! a <- ax_copy (ro_x o);
      do! yv <- get_y (ro_y o);
      do! l <- alloc_y yv;
      ret (a, l)
  | _ =>
      match y with
      | None => fail EBadInput
      | Some yv =>
          do! l <- alloc_y yv;
          do! c <- get_cfg;
          do! a <- (match x with XaSeq s => ax_from_array c s true | XaAxis a => ret a
                               | XaRel r => ret r end);
          do! n <- ax_size a;
          if Nat.eqb n (length yv) then ret (a, l) else fail (ENotEqual n (length yv))
      end
  end.

(** constructors of Relation, Signal (signal.py 40-59), Spectrum (spectrum.py 41-62) *)
Definition new_plain (k : cls) (x : xarg) (y : option (list val)) (link : option loc) : M loc :=
  do! c <- get_cfg;
  do! xy <- init_xy x y;
  alloc_rel (mkRo k (fst xy) (snd xy) link c None None).

(** [Sweep.__init__], sweep.py 37-86, with optional frequency_time and amplitude_time relations *)
Definition set_ft (r ft : loc) : M unit :=
  do! o <- get_rel r;
  put_rel r (mkRo (ro_cls o) (ro_x o) (ro_y o) (ro_link o) (ro_cfg o) (Some ft) (ro_at o)).
Definition set_at (r at_ : loc) : M unit :=
  do! o <- get_rel r;
  put_rel r (mkRo (ro_cls o) (ro_x o) (ro_y o) (ro_link o) (ro_cfg o) (ro_ft o) (Some at_)).
(** [relation.Relation(sweep.x, result)], sweep_methods.py 306, 322 *)
Definition estimate (f : rel -> result (list val)) (r : loc) : M loc :=
  do! o <- get_rel r; do! c <- content r; do! y <- lift (f c);
  new_plain KRel (XaAxis (ro_x o)) (Some y) None.
Definition new_sweep (x : xarg) (y : option (list val)) (ft at_ : option loc) : M loc :=
  do! r <- new_plain KSweep x y None;
  do! sc <- get_scfg;
  do! l <- (match ft with Some l => ret l | None => estimate (sc_ft sc) r end);
  do! _ <- set_ft r l;
  do! l <- (match at_ with Some l => ret l | None => estimate (sc_at sc) r end);
  do! _ <- set_at r l;
  do! c <- content r;
  do! _ <- lift (sc_spectro sc c);
  ret r.

(** [type(self)(x, y)] *)
Definition construct (k : cls) (x : xarg) (y : option (list val)) : M loc :=
  match k with KSweep => new_sweep x y None None | _ => new_plain k x y None end.

(** [get_data], relation.py 208-223: copies of the two arrays *)
Definition h_get_data (r : loc) : M (loc * loc) :=
  do! o <- get_rel r;
  do! n <- ax_size (ro_x o);
  do! y <- get_y (ro_y o);
  if Nat.eqb n (length y) then
    do! arr <- ax_array (ro_x o);
    do! fl <- alloc_f arr;
    do! yl <- alloc_y y;
    ret (fl, yl)
  else fail (ENotEqual n (length y)).

(** [copy.deepcopy] of a relation, relation.py 371: everything reachable is copied, keeping the sharing
    inside the copy.  The whole heap is cloned; clones of objects the relation does not reach are
    unreachable garbage.  Returns the clone of [r]. *)
Definition shift_loc (n : nat) (l : loc) : loc := n + l.
Definition clone_ax (h : heap) (o : axobj) : axobj :=
  mkAx (ao_p o) (option_map (shift_loc (length (h_farr h))) (ao_cache o)) (ao_as o).
Definition clone_rel (h : heap) (o : relobj) : relobj :=
  mkRo (ro_cls o) (shift_loc (length (h_ax h)) (ro_x o)) (shift_loc (length (h_yarr h)) (ro_y o))
       (option_map (shift_loc (length (h_rel h))) (ro_link o)) (ro_cfg o)
       (option_map (shift_loc (length (h_rel h))) (ro_ft o))
       (option_map (shift_loc (length (h_rel h))) (ro_at o)).
Definition clone_heap (h : heap) : heap :=
  mkHeap (h_farr h ++ h_farr h) (h_yarr h ++ h_yarr h)
         (h_ax h ++ map (clone_ax h) (h_ax h)) (h_rel h ++ map (clone_rel h) (h_rel h))
         (h_gen h) (h_cfg h) (h_scfg h).
Definition deepcopy (r : loc) : M loc :=
  do! _ <- get_rel r; fun h => (Ok (shift_loc (length (h_rel h)) r), clone_heap h).

(** [interpolate_extrapolate], relation.py 319-340 *)
Definition h_interp (r : loc) (new_x : xarg) : M loc :=
  do! o <- get_rel r;
  do! nx <- (match new_x with
             | XaRel r' => do! o' <- get_rel r'; ax_copy (ro_x o')
             | XaAxis a => ax_copy a
             | XaSeq s => ax_from_array (ro_cfg o) s false end);
  do! arr <- ax_array (ro_x o);
  do! y <- get_y (ro_y o);
  do! nxo <- get_ax nx;
  do! y' <- lift (c_interp A V (hc_base (ro_cfg o)) arr y (ao_p nxo));
  construct (ro_cls o) (XaAxis nx) (Some y').

(** [Relation.shift], relation.py 342-356 *)
Definition h_shift_axis (r : loc) (d : num) : M loc :=
  do! o <- get_rel r;
  do! nx <- ax_copy (ro_x o);
  do! nxo <- get_ax nx;
  do! _ <- ax_set FStart nx (n_add A (a_start (ao_p nxo)) d);
  do! nxo <- get_ax nx;
  do! _ <- ax_set FEnd nx (n_add A (a_end (ao_p nxo)) d);
  do! y <- get_y (ro_y o);
  construct (ro_cls o) (XaAxis nx) (Some y).

(** [equalize], relation.py 358-378: [r1.x == r2.x] is object identity *)
Definition h_equalize (r1 r2 : loc) : M (loc * loc) :=
  do! o1 <- get_rel r1;
  do! o2 <- get_rel r2;
  if Nat.eqb (ro_x o1) (ro_x o2) then
    do! d1 <- deepcopy r1; do! d2 <- deepcopy r2; ret (d1, d2)
  else
    do! c <- get_cfg;
    do! a1 <- get_ax (ro_x o1);
    do! a2 <- get_ax (ro_x o2);
    do! nx <- ax_new (c_common_x A V (hc_base c) (ao_p a1) (ao_p a2));
    do! e1 <- h_interp r1 (XaAxis nx);
    do! e2 <- h_interp r2 (XaAxis nx);
    ret (e1, e2).

(** right operand of an operator: a relation object, or what numpy makes of anything else *)
Inductive harg := HRel (r : loc) | HVal (b : operand A V).

(** [_operation] and the operator methods of [Relation], relation.py 425-480, and the in-place
    forms 482-495 which call them *)
Definition h_operation (o : mathop) (r : loc) (b : harg) : M loc :=
  do! ro <- get_rel r;
  match b with
  | HRel r2 =>
      do! e <- h_equalize r r2;
      do! o1 <- get_rel (fst e);
      do! o2 <- get_rel (snd e);
      do! nx <- ax_copy (ro_x o1);
      do! y1 <- get_y (ro_y o1);
      do! y2 <- get_y (ro_y o2);
      do! y <- lift (c_math A V (hc_base (ro_cfg ro)) o y1 (OArr y2));
      construct (ro_cls ro) (XaAxis nx) (Some y)
  | HVal v =>
      do! nx <- ax_copy (ro_x ro);
      do! y1 <- get_y (ro_y ro);
      do! y <- lift (c_math A V (hc_base (ro_cfg ro)) o y1 v);
      construct (ro_cls ro) (XaAxis nx) (Some y)
  end.

(** [select_data], relation.py 253-282 *)
Definition h_select (r : loc) (start stop : option num) : M loc :=
  do! o <- get_rel r;
  do! ax <- get_ax (ro_x o);
  let s := match start with Some v => v | None => a_start (ao_p ax) end in
  let e := match stop with Some v => v | None => a_end (ao_p ax) end in
  do! arr <- ax_array (ro_x o);
  let m := map (fun x => n_le A s x && n_le A x e) arr in
  let sel := mask m arr in
  match sel with
  | [] => fail EIndex
  | x0 :: _ =>
      do! nx <- ax_new (mkAxis x0 (last sel x0) (a_sample (ao_p ax)));
      do! y <- get_y (ro_y o);
      if Nat.eqb (length m) (length y) then construct (ro_cls o) (XaAxis nx) (Some (mask m y))
      else fail EIndex
  end.

(** [__getitem__] with a number, relation.py 519-522 (a slice calls [select_data], 524-525) *)
Definition h_getitem (r : loc) (v : num) : M (num * val) :=
  do! o <- get_rel r;
  do! arr <- ax_array (ro_x o);
  match argmin A (map (fun x => n_abs A (n_sub A x v)) arr) with
  | None => fail EValue
  | Some i =>
      do! y <- get_y (ro_y o);
      match nth_error arr i, nth_error y i with
      | Some x, Some z => ret (x, z)
      | _, _ => fail EIndex
      end
  end.

(** [exp], relation.py 284-293, and other element-wise maps on a copied axis *)
Definition h_map (k : cls) (f : list val -> list val) (r : loc) : M loc :=
  do! o <- get_rel r;
  do! nx <- ax_copy (ro_x o);
  do! y <- get_y (ro_y o);
  construct k (XaAxis nx) (Some (f y)).
Definition h_exp (r : loc) : M loc :=
  do! o <- get_rel r; h_map (ro_cls o) (map (vf_exp F)) r.

(** a method given by content, then [type(self)] applied to its result: [diff], [integrate], relation.py 295-317 *)
Definition h_method (pick : config A V -> rel -> result (axis * list val)) (r : loc) : M loc :=
  do! o <- get_rel r;
  do! c <- content r;
  do! xy <- lift (pick (hc_base (ro_cfg o)) c);
  do! nx <- ax_new (fst xy);
  construct (ro_cls o) (XaAxis nx) (Some (snd xy)).
Definition h_diff : loc -> M loc := h_method (c_diff A V).
Definition h_integrate : loc -> M loc := h_method (c_integrate A V).

(* ------------------------------------------------------------------ *)
(** ** signal.py and spectrum.py *)

Inductive domarg := DaNone | DaInt (n : Z) | DaAxis (a : loc).
(** Python truth of the argument: [frequency] in signal.py 101, [time] in spectrum.py 104 *)
Definition dom_true (d : domarg) : bool :=
  match d with DaNone => false | DaInt n => negb (Z.eqb n 0) | DaAxis _ => true end.
Definition dom_content (d : domarg) : M dom :=
  match d with
  | DaNone => ret DNone
  | DaInt n => ret (DInt n)
  | DaAxis a => do! _ <- ax_size a; do! o <- get_ax a; ret (DAxis (ao_p o))
  end.
(** the axis object of the converted relation: the argument itself, or a new one *)
Definition dom_axis (d : domarg) (p : axis) : M loc :=
  match d with DaAxis a => ret a | _ => ax_new p end.
Definition set_link (r l : loc) : M unit :=
  do! o <- get_rel r;
  put_rel r (mkRo (ro_cls o) (ro_x o) (ro_y o) (Some l) (ro_cfg o) (ro_ft o) (ro_at o)).

(** [get_spectrum], signal.py 83-107 *)
Definition h_get_spectrum (r : loc) (fr : domarg) (zero : bool) : M loc :=
  do! o <- get_rel r;
  if negb (is_sig (ro_cls o)) then fail EType else
  match ro_link o, dom_true fr with
  | Some l, false => ret l
  | _, _ =>
      do! c <- content r;
      do! d <- dom_content fr;
      do! fa <- lift (hc_s2s (ro_cfg o) c d zero);
      do! x <- dom_axis fr (fst fa);
      do! sp <- new_plain KSpec (XaAxis x) (Some (snd fa)) (Some r);
      do! _ <- set_link r sp;
      ret sp
  end.

(** [get_signal], spectrum.py 84-111 *)
Definition h_get_signal (r : loc) (tm : domarg) (st : option num) : M loc :=
  do! o <- get_rel r;
  if negb (is_spec (ro_cls o)) then fail EType else
  match ro_link o, dom_true tm with
  | Some l, false => ret l
  | _, _ =>
      do! c <- content r;
      do! d <- dom_content tm;
      do! ta <- lift (hc_sp2s (ro_cfg o) c d st);
      do! x <- dom_axis tm (fst ta);
      do! sg <- new_plain KSig (XaAxis x) (Some (snd ta)) (Some r);
      do! _ <- set_link r sg;
      ret sg
  end.

(** operators with conversion: signal.py 263-288, spectrum.py 273-301.  Reflected operators are those
    of [Relation]. *)
Definition converting (o : mathop) : bool :=
  match o with ADD | SUB | MUL | TRUEDIV | POW => true | _ => false end.
Definition h_operator (o : mathop) (r : loc) (b : harg) : M loc :=
  do! ro <- get_rel r;
  if negb (converting o) then h_operation o r b else
  if is_sig (ro_cls ro) then
    match b with
    | HRel r2 =>
        do! o2 <- get_rel r2;
        if is_spec (ro_cls o2) then do! s <- h_get_signal r2 DaNone None; h_operation o r (HRel s)
        else h_operation o r b
    | _ => h_operation o r b
    end
  else if is_spec (ro_cls ro) then
    match b with
    | HRel r2 =>
        do! o2 <- get_rel r2;
        if is_sig (ro_cls o2) then do! s <- h_get_spectrum r2 DaNone false; h_operation o r (HRel s)
        else h_operation o r b
    | HVal (OVal v) => h_operation o r b
    | HVal _ => fail EConverting
    end
  else h_operation o r b.

(** [get_norm], relation.py 241-251: [self**2] through the dispatched operator *)
Definition h_norm (r : loc) : M val :=
  do! ro <- get_rel r;
  do! sq <- h_operator POW r (HVal (OVal (v_of V (n_of_Z A 2))));
  do! c <- content sq;
  do! i <- lift (c_int_one A V (hc_base (ro_cfg ro)) c);
  do! ax <- get_ax (ro_x ro);
  ret (v_div V i (v_of V (a_sample (ao_p ax)))).

(** conversions of arguments: [_input2spectrum] spectrum.py 304-314, [_inp2signal] signal.py 291-299;
    [HVal] stands for any non-relation *)
Definition to_spectrum (b : harg) : M loc :=
  match b with
  | HRel r =>
      do! o <- get_rel r;
      if is_sig (ro_cls o) then h_get_spectrum r DaNone false
      else if is_spec (ro_cls o) then ret r
      else new_plain KSpec (XaRel r) None None
  | HVal _ => fail EConverting
  end.
Definition to_signal (b : harg) : M loc :=
  match b with
  | HRel r =>
      do! o <- get_rel r;
      if is_spec (ro_cls o) then h_get_signal r DaNone None
      else if is_sig (ro_cls o) then ret r
      else new_plain KSig (XaRel r) None None
  | HVal _ => fail EConverting
  end.

(** a method that only [Spectrum] has (AttributeError otherwise) *)
Definition on_spec {T} (r : loc) (m : M T) : M T :=
  do! o <- get_rel r; if is_spec (ro_cls o) then m else fail EType.
(** [get_amp_spectrum], [get_phase_spectrum], spectrum.py 113-137: plain relations *)
Definition h_amp (r : loc) : M loc := on_spec r (h_map KRel (map (vf_abs F)) r).
Definition h_phase (r : loc) : M loc := on_spec r (h_map KRel (vf_phase F) r).
(** [get_amplitude_spectrum], [get_phase_spectrum] of a signal, signal.py 109-148 *)
Definition h_sig_amp (r : loc) (fr : domarg) (zero : bool) : M loc :=
  do! sp <- h_get_spectrum r fr zero; h_amp sp.
Definition h_sig_phase_spectrum (r : loc) (fr : domarg) (zero : bool) : M loc :=
  do! sp <- h_get_spectrum r fr zero; h_phase sp.

(** [get_spectrum_from_amp_phase], spectrum.py 218-237 (class Spectrum) *)
Definition h_from_amp_phase (am ph : loc) : M loc :=
  do! i <- h_operator RMUL ph (HVal (OVal (vf_i F)));
  do! e <- h_exp i;
  do! p <- h_operator MUL am (HRel e);
  new_plain KSpec (XaRel p) None None.

(** [Spectrum.add_phase], [sub_phase], spectrum.py 179-216 ([o] is ADD or SUB) *)
Definition h_spec_phase (o : mathop) (r : loc) (b : harg) : M loc :=
  do! so <- to_spectrum b;
  do! am <- h_amp r;
  do! p1 <- h_phase r;
  do! p2 <- h_phase so;
  do! p <- h_operator o p1 (HRel p2);
  h_from_amp_phase am p.

(** [Signal.add_phase], [sub_phase], signal.py 199-227 *)
Definition h_sig_phase (o : mathop) (r : loc) (b : harg) : M loc :=
  do! ro <- get_rel r;
  do! sp <- h_get_spectrum r DaNone false;
  do! sp' <- h_spec_phase o sp b;
  do! sg <- h_get_signal sp' (DaAxis (ro_x ro)) None;
  construct (ro_cls ro) (XaRel sg) None.

(** [add_phase]/[sub_phase], dispatched on the class *)
Definition h_add_phase (o : mathop) (r : loc) (b : harg) : M loc :=
  do! ro <- get_rel r;
  if is_sig (ro_cls ro) then h_sig_phase o r b else on_spec r (h_spec_phase o r b).

(** [Signal.shift], signal.py 150-156 *)
Definition h_sig_shift (r : loc) (d : num) : M loc :=
  do! sp <- h_get_spectrum r DaNone false;
  do! so <- get_rel sp;
  do! arr <- ax_array (ro_x so);
  do! sh <- new_plain KSpec (XaAxis (ro_x so)) (Some (map (fun f => vf_phasor F f d) arr)) None;
  h_sig_phase ADD r (HRel sh).

(** [shift], dispatched on the class *)
Definition h_shift (r : loc) (d : num) : M loc :=
  do! o <- get_rel r;
  if is_sig (ro_cls o) then h_sig_shift r d else h_shift_axis r d.

(** [get_reverse_filter], spectrum.py 139-177 *)
Definition h_reverse_filter (r : loc) (percent : num) (subtract : bool) (f0 f1 : option num) : M loc :=
  do! s <- on_spec r (h_select r f0 f1);
  do! am <- h_amp s;
  do! amc <- content am;
  do! mx <- lift (rel_max A V amc);
  do! am2 <- h_operator ADD am (HVal (OVal (vf_pct F mx percent)));
  do! inv <- h_operator RTRUEDIV am2 (HVal (OVal (v_of V (n_of_Z A 1))));
  do! ph <- h_phase s;
  do! ph2 <- h_operator RMUL ph (HVal (OVal (v_of V (n_of_Z A (if subtract then (-1) else 1)))));
  h_from_amp_phase inv ph2.

(** [get_reverse_signal], signal.py 158-197 *)
Definition h_reverse_signal (r : loc) (percent : num) (subtract : bool) (f0 f1 : option num) : M loc :=
  do! ro <- get_rel r;
  do! sp <- h_get_spectrum r DaNone false;
  do! rf <- h_reverse_filter sp percent subtract f0 f1;
  do! sg <- h_get_signal rf (DaAxis (ro_x ro)) None;
  construct (ro_cls ro) (XaRel sg) None.

(* ------------------------------------------------------------------ *)
(** ** correlate and convolve *)

(** default methods, methods.py 184-225, up to the numpy call [comb] *)
Definition default_lagged (comb : list val -> list val -> result (list val)) (r1 r2 : loc)
  : M (axis * list val) :=
  do! c1 <- content r1;
  do! s1 <- h_shift r1 (n_opp A (a_start (r_x c1)));
  do! c2 <- content r2;
  do! s2 <- h_shift r2 (n_opp A (a_start (r_x c2)));
  do! e <- h_equalize s1 s2;
  do! e1 <- content (fst e);
  do! e2 <- content (snd e);
  do! y <- lift (comb (r_y e1) (r_y e2));
  ret (mkAxis (n_opp A (a_end (r_x e1))) (a_end (r_x e1)) (a_sample (r_x e1)), y).

Inductive lagop := LCorr | LConv.
Definition lag_comb (l : lagop) := match l with LCorr => np_correlate A V | LConv => np_convolve A V end.
Definition lag_method (l : lagop) (c : hconfig) := match l with LCorr => hc_corr c | LConv => hc_conv c end.

(** [Relation.correlate]/[convolve], relation.py 380-423, as class [k] *)
Definition h_rel_lagged (l : lagop) (k : cls) (b1 b2 : harg) : M loc :=
  match b1, b2 with
  | HRel r1, HRel r2 =>
      do! c <- get_cfg;
      do! xy <- (match lag_method l c with
                 | None => default_lagged (lag_comb l) r1 r2
                 | Some f => do! c1 <- content r1; do! c2 <- content r2; lift (f c1 c2) end);
      do! nx <- ax_new (fst xy);
      construct k (XaAxis nx) (Some (snd xy))
  | _, _ => fail ETypeFunc
  end.

(** the class methods: relation.py 380-423; signal.py 229-261 (converts, then constructs twice);
    spectrum.py 239-271 *)
Definition h_lagged (l : lagop) (k : cls) (b1 b2 : harg) : M loc :=
  if is_sig k then
    do! s1 <- to_signal b1;
    do! s2 <- to_signal b2;
    do! r <- h_rel_lagged l k (HRel s1) (HRel s2);
    construct k (XaRel r) None
  else if is_spec k then
    do! s1 <- to_spectrum b1;
    do! s2 <- to_spectrum b2;
    h_rel_lagged l k (HRel s1) (HRel s2)
  else h_rel_lagged l k b1 b2.

(* ------------------------------------------------------------------ *)
(** ** uncalculated_sweep.py *)

Inductive timearg := TaNone | TaAxis (a : loc) | TaSeq (s : seq_in A).
(** [__init__] and [get_info_from_ftat], uncalculated_sweep.py 64-96, sweep_methods.py 173-220, for laws
    that carry no time of their own: the time axis object is kept as it is *)
Definition h_new_gen (t : timearg) (f tht a : hconfig -> axis -> result (list val))
    (w : num -> list val -> list val -> result (list val)) : M loc :=
  do! c <- get_cfg;
  do! tl <- (match t with
             | TaNone => ret None
             | TaAxis l => do! _ <- get_ax l; ret (Some l)
             | TaSeq s => do! l <- ax_from_array c s true; ret (Some l) end);
  alloc_gen (mkGen tl c f tht a w).

(** [__call__], uncalculated_sweep.py 98-165 *)
Definition h_call (g : loc) (t : timearg) (tht0 : num) : M loc :=
  do! go <- get_gen g;
  do! c <- get_cfg;
  do! tl <- (match t, g_time go with
             | TaAxis a, _ => ret a
             | TaSeq s, _ => ax_from_array (g_cfg go) s true
             | TaNone, Some a => ret a
             | TaNone, None => fail EBadInput end);
  do! ax <- get_ax tl;
  do! fy <- lift (g_f go c (ao_p ax));
  do! fr <- new_plain KRel (XaAxis tl) (Some fy) None;
  do! am <- lift (g_a go c (ao_p ax));
  do! th <- lift (g_tht go c (ao_p ax));
  do! thr <- new_plain KRel (XaAxis tl) (Some th) None;
  do! y <- lift (g_wave go tht0 am th);
  do! ar <- new_plain KRel (XaAxis tl) (Some am) None;
  new_sweep (XaAxis tl) (Some y) (Some fr) (Some ar).

(** [ApriorUncalculatedSweep.__call__], uncalculated_sweep.py 239-271, for the generator [g] and the
    a-priori signal [sg]; [ratio na ns] is [sqrt(na) / sqrt(ns)].  The scaled amplitude law is assigned to
    a sweep that nobody holds once [sweep *= norm] has made a new one, so only its computation is
    represented.  The attribute a_prior_signal is not represented. *)
Definition h_apcall (ratio : val -> val -> result val) (g sg : loc) (t : timearg) (tht0 : num)
    (normalize : bool) : M loc :=
  do! sw <- h_call g t tht0;
  if normalize then
    do! ns <- h_norm sw;
    do! na <- h_norm sg;
    do! k <- lift (ratio na ns);
    do! o <- get_rel sw;
    match ro_at o with
    | Some l =>
        do! _ <- h_operator MUL l (HVal (OVal k));
        h_operator MUL sw (HVal (OVal k))
    | None => fail EType
    end
  else ret sw.

(* ------------------------------------------------------------------ *)
(** ** Histories: finite sequences of API calls *)

Inductive op :=
| ONewAxis (p : axis)                                  (* ArrayAxis(start, end, sample) *)
| OAxisOf (s : seq_in A) (round_dx : bool)             (* get_array_axis_from_array *)
| OSet (f : field) (a : loc) (v : num)                 (* axis.start = v, ... *)
| ORelSet (f : field) (r : loc) (v : num)              (* relation.start = v, ..., relation.py 130-180 *)
| OCopyAxis (a : loc)
| OArray (a : loc) | OSize (a : loc) | OActual (a : loc)
| ONew (k : cls) (x : xarg) (y : option (list val))    (* Relation(x, y), Signal, Spectrum, Sweep *)
| OWriteY (r : loc) (i : nat) (v : val)                (* relation.y[i] = v *)
| OGetData (r : loc)
| OGetDataWrite (r : loc) (i : nat) (v : num) (j : nat) (w : val) (* write into both arrays of get_data *)
| OOperator (o : mathop) (r : loc) (b : harg)
| OShift (r : loc) (d : num)
| ODiff (r : loc) | OIntegrate (r : loc) | OExp (r : loc)
| ONorm (r : loc)
| OSelect (r : loc) (s e : option num)
| OGetItem (r : loc) (v : num)
| OInterp (r : loc) (x : xarg)
| OEqualize (r1 r2 : loc)
| OLagged (l : lagop) (k : cls) (b1 b2 : harg)
| OGetSpectrum (r : loc) (fr : domarg) (zero : bool)
| OGetSignal (r : loc) (tm : domarg) (st : option num)
| OAmp (r : loc) | OPhase (r : loc)
| OSigAmp (r : loc) (fr : domarg) (zero : bool) | OSigPhase (r : loc) (fr : domarg) (zero : bool)
| OFromAmpPhase (am ph : loc)
| OAddPhase (r : loc) (b : harg) | OSubPhase (r : loc) (b : harg)
| OReverseFilter (r : loc) (p : num) (sub : bool) (f0 f1 : option num)
| OReverseSignal (r : loc) (p : num) (sub : bool) (f0 f1 : option num)
| ODeepcopy (r : loc)
| ONewGen (t : timearg) (f tht a : hconfig -> axis -> result (list val)) (w : num -> list val -> list val -> result (list val))
| OCall (g : loc) (t : timearg) (tht0 : num)
| OApCall (ratio : val -> val -> result val) (g sg : loc) (t : timearg) (tht0 : num) (normalize : bool)
| OConfig (c : hconfig) | OSweepConfig (c : sconfig).

Definition h_write_y (r : loc) (i : nat) (v : val) : M unit :=
  do! o <- get_rel r;
  do! y <- get_y (ro_y o);
  if Nat.ltb i (length y) then put_y (ro_y o) (upd y i v) else fail EIndex.
Definition h_get_data_write (r : loc) (i : nat) (v : num) (j : nat) (w : val) : M unit :=
  do! d <- h_get_data r;
  do! f <- get_f (fst d);
  do! _ <- put_f (fst d) (upd f i v);
  do! y <- get_y (snd d);
  put_y (snd d) (upd y j w).

(** relation objects returned by a call *)
Definition one (m : M loc) : M (list loc) := do! r <- m; ret [r].
Definition none {T} (m : M T) : M (list loc) := do! _ <- m; ret [].
Definition exec (o : op) : M (list loc) :=
  match o with
  | ONewAxis p => none (ax_new p)
  | OAxisOf s b => none (do! c <- get_cfg; ax_from_array c s b)
  | OSet f a v => none (ax_set f a v)
  | ORelSet f r v => none (do! ro <- get_rel r; ax_set f (ro_x ro) v)
  | OCopyAxis a => none (ax_copy a)
  | OArray a => none (ax_array a)
  | OSize a => none (ax_size a)
  | OActual a => none (ax_actual a)
  | ONew k x y => one (construct k x y)
  | OWriteY r i v => none (h_write_y r i v)
  | OGetData r => none (h_get_data r)
  | OGetDataWrite r i v j w => none (h_get_data_write r i v j w)
  | OOperator o r b => one (h_operator o r b)
  | OShift r d => one (h_shift r d)
  | ODiff r => one (h_diff r)
  | OIntegrate r => one (h_integrate r)
  | OExp r => one (h_exp r)
  | ONorm r => none (h_norm r)
  | OSelect r s e => one (h_select r s e)
  | OGetItem r v => none (h_getitem r v)
  | OInterp r x => one (h_interp r x)
  | OEqualize r1 r2 => do! e <- h_equalize r1 r2; ret [fst e; snd e]
  | OLagged l k b1 b2 => one (h_lagged l k b1 b2)
  | OGetSpectrum r fr z => one (h_get_spectrum r fr z)
  | OGetSignal r tm st => one (h_get_signal r tm st)
  | OAmp r => one (h_amp r)
  | OPhase r => one (h_phase r)
  | OSigAmp r fr z => one (h_sig_amp r fr z)
  | OSigPhase r fr z => one (h_sig_phase_spectrum r fr z)
  | OFromAmpPhase am ph => one (h_from_amp_phase am ph)
  | OAddPhase r b => one (h_add_phase ADD r b)
  | OSubPhase r b => one (h_add_phase SUB r b)
  | OReverseFilter r p s f0 f1 => one (h_reverse_filter r p s f0 f1)
  | OReverseSignal r p s f0 f1 => one (h_reverse_signal r p s f0 f1)
  | ODeepcopy r => one (deepcopy r)
  | ONewGen t f tht a w => none (h_new_gen t f tht a w)
  | OCall g t tht0 => one (h_call g t tht0)
  | OApCall ratio g sg t tht0 b => one (h_apcall ratio g sg t tht0 b)
  | OConfig c => fun h => (Ok [], with_cfg h c)
  | OSweepConfig c => fun h => (Ok [], with_scfg h c)
  end.
(** an exception is caught by the caller; what was changed before it stays changed *)
Definition step (h : heap) (o : op) : heap := snd (exec o h).
Definition run (ops : list op) (h : heap) : heap := fold_left step ops h.
Definition empty_heap (c : hconfig) (sc : sconfig) : heap := mkHeap [] [] [] [] [] c sc.
(** states a program can reach *)
Definition reachable (h : heap) : Prop := exists c sc ops, h = run ops (empty_heap c sc).

End Heap.
Arguments mkHeap {A V}.
Arguments h_farr {A V}. Arguments h_yarr {A V}. Arguments h_ax {A V}. Arguments h_rel {A V}.
Arguments h_gen {A V}. Arguments h_cfg {A V}. Arguments h_scfg {A V}.
Arguments mkAx {A}. Arguments ao_p {A}. Arguments ao_cache {A}. Arguments ao_as {A}.
Arguments mkRo {A V}. Arguments ro_cls {A V}. Arguments ro_x {A V}. Arguments ro_y {A V}.
Arguments ro_link {A V}. Arguments ro_cfg {A V}. Arguments ro_ft {A V}. Arguments ro_at {A V}.
Arguments g_time {A V}. Arguments g_cfg {A V}.
Arguments XaRel {A}. Arguments XaAxis {A}. Arguments XaSeq {A}.
Arguments HRel {A V}. Arguments HVal {A V}.
Arguments hc_base {A V}.
