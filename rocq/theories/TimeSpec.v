(** Specification vocabulary for C84: the same relations with time counted from another origin or in another unit. *)
From Coq Require Import Reals List.
From Verif Require Import Num Numpy AxisModel RelModel HeapModel FourierModel SweepModel ProgModel.
Import ListNotations.
Local Open Scope R_scope.

(** time [t] counted in units [c] times smaller and from an origin [d] (new) units earlier *)
Definition retime (c d t : R) : R := c * t + d.
Definition retime_axis (c d : R) (x : axis RA) : axis RA :=
  mkAxis (A:=RA) (retime c d (a_start x)) (retime c d (a_end x)) (c * a_sample x).
(** the samples stay *)
Definition retime_rel {V : Vals RA} (c d : R) (r : rel RA V) : rel RA V := mkRel (retime_axis c d (r_x r)) (r_y r).

(** a result changed, an exception left as it is *)
Definition res_map {S T} (f : S -> T) (r : result S) : result T := match r with Ok v => Ok (f v) | Err e => Err e end.
Definition opair {S T U} (f : S -> T) (p : S * U) : T * U := (f (fst p), snd p).

(** *** another unit only: frequencies are divided by [c] when times are multiplied *)
Definition retime_dom (u : R) (d : dom RA) : dom RA := match d with DAxis a => DAxis RA (retime_axis u 0 a) | _ => d end.
Definition by_s {V : Vals RA} (s v : val V) : val V := v_mul V v s.
Definition retime_sweep {V : Vals RA} (c : R) (s : sweepv RA V) : sweepv RA V :=
  mkSweepv (A:=RA) (retime_rel c 0 (sw_rel s)) (mkRel (retime_axis c 0 (r_x (sw_ft s))) (map (by_s (v_of V (/ c))) (r_y (sw_ft s))))
    (retime_rel c 0 (sw_at s)).
Definition retime_call (c : R) (t : utime RA) : utime RA := match t with UtAxis a => UtAxis (A:=RA) (retime_axis c 0 a) | _ => t end.
Definition array_or_none {V : Vals RA} (l : law_in RA V) : Prop := match l with LiArr _ | LiNone => True | _ => False end.

Section Programs.
Context (V : Vals RA).
(** the same program for the new times: moments and durations are converted, derivatives (integrals) are converted to the old
    unit by multiplying (dividing) by [c] *)
Fixpoint retime_e (c d : R) (e : expr RA V) : expr RA V :=
  match e with
  | EName x => EName RA V x
  | EBin o e1 e2 => EBin RA V o (retime_e c d e1) (retime_e c d e2)
  | ENum o e1 v => ENum RA V o (retime_e c d e1) v
  | EMeth MDiff e1 => ENum RA V MUL (EMeth RA V (MDiff RA) (retime_e c d e1)) (v_of V c)
  | EMeth MIntegrate e1 => ENum RA V TRUEDIV (EMeth RA V (MIntegrate RA) (retime_e c d e1)) (v_of V c)
  | EMeth MExp e1 => EMeth RA V (MExp RA) (retime_e c d e1)
  | EMeth (MSelect s t) e1 => EMeth RA V (MSelect RA (option_map (retime c d) s) (option_map (retime c d) t)) (retime_e c d e1)
  | EMeth (MShift u) e1 => EMeth RA V (MShift RA (c * u)) (retime_e c d e1)
  end.
(** another origin only: moments are moved, nothing else *)
Fixpoint move_e (d : R) (e : expr RA V) : expr RA V :=
  match e with
  | EName x => EName RA V x
  | EBin o e1 e2 => EBin RA V o (move_e d e1) (move_e d e2)
  | ENum o e1 v => ENum RA V o (move_e d e1) v
  | EMeth (MSelect s t) e1 => EMeth RA V (MSelect RA (option_map (fun u => u + d) s) (option_map (fun u => u + d) t)) (move_e d e1)
  | EMeth m e1 => EMeth RA V m (move_e d e1)
  end.
(** a program with all its expressions changed *)
Fixpoint each_e (f : expr RA V -> expr RA V) (p : stmt RA V) : stmt RA V :=
  match p with
  | SAssign x e => SAssign RA V x (f e)
  | SAug x o e => SAug RA V x o (f e)
  | SAugNum x o v => SAugNum RA V x o v
  | SFor n b => SFor RA V n (each_e f b)
  | SSkip => SSkip RA V
  | SSeq p q => SSeq RA V (each_e f p) (each_e f q)
  end.
Definition retime_p (c d : R) : stmt RA V -> stmt RA V := each_e (retime_e c d).
Definition move_p (d : R) : stmt RA V -> stmt RA V := each_e (move_e d).
(** the same names are bound, to the same relations in the new time *)
Definition retimed (c d : R) (s s' : env (rel RA V)) : Prop := forall x, s' x = option_map (retime_rel c d) (s x).
End Programs.
