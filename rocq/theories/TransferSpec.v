(** Changing the number type in which samples are stored: vocabulary. *)
From Coq Require Import ZArith List Bool.
From Verif Require Import Num Numpy AxisModel RelModel HeapModel FourierModel SweepModel.
Import ListNotations.

(** an outcome seen through a function *)
Definition rmap {T U} (f : T -> U) (r : result T) : result U := match r with Ok x => Ok (f x) | Err e => Err e end.

Section Store.
Context {A : Arith} {V V' : Vals A} (h : val V -> val V').
(** the same relation, operand, constructor argument, sweep, callable, law, generator with every sample seen
    through [h] *)
Definition hrel (r : rel A V) : rel A V' := mkRel (r_x r) (map h (r_y r)).
Definition hoperand (b : operand A V) : operand A V' :=
  match b with OVal v => OVal (h v) | OArr l => OArr (map h l) | OBad => OBad end.
Definition hx_in (x : x_in A V) : x_in A V' :=
  match x with XRel r => XRel (hrel r) | XAxis a => XAxis a | XSeq s => XSeq s end.
Definition hsweep (s : sweepv A V) : sweepv A V' := mkSweepv (hrel (sw_rel s)) (hrel (sw_ft s)) (hrel (sw_at s)).
Definition hcallable (c : callable A V) : callable A V' :=
  mkCallable (fun l => rmap (map h) (cl_arr c l)) (rmap (fun f x => h (f x)) (cl_num c)).
Definition hia (f : interp_array A V) : interp_array A V' := mkIA (ia_x f) (map h (ia_y f)).
Definition hlaw (l : law A V) : law A V' := match l with LawFun c => LawFun (hcallable c) | LawArr f => LawArr (hia f) end.
Definition hlaw_in (l : law_in A V) : law_in A V' :=
  match l with
  | LiNone => LiNone | LiFun c => LiFun (hcallable c) | LiInterp f => LiInterp (hia f)
  | LiRel r => LiRel (hrel r) | LiArr y => LiArr (map h y)
  end.
(** operators other than powers *)
Definition no_power (o : mathop) : Prop := match o with POW | RPOW => False | _ => True end.
End Store.

(** ** real samples stored as complex numbers *)
From Coq Require Import Reals.
From Coquelicot Require Import Complex.
Notation stored := (hrel (A:=RA) (V:=RV) (V':=CV) RtoC).
(** methods that give real laws for real samples, and these methods seen on the real samples *)
Definition real_list (l : list C) : Prop := forall z, In z l -> snd z = 0%R.
Definition real_methods (sc : sconfig RA CV) : Prop :=
  forall (c : rel RA RV) ys, sc_ft RA CV sc (stored c) = Ok ys \/ sc_at RA CV sc (stored c) = Ok ys -> real_list ys.
Definition re_sconfig (sc : sconfig RA CV) : sconfig RA RV :=
  mkSconfig RA RV (fun c => rmap (map (fst : C -> val RV)) (sc_ft RA CV sc (stored c)))
                  (fun c => rmap (map (fst : C -> val RV)) (sc_at RA CV sc (stored c)))
                  (fun c => sc_spectro RA CV sc (stored c)).
(** an integration method for complex samples that extends one for real samples *)
Definition extends_integrator (int : integrator RA RV) (int' : integrator RA CV) : Prop :=
  forall c x, int' (hcallable (V:=RV) (V':=CV) RtoC c) x = rmap (map RtoC) (int c x).
(** the generator with every sample of its laws stored as a complex number *)
Definition stored_gen (int' : integrator RA CV) (g : ugen RA RV) : ugen RA CV :=
  mkUgen RA CV (u_time g) (hlaw (V:=RV) (V':=CV) RtoC (u_f g)) (hlaw (V:=RV) (V':=CV) RtoC (u_a g)) (default_config RA CV) int'.
(** estimation methods that never raise and give as many values as there are samples *)
Definition total_methods (sc : sconfig RA CV) : Prop :=
  forall c, (exists l, sc_ft RA CV sc c = Ok l /\ length l = length (r_y c)) /\
            (exists l, sc_at RA CV sc c = Ok l /\ length l = length (r_y c)) /\ sc_spectro RA CV sc c = Ok tt.
