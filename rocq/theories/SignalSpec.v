(** What the methods of signals and spectra may look at: the remembered conversion of an object, or the
    one that would be computed.  Used by the statements of C62. *)
From Coq Require Import List Bool.
From Verif Require Import Num Numpy AxisModel RelModel HeapModel HeapSpec FourierModel.
Import ListNotations.

Section SignalSpec.
Context (A : Arith) (V : Vals A).
Notation heap := (heap A V).
Notation rel := (rel A V).

(** the object [r] remembers as its conversion *)
Definition remembered (h : heap) (r : loc) : option loc :=
  match nth_error (h_rel h) r with Some o => ro_link o | None => None end.
(** the spectrum of the signal [r]: the content, now, of the remembered object, if there is one;
    otherwise what the method captured by [r] computes on the default frequency axis *)
Definition spectrum_seen (h : heap) (r : loc) : result rel :=
  match nth_error (h_rel h) r, rel_view A V h r with
  | Some o, Some c =>
      match ro_link o with
      | Some l => match rel_view A V h l with Some s => Ok s | None => Err EDangling end
      | None => val_spectrum A V (ro_cfg o) c (DNone A) false
      end
  | _, _ => Err EDangling
  end.
(** the argument of [add_phase]/[sub_phase] as a spectrum: a signal is converted, any other relation
    is read as a spectrum *)
Definition argument_seen (h : heap) (r : loc) : result rel :=
  match cls_of A V h r, rel_view A V h r with
  | Some k, Some c => if is_sig k then spectrum_seen h r else Ok c
  | _, _ => Err EDangling
  end.
(** the conversion methods of [cfg] put their result on the axis they are given *)
Definition keeps_axis (cfg : hconfig A V) : Prop :=
  (forall c q z p y, hc_s2s A V cfg c (DAxis A q) z = Ok (p, y) -> p = q) /\
  (forall c q st p y, hc_sp2s A V cfg c (DAxis A q) st = Ok (p, y) -> p = q).
End SignalSpec.
