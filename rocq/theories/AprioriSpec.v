(** A-priori data by value, read off the objects: vocabulary of C81. *)
From Coq Require Import List Bool.
From Verif Require Import Num Numpy AxisModel RelModel HeapModel HeapSpec FourierModel SignalSpec SweepModel AprioriModel.
Import ListNotations.

Section AprioriS.
Context (A : Arith) (V : Vals A).
Notation heap := (heap A V).
(** the signal of the spectrum [r]: the content, now, of the remembered object, if there is one; otherwise what the
    method captured by [r] computes *)
Definition signal_seen (h : heap) (r : loc) : result (rel A V) :=
  match nth_error (h_rel h) r, rel_view A V h r with
  | Some o, Some c =>
      match ro_link o with
      | Some l => match rel_view A V h l with Some s => Ok s | None => Err EDangling end
      | None => val_signal A V (ro_cfg o) c (DNone A) None
      end
  | _, _ => Err EDangling
  end.
(** what the data are worth in the state [h] *)
Definition data_is (h : heap) (d : hdata A V) (v : adata A V) : Prop :=
  match d with
  | HdRel r => exists k c, cls_of A V h r = Some k /\ rel_view A V h r = Some c /\
      v = if is_spec k then AdSpec A V c (signal_seen h r)
          else if is_sig k then AdSig A V c (spectrum_seen A V h r) else AdRel A V c
  | HdSeq y => v = AdSeq A V y
  | HdNone => v = AdNone A V
  end.
(** a history that neither assigns to an object nor sets a method of [Config] or [SweepConfig] *)
Definition calm (ops : list (op A V)) : Prop := Forall (fun o => ~ assigns A V o /\ ~ sets_config A V o) ops.
End AprioriS.
