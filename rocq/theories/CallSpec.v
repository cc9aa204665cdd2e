(** What it means for objects of the heap to represent sweeps and generators given by value (C76). *)
From Coq Require Import List.
From Verif Require Import Num AxisModel RelModel HeapModel HeapSpec SweepModel.
Import ListNotations.

Section CallS.
Context (A : Arith) (V : Vals A) (W : wfun A V).
Notation heap := (heap A V).

(** the object [r] is a [Sweep] whose samples and two laws are those of [s] *)
Definition sweep_is (h : heap) (r : loc) (s : sweepv A V) : Prop :=
  cls_of A V h r = Some KSweep /\ rel_view A V h r = Some (sw_rel s) /\
  exists lf la, laws_of A V h r = Some (Some lf, Some la) /\
    rel_view A V h lf = Some (sw_ft s) /\ rel_view A V h la = Some (sw_at s).

(** the time given to a generator, as objects and by value *)
Definition time_is (h : heap) (t : timearg A) (u : utime A) : Prop :=
  match t, u with
  | TaNone, UtNone => True
  | TaAxis a, UtAxis p => ax_view A V h a = Some p
  | TaSeq s, UtSeq s' => s = s'
  | _, _ => False
  end.

(** the object [g] is a generator with the time, laws and methods of [u] *)
Definition gen_is (h : heap) (g : loc) (u : ugen A V) : Prop :=
  exists go, nth_error (h_gen h) g = Some go /\ hc_base (g_cfg go) = u_cfg u /\
    (match g_time go with None => u_time u = None | Some a => exists p, ax_view A V h a = Some p /\ u_time u = Some p end) /\
    (forall c x, g_f A V go c x = law_eval A V (hc_base c) (u_f u) x) /\
    (forall c x, g_a A V go c x = law_eval A V (hc_base c) (u_a u) x) /\
    (forall c x, g_tht A V go c x = law_tht A V W (hc_base c) (u_int u) (u_f u) x) /\
    (forall p am th, g_wave A V go p am th = wave A V W p am th).
End CallS.
