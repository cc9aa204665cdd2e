(** Specification vocabulary for C91: samples and methods that are off by a bounded error. *)
From Coq Require Import Reals List.
From Coquelicot Require Import Complex.
From Verif Require Import Num Numpy AxisModel RelModel HeapModel FourierModel VInst.
Import ListNotations.
Local Open Scope R_scope.

(** as many samples, each at most [e] away *)
Definition off (e : R) (y y' : list C) : Prop := Forall2 (fun a b => Cmod (Cminus b a) <= e) y y'.
(** the sum of the distances of the samples *)
Fixpoint distance (y y' : list C) : R :=
  match y, y' with a :: u, b :: v => Cmod (Cminus b a) + distance u v | _, _ => 0 end.
(** A configuration whose transforms return the axes of the default ones and samples that are off by at most [e1], [e2], which may
    depend on the data; its other methods are the default ones. *)
Definition inexact (e1 e2 : rel RA CV -> R) (cfg : hconfig RA CV) : Prop :=
  hc_base cfg = default_config RA CV /\ (forall c, 0 <= e1 c) /\ (forall c, 0 <= e2 c) /\
  (forall c d z x y, signal2spectrum c d z = Ok (x, y) -> exists y', hc_s2s RA CV cfg c d z = Ok (x, y') /\ off (e1 c) y y') /\
  (forall c d st x y, spectrum2signal c d st = Ok (x, y) -> exists y', hc_sp2s RA CV cfg c d st = Ok (x, y') /\ off (e2 c) y y').
