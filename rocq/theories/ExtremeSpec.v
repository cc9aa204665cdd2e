(** Specification vocabulary for C93: greatest and least elements. *)
From Coq Require Import Reals List.
From Coquelicot Require Import Complex.
Local Open Scope R_scope.

(** [v] is in the list and [le] every element *)
Definition least {T} (le : T -> T -> Prop) (v : T) (l : list T) : Prop := In v l /\ forall w, In w l -> le v w.
Definition greatest {T} (le : T -> T -> Prop) (v : T) (l : list T) : Prop := In v l /\ forall w, In w l -> le w v.
(** complex numbers in the order of numpy: by real part, then by imaginary part *)
Definition lexical (a b : C) : Prop := fst a < fst b \/ fst a = fst b /\ snd a <= snd b.
