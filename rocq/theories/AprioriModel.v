(** Making a generator from a-priori data, on objects: uncalculated_sweep.py 207-237 and
    sweep_methods.py 130-170. *)
From Coq Require Import ZArith List Bool.
From Verif Require Import Num Numpy AxisModel RelModel HeapModel FourierModel SweepModel.
Import ListNotations.

Section Apriori.
Context (A : Arith) (V : Vals A) (W : wfun A V).
Notation val := (val V).
Notation M := (HeapModel.M A V).
Notation "'do!' x <- a ; b" := (bindM A V a (fun x => b))
  (at level 200, x pattern, a at level 100, b at level 200).

(** the argument a_prior_data: an object, a number sequence, or nothing *)
Inductive hdata := HdRel (r : loc) | HdSeq (y : list val) | HdNone.
(** the a-priori signal and spectrum, sweep_methods.py 150-168, when [time] is not a relation *)
Definition h_ap_pair (t : timearg A) (d : hdata) : M (loc * loc) :=
  match d with
  | HdRel r =>
      do! o <- get_rel A V r;
      if is_spec (ro_cls o) then
        do! s <- h_get_signal A V r DaNone None; ret A V (s, r)
      else if is_sig (ro_cls o) then
        do! p <- h_get_spectrum A V r DaNone false; ret A V (r, p)
      else
        do! p <- new_plain A V KSpec (XaRel r) None None;
        do! s <- h_get_signal A V p DaNone None; ret A V (s, p)
  | HdSeq _ | HdNone =>
      do! x <- (match t with TaAxis a => ret A V (XaAxis a) | TaSeq s => ret A V (XaSeq s)
                           | TaNone => fail A V EValue end);
      do! s <- new_plain A V KSig x (match d with HdSeq y => Some y | _ => None end) None;
      do! p <- h_get_spectrum A V s DaNone false; ret A V (s, p)
  end.
(** [ApriorUncalculatedSweep.__init__], uncalculated_sweep.py 207-237: the generator object and the a-priori signal
    it keeps; [m] is the method turning a spectrum into laws, [int] the integration method of [Config] *)
Definition h_ap_new (int : integrator A V) (t : timearg A) (d : hdata) (m : ftat A V) : M (loc * loc) :=
  do! p <- h_ap_pair t d;
  do! c <- content A V (snd p);
  do! l <- lift A V (convert_freq2time A V m c);
  do! g <- h_new_gen A V t
    (fun c x => law_eval A V (hc_base c) (fst l) x) (fun c x => law_tht A V W (hc_base c) int (fst l) x)
    (fun c x => law_eval A V (hc_base c) (snd l) x) (wave A V W);
  ret A V (g, fst p).
End Apriori.
Arguments HdRel {A V}. Arguments HdSeq {A V}. Arguments HdNone {A V}.
