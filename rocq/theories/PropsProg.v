(** Property theorems about programs over names: C74.

    The programs (ProgModel.v): expressions of operators, numbers and methods over names, assignment,
    augmented assignment, counted loops.  [h_exec] runs them on objects in a heap, [v_exec] on values. *)
From Coq Require Import Reals ZArith QArith List Bool Lia Lra.
From Verif Require Import Num Numpy Spec AxisModel RelModel RLemmas AxisLemmas InterpLemmas VInst RelLemmas
  HeapModel HeapSpec HeapLemmas5 HeapLemmas6 ProgModel ProgSpec ProgLemmas PropsHeap.
Import ListNotations.

(** ** C74 programs of operators, methods and augmented assignments compute on values *)
(** real axes, default methods: the run on objects binds the same names to objects with the content the run on
    values computes, and stops for the same reason; no object that existed before has changed *)
Theorem C74_programs_by_value : forall (V : Vals RA) (L : VLaws V) F k cf p s (h : heap RA V) v,
  k <> KSweep -> hc_base cf = default_config RA V -> (is_sig k = true -> shifts RA V p = false) ->
  reachable RA V F h -> h_cfg h = cf -> stand RA V k cf h s v ->
  let '(s', h', z) := h_exec RA V F p (s, h) in
  let '(v', z') := v_exec RA V F (default_config RA V) p v in
  stand RA V k cf h' s' v' /\ z = z' /\ untouched RA V h h'.
Proof.
  intros V L F k cf p s h v Hk Hd Hs R C St.
  pose proof (exec_agrees RA V F k cf Hk) as G. rewrite Hd in G. specialize (G (default_share_blind V L) p Hs s h v R C St).
  destruct (h_exec RA V F p (s, h)) as [[s' h'] z]. destruct (v_exec RA V F (default_config RA V) p v) as [v' z'].
  cbn in G. destruct G as ((_ & _ & U) & S' & E). split; auto.
Qed.
Print Assumptions C74_programs_by_value.
(** any number system and any methods for which sharing an axis object makes no difference to an operator *)
Theorem C74_any_methods : forall A (V : Vals A) F k cf p s (h : heap A V) v,
  k <> KSweep -> share_blind A V (hc_base cf) -> (is_sig k = true -> shifts A V p = false) ->
  reachable A V F h -> h_cfg h = cf -> stand A V k cf h s v ->
  let '(s', h', z) := h_exec A V F p (s, h) in
  let '(v', z') := v_exec A V F (hc_base cf) p v in
  stand A V k cf h' s' v' /\ z = z' /\ untouched A V h h'.
Proof.
  intros A V F k cf p s h v Hk Hb Hs R C St. pose proof (exec_agrees A V F k cf Hk Hb p Hs s h v R C St) as G.
  destruct (h_exec A V F p (s, h)) as [[s' h'] z]. destruct (v_exec A V F (hc_base cf) p v) as [v' z'].
  cbn in G. destruct G as ((_ & _ & U) & S' & E). split; auto.
Qed.
Print Assumptions C74_any_methods.
(** names a program does not assign keep their object *)
Theorem C74_other_names : forall A (V : Vals A) F p x a, ~ assigned A V p x ->
  fst (fst (h_exec A V F p a)) x = fst a x.
Proof. intros. apply exec_frame. auto. Qed.
Print Assumptions C74_other_names.
(** [x o= e] never works in place: it binds [x] to an object that did not exist *)
Theorem C74_augmented_is_new : forall A (V : Vals A) F k cf x o e s v (h : heap A V),
  k <> KSweep -> share_blind A V (hc_base cf) -> (is_sig k = true -> shifts_e A V e = false) ->
  reachable A V F h -> h_cfg h = cf -> stand A V k cf h s v ->
  let st := h_exec A V F (SAug A V x o e) (s, h) in snd st = None ->
  exists l, fst (fst st) x = Some l /\ nth_error (h_rel h) l = None.
Proof. exact aug_new. Qed.
Print Assumptions C74_augmented_is_new.

(** the hypotheses can be met: a relation on any axis, bound to two names *)
Definition alias_env : env loc := fun x => match x with 0%nat | 1%nat => Some 0%nat | _ => None end.
Theorem C74_start : forall (V : Vals RA) F cf sc (p : axis RA) (y : list (val V)), axis_size RA p = Ok (length y) ->
  let h := run RA V F [ONewAxis RA V p; ONew RA V KRel (XaAxis 0%nat) (Some y)] (empty_heap RA V cf sc) in
  reachable RA V F h /\ h_cfg h = cf /\
  stand RA V KRel cf h alias_env (fun x => match x with 0%nat | 1%nat => Some (mkRel p y) | _ => None end).
Proof.
  intros V F cf sc p y Hp h. split; [exists cf, sc; eexists; reflexivity|].
  assert (E : h_cfg h = cf /\ stands RA V KRel cf h 0%nat (mkRel p y)).
  { assert (Ha : axis_array RA p = Ok (linspace RA (a_start p) (a_end p) (length y))) by (unfold axis_array; rewrite Hp; reflexivity).
    assert (Hl := linspace_length RA (a_start p) (a_end p) (length y)).
    set (arr := linspace RA (a_start p) (a_end p) (length y)) in *.
    assert (Eh : exists f ca, h = mkHeap f [y] [mkAx p (Some ca) None] [mkRo KRel 0%nat 0%nat None cf None None] [] cf sc).
    { unfold h, run. cbn [fold_left]. unfold step at 2. cbn [exec]. unfold none, ax_new, bindM, ret, alloc_ax, empty_heap.
      cbn [fst snd with_ax h_farr h_yarr h_ax h_rel h_gen h_cfg h_scfg app].
      unfold step. cbn [exec]. unfold one, construct, new_plain, bindM, get_cfg. cbn [fst snd].
      unfold init_xy, bindM, ax_size, ax_array, ax_array_loc, get_ax, rd, bindM, lift, ret.
      unfold alloc_y, get_cfg, with_ax, with_yarr. cbn [fst snd h_farr h_yarr h_ax h_rel h_gen h_cfg h_scfg nth_error ao_cache ao_p length].
      rewrite Ha.
      unfold alloc_f, put_ax, get_f, rd, with_ax, with_farr, with_yarr.
      cbn [fst snd h_farr h_yarr h_ax h_rel h_gen h_cfg h_scfg ao_p ao_as ao_cache length app upd nth_error].
      rewrite Hl, Nat.eqb_refl. unfold alloc_rel, with_rel. cbn. eauto. }
    destruct Eh as (f & ca & ->). split; [reflexivity|]. unfold stands, rel_view, cls_of, cfg_of. cbn. auto. }
  destruct E as [E1 E2]. split; [exact E1|]. intros [|[|x]]; cbn; auto.
Qed.
Print Assumptions C74_start.

(** three additions through one of two names of the same relation, then [x3 = 2 - x0.diff()] *)
Definition q_env : env loc := fun x => match x with 0%nat | 1%nat => Some 0%nat | 2%nat => Some 1%nat | _ => None end.
Definition q_prog : stmt QA QV :=
  SSeq QA QV (SFor QA QV 3%nat (SAug QA QV 0%nat ADD (EName QA QV 2%nat)))
             (SAssign QA QV 3%nat (ENum QA QV RSUB (EMeth QA QV (MDiff QA) (EName QA QV 0%nat)) (2:Q))).
Definition shown (h : heap QA QV) (l : option loc) : option (list Q) :=
  match l with Some l => option_map (fun r : rel QA QV => map Qred (r_y r : list Q)) (rel_view QA QV h l) | None => None end.
Example C74_case : let '(s, h, z) := h_exec QA QV qF q_prog (q_env, q1) in
  z = None /\ shown h (s 0%nat) = Some [1; 2; 7; 11]%Q /\ shown h (s 1%nat) = Some [1; 2; 4; 8]%Q /\
  shown h (s 3%nat) = Some [1; -3; -2]%Q /\ s 1%nat = Some 0%nat.
Proof. vm_compute. repeat split; reflexivity. Qed.
(** a program stops at its first exception and keeps what it bound before *)
Definition q_stop : stmt QA QV :=
  SSeq QA QV (SAugNum QA QV 0%nat MUL (2:Q))
    (SSeq QA QV (SAssign QA QV 3%nat (EMeth QA QV (MSelect QA (Some (7:Q)) None) (EName QA QV 0%nat)))
                (SAssign QA QV 0%nat (EName QA QV 2%nat))).
Example C74_stop_case : let '(s, h, z) := h_exec QA QV qF q_stop (q_env, q1) in
  z = Some (Raised EIndex) /\ shown h (s 0%nat) = Some [2; 4; 8; 16]%Q /\ s 3%nat = None /\
  snd (h_exec QA QV qF (SAug QA QV 0%nat ADD (EName QA QV 9%nat)) (q_env, q1)) = Some (Unbound 9%nat).
Proof. vm_compute. repeat split; reflexivity. Qed.

(** natural claim without [share_blind]: equal contents give equal results.  It fails for a common-axis method
    that refines the sample: [r + r] and [r + copy_of_r] differ, because [equalize] skips the method when both
    operands hold the same axis object (relation.py 371-372) *)
Definition qc_half : hconfig QA QV :=
  mkHconfig QA QV
    (mkConfig QA QV (c_axis_from_array QA QV (default_config QA QV)) (c_math QA QV (default_config QA QV))
       (c_interp QA QV (default_config QA QV)) (c_int_one QA QV (default_config QA QV))
       (c_integrate QA QV (default_config QA QV)) (c_diff QA QV (default_config QA QV))
       (fun a b => mkAxis (A:=QA) (a_start a) (a_end a) (a_sample a / 2)%Q))
    (fun c _ _ => Ok (r_x c, r_y c)) (fun c _ _ => Ok (r_x c, r_y c)) None None.
Definition q_half : heap QA QV :=
  qrun [ONewAxis QA QV (qax 0 2 1); ONew QA QV KRel (XaAxis 0%nat) (Some [1;3;7]%Q); ONew QA QV KRel (XaRel 0%nat) None]
    (empty_heap QA QV qc_half qsc).
Theorem C74_custom_axis_refuted :
  reachable QA QV qF q_half /\ rel_view QA QV q_half 0%nat = rel_view QA QV q_half 1%nat /\
  let sum a b := let '(s, h, _) := h_exec QA QV qF (SAssign QA QV 2%nat (EBin QA QV ADD (EName QA QV a) (EName QA QV b)))
                   ((fun x => Some x), q_half) in shown h (s 2%nat) in
  sum 0%nat 0%nat = Some [2; 6; 14]%Q /\ sum 0%nat 1%nat = Some [2; 4; 6; 10; 14]%Q.
Proof.
  split; [exists qc_half, qsc; eexists; reflexivity|]. repeat split; vm_compute; reflexivity.
Qed.
Print Assumptions C74_custom_axis_refuted.
