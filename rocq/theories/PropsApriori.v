(** Property theorems about generators from a-priori data as objects: C81; constructors by value: C61.
    [data_is], [signal_seen], [calm]: AprioriSpec.v; [gen_is], [time_is]: CallSpec.v; [spectrum_seen]: SignalSpec.v;
    [new_object]: HeapSpec.v. *)
From Coq Require Import Reals ZArith QArith List Bool Lia Lra.
From Coquelicot Require Import Complex.
From Verif Require Import Num Numpy Spec AxisModel RelModel VInst HeapModel HeapSpec HeapLemmas4 HeapLemmas5 HeapLemmas HeapLemmas2 HeapLemmas3 HeapLemmas8 RelLemmas FourierModel SignalSpec
  SweepModel SweepLemmas SweepSpec SweepLemmas2 SweepLemmas3 CallSpec CallLemmas AprioriModel AprioriSpec AprioriLemmas PropsFourier PropsSweep PropsCall.
Import ListNotations.

(** ** C61 constructors *)
(** [Relation(x, y)], [Signal(x, y)], [Spectrum(x, y)] for x a relation, an axis or a number sequence *)
Theorem C61_constructors_by_value : forall A (V : Vals A) F (h : heap A V) k y, reachable A V F h -> k <> KSweep ->
  let out v := do c <- v; Ok [(Some k, Some c)] in
  (forall r c, rel_view A V h r = Some c -> outcome A V F (ONew A V k (XaRel r) y) h = out (Ok c)) /\
  (forall a p, ax_view A V h a = Some p -> outcome A V F (ONew A V k (XaAxis a) y) h = out (rel_init A V (hc_base (h_cfg h)) (XAxis p) y)) /\
  (forall s, outcome A V F (ONew A V k (XaSeq s) y) h = out (rel_init A V (hc_base (h_cfg h)) (XSeq s) y)).
Proof.
  intros A V F h k y R Hk out. split; [|split].
  - intros r c Hv. pose proof (new_plain_val A V F h k (XaRel r) (XRel c) y R Hk Hv) as H. cbn [rel_init] in H.
    destruct c. exact H.
  - intros a p Hp. exact (new_plain_val A V F h k (XaAxis a) (XAxis p) y R Hk Hp).
  - intros s. exact (new_plain_val A V F h k (XaSeq s) (XSeq s) y R Hk eq_refl).
Qed.
Print Assumptions C61_constructors_by_value.

(** ** C81 generators from a-priori data as objects *)
(** [ApriorUncalculatedSweep(time, a_prior_data, ftat_method)] makes a generator with exactly the time and laws, and keeps a
    signal with exactly the samples, that [ap_new] computes from the current contents; or raises exactly its exception.
    It does nothing but calls that assign nothing. *)
Theorem C81_constructor : forall A (V : Vals A) W F (h : heap A V) int t ut d v m, reachable A V F h ->
  time_is A V h t ut -> data_is A V h d v ->
  match ap_new A V (h_cfg h) int ut v m with
  | Ok (u, s) => exists g sg ops, calm A V ops /\ h_ap_new A V W int t d m h = (Ok (g, sg), run A V F ops h) /\
      gen_is A V W (run A V F ops h) g u /\ rel_view A V (run A V F ops h) sg = Some s /\
      (exists k, cls_of A V (run A V F ops h) sg = Some k /\ is_sig k = true)
  | Err e => exists ops, calm A V ops /\ h_ap_new A V W int t d m h = (Err e, run A V F ops h)
  end.
Proof. intros A V W F h int t ut d v m R Ht Hd. exact (ap_new_obj A V F W h t ut d v int m R Ht Hd). Qed.
Print Assumptions C81_constructor.
(** whatever it returns or raises, every relation and axis keeps its content, and the configuration stays *)
Theorem C81_changes_nothing : forall A (V : Vals A) W F (h : heap A V) int t ut d v m, reachable A V F h ->
  time_is A V h t ut -> data_is A V h d v ->
  let h' := snd (h_ap_new A V W int t d m h) in
  reachable A V F h' /\
  (forall r c, rel_view A V h r = Some c -> rel_view A V h' r = Some c) /\
  (forall a p, ax_view A V h a = Some p -> ax_view A V h' a = Some p) /\
  (forall r a, axis_of A V h r = Some a -> axis_of A V h' r = Some a) /\
  (forall r k, cls_of A V h r = Some k -> cls_of A V h' r = Some k) /\
  h_cfg h' = h_cfg h /\ h_scfg h' = h_scfg h.
Proof.
  intros A V W F h int t ut d v m R Ht Hd h'.
  assert (H : exists ops, calm A V ops /\ h' = run A V F ops h).
  { pose proof (ap_new_obj A V F W h t ut d v int m R Ht Hd) as H. destruct (ap_new A V (h_cfg h) int ut v m) as [[u s]|e].
    - destruct H as (g & sg & ops & C & E & _). exists ops. split; [exact C|]. unfold h'. rewrite E. reflexivity.
    - destruct H as (ops & C & E). exists ops. split; [exact C|]. unfold h'. rewrite E. reflexivity. }
  destruct H as (ops & C & E). rewrite E. exact (calm_run A V F ops h C R).
Qed.
Print Assumptions C81_changes_nothing.
(** the spectrum given to the method: that of the signal; the spectrum given; the relation's own samples, read as a spectrum;
    and the signal the generator keeps *)
Theorem C81_sources : forall A (V : Vals A) F (h h' : heap A V) t ut d v rs rp, reachable A V F h ->
  time_is A V h t ut -> data_is A V h d v -> h_ap_pair A V t d h = (Ok (rs, rp), h') ->
  match d with
  | HdRel r => forall k c, cls_of A V h r = Some k -> rel_view A V h r = Some c ->
      if is_sig k then rel_view A V h' rs = Some c /\ spectrum_seen A V h r = Ok (match rel_view A V h' rp with Some p => p | None => c end)
      else rel_view A V h' rp = Some c /\
           (if is_spec k then signal_seen A V h r else val_signal A V (h_cfg h) c (DNone A) None) = Ok (match rel_view A V h' rs with Some s => s | None => c end)
  | HdSeq y => forall a p, t = TaAxis A a -> ax_view A V h a = Some p ->
      rel_view A V h' rs = Some (mkRel p y) /\
      val_spectrum A V (h_cfg h) (mkRel p y) (DNone A) false = Ok (match rel_view A V h' rp with Some q => q | None => mkRel p y end)
  | HdNone => False
  end /\ cls_of A V h' rp = Some KSpec.
Proof.
  intros A V F h h' t ut d v rs rp R Ht Hd He. pose proof (ap_pair_obj A V F h t ut d v R Ht Hd) as H. rewrite He in H.
  destruct (ap_pair A V (h_cfg h) ut v) as [[s p]|e] eqn:Ep; [|destruct H as (ops & _ & H); discriminate].
  destruct H as (rs' & rp' & ops & _ & Eq & Hs & _ & Hp & Hk). injection Eq as <- <- ->.
  split; [|exact Hk]. destruct d as [r|y|].
  - intros k c Kr Vr. destruct Hd as (k' & c' & Hk' & Hc' & ->). assert (k' = k) by congruence. assert (c' = c) by congruence. subst k' c'.
    rewrite Hs, Hp. destruct (is_spec k) eqn:Es; [|destruct (is_sig k)]; cbn [ap_pair] in Ep.
    + replace (is_sig k) with false by (destruct k; discriminate || reflexivity).
      destruct (signal_seen A V h r); [|discriminate]. cbn [bind] in Ep. injection Ep as <- <-. auto.
    + destruct (spectrum_seen A V h r); [|discriminate]. cbn [bind] in Ep. injection Ep as <- <-. auto.
    + destruct (val_signal A V (h_cfg h) c (DNone A) None); [|discriminate]. cbn [bind] in Ep. injection Ep as <- <-. auto.
  - intros a q -> Hq. cbn [data_is] in Hd. subst v. rewrite Hs, Hp. destruct ut as [|q'|]; try contradiction. cbn [time_is] in Ht.
    assert (q' = q) by congruence. subst q'. cbn [ap_pair bind rel_init] in Ep. rewrite rel_make_cases in Ep.
    destruct (axis_size A q) as [n|]; cbn [bind] in Ep; [|discriminate]. destruct (Nat.eqb n (length y)); cbn [bind] in Ep; [|discriminate].
    destruct (val_spectrum A V (h_cfg h) (mkRel q y) (DNone A) false); cbn [bind] in Ep; [|discriminate]. injection Ep as <- <-. auto.
  - cbn [data_is] in Hd. subst v. destruct ut as [|q|q]; cbn [ap_pair bind rel_init] in Ep; discriminate.
Qed.
Print Assumptions C81_sources.
(** a signal given as data is kept as the very same object; a spectrum's remembered signal too; in the other cases the a-priori
    signal is a new object, on the axis object given as time when there is one *)
Theorem C81_which_object : forall A (V : Vals A) W F (h h' : heap A V) int t d m g sg, reachable A V F h ->
  h_ap_new A V W int t d m h = (Ok (g, sg), h') ->
  match d with
  | HdRel r => forall k c, cls_of A V h r = Some k -> rel_view A V h r = Some c ->
      match k with
      | KSig | KSweep => sg = r
      | KSpec => match remembered A V h r with Some l => sg = l | None => new_object A V h h' sg end
      | KRel => new_object A V h h' sg
      end
  | HdSeq _ =>
      match t with
      | TaAxis a => cls_of A V h sg = None /\ axis_of A V h' sg = Some a
      | TaSeq _ => new_object A V h h' sg
      | TaNone => False
      end
  | HdNone => True
  end.
Proof.
  intros A V W F h h' int t d m g sg R He. destruct d as [r|y|]; [|exact (ap_from_samples A V F W int t y m h g sg h' R He)|exact I].
  intros k c Hk Hv. destruct k.
  - exact (ap_from_relation A V F W int t r m h g sg h' c R Hk Hv He).
  - exact (ap_from_signal A V F W int t r m h g sg h' KSig Hk eq_refl He).
  - exact (ap_from_spectrum A V F W int t r m h g sg h' R Hk He).
  - exact (ap_from_signal A V F W int t r m h g sg h' KSweep Hk eq_refl He).
Qed.
Print Assumptions C81_which_object.
(** hence the sweeps of a generator made from a signal are normalised to the norm that signal has at the time of the call,
    whatever was written to it after the generator was made *)
Theorem C81_target_follows : forall F (h h1 : heap RA RV) int t ut r c0 m g sg ops, reachable RA RV F h -> time_is RA RV h t ut ->
  cls_of RA RV h r = Some KSig -> rel_view RA RV h r = Some c0 -> h_ap_new RA RV RW int t (HdRel r) m h = (Ok (g, sg), h1) ->
  let h2 := run RA RV F ops h1 in
  forall u t2 ut2 tht0 c cf r', gen_is RA RV RW h2 g u -> time_is RA RV h2 t2 ut2 -> hc_base (h_cfg h2) = default_config RA RV ->
  rel_view RA RV h2 r = Some c -> cls_of RA RV h2 r = Some KSig -> cfg_of RA RV h2 r = Some cf ->
  let o := OApCall RA RV (norm_ratio RA RV RW) g sg t2 tht0 true in
  fst (exec RA RV F o h2) = Ok [r'] ->
  exists c', rel_view RA RV (step RA RV F h2 o) r' = Some c' /\ rel_norm RA RV (default_config RA RV) c' = rel_norm RA RV (hc_base cf) c.
Proof.
  intros F h h1 int t ut r c0 m g sg ops R Ht Hk Hv He h2 u t2 ut2 tht0 c cf r' Hg Ht2 Hd Hv2 Hk2 Hcf o Ho.
  assert (sg = r) by exact (ap_from_signal RA RV F RW int t r m h g sg h1 KSig Hk eq_refl He). subst sg.
  assert (R1 : reachable RA RV F h1).
  { assert (Hdi : data_is RA RV h (HdRel r) (AdSig RA RV c0 (spectrum_seen RA RV h r))) by (exists KSig, c0; auto).
    destruct (C81_changes_nothing RA RV RW F h int t ut _ _ m R Ht Hdi) as (G & _). rewrite He in G. exact G. }
  assert (R2 : reachable RA RV F h2).
  { destruct R1 as (cf0 & sc0 & ops0 & ->). exists cf0, sc0, (ops0 ++ ops). unfold h2, run. rewrite fold_left_app. reflexivity. }
  exact (C76_same_norm F h2 g u t2 ut2 tht0 r c KSig cf r' R2 Hg Ht2 Hd Hv2 Hk2 ltac:(discriminate) Hcf Ho).
Qed.
Print Assumptions C81_target_follows.
(** by value: with a relation as data the time argument does not matter for the laws and the signal; a number sequence on an
    axis is the signal of that axis and those samples *)
Theorem C81_time_irrelevant : forall A (V : Vals A) cfg t t' d, (forall y, d <> AdSeq A V y) -> d <> AdNone A V ->
  ap_pair A V cfg t d = ap_pair A V cfg t' d.
Proof. intros A V cfg t t' d H1 H2. destruct d; try reflexivity; [destruct (H1 y)|destruct H2]; reflexivity. Qed.
Print Assumptions C81_time_irrelevant.
(** a relation given in place of the time takes precedence over the data: a spectrum counts as a spectrum, any other relation as a signal,
    whereas a plain relation given as data counts as a spectrum *)
Theorem C81_relation_as_time : forall A (V : Vals A) cfg d t m c sg,
  get_info_from_a_prior_data A V cfg (inr (ArSpec A V c sg)) d m = get_info_from_a_prior_data A V cfg (inl t) (AdSpec A V c sg) m /\
  get_info_from_a_prior_data A V cfg (inr (ArRel A V c)) d m = get_info_from_a_prior_data A V cfg (inl t) (AdSig A V c (val_spectrum A V cfg c (DNone A) false)) m /\
  get_info_from_a_prior_data A V cfg (inl t) (AdRel A V c) m = get_info_from_a_prior_data A V cfg (inl t) (AdSpec A V c (val_signal A V cfg c (DNone A) None)) m.
Proof. intros. split; [reflexivity|]. split; [|reflexivity]. unfold get_info_from_a_prior_data. cbn [ap_pair_time ap_pair]. destruct (val_spectrum A V cfg c (DNone A) false); reflexivity. Qed.
Print Assumptions C81_relation_as_time.
Theorem C81_sequence_is_signal : forall A (V : Vals A) cfg p y t, axis_size A p = Ok (length y) ->
  ap_pair A V cfg (UtAxis p) (AdSeq A V y) = ap_pair A V cfg t (AdSig A V (mkRel p y) (val_spectrum A V cfg (mkRel p y) (DNone A) false)).
Proof. intros A V cfg p y t H. cbn [ap_pair bind rel_init]. rewrite rel_make_cases, H, Nat.eqb_refl. reflexivity. Qed.
Print Assumptions C81_sequence_is_signal.
(** with the default conversions, a signal with an even number of samples from time 0 and its spectrum are the same data;
    a spectrum with an odd number of underlying samples stands for another signal *)
Theorem C81_signal_or_spectrum : forall (x : axis RA) (u : list R) t, (2 <= length u)%nat -> a_start x = 0%R ->
  exact_span (a_start x) (a_end x) (a_sample x) (length u - 1) -> Nat.even (length u) = true ->
  let c : rel RA CV := mkRel (A:=RA) (V:=CV) x (map RtoC u) in
  exists S, val_spectrum RA CV fourier_config c (DNone RA) false = Ok S /\
    ap_pair RA CV fourier_config t (AdSpec RA CV S (val_signal RA CV fourier_config S (DNone RA) None)) =
    ap_pair RA CV fourier_config t (AdSig RA CV c (val_spectrum RA CV fourier_config c (DNone RA) false)).
Proof.
  intros x u t Hu Hs Hx He c. destruct (C30_no_axis x u false Hu Hs Hx He) as (S & E1 & E2). exists S.
  split; [exact E1|]. cbn [ap_pair]. change (val_spectrum RA CV fourier_config c (DNone RA) false = Ok S) in E1.
  rewrite E1. change (val_signal RA CV fourier_config S (DNone RA) None = Ok c) in E2. rewrite E2. reflexivity.
Qed.
Print Assumptions C81_signal_or_spectrum.
Theorem C81_odd_signal_or_spectrum_refuted : forall (x : axis RA) (u : list R) t, (2 <= length u)%nat -> a_start x = 0%R ->
  exact_span (a_start x) (a_end x) (a_sample x) (length u - 1) -> Nat.even (length u) = false ->
  let c : rel RA CV := mkRel (A:=RA) (V:=CV) x (map RtoC u) in
  exists S s, val_spectrum RA CV fourier_config c (DNone RA) false = Ok S /\
    ap_pair RA CV fourier_config t (AdSpec RA CV S (val_signal RA CV fourier_config S (DNone RA) None)) = Ok (s, S) /\
    length (r_y s) = (length u - 1)%nat /\ (a_sample x < a_sample (r_x s))%R.
Proof.
  intros x u t Hu Hs Hx He c. destruct (C30_no_axis_odd_refuted x u false Hu Hs Hx He) as (S & y & E1 & E2 & E3 & E4). 
  eexists S, _. split; [exact E1|]. split; [cbn [ap_pair]; rewrite E2; reflexivity|]. split; [exact E3|exact E4].
Qed.
Print Assumptions C81_odd_signal_or_spectrum_refuted.

(** test, with conversions that keep the samples: an axis, a signal on it, a plain relation with the samples 5, 6, 7, a spectrum;
    the method takes the samples of the spectrum it is given as frequencies *)
Definition ex_conv : hconfig QA QV := mkHconfig QA QV (default_config QA QV) (fun c _ _ => Ok (r_x c, r_y c)) (fun c _ _ => Ok (r_x c, map Qopp (r_y c))) None None.
Definition ex_method : ftat QA QV := fun sp => Ok ([0; 1; 2]%Q, r_y sp, [1; 1; 1]%Q).
Definition ex_ap : list (op QA QV) :=
  [ONewAxis QA QV (mkAxis (A:=QA) 0%Q 2%Q 1%Q); ONew QA QV KSig (XaAxis (A:=QA) 0%nat) (Some [1; 2; 3]%Q);
   ONew QA QV KRel (XaAxis (A:=QA) 0%nat) (Some [5; 6; 7]%Q); ONew QA QV KSpec (XaAxis (A:=QA) 0%nat) (Some [8; 9; 1]%Q)].
Definition ex_aph (F : vfun QA QV) : heap QA QV := run QA QV F ex_ap (empty_heap QA QV ex_conv ex_qsc).
Definition ex_made (F : vfun QA QV) (d : hdata QA QV) : result (loc * list Q * option (list Q) * option (list Q)) :=
  match h_ap_new QA QV ex_ident ex_int (TaAxis QA 0%nat) d ex_method (ex_aph F) with
  | (Ok (g, sg), h') => Ok (sg, match option_map (fun go => g_f QA QV go ex_conv (mkAxis (A:=QA) 0%Q 2%Q 1%Q)) (nth_error (h_gen h') g) with
                                | Some (Ok y) => map Qred y | _ => [] end,
                            option_map r_y (rel_view QA QV h' sg), option_map r_y (rel_view QA QV h' 1%nat))
  | (Err e, _) => Err e end.
Example C81_case : forall F, reachable QA QV F (ex_aph F) /\
  ex_made F (HdRel 0%nat) = Ok (0%nat, [1; 2; 3]%Q, Some [1; 2; 3]%Q, Some [5; 6; 7]%Q) /\
  ex_made F (HdRel 1%nat) = Ok (4%nat, [5; 6; 7]%Q, Some [-5; -6; -7]%Q, Some [5; 6; 7]%Q) /\
  ex_made F (HdRel 2%nat) = Ok (3%nat, [8; 9; 1]%Q, Some [-8; -9; -1]%Q, Some [5; 6; 7]%Q) /\
  ex_made F (HdSeq (A:=QA) (V:=QV) [4; 4; 2]%Q) = Ok (3%nat, [4; 4; 2]%Q, Some [4; 4; 2]%Q, Some [5; 6; 7]%Q) /\
  ex_made F HdNone = Err EBadInput /\ ex_made F (HdSeq (A:=QA) (V:=QV) [4]%Q) = Err (ENotEqual 3 1).
Proof. intros F. split; [exists ex_conv, ex_qsc, ex_ap; reflexivity|]. vm_compute. repeat split. Qed.
Example C81_case_data : forall F, data_is QA QV (ex_aph F) (HdRel 1%nat) (AdRel QA QV (mkRel (A:=QA) (V:=QV) (mkAxis (A:=QA) 0%Q 2%Q 1%Q) [5; 6; 7]%Q)) /\
  time_is QA QV (ex_aph F) (TaAxis QA 0%nat) (UtAxis (mkAxis (A:=QA) 0%Q 2%Q 1%Q)).
Proof. intros F. split; [exists KRel, (mkRel (A:=QA) (V:=QV) (mkAxis (A:=QA) 0%Q 2%Q 1%Q) [5; 6; 7]%Q); split; [reflexivity|auto]|reflexivity]. Qed.
(** a spectrum of 4 samples, from time 0 *)
Example C81_case_even : exists S, val_spectrum RA CV fourier_config (mkRel (A:=RA) (V:=CV) ex4 (map RtoC [1; 2; 4; 8]%R)) (DNone RA) false = Ok S.
Proof. destruct (C81_signal_or_spectrum ex4 [1; 2; 4; 8]%R UtNone ltac:(cbn; lia) eq_refl ex4_exact eq_refl) as (S & H & _). exists S. exact H. Qed.
