(** Property C16: sizes concluded to be equal are equal. *)
From Verif Require Import Base Scalar Tensor Types Sym Phi Den Term PhiTerm DenFree SpecPhi Lining TypesFacts Typing DenWf Naive
  Equiv Sizes ClipShift NdOps NdFacts Yarr Axial AxialFacts AxialOps Codegen IndexOps YOps CodegenSafe CodegenGet CodegenCtx
  CodegenCases CodegenAxes CodegenCorrect CodegenSub LiftSem CodegenGo FastPad Compile StrictCode Sample PropAxes PropCodegen
  SizeClasses Moments MomentFacts SizeSound SizeSafe.

Section Props.
Context {FO : FloatOps} {EX : Externs}.

(** A program whose names are bound in one place each, with no index of an
    enclosing program. *)
Definition unique_names (p : phi) : Prop :=
  NoDup (bsyms p) /\ (forall s, isfree s p -> ~ In s (bsyms p)) /\ forall i, ~ isfree (SX i) p.

(** ** Evaluations have moments
    A moment of an evaluation gives a value to every symbol of a program: that of
    the bound term for a let, 0 for the index of a comprehension, and the counter
    and accumulator of some iteration for a loop. *)
Theorem C16_moments p E v : unique_names p -> den E p = Ok v -> loops_run E p ->
  exists M, moment M p /\ loops_run M p /\ den M p = Ok v /\ forall s, ~ In s (bsyms p) -> M s = E s.
Proof.
  intros (U1 & U2 & U3) D R. destruct (all_have_moments p E) as (M & HM & A); auto; [split; auto|exists v; auto|].
  exists M. split; auto. split; [apply (runs_agree E); auto; intros s Hs; symmetry; auto|]. split; auto.
  rewrite <- D. apply den_ext. auto.
Qed.
(** Every iteration of a loop is seen at some moment. *)
Theorem C16_moments_iterations p M c size acc init body v z k w : unique_names p -> moment M p -> loops_run M p ->
  sub_of (PFold c size acc init body) p -> den M size = Ok v -> val_int v = Ok z -> k < Z.to_nat z ->
  acc_val M c acc init body k = Ok w ->
  exists M', moment M' p /\ loops_run M' p /\ M' (SV c) = Some (vnat k) /\ M' (SV acc) = Some w /\
    forall s, ~ In s (SV c :: SV acc :: bsyms body) -> M' s = M s.
Proof. intros (U1 & U2 & U3). apply fold_moments. split; auto. Qed.

(** ** Equal classes, equal sizes *)

(** Two integer terms of the program *)
Theorem C16_equal_terms p s a b M va za vb zb : unique_names p -> find_size_classes p = Ok s ->
  sub_of a p -> sub_of b p -> same s [KExpr a; KExpr b] = true ->
  moment M p -> loops_run M p ->
  den M a = Ok va -> val_int va = Ok za -> den M b = Ok vb -> val_int vb = Ok zb -> za = zb.
Proof.
  intros (U1 & U2 & U3) C Sa Sb Q HM R Da Ia Db Ib. assert (HY : hyg p) by (split; auto).
  pose proof (size_classes_sound p HY U3 s (KExpr a) (KExpr b) C Q (good_sub p HY a Sa) (good_sub p HY b Sb) M HM R) as K.
  cbn [kval] in K. rewrite Da, Db in K. simpl in K. unfold vread in K. rewrite Ia, Ib in K. congruence.
Qed.
(** Sizes of two arrays *)
Theorem C16_equal_dims p s a i b j M va na vb nb : unique_names p -> find_size_classes p = Ok s ->
  sub_of a p -> sub_of b p -> same s [KExpr (PDim a i); KExpr (PDim b j)] = true ->
  moment M p -> loops_run M p ->
  den M a = Ok va -> vdim va i = Ok na -> den M b = Ok vb -> vdim vb j = Ok nb -> na = nb.
Proof.
  intros (U1 & U2 & U3) C Sa Sb Q HM R Da Ia Db Ib. assert (HY : hyg p) by (split; auto).
  pose proof (size_classes_sound p HY U3 s (KExpr (PDim a i)) (KExpr (PDim b j)) C Q
    (good_dim p a i (good_sub p HY a Sa)) (good_dim p b j (good_sub p HY b Sb)) M HM R) as K.
  cbn [kval] in K. rewrite (kread_dim_ok _ _ _ _ Da), (kread_dim_ok _ _ _ _ Db) in K. unfold vd in K. rewrite Ia, Ib in K.
  injection K as K. lia.
Qed.
(** The size of a comprehension and of an array, the test of transform_get
    (array_indexing.py:82-90) *)
Theorem C16_equal_index p s i size body t axis M vs zs vt n : unique_names p -> find_size_classes p = Ok s ->
  sub_of (PVec i size body) p -> sub_of t p -> same s [KIdx i; KExpr (dim_of t axis)] = true ->
  moment M p -> loops_run M p ->
  den M size = Ok vs -> val_int vs = Ok zs -> den M t = Ok vt -> vdim vt axis = Ok n -> zs = Z.of_nat n.
Proof.
  intros (U1 & U2 & U3) C Sv St Q HM R Ds Is Dt Hn. assert (HY : hyg p) by (split; auto).
  assert (G : good p (dim_of t axis)).
  { destruct (dim_of_sub t axis) as (u & Hu & [->|[ax ->]]); [|apply good_dim]; apply good_sub; auto; eapply sub_of_trans; eauto. }
  pose proof (size_classes_sound p HY U3 s (KIdx i) (KExpr (dim_of t axis)) C Q I G M HM R) as K. cbn [kval] in K.
  rewrite (size_at_vec p i size body HY Sv), Ds in K. simpl in K. unfold vread in K. rewrite Is in K.
  destruct (dim_of_den t M axis vt n Dt Hn) as (w & z & D1 & D2 & D3). rewrite D1 in K. simpl in K. unfold vread in K.
  rewrite D2 in K. injection K as <-. destruct (HM _ Sv) as (_ & _ & v' & z' & D4 & D5 & P). rewrite Ds in D4. injection D4 as <-.
  rewrite Is in D5. injection D5 as <-. lia.
Qed.

(** ** Dropped slices do not change results
    Code compiled with the size classes of the program computes its value;
    [safe_but_all] asks nothing of the accesses that are compiled to the whole
    array. *)
Lemma names_of p G X : well_formed G X p -> NoDup (bsyms p) -> unique_names p.
Proof.
  intros (_ & SC & _ & _ & FB & DOM) ND.
  assert (F : forall s, isfree s p -> exists x, s = SV x /\ In x X).
  { intros s Hs. apply DOM. apply (scoped_free_in p G s SC). apply free_in_isfree. auto. }
  split; auto. split.
  - intros s Hs. destruct (F s Hs) as (x & -> & Hx). apply (fresh_not_bound p (map SV X)); auto. apply in_map. auto.
  - intros i Hi. destruct (F _ Hi) as (x & K & _). discriminate.
Qed.

Theorem C16_compiled fl s fuel p y (G : tctx) (E : env) (r : yenv) X v :
  let PO : PadOps := nd_edge_pad in
  use_reductions fl = false -> use_einsum fl = false -> strict fl = true ->
  find_size_classes p = Ok s -> lower fl (class_oracle s) fuel p = Ok y ->
  well_formed G X p -> NoDup (bsyms p) -> passed X E r -> env_typed G E -> loops_run E p ->
  safe_but_all fl (fun _ => true) true (class_oracle s) (fun _ => 1) E p ->
  den E p = Ok v -> yeval r y = Ok (pack (vleaves v)).
Proof.
  intros PO RED EIN STR C L WF ND PS ET R SF D. destruct (names_of p G X WF ND) as (U1 & U2 & U3).
  apply (C19_compiled fl (class_oracle s) fuel p y G E r X v); auto; try congruence.
  eapply classes_safe; eauto; [split; auto|exists v; auto].
Qed.
Theorem C16_compiled_numpy garbage fl s fuel p y (G : tctx) (E : env) (r : yenv) X v :
  let PO : PadOps := fast_edge_pad garbage in
  use_reductions fl = false -> use_einsum fl = false -> strict fl = true ->
  find_size_classes p = Ok s -> lower fl (class_oracle s) fuel p = Ok y ->
  well_formed G X p -> NoDup (bsyms p) -> passed X E r -> env_typed G E -> loops_run E p ->
  safe_but_all fl (kind_eqb KFloat) false (class_oracle s) (fun _ => 1) E p ->
  den E p = Ok v -> yeval r y = Ok (pack (vleaves v)).
Proof.
  intros PO RED EIN STR C L WF ND PS ET R SF D. destruct (names_of p G X WF ND) as (U1 & U2 & U3).
  apply (C19_compiled_numpy garbage fl (class_oracle s) fuel p y G E r X v); auto; try congruence.
  eapply classes_safe; eauto; [split; auto|exists v; auto].
Qed.
End Props.

(** * Examples and counterexamples *)
Section Samples.
#[local] Existing Instance zfloat.
#[local] Existing Instance no_externs.

Definition arg1 : phi := PStore (SV 10) fvec_.
Definition classes_of (p : phi) : uf := match find_size_classes p with Ok s => s | Err _ => uf_empty end.
Lemma classes_ok p : match find_size_classes p with Ok _ => true | Err _ => false end = true -> find_size_classes p = Ok (classes_of p).
Proof. unfold classes_of. destruct (find_size_classes p); [auto|discriminate]. Qed.
Definition class_code (p : phi) : yarr :=
  match lower (loops_only true) (class_oracle (classes_of p)) 20 p with Ok y => y | Err _ => YTuple [] end.
Definition G1 : tctx := upd (upd empty_env (SV 0) fvec_) (SV 10) fvec_.
Definition E1 (a b : list Z) : env :=
  upd (upd empty_env (SV 0) (VArr (farr [length a] a))) (SV 10) (VArr (farr [length b] b)).
Definition R1 (a b : list Z) : yenv := upd (upd empty_env (SV 0) (YA (farr [length a] a))) (SV 10) (YA (farr [length b] b)).

(** fold(a, lambda k, acc: array(lambda i: acc[i] + b[i]), count=2) *)
Definition acc_ : phi := PStore (SV 2) fvec_.
Definition add_prog : phi :=
  PFold 1 (ci 2) 2 arg0
    (PVec 0 (PAssertEq (PDim acc_ 0) [PDim acc_ 0; PDim arg1 0])
       (PBin BAdd (PGet acc_ (idx_ 0)) (PGet arg1 (idx_ 0)))).
Example C16_example :
  let a := [10; 20; 30]%Z in let b := [1; 2; 3]%Z in let s := classes_of add_prog in
  find_size_classes add_prog = Ok s /\
  same s [KExpr (PDim acc_ 0); KExpr (PDim arg1 0)] = true /\ same s [KExpr (PDim arg0 0); KExpr (PDim arg1 0)] = true /\
  well_formed G1 [0; 10] add_prog /\ NoDup (bsyms add_prog) /\ passed [0; 10] (E1 a b) (R1 a b) /\ env_typed G1 (E1 a b) /\
  loops_run (E1 a b) add_prog /\
  safe_but_all (loops_only true) (kind_eqb KFloat) false (class_oracle s) (fun _ => 1) (E1 a b) add_prog /\
  den (E1 a b) add_prog = Ok (VArr (farr [3] [12; 24; 36]%Z)) /\
  exists y, lower (loops_only true) (class_oracle s) 20 add_prog = Ok y /\
    @yeval zfloat no_externs (fast_edge_pad (fun _ => 99%Z)) (R1 a b) y = Ok (YA (farr [3] [12; 24; 36]%Z)).
Proof.
  intros a b s.
  assert (CL : find_size_classes add_prog = Ok s) by (apply classes_ok; vm_compute; reflexivity). split; [exact CL|].
  split; [vm_compute; reflexivity|]. split; [vm_compute; reflexivity|].
  assert (DA : forall v z k w, den (E1 a b) (ci 2) = Ok v -> val_int v = Ok z -> k < Z.to_nat z ->
    acc_val (E1 a b) 1 2 arg0 (PVec 0 (PAssertEq (PDim acc_ 0) [PDim acc_ 0; PDim arg1 0])
       (PBin BAdd (PGet acc_ (idx_ 0)) (PGet arg1 (idx_ 0)))) k = Ok w ->
    (k = 0 /\ w = VArr (farr [3] [10; 20; 30]%Z)) \/ (k = 1 /\ w = VArr (farr [3] [11; 22; 33]%Z))).
  { intros v z k w HV HZ Hk HA. injection HV as <-. injection HZ as <-. destruct k as [|[|k]].
    - left. split; auto. vm_compute in HA. injection HA as <-. reflexivity.
    - right. split; auto. vm_compute in HA. injection HA as <-. reflexivity.
    - exfalso. change (Z.to_nat 2) with 2 in Hk. lia. }
  split; [|split; [|split; [|split; [|split; [|split; [|split]]]]]].
  - split; [eexists; reflexivity|]. split.
    { simpl. repeat match goal with
        | |- _ /\ _ => split | |- exists _, _ => eexists | |- arr_wf _ => apply ascalar_wf | |- _ = _ => reflexivity
        | |- True => exact I end. }
    split; [simpl; repeat (split || constructor); auto; reflexivity|]. split; [simpl; repeat split; auto|].
    split; [simpl; intuition congruence|].
    intros q. unfold G1, upd, empty_env. destruct (sym_eqb q (SV 10)) eqn:Q.
    { apply sym_eqb_eq in Q. subst. exists 10. simpl. auto. }
    destruct (sym_eqb q (SV 0)) eqn:Q'; [|congruence]. apply sym_eqb_eq in Q'. subst. exists 0. simpl. auto.
  - simpl. repeat constructor; simpl; intuition discriminate.
  - split; [reflexivity|]. intros x [<-|[<-|[]]]; eexists; (split; [reflexivity|split; [|reflexivity]]); (split; [reflexivity|]; repeat constructor).
  - intros q t v. unfold G1, E1, upd, empty_env. destruct (sym_eqb q (SV 10)).
    { intros H1 H2. injection H1 as <-. injection H2 as <-. split; [|reflexivity]. split; [reflexivity|]. repeat constructor. }
    destruct (sym_eqb q (SV 0)); [|discriminate].
    intros H1 H2. injection H1 as <-. injection H2 as <-. split; [|reflexivity]. split; [reflexivity|]. repeat constructor.
  - unfold add_prog. cbn [loops_run]. split; [exact I|]. split; [exact I|]. intros v z HV HZ.
    split; [injection HV as <-; injection HZ as <-; lia|]. split.
    + intros k w Hk HA. split; [simpl; auto|]. split; [|simpl; auto].
      intros v' z' HV' HZ'. destruct (DA v z k w HV HZ Hk HA) as [[-> ->]|[-> ->]]; vm_compute in HV'; injection HV' as <-;
        vm_compute in HZ'; injection HZ' as <-; lia.
    + intros axis v0 vn H0 Hn _. injection HV as <-. injection HZ as <-. vm_compute in H0, Hn. injection H0 as <-. injection Hn as <-.
      destruct axis; reflexivity.
  - unfold add_prog. intros [|f]; [exact I|]. cbn [safe_but]. split; [destruct f; exact I|]. split; [destruct f; exact I|].
    intros v z k w HV HZ Hk HA. pose proof (DA v z k w HV HZ Hk HA) as W. clear HV HZ Hk HA.
    destruct f as [|f]; [exact I|]. cbn [safe_but]. split; [destruct f as [|[|f]]; simpl; auto; destruct f; simpl; auto|].
    intros v' z' HV HZ. assert (z' = 3%Z).
    { destruct W as [[-> ->]|[-> ->]]; vm_compute in HV; injection HV as <-; vm_compute in HZ; injection HZ as <-; reflexivity. }
    subst z'. split; [lia|]. intros j Hj. destruct f as [|f]; [exact I|]. cbn [safe_but].
    assert (MI : match_index_clipped_shift (idx_ 0) = Some (0, (None, None, None))) by reflexivity.
    split; (destruct f as [|f]; [exact I|]); cbn [safe_but]; (split; [destruct f; exact I|]); (split; [destruct f; exact I|]);
      intros u n Hu Hn; cbn [loops_only use_slice_pads]; rewrite MI; cbn [is_none andb].
    + change (smem (SX 0) (free_indices acc_)) with false. cbv iota.
      replace (eq_index _ _ _) with true by (vm_compute; reflexivity). exact I.
    + change (smem (SX 0) (free_indices arg1)) with false. cbv iota.
      replace (eq_index _ _ _) with true by (vm_compute; reflexivity). exact I.
  - vm_compute. reflexivity.
  - exists (class_code add_prog). split; vm_compute; reflexivity.
Qed.

(** An assertion in a loop that is not executed is still used outside:
    fold(0, lambda k, acc: assert_eq(0, len(a), len(b)), count=0) next to
    array(lambda i: b[i], size=len(a)), which is then compiled to [b]. *)
Definition zero_trip_prog : phi :=
  PCons (PFold 1 (ci 0) 2 (ci 0) (PAssertEq (ci 0) [PDim arg0 0; PDim arg1 0]))
        (PVec 0 (PDim arg0 0) (PGet arg1 (idx_ 0))).
Theorem C16_zero_trip_refuted :
  exists s y, find_size_classes zero_trip_prog = Ok s /\ NoDup (bsyms zero_trip_prog) /\
    same s [KExpr (PDim arg0 0); KExpr (PDim arg1 0)] = true /\
    lower (loops_only true) (class_oracle s) 20 zero_trip_prog = Ok y /\
    den (E1 [10; 20] [1; 2; 3])%Z zero_trip_prog = Ok (VPair (VArr (iarr [] [0%Z])) (VArr (farr [2] [1; 2]%Z))) /\
    @yeval zfloat no_externs edge_pads (R1 [10; 20] [1; 2; 3])%Z y = Ok (YT [iarr [] [0%Z]; (farr [3] [1; 2; 3]%Z)]).
Proof.
  exists (classes_of zero_trip_prog), (class_code zero_trip_prog).
  split; [apply classes_ok; vm_compute; reflexivity|]. split; [simpl; repeat constructor; simpl; intuition discriminate|].
  repeat split; vm_compute; reflexivity.
Qed.

(** Once the accumulator is known to have the size of the initial value, so is the
    result of the body, although nothing was learnt about it:
    array(lambda i: fold(a, lambda k, acc: array(lambda j: 7.0, size=assert_eq(3, len(acc), len(a))), count=1)[i], size=len(a)) *)
Definition last_prog : phi :=
  PLet 5 (PFold 1 (ci 1) 2 arg0 (PVec 3 (PAssertEq (ci 3) [PDim acc_ 0; PDim arg0 0]) (cf 7)))
    (PVec 0 (PDim arg0 0) (PGet (PStore (SV 5) fvec_) (idx_ 0))).
Theorem C16_last_iteration_refuted :
  exists s y, find_size_classes last_prog = Ok s /\ NoDup (bsyms last_prog) /\
    same s [KExpr (PDim arg0 0); KExpr (ci 3)] = true /\
    lower (loops_only true) (class_oracle s) 20 last_prog = Ok y /\
    den (E1 [10; 20] [])%Z last_prog = Ok (VArr (farr [2] [7; 7]%Z)) /\
    @yeval zfloat no_externs edge_pads (R1 [10; 20] [])%Z y = Ok (YA (farr [3] [7; 7; 7]%Z)).
Proof.
  exists (classes_of last_prog), (class_code last_prog).
  split; [apply classes_ok; vm_compute; reflexivity|]. split; [simpl; repeat constructor; simpl; intuition discriminate|].
  repeat split; vm_compute; reflexivity.
Qed.

(** Terms are compared with their indices at 0 only: [let x = i + 1] is the class of 1. *)
Definition other_index_prog : phi :=
  PVec 0 (ci 2) (PLet 5 (PBin BAdd (idx_ 0) (ci 1)) (PBin BMul (PStore (SV 5) (TScalar KInt)) (PBin BAdd (ci 0) (ci 1)))).
Theorem C16_other_index_refuted :
  exists s, find_size_classes other_index_prog = Ok s /\
    same s [KExpr (PStore (SV 5) (TScalar KInt)); KExpr (PBin BAdd (ci 0) (ci 1))] = true /\
    den empty_env other_index_prog = Ok (VArr (iarr [2] [1; 2]%Z)) /\
    let E := upd empty_env (SX 0) (vint 1) in
    den E (PBin BAdd (idx_ 0) (ci 1)) = Ok (vint 2) /\ den E (PBin BAdd (ci 0) (ci 1)) = Ok (vint 1).
Proof.
  exists (classes_of other_index_prog). split; [apply classes_ok|]; repeat split; vm_compute; reflexivity.
Qed.
End Samples.

Print Assumptions C16_moments.
Print Assumptions C16_moments_iterations.
Print Assumptions C16_equal_terms.
Print Assumptions C16_equal_dims.
Print Assumptions C16_equal_index.
Print Assumptions C16_compiled.
Print Assumptions C16_compiled_numpy.
Print Assumptions C16_zero_trip_refuted.
Print Assumptions C16_last_iteration_refuted.
Print Assumptions C16_other_index_refuted.
