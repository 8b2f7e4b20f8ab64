(** Properties C36, C39, C41: programs whose loops are executed keep their value
    when they are outlined (ein/midend/lining.py:113-144), and the interpreter
    (ein/backend/naive.py:14-93) returns it. *)
From Verif Require Import Base Scalar Tensor Types Sym Phi Den NdOps Term PhiTerm NdFacts DenFree DenWf Typing TypesFacts Naive SpecPhi Lining Outline
  Dominators InlineMemo GenCheck Checkers OutlinePass OutlineTotal OutlineBinders Yarr YTerm YWf Machine MachineSim MachineRun Inplace
  Soa SoaTyp SoaFacts SoaMain SoaWf Axial YOps AxialFacts AxialOps Codegen IndexOps CodegenSafe CodegenGet CodegenCtx CodegenCases CodegenCorrect CodegenSub Compile FastPad Cancel Pipeline Sample
  PropArray PropMachine PropCodegen PropOutline PropPipeline Moments Once OnceNaive.

Section Props.
Context {FO : FloatOps} {EX : Externs} {PO : PadOps}.

(** * C39 *)

(** If each fold and reduction that the program reaches has an iteration, the
    outlined program has the program's value. *)
Theorem C39_defined (p q : phi) (nxt : nat) (E : env) v : distinct_binders p -> above nxt p ->
  outline nxt p = Ok q -> all_run E p -> den E p = Ok v -> den E q = Ok v.
Proof.
  intros D A H R Hv. apply (once_den false).
  exact (outline_complete (sem := den_once false) (den_once_all false) nxt p q E v (conj D A) H (all_run_once p E v R Hv)).
Qed.

(** Array code: [yeval_once] is [yeval] but for loops without iterations, on
    which it fails. *)
Theorem C39_array_defined (p q : yarr) (nxt : nat) (R : yenv) v : distinct_binders p -> above nxt p ->
  outline nxt p = Ok q -> yeval_once R p = Ok v -> yeval R p = Ok v /\ yeval R q = Ok v.
Proof.
  intros D A H Hv. split; apply once_yeval; auto.
  exact (outline_complete (sem := yeval_once) yeval_once_all nxt p q R v (conj D A) H Hv).
Qed.

(** * C36 *)

(** The interpreter returns the value of a program whose folds, reductions and
    comprehensions have iterations and that indexes and measures arrays without
    structures only ([den_once true]); the environment is as before. *)
Theorem C36_interpreter_returns (X : list sym) (e : phi) (E : env) v : fresh_binders X e -> env_dom X E ->
  den_once true E e = Ok v ->
  den E e = Ok v /\ exists E', nin false e E = Ok (v, E') /\ forall s, E' s = E s.
Proof.
  intros F D H. split; [apply (once_den true); auto|].
  destruct (nin_complete e X E v F D H) as (E' & R & S). exists E'. split; [apply nin_strict|]; auto.
Qed.

(** * C41 *)

(** So does the whole of it, conversion and outlining included. *)
Theorem C41_interpreter_returns fuel nxt p q r G X (E : env) v :
  convertible G X p -> env_typed G E -> (forall s, E s <> None -> exists x, s = SV x /\ In x X) ->
  struct_of_arrays fuel p = Ok q -> distinct_binders q -> above nxt q -> (forall x, In x X -> x < nxt) ->
  outline nxt q = Ok r -> den_once true E q = Ok v ->
  (exists E', interpret false fuel nxt p E = Ok (v, E') /\ forall s, E' s = E s) /\
  (forall w, den E p = Ok w -> w = v).
Proof.
  intros CV ET ED Q DQ AQ XN R HV.
  assert (FR : fresh_binders (map SV X) r).
  { pose proof (C12_well_formed _ _ _ _ _ CV Q) as [(_ & _ & _ & _ & FQ & _) _].
    apply apart_fresh. destruct (C39_result q r nxt DQ AQ R) as (_ & DR & _).
    apply (outline_apart nxt _ q r DQ AQ R (fresh_nodes q _ FQ)); auto.
    intros x Hx. apply in_map_iff in Hx as (y & Hy & Hx). injection Hy as <-. auto. }
  assert (DX : env_dom (map SV X) E). { intros s Hs. destruct (ED s Hs) as (x & -> & Hx). apply in_map. auto. }
  assert (HR : den_once true E r = Ok v).
  { exact (outline_complete (sem := den_once true) (den_once_all true) nxt q r E v (conj DQ AQ) R HV). }
  destruct (nin_complete r (map SV X) E v FR DX HR) as (E' & NR & S). split.
  - exists E'. split; auto. unfold interpret. rewrite Q. cbn [bind]. rewrite R. cbn [bind]. apply nin_strict. exact NR.
  - intros w Hw. destruct CV as (((t & T) & SC & II & EO & FB & _) & SH & HG & _).
    destruct (soa_ok fuel p q G E t w) as [DQ' _]; auto. { eapply fresh_less; [|exact FB]. intros ? []. }
    apply once_den in HV. congruence.
Qed.
End Props.

(** * Examples *)
Section Samples.
#[local] Existing Instance zfloat.
#[local] Existing Instance no_externs.

(** The sum over i < 3 of (a * a + a * a), as in [C39_example]. *)
Example C39_defined_example :
  let iv x := PStore (SV x) (TScalar KInt) in
  let sq := PBin BMul (iv 0) (iv 0) in
  let p := PFold 1 (p_int 3) 2 (p_int 0) (PBin BAdd (iv 2) (PBin BAdd sq sq)) in
  let E := upd empty_env (SV 0) (vint 5) in
  exists q, outline 3 p = Ok q /\ q <> p /\ distinct_binders p /\ above 3 p /\
    all_run E p /\ den E p = Ok (vint 150) /\ den E q = Ok (vint 150).
Proof.
  cbv zeta. eexists. split; [vm_compute; reflexivity|]. split; [congruence|].
  split; [apply distinctb_sound; reflexivity|]. split; [apply aboveb_sound; reflexivity|].
  split; [|split; reflexivity]. cbn [all_run]. split; [exact I|]. split; [exact I|].
  intros v z Hv Hz. injection Hv as <-. injection Hz as <-. split; [lia|]. intros k w _ _. cbn. tauto.
Qed.

Example C39_array_defined_example :
  let fv x := YVar x [(1, KFloat)] in
  let sq := YBin BMul (fv 0) (fv 0) None in
  let p := YFold 1 (YConst (ascalar (SI 3%Z))) 2 (fv 0) (YBin BAdd (fv 2) (YBin BAdd sq sq None) None) in
  let R := upd (fun _ => None) (SV 0) (YA (farr [2] [5; 7]%Z)) : yenv in
  exists q, outline 3 p = Ok q /\ q <> p /\ distinct_binders p /\ above 3 p /\
    @yeval_once zfloat no_externs edge_pads R p = Ok (YA (farr [2] [155; 301]%Z)).
Proof.
  cbv zeta. eexists. split; [vm_compute; reflexivity|]. split; [congruence|].
  split; [apply gdistinctb_sound; vm_compute; reflexivity|]. split; [apply gaboveb_sound; vm_compute; reflexivity|].
  vm_compute. reflexivity.
Qed.

(** A loop without iterations, whose body would compare the sizes of the
    arguments: fold(0, lambda i, acc: acc + assert_eq(m, m, n), count=k) for
    k = 0, m = 3, n = 4 is 0, but the comparison does not depend on the loop.  It
    is moved out, and the outlined program raises AssertionError. *)
Definition idle_prog : phi :=
  let iv x := PStore (SV x) (TScalar KInt) in
  PFold 3 (iv 0) 4 (p_int 0) (PBin BAdd (iv 4) (PAssertEq (iv 1) [iv 1; iv 2])).
Definition idle_env (k : Z) : env := upd (upd (upd empty_env (SV 0) (vint k)) (SV 1) (vint 3)) (SV 2) (vint 4).

Theorem C39_idle_loop_refuted :
  distinct_binders idle_prog /\ above 5 idle_prog /\
  den (idle_env 0) idle_prog = Ok (vint 0) /\
  exists q, outline 5 idle_prog = Ok q /\ den (idle_env 0) q = Err EAssert.
Proof.
  split; [apply distinctb_sound; vm_compute; reflexivity|]. split; [apply aboveb_sound; vm_compute; reflexivity|].
  split; [vm_compute; reflexivity|]. eexists. split; vm_compute; reflexivity.
Qed.

(** The interpreter raises as well. *)
Theorem C41_idle_loop_refuted :
  den (idle_env 0) idle_prog = Ok (vint 0) /\
  (exists E', nin false idle_prog (idle_env 0) = Ok (vint 0, E')) /\
  interpret false 20 5 idle_prog (idle_env 0) = Err EAssert.
Proof. split; [vm_compute; reflexivity|]. split; [eexists; vm_compute; reflexivity|vm_compute; reflexivity]. Qed.

Example C36_interpreter_returns_example :
  fresh_binders [SV 0] pipe_conv /\ env_dom [SV 0] E0 /\ den_once true E0 pipe_conv = Ok pipe_val.
Proof.
  split; [simpl; intuition congruence|]. split; [|vm_compute; reflexivity].
  intros s H. destruct (E0_args s H) as (x & -> & [<-|[]]). simpl. auto.
Qed.

Example C41_interpreter_returns_example :
  convertible G0 [0] pipe_prog /\ env_typed G0 E0 /\ (forall s, E0 s <> None -> exists x, s = SV x /\ In x [0]) /\
  struct_of_arrays 20 pipe_prog = Ok pipe_conv /\ distinct_binders pipe_conv /\ above 1 pipe_conv /\
  (exists r, outline 1 pipe_conv = Ok r) /\ den_once true E0 pipe_conv = Ok pipe_val.
Proof.
  split; [exact pipe_convertible|]. split; [exact E0_typed|]. split; [exact E0_args|]. split; [vm_compute; reflexivity|].
  split; [apply distinctb_sound; vm_compute; reflexivity|]. split; [apply aboveb_sound; vm_compute; reflexivity|].
  split; [eexists; vm_compute; reflexivity|]. vm_compute. reflexivity.
Qed.
End Samples.

Print Assumptions C39_defined.
Print Assumptions C39_array_defined.
Print Assumptions C39_idle_loop_refuted.
Print Assumptions C36_interpreter_returns.
Print Assumptions C41_interpreter_returns.
Print Assumptions C41_idle_loop_refuted.
