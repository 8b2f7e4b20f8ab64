(** Properties C19 and C41 with a condition on the arguments that is computed:
    [chk] runs the reference semantics and looks at every access and size on the way. *)
From Verif Require Import Base Scalar Tensor Types Sym Phi Den NdOps Term PhiTerm NdFacts DenFree DenWf Typing TypesFacts Naive SpecPhi Lining Outline
  Dominators InlineMemo GenCheck Checkers OutlinePass OutlineTotal OutlineBinders Yarr YTerm YFit YWf Machine MachineSim MachineRun Inplace
  Soa SoaTyp SoaFacts SoaMain SoaWf Axial YOps AxialFacts AxialOps Codegen IndexOps CodegenSafe CodegenGet CodegenCtx CodegenCases CodegenCorrect
  CodegenSub Compile FastPad Cancel Pipeline CodegenMemo StrictCode CodegenLocal MemoSound Tidy CodeBinders CodeStage Sample Once Check
  PropArray PropMachine PropCodegen PropOutline PropPipeline PropMemo PropCompiled PropOnce PropReduce PropEinsum.

Section Props.
Context {FO : FloatOps} {EX : Externs}.

Lemma checked_safe fl orc padk pade fu E e : chk fl padk pade fu (known orc) true (fun _ => 1) E e = true ->
  safe_all fl orc padk pade (fun _ => 1) E e.
Proof. apply chk_safe. lia. Qed.

Theorem C19_checked fl orc fu fuel e y (G : tctx) (E : env) (r : yenv) X v :
  let PO : PadOps := nd_edge_pad in
  (use_reductions fl = true -> float_laws) -> (use_einsum fl = true -> float_laws) -> strict fl = true ->
  lower fl orc fuel e = Ok y -> well_formed G X e -> passed X E r -> env_typed G E ->
  chk fl (fun _ => true) true fu (known orc) true (fun _ => 1) E e = true ->
  den E e = Ok v -> yeval r y = Ok (pack (vleaves v)).
Proof. intros PO RED EIN STR L WF PS ET C. exact (C19_compiled fl orc fuel e y G E r X v RED EIN STR L WF PS ET (checked_safe _ _ _ _ _ _ _ C)). Qed.

(** On NumPy: sliced arrays are float arrays with elements. *)
Theorem C19_checked_numpy garbage fl orc fu fuel e y (G : tctx) (E : env) (r : yenv) X v :
  let PO : PadOps := fast_edge_pad garbage in
  (use_reductions fl = true -> float_laws) -> (use_einsum fl = true -> float_laws) -> strict fl = true ->
  lower fl orc fuel e = Ok y -> well_formed G X e -> passed X E r -> env_typed G E ->
  chk fl (kind_eqb KFloat) false fu (known orc) true (fun _ => 1) E e = true ->
  den E e = Ok v -> yeval r y = Ok (pack (vleaves v)).
Proof.
  intros PO RED EIN STR L WF PS ET C.
  exact (C19_compiled_numpy garbage fl orc fuel e y G E r X v RED EIN STR L WF PS ET (checked_safe _ _ _ _ _ _ _ C)).
Qed.

Theorem C41_numpy_checked garbage cl copies shares fl orc fu fuel1 fuel2 nxt p q y0 y z G X (E : env) h H h' H' v w :
  let PO : PadOps := fast_edge_pad garbage in
  convertible G X p -> env_typed G E ->
  strict fl = true -> (use_reductions fl = true -> float_laws) -> (use_einsum fl = true -> float_laws) ->
  struct_of_arrays fuel1 p = Ok q -> chk fl (kind_eqb KFloat) false fu (known orc) true (fun _ => 1) E q = true ->
  compilable (code_flags fl) orc q -> above nxt q -> (forall x, In x X -> x < nxt) -> weight q <= fuel2 ->
  lower fl orc fuel2 q = Ok y0 ->
  mtransform (code_flags fl) orc fuel1 fuel2 p = Ok y -> stage_in_array nxt y = Ok z ->
  (forall a, sub_of (YConst a) z -> nth_error h (cl a) = Some a) ->
  (forall f l a, ext_call f l = Ok a -> arr_wf a) -> shares_ok shares ->
  passed X E (absE h H) -> (forall s, H s <> None -> exists x, s = SV x /\ In x X) ->
  (forall s u, H s = Some u -> hval_ok h u) ->
  (forall o a b i, sub_of (YBin o a b (Some i)) z -> keeps_kind o = true) ->
  den E p = Ok v -> mexec cl copies shares z (h, H) = Ok (w, (h', H')) ->
  abs h' w = pack (vleaves v) /\
  (forall l a, nth_error h l = Some a -> nth_error h' l = Some a) /\ (forall s, H' s = H s).
Proof.
  intros PO CV ET STR RED EIN Q C. apply checked_safe in C.
  exact (C41_numpy_compiled garbage cl copies shares fl orc fuel1 fuel2 nxt p q y0 y z G X E h H h' H' v w CV ET STR RED EIN Q C).
Qed.
End Props.

(** * Examples *)
Section Samples.
#[local] Existing Instance zfloat.
#[local] Existing Instance no_externs.

(** The programs of C19_example and C41_numpy_compiled_example are accepted; with
    all lowerings on, a comprehension of shifted accesses is accepted, on arrays with elements.
    The programs the backends compile wrongly (C05_bounds_refuted,
    C05_numpy_kind_refuted) are rejected. *)
Definition all_flags : flags := mkFlags true true true true true true.
Definition stencil : phi :=
  PVec 0 (PDim arg0 0) (PBin BAdd (PGet arg0 (PBin BSub (idx_ 0) (ci 1))) (PGet arg0 (PBin BAdd (idx_ 0) (ci 1)))).
Example C19_checked_example :
  chk (loops_only true) (kind_eqb KFloat) false 20 (known no_sizes) true (fun _ => 1) E0 prog = true /\
  chk takes_only (kind_eqb KFloat) false 20 (known no_sizes) true (fun _ => 1) E0 pipe_conv = true /\
  chk all_flags (kind_eqb KFloat) false 20 (known no_sizes) true (fun _ => 1) E0 stencil = true /\
  chk all_flags (kind_eqb KFloat) false 20 (known no_sizes) true (fun _ => 1) (upd empty_env (SV 0) (VArr (farr [0] []))) stencil = false /\
  map (chk (loops_only true) (fun _ => true) true 20 (known no_sizes) true (fun _ => 1) E0) [low_prog; high_prog; int_prog] = [false; false; true] /\
  chk (loops_only true) (kind_eqb KFloat) false 20 (known no_sizes) true (fun _ => 1) E0 int_prog = false.
Proof. repeat split; vm_compute; reflexivity. Qed.
Example C19_checked_stencil :
  exists y, lower all_flags no_sizes 20 stencil = Ok y /\
    well_formed G0 [0] stencil /\ passed [0] E0 R0 /\ env_typed G0 E0 /\
    den E0 stencil = Ok (VArr (farr [3] [30; 40; 50]%Z)) /\
    @yeval zfloat no_externs (fast_edge_pad (fun _ => 99%Z)) R0 y = Ok (YA (farr [3] [30; 40; 50]%Z)).
Proof.
  destruct C19_example as (_ & PS & ET & _).
  exists (match lower all_flags no_sizes 20 stencil with Ok y => y | Err _ => YTuple [] end).
  split; [vm_compute; reflexivity|]. split.
  { split; [eexists; reflexivity|]. split.
    { simpl. repeat match goal with
        | |- _ /\ _ => split | |- exists _, _ => eexists | |- arr_wf _ => apply ascalar_wf | |- _ = _ => reflexivity end. }
    split; [simpl; repeat split; auto|]. split; [simpl; repeat split; auto|].
    split; [simpl; intuition congruence|].
    intros s. unfold G0, upd, empty_env. destruct (sym_eqb s (SV 0)) eqn:Q; [|congruence].
    apply sym_eqb_eq in Q. subst. exists 0. simpl. auto. }
  split; [exact PS|]. split; [exact ET|]. split; vm_compute; reflexivity.
Qed.

(** With all options on: array(lambda i: fold(0.0, lambda k, acc: acc + a[k] * a[i])),
    whose loop is compiled to an einsum, and a sum with initial value 5,
    compiled to a reduction. *)
Definition outer : phi := PVec 0 (PDim arg0 0) (total 1 2 (PBin BMul (at_ctr 1) (PGet arg0 (idx_ 0)))).
Definition outer_code : yarr := match lower all_flags same_sizes 30 outer with Ok y => y | Err _ => YTuple [] end.
Example C19_checked_sums :
  chk all_flags (kind_eqb KFloat) false 20 (known same_sizes) true (fun _ => 1) E0 outer = true /\
  lower all_flags same_sizes 30 outer = Ok outer_code /\
  (exists s l, outer_code = YTranspose [0] (YUnsqueeze [] (YTranspose [0] (YEinsum s l)))) /\
  well_formed G0 [0] outer /\ passed [0] E0 R0 /\ env_typed G0 E0 /\ float_laws /\
  den E0 outer = Ok (VArr (farr [3] [600; 1200; 1800]%Z)) /\
  @yeval zfloat no_externs (fast_edge_pad (fun _ => 99%Z)) R0 outer_code = Ok (YA (farr [3] [600; 1200; 1800]%Z)) /\
  chk (with_reductions true) (kind_eqb KFloat) false 20 (known same_sizes) true (fun _ => 1) E0 sum_prog = true /\
  map (chk all_flags (kind_eqb KFloat) false 20 (known same_sizes) true (fun _ => 1) E0)
    [dot_prog; square_prog; acc_prog; empty_prog] = [true; true; false; true] /\
  chk all_flags (kind_eqb KFloat) false 20 (known same_sizes) true (fun _ => 1) E_ empty_prog = false.
Proof.
  destruct C19_example as (_ & PS & ET & _).
  split; [vm_compute; reflexivity|]. split; [vm_compute; reflexivity|]. split.
  { do 2 eexists. vm_compute. reflexivity. }
  split.
  { split; [eexists; reflexivity|]. split.
    { simpl. repeat match goal with
        | |- _ /\ _ => split | |- exists _, _ => eexists | |- arr_wf _ => apply ascalar_wf | |- _ = _ => reflexivity end. }
    split; [simpl; repeat split; auto|]. split; [simpl; repeat split; auto|].
    split; [simpl; intuition congruence|].
    intros s. unfold G0, upd, empty_env. destruct (sym_eqb s (SV 0)) eqn:Q; [|congruence].
    apply sym_eqb_eq in Q. subst. exists 0. simpl. auto. }
  split; [exact PS|]. split; [exact ET|]. split; [exact C22_laws_example|].
  split; [vm_compute; reflexivity|]. split; [vm_compute; reflexivity|]. split; [vm_compute; reflexivity|].
  split; vm_compute; reflexivity.
Qed.
End Samples.

Print Assumptions C19_checked.
Print Assumptions C19_checked_numpy.
Print Assumptions C41_numpy_checked.
