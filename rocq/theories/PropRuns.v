(** Property C41: when the function the NumPy backend returns succeeds
    (numpy_backend.py:126-190, array_backend.py:157-255). *)
From Verif Require Import Base Scalar Tensor Types Sym Phi Den NdOps Term PhiTerm NdFacts DenFree DenWf Typing TypesFacts Naive SpecPhi Lining Outline
  Dominators InlineMemo GenCheck Checkers OutlinePass OutlineTotal OutlineBinders Yarr YTerm YFit YWf Machine MachineSim MachineRun Inplace
  Soa SoaTyp SoaFacts SoaMain SoaWf Axial YOps AxialFacts AxialOps Codegen IndexOps CodegenSafe CodegenGet CodegenCtx CodegenCases CodegenCorrect
  CodegenSub Compile FastPad Cancel Pipeline CodegenMemo StrictCode CodegenLocal MemoSound Tidy CodeBinders CodeStage Sample Once
  PropArray PropMachine PropCodegen PropOutline PropPipeline PropMemo PropCompiled PropOnce.

Section Props.
Context {FO : FloatOps} {EX : Externs}.

Lemma compiled_fresh fl orc fuel q y0 X : compilable fl orc q -> weight q <= fuel -> lower fl orc fuel q = Ok y0 ->
  fresh_binders (map SV X) q -> yfresh (map SV X) (cancel_tuple_ops (cancel_shape_ops y0)).
Proof.
  intros (DB & [NI NN] & NE & PE) W L FQ. pose proof (plain_or _ _ _ PE) as AC.
  set (y := cancel_tuple_ops (cancel_shape_ops y0)).
  assert (DY : distinct_binders y).
  { apply exposes_distinct; [exact tuple_exposes|]. apply exposes_distinct; [exact shape_exposes|].
    exact (code_distinct fl orc q DB NI NN NE AC fuel y0 W L). }
  apply apart_yfresh. apply distinct_apart; auto.
  - intros n Hn. change (NoDup (ycapt n)). subst y. apply (exposes_capt _ tuple_exposes) in Hn as (d1 & Hn & ->).
    apply (exposes_capt _ shape_exposes) in Hn as (d2 & Hn & ->).
    apply (code_apart fl orc q DB NI NN NE AC fuel y0 W L (map SV X) d2 (fresh_nodes q _ FQ) Hn).
  - intros n s Hn Hs. change (In s (ycapt n)) in Hs. subst y. apply (exposes_capt _ tuple_exposes) in Hn as (d1 & Hn & Q1).
    apply (exposes_capt _ shape_exposes) in Hn as (d2 & Hn & Q2). rewrite Q1, Q2 in Hs.
    apply (code_apart fl orc q DB NI NN NE AC fuel y0 W L (map SV X) d2 (fresh_nodes q _ FQ) Hn); auto.
Qed.

(** The function returns the value of the program if the loops of the code have
    iterations ([yeval_once]: outlining may move code out of them) and every
    operation in place fits into its buffer ([yeval_fit]).  The first is about
    the code before outlining, the second about the code that runs. *)
Theorem C41_numpy_returns garbage cl copies shares fl orc fuel1 fuel2 nxt p q y0 y z G X (E : env) h H v b :
  let PO : PadOps := fast_edge_pad garbage in
  convertible G X p -> env_typed G E ->
  strict fl = true -> (use_reductions fl = true -> float_laws) -> (use_einsum fl = true -> float_laws) ->
  struct_of_arrays fuel1 p = Ok q -> safe_all fl orc (kind_eqb KFloat) false (fun _ => 1) E q ->
  compilable (code_flags fl) orc q -> above nxt q -> (forall x, In x X -> x < nxt) -> weight q <= fuel2 ->
  lower fl orc fuel2 q = Ok y0 ->
  mtransform (code_flags fl) orc fuel1 fuel2 p = Ok y -> stage_in_array nxt y = Ok z ->
  (forall a, sub_of (YConst a) z -> nth_error h (cl a) = Some a) ->
  (forall f l a, ext_call f l = Ok a -> arr_wf a) -> shares_ok shares ->
  passed X E (absE h H) -> (forall s, H s <> None -> exists x, s = SV x /\ In x X) ->
  (forall s u, H s = Some u -> hval_ok h u) ->
  (forall o a b i, sub_of (YBin o a b (Some i)) z -> keeps_kind o = true) ->
  (* loops run, and what is computed in place fits *)
  yeval_once (absE h H) y = Ok b ->
  (yeval (absE h H) z = Ok b -> yeval_fit (absE h H) z = Ok b) ->
  den E p = Ok v ->
  exists w h' H', mexec cl copies shares z (h, H) = Ok (w, (h', H')) /\ abs h' w = pack (vleaves v) /\
  (forall l a, nth_error h l = Some a -> nth_error h' l = Some a) /\ (forall s, H' s = H s).
Proof.
  intros PO CV ET STR RED EIN Q SF CP AQ XN W L TR ST KH EW SO PS HD HO KK YO FIT D.
  pose proof (C12_well_formed _ _ _ _ _ CV Q) as [(_ & SQ & _ & _ & FQ & _) _].
  assert (L' := C19_strict_is_code _ _ _ _ _ L).
  assert (CQ : compile (code_flags fl) orc fuel2 q = Ok y) by (unfold mtransform in TR; rewrite Q in TR; exact TR).
  pose proof (C43_bound_once _ _ _ _ _ CP W CQ) as DY.
  assert (YQ : y = cancel_tuple_ops (cancel_shape_ops y0)).
  { destruct (compile_lower _ _ _ _ _ CP W CQ) as (y1 & L1 & ->). congruence. }
  assert (FY : yfresh (map SV X) y) by (subst y; eapply compiled_fresh; eauto).
  assert (AY : above nxt y).
  { pose proof CP as (DB & [NI NN] & NE & PE). subst y. apply exposes_above; [exact tuple_exposes|]. apply exposes_above; [exact shape_exposes|].
    exact (code_above (code_flags fl) orc q DB NI NN NE (plain_or _ _ _ PE) fuel2 y0 W L' nxt AQ). }
  pose proof ST as ST0. unfold stage_in_array in ST0. apply bind_ok in ST0 as (z0 & O & ST0). injection ST0 as <-.
  assert (FZ : yfresh (map SV X) z0).
  { apply apart_yfresh. destruct (C39_array_result y z0 nxt DY AY O) as (_ & DZ & _).
    apply (outline_apart nxt _ y z0 DY AY O (yfresh_nodes y _ FY)); auto.
    intros x Hx. apply in_map_iff in Hx as (x0 & Hy & Hx). injection Hy as <-. auto. }
  assert (RD : ready cl shares (map SV X) z0 h H).
  { split; auto. split; auto. split; [|split; auto].
    - intros s Hs. destruct (HD s Hs) as (x & -> & Hx). apply in_map. auto.
    - intros a Ha. apply KH. exact (inplace_up z0 (YConst a) Ha). }
  destruct (C39_array_defined y z0 nxt (absE h H) b DY AY O YO) as [_ YZ].
  apply apply_inplace_yeval in YZ.
  destruct (C21_inplace_exact cl copies shares (map SV X) z0 h H b RD KK) as [EXA _].
  destruct (proj1 EXA (FIT YZ)) as (w & h' & H' & M & _).
  exists w, h', H'. split; [exact M|].
  eapply (C41_numpy_compiled garbage cl copies shares fl orc fuel1 fuel2 nxt p q y0 y); eauto.
Qed.
End Props.

(** * Example *)
Section Samples.
#[local] Existing Instance zfloat.
#[local] Existing Instance no_externs.

(** The program of C41_numpy_compiled_example: a sum in it is computed in place. *)
Example C41_numpy_returns_example :
  let PO : PadOps := fast_edge_pad (fun _ => 99%Z) in
  (exists o a b i, sub_of (YBin o a b (Some i)) pipe_staged) /\
  yeval_once (absE pipe_heap pipe_henv) pipe_code = Ok (YT [ascalar (SF (420%Z : F)); ascalar (SF (21%Z : F))]) /\
  yeval_fit (absE pipe_heap pipe_henv) pipe_staged = Ok (YT [ascalar (SF (420%Z : F)); ascalar (SF (21%Z : F))]).
Proof.
  intros PO. split; [|split; vm_compute; reflexivity].
  assert (B : find (fun n => match n with YBin _ _ _ (Some _) => true | _ => false end) (gnodes pipe_staged) <> None) by (vm_compute; discriminate).
  destruct (find _ _) as [n|] eqn:Fn; [|congruence]. apply find_some in Fn as [I N].
  destruct n as [| | | | | | | | | | | | | | | | |o a b [i|]| | | | | | |]; try discriminate.
  exists o, a, b, i. apply gnodes_spec. exact I.
Qed.
End Samples.

Print Assumptions C41_numpy_returns.
