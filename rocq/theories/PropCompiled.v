(** Property C43: the symbols and constants of the generated code come from the
    program (phi_to_yarr.py:25-316); and property C41 for the code the NumPy
    backend runs, translated with the table of compiled expressions. *)
From Verif Require Import Base Scalar Tensor Types Sym Phi Den NdOps Term PhiTerm NdFacts DenFree DenWf Typing TypesFacts SpecPhi Lining Outline
  Dominators InlineMemo GenCheck Checkers OutlinePass OutlineTotal OutlineBinders Yarr YTerm YWf Machine MachineSim MachineRun Inplace
  Soa SoaTyp SoaFacts SoaMain SoaWf Axial YOps AxialFacts AxialOps Codegen IndexOps CodegenSafe CodegenGet CodegenCtx CodegenCases CodegenCorrect
  CodegenSub Compile FastPad Cancel Pipeline CodegenMemo StrictCode CodegenLocal MemoSound Tidy CodeBinders CodeStage Sample
  PropArray PropMachine PropCodegen PropOutline PropPipeline PropMemo.

Section Props.
Context {FO : FloatOps} {EX : Externs}.

(** What the theorems on the translation with the table ask of a program: every
    symbol is bound once, and the conditions of C40. *)
Definition compilable (fl : flags) (orc : oracle) (q : phi) : Prop :=
  distinct_binders q /\ new_names fl orc q /\ no_sums_of_products fl orc q /\ plain_elements fl orc q.

(** The code as the backends get it: translated with the table, and cleaned up. *)
Definition compile (fl : flags) (orc : oracle) (fuel : nat) (q : phi) : res yarr :=
  let* y := mlower fl orc fuel q in Ok (cancel_tuple_ops (cancel_shape_ops y)).

Lemma compile_lower fl orc fuel q y : compilable fl orc q -> weight q <= fuel -> compile fl orc fuel q = Ok y ->
  exists y0, lower fl orc fuel q = Ok y0 /\ y = cancel_tuple_ops (cancel_shape_ops y0).
Proof.
  intros (DB & NM & NE & PE) W H. unfold compile in H. rewrite C40_table_transparent in H by auto.
  apply bind_ok in H as (y0 & L & H). injection H as <-. eauto.
Qed.
Lemma plain_or fl orc q : plain_elements fl orc q ->
  forall c size acc init body elem r, visits fl orc q (PFold c size acc init body) -> reduces fl orc c size acc init body = Some (elem, r) ->
  strict fl = true \/ ~ In (SV acc) (fsyms elem).
Proof. intros PE c size acc init body elem r V R. right. eapply PE; eauto. Qed.

(** Every symbol of the code is bound once. *)
Theorem C43_bound_once fl orc fuel q y :
  compilable fl orc q -> weight q <= fuel -> compile fl orc fuel q = Ok y -> distinct_binders y.
Proof.
  intros C W H. destruct (compile_lower _ _ _ _ _ C W H) as (y0 & L & ->). destruct C as (DB & [NI NN] & NE & PE).
  apply exposes_distinct; [exact tuple_exposes|]. apply exposes_distinct; [exact shape_exposes|].
  exact (code_distinct fl orc q DB NI NN NE (plain_or _ _ _ PE) fuel y0 W L).
Qed.

(** A node of the code binds the symbols of one node of the program. *)
Theorem C43_binders fl orc fuel q y d :
  compilable fl orc q -> weight q <= fuel -> compile fl orc fuel q = Ok y ->
  sub_of d y -> ycapt d = [] \/ exists n, sub_of n q /\ captured n = ycapt d.
Proof.
  intros C W H Hd. destruct (compile_lower _ _ _ _ _ C W H) as (y0 & L & ->). destruct C as (DB & [NI NN] & NE & PE).
  apply (exposes_capt _ tuple_exposes) in Hd as (d1 & Hd & ->). apply (exposes_capt _ shape_exposes) in Hd as (d2 & Hd & ->).
  destruct (ycapt d2) as [|s l] eqn:Q; [left; auto|right]. rewrite <- Q.
  apply (code_binder fl orc q DB NI NN NE (plain_or _ _ _ PE) fuel y0 W L d2 s Hd). rewrite Q. simpl. auto.
Qed.

(** The code uses the arguments of the program, and nothing else. *)
Theorem C43_arguments fl orc fuel q y s :
  compilable fl orc q -> weight q <= fuel -> compile fl orc fuel q = Ok y -> isfree s y -> free_in s q.
Proof.
  intros C W H F. destruct (compile_lower _ _ _ _ _ C W H) as (y0 & L & ->). destruct C as (DB & [NI NN] & NE & PE).
  apply (exposes_free _ tuple_exposes) in F. apply (exposes_free _ shape_exposes) in F.
  exact (code_free fl orc q DB NI NN NE (plain_or _ _ _ PE) fuel y0 W L s F).
Qed.

(** An array in the code is from the program, or an integer. *)
Theorem C43_constants fl orc fuel q y a :
  compilable fl orc q -> weight q <= fuel -> compile fl orc fuel q = Ok y -> sub_of (YConst a) y ->
  sub_of (PConst a) q \/ exists z, a = ascalar (SI z).
Proof.
  intros C W H F. destruct (compile_lower _ _ _ _ _ C W H) as (y0 & L & ->). destruct C as (DB & [NI NN] & NE & PE).
  apply (exposes_const _ tuple_exposes) in F. apply (exposes_const _ shape_exposes) in F.
  exact (code_sources fl orc q DB NI NN NE (plain_or _ _ _ PE) fuel y0 W L a F).
Qed.

(** Of a program without let-bindings the code has none, and the NumPy backend's
    outlining pass of the code (numpy_backend.py:175-176) does not raise. *)
Theorem C43_staged fl orc fuel nxt q y :
  compilable fl orc q -> weight q <= fuel -> compile fl orc fuel q = Ok y -> above nxt q ->
  (forall x b body, ~ sub_of (PLet x b body) q) ->
  (forall x b body, ~ sub_of (YLet x b body) y) /\ exists z, stage_in_array nxt y = Ok z.
Proof.
  intros C W H A NL. pose proof (C43_bound_once _ _ _ _ _ C W H) as D.
  assert (NY : forall x b body, ~ sub_of (YLet x b body) y).
  { intros x b body Hy. destruct (C43_binders _ _ _ _ _ _ C W H Hy) as [Q|(n & Hn & Q)]; [discriminate|].
    destruct n as [|[c|]| | | | | | | | | | | | | | |]; try discriminate. eapply NL; eauto. }
  split; auto. destruct (C39_array_succeeds_used y nxt D) as (z & Z).
  - destruct (compile_lower _ _ _ _ _ C W H) as (y0 & L & ->). destruct C as (DB & [NI NN] & NE & PE).
    apply exposes_above; [exact tuple_exposes|]. apply exposes_above; [exact shape_exposes|].
    exact (code_above fl orc q DB NI NN NE (plain_or _ _ _ PE) fuel y0 W L nxt A).
  - intros x b body Hy. destruct (NY _ _ _ Hy).
  - exists (apply_inplace z). unfold stage_in_array. rewrite Z. reflexivity.
Qed.

Lemma scoped_consts : forall (e : phi) G b, scoped G e -> sub_of (PConst b) e -> arr_wf b.
Proof.
  induction e using phi_ind'; intros G b0 S H0; inversion H0; subst; simpl in *; rewrite ?fold_and in *;
    repeat match goal with H : In _ [_] |- _ => destruct H as [<-|[]] | H : _ \/ _ |- _ => destruct H; subst | H : False |- _ => destruct H
      | H : _ /\ _ |- _ => destruct H | H : exists _, _ |- _ => destruct H
      | H : In _ (_ ++ _) |- _ => apply in_app_iff in H end; eauto.
  all: rewrite Forall_forall in *; eauto.
Qed.

(** The code the NumPy backend runs, all conditions being on the program: with
    the table, and without the checks of axes. *)
Theorem C41_numpy_compiled garbage cl copies shares fl orc fuel1 fuel2 nxt p q y0 y z G X (E : env) h H h' H' v w :
  let PO : PadOps := fast_edge_pad garbage in
  convertible G X p -> env_typed G E ->
  strict fl = true -> (use_reductions fl = true -> float_laws) -> (use_einsum fl = true -> float_laws) ->
  (* the converted program *)
  struct_of_arrays fuel1 p = Ok q -> safe_all fl orc (kind_eqb KFloat) false (fun _ => 1) E q ->
  compilable (code_flags fl) orc q -> above nxt q -> (forall x, In x X -> x < nxt) -> weight q <= fuel2 ->
  (* its axes are right *)
  lower fl orc fuel2 q = Ok y0 ->
  (* compiled: phi_to_yarr.transform, and numpy_backend.stage_in_array *)
  mtransform (code_flags fl) orc fuel1 fuel2 p = Ok y -> stage_in_array nxt y = Ok z ->
  (* arrays: the constants, what external functions and the library return *)
  (forall a, sub_of (YConst a) z -> nth_error h (cl a) = Some a) ->
  (forall f l a, ext_call f l = Ok a -> arr_wf a) -> shares_ok shares ->
  (* the arguments *)
  passed X E (absE h H) -> (forall s, H s <> None -> exists x, s = SV x /\ In x X) ->
  (forall s u, H s = Some u -> hval_ok h u) ->
  (* no comparison is computed in place *)
  (forall o a b i, sub_of (YBin o a b (Some i)) z -> keeps_kind o = true) ->
  den E p = Ok v -> mexec cl copies shares z (h, H) = Ok (w, (h', H')) ->
  abs h' w = pack (vleaves v) /\
  (forall l a, nth_error h l = Some a -> nth_error h' l = Some a) /\ (forall s, H' s = H s).
Proof.
  intros PO CV ET STR RED EIN Q SF CP AQ XN W L TR ST KH EW SO PS HD HO KK D M.
  pose proof (C12_well_formed _ _ _ _ _ CV Q) as [(_ & SQ & _ & _ & FQ & _) _].
  assert (L' := C19_strict_is_code _ _ _ _ _ L).
  assert (CQ : compile (code_flags fl) orc fuel2 q = Ok y) by (unfold mtransform in TR; rewrite Q in TR; exact TR).
  pose proof (C43_bound_once _ _ _ _ _ CP W CQ) as DY.
  assert (YQ : y = cancel_tuple_ops (cancel_shape_ops y0)).
  { destruct (compile_lower _ _ _ _ _ CP W CQ) as (y1 & L1 & ->). congruence. }
  destruct CP as (DB & [NI NN] & NE & PE). pose proof (plain_or _ _ _ PE) as AC.
  eapply (C41_numpy garbage cl copies shares fl orc fuel1 fuel2 nxt p q y z G X E h H h' H' v w); eauto.
  - unfold transform. rewrite Q. cbn [bind]. rewrite L. subst y. reflexivity.
  - apply apart_yfresh. apply distinct_apart; auto.
    + intros n Hn. change (NoDup (ycapt n)). subst y. apply (exposes_capt _ tuple_exposes) in Hn as (d1 & Hn & ->).
      apply (exposes_capt _ shape_exposes) in Hn as (d2 & Hn & ->).
      apply (code_apart (code_flags fl) orc q DB NI NN NE AC fuel2 y0 W L' (map SV X) d2 (fresh_nodes q _ FQ) Hn).
    + intros n s Hn Hs. change (In s (ycapt n)) in Hs. subst y. apply (exposes_capt _ tuple_exposes) in Hn as (d1 & Hn & Q1).
      apply (exposes_capt _ shape_exposes) in Hn as (d2 & Hn & Q2). rewrite Q1, Q2 in Hs.
      apply (code_apart (code_flags fl) orc q DB NI NN NE AC fuel2 y0 W L' (map SV X) d2 (fresh_nodes q _ FQ) Hn); auto.
  - subst y. apply exposes_above; [exact tuple_exposes|]. apply exposes_above; [exact shape_exposes|].
    exact (code_above (code_flags fl) orc q DB NI NN NE AC fuel2 y0 W L' nxt AQ).
  - intros y1 a L1 Ha. rewrite L in L1. injection L1 as <-.
    apply (code_consts (code_flags fl) orc q DB NI NN NE AC fuel2 y0 W L' a); auto. intros b. apply (scoped_consts q _ b SQ).
Qed.
End Props.

(** * Examples *)
Section Samples.
#[local] Existing Instance zfloat.
#[local] Existing Instance no_externs.

(** The program of C40_example, with all options on: a reduction of an axis, over
    a loop; and a loop used twice.  The two loops and the two arguments are left. *)
Definition tidy_done : yarr := cancel_tuple_ops (cancel_shape_ops tidy_code).
Definition let_free (q : phi) : bool := forallb (fun n => match n with PLet _ _ _ => false | _ => true end) (gnodes q).
Lemma let_free_ok q : let_free q = true -> forall x b body, ~ sub_of (PLet x b body) q.
Proof. unfold let_free. rewrite forallb_forall. intros H x b body K. apply gnodes_spec in K. apply H in K. discriminate. Qed.
Example C43_example :
  compilable (all_on false) new_sizes tidy_prog /\ weight tidy_prog <= 100 /\
  compile (all_on false) new_sizes 100 tidy_prog = Ok tidy_done /\ above 12 tidy_prog /\
  (forall x b body, ~ sub_of (PLet x b body) tidy_prog) /\
  concat (map ycapt (gnodes tidy_done)) = [SV 5; SV 6; SV 3; SV 4] /\
  map (fun x => gfreeb 300 (SV x) tidy_done) [1; 2; 3; 4; 5; 6; 10; 11] = [false; false; false; false; false; false; true; true] /\
  flat_map (fun n => match n with YConst a => adata a | _ => [] end) (gnodes tidy_done) =
    [SI 2%Z; SI 1%Z; SI 0%Z; SI 3%Z; SF (0%Z : F)].
Proof.
  destruct C40_example as (DB & NM & NE & PE & W & _ & _ & L).
  split; [exact (conj DB (conj NM (conj NE PE)))|]. split; [exact W|]. split; [unfold compile, tidy_done; rewrite L; exact eq_refl|].
  split; [apply aboveb_sound; vm_compute; reflexivity|]. split; [apply let_free_ok; vm_compute; reflexivity|].
  split; [vm_compute; reflexivity|]. split; vm_compute; reflexivity.
Qed.

(** The program of C41_numpy_example. *)
Lemma pipe_no_folds e : visits (code_flags takes_only) no_sizes pipe_conv e -> needs_name e = false.
Proof.
  intros V. set (l := reach (code_flags takes_only) no_sizes 20 pipe_conv).
  assert (H : In e l).
  { revert e V. apply reach_closed; [left; reflexivity|]. intros x Hx k Hk.
    assert (B : forallb (fun e => forallb (fun k => existsb (phi_eqb (snd k)) l) (kids (code_flags takes_only) no_sizes e)) l = true) by (vm_compute; reflexivity).
    rewrite forallb_forall in B. specialize (B x Hx). rewrite forallb_forall in B. specialize (B k Hk).
    apply existsb_exists in B as (y & Hy & Q). apply phi_eqb_eq in Q. congruence. }
  assert (B : forallb (fun e => negb (needs_name e)) l = true) by (vm_compute; reflexivity).
  rewrite forallb_forall in B. apply B in H. apply negb_true_iff in H. exact H.
Qed.
Example C41_numpy_compiled_example :
  convertible G0 [0] pipe_prog /\ env_typed G0 E0 /\ struct_of_arrays 20 pipe_prog = Ok pipe_conv /\
  safe_all takes_only no_sizes (kind_eqb KFloat) false (fun _ => 1) E0 pipe_conv /\
  compilable (code_flags takes_only) no_sizes pipe_conv /\ above 1 pipe_conv /\ weight pipe_conv <= 40 /\
  (exists y0, lower takes_only no_sizes 40 pipe_conv = Ok y0) /\
  mtransform (code_flags takes_only) no_sizes 20 40 pipe_prog = Ok pipe_code /\ stage_in_array 1 pipe_code = Ok pipe_staged /\
  (forall a, sub_of (YConst a) pipe_staged -> nth_error pipe_heap (pipe_cl a) = Some a) /\
  passed [0] E0 (absE pipe_heap pipe_henv) /\ (forall s, pipe_henv s <> None -> exists x, s = SV x /\ In x [0]) /\
  (forall s u, pipe_henv s = Some u -> hval_ok pipe_heap u) /\
  (forall o a b i, sub_of (YBin o a b (Some i)) pipe_staged -> keeps_kind o = true) /\
  den E0 pipe_prog = Ok pipe_val /\
  exists w h' H',
    @mexec zfloat no_externs (fast_edge_pad (fun _ => 99%Z)) pipe_cl (fun _ _ => false) no_share pipe_staged (pipe_heap, pipe_henv) = Ok (w, (h', H')) /\
    abs h' w = YT [ascalar (SF (420%Z : F)); ascalar (SF (21%Z : F))].
Proof.
  destruct C41_numpy_example as (CV & ET & Q & SF & _ & ST & _ & _ & _ & _ & KH & PS & HD & HO & KK & D & M).
  split; [exact CV|]. split; [exact ET|]. split; [exact Q|]. split; [exact SF|]. split.
  { split; [apply distinctb_sound; vm_compute; reflexivity|]. split; [split|split].
    - intros e e' V _ N. rewrite (pipe_no_folds e V) in N. discriminate.
    - intros e V N. rewrite (pipe_no_folds e V) in N. discriminate.
    - intros c size acc init body V. apply pipe_no_folds in V. discriminate.
    - intros c size acc init body elem r V. apply pipe_no_folds in V. discriminate. }
  split; [apply aboveb_sound; vm_compute; reflexivity|]. split; [apply Nat.leb_le; vm_compute; reflexivity|].
  split; [eexists; vm_compute; reflexivity|]. split; [vm_compute; reflexivity|].
  split; [exact ST|]. split; [exact KH|]. split; [exact PS|]. split; [exact HD|]. split; [exact HO|]. split; [exact KK|].
  split; [exact D|]. exact M.
Qed.
End Samples.

Print Assumptions C43_bound_once.
Print Assumptions C43_binders.
Print Assumptions C43_arguments.
Print Assumptions C43_constants.
Print Assumptions C43_staged.
Print Assumptions C41_numpy_compiled.
