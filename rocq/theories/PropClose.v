(** Properties C19 and C41 for programs with non-empty loops that access arrays
    by indices and counters of their size only ([close]); loops may be compiled
    to reductions. *)
From Verif Require Import Base Scalar Tensor Types Sym Phi Den NdOps Term PhiTerm NdFacts DenFree DenWf Typing TypesFacts Naive SpecPhi Lining Outline
  Dominators InlineMemo GenCheck Checkers OutlinePass OutlineTotal OutlineBinders Yarr YTerm YFit YWf Machine MachineSim MachineRun Inplace
  Soa SoaTyp SoaFacts SoaMain SoaWf Axial YOps AxialFacts AxialOps Codegen IndexOps CodegenSafe CodegenGet CodegenCtx CodegenCases CodegenCorrect
  CodegenSub Compile FastPad Cancel Pipeline CodegenMemo StrictCode CodegenLocal MemoSound Tidy CodeBinders CodeStage Sample Once
  Equiv Sizes ClipShift SizeClasses Moments MomentFacts SizeSound SizeSafe Direct Close
  PropArray PropMachine PropCodegen PropOutline PropPipeline PropMemo PropCompiled PropOnce PropClasses PropReduce PropDirect.

Section Props.
Context {FO : FloatOps} {EX : Externs}.

Lemma scoped_consts_wf (e : phi) : forall G, scoped G e -> exts_ok e -> consts_wf e.
Proof.
  induction e using phi_ind'; intros G S X; simpl in *; rewrite ?all_and_Forall in *;
    repeat match goal with
    | K : _ /\ _ |- _ => destruct K
    | K : exists _, _ |- _ => destruct K
    end; repeat match goal with |- _ /\ _ => split end; eauto.
  - rewrite Forall_forall in *. eauto.
  - rewrite Forall_forall in *. eauto.
  - rewrite Forall_forall in *. eauto.
  - match goal with K : forall l, match ext_call _ l with _ => _ end |- _ => rename K into Q end.
    intros l a K. specialize (Q l). rewrite K in Q. destruct Q as [Q _]. exact Q.
Qed.

(** Only the arguments matter. *)
Definition restrict (X : list nat) (E : env) : env := fun s => match s with SV x => if mem x X then E s else None | SX _ => None end.
Lemma restrict_in X E x : In x X -> restrict X E (SV x) = E (SV x).
Proof. intros H. unfold restrict. replace (mem x X) with true; auto. symmetry. apply existsb_exists. exists x. split; auto. apply Nat.eqb_refl. Qed.
Lemma restrict_some X E s v : restrict X E s = Some v -> E s = Some v /\ exists x, s = SV x /\ In x X.
Proof. unfold restrict. destruct s as [x|]; [|discriminate]. destruct (mem x X) eqn:M; [|discriminate]. apply mem_spec in M. eauto. Qed.
Lemma restrict_den X E G e : scoped G e -> (forall s, G s <> None -> exists x, s = SV x /\ In x X) -> den (restrict X E) e = den E e.
Proof.
  intros S D. apply den_ext. intros s H. assert (Q : free_in s e) by (apply free_in_isfree; exact H).
  apply (LiftSem.scoped_free_in e G s S) in Q. destruct (D s Q) as (x & -> & I). apply restrict_in. exact I.
Qed.
Lemma restrict_passed X E r : passed X E r -> passed X (restrict X E) r /\ env_wf (restrict X E).
Proof.
  intros [N P]. split; [split; [reflexivity|]|].
  - intros x I. rewrite restrict_in by exact I. auto.
  - intros s v H. apply restrict_some in H as (H & x & -> & I). destruct (P x I) as (u & Q & W & _). congruence.
Qed.
Lemma restrict_typed X E G : env_typed G E -> env_typed G (restrict X E).
Proof. intros T s t v Hs Hv. apply restrict_some in Hv as (Hv & _). eauto. Qed.

(** Arguments that are sizes of at least 1; without empty dimensions; of floats. *)
Definition positives (P : list nat) (E : env) : Prop := forall x v z, In x P -> E (SV x) = Some v -> val_int v = Ok z -> (1 <= z)%Z.
Definition nonempties (A : list nat) (E : env) : Prop := forall x v, In x A -> E (SV x) = Some v -> vfull v.
Definition floats (A : list nat) (E : env) : Prop := forall x v, In x A -> E (SV x) = Some v -> vpads (kind_eqb KFloat) v.

Lemma args_meet padk P A B E : positives P E -> nonempties A E -> (forall x v, In x B -> E (SV x) = Some v -> vpads padk v) ->
  meets padk (mkKnown [] P A B) (fun _ => 1) E.
Proof. intros HP HA HB. split; cbn [bnd cnts dims flts]; auto. intros s us []. Qed.

Lemma restrict_positives X P E : positives P E -> positives P (restrict X E).
Proof. intros H x v z I K. apply restrict_some in K as [K _]. eauto. Qed.
Lemma restrict_nonempties X P E : nonempties P E -> nonempties P (restrict X E).
Proof. intros H x v I K. apply restrict_some in K as [K _]. eauto. Qed.
Lemma restrict_floats X P E : floats P E -> floats P (restrict X E).
Proof. intros H x v I K. apply restrict_some in K as [K _]. exact (H x v I K). Qed.

(** Backends whose pads work on all arrays *)
Theorem C19_close fl orc fuel p y (G : tctx) (E : env) (r : yenv) X P A v :
  let PO : PadOps := nd_edge_pad in
  (use_reductions fl = true -> float_laws) -> use_einsum fl = false -> strict fl = true ->
  lower fl orc fuel p = Ok y -> well_formed G X p -> passed X E r -> env_typed G E ->
  close (fun _ => true) true (mkKnown [] P A []) p = true -> positives P E -> nonempties A E ->
  den E p = Ok v -> yeval r y = Ok (pack (vleaves v)).
Proof.
  intros PO RED EIN STR L WF PS ET CL HP HA D. pose proof WF as (_ & SC & _ & EO & _ & DOM).
  destruct (restrict_passed _ _ _ PS) as [PS' WE]. rewrite <- (restrict_den X E G p SC DOM) in D.
  apply (C19_compiled fl orc fuel p y G (restrict X E) r X v); auto; [congruence|apply restrict_typed; exact ET|].
  intros f. eapply (close_safe fl (fun _ => true) true orc true); eauto.
  - apply args_meet; [apply restrict_positives; auto|apply restrict_nonempties; auto|intros x u []].
  - eapply scoped_consts_wf; eauto.
Qed.

(** The NumPy backend: accessed arrays are float arrays without empty dimensions *)
Theorem C19_close_numpy garbage fl orc fuel p y (G : tctx) (E : env) (r : yenv) X P A B v :
  let PO : PadOps := fast_edge_pad garbage in
  (use_reductions fl = true -> float_laws) -> use_einsum fl = false -> strict fl = true ->
  lower fl orc fuel p = Ok y -> well_formed G X p -> passed X E r -> env_typed G E ->
  close (kind_eqb KFloat) false (mkKnown [] P A B) p = true -> positives P E -> nonempties A E -> floats B E ->
  den E p = Ok v -> yeval r y = Ok (pack (vleaves v)).
Proof.
  intros PO RED EIN STR L WF PS ET CL HP HA HB D. pose proof WF as (_ & SC & _ & EO & _ & DOM).
  destruct (restrict_passed _ _ _ PS) as [PS' WE]. rewrite <- (restrict_den X E G p SC DOM) in D.
  apply (C19_compiled_numpy garbage fl orc fuel p y G (restrict X E) r X v); auto; [congruence|apply restrict_typed; exact ET|].
  intros f. eapply (close_safe fl (kind_eqb KFloat) false orc false); eauto; [discriminate|..].
  - apply args_meet; [apply restrict_positives; auto|apply restrict_nonempties; auto|apply restrict_floats; auto].
  - eapply scoped_consts_wf; eauto.
Qed.

(** Called on the NumPy backend *)
Theorem C41_numpy_close garbage cl copies shares fl orc fuel1 fuel2 nxt p q y0 y z G X P A B (E : env) h H h' H' v w :
  let PO : PadOps := fast_edge_pad garbage in
  convertible G X p -> env_typed G E -> strict fl = true -> (use_reductions fl = true -> float_laws) -> use_einsum fl = false ->
  (* the converted program *)
  struct_of_arrays fuel1 p = Ok q ->
  close (kind_eqb KFloat) false (mkKnown [] P A B) q = true -> positives P E -> nonempties A E -> floats B E ->
  compilable (code_flags fl) orc q -> above nxt q -> (forall x, In x X -> x < nxt) -> weight q <= fuel2 ->
  lower fl orc fuel2 q = Ok y0 ->
  mtransform (code_flags fl) orc fuel1 fuel2 p = Ok y -> stage_in_array nxt y = Ok z ->
  (forall a, sub_of (YConst a) z -> nth_error h (cl a) = Some a) ->
  (forall f l a, ext_call f l = Ok a -> arr_wf a) -> shares_ok shares ->
  passed X E (absE h H) -> (forall s, H s <> None -> exists x, s = SV x /\ In x X) ->
  (forall s u, H s = Some u -> hval_ok h u) ->
  (forall o a b i, sub_of (YBin o a b (Some i)) z -> keeps_kind o = true) ->
  den E p = Ok v -> mexec cl copies shares z (h, H) = Ok (w, (h', H')) ->
  abs h' w = pack (vleaves v) /\
  (forall l a, nth_error h l = Some a -> nth_error h' l = Some a) /\ (forall s, H' s = H s).
Proof.
  intros PO CV ET STR RED EIN Q CL HP HA HB CP AQ XN W L TR ST KH EW SO PS HD HO KK D M.
  pose proof (C12_well_formed _ _ _ _ _ CV Q) as [WQ _]. pose proof WQ as (_ & SQ & _ & EQ & _ & _).
  pose proof CV as (((t & T) & SC & II & EO & FB & DOM) & SH & HG & _).
  destruct (restrict_passed _ _ _ PS) as [PS' WE]. rewrite <- (restrict_den X E G p SC DOM) in D.
  pose proof (restrict_typed X E G ET) as ET'.
  destruct (soa_ok fuel1 p q G (restrict X E) t v) as [DQ _]; auto; [eapply fresh_less; [|exact FB]; intros ? []|].
  eapply (C41_numpy_compiled garbage cl copies shares fl orc fuel1 fuel2 nxt p q y0 y z G X (restrict X E) h H h' H' v w); eauto; [congruence|].
  intros f. eapply (close_safe fl (kind_eqb KFloat) false orc false); eauto; [discriminate|..].
  - apply args_meet; [apply restrict_positives; auto|apply restrict_nonempties; auto|apply restrict_floats; auto].
  - eapply scoped_consts_wf; eauto.
Qed.
End Props.

Section Samples.
#[local] Existing Instance zfloat.
#[local] Existing Instance no_externs.

Definition arg1 : phi := PStore (SV 10) fvec_.

(** Weighted sums of rows: array(lambda i: fold(0.0, lambda k, acc: acc + a[i, k] * b[i])) *)
Definition rows_prog : phi :=
  PVec 0 (PAssertEq (PDim ma 0) [PDim ma 0; PDim arg1 0])
    (PFold 2 (PDim ma 1) 3 (cf 0)
      (PBin BAdd (PStore (SV 3) (TScalar KFloat))
         (PBin BMul (PGet (PGet ma (idx_ 0)) (PStore (SV 2) (TScalar KInt))) (PGet arg1 (idx_ 0))))).
Definition rows_ctx : tctx := upd (upd empty_env (SV 0) fmat_) (SV 10) fvec_.
Definition rows_env : env := upd (upd empty_env (SV 0) (VArr (farr [2; 2] [1; 2; 3; 4]%Z))) (SV 10) (VArr (farr [2] [5; 6]%Z)).
Definition rows_args : yenv := upd (upd empty_env (SV 0) (YA (farr [2; 2] [1; 2; 3; 4]%Z))) (SV 10) (YA (farr [2] [5; 6]%Z)).
Definition rows_code : yarr := match lower (with_reductions true) (class_oracle (classes_of rows_prog)) 20 rows_prog with Ok y => y | Err _ => YTuple [] end.
Example C19_close_example :
  lower (with_reductions true) (class_oracle (classes_of rows_prog)) 20 rows_prog = Ok rows_code /\
  well_formed rows_ctx [0; 10] rows_prog /\ passed [0; 10] rows_env rows_args /\ env_typed rows_ctx rows_env /\
  close (fun _ => true) true (mkKnown [] [] [0; 10] []) rows_prog = true /\
  close (kind_eqb KFloat) false (mkKnown [] [] [0; 10] [0; 10]) rows_prog = true /\
  positives [] rows_env /\ nonempties [0; 10] rows_env /\ floats [0; 10] rows_env /\
  den rows_env rows_prog = Ok (VArr (farr [2] [15; 42]%Z)) /\
  @yeval zfloat no_externs (fast_edge_pad (fun _ => 99%Z)) rows_args rows_code = Ok (YA (farr [2] [15; 42]%Z)).
Proof.
  split; [vm_compute; reflexivity|]. split.
  { split; [eexists; reflexivity|]. split.
    { simpl. repeat match goal with
        | |- _ /\ _ => split | |- exists _, _ => eexists | |- arr_wf _ => apply ascalar_wf | |- _ = _ => reflexivity | |- True => exact I end. }
    split; [simpl; repeat (split || constructor); auto; reflexivity|]. split; [simpl; repeat split; auto|].
    split; [simpl; intuition congruence|].
    intros q. unfold rows_ctx, upd, empty_env. destruct (sym_eqb q (SV 10)) eqn:Q.
    { apply sym_eqb_eq in Q. subst. exists 10. simpl. auto. }
    destruct (sym_eqb q (SV 0)) eqn:Q'; [|congruence]. apply sym_eqb_eq in Q'. subst. exists 0. simpl. auto. }
  split.
  { split; [reflexivity|]. intros x [<-|[<-|[]]]; eexists; (split; [reflexivity|split; [|reflexivity]]); (split; [reflexivity|]; repeat constructor). }
  split.
  { intros q t v. unfold rows_ctx, rows_env, upd, empty_env. destruct (sym_eqb q (SV 10)); [|destruct (sym_eqb q (SV 0)); [|discriminate]];
    intros H1 H2; injection H1 as <-; injection H2 as <-; (split; [|reflexivity]; split; [reflexivity|]; repeat constructor). }
  split; [vm_compute; reflexivity|]. split; [vm_compute; reflexivity|]. split; [intros x v z []|].
  split; [intros x v [<-|[<-|[]]] H; vm_compute in H; injection H as <-; cbn; repeat constructor|].
  split; [intros x v [<-|[<-|[]]] H; vm_compute in H; injection H as <-; reflexivity|].
  split; vm_compute; reflexivity.
Qed.
(** No loop is left. *)
Example C19_close_reduced_example : forall n, sub_of n rows_code -> match n with YFold _ _ _ _ _ => False | _ => True end.
Proof.
  assert (B : forallb (fun n => match n with YFold _ _ _ _ _ => false | _ => true end) (gnodes rows_code) = true) by (vm_compute; reflexivity).
  rewrite forallb_forall in B. intros n H. apply gnodes_spec in H. specialize (B _ H). clear H. destruct n; first [exact I|discriminate B].
Qed.

(** The same program called on the NumPy backend: the access by the index of the
    reduction is compiled to a slice and a pad. *)
Definition rows_conv : phi := match struct_of_arrays 20 rows_prog with Ok q => q | Err _ => rows_prog end.
Definition rows_sizes : oracle := let o := class_oracle (classes_of rows_conv) in mkOracle (eq_index o) (eq_size o) (binder_name 30).
Definition rows_out : yarr := match mtransform (code_flags (with_reductions true)) rows_sizes 20 60 rows_prog with Ok y => y | Err _ => YTuple [] end.
Definition rows_staged : yarr := match stage_in_array 40 rows_out with Ok y => y | Err _ => YTuple [] end.
Definition rows_cl (a : arr) : nat := match adata a with [SI 0%Z] => 2 | [SI _] => 3 | _ => 4 end.
Definition rows_heap : heap :=
  [farr [2; 2] [1; 2; 3; 4]%Z; farr [2] [5; 6]%Z; ascalar (SI 0); ascalar (SI 1); ascalar (SF (0%Z : F))].
Definition rows_henv : henv := upd (upd empty_env (SV 0) (HA (whole 0))) (SV 10) (HA (whole 1)).
Definition rows_met : list phi := reach (code_flags (with_reductions true)) rows_sizes 20 rows_conv.
Definition rows_fold_ok (e : phi) : bool :=
  match e with
  | PFold c size acc init body =>
      no_einsum (code_flags (with_reductions true)) e &&
      match CodegenLocal.reduces (code_flags (with_reductions true)) rows_sizes c size acc init body with Some (elem, _) => negb (smem (SV acc) (fsyms elem)) | None => true end
  | _ => true
  end.
Lemma rows_met_ok e : visits (code_flags (with_reductions true)) rows_sizes rows_conv e -> rows_fold_ok e = true.
Proof.
  intros V. assert (H : In e rows_met).
  { revert e V. apply reach_closed; [left; reflexivity|]. intros x Hx k Hk.
    assert (B : forallb (fun e => forallb (fun k => existsb (phi_eqb (snd k)) rows_met) (kids (code_flags (with_reductions true)) rows_sizes e)) rows_met = true) by (vm_compute; reflexivity).
    rewrite forallb_forall in B. specialize (B x Hx). rewrite forallb_forall in B. specialize (B k Hk).
    apply existsb_exists in B as (y & Hy & Q). apply phi_eqb_eq in Q. congruence. }
  revert e H V. assert (B : forallb rows_fold_ok rows_met = true) by (vm_compute; reflexivity). rewrite forallb_forall in B. auto.
Qed.
Lemma rows_compilable : compilable (code_flags (with_reductions true)) rows_sizes rows_conv.
Proof.
  assert (DB : distinct_binders rows_conv) by (apply distinctb_sound; vm_compute; reflexivity).
  split; [exact DB|]. split; [|split].
  - eapply (C40_names_exist _ _ _ 30 DB); [reflexivity|]. intros i H.
    assert (B : forallb (fun s => match s with SX i => i <? 30 | _ => true end) (Soa.syms rows_conv) = true) by (vm_compute; reflexivity).
    rewrite forallb_forall in B. specialize (B _ H). apply Nat.ltb_lt. exact B.
  - intros c size acc init body V. apply rows_met_ok in V. cbn [rows_fold_ok] in V. apply andb_prop in V. apply V.
  - intros c size acc init body elem r V R K. apply rows_met_ok in V. cbn [rows_fold_ok] in V. apply andb_prop in V as [_ V]. rewrite R in V.
    apply smem_In in K. rewrite K in V. discriminate.
Qed.
Definition consts_at (h : heap) (cl : arr -> nat) (z : yarr) : bool :=
  forallb (fun n => match n with
    | YConst c => match nth_error h (cl c) with Some a => if arr_eq_dec a c then true else false | None => false end
    | _ => true end) (gnodes z).
Lemma consts_at_ok h cl z : consts_at h cl z = true -> forall c, sub_of (YConst c) z -> nth_error h (cl c) = Some c.
Proof.
  intros B c H. unfold consts_at in B. rewrite forallb_forall in B. apply gnodes_spec in H. specialize (B _ H). cbv beta iota in B.
  destruct (nth_error h (cl c)) as [a|]; [|discriminate]. destruct (arr_eq_dec a c); [congruence|discriminate].
Qed.
Definition keeps_kinds (z : yarr) : bool := forallb (fun n => match n with YBin o _ _ (Some _) => keeps_kind o | _ => true end) (gnodes z).
Lemma keeps_kinds_ok z : keeps_kinds z = true -> forall o a b i, sub_of (YBin o a b (Some i)) z -> keeps_kind o = true.
Proof. intros B o a b i H. unfold keeps_kinds in B. rewrite forallb_forall in B. apply gnodes_spec in H. exact (B _ H). Qed.
Example C41_numpy_close_example :
  convertible rows_ctx [0; 10] rows_prog /\ env_typed rows_ctx rows_env /\ struct_of_arrays 20 rows_prog = Ok rows_conv /\
  close (kind_eqb KFloat) false (mkKnown [] [] [0; 10] [0; 10]) rows_conv = true /\
  positives [] rows_env /\ nonempties [0; 10] rows_env /\ floats [0; 10] rows_env /\
  compilable (code_flags (with_reductions true)) rows_sizes rows_conv /\ above 40 rows_conv /\ weight rows_conv <= 60 /\
  (exists y0, lower (with_reductions true) rows_sizes 60 rows_conv = Ok y0) /\
  mtransform (code_flags (with_reductions true)) rows_sizes 20 60 rows_prog = Ok rows_out /\ stage_in_array 40 rows_out = Ok rows_staged /\
  (forall c, sub_of (YConst c) rows_staged -> nth_error rows_heap (rows_cl c) = Some c) /\
  passed [0; 10] rows_env (absE rows_heap rows_henv) /\
  (forall s, rows_henv s <> None -> exists x, s = SV x /\ In x [0; 10]) /\
  (forall s u, rows_henv s = Some u -> hval_ok rows_heap u) /\
  (forall o a b i, sub_of (YBin o a b (Some i)) rows_staged -> keeps_kind o = true) /\
  den rows_env rows_prog = Ok (VArr (farr [2] [15; 42]%Z)) /\
  exists w h' H',
    @mexec zfloat no_externs (fast_edge_pad (fun _ => 99%Z)) rows_cl (fun _ _ => false) no_share rows_staged (rows_heap, rows_henv) = Ok (w, (h', H')) /\
    abs h' w = YA (farr [2] [15; 42]%Z).
Proof.
  destruct C19_close_example as (_ & WF & _ & ET & _ & _ & HP & HA & HB & D & _).
  split.
  { split; [exact WF|]. split; [|split].
    - simpl. repeat match goal with |- _ /\ _ => split | |- True => exact I | |- forall _, _ => intros ? Hs; inversion Hs; reflexivity end.
    - intros s t. unfold rows_ctx, upd, empty_env. destruct (sym_eqb s (SV 10)); [intros H; injection H as <-; reflexivity|].
      destruct (sym_eqb s (SV 0)); [|discriminate]. intros H. injection H as <-. reflexivity.
    - intros x [<-|[<-|[]]]; vm_compute; lia. }
  split; [exact ET|]. split; [vm_compute; reflexivity|]. split; [vm_compute; reflexivity|]. split; [exact HP|]. split; [exact HA|]. split; [exact HB|].
  split; [exact rows_compilable|].
  split; [apply aboveb_sound; vm_compute; reflexivity|]. split; [apply Nat.leb_le; vm_compute; reflexivity|].
  split; [eexists; vm_compute; reflexivity|]. split; [vm_compute; reflexivity|]. split; [vm_compute; reflexivity|]. split.
  { apply consts_at_ok. vm_compute. reflexivity. }
  split.
  { split; [reflexivity|]. intros x [<-|[<-|[]]]; eexists; (split; [reflexivity|split; [|reflexivity]]); (split; [reflexivity|]; repeat constructor). }
  split. { intros s. unfold rows_henv, upd, empty_env. destruct (sym_eqb s (SV 10)) eqn:Q; [apply sym_eqb_eq in Q; intros _; exists 10; simpl; auto|].
    destruct (sym_eqb s (SV 0)) eqn:Q'; [|congruence]. apply sym_eqb_eq in Q'. intros _. exists 0. simpl. auto. }
  split. { intros s v. unfold rows_henv, upd, empty_env. destruct (sym_eqb s (SV 10)); [|destruct (sym_eqb s (SV 0)); [|discriminate]];
    intros H; injection H as <-; unfold hval_ok, ref_ok; cbn; repeat split; auto; lia. }
  split.
  { apply keeps_kinds_ok. vm_compute. reflexivity. }
  split; [exact D|]. eexists _, _, _. split; vm_compute; reflexivity.
Qed.
End Samples.

Print Assumptions C19_close.
Print Assumptions C19_close_numpy.
Print Assumptions C41_numpy_close.
