(** Properties C19 and C41 for programs that access arrays by indices and counters
    of their size only ([direct]): the compiled code agrees with the reference
    semantics for all arguments. *)
From Coq Require Import Permutation.
From Verif Require Import Base Scalar Tensor Types Sym Phi Den NdOps Term PhiTerm NdFacts DenFree DenWf Typing TypesFacts Naive SpecPhi Lining Outline
  Dominators InlineMemo GenCheck Checkers OutlinePass OutlineTotal OutlineBinders Yarr YTerm YFit YWf Machine MachineSim MachineRun Inplace
  Soa SoaTyp SoaFacts SoaMain SoaWf Axial YOps AxialFacts AxialOps Codegen IndexOps CodegenSafe CodegenGet CodegenCtx CodegenCases CodegenCorrect
  CodegenSub Compile FastPad Cancel Pipeline CodegenMemo StrictCode CodegenLocal MemoSound Tidy CodeBinders CodeStage Sample Once
  Equiv Sizes ClipShift SizeClasses Moments MomentFacts SizeSound SizeSafe Direct
  PropArray PropMachine PropCodegen PropOutline PropPipeline PropMemo PropCompiled PropOnce PropClasses.

Section Props.
Context {FO : FloatOps} {EX : Externs}.

(** Arguments that are sizes *)
Definition counts (P : list nat) : bounds := map (fun x => (x, [])) P.
Definition are_sizes (P : list nat) (E : env) : Prop := forall x, In x P -> exists v z, E (SV x) = Some v /\ val_int v = Ok z /\ (0 <= z)%Z.
Lemma counts_hold P E : are_sizes P E -> holds (counts P) E.
Proof.
  intros H c us I. apply in_map_iff in I as (x & Q & I). injection Q as <- <-. destruct (H x I) as (v & z & HE & HZ & P0).
  exists v, z. repeat split; auto. intros u w m [].
Qed.

Lemma direct_all fl orc padk pade P N E e : are_sizes P E -> direct fl orc (counts P) e = true -> safe_but_all fl padk pade orc N E e.
Proof. intros H D f. eapply direct_safe; eauto. apply counts_hold. auto. Qed.

(** Loops compiled to loops; every loop is executed *)
Theorem C19_direct fl s fuel p y (G : tctx) (E : env) (r : yenv) X P v :
  let PO : PadOps := nd_edge_pad in
  use_reductions fl = false -> use_einsum fl = false -> strict fl = true ->
  find_size_classes p = Ok s -> lower fl (class_oracle s) fuel p = Ok y ->
  well_formed G X p -> NoDup (bsyms p) -> passed X E r -> env_typed G E -> loops_run E p ->
  direct fl (class_oracle s) (counts P) p = true -> are_sizes P E ->
  den E p = Ok v -> yeval r y = Ok (pack (vleaves v)).
Proof.
  intros PO RED EIN STR C L WF ND PS ET R D A. eapply C16_compiled; eauto. eapply direct_all; eauto.
Qed.
Theorem C19_direct_numpy garbage fl s fuel p y (G : tctx) (E : env) (r : yenv) X P v :
  let PO : PadOps := fast_edge_pad garbage in
  use_reductions fl = false -> use_einsum fl = false -> strict fl = true ->
  find_size_classes p = Ok s -> lower fl (class_oracle s) fuel p = Ok y ->
  well_formed G X p -> NoDup (bsyms p) -> passed X E r -> env_typed G E -> loops_run E p ->
  direct fl (class_oracle s) (counts P) p = true -> are_sizes P E ->
  den E p = Ok v -> yeval r y = Ok (pack (vleaves v)).
Proof.
  intros PO RED EIN STR C L WF ND PS ET R D A. eapply C16_compiled_numpy; eauto. eapply direct_all; eauto.
Qed.

Lemma direct_stay fl orc B e : direct (loops_stay fl) orc B e = direct fl orc B e.
Proof. reflexivity. Qed.

Lemma loopless_lower fl orc fuel B B' p y : direct fl orc B p = true -> loopless B' p = true ->
  lower fl orc fuel p = Ok y -> lower (loops_stay fl) orc fuel p = Ok y.
Proof.
  intros D L H. unfold lower in *. apply bind_ok in H as (a & Ha & H). rewrite (loopless_go fl orc fuel B B' [] [] p D L a Ha). exact H.
Qed.

(** Programs without loops, with all options, all sizes and all element types *)
Theorem C19_elementwise fl s fuel p y (G : tctx) (E : env) (r : yenv) X P v :
  let PO : PadOps := nd_edge_pad in
  strict fl = true -> find_size_classes p = Ok s -> lower fl (class_oracle s) fuel p = Ok y ->
  well_formed G X p -> NoDup (bsyms p) -> passed X E r -> env_typed G E ->
  direct fl (class_oracle s) (counts P) p = true -> loopless (counts P) p = true -> are_sizes P E ->
  den E p = Ok v -> yeval r y = Ok (pack (vleaves v)).
Proof.
  intros PO STR C L WF ND PS ET D LL A HV.
  eapply (C19_direct (loops_stay fl) s fuel p y G E r X P v); eauto.
  - eapply loopless_lower; eauto.
  - eapply loopless_runs; eauto. apply counts_hold. auto.
Qed.
Theorem C19_elementwise_numpy garbage fl s fuel p y (G : tctx) (E : env) (r : yenv) X P v :
  let PO : PadOps := fast_edge_pad garbage in
  strict fl = true -> find_size_classes p = Ok s -> lower fl (class_oracle s) fuel p = Ok y ->
  well_formed G X p -> NoDup (bsyms p) -> passed X E r -> env_typed G E ->
  direct fl (class_oracle s) (counts P) p = true -> loopless (counts P) p = true -> are_sizes P E ->
  den E p = Ok v -> yeval r y = Ok (pack (vleaves v)).
Proof.
  intros PO STR C L WF ND PS ET D LL A HV.
  eapply (C19_direct_numpy garbage (loops_stay fl) s fuel p y G E r X P v); eauto.
  - eapply loopless_lower; eauto.
  - eapply loopless_runs; eauto. apply counts_hold. auto.
Qed.

(** ** What the translation visits *)
Lemma direct_dim fl orc e : forall B B' k, direct fl orc B e = true -> loopless B' e = true ->
  direct fl orc B (dim_of e k) = true /\ loopless B' (dim_of e k) = true.
Proof.
  induction e using phi_ind'; intros B B' k D L; cbn [dim_of]; try (split; cbn [direct loopless]; assumption).
  - cbn [direct loopless] in D, L. apply andb_true_iff in D as [D _], L as [L _]. auto.
  - destruct k as [|k]; [|split; cbn [direct loopless] in *; assumption]. cbn [direct loopless] in D, L.
    apply andb_true_iff in D as [D _], L as [L _]. apply andb_true_iff in D as [D _], L as [L _]. auto.
Qed.

Lemma loopless_kid fl fl' orc e sc c B B' : In (sc, c) (kids fl' orc e) -> direct fl orc B e = true -> loopless B' e = true ->
  exists B1 B2, direct fl orc B1 c = true /\ loopless B2 c = true.
Proof.
  intros H D L. destruct e; cbn [direct loopless] in D, L; try discriminate; cbn [kids] in H;
    repeat match goal with Q : _ && _ = true |- _ => apply andb_true_iff in Q as [Q ?] end;
    try (repeat (destruct H as [H|H]; [injection H as <- <-; eauto|]); destruct H; fail).
  - destruct H as [H|[H|[H|H]]].
    + injection H as <- <-. eauto.
    + injection H as <- <-. exists [], B'. split; [|assumption]. destruct e2; try discriminate. reflexivity.
    + injection H as <- <-. exists B, B'. apply direct_dim; auto.
    + exfalso. destruct e2 as [|[x|j]| | | | | | | | | | | | | | |]; try discriminate.
      * assert (M : match_index_clipped_shift (PStore (SV x) t) = None) by reflexivity. unfold shift_parts in H. rewrite M in H. destruct H.
      * assert (M : match_index_clipped_shift (PStore (SX j) t) = Some (j, (None, None, None))).
        { unfold match_index_clipped_shift, free_indices. cbn [fsyms filter is_index the_index forallb match_clipped_shift is_nil].
          rewrite sym_eqb_refl. reflexivity. }
        unfold shift_parts in H. rewrite M in H. destruct H.
  - apply in_map_iff in H as (o & Q & H). injection Q as <- <-. rewrite forallb_forall in D, L. exists B, B'. auto.
Qed.
Lemma loopless_visits fl fl' orc q e B B' : direct fl orc B q = true -> loopless B' q = true -> visits fl' orc q e -> needs_name e = false.
Proof.
  intros D L V. assert (K : exists B1 B2, direct fl orc B1 e = true /\ loopless B2 e = true).
  { induction V as [|e sc c V (B1 & B2 & D1 & L1) H]; [eauto|]. eapply loopless_kid; eauto. }
  destruct K as (B1 & B2 & _ & K). destruct e; auto; discriminate.
Qed.

(** ** Symbols bound once *)
Lemma bsyms_split e : Permutation (bsyms e) (captured e ++ flat_map bsyms (subterms e)).
Proof.
  destruct e; cbn [bsyms captured subterms flat_map app]; rewrite ?app_nil_r; repeat apply perm_skip; auto.
  rewrite flat_map_app. cbn [flat_map]. rewrite app_nil_r. auto.
Qed.
Lemma flat_one {A B} (f : A -> list B) l x y s : NoDup (flat_map f l) -> In x l -> In y l -> In s (f x) -> In s (f y) -> x = y.
Proof.
  induction l as [|a l IH]; [intros _ []|]. cbn [flat_map]. intros N Hx Hy Sx Sy.
  assert (DJ : forall z, In z l -> In s (f a) -> In s (f z) -> False).
  { intros z Hz S1 S2. revert N S1. generalize (f a). intros la N S1. assert (S3 : In s (flat_map f l)) by (apply in_flat_map; eauto).
    induction la as [|b la IHa]; [destruct S1|]. inversion N; subst. destruct S1 as [->|S1]; [apply H1, in_app_iff; auto|auto]. }
  destruct Hx as [<-|Hx], Hy as [<-|Hy]; auto; [exfalso; eauto..|]. apply IH; auto. apply NoDup_app_r in N. exact N.
Qed.
Lemma flat_nodup {A B} (f : A -> list B) l x : NoDup (flat_map f l) -> In x l -> NoDup (f x).
Proof.
  induction l as [|a l IH]; [intros _ []|]. cbn [flat_map]. intros N [<-|Hx]; [apply NoDup_app_l in N; auto|apply IH; auto].
  apply NoDup_app_r in N. exact N.
Qed.
Lemma capt_bsyms n p s : sub_of n p -> In s (captured n) -> In s (bsyms p).
Proof.
  induction 1 as [t|n c t Hc Hn IH]; intros Hs; (eapply Permutation_in; [symmetry; apply bsyms_split|]); apply in_app_iff; auto.
  right. apply in_flat_map. eauto.
Qed.
Lemma nodup_distinct (p : phi) : NoDup (bsyms p) -> (forall s, isfree s p -> ~ In s (bsyms p)) -> distinct_binders p.
Proof.
  intros N F n s Hn Hs. split; [intros K; apply (F s K); eapply capt_bsyms; eauto|]. intros n' Hn' Hs'. clear F. revert n' Hn' Hs'.
  induction Hn as [t|n c t Hc Hn IH]; intros n' Hn' Hs'; rewrite (bsyms_split t) in N.
  - destruct Hn' as [t|n' c' t Hc' Hn']; auto. exfalso. change (In s (captured t)) in Hs.
    assert (K : In s (flat_map bsyms (subterms t))) by (apply in_flat_map; eexists; split; [exact Hc'|eapply capt_bsyms; eauto]).
    revert N Hs. generalize (captured t). intros l N Hs. induction l as [|b l IHl]; [destruct Hs|].
    inversion N; subst. destruct Hs as [->|Hs]; [apply H1, in_app_iff; auto|auto].
  - destruct Hn' as [t|n' c' t Hc' Hn'].
    + exfalso. change (In s (captured t)) in Hs'.
      assert (K : In s (flat_map bsyms (subterms t))) by (apply in_flat_map; eexists; split; [exact Hc|eapply capt_bsyms; eauto]).
      revert N Hs'. generalize (captured t). intros l N Hs'. induction l as [|b l IHl]; [destruct Hs'|].
      inversion N; subst. destruct Hs' as [->|Hs']; [apply H1, in_app_iff; auto|auto].
    + apply NoDup_app_r in N. assert (c' = c).
      { apply (flat_one bsyms (subterms t) c' c s N Hc' Hc); eapply capt_bsyms; eauto. }
      subst c'. apply IH; auto. eapply flat_nodup; eauto.
Qed.

Lemma loopless_compilable fl fl' orc q B B' : direct fl orc B q = true -> loopless B' q = true -> NoDup (bsyms q) ->
  (forall s, isfree s q -> ~ In s (bsyms q)) -> compilable fl' orc q.
Proof.
  intros D L N F. pose proof (fun e => loopless_visits fl fl' orc q e B B' D L) as V.
  split; [apply nodup_distinct; auto|]. split; [split|split].
  - intros e e' Ve _ K. rewrite (V e Ve) in K. discriminate.
  - intros e Ve K. rewrite (V e Ve) in K. discriminate.
  - intros c size acc init body Ve. apply V in Ve. discriminate.
  - intros c size acc init body elem r Ve. apply V in Ve. discriminate.
Qed.

(** Called on the NumPy backend *)
Theorem C41_numpy_elementwise garbage cl copies shares fl s fuel1 fuel2 nxt p q y0 y z G X P (E : env) h H h' H' v w :
  let PO : PadOps := fast_edge_pad garbage in
  convertible G X p -> env_typed G E -> strict fl = true ->
  (* the converted program *)
  struct_of_arrays fuel1 p = Ok q -> find_size_classes q = Ok s -> NoDup (bsyms q) ->
  direct fl (class_oracle s) (counts P) q = true -> loopless (counts P) q = true -> are_sizes P E ->
  above nxt q -> (forall x, In x X -> x < nxt) -> weight q <= fuel2 ->
  lower fl (class_oracle s) fuel2 q = Ok y0 ->
  mtransform (code_flags fl) (class_oracle s) fuel1 fuel2 p = Ok y -> stage_in_array nxt y = Ok z ->
  (forall a, sub_of (YConst a) z -> nth_error h (cl a) = Some a) ->
  (forall f l a, ext_call f l = Ok a -> arr_wf a) -> shares_ok shares ->
  passed X E (absE h H) -> (forall s, H s <> None -> exists x, s = SV x /\ In x X) ->
  (forall s u, H s = Some u -> hval_ok h u) ->
  (forall o a b i, sub_of (YBin o a b (Some i)) z -> keeps_kind o = true) ->
  den E p = Ok v -> mexec cl copies shares z (h, H) = Ok (w, (h', H')) ->
  abs h' w = pack (vleaves v) /\
  (forall l a, nth_error h l = Some a -> nth_error h' l = Some a) /\ (forall s, H' s = H s).
Proof.
  intros PO CV ET STR Q C ND DI LL AS AQ XN W L TR ST KH EW SO PS HD HO KK D M.
  pose proof (C12_well_formed _ _ _ _ _ CV Q) as [WQ _]. pose proof WQ as (_ & SQ & _ & _ & FQ & _).
  assert (L' := C19_strict_is_code _ _ _ _ _ L).
  destruct (names_of q _ X WQ ND) as (U1 & U2 & U3).
  assert (CP : compilable (code_flags fl) (class_oracle s) q) by (eapply loopless_compilable; eauto).
  assert (CQ : compile (code_flags fl) (class_oracle s) fuel2 q = Ok y) by (unfold mtransform in TR; rewrite Q in TR; exact TR).
  pose proof (C43_bound_once _ _ _ _ _ CP W CQ) as DY.
  assert (YQ : y = cancel_tuple_ops (cancel_shape_ops y0)).
  { destruct (compile_lower _ _ _ _ _ CP W CQ) as (y1 & L1 & ->). congruence. }
  assert (L0 : lower (loops_stay fl) (class_oracle s) fuel2 q = Ok y0) by (eapply loopless_lower; eauto).
  destruct CP as (DB & [NI NN] & NE & PE). pose proof (plain_or _ _ _ PE) as AC.
  eapply (C41_numpy garbage cl copies shares (loops_stay fl) (class_oracle s) fuel1 fuel2 nxt p q y z G X E h H h' H' v w); eauto;
    try (cbn; discriminate).
  - eapply (classes_safe (loops_stay fl) (kind_eqb KFloat) false (class_oracle s)); eauto.
    + split; auto.
    + destruct CV as (((t & T) & SC & II & EO & FB & _) & SH & HG & _).
      destruct (soa_ok fuel1 p q G E t v) as [DQ _]; auto; [eapply fresh_less; [|exact FB]; intros ? []|]. eexists. exact DQ.
    + eapply loopless_runs; eauto. apply counts_hold. auto.
    + apply (direct_all (loops_stay fl) _ _ _ P); auto.
  - unfold transform. rewrite Q. cbn [bind]. rewrite L0. subst y. reflexivity.
  - apply apart_yfresh. apply distinct_apart; auto.
    + intros n Hn. change (NoDup (ycapt n)). subst y. apply (exposes_capt _ tuple_exposes) in Hn as (d1 & Hn & ->).
      apply (exposes_capt _ shape_exposes) in Hn as (d2 & Hn & ->).
      apply (code_apart (code_flags fl) (class_oracle s) q DB NI NN NE AC fuel2 y0 W L' (map SV X) d2 (fresh_nodes q _ FQ) Hn).
    + intros n u Hn Hs. change (In u (ycapt n)) in Hs. subst y. apply (exposes_capt _ tuple_exposes) in Hn as (d1 & Hn & Q1).
      apply (exposes_capt _ shape_exposes) in Hn as (d2 & Hn & Q2). rewrite Q1, Q2 in Hs.
      apply (code_apart (code_flags fl) (class_oracle s) q DB NI NN NE AC fuel2 y0 W L' (map SV X) d2 (fresh_nodes q _ FQ) Hn); auto.
  - subst y. apply exposes_above; [exact tuple_exposes|]. apply exposes_above; [exact shape_exposes|].
    exact (code_above (code_flags fl) (class_oracle s) q DB NI NN NE AC fuel2 y0 W L' nxt AQ).
  - intros y1 a L1 Ha. rewrite L0 in L1. injection L1 as <-.
    apply (code_consts (code_flags fl) (class_oracle s) q DB NI NN NE AC fuel2 y0 W L' a); auto. intros b. apply (scoped_consts q _ b SQ).
Qed.
End Props.

(** * Examples *)
Section Samples.
#[local] Existing Instance zfloat.
#[local] Existing Instance no_externs.

Definition ivec_ : ty := TVec (TScalar KInt).
Definition ia : phi := PStore (SV 0) ivec_.
Definition ib : phi := PStore (SV 10) ivec_.
Definition cnt : phi := PStore (SV 11) (TScalar KInt).
(** array(lambda i, j: a[i] * b[i] + j), with j < n, for arrays of integers *)
Definition ew_prog : phi :=
  PVec 0 (PAssertEq (PDim ia 0) [PDim ia 0; PDim ib 0])
    (PVec 1 cnt (PBin BAdd (PBin BMul (PGet ia (idx_ 0)) (PGet ib (idx_ 0))) (idx_ 1))).
Definition ew_ctx : tctx := upd (upd (upd empty_env (SV 0) ivec_) (SV 10) ivec_) (SV 11) (TScalar KInt).
Definition ew_env (a b : list Z) (n : Z) : env :=
  upd (upd (upd empty_env (SV 0) (VArr (iarr [length a] a))) (SV 10) (VArr (iarr [length b] b))) (SV 11) (VArr (iarr [] [n])).
Definition ew_args (a b : list Z) (n : Z) : yenv :=
  upd (upd (upd empty_env (SV 0) (YA (iarr [length a] a))) (SV 10) (YA (iarr [length b] b))) (SV 11) (YA (iarr [] [n])).
Definition ew_code : yarr := match lower (all_on true) (class_oracle (classes_of ew_prog)) 20 ew_prog with Ok y => y | Err _ => YTuple [] end.

Lemma iarr_wf l : arr_wf (iarr [length l] l).
Proof. split; [simpl; rewrite map_length; lia|]. simpl. apply Forall_forall. intros x Hx. apply in_map_iff in Hx as (y & <- & _). reflexivity. Qed.
Lemma ew_passed a b n : passed [0; 10; 11] (ew_env a b n) (ew_args a b n).
Proof.
  split; [reflexivity|]. intros x [<-|[<-|[<-|[]]]]; eexists; (split; [reflexivity|split; [|reflexivity]]); simpl; try apply iarr_wf.
Qed.
Lemma ew_typed a b n : env_typed ew_ctx (ew_env a b n).
Proof.
  intros q t v. unfold ew_ctx, ew_env, upd, empty_env. destruct (sym_eqb q (SV 11)).
  { intros H1 H2. injection H1 as <-. injection H2 as <-. split; [|reflexivity]. split; [reflexivity|]. repeat constructor. }
  destruct (sym_eqb q (SV 10)); [|destruct (sym_eqb q (SV 0)); [|discriminate]];
    intros H1 H2; injection H1 as <-; injection H2 as <-; (split; [apply iarr_wf|reflexivity]).
Qed.

(** The conditions hold for all arrays of integers; a shifted access, and an access
    by an index of another size, are not direct. *)
Example C19_elementwise_example :
  let s := classes_of ew_prog in
  find_size_classes ew_prog = Ok s /\ lower (all_on true) (class_oracle s) 20 ew_prog = Ok ew_code /\
  well_formed ew_ctx [0; 10; 11] ew_prog /\ NoDup (bsyms ew_prog) /\
  direct (all_on true) (class_oracle s) (counts [11]) ew_prog = true /\ loopless (counts [11]) ew_prog = true /\
  (forall a b n, passed [0; 10; 11] (ew_env a b n) (ew_args a b n) /\ env_typed ew_ctx (ew_env a b n) /\
     ((0 <= n)%Z -> are_sizes [11] (ew_env a b n))) /\
  den (ew_env [3; 4] [5; 6] 3)%Z ew_prog = Ok (VArr (iarr [2; 3] [15; 16; 17; 24; 25; 26]%Z)) /\
  den (ew_env [] [] 3)%Z ew_prog = Ok (VArr (iarr [0; 3] [])) /\
  @yeval zfloat no_externs (fast_edge_pad (fun _ => 99%Z)) (ew_args [3; 4] [5; 6] 3)%Z ew_code =
    Ok (YA (iarr [2; 3] [15; 16; 17; 24; 25; 26]%Z)) /\
  loopless [] ew_prog = false /\
  direct (all_on true) (class_oracle s) [] (PVec 0 (PDim ia 0) (PGet ia (PBin BAdd (idx_ 0) (ci 1)))) = false /\
  let q := PVec 0 (PDim ia 0) (PGet ib (idx_ 0)) in direct (all_on true) (class_oracle (classes_of q)) [] q = false.
Proof.
  cbv zeta. split; [apply classes_ok; vm_compute; reflexivity|]. split; [vm_compute; reflexivity|]. split.
  { split; [eexists; reflexivity|]. split.
    { simpl. repeat match goal with
        | |- _ /\ _ => split | |- exists _, _ => eexists | |- arr_wf _ => apply ascalar_wf | |- _ = _ => reflexivity | |- True => exact I end. }
    split; [simpl; repeat (split || constructor); auto; reflexivity|]. split; [simpl; repeat split; auto|].
    split; [simpl; intuition congruence|].
    intros q. unfold ew_ctx, upd, empty_env. destruct (sym_eqb q (SV 11)) eqn:Q1.
    { apply sym_eqb_eq in Q1. subst. exists 11. simpl. auto. }
    destruct (sym_eqb q (SV 10)) eqn:Q.
    { apply sym_eqb_eq in Q. subst. exists 10. simpl. auto. }
    destruct (sym_eqb q (SV 0)) eqn:Q'; [|congruence]. apply sym_eqb_eq in Q'. subst. exists 0. simpl. auto. }
  split; [simpl; repeat constructor; simpl; intuition discriminate|]. split; [vm_compute; reflexivity|]. split; [vm_compute; reflexivity|].
  split.
  { intros a b n. split; [apply ew_passed|]. split; [apply ew_typed|]. intros H x [<-|[]]. do 2 eexists. split; [reflexivity|]. split; [reflexivity|exact H]. }
  repeat split; vm_compute; reflexivity.
Qed.

(** An array of pairs, by its elements: with r = array(lambda i: (a[i] * b[i], b[i] * 2)),
    array(lambda j: r[j][0] + r[j][1]).  The sum is computed into the array of the product. *)
Definition pair_prog : phi :=
  let n := PAssertEq (PDim ia 0) [PDim ia 0; PDim ib 0] in
  let r := PVec 0 n (PCons (PBin BMul (PGet ia (idx_ 0)) (PGet ib (idx_ 0))) (PBin BMul (PGet ib (idx_ 0)) (ci 2))) in
  PVec 1 n (PBin BAdd (PFirst (PGet r (idx_ 1))) (PSecond (PGet r (idx_ 1)))).
Definition pair_conv : phi := match struct_of_arrays 20 pair_prog with Ok q => q | Err _ => pair_prog end.
Definition pair_sizes : oracle := class_oracle (classes_of pair_conv).
Definition pair_code : yarr := match mtransform (code_flags (all_on true)) pair_sizes 20 60 pair_prog with Ok y => y | Err _ => YTuple [] end.
Definition pair_staged : yarr :=
  YBin BAdd (YBin BMul (YVar 0 [(1, KInt)]) (YVar 10 [(1, KInt)]) None)
    (YBin BMul (YVar 10 [(1, KInt)]) (YConst (ascalar (SI 2))) None) (Some 0).
Definition pair_ctx : tctx := upd (upd empty_env (SV 0) ivec_) (SV 10) ivec_.
Definition pair_env (a b : list Z) : env :=
  upd (upd empty_env (SV 0) (VArr (iarr [length a] a))) (SV 10) (VArr (iarr [length b] b)).
Definition pair_heap (a b : list Z) : heap := [iarr [length a] a; iarr [length b] b; ascalar (SI 2)].
Definition pair_henv : henv := upd (upd empty_env (SV 0) (HA (whole 0))) (SV 10) (HA (whole 1)).
Lemma pair_convertible : convertible pair_ctx [0; 10] pair_prog.
Proof.
  split; [|split; [|split]].
  - split; [eexists; reflexivity|]. split.
    { simpl. repeat match goal with
        | |- _ /\ _ => split | |- exists _, _ => eexists | |- arr_wf _ => apply ascalar_wf | |- _ = _ => reflexivity | |- True => exact I end. }
    split; [simpl; unfold int_typed; repeat (split || eexists || reflexivity || constructor)|]. split; [simpl; repeat split; auto|].
    split; [simpl; intuition congruence|].
    intros q. unfold pair_ctx, upd, empty_env. destruct (sym_eqb q (SV 10)) eqn:Q.
    { apply sym_eqb_eq in Q. subst. exists 10. simpl. auto. }
    destruct (sym_eqb q (SV 0)) eqn:Q'; [|congruence]. apply sym_eqb_eq in Q'. subst. exists 0. simpl. auto.
  - simpl. repeat match goal with |- _ /\ _ => split | |- True => exact I | |- forall _, _ => intros ? Hs; inversion Hs; reflexivity end.
  - intros s t. unfold pair_ctx, upd, empty_env. destruct (sym_eqb s (SV 10)); [intros H; injection H as <-; reflexivity|].
    destruct (sym_eqb s (SV 0)); [|discriminate]. intros H. injection H as <-. reflexivity.
  - intros x [<-|[<-|[]]]; vm_compute; lia.
Qed.
Example C41_numpy_elementwise_example :
  convertible pair_ctx [0; 10] pair_prog /\ (forall a b, env_typed pair_ctx (pair_env a b)) /\
  struct_of_arrays 20 pair_prog = Ok pair_conv /\ find_size_classes pair_conv = Ok (classes_of pair_conv) /\
  bsyms pair_conv = [SX 1; SX 11; SX 14] /\ direct (all_on true) pair_sizes (counts []) pair_conv = true /\
  loopless (counts []) pair_conv = true /\ (forall a b, are_sizes [] (pair_env a b)) /\
  above 15 pair_conv /\ weight pair_conv <= 60 /\
  (exists y0, lower (all_on true) pair_sizes 60 pair_conv = Ok y0) /\
  mtransform (code_flags (all_on true)) pair_sizes 20 60 pair_prog = Ok pair_code /\ stage_in_array 15 pair_code = Ok pair_staged /\
  (forall a b c, sub_of (YConst c) pair_staged -> nth_error (pair_heap a b) 2 = Some c) /\
  (forall a b, passed [0; 10] (pair_env a b) (absE (pair_heap a b) pair_henv)) /\
  (forall s, pair_henv s <> None -> exists x, s = SV x /\ In x [0; 10]) /\
  (forall a b s u, pair_henv s = Some u -> hval_ok (pair_heap a b) u) /\
  (forall o a b i, sub_of (YBin o a b (Some i)) pair_staged -> keeps_kind o = true) /\
  den (pair_env [3; 4] [5; 6])%Z pair_prog = Ok (VArr (iarr [2] [25; 36]%Z)) /\
  exists w h' H',
    @mexec zfloat no_externs (fast_edge_pad (fun _ => 99%Z)) (fun _ => 2) (fun _ _ => false) no_share pair_staged
      (pair_heap [3; 4] [5; 6], pair_henv)%Z = Ok (w, (h', H')) /\
    abs h' w = YA (iarr [2] [25; 36]%Z).
Proof.
  split; [exact pair_convertible|]. split.
  { intros a b q t v. unfold pair_ctx, pair_env, upd, empty_env. destruct (sym_eqb q (SV 10)); [|destruct (sym_eqb q (SV 0)); [|discriminate]];
    intros H1 H2; injection H1 as <-; injection H2 as <-; (split; [apply iarr_wf|reflexivity]). }
  split; [vm_compute; reflexivity|]. split; [apply classes_ok; vm_compute; reflexivity|]. split; [vm_compute; reflexivity|].
  split; [vm_compute; reflexivity|]. split; [vm_compute; reflexivity|]. split; [intros a b x []|].
  split; [apply aboveb_sound; vm_compute; reflexivity|]. split; [apply Nat.leb_le; vm_compute; reflexivity|].
  split; [eexists; vm_compute; reflexivity|]. split; [vm_compute; reflexivity|]. split; [vm_compute; reflexivity|]. split.
  { intros a b c H. apply (node_where (fun n => match n with YConst _ => true | _ => false end)) in H; auto. vm_compute in H.
    repeat (destruct H as [H|H]; [try discriminate; injection H as <-; vm_compute; reflexivity|]). destruct H. }
  split.
  { intros a b. split; [reflexivity|]. intros x [<-|[<-|[]]]; eexists; (split; [reflexivity|split; [apply iarr_wf|reflexivity]]). }
  split. { intros s. unfold pair_henv, upd, empty_env. destruct (sym_eqb s (SV 10)) eqn:Q; [apply sym_eqb_eq in Q; intros _; exists 10; simpl; auto|].
    destruct (sym_eqb s (SV 0)) eqn:Q'; [|congruence]. apply sym_eqb_eq in Q'. intros _. exists 0. simpl. auto. }
  split. { intros a b s v. unfold pair_henv, upd, empty_env. destruct (sym_eqb s (SV 10)); [|destruct (sym_eqb s (SV 0)); [|discriminate]];
    intros H; injection H as <-; unfold hval_ok, ref_ok; cbn; repeat split; auto; lia. }
  split. { intros o a b i H. apply (node_where (fun n => match n with YBin _ _ _ (Some _) => true | _ => false end)) in H; auto. vm_compute in H.
    repeat (destruct H as [H|H]; [try discriminate; injection H as <- <- <- <-; vm_compute; reflexivity|]). destruct H. }
  split; [vm_compute; reflexivity|]. eexists _, _, _. split; vm_compute; reflexivity.
Qed.

(** Matrix multiplication: array(lambda i, j: fold(0.0, lambda k, acc: acc + a[i, k] * b[k, j])) *)
Definition fmat_ : ty := TVec fvec_.
Definition ma : phi := PStore (SV 0) fmat_.
Definition mb : phi := PStore (SV 10) fmat_.
Definition mm_prog : phi :=
  PVec 0 (PDim ma 0) (PVec 1 (PDim mb 1)
    (PFold 2 (PAssertEq (PDim ma 1) [PDim ma 1; PDim mb 0]) 3 (cf 0)
      (PBin BAdd (PStore (SV 3) (TScalar KFloat))
         (PBin BMul (PGet (PGet ma (idx_ 0)) (PStore (SV 2) (TScalar KInt))) (PGet (PGet mb (PStore (SV 2) (TScalar KInt))) (idx_ 1)))))).
Definition mm_ctx : tctx := upd (upd empty_env (SV 0) fmat_) (SV 10) fmat_.
Definition mm_env : env := upd (upd empty_env (SV 0) (VArr (farr [2; 2] [1; 2; 3; 4]%Z))) (SV 10) (VArr (farr [2; 1] [5; 6]%Z)).
Definition mm_args : yenv := upd (upd empty_env (SV 0) (YA (farr [2; 2] [1; 2; 3; 4]%Z))) (SV 10) (YA (farr [2; 1] [5; 6]%Z)).
Definition mm_code : yarr := match lower (loops_only true) (class_oracle (classes_of mm_prog)) 20 mm_prog with Ok y => y | Err _ => YTuple [] end.
Example C19_direct_example :
  let s := classes_of mm_prog in
  find_size_classes mm_prog = Ok s /\ lower (loops_only true) (class_oracle s) 20 mm_prog = Ok mm_code /\
  well_formed mm_ctx [0; 10] mm_prog /\ NoDup (bsyms mm_prog) /\ passed [0; 10] mm_env mm_args /\ env_typed mm_ctx mm_env /\
  loops_run mm_env mm_prog /\ direct (loops_only true) (class_oracle s) (counts []) mm_prog = true /\ are_sizes [] mm_env /\
  den mm_env mm_prog = Ok (VArr (farr [2; 1] [17; 39]%Z)) /\
  @yeval zfloat no_externs (fast_edge_pad (fun _ => 99%Z)) mm_args mm_code = Ok (YA (farr [2; 1] [17; 39]%Z)).
Proof.
  cbv zeta. split; [apply classes_ok; vm_compute; reflexivity|]. split; [vm_compute; reflexivity|]. split.
  { split; [eexists; reflexivity|]. split.
    { simpl. repeat match goal with
        | |- _ /\ _ => split | |- exists _, _ => eexists | |- arr_wf _ => apply ascalar_wf | |- _ = _ => reflexivity | |- True => exact I end. }
    split; [simpl; repeat (split || constructor); auto; reflexivity|]. split; [simpl; repeat split; auto|].
    split; [simpl; intuition congruence|].
    intros q. unfold mm_ctx, upd, empty_env. destruct (sym_eqb q (SV 10)) eqn:Q.
    { apply sym_eqb_eq in Q. subst. exists 10. simpl. auto. }
    destruct (sym_eqb q (SV 0)) eqn:Q'; [|congruence]. apply sym_eqb_eq in Q'. subst. exists 0. simpl. auto. }
  split; [simpl; repeat constructor; simpl; intuition discriminate|].
  split.
  { split; [reflexivity|]. intros x [<-|[<-|[]]]; eexists; (split; [reflexivity|split; [|reflexivity]]); (split; [reflexivity|]; repeat constructor). }
  split.
  { intros q t v. unfold mm_ctx, mm_env, upd, empty_env. destruct (sym_eqb q (SV 10)); [|destruct (sym_eqb q (SV 0)); [|discriminate]];
    intros H1 H2; injection H1 as <-; injection H2 as <-; (split; [|reflexivity]; split; [reflexivity|]; repeat constructor). }
  split; [|split; [vm_compute; reflexivity|split; [intros x []|split; vm_compute; reflexivity]]].
  unfold mm_prog. cbn [loops_run]. split; [exact I|].
  split; [intros v z D V; injection D as <-; injection V as <-; lia|]. split; [exact I|].
  split; [intros v z D V; injection D as <-; injection V as <-; lia|]. split; [simpl; auto|]. split; [exact I|].
  intros v z D V. vm_compute in D. injection D as <-. vm_compute in V. injection V as <-. split; [lia|]. split; [simpl; auto 10|].
  intros axis v0 vn D0 Dn _. vm_compute in D0, Dn. injection D0 as <-. injection Dn as <-. destruct axis; reflexivity.
Qed.
End Samples.

Print Assumptions C19_direct.
Print Assumptions C19_direct_numpy.
Print Assumptions C19_elementwise.
Print Assumptions C19_elementwise_numpy.
Print Assumptions C41_numpy_elementwise.
