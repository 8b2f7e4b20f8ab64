(** The code as the array backends get it (phi_to_yarr.py:25-316, with the table):
    its binders, variables and constants come from the program. *)
From Verif Require Import Base Scalar Tensor Types Sym Phi Den Term PhiTerm DenFree SpecPhi Lining Outline Typing
  Sizes ClipShift NdOps NdFacts Yarr YTerm YWf Axial AxialFacts AxialOps Codegen IndexOps CodegenGet CodegenCtx CodegenCases Subst
  CodegenAxes Soa SoaFacts YOps CodegenSafe CodegenRed CodegenLocal SizeSound Compile CodegenMemo MemoSound Tidy CodeBinders Cancel
  OutlineBinders Dominators InlineMemo OutlinePass Inplace Pipeline.

Section Generic.
Context {T : Type} {O : TermOps T} {L : TermLaws T}.

Lemma free_node (s : sym) (t : T) : isfree s t -> exists n, sub_of n t /\ symof n = Some s.
Proof.
  induction 1 as [t H|t k c sc Hc _ _ (n & Hn & Hs) _]; [exists t; split; [constructor|auto]|].
  exists n. split; auto. eapply sub_step; eauto. eapply nth_error_In; eauto.
Qed.
Lemma free_or_bound (s : sym) (n t : T) : sub_of n t -> symof n = Some s -> isfree s t \/ binds s t.
Proof.
  induction 1 as [t|n c t Hc Hn IH]; intros H; [left; constructor; auto|].
  destruct (IH H) as [F|B]; [|right; eapply binds_sub; eauto].
  apply In_nth_error in Hc as (k & Hk). destruct (nth_error_scope t k c Hk) as (sc & Hs).
  destruct (in_dec sym_eq_dec s sc) as [I|N]; [right|left; eapply free_sub; eauto].
  apply binds_self. eapply scopes_capt; [eapply nth_error_In; exact Hs|auto].
Qed.
End Generic.

(** * The clean-up passes *)
Section Cleanup.
Context {FO : FloatOps} {EX : Externs}.

Definition exposes (f : yarr -> yarr) : Prop :=
  forall e, exists m, sub_of m e /\ f e = ymap f m /\ forall s, isfree s m -> isfree s e.

Lemma ymap_capt f (e : yarr) : ycapt (ymap f e) = ycapt e.
Proof. destruct e; reflexivity. Qed.
Lemma ymap_sym f (e : yarr) : ysym (ymap f e) = ysym e.
Proof. destruct e; reflexivity. Qed.
Lemma ymap_scopes f (e : yarr) : yscopes (ymap f e) = yscopes e.
Proof.
  assert (Q : forall e : yarr, ycapt e = [] -> yscopes e = map (fun _ => []) (ysubs e)) by (destruct e0; try discriminate; reflexivity).
  destruct (ycapt e) eqn:C; [|destruct e; try discriminate; reflexivity].
  rewrite !Q; [|auto|rewrite ymap_capt; auto]. rewrite ymap_subs, map_map. auto.
Qed.

Lemma free_below (e c : yarr) s : ycapt e = [] -> In c (ysubs e) -> isfree s c -> isfree s e.
Proof.
  intros C Hc F. apply In_nth_error in Hc as (k & Hk). destruct (nth_error_scope (O := YOpsT) e k c Hk) as (sc & Hs).
  eapply free_sub; eauto. intros I. assert (In s (capt e)) as K by (eapply scopes_capt; [eapply nth_error_In; eauto|auto]).
  change (In s (ycapt e)) in K. rewrite C in K. destruct K.
Qed.

Lemma shape_exposes : exposes cancel_shape_ops.
Proof.
  intros e. pattern e. apply (tsize_ind (fun e => exists m, sub_of m e /\ cancel_shape_ops e = ymap cancel_shape_ops m /\ forall s, isfree s m -> isfree s e)).
  clear e. intros e IH.
  assert (Z : exists m, sub_of m e /\ ymap cancel_shape_ops e = ymap cancel_shape_ops m /\ forall s, isfree s m -> isfree s e).
  { exists e. split; [constructor|]. auto. }
  assert (D : forall c, In c (ysubs e) -> ycapt e = [] -> exists m, sub_of m e /\ cancel_shape_ops c = ymap cancel_shape_ops m /\ forall s, isfree s m -> isfree s e).
  { intros c Hc C. destruct (IH c) as (m & Hm & Q & F); [apply (tsize_sub (O := YOpsT)); auto|]. exists m. split; [eapply sub_step; eauto|]. split; auto.
    intros s Hs. eapply free_below; eauto. }
  destruct e; try exact Z; cbn [cancel_shape_ops].
  - destruct (list_nat_eqb _ _); [|exact Z]. apply D; simpl; auto.
  - destruct axes; [|exact Z]. apply D; simpl; auto.
  - destruct axes; [|exact Z]. apply D; simpl; auto.
Qed.
Lemma tuple_exposes : exposes cancel_tuple_ops.
Proof.
  intros e. pattern e. apply (tsize_ind (fun e => exists m, sub_of m e /\ cancel_tuple_ops e = ymap cancel_tuple_ops m /\ forall s, isfree s m -> isfree s e)).
  clear e. intros e IH.
  assert (Z : exists m, sub_of m e /\ ymap cancel_tuple_ops e = ymap cancel_tuple_ops m /\ forall s, isfree s m -> isfree s e).
  { exists e. split; [constructor|]. auto. }
  destruct e; try exact Z. match goal with |- context [YUntuple ?a ?b ?c] => rename a into p, b into n, c into t end.
  destruct t; try exact Z. match goal with |- context [YTuple ?a] => rename a into ops end. cbn [cancel_tuple_ops].
  rewrite nth_error_map. destruct (nth_error ops p) as [c|] eqn:N; [|exact Z]. cbn [option_map]. apply nth_error_In in N.
  assert (S1 : sub_of c (YTuple ops)) by (eapply sub_step; [exact N|constructor]).
  destruct (IH c) as (m & Hm & Q & F).
  { pose proof (tsize_sub (O := YOpsT) (YTuple ops) c N). pose proof (tsize_sub (O := YOpsT) (YUntuple p n (YTuple ops)) (YTuple ops) (or_introl eq_refl)). lia. }
  exists m. split; [|split; auto].
  - eapply sub_step; [left; reflexivity|]. eapply sub_step; eauto.
  - intros s Hs. eapply (free_below (YUntuple p n (YTuple ops)) (YTuple ops)); [auto|simpl; auto|]. eapply (free_below (YTuple ops) c); auto.
Qed.

Variable f : yarr -> yarr.
Hypothesis EXP : exposes f.
Lemma exposes_nodes e n : sub_of n (f e) -> exists m, sub_of m e /\ n = ymap f m.
Proof. apply cleanup_nodes. intros e0. destruct (EXP e0) as (m & A & B & _). eauto. Qed.
Lemma exposes_free s : forall e : yarr, isfree s (f e) -> isfree s e.
Proof.
  apply (tsize_ind (fun e => isfree s (f e) -> isfree s e)). intros e IH H.
  destruct (EXP e) as (m & Hm & Q & F). apply F. rewrite Q in H. inversion H as [t S|t k c sc Hc Hs Hf Hn]; subst.
  - constructor. change (ysym (ymap f m) = Some s) in S. rewrite ymap_sym in S. exact S.
  - change (nth_error (ysubs (ymap f m)) k = Some c) in Hc. change (nth_error (yscopes (ymap f m)) k = Some sc) in Hs.
    rewrite ymap_subs, nth_error_map in Hc. rewrite ymap_scopes in Hs.
    destruct (nth_error (ysubs m) k) as [c0|] eqn:N; [|discriminate]. injection Hc as <-.
    eapply free_sub; [exact N|exact Hs| |exact Hn]. apply IH; auto.
    pose proof (tsize_sub (O := YOpsT) m c0 (nth_error_In _ _ N)). apply sub_of_size in Hm. destruct Hm; [subst; auto|lia].
Qed.
Lemma exposes_distinct (e : yarr) : distinct_binders e -> distinct_binders (f e).
Proof.
  intros D n s Hn Hs. apply exposes_nodes in Hn as (m & Hm & ->). change (In s (ycapt (ymap f m))) in Hs. rewrite ymap_capt in Hs.
  destruct (D m s Hm Hs) as [A B]. split; [intros K; apply A, exposes_free; auto|].
  intros n' Hn' Hs'. apply exposes_nodes in Hn' as (m' & Hm' & ->). change (In s (ycapt (ymap f m'))) in Hs'. rewrite ymap_capt in Hs'.
  f_equal. auto.
Qed.
Lemma exposes_above nxt (e : yarr) : above nxt e -> above nxt (f e).
Proof.
  intros A n x Hn H. apply exposes_nodes in Hn as (m & Hm & ->). apply (A m x Hm).
  change (In (SV x) (ycapt (ymap f m)) \/ ysym (ymap f m) = Some (SV x)) in H. rewrite ymap_capt, ymap_sym in H. exact H.
Qed.
Lemma exposes_capt (e n : yarr) : sub_of n (f e) -> exists m, sub_of m e /\ ycapt n = ycapt m.
Proof. intros H. apply exposes_nodes in H as (m & Hm & ->). exists m. split; auto. apply ymap_capt. Qed.
Lemma exposes_const (e : yarr) a : sub_of (YConst a) (f e) -> sub_of (YConst a) e.
Proof. intros H. apply exposes_nodes in H as (m & Hm & Q). destruct m; try discriminate. simpl in Q. injection Q as ->. exact Hm. Qed.
End Cleanup.

(** * The code of a program that binds every symbol once *)
Section Stage.
Context {FO : FloatOps} {EX : Externs}.

(** phi_to_yarr.py:25-316 with the table [transformed] *)
Definition mtransform (fl : flags) (orc : oracle) (fuel1 fuel2 : nat) (p : phi) : res yarr :=
  let* q := struct_of_arrays fuel1 p in
  let* y := mlower fl orc fuel2 q in
  Ok (cancel_tuple_ops (cancel_shape_ops y)).

Variable fl : flags.
Variable orc : oracle.
Variable q : phi.
Hypothesis DB : distinct_binders q.
Notation vis := (visits fl orc q).
Hypothesis N_inj : forall e e', vis e -> vis e' -> needs_name e = true -> needs_name e' = true -> name_of orc e = name_of orc e' -> e = e'.
Hypothesis N_new : forall e, vis e -> needs_name e = true -> ~ In (SX (name_of orc e)) (syms q).
Hypothesis NE : forall c size acc init body, vis (PFold c size acc init body) -> no_einsum fl (PFold c size acc init body) = true.
Hypothesis AC : forall c size acc init body elem r, vis (PFold c size acc init body) -> reduces fl orc c size acc init body = Some (elem, r) ->
  strict fl = true \/ ~ In (SV acc) (fsyms elem).
Variable fuel : nat.
Variable y : yarr.
Hypothesis W : weight q <= fuel.
Hypothesis LO : lower fl orc fuel q = Ok y.

Let TD : CodegenLocal.tidy fl orc q := distinct_tidy fl orc q DB N_inj N_new NE AC.

Lemma rsub_captured g (n : phi) : captured n <> [] -> captured (rsub g n) = captured n.
Proof. destruct n as [|[c|]| | | | | | | | | | | | | | |]; simpl; auto. intros H. destruct (H eq_refl). Qed.

(** A node of the code that binds symbols binds those of a node of the program. *)
Lemma code_binder d s : sub_of d y -> In s (ycapt d) -> exists n, sub_of n q /\ captured n = ycapt d.
Proof.
  intros Hd Hs. destruct (lower_binders fl orc q TD fuel y d s W LO Hd Hs) as (n & V & B & C).
  assert (X : exists x, s = SV x) by (destruct d; simpl in Hs; try tauto; repeat (destruct Hs as [<-|Hs]; eauto); destruct Hs).
  destruct X as (x & ->). destruct (owner fl orc q DB N_inj n (SV x) V B) as [(m & Vm & Hm)|(f & _ & _ & Q & _)]; [|discriminate].
  exists m. split; [eapply ver_sub; eauto|]. rewrite C. apply ver_inv in Vm as (g & _ & _ & ->). symmetry. apply rsub_captured. intros Z. rewrite Z in Hm. destruct Hm.
Qed.

Theorem code_distinct : distinct_binders y.
Proof. exact (lower_distinct fl orc q TD fuel y W LO). Qed.
Theorem code_free s : isfree s y -> free_in s q.
Proof. apply (lower_free fl orc q TD fuel y s W LO). Qed.
Theorem code_consts a : (forall b, sub_of (PConst b) q -> arr_wf b) -> sub_of (YConst a) y -> arr_wf a.
Proof. apply (lower_consts fl orc q TD fuel y a W LO). Qed.
Theorem code_sources a : sub_of (YConst a) y -> sub_of (PConst a) q \/ exists z, a = ascalar (SI z).
Proof. apply (lower_sources fl orc q TD fuel y a W LO). Qed.
Theorem code_above nxt : above nxt q -> above nxt y.
Proof.
  intros A. assert (B : forall x, binds (SV x) y -> x < nxt).
  { intros x (d & Hd & Hs). destruct (code_binder d (SV x) Hd Hs) as (n & Hn & C). apply (A n x Hn). left. change (In (SV x) (captured n)). rewrite C. exact Hs. }
  intros n x Hn [H|H]; [apply B; exists n; auto|].
  destruct (free_or_bound (SV x) n y Hn H) as [F|F]; auto. apply code_free in F. apply free_in_isfree in F. apply free_node in F as (m & Hm & Q).
  apply (A m x Hm). auto.
Qed.
Theorem code_apart X n : (forall m, sub_of m q -> NoDup (capt m) /\ forall s, In s (capt m) -> ~ In s X) ->
  sub_of n y -> NoDup (capt n) /\ forall s, In s (capt n) -> ~ In s X.
Proof.
  intros H Hn. destruct (ycapt n) as [|s l] eqn:C.
  - change (NoDup (ycapt n) /\ forall s, In s (ycapt n) -> ~ In s X). rewrite C. split; [constructor|intros s []].
  - destruct (code_binder n s Hn) as (m & Hm & Q); [rewrite C; simpl; auto|].
    change (NoDup (ycapt n) /\ forall s, In s (ycapt n) -> ~ In s X). rewrite <- Q. exact (H m Hm).
Qed.
End Stage.
