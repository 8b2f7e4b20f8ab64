(** Properties of executing array code with buffers and a mutable environment:
    C21, and C30 for array code. *)
From Verif Require Import Base Scalar Tensor Types Sym Phi Den NdOps Term PhiTerm GenCheck Yarr YTerm YFit
  Machine MachineSim MachineRun MachineSafe Inplace Sample.

Section Props.
Context {FO : FloatOps} {EX : Externs} {PO : PadOps}.
(** Where constants live, when a bound array is copied, and when a library call
    returns a view of one of its operands. *)
Variable cl : arr -> nat.
Variable copies : heap -> href -> bool.
Variable shares : heap -> list href -> arr -> option href.

(** A state code may start from: every variable refers to existing buffers, the
    program's constants are in the heap, the code's own binders are distinct
    along every path and not bound yet, and what the library shares is what it
    returns.  Any two variables may share a buffer. *)
Definition ready (X : list sym) (p : yarr) (h : heap) (E : henv) : Prop :=
  shares_ok shares /\ yfresh X p /\ (forall s, E s <> None -> In s X) /\
  (forall s v, E s = Some v -> hval_ok h v) /\
  (forall a, sub_of (YConst a) p -> nth_error h (cl a) = Some a).

(** * C21 *)

(** What the markers of the pass satisfy by construction: the buffer written to
    is a temporary's. *)
Theorem C21_marks_temporaries (p : yarr) o a b i :
  sub_of (YBin o a b (Some i)) (apply_inplace p) ->
  i = 0 /\ is_temporary a = true \/ i = 1 /\ is_temporary b = true.
Proof.
  intros H. apply apply_inplace_sub in H as (m & _ & H). symmetry in H.
  apply apply_inplace_bin in H as [H|[[H1 H2]|[H1 H2]]]; [discriminate| |].
  - injection H1 as ->. auto.
  - injection H1 as ->. auto.
Qed.

(** No array that existed before the run — an argument, a constant, the value of
    any variable — is changed, by any program at all: comparisons, repeated
    binders and arbitrary sharing included. *)
Theorem C21_arguments_unchanged (p : yarr) (h : heap) (E : henv) v h' E' :
  (forall h ops b r, shares h ops b = Some r -> exists r0, In r0 ops /\ rloc r0 = rloc r) ->
  (forall s w, E s = Some w -> hval_ok h w) ->
  (forall a, sub_of (YConst a) p -> cl a < length h) ->
  mexec cl copies shares (apply_inplace p) (h, E) = Ok (v, (h', E')) ->
  (forall l a, nth_error h l = Some a -> nth_error h' l = Some a) /\
  (forall s w, E s = Some w -> abs h' w = abs h w).
Proof.
  intros S EO K H. assert (C : run h E (mexec cl copies shares (apply_inplace p)) (fresh (length h) (apply_inplace p))).
  { apply mexec_safe; auto.
    - intros a Ha. apply apply_inplace_sub in Ha as (m & M1 & M2). symmetry in M2.
      apply apply_inplace_const in M2. subst. auto.
    - intros o a b i Hs. split; intros ->; apply C21_marks_temporaries in Hs as [[Q Hs]|[Q Hs]]; auto; discriminate. }
  unfold run in C. rewrite H in C. destruct C as ((t & ->) & EO' & _). split.
  - intros l a Hl. rewrite nth_error_app1; auto. apply nth_error_Some. congruence.
  - intros s w Hw. apply abs_ext; [apply hext_app|]. eapply EO; eauto.
Qed.

Lemma ready_side X p h E : ready X p h E ->
  (forall o a b i, sub_of (YBin o a b (Some i)) (apply_inplace p) -> keeps_kind o = true) ->
  side cl X (apply_inplace p) h E.
Proof.
  intros (_ & R1 & R2 & R3 & R4) K. split; [apply apply_inplace_fresh; auto|]. split.
  { intros o a b i H. split; intros ->; (split; [|eapply K; eauto]);
      apply C21_marks_temporaries in H as [[Q H]|[Q H]]; auto; discriminate. }
  split; auto. split; auto.
  intros a Ha. apply apply_inplace_sub in Ha as (m & M1 & M2). symmetry in M2. apply apply_inplace_const in M2. subst.
  auto.
Qed.

(** The marked program runs exactly when every marked operation fits into the
    buffer it is computed into ([yeval_fit]); it yields that value, leaves every
    buffer that existed before as it was, and restores the environment — if no
    comparison was marked. *)
Theorem C21_inplace_exact X (p : yarr) (h : heap) (E : henv) b :
  ready X p h E ->
  (forall o a b i, sub_of (YBin o a b (Some i)) (apply_inplace p) -> keeps_kind o = true) ->
  (yeval_fit (absE h E) (apply_inplace p) = Ok b <->
   exists v h' E', mexec cl copies shares (apply_inplace p) (h, E) = Ok (v, (h', E')) /\ abs h' v = b) /\
  forall v h' E', mexec cl copies shares (apply_inplace p) (h, E) = Ok (v, (h', E')) ->
    (forall s, E' s = E s) /\ (forall l a, nth_error h l = Some a -> nth_error h' l = Some a).
Proof.
  intros R K. pose proof (mexec_sim cl copies shares (proj1 R) true _ _ _ _ (ready_side _ _ _ _ R K)) as S.
  unfold MachineSim.sim in S.
  destruct (mexec cl copies shares (apply_inplace p) (h, E)) as [[v [h' E']]|] eqn:H.
  - destruct (yeval_fit (absE h E) (apply_inplace p)) as [c|] eqn:Q; [|destruct S].
    destruct S as ((t & ->) & EO & AG & (GD & AB) & _). split.
    + split.
      * intros Hc. injection Hc as ->. eauto 6.
      * intros (v1 & h1 & E1 & H1 & H2). injection H1 as <- <- <-. congruence.
    + intros v1 h1 E1 H1. injection H1 as <- <- <-. split; [intros s; apply AG; intros []|].
      intros l a Hl. rewrite nth_error_app1; auto. apply nth_error_Some. congruence.
  - destruct (yeval_fit (absE h E) (apply_inplace p)) as [c|] eqn:Q; [discriminate|]. split; [|discriminate].
    split; [discriminate|]. intros (v1 & h1 & E1 & H1 & _). discriminate.
Qed.

(** Running the marked program gives the value of the unmarked program, leaves
    every buffer that existed before as it was, and restores the environment —
    if no comparison was marked. *)
Theorem C21_inplace_sound X (p : yarr) (h : heap) (E : henv) v h' E' :
  ready X p h E ->
  (forall o a b i, sub_of (YBin o a b (Some i)) (apply_inplace p) -> keeps_kind o = true) ->
  mexec cl copies shares (apply_inplace p) (h, E) = Ok (v, (h', E')) ->
  yeval (absE h E) p = Ok (abs h' v) /\
  (forall l a, nth_error h l = Some a -> nth_error h' l = Some a) /\
  (forall s, E' s = E s).
Proof.
  intros R K H. destruct (C21_inplace_exact X p h E (abs h' v) R K) as [A B].
  destruct (B _ _ _ H) as [B1 B2]. split; auto.
  apply apply_inplace_yeval. apply fit_yeval. apply A. eauto 6.
Qed.

(** * C30 *)

Lemma ready_plain X p h E : ready X p h E -> unmarked p -> side cl X p h E.
Proof.
  intros (_ & R1 & R2 & R3 & R4) U. split; auto. split.
  { intros o a b i H. rewrite (U _ _ _ _ H). split; discriminate. }
  split; auto.
Qed.

Lemma fit_unmarked p R b : unmarked p -> (yeval R p = Ok b <-> yeval_fit R p = Ok b).
Proof. intros U. split; [apply yeval_fits; exact U|apply fit_yeval]. Qed.

(** Code without markers runs exactly when its value is defined; it yields that
    value, and leaves the environment and all buffers as they were. *)
Theorem C30_array_code X (p : yarr) (h : heap) (E : henv) b :
  ready X p h E -> unmarked p ->
  (yeval (absE h E) p = Ok b <->
   exists v h' E', mexec cl copies shares p (h, E) = Ok (v, (h', E')) /\ abs h' v = b) /\
  forall v h' E', mexec cl copies shares p (h, E) = Ok (v, (h', E')) ->
    (forall s, E' s = E s) /\ (forall l a, nth_error h l = Some a -> nth_error h' l = Some a).
Proof.
  intros R U. pose proof (mexec_sim cl copies shares (proj1 R) true _ _ _ _ (ready_plain _ _ _ _ R U)) as S.
  rewrite (fit_unmarked p (absE h E) b U). unfold MachineSim.sim in S.
  destruct (mexec cl copies shares p (h, E)) as [[v [h' E']]|] eqn:H.
  - destruct (yeval_fit (absE h E) p) as [c|] eqn:Q; [|destruct S].
    destruct S as ((t & ->) & EO & AG & (GD & AB) & _). split.
    + split.
      * intros Hc. injection Hc as ->. eauto 6.
      * intros (v1 & h1 & E1 & H1 & H2). injection H1 as <- <- <-. congruence.
    + intros v1 h1 E1 H1. injection H1 as <- <- <-. split; [intros s; apply AG; intros []|].
      intros l a Hl. rewrite nth_error_app1; auto. apply nth_error_Some. congruence.
  - destruct (yeval_fit (absE h E) p) as [c|] eqn:Q; [discriminate|]. split; [|discriminate].
    split; [discriminate|]. intros (v1 & h1 & E1 & H1 & _). discriminate.
Qed.

(** Running again, from the state the first run left behind, succeeds and gives
    the same value. *)
Theorem C30_array_repeatable X (p : yarr) (h : heap) (E : henv) v h1 E1 :
  ready X p h E -> unmarked p ->
  mexec cl copies shares p (h, E) = Ok (v, (h1, E1)) ->
  exists w h2 E2, mexec cl copies shares p (h1, E1) = Ok (w, (h2, E2)) /\ abs h2 w = abs h1 v.
Proof.
  intros R U H. pose proof R as (R0 & R1 & R2 & R3 & R4).
  destruct (C30_array_code X p h E (abs h1 v) R U) as [A B]. destruct (B _ _ _ H) as [B1 B2].
  assert (X1 : hext h h1).
  { pose proof (mexec_sim cl copies shares (proj1 R) true _ _ _ _ (ready_plain _ _ _ _ R U)) as S.
    unfold MachineSim.sim in S. rewrite H in S. destruct (yeval_fit (absE h E) p); [apply S|destruct S]. }
  assert (R' : ready X p h1 E1).
  { split; auto. split; auto. split; [intros s; rewrite B1; auto|]. split.
    - intros s w Hs. rewrite B1 in Hs. eapply hval_ok_ext; eauto.
    - intros a Ha. auto. }
  apply (C30_array_code X p h1 E1 (abs h1 v) R' U).
  apply (yeval_req (absE h E) (absE h1 E1) p).
  - intros s. symmetry. apply absE_ext; auto.
  - apply A. eauto 6.
Qed.

End Props.

(** * Examples and counterexamples *)

Definition no_share : @heap zfloat -> list (@href zfloat) -> @arr zfloat -> option (@href zfloat) := fun _ _ _ => None.
Lemma no_share_ok : shares_ok no_share.
Proof. intros h ops b r H. discriminate. Qed.

(** Two variables and the transpose of one of them share a buffer; the chain of
    additions reuses the first sum's buffer, and the variables keep theirs. *)
Definition c21_heap : @heap zfloat := [farr [2] [1; 2]%Z; iarr [] [3]%Z].
Definition c21_cl (a : @arr zfloat) : nat := 1.
Definition c21_env : @henv zfloat :=
  upd (upd (fun _ => None) (SV 0) (HA (whole 0))) (SV 1) (HA (whole 0)).
Definition c21_prog : @yarr zfloat :=
  let x := YVar 0 [(1, KFloat)] in let y := YVar 1 [(1, KFloat)] in
  YFold 2 (YConst (iarr [] [3]%Z)) 3 x
    (YBin BAdd (YVar 3 [(1, KFloat)]) (YBin BMul (YBin BAdd x y None) (YTranspose [0] y) None) None).

Example C21_example :
  apply_inplace c21_prog =
    (let x := YVar 0 [(1, KFloat)] in let y := YVar 1 [(1, KFloat)] in
     YFold 2 (YConst (iarr [] [3]%Z)) 3 x
       (YBin BAdd (YVar 3 [(1, KFloat)]) (YBin BMul (YBin BAdd x y None) (YTranspose [0] y) (Some 0)) (Some 1))) /\
  (exists v h' E', @mexec zfloat no_externs edge_pads c21_cl (fun _ _ => false) no_share
     (apply_inplace c21_prog) (c21_heap, c21_env) = Ok (v, (h', E')) /\ abs h' v = YA (farr [2] [7; 26]%Z) /\
     nth_error h' 0 = Some (farr [2] [1; 2]%Z) /\ E' (SV 3) = None) /\
  @ready zfloat c21_cl no_share [SV 0; SV 1] c21_prog c21_heap c21_env /\
  (forall o a b i, sub_of (YBin o a b (Some i)) (apply_inplace c21_prog) -> keeps_kind o = true) /\
  @unmarked zfloat c21_prog.
Proof.
  split; [vm_compute; reflexivity|]. split.
  { eexists _, _, _. split; [vm_compute; reflexivity|]. split; [vm_compute; reflexivity|]. split; vm_compute; reflexivity. }
  split.
  { split; [apply no_share_ok|]. split; [cbn; intuition congruence|]. split.
    - intros s. unfold c21_env, upd. destruct (sym_eqb s (SV 1)) eqn:E1; [apply sym_eqb_eq in E1; subst; simpl; auto|].
      destruct (sym_eqb s (SV 0)) eqn:E0; [apply sym_eqb_eq in E0; subst; simpl; auto|congruence].
    - split.
      + intros s v. unfold c21_env, upd.
        destruct (sym_eqb s (SV 1)); [|destruct (sym_eqb s (SV 0)); [|discriminate]];
          intros H; injection H as <-; vm_compute; lia.
      + intros a H. apply gnodes_spec in H. vm_compute in H.
        repeat (destruct H as [H|H]; [try discriminate; injection H as <-; vm_compute; reflexivity|]). destruct H. }
  split.
  - intros o a b i H. apply gnodes_spec in H. vm_compute in H.
    repeat (destruct H as [H|H]; [try discriminate; injection H as <- <- <- <-; vm_compute; reflexivity|]). destruct H.
  - intros o a b i H. apply gnodes_spec in H. vm_compute in H.
    repeat (destruct H as [H|H]; [try discriminate; injection H as <- <- <- <-; reflexivity|]). destruct H.
Qed.

(** The condition on comparisons is needed: (x + y) < x is computed into the
    float buffer of x + y, so the result is an array of floats, not of
    booleans. *)
Theorem C21_comparison_refuted :
  exists (p : @yarr zfloat) v h' E',
    ready c21_cl no_share [SV 0; SV 1] p c21_heap c21_env /\
    @mexec zfloat no_externs edge_pads c21_cl (fun _ _ => false) no_share
      (apply_inplace p) (c21_heap, c21_env) = Ok (v, (h', E')) /\
    exists a b, @yeval zfloat no_externs edge_pads (absE c21_heap c21_env) p = Ok (YA a) /\ abs h' v = YA b /\
      akind a = KBool /\ akind b = KFloat.
Proof.
  exists (let x := YVar 0 [(1, KFloat)] in YBin BLt (YBin BAdd x (YVar 1 [(1, KFloat)]) None) x None).
  eexists _, _, _. split.
  { split; [apply no_share_ok|]. split; [cbn; intuition congruence|]. split.
    - intros s. unfold c21_env, upd. destruct (sym_eqb s (SV 1)) eqn:E1; [apply sym_eqb_eq in E1; subst; simpl; auto|].
      destruct (sym_eqb s (SV 0)) eqn:E0; [apply sym_eqb_eq in E0; subst; simpl; auto|congruence].
    - split.
      + intros s v. unfold c21_env, upd.
        destruct (sym_eqb s (SV 1)); [|destruct (sym_eqb s (SV 0)); [|discriminate]];
          intros H; injection H as <-; vm_compute; lia.
      + intros a H. apply gnodes_spec in H. vm_compute in H.
        repeat (destruct H as [H|H]; [try discriminate; injection H as <-; vm_compute; reflexivity|]). destruct H. }
  split; [vm_compute; reflexivity|].
  eexists _, _. split; [vm_compute; reflexivity|]. split; [vm_compute; reflexivity|]. split; reflexivity.
Qed.

(** The buffer written to can be too small when the other operand is larger: the
    marked program fails where the unmarked one does not.  (The comment at
    phi_to_yarr.py:524-525 assumes this does not arise.) *)
Theorem C21_broadcast_refuted :
  exists (p : @yarr zfloat) a e,
    @yeval zfloat no_externs edge_pads (absE c21_heap c21_env) p = Ok (YA a) /\
    (exists r, @mexec zfloat no_externs edge_pads c21_cl (fun _ _ => false) no_share p (c21_heap, c21_env) = Ok r) /\
    @mexec zfloat no_externs edge_pads c21_cl (fun _ _ => false) no_share
      (apply_inplace p) (c21_heap, c21_env) = Err e.
Proof.
  exists (let x := YVar 0 [(1, KFloat)] in
          YBin BAdd (YUn UNeg (YUnsqueeze [0] (YReduceAxis RAdd 0 x))) x None).
  eexists _, _. split; [vm_compute; reflexivity|]. split; [eexists; vm_compute; reflexivity|].
  vm_compute. reflexivity.
Qed.

(** What fits, and what does not, in these two programs. *)
Example C21_exact_example :
  @yeval_fit zfloat no_externs edge_pads (absE c21_heap c21_env) (apply_inplace c21_prog) = Ok (YA (farr [2] [7; 26]%Z)) /\
  @yeval_fit zfloat no_externs edge_pads (absE c21_heap c21_env)
    (apply_inplace (let x := YVar 0 [(1, KFloat)] in
       YBin BAdd (YUn UNeg (YUnsqueeze [0] (YReduceAxis RAdd 0 x))) x None)) = Err EValue.
Proof. split; vm_compute; reflexivity. Qed.

(** Distinct binders are needed: the inner let removes the outer variable. *)
Theorem C30_rebinding_refuted :
  exists (p : @yarr zfloat) a e,
    @yeval zfloat no_externs edge_pads (absE c21_heap c21_env) p = Ok (YA a) /\
    @mexec zfloat no_externs edge_pads c21_cl (fun _ _ => false) no_share p (c21_heap, c21_env) = Err e.
Proof.
  exists (let x := YVar 0 [(1, KFloat)] in let z := YVar 5 [(1, KFloat)] in
          YLet 5 x (YBin BAdd (YLet 5 z z) z None)).
  eexists _, _. split; vm_compute; reflexivity.
Qed.

Print Assumptions C21_marks_temporaries.
Print Assumptions C21_arguments_unchanged.
Print Assumptions C21_inplace_exact.
Print Assumptions C21_inplace_sound.
Print Assumptions C21_comparison_refuted.
Print Assumptions C21_broadcast_refuted.
Print Assumptions C30_array_code.
Print Assumptions C30_array_repeatable.
Print Assumptions C30_rebinding_refuted.
