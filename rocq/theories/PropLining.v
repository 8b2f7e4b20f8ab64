(** Properties C08, C09, C14, C15 (substitution, free symbols, inlining, let
    insertion) for Phi terms under the reference semantics [den]. *)
From Verif Require Import Base Scalar Tensor Types Phi Den Term PhiTerm Lining Outline Dominators
  InlineMemo DenFree SpecPhi Checkers LiningFacts.

Section Props.
Context {FO : FloatOps} {EX : Externs}.

(** C08. Substituting terms for symbols is evaluating with those symbols given
    the values of the terms, provided no binder of [e] binds a substituted
    symbol or a free symbol of a substituted term. *)
Theorem C08_substitution (e : phi) (sb : list (sym * phi)) (ws : list val) (E : env) (v : val) :
  NoDup (map fst sb) ->
  mapM (den E) (map snd sb) = Ok ws ->
  (forall s t, In (s, t) sb -> ~ bound_in s e) ->
  (forall s t r, In (s, t) sb -> free_in r t -> ~ bound_in r e) ->
  (den E (substitute e sb) = Ok v <-> den (upds E (combine (map fst sb) ws)) e = Ok v).
Proof. exact (subst_many e sb ws E v). Qed.

(** array(lambda i: x[i] + y, size=2) with x := [10,20], y := 5 *)
Example C08_example :
  let x := PStore (SV 0) (TVec (TScalar KInt)) in
  let y := PStore (SV 1) (TScalar KInt) in
  let e := PVec 0 (p_int 2) (PBin BAdd (PGet x (p_at 0)) y) in
  let a := mkArr KInt [2] [SI 10; SI 20] in
  let sb := [(SV 0, PConst a); (SV 1, PBin BAdd (p_int 2) (p_int 3))] in
  den empty_env (substitute e sb) = Ok (VArr (mkArr KInt [2] [SI 15; SI 25])) /\
  NoDup (map fst sb) /\
  mapM (den empty_env) (map snd sb) = Ok [VArr a; vint 5] /\
  (forall s t, In (s, t) sb -> ~ bound_in s e) /\
  (forall s t r, In (s, t) sb -> free_in r t -> ~ bound_in r e).
Proof.
  cbv zeta. split; [reflexivity|]. split; [|split; [reflexivity|split]].
  - repeat constructor; simpl; intuition congruence.
  - intros s t [H|[H|[]]]; injection H as <- <-; unfold bound_in; simpl; intuition congruence.
  - intros s t r [H|[H|[]]]; injection H as <- <-; simpl; tauto.
Qed.

(** C08, capture: without the side condition the statement fails. *)
Theorem C08_capture_refuted :
  exists (e : phi) s t (w : val) v, den (upd empty_env (SX 0) (vint 7)) t = Ok w /\
    den (upd (upd empty_env (SX 0) (vint 7)) s w) e = Ok v /\
    den (upd empty_env (SX 0) (vint 7)) (substitute e [(s, t)]) <> Ok v.
Proof.
  exists (PVec 0 (p_int 2) (PStore (SV 1) (TScalar KInt))), (SV 1), (p_at 0), (vint 7),
    (VArr (mkArr KInt [2] [SI 7; SI 7])).
  repeat split; try reflexivity. vm_compute. congruence.
Qed.

(** C09a. Evaluation (including which error it ends in) depends only on the
    values of the free symbols. *)
Theorem C09_depends_on_free_symbols (e : phi) (E1 E2 : env) :
  (forall s, free_in s e -> E1 s = E2 s) -> den E1 e = den E2 e.
Proof. exact (coincidence e E1 E2). Qed.

(** C09b. The same for the symbols that [free_symbols] reports, for terms in
    which a binder's own size, initial value or bound term does not mention the
    symbol being bound ([hygienic]; always so for terms with fresh binders). *)
Theorem C09_depends_on_reported_symbols (e : phi) (E1 E2 : env) :
  hygienic e -> (forall s, In s (fsyms e) -> E1 s = E2 s) -> den E1 e = den E2 e.
Proof. exact (coincidence_reported e E1 E2). Qed.

(** C09c. If all reported free symbols are bound, evaluation does not fail with
    an unbound symbol: the check made by [eval()] is sufficient.  (Extrinsic
    functions are arbitrary user code; they are assumed not to raise that error
    themselves.) *)
Theorem C09_no_unbound_symbol (e : phi) (E : env) :
  (forall f l, ext_call f l <> Err EUnbound) -> hygienic e ->
  (forall s, In s (fsyms e) -> E s <> None) -> den E e <> Err EUnbound.
Proof. exact (no_unbound e E). Qed.

(** Binders distinct from one another and from the free symbols are hygienic. *)
Theorem C09_distinct_binders_hygienic (e : phi) : distinct_binders e -> hygienic e.
Proof. intros H. apply unshadowed_hygienic, distinct_unshadowed; auto. Qed.

Example C09_example :
  let e := PFold 1 (PStore (SV 0) (TScalar KInt)) 2 (p_int 0)
             (PBin BAdd (PStore (SV 2) (TScalar KInt)) (PStore (SV 1) (TScalar KInt))) in
  fsyms e = [SV 0] /\ hygienic e /\
  den (upd empty_env (SV 0) (vint 4)) e = Ok (vint 6).
Proof.
  cbv zeta. split; [reflexivity|]. split; [|reflexivity].
  apply unshadowed_hygienic, distinct_unshadowed, distinctb_sound. reflexivity.
Qed.

(** Without hygiene the report misses a symbol: let x = x in 1. *)
Theorem C09_unhygienic_refuted :
  exists (e : phi) (E : env), (forall s, In s (fsyms e) -> E s <> None) /\ den E e = Err EUnbound.
Proof.
  exists (PLet 0 (PStore (SV 0) (TScalar KInt)) (p_int 1)), empty_env. split; [|reflexivity].
  simpl. tauto.
Qed.

(** C14. Inlining (with the memo table of the code), full or of renamings only,
    does not change the value of a program with distinct binders. *)
Theorem C14_inline_preserves_value (only_renames : bool) (p : phi) (E : env) (v : val) :
  distinct_binders p -> den E p = Ok v -> den E (inline_memo only_renames p) = Ok v.
Proof. exact (inline_memo_value only_renames p E v). Qed.

(** C14. The result of full inlining contains no let. *)
Theorem C14_inline_removes_lets (p : phi) :
  distinct_binders p -> forall x b body, ~ sub_of (PLet x b body) (inline_memo false p).
Proof. exact (inline_memo_nolet p). Qed.

(** let a = 2+3 in let b = a*a in b + a *)
Example C14_example :
  let iv x := PStore (SV x) (TScalar KInt) in
  let p := PLet 0 (PBin BAdd (p_int 2) (p_int 3))
             (PLet 1 (PBin BMul (iv 0) (iv 0)) (PBin BAdd (iv 1) (iv 0))) in
  distinct_binders p /\ den empty_env p = Ok (vint 30) /\
  den empty_env (inline_memo false p) = Ok (vint 30).
Proof.
  cbv zeta. split; [|split; reflexivity]. apply distinctb_sound. reflexivity.
Qed.

(** C14 needs distinct binders: with the same variable bound twice the memo
    table returns a stale result. let x = 1 in x + (let x = 2 in x) *)
Theorem C14_shadowing_refuted :
  exists (p : phi) v, den empty_env p = Ok v /\ den empty_env (inline_memo false p) <> Ok v.
Proof.
  exists (PLet 0 (p_int 1) (PBin BAdd (PStore (SV 0) (TScalar KInt))
           (PLet 0 (p_int 2) (PStore (SV 0) (TScalar KInt))))), (vint 3).
  split; [reflexivity|]. vm_compute. congruence.
Qed.

(** C15. Inserting let bindings.  [ins_wf p ins]: every binding is a proper
    subterm of its insertion point whose free symbols are all free there
    (the insertion point is inside every binder of a symbol it uses), and the
    new variables are fresh and distinct.  Whenever the new program has a value
    the old one has the same. *)
Theorem C15_insertion_sound (p : phi) (ins : list (phi * list (nat * phi))) (E : env) (v : val) :
  ins_wf p ins -> distinct_binders p ->
  den E (apply_insertions p ins) = Ok v -> den E p = Ok v.
Proof. intros W D. exact (apply_insertions_sound p ins W (distinct_unshadowed p D) E v). Qed.

(** C15. Conversely, if the inserted bindings have values wherever their
    insertion points have ([ins_needed]), the new program has the old value. *)
Theorem C15_insertion_complete (p : phi) (ins : list (phi * list (nat * phi))) (E : env) (v : val) :
  ins_wf p ins -> distinct_binders p -> ins_needed (sem := den) p ins ->
  den E p = Ok v -> den E (apply_insertions p ins) = Ok v.
Proof. intros W D N. exact (apply_insertions_complete p ins W (distinct_unshadowed p D) E v N). Qed.

(** C15. The insertions made for common subexpressions. [nxt] numbers the first
    unused variable. *)
Theorem C15_common_subexpressions (p : phi) (nxt : nat) (E : env) (v : val) :
  distinct_binders p -> above nxt p ->
  den E (apply_insertions p (fst (bind_common_subexpressions (idom_of p) nxt p))) = Ok v ->
  den E p = Ok v.
Proof. exact (cse_value p nxt E v). Qed.

(** C15. The insertions made for loop-invariant code. *)
Theorem C15_loop_invariant_code (p : phi) (nxt : nat) (E : env) (v : val) :
  unshadowed p -> above nxt p ->
  den E (apply_insertions p (fst (loop_invariant_code_motion nxt p))) = Ok v ->
  den E p = Ok v.
Proof. exact (licm_value p nxt E v). Qed.

(** (a*a) + (a*a), a free: the product is bound once; and a loop whose body
    multiplies two free variables: the product is hoisted. *)
Example C15_example :
  let iv x := PStore (SV x) (TScalar KInt) in
  let p := PBin BAdd (PBin BMul (iv 0) (iv 0)) (PBin BMul (iv 0) (iv 0)) in
  let q := PFold 1 (p_int 3) 2 (p_int 0) (PBin BAdd (iv 2) (PBin BMul (iv 0) (iv 0))) in
  let E := upd empty_env (SV 0) (vint 5) in
  apply_insertions p (fst (bind_common_subexpressions (idom_of p) 3 p)) =
    PLet 3 (PBin BMul (iv 0) (iv 0)) (PBin BAdd (iv 3) (iv 3)) /\
  apply_insertions q (fst (loop_invariant_code_motion 3 q)) =
    PLet 3 (PBin BMul (iv 0) (iv 0)) (PFold 1 (p_int 3) 2 (p_int 0) (PBin BAdd (iv 2) (iv 3))) /\
  den E p = Ok (vint 50) /\ den E q = Ok (vint 75) /\ distinct_binders p /\ above 3 p.
Proof.
  cbv zeta. repeat (split; [reflexivity|]).
  split; [apply distinctb_sound; reflexivity|apply aboveb_sound; reflexivity].
Qed.

(** C15, definedness: hoisting out of a loop that runs zero times can make a
    program with a value fail. *)
Theorem C15_definedness_refuted :
  exists (p : phi) v, den empty_env p = Ok v /\ unshadowed p /\ above 3 p /\
    den empty_env (apply_insertions p (fst (loop_invariant_code_motion 3 p))) = Err EAssert.
Proof.
  set (p := PFold 1 (p_int 0) 2 (p_int 7)
              (PBin BAdd (PStore (SV 2) (TScalar KInt)) (PAssertEq (p_int 1) [p_int 0; p_int 1]))).
  exists p, (vint 7). split; [reflexivity|].
  split; [apply distinct_unshadowed, distinctb_sound; reflexivity|].
  split; [apply aboveb_sound; reflexivity|reflexivity].
Qed.

End Props.

Print Assumptions C08_substitution.
Print Assumptions C08_capture_refuted.
Print Assumptions C09_depends_on_free_symbols.
Print Assumptions C09_depends_on_reported_symbols.
Print Assumptions C09_no_unbound_symbol.
Print Assumptions C09_distinct_binders_hygienic.
Print Assumptions C09_unhygienic_refuted.
Print Assumptions C14_inline_preserves_value.
Print Assumptions C14_inline_removes_lets.
Print Assumptions C14_shadowing_refuted.
Print Assumptions C15_insertion_sound.
Print Assumptions C15_insertion_complete.
Print Assumptions C15_common_subexpressions.
Print Assumptions C15_loop_invariant_code.
Print Assumptions C15_definedness_refuted.
