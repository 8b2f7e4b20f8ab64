(** Consequences of the generic lining results, in the vocabulary of SpecPhi.v. *)
From Verif Require Import Base Scalar Tensor Types Phi Den Term PhiTerm Lining Outline Dominators
  InlineMemo DenFree SpecPhi.

Section Facts.
Context {FO : FloatOps} {EX : Externs}.

Lemma subst_many (e : phi) (sb : list (sym * phi)) (ws : list val) (E : env) v :
  NoDup (map fst sb) ->
  mapM (den E) (map snd sb) = Ok ws ->
  (forall s t, In (s, t) sb -> ~ bound_in s e) ->
  (forall s t r, In (s, t) sb -> free_in r t -> ~ bound_in r e) ->
  (den E (substitute e sb) = Ok v <-> den (upds E (combine (map fst sb) ws)) e = Ok v).
Proof.
  intros ND Hws H1 H2. apply substitute_sem.
  - split.
    + intros s u Hi. rewrite <- bound_in_binds. eauto.
    + intros s u r Hi Hr. rewrite <- bound_in_binds. apply (H2 s u); auto. apply free_in_isfree; auto.
  - clear H1 H2. intros s.
    assert (Hlen : length ws = length sb) by (apply mapM_length in Hws; rewrite map_length in Hws; auto).
    apply mapM_Forall2 in Hws.
    assert (Hgen : forall sb ws (E0 : env), NoDup (map fst sb) -> length ws = length sb ->
      Forall2 (fun t w => den E t = Ok w) (map snd sb) ws ->
      match sassoc s sb with
      | Some u => exists v, den E u = Ok v /\ upds E0 (combine (map fst sb) ws) s = Some v
      | None => upds E0 (combine (map fst sb) ws) s = E0 s
      end).
    { clear. induction sb as [|[s' t] sb IH]; intros [|w ws] E0 ND Hl HF; simpl in *; try lia; auto.
      inversion ND; subst. inversion HF; subst.
      specialize (IH ws (upd E0 s' w) H2 ltac:(lia) H6).
      unfold sassoc in *. simpl. destruct (sym_eqb s s') eqn:Es.
      - apply sym_eqb_eq in Es. subst s'. exists w. split; auto.
        rewrite upds_notin; [apply upd_eq|]. intros Hi. apply H1.
        apply in_map_iff in Hi as ([a b] & Ha & Hi). apply in_combine_l in Hi. simpl in Ha; subst; auto.
      - destruct (find (fun p => sym_eqb s (fst p)) sb) as [p|]; auto.
        rewrite IH. apply upd_neq. apply sym_eqb_neq; auto. }
    apply Hgen; auto.
Qed.

Lemma inline_memo_value o (p : phi) (E : env) v :
  distinct_binders p -> den E p = Ok v -> den E (inline_memo o p) = Ok v.
Proof.
  intros DB H. rewrite inline_memo_eq by auto. apply inline_sem; auto. apply distinct_noshadow; auto.
Qed.

Lemma inline_memo_nolet (p : phi) :
  distinct_binders p -> forall x b body, ~ sub_of (PLet x b body) (inline_memo false p).
Proof.
  intros DB x b body H. rewrite inline_memo_eq in H by auto. apply inline_nolet in H. discriminate.
Qed.

Lemma cse_value (p : phi) nxt (E : env) v :
  distinct_binders p -> above nxt p ->
  den E (apply_insertions p (fst (bind_common_subexpressions (idom_of p) nxt p))) = Ok v ->
  den E p = Ok v.
Proof.
  intros DB Ha. apply apply_insertions_sound.
  - apply cse_wf; auto; [apply distinct_unshadowed; auto|]. intros. apply idom_of_spec; auto.
  - apply distinct_unshadowed; auto.
Qed.

Lemma licm_value (p : phi) nxt (E : env) v :
  unshadowed p -> above nxt p ->
  den E (apply_insertions p (fst (loop_invariant_code_motion nxt p))) = Ok v ->
  den E p = Ok v.
Proof.
  intros U Ha. apply apply_insertions_sound; auto.
  apply licm_wf; auto. apply unshadowed_hygienic; auto.
Qed.

Lemma no_unbound (e : phi) (E : env) :
  (forall f l, ext_call f l <> Err EUnbound) -> hygienic e ->
  (forall s, In s (fsyms e) -> E s <> None) -> den E e <> Err EUnbound.
Proof.
  intros Hext Hy HE. apply nu_den; auto. intros s Hs. apply HE.
  apply (isfree_tfree e s Hy Hs).
Qed.

Lemma coincidence (e : phi) (E1 E2 : env) :
  (forall s, free_in s e -> E1 s = E2 s) -> den E1 e = den E2 e.
Proof. intros H. apply den_ext. intros s Hs. apply H. apply free_in_isfree; auto. Qed.

Lemma coincidence_reported (e : phi) (E1 E2 : env) :
  hygienic e -> (forall s, In s (fsyms e) -> E1 s = E2 s) -> den E1 e = den E2 e.
Proof. intros Hy H. apply den_ext. intros s Hs. apply H. apply (isfree_tfree e s Hy Hs). Qed.

End Facts.
