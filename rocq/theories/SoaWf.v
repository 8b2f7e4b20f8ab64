(** The converted program is well formed: ein/midend/structs.py:44-172. *)
From Verif Require Import Base Scalar Tensor Types Sym Phi Den DenWf Term PhiTerm DenFree SpecPhi Lining LiningFacts TypesFacts Typing Naive
  Sizes Subst CodegenSub Soa SoaTyp SoaOps SoaFacts SoaReduce SoaMain.

Section SoaWf.
Context {FO : FloatOps} {EX : Externs}.

(** What [elim] keeps. *)
Record kept (e e' : phi) : Prop := {
  k_free : incl (fsyms e') (fsyms e);
  k_wt : forall G t, wt G e t -> wt G e' t;
  k_fresh : forall X, fresh_binders X e -> fresh_binders X e' }.

Lemma kept_refl e : kept e e.
Proof. constructor; auto. apply incl_refl. Qed.
Lemma kept_trans a b c : kept a b -> kept b c -> kept a c.
Proof. intros [A1 A2 A3] [B1 B2 B3]. constructor; auto. eapply incl_tran; eauto. Qed.

Lemma free_indices_incl (a b : phi) : incl (fsyms b) (fsyms a) -> free_indices a = [] -> free_indices b = [].
Proof.
  unfold free_indices. intros H K. destruct (filter is_index (fsyms b)) as [|s l] eqn:Q; auto.
  assert (In s (filter is_index (fsyms b))) by (rewrite Q; left; auto). apply filter_In in H0 as [H1 H2].
  assert (In s (filter is_index (fsyms a))) by (apply filter_In; auto). rewrite K in H0. destruct H0.
Qed.

Lemma pmap_kept (f : phi -> phi) : (forall e, kept e (f e)) -> forall e, kept e (pmap f e).
Proof.
  intros H e.
  assert (F1 : forall e, incl (fsyms (f e)) (fsyms e)) by (intros; apply H).
  assert (F2 : forall G e t, wt G e t -> wt G (f e) t) by (intros G e0 t; apply H).
  assert (F3 : forall X e, fresh_binders X e -> fresh_binders X (f e)) by (intros X e0; apply H).
  assert (FL : forall l, incl (flat_map fsyms (map f l)) (flat_map fsyms l)).
  { intros l s Hs. apply in_flat_map in Hs as (x & Hx & Hs). apply in_map_iff in Hx as (y & <- & Hy). apply in_flat_map. exists y. split; auto. apply F1; auto. }
  assert (WL : forall G l ts, wts G l ts -> wts G (map f l) ts).
  { intros G l. induction l; intros [|t ts] W; simpl in *; auto. destruct W. split; auto. }
  assert (XL : forall X l, fold_right and True (map (fresh_binders X) l) -> fold_right and True (map (fresh_binders X) (map f l))).
  { intros X l. induction l; simpl; auto. intros []. split; auto. }
  constructor.
  - destruct e; simpl; auto using incl_refl;
      try (intros q Hq; rewrite ?sremove_In, ?in_app_iff in *; specialize (FL ops q) || specialize (FL vecs q) || idtac;
      repeat match goal with |- context [fsyms ?x] => lazymatch goal with K : In q (fsyms (f x)) -> _ |- _ => fail | _ => pose proof (F1 x q) end end; tauto).
  - intros G t W. destruct e; simpl in W |- *; auto.
    + destruct W as (tb & ? & ? & ?). eauto 6.
    + fold (wts G) in *. destruct W as (? & ts & ? & ?). split; auto. exists ts. split; auto; apply WL; auto.
    + destruct W as (? & te & ?). eauto.
    + destruct W. auto.
    + destruct W as (ta & tb & ? & ? & ?). eauto 8.
    + destruct W as (tb & ?). eauto.
    + destruct W as (tb & ?). eauto.
    + destruct W as (tb & ? & ? & ? & ?). exists tb. split; auto. split; auto. split; auto. eapply free_indices_incl; eauto.
    + intuition auto.
    + fold (wts G) in *. destruct W as (? & ? & ? & el & els & ? & ? & ?). split; auto. split; auto. split; auto. exists el, els. split; auto; apply WL; auto.
    + destruct W as (ta & ? & ?). eauto.
    + destruct W as (ta & tb & ? & ? & ?). eauto 8.
    + destruct W as (tc & ta & tb & ? & ? & ? & ?). eauto 12.
    + destruct W as (el & ? & ? & ?). eauto 8.
    + fold (wts G) in *. destruct W as (? & ? & ts & ? & ?). split; auto. split; auto. exists ts. split; auto; apply WL; auto.
  - intros X W. destruct e; simpl in W |- *; intuition auto.
Qed.

Lemma elim_kept fuel : forall e, kept e (elim fuel e).
Proof.
  induction fuel as [|fuel IH]; intros e; cbn [elim]; [apply kept_refl|].
  eapply kept_trans; [apply (pmap_kept _ IH)|]. generalize (pmap (elim fuel) e). clear e. intros e.
  destruct e; try apply kept_refl.
  - destruct e1; try apply kept_refl. destruct e2; try apply kept_refl. destruct (phi_eqb e1 e2) eqn:Q; [|apply kept_refl].
    apply phi_eqb_eq in Q. subst e2. eapply kept_trans; [|apply IH]. constructor; simpl.
    + intros s Hs. apply in_app_iff. auto.
    + intros G t (ta & tb & -> & (t2 & W1) & (t1 & W2)). pose proof (wt_fun _ _ _ _ _ W1 W2) as Q. injection Q as -> ->. auto.
    + tauto.
  - destruct e; try apply kept_refl. eapply kept_trans; [|apply IH]. constructor; simpl.
    + intros s Hs. apply in_app_iff. auto.
    + intros G t (tb & ta & tb' & Q & W1 & W2). injection Q as <- <-. auto.
    + tauto.
  - destruct e; try apply kept_refl. eapply kept_trans; [|apply IH]. constructor; simpl.
    + intros s Hs. apply in_app_iff. auto.
    + intros G t (tb & ta & tb' & Q & W1 & W2). injection Q as <- <-. auto.
    + tauto.
Qed.

(** The converted program is well typed where every array of records is a record
    of arrays, and its binders are distinct along every path. *)
Theorem soa_wf fuel p q G X t :
  struct_of_arrays fuel p = Ok q ->
  typ p = Ok t -> scoped G p -> int_indices p -> exts_ok p -> all_shallow p -> shG G ->
  fresh_binders X p -> below (next_sym p) X ->
  wt (SG G) q t /\ fresh_binders X q.
Proof.
  intros Q T S I W A HG F B. unfold struct_of_arrays in Q. rewrite T in Q. cbn [bind] in Q. inv_bind. apply ty_eqb_eq in Hb1. subst a0.
  destruct a as [e' n']. simpl in *.
  assert (P : post G X p t (next_sym p) e' n').
  { apply (go_ok fuel); auto.
    - apply wt_intro; auto.
    - intros s Hs. unfold next_sym. apply Nat.lt_succ_r, list_max_In, in_map, Hs. }
  destruct (elim_kept (psize e') e') as [K1 K2 K3]. split; [|apply K3, P].
  assert (K := K2 _ _ (p_wt _ _ _ _ _ _ _ P)). replace t with (soa_ty t); auto.
  apply wt_typ in K. congruence.
Qed.
End SoaWf.
