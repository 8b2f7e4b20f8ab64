(** Outlining (ein/midend/lining.py:113-143) makes no new nodes besides
    let-bindings and variables: what holds of the nodes of a term, whatever their
    children, holds of the outlined term. *)
From Verif Require Import Base Sym Term Lining Outline Dominators InlineMemo Visits OutlinePass.

Section Generic.
Context {T : Type} {O : TermOps T} {L : TermLaws T}.

(** A property of nodes that does not look at the children. *)
Record head_prop (hp : T -> Prop) : Prop := {
  hp_rebuild : forall t cs, length cs = length (subs t) -> hp t -> hp (rebuild t cs);
  hp_var : forall x t, hp (wrap_var x t);
  hp_let : forall x b t, hp (wrap_let x b t) }.

Variable hp : T -> Prop.
Hypothesis HP : head_prop hp.
Definition heads (e : T) : Prop := forall n, sub_of n e -> hp n.

Lemma apply_heads p ins : ins_wf p ins -> ins_tree p ins -> heads p -> heads (apply_insertions p ins).
Proof.
  intros W TR H n Hn. rewrite apply_A in Hn.
  destruct (origins p ins W TR _ _ _ _ (le_n _) (v_root p ins) Hn) as [(y & b & d & -> & Hi)|(bnd & t & V & [->|(l1 & y & b & l2 & E & ->)])].
  - apply (hp_var _ HP).
  - unfold body. apply (hp_rebuild _ HP); [apply map_length|]. apply H. eapply visit_sub; eauto.
  - apply (hp_let _ HP).
Qed.
Lemma inline_heads o p : distinct_binders p -> heads p -> heads (inline o p).
Proof.
  intros D H n Hn. apply inline_origin in Hn; auto. destruct Hn as (bd & t & R & _ & ->).
  apply (hp_rebuild _ HP); [apply map_length|]. apply H. eapply reach_sub; eauto.
Qed.

Theorem outline_heads nxt p q : distinct_binders p -> above nxt p -> outline nxt p = Ok q -> heads p -> heads q.
Proof.
  intros DB AB H H0. unfold outline in H. rewrite inline_memo_eq in H by auto.
  apply bind_ok in H as ([] & _ & H). pose proof (inline_heads false p DB H0) as C1.
  set (p1 := inline false p) in *.
  assert (T1 : tidy nxt p1) by (split; [apply inline_distinct; auto|apply inline_above; auto]).
  pose proof (cse_tidy nxt p1 T1) as C. pose proof (cse_tree p1 nxt) as TR1.
  unfold insertions in *. destruct (bind_common_subexpressions (idom_of p1) nxt p1) as [ins1 nxt1]. cbn [fst snd] in *.
  destruct C as (T2 & W1 & F1). pose proof (apply_heads p1 ins1 W1 TR1 C1) as C2. set (p2 := apply_insertions p1 ins1) in *.
  apply bind_ok in H as ([] & Hc2 & H). apply check_tree in Hc2.
  pose proof (licm_tidy nxt1 p2 T2 Hc2) as C. pose proof (licm_tree p2 Hc2 nxt1 (proj1 T2)) as TR2.
  unfold insertions in *. destruct (loop_invariant_code_motion nxt1 p2) as [ins2 nxt2]. cbn [fst snd] in *.
  destruct C as (T3 & W2 & F2). pose proof (apply_heads p2 ins2 W2 TR2 C2) as C3. set (p3 := apply_insertions p2 ins2) in *.
  apply bind_ok in H as ([] & _ & H). rewrite inline_memo_eq in H by apply T3.
  apply bind_ok in H as ([] & Hc4 & H). injection H as <-.
  apply (inline_heads true p3 (proj1 T3) C3).
Qed.
End Generic.
