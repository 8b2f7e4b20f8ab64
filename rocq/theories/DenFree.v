(** Evaluation looks only at free symbols, and fails on an unbound symbol only
    if a free symbol is unbound. *)
From Verif Require Import Base Scalar Tensor Types Phi Den Term PhiTerm.

Section DenFree.
Context {FO : FloatOps} {EX : Externs}.

Lemma free_child s (e : phi) k c sc :
  nth_error (subs e) k = Some c -> nth_error (scopes e) k = Some sc -> ~ In s sc ->
  isfree s c -> isfree s e.
Proof. intros. eapply free_sub; eauto. Qed.

Lemma upd_agree (E1 E2 : env) s v r : (r <> s -> E1 r = E2 r) -> upd E1 s v r = upd E2 s v r.
Proof.
  intros H. unfold upd. destruct (sym_eqb r s) eqn:E; auto. apply H. apply sym_eqb_neq; auto.
Qed.

Lemma free_assert s t ops c : In c ops -> isfree s c -> isfree s (PAssertEq t ops : phi).
Proof.
  intros Hc Hf. apply In_nth_error in Hc as [k Hk].
  eapply (free_child s _ (S k) c []); auto; simpl; auto. rewrite nth_error_map, Hk. auto.
Qed.

Lemma free_ext s t f ops c : In c ops -> isfree s c -> isfree s (PExt t f ops : phi).
Proof.
  intros Hc Hf. apply In_nth_error in Hc as [k Hk].
  eapply (free_child s _ k c []); auto; simpl; auto. rewrite nth_error_map, Hk. auto.
Qed.

Lemma free_vecs s init x y xy vecs c :
  In c vecs -> isfree s c -> isfree s (PReduce init x y xy vecs : phi).
Proof.
  intros Hc Hf. apply In_nth_error in Hc as [k Hk].
  assert (k < length vecs) by (apply nth_error_Some; congruence).
  eapply (free_child s _ (S k) c []); auto; simpl.
  - rewrite nth_error_app1; auto.
  - rewrite nth_error_app1 by (rewrite map_length; auto). rewrite nth_error_map, Hk. auto.
Qed.

Lemma free_xy s init x y xy vecs :
  isfree s xy -> s <> SV x -> s <> SV y -> isfree s (PReduce init x y xy vecs : phi).
Proof.
  intros Hf Hx Hy.
  eapply (free_child s _ (S (length vecs)) xy [SV x; SV y]); auto; simpl.
  - rewrite nth_error_app2, Nat.sub_diag; auto.
  - rewrite nth_error_app2 by (rewrite map_length; auto). rewrite map_length, Nat.sub_diag. auto.
  - intuition congruence.
Qed.

Lemma den_ext (e : phi) : forall E1 E2 : env,
  (forall s, isfree s e -> E1 s = E2 s) -> den E1 e = den E2 e.
Proof.
  induction e using phi_ind'; intros E1 E2 HE; simpl; auto.
  - rewrite (HE s); auto. constructor; reflexivity.
  - rewrite (IHe1 E1 E2) by (intros s Hs; apply HE; eapply (free_child s _ 0); simpl; eauto).
    destruct (den E2 e1); simpl; auto. apply IHe2. intros s Hs. apply upd_agree. intros N.
    apply HE. eapply (free_child s _ 1); simpl; eauto. simpl. intuition congruence.
  - assert (Em : mapM (den E1) ops = mapM (den E2) ops).
    { apply mapM_ext. intros c Hc. rewrite Forall_forall in H. apply H; auto.
      intros s Hs. apply HE. eapply free_assert; eauto. }
    rewrite Em. destruct (mapM (den E2) ops); simpl; auto. destruct (mapM val_int a); simpl; auto.
    destruct (guard _ _); simpl; auto. apply IHe. intros s Hs. apply HE.
    eapply (free_child s _ 0); simpl; eauto.
  - rewrite (IHe E1 E2); auto. intros s Hs. apply HE. eapply (free_child s _ 0); simpl; eauto.
  - rewrite (IHe1 E1 E2), (IHe2 E1 E2); auto; intros s Hs; apply HE;
      [eapply (free_child s _ 1)|eapply (free_child s _ 0)]; simpl; eauto.
  - rewrite (IHe1 E1 E2), (IHe2 E1 E2); auto; intros s Hs; apply HE;
      [eapply (free_child s _ 1)|eapply (free_child s _ 0)]; simpl; eauto.
  - rewrite (IHe E1 E2); auto. intros s Hs. apply HE. eapply (free_child s _ 0); simpl; eauto.
  - rewrite (IHe E1 E2); auto. intros s Hs. apply HE. eapply (free_child s _ 0); simpl; eauto.
  - rewrite (IHe1 E1 E2) by (intros s Hs; apply HE; eapply (free_child s _ 0); simpl; eauto).
    assert (Hu : forall v, den (upd E1 (SX i) v) e2 = den (upd E2 (SX i) v) e2).
    { intros v. apply IHe2. intros s Hs. apply upd_agree. intros N. apply HE.
      eapply (free_child s _ 1); simpl; eauto. simpl. intuition congruence. }
    destruct (den E2 e1); simpl; auto. destruct (val_int a); simpl; auto. rewrite Hu.
    destruct (den (upd E2 (SX i) (vint 0)) e2); simpl; auto.
    rewrite (mapM_ext _ (fun k => den (upd E2 (SX i) (vnat k)) e2)) by (intros; apply Hu). auto.
  - rewrite (IHe1 E1 E2) by (intros s Hs; apply HE; eapply (free_child s _ 0); simpl; eauto).
    rewrite (IHe2 E1 E2) by (intros s Hs; apply HE; eapply (free_child s _ 1); simpl; eauto).
    destruct (den E2 e1); simpl; auto. destruct (val_int a); simpl; auto.
    destruct (den E2 e2); simpl; auto. apply iter_res_ext. intros j b _. apply IHe3.
    intros s Hs. apply upd_agree. intros N1. apply upd_agree. intros N2. apply HE.
    eapply (free_child s _ 2); simpl; eauto. simpl. intuition congruence.
  - assert (Em : mapM (den E1) vecs = mapM (den E2) vecs).
    { apply mapM_ext. intros c Hc. rewrite Forall_forall in H. apply H; auto.
      intros s Hs. apply HE. eapply free_vecs; eauto. }
    rewrite Em. destruct (mapM (den E2) vecs) as [vs|]; simpl; auto.
    destruct (mapM (fun v => vdim v 0) vs) as [[|n ns]|]; simpl; auto.
    destruct (guard _ _); simpl; auto.
    rewrite (IHe1 E1 E2) by (intros s Hs; apply HE; eapply (free_child s _ 0); simpl; eauto).
    destruct (den E2 e1); simpl; auto. apply iter_res_ext. intros j b _.
    destruct (mapM (fun u => vget u (Z.of_nat j)) vs) as [[|e0 es]|]; simpl; auto.
    apply IHe2. intros s Hs. apply upd_agree. intros N1. apply upd_agree. intros N2.
    apply HE. apply free_xy; auto.
  - rewrite (IHe E1 E2); auto. intros s Hs. apply HE. eapply (free_child s _ 0); simpl; eauto.
  - rewrite (IHe1 E1 E2), (IHe2 E1 E2); auto; intros s Hs; apply HE;
      [eapply (free_child s _ 1)|eapply (free_child s _ 0)]; simpl; eauto.
  - rewrite (IHe1 E1 E2), (IHe2 E1 E2), (IHe3 E1 E2); auto; intros s Hs; apply HE;
      [eapply (free_child s _ 2)|eapply (free_child s _ 1)|eapply (free_child s _ 0)]; simpl; eauto.
  - rewrite (IHe1 E1 E2), (IHe2 E1 E2); auto; intros s Hs; apply HE;
      [eapply (free_child s _ 1)|eapply (free_child s _ 0)]; simpl; eauto.
  - assert (Em : mapM (den E1) ops = mapM (den E2) ops).
    { apply mapM_ext. intros c Hc. rewrite Forall_forall in H. apply H; auto.
      intros s Hs. apply HE. eapply free_ext; eauto. }
    rewrite Em. reflexivity.
Qed.

(** ** No unbound symbol *)
Definition nu {A} (r : res A) : Prop := r <> Err EUnbound.

Lemma nu_ok {A} (a : A) : nu (Ok a).
Proof. discriminate. Qed.

Lemma nu_bind {A B} (m : res A) (k : A -> res B) :
  nu m -> (forall a, m = Ok a -> nu (k a)) -> nu (bind m k).
Proof. unfold nu. destruct m; simpl; auto. intros H1 _ E. congruence. Qed.

Lemma nu_mapM {A B} (f : A -> res B) l : (forall x, In x l -> nu (f x)) -> nu (mapM f l).
Proof.
  induction l as [|x l IH]; simpl; intros H; [apply nu_ok|].
  apply nu_bind; [auto|]. intros y _. apply nu_bind; [auto|]. intros. apply nu_ok.
Qed.

Lemma nu_iter {A} (f : nat -> A -> res A) k n a :
  (forall j b, nu (f j b)) -> nu (iter_res f k n a).
Proof.
  intros H. revert k a. induction n as [|n IH]; simpl; intros k a; [apply nu_ok|].
  apply nu_bind; auto.
Qed.

Lemma nu_guard b e : e <> EUnbound -> nu (guard b e).
Proof. unfold nu. destruct b; simpl; congruence. Qed.

Lemma nu_of_opt {A} (o : option A) e : e <> EUnbound -> nu (of_opt e o).
Proof. unfold nu. destruct o; simpl; congruence. Qed.

Lemma nu_as_arr v : nu (as_arr v).
Proof. destruct v; discriminate. Qed.
Lemma nu_as_pair v : nu (as_pair v).
Proof. destruct v; discriminate. Qed.
Lemma nu_as_scalar a : nu (as_scalar a).
Proof. unfold as_scalar. destruct (ashape a); discriminate. Qed.
Lemma nu_val_scalar v : nu (val_scalar v).
Proof. apply nu_bind; [apply nu_as_arr|]. intros. apply nu_as_scalar. Qed.
Lemma nu_val_int v : nu (val_int v).
Proof.
  apply nu_bind; [apply nu_as_arr|]. intros a _. apply nu_bind; [apply nu_as_scalar|].
  intros s _. destruct s; discriminate.
Qed.
Lemma nu_vget v z : nu (vget v z).
Proof.
  induction v as [a|v IH1 w IH2]; simpl.
  - apply nu_bind; [|intros; apply nu_ok]. unfold aget. destruct (ashape a); discriminate.
  - apply nu_bind; auto. intros. apply nu_bind; auto. intros. apply nu_ok.
Qed.
Lemma nu_vdim v ax : nu (vdim v ax).
Proof.
  induction v as [a|v IH1 w IH2]; simpl.
  - apply nu_of_opt. discriminate.
  - apply nu_bind; auto. intros. apply nu_bind; auto. intros.
    apply nu_bind; [apply nu_guard; discriminate|]. intros. apply nu_ok.
Qed.
Lemma nu_vstack t : forall vs, nu (vstack t vs).
Proof.
  induction t as [a|v IH1 w IH2]; simpl; intros vs.
  - apply nu_bind; [apply nu_mapM; intros; apply nu_as_arr|]. intros.
    apply nu_bind; [apply nu_guard; discriminate|]. intros. apply nu_ok.
  - apply nu_bind; [apply nu_mapM; intros; apply nu_as_pair|]. intros.
    apply nu_bind; auto. intros. apply nu_bind; auto. intros. apply nu_ok.
Qed.
Lemma nu_vconcat v : forall w, nu (vconcat v w).
Proof.
  induction v as [a|v IH1 w' IH2]; destruct w as [b|w1 w2]; simpl; try discriminate.
  - apply nu_bind; [|intros; apply nu_ok]. unfold aconcat.
    destruct (ashape a); [discriminate|]. destruct (ashape b); [discriminate|].
    apply nu_bind; [apply nu_guard; discriminate|]. intros.
    apply nu_bind; [apply nu_guard; discriminate|]. intros. apply nu_ok.
  - apply nu_bind; auto. intros. apply nu_bind; auto. intros. apply nu_ok.
Qed.

Lemma upd_bound (E : env) s v r : (r <> s -> E r <> None) -> upd E s v r <> None.
Proof.
  intros H. unfold upd. destruct (sym_eqb r s) eqn:E0; [discriminate|]. apply H.
  apply sym_eqb_neq; auto.
Qed.

Hint Resolve nu_ok nu_as_arr nu_as_pair nu_val_scalar nu_val_int nu_vget nu_vdim nu_vstack
  nu_vconcat : nu.

Lemma nu_den (Hext : forall f l, nu (ext_call f l)) (e : phi) : forall E : env,
  (forall s, isfree s e -> E s <> None) -> nu (den E e).
Proof.
  induction e using phi_ind'; intros E HE; simpl; auto with nu.
  - assert (Hs : E s <> None) by (apply HE; constructor; reflexivity).
    destruct (E s); [apply nu_ok|congruence].
  - apply nu_bind; [apply IHe1; intros s Hs; apply HE; eapply (free_child s _ 0); simpl; eauto|].
    intros v _. apply IHe2. intros s Hs. apply upd_bound. intros N. apply HE.
    eapply (free_child s _ 1); simpl; eauto. simpl. intuition congruence.
  - apply nu_bind.
    { apply nu_mapM. intros c Hc. rewrite Forall_forall in H. apply H; auto.
      intros s Hs. apply HE. eapply free_assert; eauto. }
    intros. apply nu_bind; [apply nu_mapM; auto with nu|]. intros.
    apply nu_bind; [apply nu_guard; discriminate|]. intros. apply IHe. intros s Hs. apply HE.
    eapply (free_child s _ 0); simpl; eauto.
  - apply nu_bind; [apply IHe; intros s Hs; apply HE; eapply (free_child s _ 0); simpl; eauto|].
    intros. apply nu_bind; auto with nu.
  - apply nu_bind; [apply IHe1; intros s Hs; apply HE; eapply (free_child s _ 0); simpl; eauto|].
    intros. apply nu_bind; [apply IHe2; intros s Hs; apply HE; eapply (free_child s _ 1); simpl; eauto|].
    intros. apply nu_bind; auto with nu.
  - apply nu_bind; [apply IHe1; intros s Hs; apply HE; eapply (free_child s _ 0); simpl; eauto|].
    intros. apply nu_bind; [apply IHe2; intros s Hs; apply HE; eapply (free_child s _ 1); simpl; eauto|].
    intros. auto with nu.
  - apply nu_bind; [apply IHe; intros s Hs; apply HE; eapply (free_child s _ 0); simpl; eauto|].
    intros. apply nu_bind; auto with nu.
  - apply nu_bind; [apply IHe; intros s Hs; apply HE; eapply (free_child s _ 0); simpl; eauto|].
    intros. apply nu_bind; auto with nu.
  - apply nu_bind; [apply IHe1; intros s Hs; apply HE; eapply (free_child s _ 0); simpl; eauto|].
    intros. apply nu_bind; auto with nu. intros z _.
    assert (Hu : forall v, nu (den (upd E (SX i) v) e2)).
    { intros v. apply IHe2. intros s Hs. apply upd_bound. intros N. apply HE.
      eapply (free_child s _ 1); simpl; eauto. simpl. intuition congruence. }
    apply nu_bind; auto. intros. apply nu_bind; auto with nu. apply nu_mapM; auto.
  - apply nu_bind; [apply IHe1; intros s Hs; apply HE; eapply (free_child s _ 0); simpl; eauto|].
    intros. apply nu_bind; auto with nu. intros z _.
    apply nu_bind; [apply IHe2; intros s Hs; apply HE; eapply (free_child s _ 1); simpl; eauto|].
    intros. apply nu_iter. intros j b. apply IHe3. intros s Hs. apply upd_bound. intros N1.
    apply upd_bound. intros N2. apply HE. eapply (free_child s _ 2); simpl; eauto. simpl. intuition congruence.
  - apply nu_bind.
    { apply nu_mapM. intros c Hc. rewrite Forall_forall in H. apply H; auto.
      intros s Hs. apply HE. eapply free_vecs; eauto. }
    intros vs _. apply nu_bind; [apply nu_mapM; auto with nu|]. intros [|n ns] _; [discriminate|].
    apply nu_bind; [apply nu_guard; discriminate|]. intros.
    apply nu_bind; [apply IHe1; intros s Hs; apply HE; eapply (free_child s _ 0); simpl; eauto|].
    intros. apply nu_iter. intros j b. apply nu_bind; [apply nu_mapM; auto with nu|].
    intros [|e0 es] _; [discriminate|]. apply IHe2. intros s Hs. apply upd_bound. intros N1.
    apply upd_bound. intros N2. apply HE. apply free_xy; auto.
  - apply nu_bind; [apply IHe; intros s Hs; apply HE; eapply (free_child s _ 0); simpl; eauto|].
    intros. apply nu_bind; auto with nu. intros. apply nu_bind; [apply nu_of_opt; discriminate|auto with nu].
  - apply nu_bind; [apply IHe1; intros s Hs; apply HE; eapply (free_child s _ 0); simpl; eauto|].
    intros. apply nu_bind; [apply IHe2; intros s Hs; apply HE; eapply (free_child s _ 1); simpl; eauto|].
    intros. apply nu_bind; auto with nu. intros. apply nu_bind; auto with nu. intros.
    apply nu_bind; [apply nu_of_opt; discriminate|auto with nu].
  - apply nu_bind; [apply IHe1; intros s Hs; apply HE; eapply (free_child s _ 0); simpl; eauto|].
    intros. apply nu_bind; [apply IHe2; intros s Hs; apply HE; eapply (free_child s _ 1); simpl; eauto|].
    intros. apply nu_bind; [apply IHe3; intros s Hs; apply HE; eapply (free_child s _ 2); simpl; eauto|].
    intros. apply nu_bind; auto with nu. intros. apply nu_bind; auto with nu. intros.
    apply nu_bind; auto with nu. intros. apply nu_bind; [apply nu_of_opt; discriminate|auto with nu].
  - apply nu_bind; [apply IHe1; intros s Hs; apply HE; eapply (free_child s _ 0); simpl; eauto|].
    intros. apply nu_bind; [apply IHe2; intros s Hs; apply HE; eapply (free_child s _ 1); simpl; eauto|].
    intros. auto with nu.
  - apply nu_bind.
    { apply nu_mapM. intros c Hc. rewrite Forall_forall in H. apply H; auto.
      intros s Hs. apply HE. eapply free_ext; eauto. }
    intros vs _. apply nu_bind; [apply nu_mapM; auto with nu|]. intros.
    apply nu_bind; auto with nu.
Qed.

End DenFree.
