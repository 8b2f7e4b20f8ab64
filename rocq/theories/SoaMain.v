(** The struct-of-arrays transform as a whole (structs.py:44-172). *)
From Verif Require Import Base Scalar Tensor Types Sym Phi Den DenWf Term PhiTerm DenFree SpecPhi Lining LiningFacts TypesFacts Typing Naive Sizes Subst CodegenSub Soa SoaTyp SoaOps SoaFacts SoaReduce.

Section SoaMain.
Context {FO : FloatOps} {EX : Externs}.

Notation int := (TScalar KInt).

Lemma step_all rec : go_spec rec -> forall e, step_spec rec e.
Proof.
  intros HR [].
  - apply step_const.
  - apply step_store.
  - apply step_let; auto.
  - apply step_asserteq; auto.
  - apply step_dim; auto.
  - apply step_get; auto.
  - apply step_cons; auto.
  - apply step_first; auto.
  - apply step_second; auto.
  - apply step_vec; auto.
  - apply step_fold; auto.
  - apply step_reduce; auto.
  - apply step_un; auto.
  - apply step_bin; auto.
  - apply step_where; auto.
  - apply step_concat; auto.
  - apply step_ext; auto.
Qed.

Lemma go_ok fuel : go_spec (soa_go fuel).
Proof.
  induction fuel as [|fuel IH]; intros G X e t n e' n' Q W HG F BX BS; [discriminate|]. cbn [soa_go] in Q.
  rewrite (wt_typ _ _ _ W) in Q. cbn [bind] in Q. inv_bind. simpl in *. apply ty_eqb_eq in Hb1. subst a0.
  eapply step_all; eauto.
Qed.

(** ** [elim] *)
Lemma pmap_den (f : phi -> phi) : (forall E e v, den E e = Ok v -> den E (f e) = Ok v) ->
  forall e E v, den E e = Ok v -> den E (pmap f e) = Ok v.
Proof.
  intros H e E v D. assert (L : forall E l vs, mapM (den E) l = Ok vs -> mapM (den E) (map f l) = Ok vs).
  { intros E0 l vs K. apply mapM_Forall2 in K. apply mapM_Forall2. induction K; simpl; constructor; auto. }
  destruct e; simpl in D |- *; auto; inv_bind;
    repeat match goal with K : den _ _ = Ok _ |- _ => apply H in K; rewrite K; clear K; cbn [bind] end; auto;
    try solve [repeat match goal with K : ?x = Ok _ |- context [?x] => rewrite K; cbn [bind] end; reflexivity].
  - rewrite (L _ _ _ Hb). cbn [bind]. rewrite Hb0. cbn [bind]. unfold guard. rewrite Hb1. cbn [bind]. reflexivity.
  - rewrite Hb0. cbn [bind]. erewrite mapM_impl; [|intros k u _ K; apply H; exact K|exact Hb2]. auto.
  - rewrite Hb0. cbn [bind].
    destruct (iter_sim eq (fun k v0 => den (upd (upd E (SV acc) v0) (SV c) (vnat k)) e3)
      (fun k v0 => den (upd (upd E (SV acc) v0) (SV c) (vnat k)) (f e3)) (Z.to_nat a0) 0 a1 a1 v) as (y & -> & <-); auto.
    intros j x y x' <- K. eauto.
  - rewrite (L _ _ _ Hb). cbn [bind]. rewrite Hb0. cbn [bind]. destruct a0 as [|m ns]; [discriminate|]. inv_bind.
    unfold guard. rewrite Hb1. cbn [bind]. rewrite (H _ _ _ Hb2). cbn [bind].
    destruct (iter_sim eq
      (fun k v1 => let* es := mapM (fun u => vget u (Z.of_nat k)) a in
         match es with [] => Err EType | e0 :: es' => den (upd (upd E (SV x) v1) (SV y) (fold_left VPair es' e0)) e2 end)
      (fun k v1 => let* es := mapM (fun u => vget u (Z.of_nat k)) a in
         match es with [] => Err EType | e0 :: es' => den (upd (upd E (SV x) v1) (SV y) (fold_left VPair es' e0)) (f e2) end)
      m 0 a1 a1 v) as (w & -> & <-); auto.
    intros j u w u' <- K. inv_bind. rewrite Hb3. cbn [bind]. destruct a2; [discriminate|]. eauto.
  - rewrite (L _ _ _ Hb). cbn [bind]. rewrite Hb0. cbn [bind]. rewrite Hb1. reflexivity.
Qed.

Lemma elim_den fuel : forall E e v, den E e = Ok v -> den E (elim fuel e) = Ok v.
Proof.
  induction fuel as [|fuel IH]; intros E e v D; cbn [elim]; auto. apply (pmap_den (elim fuel) IH) in D.
  generalize dependent (pmap (elim fuel) e). clear e. intros e D.
  destruct e; auto.
  - destruct e1; auto. destruct e2; auto. destruct (phi_eqb e1 e2) eqn:Q; auto. apply phi_eqb_eq in Q. subst e2.
    apply IH. simpl in D. destruct (den E e1) as [[u|u1 u2]|]; simpl in D; try discriminate. exact D.
  - destruct e; auto. apply IH. simpl in D. destruct (den E e1), (den E e2); simpl in D; try discriminate. exact D.
  - destruct e; auto. apply IH. simpl in D. destruct (den E e1), (den E e2); simpl in D; try discriminate. exact D.
Qed.

(** ** Programs the transform is made for: no record under two vectors. *)
Fixpoint all_shallow (e : phi) : Prop :=
  (forall t, typ e = Ok t -> shallow t = true) /\
  let all (l : list phi) := fold_right and True (map all_shallow l) in
  match e with
  | PConst _ | PStore _ _ => True
  | PLet _ b body => all_shallow b /\ all_shallow body
  | PAssertEq t ops => all_shallow t /\ all ops
  | PDim t _ => all_shallow t
  | PGet t i => all_shallow t /\ all_shallow i
  | PCons a b => all_shallow a /\ all_shallow b
  | PFirst t | PSecond t => all_shallow t
  | PVec _ s b => all_shallow s /\ all_shallow b
  | PFold _ s _ init b => all_shallow s /\ all_shallow init /\ all_shallow b
  | PReduce init _ _ xy vecs => all_shallow init /\ all_shallow xy /\ all vecs
  | PUn _ a => all_shallow a
  | PBin _ a b => all_shallow a /\ all_shallow b
  | PWhere c a b => all_shallow c /\ all_shallow a /\ all_shallow b
  | PConcat a b => all_shallow a /\ all_shallow b
  | PExt _ _ ops => all ops
  end.

Lemma all_shallow_top e t : all_shallow e -> typ e = Ok t -> shallow t = true.
Proof. destruct e; simpl; intros [H _]; apply H. Qed.

Ltac oks := repeat match goal with K : Ok _ = Ok _ |- _ => inversion K; clear K; subst end.

Lemma shallow_vecs vecs : Forall all_shallow vecs -> forall ts, Forall2 (fun e t => typ e = Ok t) vecs (map TVec ts) ->
  Forall (fun e => shallow (TVec e) = true) ts.
Proof.
  induction 1 as [|e l H _ IH]; intros [|t ts] K; inversion K; subst; constructor; auto. eapply all_shallow_top; eauto.
Qed.

Lemma wt_intro (e : phi) : forall G t, typ e = Ok t -> scoped G e -> int_indices e -> exts_ok e -> all_shallow e -> wt G e t.
Proof.
  assert (L : forall ops, Forall (fun e => forall G t, typ e = Ok t -> scoped G e -> int_indices e -> exts_ok e -> all_shallow e -> wt G e t) ops ->
    forall G ts, mapM typ ops = Ok ts -> Forall (scoped G) ops -> Forall int_indices ops -> Forall exts_ok ops -> Forall all_shallow ops -> wts G ops ts).
  { intros ops F G ts H S1 S2 S3 S4. apply mapM_Forall2 in H. apply wts_Forall2. induction H; constructor;
      inversion F; inversion S1; inversion S2; inversion S3; inversion S4; subst; auto. }
  induction e using phi_ind'; intros G t0 T S I X A; cbn [typ] in T; simpl in S, I, X, A |- *; rewrite ?all_and_Forall in *; fold (wts G);
    repeat match goal with H : _ /\ _ |- _ => destruct H | H : exists _, _ |- _ => destruct H end.
  - inversion T. auto.
  - inversion T. subst. auto.
  - inv_bind. exists a. assert (a = x0) by congruence. subst x0. split; [auto|]. split; [apply (all_shallow_top e1); auto|]. apply IHe2; auto.
  - inv_bind. split; auto. exists a0. split; [apply L; auto|]. apply mapM_Forall2 in Hb0.
    match goal with K : Forall int_typed ops |- _ => clear - Hb0 K; rename K into H2 end. unfold int_typed in H2.
    induction Hb0; [constructor|]. inversion H2; subst. constructor; [cbn beta in *; congruence|auto].
  - inv_bind. split; eauto.
  - inv_bind. unfold int_typed in *. destruct a as [|el|]; try discriminate. assert (a0 = int) by congruence. subst. oks. auto.
  - inv_bind. exists a, a0. auto.
  - inv_bind. destruct a; try discriminate. oks. eexists. apply IHe; eauto.
  - inv_bind. destruct a; try discriminate. oks. eexists. apply IHe; eauto.
  - inv_bind. destruct a as [k| |]; try discriminate. inv_bind. apply kind_eqb_eq in Hb2. subst k. exists a0.
    split; auto. split; auto. split; auto. destruct (free_indices e1); [auto|discriminate].
  - inv_bind. destruct a as [k| |]; try discriminate. inv_bind. apply kind_eqb_eq in Hb2. subst k. apply ty_eqb_eq in Hb3. subst a1.
    assert (x = t0) by congruence. subst x. split; auto. split; auto. split; [apply (all_shallow_top e2); auto|]. auto.
  - inv_bind. apply ty_eqb_eq in Hb2. subst a0. destruct a3 as [|el els]; [discriminate|]. inv_bind. apply ty_eqb_eq in Hb2. subst t0.
    assert (x0 = fold_left TPair els el) by congruence. subst x0.
    split; auto. split; [apply (all_shallow_top e2); auto|]. split; auto.
    assert (E1 : a1 = map TVec (el :: els)).
    { clear - Hb3. revert Hb3. generalize (el :: els). induction a1 as [|t a1 IH]; simpl; intros l K; [inversion K; auto|].
      inv_bind. destruct t; try discriminate. inversion Hb; subst. simpl. f_equal. auto. }
    subst a1. exists el, els. split; [|split; auto].
    + apply (L vecs); auto.
    + apply (shallow_vecs vecs); auto. apply mapM_Forall2. exact Hb1.
  - inv_bind. exists a. auto.
  - inv_bind. exists a, a0. auto.
  - inv_bind. exists a, a0, a1. auto 6.
  - inv_bind. destruct a as [|el|]; try discriminate. inv_bind. apply ty_eqb_eq in Hb1. subst a0. oks. exists el. auto.
  - inv_bind. split; auto. split; auto. exists a. split; [apply L; auto|]. apply mapM_Forall2 in Hb. apply Forall_forall. intros to Hto.
    match goal with K : forall o to, In o ops -> _ |- _ => clear - Hb K Hto; rename K into H2 end. induction Hb; [destruct Hto|]. destruct Hto as [->|Hto]; [eapply H2; [left|]; eauto|]. apply IHHb; auto.
    intros o to' Ho. apply H2. right. auto.
Qed.

Lemma list_max_In x l : In x l -> x <= list_max l.
Proof. intros H. pose proof (proj1 (list_max_le l (list_max l)) (le_n _)) as F. rewrite Forall_forall in F. auto. Qed.

Theorem soa_ok fuel p q G E t v :
  struct_of_arrays fuel p = Ok q ->
  typ p = Ok t -> scoped G p -> int_indices p -> exts_ok p -> all_shallow p -> shG G -> fresh_binders [] p ->
  env_typed G E -> den E p = Ok v -> den E q = Ok v /\ typ q = Ok t.
Proof.
  intros Q T S I X A HG F HE D. unfold struct_of_arrays in Q. rewrite T in Q. cbn [bind] in Q. inv_bind. apply ty_eqb_eq in Hb1. subst a0.
  split; auto. apply elim_den. destruct a as [e' n']. simpl.
  assert (P : post G [] p t (next_sym p) e' n').
  { apply (go_ok fuel); auto.
    - apply wt_intro; auto.
    - apply below_nil.
    - intros s Hs. unfold next_sym. apply Nat.lt_succ_r, list_max_In, in_map, Hs. }
  apply P; auto.
Qed.

End SoaMain.
