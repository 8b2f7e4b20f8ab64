(** Type soundness of the reference semantics (C11). *)
From Verif Require Import Base Scalar Tensor Types Phi Den TypesFacts.

Section Typing.
Context {FO : FloatOps} {EX : Externs}.

(** The form values of a type take in [den], where an array of records is a
    record of arrays: vectors are pushed inside pairs. *)
Fixpoint push_vec (t : ty) : ty :=
  match t with
  | TPair a b => TPair (push_vec a) (push_vec b)
  | _ => TVec t
  end.
Fixpoint dist (t : ty) : ty :=
  match t with
  | TScalar k => TScalar k
  | TVec e => push_vec (dist e)
  | TPair a b => TPair (dist a) (dist b)
  end.

(** [has_type v t]: every leaf array has the element kind and rank that [t]
    demands, records have the structure [t] demands. *)
Definition has_type (v : val) (t : ty) : Prop := val_wf v /\ vtype v = dist t.

(** Declared types of symbols. *)
Definition tctx : Type := genv ty.

(** [scoped G e]: the type written at each occurrence of a symbol is the type
    of its binder (or, if free, the declared type [G]).  The frontend always
    builds such terms; the type checker of phi.py does not check it. *)
Fixpoint scoped (G : tctx) (e : phi) : Prop :=
  let all (l : list phi) := fold_right and True (map (scoped G) l) in
  match e with
  | PConst a => arr_wf a
  | PStore s t => G s = Some t
  | PLet x b body => scoped G b /\ exists tb, typ b = Ok tb /\ scoped (upd G (SV x) tb) body
  | PAssertEq t ops => scoped G t /\ all ops
  | PDim t _ => scoped G t
  | PGet t i => scoped G t /\ scoped G i
  | PCons a b => scoped G a /\ scoped G b
  | PFirst t | PSecond t => scoped G t
  | PVec i s b => scoped G s /\ scoped (upd G (SX i) (TScalar KInt)) b
  | PFold c s acc init b =>
      scoped G s /\ scoped G init /\
      exists ti, typ init = Ok ti /\ scoped (upd (upd G (SV acc) ti) (SV c) (TScalar KInt)) b
  | PReduce init x y xy vecs =>
      scoped G init /\ all vecs /\
      exists tx, typ xy = Ok tx /\ scoped (upd (upd G (SV x) tx) (SV y) tx) xy
  | PUn _ a => scoped G a
  | PBin _ a b => scoped G a /\ scoped G b
  | PWhere c a b => scoped G c /\ scoped G a /\ scoped G b
  | PConcat a b => scoped G a /\ scoped G b
  | PExt _ _ ops => all ops
  end.

Definition int_typed (e : phi) : Prop := typ e = Ok (TScalar KInt).

(** Indices are integers, and so are the operands of size assertions: the type
    checker does not insist on either (phi.py:239-247, 189-196). *)
Fixpoint int_indices (e : phi) : Prop :=
  let all (l : list phi) := fold_right and True (map int_indices l) in
  match e with
  | PConst _ | PStore _ _ => True
  | PLet _ b body => int_indices b /\ int_indices body
  | PAssertEq t ops => int_indices t /\ all ops /\ Forall int_typed ops
  | PDim t _ => int_indices t
  | PGet t i => int_indices t /\ int_indices i /\ int_typed i
  | PCons a b => int_indices a /\ int_indices b
  | PFirst t | PSecond t => int_indices t
  | PVec _ s b => int_indices s /\ int_indices b
  | PFold _ s _ init b => int_indices s /\ int_indices init /\ int_indices b
  | PReduce init _ _ xy vecs => int_indices init /\ int_indices xy /\ all vecs
  | PUn _ a => int_indices a
  | PBin _ a b => int_indices a /\ int_indices b
  | PWhere c a b => int_indices c /\ int_indices a /\ int_indices b
  | PConcat a b => int_indices a /\ int_indices b
  | PExt _ _ ops => all ops
  end.

(** Extrinsic functions return what they declare, are applied to arrays (not
    records), and do not raise type errors of their own. *)
Fixpoint exts_ok (e : phi) : Prop :=
  let all (l : list phi) := fold_right and True (map exts_ok l) in
  match e with
  | PConst _ | PStore _ _ => True
  | PLet _ b body => exts_ok b /\ exts_ok body
  | PAssertEq t ops => exts_ok t /\ all ops
  | PDim t _ => exts_ok t
  | PGet t i => exts_ok t /\ exts_ok i
  | PCons a b => exts_ok a /\ exts_ok b
  | PFirst t | PSecond t => exts_ok t
  | PVec _ s b => exts_ok s /\ exts_ok b
  | PFold _ s _ init b => exts_ok s /\ exts_ok init /\ exts_ok b
  | PReduce init _ _ xy vecs => exts_ok init /\ exts_ok xy /\ all vecs
  | PUn _ a => exts_ok a
  | PBin _ a b => exts_ok a /\ exts_ok b
  | PWhere c a b => exts_ok c /\ exts_ok a /\ exts_ok b
  | PConcat a b => exts_ok a /\ exts_ok b
  | PExt t f ops =>
      all ops /\
      (forall o to, In o ops -> typ o = Ok to -> has_pair to = false) /\
      (forall l, match ext_call f l with
                 | Ok a => has_type (VArr a) t
                 | Err er => er <> EType
                 end)
  end.

Definition env_typed (G : tctx) (E : env) : Prop :=
  forall s t v, G s = Some t -> E s = Some v -> has_type v t.

(** Not a type error, and the result satisfies [P]. *)
Definition nt {A} (P : A -> Prop) (r : res A) : Prop :=
  match r with Ok a => P a | Err e => e <> EType end.

Lemma nt_bind {A B} (P : A -> Prop) (Q : B -> Prop) m k :
  nt P m -> (forall a, P a -> nt Q (k a)) -> nt Q (bind m k).
Proof. destruct m; simpl; auto. Qed.

Lemma nt_imp {A} (P Q : A -> Prop) r : (forall a, P a -> Q a) -> nt P r -> nt Q r.
Proof. destruct r; simpl; auto. Qed.

Lemma nt_mapM {A B} (P : B -> Prop) (f : A -> res B) l :
  (forall x, In x l -> nt P (f x)) -> nt (fun ys => Forall P ys /\ length ys = length l) (mapM f l).
Proof.
  induction l as [|x l IH]; simpl; intros H; auto.
  eapply nt_bind; [apply H; auto|]. intros y Hy.
  eapply nt_bind; [apply IH; auto|]. intros ys [H1 H2]. simpl. auto.
Qed.

Lemma nt_mapM2 {A B} (R : A -> B -> Prop) (f : A -> res B) l :
  (forall x, In x l -> nt (R x) (f x)) -> nt (Forall2 R l) (mapM f l).
Proof.
  induction l as [|x l IH]; simpl; intros H; auto.
  eapply nt_bind; [apply H; auto|]. intros y Hy.
  eapply nt_bind; [apply IH; auto|]. intros ys Hys. simpl. auto.
Qed.

Lemma nt_guard b e : e <> EType -> nt (fun _ => b = true) (guard b e).
Proof. destruct b; simpl; auto. Qed.

Lemma nt_iter {A} (P : A -> Prop) f k n (a : A) :
  P a -> (forall j b, P b -> nt P (f j b)) -> nt P (iter_res f k n a).
Proof.
  revert k a. induction n as [|n IH]; simpl; intros k a Ha H; auto.
  eapply nt_bind; [apply H; auto|]. intros b Hb. apply IH; auto.
Qed.

(** * Values *)
Lemma ndarray_not_pair n k a b : ndarray_type n k <> TPair a b.
Proof. destruct n; discriminate. Qed.

Lemma push_vec_arr t d : has_pair t = false -> t = push_vec d -> t = TVec d.
Proof. destruct d; simpl; auto. intros H ->. discriminate H. Qed.

Lemma ndarray_nopair n k : has_pair (ndarray_type n k) = false.
Proof. induction n; simpl; auto. Qed.

Lemma as_int_typed v : has_type v (TScalar KInt) -> nt (fun _ => True) (val_int v).
Proof.
  intros [W T]. destruct v as [a|v w]; simpl in *; [|discriminate].
  unfold val_int, as_int, as_scalar. simpl. destruct a as [k [|n sh] d]; simpl in *; try discriminate.
  injection T as ->. destruct W as [W1 W2]. simpl in W1. destruct d as [|x [|y d]]; simpl in W1; try lia.
  inversion W2; subst. simpl in *. unfold get; simpl. destruct x; try discriminate; simpl; auto.
Qed.

Lemma val_scalar_typed v k : has_type v (TScalar k) ->
  exists s, val_scalar v = Ok s /\ skind s = k.
Proof.
  intros [W T]. destruct v as [a|v w]; simpl in *; [|discriminate].
  unfold val_scalar, as_scalar. simpl. destruct a as [k' [|n sh] d]; simpl in *; try discriminate.
  injection T as ->. destruct W as [W1 W2]. simpl in W1. destruct d as [|x [|y d]]; simpl in W1; try lia.
  inversion W2; subst. simpl in *. exists x. auto.
Qed.

Lemma vscalar_typed s : has_type (vscalar s) (TScalar (skind s)).
Proof. split; simpl; auto. apply ascalar_wf. Qed.

Lemma vint_typed z : has_type (vint z) (TScalar KInt).
Proof. apply (vscalar_typed (SI z)). Qed.

Lemma get_kind_any a idx : arr_wf a -> skind (get a idx) = akind a.
Proof.
  intros [L K]. unfold get. destruct (le_lt_dec (length (adata a)) (ravel (ashape a) idx)) as [H|H].
  - rewrite nth_overflow by auto. apply skind_sjunk.
  - rewrite Forall_forall in K. apply K. apply nth_In; auto.
Qed.

Lemma vget_typed v z d : val_wf v -> vtype v = push_vec d ->
  nt (fun w => val_wf w /\ vtype w = d) (vget v z).
Proof.
  revert d. induction v as [a|v IHv w IHw]; intros d W T.
  - simpl in T. apply push_vec_arr in T; [|apply ndarray_nopair].
    simpl. unfold aget. destruct (ashape a) as [|n sh] eqn:E; simpl in *; [discriminate|].
    injection T as T. split; [|simpl; rewrite E; simpl; auto].
    apply tab_wf. intros idx _. apply get_kind_any; auto.
  - simpl in T. destruct d as [k|e|d1 d2]; simpl in T; try discriminate. injection T as T1 T2.
    simpl in W. destruct W as [W1 W2]. simpl.
    eapply nt_bind; [apply IHv; eauto|]. intros v' [V1 V2].
    eapply nt_bind; [apply IHw; eauto|]. intros w' [V3 V4]. simpl. subst. auto.
Qed.

Lemma vdim_typed v ax : nt (fun _ => True) (vdim v ax).
Proof.
  induction v as [a|v IHv w IHw]; simpl.
  - destruct (nth_error (ashape a) ax); simpl; auto. discriminate.
  - eapply nt_bind; [apply IHv|]. intros n _. eapply nt_bind; [apply IHw|]. intros m _.
    destruct (n =? m); simpl; auto. discriminate.
Qed.

Lemma vstack_typed t : forall vs d, val_wf t -> vtype t = d ->
  Forall (fun v => val_wf v /\ vtype v = d) vs ->
  nt (fun v => val_wf v /\ vtype v = push_vec d) (vstack t vs).
Proof.
  induction t as [a|t1 IH1 t2 IH2]; intros vs d W T H; simpl in *.
  - eapply nt_bind.
    + apply (nt_mapM (fun b => arr_wf b)). intros v Hv. rewrite Forall_forall in H.
      destruct (H v Hv) as [H1 H2]. destruct v; simpl in *; auto.
      exfalso. subst d. symmetry in H2. eapply ndarray_not_pair; eauto.
    + intros l [Hl _]. eapply nt_bind; [apply nt_guard; discriminate|]. intros u Hg. cbv beta in Hg. cbn [nt].
      rewrite forallb_forall in Hg. split.
      * apply astack_wf. apply Forall_forall. intros b Hb.
        specialize (Hg b Hb). apply arr_like_true in Hg as [Hg1 Hg2].
        rewrite Forall_forall in Hl. repeat split; auto. 1,2: apply (Hl b Hb).
      * subst d. destruct (ashape a); reflexivity.
  - subst d. destruct W as [W1 W2].
    eapply nt_bind.
    + apply (nt_mapM (fun p => (val_wf (fst p) /\ vtype (fst p) = vtype t1) /\
                               (val_wf (snd p) /\ vtype (snd p) = vtype t2))).
      intros v Hv. rewrite Forall_forall in H. destruct (H v Hv) as [H1 H2].
      destruct v as [b|v w]; simpl in *.
      * exfalso. eapply ndarray_not_pair; eauto.
      * injection H2 as H2 H3. destruct H1. auto.
    + intros ps [Hps _]. eapply nt_bind.
      { apply (IH1 (map fst ps) (vtype t1)); auto. apply Forall_map. revert Hps. apply Forall_impl. tauto. }
      intros v [V1 V2]. eapply nt_bind.
      { apply (IH2 (map snd ps) (vtype t2)); auto. apply Forall_map. revert Hps. apply Forall_impl. tauto. }
      intros w [V3 V4]. simpl. rewrite V2, V4. auto.
Qed.

Lemma vconcat_typed v : forall w d, val_wf v -> val_wf w -> vtype v = push_vec d -> vtype w = push_vec d ->
  nt (fun u => val_wf u /\ vtype u = push_vec d) (vconcat v w).
Proof.
  induction v as [a|v1 IH1 v2 IH2]; intros w d W1 W2 T1 T2; destruct w as [b|w1 w2]; simpl in *.
  - unfold aconcat. pose proof (push_vec_arr _ _ (ndarray_nopair _ _) T1) as T1'.
    pose proof (push_vec_arr _ _ (ndarray_nopair _ _) T2) as T2'.
    rewrite <- T1.
    destruct (ashape a) as [|n sh] eqn:Ea, (ashape b) as [|m sh'] eqn:Eb; simpl in *; try discriminate.
    destruct (list_nat_eqb sh sh') eqn:Es; simpl; [|discriminate].
    apply list_nat_eqb_eq in Es. subst sh'.
    assert (K : akind a = akind b).
    { assert (forall n k k', ndarray_type n k = ndarray_type n k' -> k = k') as G.
      { induction n0; simpl; intros k k' H; injection H; auto. }
      apply (G (length sh)). congruence. }
    rewrite K, kind_eqb_refl. simpl. split; [|auto].
    rewrite <- K. apply tab_wf. intros [|k idx] _; [apply skind_sjunk|].
    destruct (k <? n); [|rewrite K]; apply get_kind_any; auto.
  - exfalso. destruct d; simpl in T2; try discriminate. simpl in T1. eapply ndarray_not_pair; eauto.
  - exfalso. destruct d; simpl in T1; try discriminate. simpl in T2. eapply ndarray_not_pair; eauto.
  - destruct d as [k|e|d1 d2]; simpl in T1, T2; try discriminate.
    injection T1 as T11 T12. injection T2 as T21 T22.
    destruct W1, W2. eapply nt_bind; [apply (IH1 _ d1); auto|]. intros u1 [U1 U2].
    eapply nt_bind; [apply (IH2 _ d2); auto|]. intros u2 [U3 U4]. simpl. rewrite U2, U4. auto.
Qed.

Lemma env_typed_upd G E s t v : env_typed G E -> has_type v t -> env_typed (upd G s t) (upd E s v).
Proof.
  intros H Hv r t' v'. unfold upd. destruct (sym_eqb r s).
  - intros A B. injection A as <-. injection B as <-. auto.
  - apply H.
Qed.

Lemma all_and_Forall {A} (P : A -> Prop) l : fold_right and True (map P l) <-> Forall P l.
Proof.
  induction l; simpl; split; intros H; auto.
  - constructor; tauto.
  - inversion H; subst. tauto.
Qed.

Lemma fold_pair_typed es : forall ts e0 t0,
  has_type e0 t0 -> Forall2 (fun e t => has_type e t) es ts ->
  has_type (fold_left VPair es e0) (fold_left TPair ts t0).
Proof.
  induction es as [|e es IH]; intros ts e0 t0 H0 H; inversion H as [|? t ? ts' Ht Hts]; subst; simpl; auto.
  apply IH; auto. destruct H0, Ht. split; simpl; auto. congruence.
Qed.

Lemma vec_size_typed E s k :
  kind_eqb k KInt = true -> nt (fun v => has_type v (TScalar k)) (den E s) ->
  nt (fun z => True) (let* vz := den E s in val_int vz).
Proof.
  intros Hk H. apply kind_eqb_eq in Hk. subst k.
  eapply nt_bind; [exact H|]. intros v Hv. apply as_int_typed; auto.
Qed.

Lemma nt_all {A} (P : A -> Prop) : forall r : res A, r <> Err EType -> (forall a, r = Ok a -> P a) -> nt P r.
Proof. intros [a|e] H1 H2; simpl; auto. congruence. Qed.

Theorem type_sound (e : phi) : forall G E t,
  typ e = Ok t -> scoped G e -> int_indices e -> exts_ok e -> env_typed G E ->
  nt (fun v => has_type v t) (den E e).
Proof.
  induction e using phi_ind'; intros G E ty0 HT HS HI HX HE; cbn [typ] in HT; cbn [den];
    simpl in HS, HI, HX; rewrite ?all_and_Forall in HS, HI, HX.
  - (* Const *) inv_bind. split; simpl; auto.
    clear. induction (ashape a) as [|n l IH]; simpl; auto. rewrite <- IH.
    destruct l; reflexivity.
  - (* Store *) inv_bind. destruct (E s) eqn:Es; simpl; [|discriminate]. eapply HE; eauto.
  - (* Let *) inv_bind. destruct HS as (S1 & tb & Ht & S2), HI, HX.
    eapply nt_bind; [eapply IHe1; eauto|]. intros v Hv. eapply IHe2; eauto. apply env_typed_upd; auto.
  - (* AssertEq *)
    inv_bind. destruct HS as [S1 S2], HI as (I1 & I2 & I3), HX as [X1 X2].
    rewrite ?all_and_Forall in *.
    rewrite Forall_forall in H, S2, I2, I3, X2.
    eapply nt_bind.
    { apply (nt_mapM (fun v => has_type v (TScalar KInt))). intros o Ho. eapply H; eauto.
      apply (I3 o Ho). }
    intros vs [Hvs _]. eapply nt_bind.
    { apply (nt_mapM (fun _ => True)). intros v Hv. rewrite Forall_forall in Hvs. apply as_int_typed; auto. }
    intros zs _. eapply nt_bind; [apply nt_guard; discriminate|]. intros _ _. eapply IHe; eauto.
  - (* Dim *) inv_bind. eapply nt_bind; [eapply IHe; eauto|]. intros v Hv.
    eapply nt_bind; [apply vdim_typed|]. intros n _. apply vint_typed.
  - (* Get *) inv_bind. destruct a as [|el|]; try discriminate. destruct HS, HI as (I1 & I2 & I3), HX.
    destruct a0; try discriminate. inv_bind.
    eapply nt_bind; [eapply IHe1; eauto|]. intros v [Wv Tv].
    eapply nt_bind; [eapply IHe2; eauto|]. intros w Hw.
    eapply nt_bind; [apply as_int_typed; auto|]. intros z _.
    eapply nt_imp; [|apply vget_typed; eauto]. intros u [U1 U2]. split; auto.
  - (* Cons *) inv_bind. destruct HS, HI, HX.
    eapply nt_bind; [eapply IHe1; eauto|]. intros v [? ?].
    eapply nt_bind; [eapply IHe2; eauto|]. intros w [? ?]. split; simpl; auto. congruence.
  - (* First *) inv_bind. destruct a as [| |ta tb]; try discriminate. inv_bind.
    eapply nt_bind; [eapply IHe; eauto|]. intros v [Wv Tv]. destruct v as [b|v w]; simpl in *.
    + exfalso. eapply ndarray_not_pair; eauto.
    + injection Tv as T1 T2. split; simpl; tauto.
  - (* Second *) inv_bind. destruct a as [| |ta tb]; try discriminate. inv_bind.
    eapply nt_bind; [eapply IHe; eauto|]. intros v [Wv Tv]. destruct v as [b|v w]; simpl in *.
    + exfalso. eapply ndarray_not_pair; eauto.
    + injection Tv as T1 T2. split; simpl; tauto.
  - (* Vec *) inv_bind. destruct a as [k| |]; try discriminate. inv_bind. destruct HS, HI, HX.
    apply kind_eqb_eq in Hb2. subst k.
    eapply nt_bind; [eapply IHe1; eauto|]. intros vz Hvz.
    eapply nt_bind; [apply as_int_typed; auto|]. intros z _.
    eapply nt_bind; [eapply IHe2; eauto; apply env_typed_upd; auto; apply vint_typed|]. intros v0 [W0 T0].
    eapply nt_bind.
    { apply (nt_mapM (fun v => has_type v a0)). intros j _.
      eapply IHe2; eauto. apply env_typed_upd; auto. apply vint_typed. }
    intros vs [Hvs _]. eapply nt_imp; [|apply vstack_typed; eauto].
    intros v HV. exact HV.
  - (* Fold *) inv_bind. destruct a as [k| |]; try discriminate. inv_bind.
    destruct HS as (S1 & S2 & ti & Hti & S3), HI as (I1 & I2 & I3), HX as (X1 & X2 & X3).
    apply kind_eqb_eq in Hb2. subst k. apply ty_eqb_eq in Hb3. subst.
    eapply nt_bind; [eapply IHe1; eauto|]. intros vz Hvz.
    eapply nt_bind; [apply as_int_typed; auto|]. intros z _.
    eapply nt_bind; [eapply IHe2; eauto|]. intros v0 H0.
    rewrite Hti in Hb0. injection Hb0 as <-.
    apply (nt_iter (fun v => has_type v ti)); auto. intros j b Hbt. eapply IHe3; eauto.
    apply env_typed_upd; [apply env_typed_upd; auto|apply vint_typed].
  - (* Reduce *) inv_bind.
    destruct HS as (S1 & S2 & tx & Htx & S3), HI as (I1 & I2 & I3), HX as (X1 & X2 & X3).
    rewrite ?all_and_Forall in *.
    destruct a3 as [|t0 ts]; try discriminate. inv_bind.
    apply ty_eqb_eq in Hb2, Hb4. subst a.
    rewrite Htx in Hb0. injection Hb0 as Hb0. subst tx. subst ty0.
    apply mapM_Forall2 in Hb1, Hb3.
    rewrite Forall_forall in H, S2, I3, X3.
    (* the vectors *)
    eapply nt_bind.
    { apply (nt_mapM2 (fun u v => exists tu, typ u = Ok tu /\ has_type v tu)). intros u Hu.
      assert (exists tu, typ u = Ok tu) as (tu & Htu).
      { clear - Hb1 Hu. induction Hb1; simpl in Hu; [contradiction|]. destruct Hu as [<-|Hu]; eauto. }
      eapply nt_imp; [|eapply H; eauto]. intros v Hv. eauto. }
    intros vs Hvs. eapply nt_bind.
    { apply (nt_mapM (fun _ => True)). intros v _. apply vdim_typed. }
    intros ns [_ Hns].
    assert (HV : Forall2 (fun v el => val_wf v /\ vtype v = push_vec (dist el)) vs (t0 :: ts)).
    { clear - Hvs Hb1 Hb3. revert vs Hvs. generalize dependent (t0 :: ts). clear t0 ts.
      induction Hb1 as [|u tu us tus Hu Hb1 IH]; intros els HF vs Hvs.
      - inversion HF; subst. inversion Hvs; subst. constructor.
      - inversion HF as [|? el ? els' He HF']; subst. inversion Hvs as [|? v ? vs' Hv Hvs']; subst.
        constructor; [|apply IH; auto].
        destruct Hv as (tu' & E1 & [W T]). rewrite Hu in E1. injection E1 as <-.
        destruct tu; try discriminate. injection He as <-. auto. }
    destruct ns as [|n ns]; simpl; [discriminate|].
    eapply nt_bind; [apply nt_guard; discriminate|]. intros _ _.
    eapply nt_bind; [eapply IHe1; eauto|]. intros v0 H0.
    apply (nt_iter (fun v => has_type v (fold_left TPair ts t0))); auto.
    intros j b Hbt.
    eapply nt_bind.
    { apply (nt_mapM2 (fun u w => forall el, val_wf u -> vtype u = push_vec (dist el) -> has_type w el)).
      intros u Hu. clear - HV Hu. induction HV as [|v el vs els [W T] HV IH]; simpl in Hu; [contradiction|].
      destruct Hu as [<-|Hu]; auto. eapply nt_imp; [|apply vget_typed; eauto].
      intros w [W1 W2] el' _ E. split; auto. rewrite W2.
      assert (INJ : forall a b, push_vec a = push_vec b -> a = b).
      { clear. induction a as [k|e IHe|a1 IH1 a2 IH2]; destruct b as [k'|e'|b1 b2]; simpl;
          intros H; try discriminate; try congruence.
        injection H as H1 H2. f_equal; auto. }
      apply INJ. congruence. }
    intros es Hes.
    assert (HE2 : Forall2 has_type es (t0 :: ts)).
    { clear - HV Hes. revert es Hes. induction HV as [|v el vs els [W T] HV IH]; intros es Hes;
        inversion Hes; subst; constructor; auto. }
    inversion HE2 as [|e0 ? es' ? He0 Hes']; subst. simpl.
    eapply IHe2; eauto. apply env_typed_upd; [apply env_typed_upd; auto|].
    apply fold_pair_typed; auto.
  - (* Un *) inv_bind. apply resolve_un_inv in Hk as (k & k' & -> & -> & Hk).
    eapply nt_bind; [eapply IHe; eauto|]. intros v Hv.
    apply val_scalar_typed in Hv as (s & Hs & Ks). unfold lift1. rewrite Hs. simpl.
    pose proof (sem_un_kind o s) as Q. rewrite Ks, Hk in Q.
    destruct (sem_un o s); simpl in Q; [|discriminate]. injection Q as <-. simpl. apply vscalar_typed.
  - (* Bin *) inv_bind. apply resolve_bin_inv in Hk0 as (k1 & k2 & k' & -> & -> & -> & Hk).
    destruct HS, HI, HX.
    eapply nt_bind; [eapply IHe1; eauto|]. intros v Hv.
    eapply nt_bind; [eapply IHe2; eauto|]. intros w Hw.
    apply val_scalar_typed in Hv as (s & Hs & Ks). apply val_scalar_typed in Hw as (s' & Hs' & Ks').
    unfold lift2. rewrite Hs, Hs'. simpl.
    pose proof (sem_bin_kind o s s') as Q. rewrite Ks, Ks', Hk in Q.
    destruct (sem_bin o s s'); simpl in Q; [|discriminate]. injection Q as <-. simpl. apply vscalar_typed.
  - (* Where *) inv_bind.
    apply resolve_where_inv in Hk as (k1 & k2 & k3 & k' & -> & -> & -> & -> & HK).
    destruct HS as (? & ? & ?), HI as (? & ? & ?), HX as (? & ? & ?).
    eapply nt_bind; [eapply IHe1; eauto|]. intros u Hu.
    eapply nt_bind; [eapply IHe2; eauto|]. intros v Hv.
    eapply nt_bind; [eapply IHe3; eauto|]. intros w Hw.
    apply val_scalar_typed in Hu as (s1 & Hs1 & Ks1). apply val_scalar_typed in Hv as (s2 & Hs2 & Ks2).
    apply val_scalar_typed in Hw as (s3 & Hs3 & Ks3).
    unfold lift3. rewrite Hs1, Hs2, Hs3. simpl.
    pose proof (sem_where_kind s1 s2 s3) as Q. rewrite Ks1, Ks2, Ks3, HK in Q.
    destruct (sem_where s1 s2 s3); simpl in Q; [|discriminate]. injection Q as <-. simpl. apply vscalar_typed.
  - (* Concat *) inv_bind. destruct a as [|el|]; try discriminate. inv_bind.
    apply ty_eqb_eq in Hb1. subst a0. destruct HS, HI, HX.
    eapply nt_bind; [eapply IHe1; eauto|]. intros v [? ?].
    eapply nt_bind; [eapply IHe2; eauto|]. intros w [? ?].
    apply (vconcat_typed v w (dist el)); auto.
  - (* Ext *) inv_bind. destruct HX as (X1 & X2 & X3). rewrite ?all_and_Forall in *.
    rewrite Forall_forall in H, HS, HI, X1. apply mapM_Forall2 in Hb.
    eapply nt_bind.
    { apply (nt_mapM (fun v => exists a, v = VArr a)). intros o Ho.
      assert (exists tu, typ o = Ok tu) as (tu & Htu).
      { clear - Hb Ho. induction Hb; simpl in Ho; [contradiction|]. destruct Ho as [<-|Ho]; eauto. }
      eapply nt_imp; [|eapply H; eauto]. intros v [W T]. destruct v as [b|v w]; eauto.
      exfalso. specialize (X2 o tu Ho Htu). simpl in T.
      assert (D : forall t, has_pair t = false -> dist t = t).
      { clear. induction t; simpl; intros H; auto; try discriminate. rewrite IHt by auto.
        destruct t; auto. discriminate. }
      rewrite D in T by auto. subst tu. discriminate X2. }
    intros vs [Hvs _]. eapply nt_bind.
    { apply (nt_mapM (fun _ => True)). intros v Hv. rewrite Forall_forall in Hvs.
      destruct (Hvs v Hv) as (b & ->). simpl; auto. }
    intros l _. specialize (X3 l). destruct (ext_call f l); simpl; auto.
Qed.

End Typing.
