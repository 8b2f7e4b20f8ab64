(** Typing of terms in context, as used for the struct-of-arrays transform. *)
From Verif Require Import Base Scalar Tensor Types Sym Phi Den Term PhiTerm DenFree SpecPhi Lining LiningFacts TypesFacts Typing Naive Sizes Subst CodegenSub Soa.

Section SoaTyp.
Context {FO : FloatOps} {EX : Externs}.

Notation int := (TScalar KInt).

(** ** Types *)

Lemma dist_soa_aux t : dist (soa_aux true t) = push_vec (dist t) /\ dist (soa_aux false t) = dist t.
Proof.
  induction t as [k|e [IH1 IH2]|a [A1 A2] b [B1 B2]]; simpl; auto.
  - rewrite IH1. auto.
  - rewrite A1, A2, B1, B2. auto.
Qed.
Lemma dist_soa t : dist (soa_ty t) = dist t.
Proof. apply dist_soa_aux. Qed.

Lemma soa_idem t : shallow t = true -> soa_ty (soa_ty t) = soa_ty t.
Proof. intros H. apply soa_flat_id, soa_shallow_flat, H. Qed.

Lemma flat_shallow t : flat t = true -> shallow t = true.
Proof.
  induction t as [k|e IH|a IHa b IHb]; simpl; auto.
  - intros H. apply negb_true_iff in H. destruct e; simpl in *; auto; try discriminate. rewrite H. auto.
  - intros H. apply andb_true_iff in H as [H1 H2]. rewrite IHa, IHb; auto.
Qed.

Lemma soa_shallow t : shallow t = true -> shallow (soa_ty t) = true.
Proof. intros H. apply flat_shallow, soa_shallow_flat, H. Qed.

Lemma has_pair_soa_aux t : has_pair (soa_aux true t) = has_pair t /\ has_pair (soa_aux false t) = has_pair t.
Proof. induction t as [k|e [IH1 IH2]|a IHa b IHb]; simpl; auto. Qed.
Lemma has_pair_soa t : has_pair (soa_ty t) = has_pair t.
Proof. apply has_pair_soa_aux. Qed.

(** ** Typing in context *)

Definition ext_typed (t : ty) (f : nat) : Prop :=
  forall l, match ext_call f l with Ok a => has_type (VArr a) t | Err er => er <> EType end.

Fixpoint wt (G : tctx) (e : phi) (t : ty) {struct e} : Prop :=
  let all := fix all (l : list phi) (ts : list ty) : Prop :=
    match l, ts with
    | [], [] => True
    | x :: l, t :: ts => wt G x t /\ all l ts
    | _, _ => False
    end in
  match e with
  | PConst a => arr_wf a /\ t = ndarray_type (length (ashape a)) (akind a)
  | PStore s t' => t' = t /\ G s = Some t
  | PLet x b body => exists tb, wt G b tb /\ shallow tb = true /\ wt (upd G (SV x) tb) body t
  | PAssertEq e ops => wt G e t /\ exists ts, all ops ts /\ Forall (fun t => t = int) ts
  | PDim e _ => t = int /\ exists te, wt G e te
  | PGet e i => wt G e (TVec t) /\ wt G i int
  | PCons a b => exists ta tb, t = TPair ta tb /\ wt G a ta /\ wt G b tb
  | PFirst e => exists tb, wt G e (TPair t tb)
  | PSecond e => exists ta, wt G e (TPair ta t)
  | PVec i s b => exists tb, t = TVec tb /\ wt G s int /\ free_indices s = [] /\ wt (upd G (SX i) int) b tb
  | PFold c s acc init b =>
      wt G s int /\ wt G init t /\ shallow t = true /\ wt (upd (upd G (SV acc) t) (SV c) int) b t
  | PReduce init x y xy vecs =>
      wt G init t /\ shallow t = true /\ wt (upd (upd G (SV x) t) (SV y) t) xy t /\
      exists el els, all vecs (map TVec (el :: els)) /\ t = fold_left TPair els el /\
        Forall (fun e => shallow (TVec e) = true) (el :: els)
  | PUn o a => exists ta, wt G a ta /\ resolve_scalar_signature [ta] (fst (sig_un o)) (snd (sig_un o)) = Ok t
  | PBin o a b => exists ta tb, wt G a ta /\ wt G b tb /\
      resolve_scalar_signature [ta; tb] (fst (sig_bin o)) (snd (sig_bin o)) = Ok t
  | PWhere c a b => exists tc ta tb, wt G c tc /\ wt G a ta /\ wt G b tb /\
      resolve_scalar_signature [tc; ta; tb] (fst sig_where) (snd sig_where) = Ok t
  | PConcat a b => exists el, t = TVec el /\ wt G a t /\ wt G b t
  | PExt t' f ops => t' = t /\ ext_typed t f /\ exists ts, all ops ts /\ Forall (fun t => has_pair t = false) ts
  end.

Definition wts (G : tctx) : list phi -> list ty -> Prop :=
  fix all (l : list phi) (ts : list ty) : Prop :=
    match l, ts with
    | [], [] => True
    | x :: l, t :: ts => wt G x t /\ all l ts
    | _, _ => False
    end.

Lemma wts_Forall2 G l ts : wts G l ts <-> Forall2 (wt G) l ts.
Proof.
  revert ts. induction l as [|e l IH]; intros [|t ts]; simpl; split; intros H; try tauto; try constructor; try (inversion H; fail).
  - apply H.
  - apply IH, H.
  - inversion H; subst. auto.
  - inversion H; subst. apply IH. auto.
Qed.

(** Induction over operand lists *)
Lemma Forall2_imp_in {A B} (R S : A -> B -> Prop) l m :
  Forall (fun x => forall y, R x y -> S x y) l -> Forall2 R l m -> Forall2 S l m.
Proof. intros F H. induction H; inversion F; subst; constructor; auto. Qed.

Lemma wt_typ (e : phi) : forall G t, wt G e t -> typ e = Ok t.
Proof.
  assert (L : forall ops, Forall (fun e => forall G t, wt G e t -> typ e = Ok t) ops -> forall G ts, Forall2 (wt G) ops ts -> mapM typ ops = Ok ts).
  { intros ops F G ts H. apply mapM_Forall2. eapply Forall2_imp_in; [|exact H]. rewrite Forall_forall in *. intros o Ho y. apply F. auto. }
  assert (R : forall (t : ty) , ty_eqb t t = true) by apply ty_eqb_refl.
  induction e using phi_ind'; intros G ty0 W; simpl in W; fold (wts G) in W; cbn [typ];
    repeat match goal with H : _ /\ _ |- _ => destruct H | H : exists _, _ |- _ => destruct H end; subst;
    repeat match goal with IH : forall G t, wt G ?e t -> _, H : wt _ ?e _ |- _ => rewrite (IH _ _ H); clear IH end; cbn [bind]; auto.
  - rewrite (L _ H G x (proj1 (wts_Forall2 _ _ _) H1)). cbn [bind].
    destruct (forallb _ x) eqn:E; [reflexivity|]. apply not_true_iff_false in E. exfalso. apply E. apply forallb_forall.
    rewrite Forall_forall in H2. intros y Hy. rewrite (H2 _ Hy). destruct x; [destruct Hy|]. simpl. rewrite (H2 t) by (left; auto). reflexivity.
  - rewrite H1. reflexivity.
  - rewrite R. reflexivity.
  - rewrite (L _ H G _ (proj1 (wts_Forall2 _ _ _) H3)). cbn [bind]. rewrite R. cbn [bind guard map mapM].
    assert (Q : mapM (fun t => match t with TVec el => Ok el | _ => Err EType end) (map TVec x1) = Ok x1).
    { clear. induction x1; simpl; auto. rewrite IHx1. auto. }
    rewrite Q. cbn [bind]. rewrite R. reflexivity.
  - rewrite R. reflexivity.
  - rewrite (L _ H G _ (proj1 (wts_Forall2 _ _ _) H2)). reflexivity.
Qed.

Lemma wt_scoped (e : phi) : forall G t, wt G e t -> scoped G e /\ int_indices e /\ exts_ok e.
Proof.
  assert (L : forall ops, Forall (fun e => forall G t, wt G e t -> scoped G e /\ int_indices e /\ exts_ok e) ops -> forall G ts, Forall2 (wt G) ops ts ->
    Forall (scoped G) ops /\ Forall int_indices ops /\ Forall exts_ok ops).
  { intros ops F G ts H. induction H; inversion F; subst; auto. destruct (IHForall2 H4) as (A & B & C). destruct (H3 _ _ H) as (A1 & B1 & C1). auto. }
  induction e using phi_ind'; intros G ty0 W; simpl in W; fold (wts G) in W; simpl;
    repeat match goal with H : _ /\ _ |- _ => destruct H | H : exists _, _ |- _ => destruct H end; subst;
    repeat match goal with IH : forall G t, wt G ?e t -> _, H : wt _ ?e _ |- _ =>
      pose proof (wt_typ _ _ _ H); destruct (IH _ _ H) as (? & ? & ?); clear IH end; auto 8.
  - repeat split; auto. exists x0. auto.
  - apply wts_Forall2 in H1. destruct (L _ H _ _ H1) as (A & B & C). rewrite !all_and_Forall. repeat split; auto.
    clear - H1 H2. induction H1; constructor; inversion H2; subst; auto. apply wt_typ in H. auto.
  - repeat split; auto. exists ty0. auto.
  - apply wts_Forall2 in H3. destruct (L _ H _ _ H3) as (A & B & C). rewrite !all_and_Forall. repeat split; auto. eauto.
  - apply wts_Forall2 in H2. destruct (L _ H _ _ H2) as (A & B & C). rewrite !all_and_Forall. repeat split; auto.
    intros o to Ho Hto. clear - H2 H3 Ho Hto. induction H2; [destruct Ho|]. inversion H3; subst. destruct Ho as [->|Ho]; auto.
    apply wt_typ in H. congruence.
Qed.

Lemma wt_value e G E t v : wt G e t -> env_typed G E -> den E e = Ok v -> has_type v t.
Proof.
  intros W HE D. destruct (wt_scoped e G t W) as (A & B & C). pose proof (type_sound e G E t (wt_typ _ _ _ W) A B C HE) as H.
  rewrite D in H. exact H.
Qed.

Lemma wt_fun e G G' t t' : wt G e t -> wt G' e t' -> t = t'.
Proof. intros A B. apply wt_typ in A, B. congruence. Qed.

(** Typing depends on the symbols that occur. *)
Lemma wt_agree (e : phi) : forall G G' t, (forall s, In s (syms e) -> G s = G' s) -> wt G e t -> wt G' e t.
Proof.
  assert (L : forall ops, Forall (fun e => forall G G' t, (forall s, In s (syms e) -> G s = G' s) -> wt G e t -> wt G' e t) ops ->
    forall G G' ts, (forall s, In s (flat_map syms ops) -> G s = G' s) -> wts G ops ts -> wts G' ops ts).
  { intros ops F G G' ts HG. rewrite !wts_Forall2. apply Forall2_imp_in. rewrite Forall_forall in *.
    intros o Ho y. apply F; auto. intros s Hs. apply HG. apply in_flat_map. eauto. }
  assert (U : forall G G' s (t : ty) l, (forall r, In r l -> G r = G' r) -> forall r, In r l -> upd G s t r = upd G' s t r).
  { intros G G' s t l H r Hr. destruct (sym_eq_dec r s) as [->|N]; [rewrite !upd_eq; auto|rewrite !upd_neq; auto]. }
  induction e using phi_ind'; intros G G' ty0 HG W; simpl in W, HG |- *; fold (wts G) in W; fold (wts G');
    repeat match goal with H : _ /\ _ |- _ => destruct H | H : exists _, _ |- _ => destruct H end; subst;
    repeat match goal with
    | H : wt G ?e ?t, IH : forall G G' t, _ -> wt G ?e t -> wt G' ?e t |- _ =>
        apply (IH G G' t) in H; [|intros ? ?; apply HG; rewrite ?in_app_iff; simpl; rewrite ?in_app_iff; auto 6; fail] end;
    try solve [repeat match goal with |- _ /\ _ => split | |- exists _, _ => eexists end; try eassumption; auto].
  - split; auto. rewrite <- HG; auto.
  - idtac. exists x0. split; auto. split; auto. eapply IHe2; [|exact H1]. apply U. intros; apply HG. right. apply in_or_app. auto.
  - split; auto. exists x. split; auto. apply (L ops H G G'); auto. intros; apply HG. apply in_or_app; auto.
  - exists x. split; auto. split; auto. split; auto. eapply IHe2; [|exact H2]. apply U. intros; apply HG. right. apply in_or_app. auto.
  - split; auto. split; auto. split; auto. eapply IHe3; [|exact H2]. apply U, U. intros; apply HG. rewrite !in_app_iff. auto.
  - split; auto. split; auto. split.
    + eapply IHe2; [|exact H2]. apply U, U. intros; apply HG. rewrite !in_app_iff. auto.
    + exists x0, x1. split; auto. apply (L vecs H G G'); auto. intros; apply HG. rewrite !in_app_iff. auto.
  - split; auto. split; auto. exists x. split; auto. apply (L ops H G G'); auto.
Qed.

Lemma wt_ext e G G' t : (forall s, G s = G' s) -> wt G e t -> wt G' e t.
Proof. intros H. apply wt_agree. auto. Qed.

(** ** Substitution *)

(** Replacements without binders, whose symbols are not bound in the term; a
    variable's replacement has no indices. *)
Definition sub_plain (sb : list (sym * phi)) : Prop := forall s u, In (s, u) sb -> bsyms u = [].

Lemma psub_bsyms_plain sb e : sub_plain sb -> bsyms (psub sb e) = bsyms e.
Proof.
  intros A. induction e using phi_ind'; simpl; rewrite ?IHe, ?IHe1, ?IHe2, ?IHe3; auto;
    try (f_equal; auto; fail).
  - destruct (sassoc s sb) as [u|] eqn:E; auto. apply sassoc_some, A in E. auto.
  - f_equal. rewrite flat_map_concat_map, map_map, <- flat_map_concat_map.
    induction H; simpl; auto. rewrite H, IHForall. auto.
  - do 4 f_equal. rewrite flat_map_concat_map, map_map, <- flat_map_concat_map.
    induction H; simpl; auto. rewrite H, IHForall. auto.
  - rewrite flat_map_concat_map, map_map, <- flat_map_concat_map.
    induction H; simpl; auto. rewrite H, IHForall. auto.
Qed.

Lemma plain_fresh u : bsyms u = [] -> forall X, fresh_binders X u.
Proof.
  induction u using phi_ind'; intros B X; simpl in *; try discriminate; rewrite ?all_and_Forall;
    repeat match goal with H : _ ++ _ = [] |- _ => apply app_eq_nil in H as [? ?] end; repeat split; auto.
  - clear IHu. induction H; simpl in *; auto. apply app_eq_nil in H1 as [? ?]. constructor; auto.
  - induction H; simpl in *; auto. apply app_eq_nil in B as [? ?]. constructor; auto.
Qed.

Lemma psub_fresh_plain sb e : sub_plain sb -> forall X, fresh_binders X e -> fresh_binders X (psub sb e).
Proof.
  intros A. induction e using phi_ind'; intros X F; simpl in *; rewrite ?all_and_Forall in *;
    repeat match goal with H : _ /\ _ |- _ => destruct H end; repeat (match goal with |- _ /\ _ => split end); auto.
  - destruct (sassoc s sb) as [u|] eqn:E; auto. apply plain_fresh. apply sassoc_some, A in E. auto.
  - rewrite Forall_forall in *. intros o Ho. apply in_map_iff in Ho as (o' & <- & Ho). auto.
  - rewrite Forall_forall in *. intros o Ho. apply in_map_iff in Ho as (o' & <- & Ho). auto.
  - rewrite Forall_forall in *. intros o Ho. apply in_map_iff in Ho as (o' & <- & Ho). auto.
Qed.

Lemma psub_syms sb e r : In r (syms (psub sb e)) -> In r (syms e) \/ exists s u, In (s, u) sb /\ In r (syms u).
Proof.
  assert (L : forall ops, Forall (fun e => In r (syms (psub sb e)) -> In r (syms e) \/ exists s u, In (s, u) sb /\ In r (syms u)) ops ->
    In r (flat_map syms (map (psub sb) ops)) -> In r (flat_map syms ops) \/ exists s u, In (s, u) sb /\ In r (syms u)).
  { intros ops F H. apply in_flat_map in H as (o & Ho & H). apply in_map_iff in Ho as (o' & <- & Ho). rewrite Forall_forall in F.
    destruct (F _ Ho H); auto. left. apply in_flat_map. eauto. }
  induction e using phi_ind'; intros K; simpl in K |- *; rewrite ?in_app_iff in *; try tauto;
    repeat match goal with H : Forall _ ?l, L : forall ops, _ |- _ => pose proof (L _ H); clear H end; try tauto.
  destruct (sassoc s sb) as [u|] eqn:E; auto. apply sassoc_some in E. right. eauto.
Qed.

(** Types: [G1] types the term, [G2] the result. *)
Section Sub.
Variable sb : list (sym * phi).
Hypothesis VI : forall x u r, In (SV x, u) sb -> In r (fsyms u) -> is_index r = false.

Definition sub_wt (G1 G2 : tctx) (e : phi) : Prop :=
  forall s t, In s (syms e) -> G1 s = Some t -> match sassoc s sb with Some u => wt G2 u t | None => G2 s = Some t end.

Definition clear_of (e : phi) : Prop :=
  (forall s, In s (map fst sb) -> ~ In s (bsyms e)) /\
  (forall s u r, In (s, u) sb -> In r (syms u) -> ~ In r (bsyms e)).

Lemma psub_index (e : phi) i : (forall s, In s (map fst sb) -> ~ In s (bsyms e)) -> In (SX i) (fsyms (psub sb e)) ->
  In (SX i) (fsyms e) \/ exists j, In (SX j) (fsyms e) /\ In (SX j) (map fst sb).
Proof.
  assert (L : forall ops, Forall (fun e => (forall s, In s (map fst sb) -> ~ In s (bsyms e)) -> In (SX i) (fsyms (psub sb e)) ->
      In (SX i) (fsyms e) \/ exists j, In (SX j) (fsyms e) /\ In (SX j) (map fst sb)) ops ->
    (forall s, In s (map fst sb) -> ~ In s (flat_map bsyms ops)) -> In (SX i) (flat_map fsyms (map (psub sb) ops)) ->
    In (SX i) (flat_map fsyms ops) \/ exists j, In (SX j) (flat_map fsyms ops) /\ In (SX j) (map fst sb)).
  { intros ops F B H. apply in_flat_map in H as (o & Ho & H). apply in_map_iff in Ho as (o' & <- & Ho). rewrite Forall_forall in F.
    destruct (F o' Ho) as [K|(j & K1 & K2)]; auto.
    - intros s Hs Q. apply (B s Hs). apply in_flat_map. eauto.
    - left. apply in_flat_map. eauto.
    - right. exists j. split; auto. apply in_flat_map. eauto. }
  induction e using phi_ind'; intros B K; simpl in K, B |- *; rewrite ?sremove_In, ?in_app_iff in *;
    repeat match goal with F : Forall _ ?l, L : forall ops, _ |- _ => pose proof (L _ F); clear F end; clear L.
  2: { destruct (sassoc s sb) as [u|] eqn:E; auto. apply sassoc_some in E. right. destruct s as [x|k].
    + specialize (VI x u _ E K). discriminate.
    + exists k. split; auto. apply in_map_iff. exists (SX k, u). auto. }
  all: repeat match goal with H : (forall s, In s _ -> ~ In s ?l) -> ?A -> _ |- _ =>
      assert (A -> _) by (apply H; intros ? Hs Q; apply (B _ Hs); rewrite ?in_app_iff; simpl; rewrite ?in_app_iff; auto 6); clear H end.
  all: repeat match goal with H : _ /\ _ |- _ => destruct H end.
  all: repeat match goal with H : _ \/ _ |- _ => destruct H end.
  all: try contradiction.
  all: match goal with K : ?A, H : ?A -> _ |- _ => destruct (H K) as [R|(j & R1 & R2)]; clear H; [left; tauto|] end.
  all: right; exists j; split; [|exact R2]; rewrite ?sremove_In, ?in_app_iff; pose proof (B _ R2) as NB; clear B; simpl in NB |- *.
  all: repeat split; try tauto; intuition congruence.
Qed.

Lemma wt_psub (e : phi) : forall G1 G2 t, sub_wt G1 G2 e -> clear_of e -> wt G1 e t -> wt G2 (psub sb e) t.
Proof.
  assert (UP : forall G1 G2 e e' r t, sub_wt G1 G2 e -> In r (bsyms e) -> clear_of e -> (forall s, In s (syms e') -> In s (syms e)) ->
    sub_wt (upd G1 r t) (upd G2 r t) e').
  { clear e. intros G1 G2 e e' r t HS Hr [C1 C2] I s ts Hs K. destruct (sym_eq_dec s r) as [->|N].
    - rewrite upd_eq in K. injection K as ->. rewrite sassoc_none by (intros Q; apply (C1 _ Q); auto). apply upd_eq.
    - rewrite upd_neq in K by auto. specialize (HS s ts (I _ Hs) K). destruct (sassoc s sb) as [u|] eqn:E.
      + eapply wt_agree; [|exact HS]. intros q Hq. apply sassoc_some in E. rewrite upd_neq; auto. intros ->. apply (C2 s u r E Hq Hr).
      + rewrite upd_neq; auto. }
  assert (SUB : forall G1 G2 e e', sub_wt G1 G2 e -> (forall s, In s (syms e') -> In s (syms e)) -> sub_wt G1 G2 e') by (intros ? ? ? ? HS I s t Hs; apply HS; auto).
  assert (CL : forall e e', clear_of e -> (forall s, In s (bsyms e') -> In s (bsyms e)) -> clear_of e').
  { clear e. intros e e' [C1 C2] I. split; [intros s Hs B; apply (C1 s Hs); auto|intros s u r Hs Hr B; apply (C2 s u r Hs Hr); auto]. }
  assert (L : forall ops, Forall (fun e => forall G1 G2 t, sub_wt G1 G2 e -> clear_of e -> wt G1 e t -> wt G2 (psub sb e) t) ops ->
    forall G1 G2 ts e, (forall s, In s (flat_map syms ops) -> In s (syms e)) -> (forall s, In s (flat_map bsyms ops) -> In s (bsyms e)) ->
      sub_wt G1 G2 e -> clear_of e -> wts G1 ops ts -> wts G2 (map (psub sb) ops) ts).
  { clear e. intros ops F G1 G2 ts e I1 I2 HS HC. rewrite !wts_Forall2. intros W. clear VI UP. induction W; simpl; [constructor|]. inversion F; subst.
    simpl in I1, I2. constructor.
    - eapply H2; eauto. + eapply SUB; eauto. intros; apply I1, in_or_app; auto. + eapply CL; eauto. intros; apply I2, in_or_app; auto.
    - apply IHW; auto; intros; [apply I1|apply I2]; apply in_or_app; auto. }
  induction e using phi_ind'; intros G1 G2 ty0 HS HC W; cbn [psub];
    [|simpl in W; destruct W as [-> W]; specialize (HS s ty0 (or_introl eq_refl) W); destruct (sassoc s sb); auto; simpl; auto|..];
    match type of HS with sub_wt _ _ ?w => set (W0 := w) in HS, HC end;
    simpl in W |- *; fold (wts G1) in W; fold (wts G2);
    repeat match goal with H : _ /\ _ |- _ => destruct H | H : exists _, _ |- _ => destruct H end; subst;
    repeat match goal with
    | H : wt G1 ?e ?t, IH : forall G1 G2 t, _ -> _ -> wt G1 ?e t -> wt G2 (psub sb ?e) t |- _ =>
        apply (IH G1 G2 t) in H;
          [|apply (SUB _ _ W0); [exact HS|intros ? ?; unfold W0; simpl; rewrite ?in_app_iff; auto 6]
           |apply (CL W0); [exact HC|intros ? ?; unfold W0; simpl; rewrite ?in_app_iff; auto 6]] end;
    try solve [repeat match goal with |- _ /\ _ => split | |- exists _, _ => eexists end; try eassumption; auto].
  - exists x0. split; auto. split; auto. eapply IHe2; [| |exact H1].
    + apply (UP G1 G2 W0); auto; intros; unfold W0; simpl; rewrite ?in_app_iff; auto.
    + apply (CL W0); auto; intros; unfold W0; simpl; rewrite ?in_app_iff; auto.
  - split; auto. exists x. split; auto. apply (L ops H G1 G2 x W0); auto; intros; unfold W0; simpl; rewrite ?in_app_iff; auto.
  - exists x. split; auto. split; auto. split.
    + destruct (free_indices (psub sb e1)) as [|r l] eqn:F; auto. exfalso.
      assert (K : In r (free_indices (psub sb e1))) by (rewrite F; left; auto).
      apply filter_In in K as [K1 K2]. destruct r as [|k]; [discriminate|].
      destruct (psub_index e1 k) as [K|(k' & K & _)]; auto.
      { intros s Hs B. apply (proj1 HC s Hs). unfold W0. simpl. rewrite in_app_iff. auto. }
      * assert (Q : In (SX k) (free_indices e1)) by (apply filter_In; auto). rewrite H1 in Q. destruct Q.
      * assert (Q : In (SX k') (free_indices e1)) by (apply filter_In; auto). rewrite H1 in Q. destruct Q.
    + eapply IHe2; [| |exact H2].
      * apply (UP G1 G2 W0); auto; intros; unfold W0; simpl; rewrite ?in_app_iff; auto.
      * apply (CL W0); auto; intros; unfold W0; simpl; rewrite ?in_app_iff; auto.
  - split; auto. split; auto. split; auto. eapply IHe3; [| |exact H2].
    + apply (UP _ _ W0); [apply (UP _ _ W0)|..]; auto; intros; unfold W0; simpl; rewrite ?in_app_iff; auto.
    + apply (CL W0); auto; intros; unfold W0; simpl; rewrite ?in_app_iff; auto.
  - split; auto. split; auto. split.
    + eapply IHe2; [| |exact H2].
      * apply (UP _ _ W0); [apply (UP _ _ W0)|..]; auto; intros; unfold W0; simpl; rewrite ?in_app_iff; auto.
      * apply (CL W0); auto; intros; unfold W0; simpl; rewrite ?in_app_iff; auto.
    + exists x0, x1. split; auto. apply (L vecs H G1 G2 _ W0); auto; intros; unfold W0; simpl; rewrite ?in_app_iff; auto.
  - split; auto. split; auto. exists x. split; auto. apply (L ops H G1 G2 _ W0); auto; intros; unfold W0; simpl; rewrite ?in_app_iff; auto.
Qed.
End Sub.
End SoaTyp.
