(** The struct-of-arrays transform keeps types and values. *)
From Verif Require Import Base Scalar Tensor Types Sym Phi Den DenWf Term PhiTerm DenFree SpecPhi Lining LiningFacts TypesFacts Typing Naive Sizes Subst CodegenSub Soa SoaTyp SoaOps.

Section SoaFacts.
Context {FO : FloatOps} {EX : Externs}.

Notation int := (TScalar KInt).

(** ** Contexts *)
Definition SG (G : tctx) : tctx := fun s => option_map soa_ty (G s).
Definition shG (G : tctx) : Prop := forall s t, G s = Some t -> shallow t = true.

Lemma SG_upd G s t r : SG (upd G s t) r = upd (SG G) s (soa_ty t) r.
Proof. unfold SG, upd. destruct (sym_eqb r s); reflexivity. Qed.
Lemma SG_upd2 G s t s' t' r : SG (upd (upd G s t) s' t') r = upd (upd (SG G) s (soa_ty t)) s' (soa_ty t') r.
Proof. unfold SG, upd. destruct (sym_eqb r s'); [reflexivity|]. destruct (sym_eqb r s); reflexivity. Qed.
Lemma SG_SG G s : shG G -> SG (SG G) s = SG G s.
Proof.
  intros H. specialize (H s). unfold SG. destruct (G s) as [t|]; simpl; auto. rewrite soa_idem; auto.
Qed.
Lemma shG_upd G s t : shG G -> shallow t = true -> shG (upd G s t).
Proof. intros H Ht r t'. unfold upd. destruct (sym_eqb r s); [intros Q; injection Q as <-; auto|apply H]. Qed.
Lemma shG_SG G : shG G -> shG (SG G).
Proof.
  intros H s t. unfold SG. destruct (G s) as [u|] eqn:Q; simpl; [|discriminate]. intros K. injection K as <-. apply soa_shallow. eauto.
Qed.
Lemma has_type_soa v t : has_type v (soa_ty t) <-> has_type v t.
Proof. unfold has_type. rewrite dist_soa. tauto. Qed.
Lemma env_SG G E : env_typed G E -> env_typed (SG G) E.
Proof.
  intros H s t v. unfold SG. destruct (G s) as [u|] eqn:Q; simpl; [|discriminate]. intros K Ev. injection K as <-.
  apply has_type_soa. eauto.
Qed.

(** ** Numbering of symbols *)
Definition below (n : nat) (l : list sym) : Prop := forall s, In s l -> symno s < n.

Lemma below_app n l m : below n (l ++ m) <-> below n l /\ below n m.
Proof. unfold below. setoid_rewrite in_app_iff. firstorder. Qed.
Lemma below_cons n s l : below n (s :: l) <-> symno s < n /\ below n l.
Proof. unfold below. simpl. firstorder. subst. auto. Qed.
Lemma below_nil n : below n []. Proof. intros s []. Qed.
Lemma below_le n m l : n <= m -> below n l -> below m l.
Proof. intros H B s Hs. specialize (B s Hs). lia. Qed.
Lemma below_flat {A} n (f : A -> list sym) l : below n (flat_map f l) <-> Forall (fun x => below n (f x)) l.
Proof.
  induction l; simpl; [split; auto using below_nil|]. rewrite below_app, IHl. split; [intros [? ?]; auto|intros H; inversion H; auto].
Qed.
Lemma below_notin n s l : below n l -> n <= symno s -> ~ In s l.
Proof. intros B H K. specialize (B s K). lia. Qed.

Lemma bsyms_syms (e : phi) s : In s (bsyms e) -> In s (syms e).
Proof.
  assert (L : forall ops, Forall (fun e => In s (bsyms e) -> In s (syms e)) ops -> In s (flat_map bsyms ops) -> In s (flat_map syms ops)).
  { intros ops F. rewrite !in_flat_map. intros (o & Ho & K). rewrite Forall_forall in F. eauto. }
  induction e using phi_ind'; simpl; rewrite ?in_app_iff; intros K; try tauto;
    repeat match goal with H : Forall _ ?l |- _ => pose proof (L _ H); clear H end; tauto.
Qed.
Lemma free_syms s (e : phi) : free_in s e -> In s (syms e).
Proof.
  assert (L : forall ops, Forall (fun e => free_in s e -> In s (syms e)) ops -> fold_right or False (map (free_in s) ops) -> In s (flat_map syms ops)).
  { intros ops F. rewrite any_Exists, in_flat_map. intros (o & Ho & K). rewrite Forall_forall in F. eauto. }
  induction e using phi_ind'; simpl; rewrite ?in_app_iff; intros K;
    repeat match goal with H : Forall _ ?l |- _ => pose proof (L _ H); clear H end; try tauto; auto.
Qed.
Lemma fsyms_syms s (e : phi) : In s (fsyms e) -> In s (syms e).
Proof.
  assert (L : forall ops, Forall (fun e => In s (fsyms e) -> In s (syms e)) ops -> In s (flat_map fsyms ops) -> In s (flat_map syms ops)).
  { intros ops F. rewrite !in_flat_map. intros (o & Ho & K). rewrite Forall_forall in F. eauto. }
  induction e using phi_ind'; simpl; rewrite ?sremove_In, ?in_app_iff; intros K; try tauto;
    repeat match goal with H : Forall _ ?l |- _ => pose proof (L _ H); clear H end; tauto.
Qed.

(** ** What a call of [go] gives *)
Record post (G : tctx) (X : list sym) (e : phi) (t : ty) (n : nat) (e' : phi) (n' : nat) : Prop := {
  p_le : n <= n';
  p_below : below n' (syms e');
  p_fresh : fresh_binders X e';
  p_wt : wt (SG G) e' (soa_ty t);
  p_den : forall E v, env_typed G E -> den E e = Ok v -> den E e' = Ok v }.

Definition go_spec (rec : phi -> nat -> res (phi * nat)) : Prop :=
  forall G X e t n e' n', rec e n = Ok (e', n') ->
  wt G e t -> shG G -> fresh_binders X e -> below n X -> below n (syms e) -> post G X e t n e' n'.

Lemma mapS_ok rec G X : go_spec rec -> shG G -> forall l ts n l' n', mapS rec l n = Ok (l', n') ->
  Forall2 (wt G) l ts -> Forall (fresh_binders X) l -> below n X -> below n (flat_map syms l) ->
  n <= n' /\ below n' (flat_map syms l') /\ Forall (fresh_binders X) l' /\ Forall2 (wt (SG G)) l' (map soa_ty ts) /\
  (forall E vs, env_typed G E -> mapM (den E) l = Ok vs -> mapM (den E) l' = Ok vs).
Proof.
  intros HR HG l ts n l' n' Q W. revert n l' n' Q. induction W as [|x y l ts Hxy W IHW]; intros n l' n' Q F BX BS; simpl in Q.
  - injection Q as <- <-. split; [lia|]. split; [apply below_nil|]. split; [constructor|]. split; [constructor|]. auto.
  - inv_bind. destruct a as [x' n1], a0 as [l1 n2]. simpl in *. inversion F; subst. apply below_app in BS as [BS1 BS2].
    destruct (HR G X x y n x' n1) as [P1 P2 P3 P4 P5]; auto.
    destruct (IHW n1 l1 n2) as (R1 & R2 & R3 & R4 & R5); auto; try (eapply below_le; eauto; fail).
    split; [lia|]. split; [apply below_app; split; auto; eapply below_le; eauto|]. split; auto. split; auto.
    intros E vs HE D. inv_bind. rewrite (P5 E a), (R5 E a0) by auto. reflexivity.
Qed.

Lemma mapM_impl {A B} (f g : A -> res B) l : forall vs, (forall x v, In x l -> f x = Ok v -> g x = Ok v) -> mapM f l = Ok vs -> mapM g l = Ok vs.
Proof.
  induction l; simpl; intros vs H K; auto. inv_bind. rewrite (H a a0), (IHl a1); auto.
Qed.

Lemma iter_sim {A B} (R : A -> B -> Prop) (f : nat -> A -> res A) (g : nat -> B -> res B) n : forall k a b a',
  R a b -> (forall j x y x', R x y -> f j x = Ok x' -> exists y', g j y = Ok y' /\ R x' y') ->
  iter_res f k n a = Ok a' -> exists b', iter_res g k n b = Ok b' /\ R a' b'.
Proof.
  induction n as [|n IH]; simpl; intros k a b a' Rab H K; [injection K as <-; eauto|].
  inv_bind. destruct (H k a b a0) as (y & -> & Ry); auto. simpl. eauto.
Qed.

Lemma guard_true b er (u : unit) : guard b er = Ok u -> b = true. Proof. destruct b; [auto|discriminate]. Qed.

Ltac dd := repeat match goal with
  | H : _ /\ _ |- _ => destruct H
  | H : exists _, _ |- _ => destruct H
  | H : below _ (_ ++ _) |- _ => apply below_app in H
  | H : below _ (_ :: _) |- _ => apply below_cons in H
  end.

Ltac bl := repeat first [apply below_app; split | apply below_cons; split | assumption
  | match goal with H : below ?m ?l |- below _ ?l => apply (below_le m); [simpl; lia|exact H] end | simpl; lia].

(** ** Steps *)
Section Step.
Variable rec : phi -> nat -> res (phi * nat).
Hypothesis HR : go_spec rec.

Definition step_spec (e : phi) : Prop :=
  forall G X t n e' n', soa_step rec e n = Ok (e', n') ->
  wt G e t -> shG G -> fresh_binders X e -> below n X -> below n (syms e) -> typ e' = Ok (soa_ty t) -> post G X e t n e' n'.

Ltac start := intros G X t0 n e' n' Q W HG F BX BS T; simpl in Q, W, F, BS; try fold (wts G) in W; rewrite ?all_and_Forall in F; inv_bind; dd.
Ltac call e0 P := match goal with
  | Hb : rec e0 ?n = Ok ?a |- _ =>
    let x := fresh e0 "'" in let m := fresh "n" in destruct a as [x m]; simpl in *;
    match goal with W : wt ?G e0 ?t |- _ =>
      match goal with F : fresh_binders ?X e0 |- _ =>
      pose proof (HR G X e0 t n x m Hb W) as P end end
  end.

Lemma step_const a : step_spec (PConst a).
Proof using. start. subst. constructor; auto. simpl in *. inversion T. auto. Qed.

Lemma step_store s ty0 : step_spec (PStore s ty0).
Proof using. start. subst. constructor; simpl; auto; [bl; apply below_nil|]. unfold SG. rewrite H0. auto. Qed.

Lemma step_let x b body : step_spec (PLet x b body).
Proof using HR.
  start. destruct a as [b' n1], a0 as [body' n2]. simpl in *.
  assert (P : post G X b x0 n b' n1) by (apply HR; auto).
  assert (SH : shallow x0 = true) by auto.
  assert (P2 : post (upd G (SV x) x0) (SV x :: X) body t0 n1 body' n2).
  { destruct P. apply HR; auto; [apply shG_upd; auto|bl|bl]. }
  destruct P as [P1 P2' P3 P4 P5], P2 as [R1 R2 R3 R4 R5]. constructor; simpl.
  - lia.
  - bl.
  - auto.
  - exists (soa_ty x0). split; auto. split; [apply soa_shallow; auto|]. eapply wt_ext; [|exact R4]. intros; apply SG_upd.
  - intros E v HE D. inv_bind. rewrite (P5 E a) by auto. simpl. apply R5; auto. apply env_typed_upd; auto. eapply wt_value; eauto.
Qed.

Lemma ints_soa ts : Forall (fun t => t = int) ts -> Forall (fun t => t = int) (map soa_ty ts).
Proof using. induction 1; simpl; auto. subst. auto. Qed.

Lemma step_asserteq t ops : step_spec (PAssertEq t ops).
Proof using HR.
  start. destruct a as [t' n1], a0 as [ops' n2]. simpl in *. apply wts_Forall2 in H2.
  assert (P : post G X t t0 n t' n1) by (apply HR; auto). destruct P as [P1 P2 P3 P4 P5].
  destruct (mapS_ok rec G X HR HG ops x n1 ops' n2) as (R1 & R2 & R3 & R4 & R5); auto; try bl.
  constructor; simpl; rewrite ?all_and_Forall; auto; try lia.
  - bl.
  - fold (wts (SG G)). split; auto. exists (map soa_ty x). split; [apply wts_Forall2; auto|apply ints_soa; auto].
  - intros E v HE D. inv_bind. rewrite (R5 E a) by auto. simpl. rewrite Hb2. simpl. rewrite Hb3. simpl. auto.
Qed.

Lemma all_equal_const {A} (l : list A) z : l <> [] -> all_equal (map (fun _ => z) l) = true.
Proof using. unfold all_equal. destruct l; simpl; [congruence|]. intros _. apply forallb_forall. intros y Hy. apply in_map_iff in Hy as (? & <- & _). apply Z.eqb_refl. Qed.

Lemma step_dim e axis : step_spec (PDim e axis).
Proof using HR.
  start. destruct a as [e1 n']. simpl in *. subst.
  assert (P : post G X e x n e1 n') by (apply HR; auto). destruct P as [P1 P2 P3 P4 P5].
  assert (a0 = soa_ty x) as -> by (apply wt_typ in P4; congruence).
  set (ds := tuple_dim (soa_ty x) e1 axis) in *.
  assert (W1 : Forall (fun d => wt (SG G) d int) ds) by (apply tuple_dim_wt; auto).
  assert (B1 : Forall (fun d => below n' (syms d)) ds) by (apply tuple_dim_kept; auto).
  assert (F1 : Forall (fun d => fresh_binders X d) ds) by (apply tuple_dim_kept; auto).
  assert (D1 : forall E v m, env_typed G E -> den E e = Ok v -> vdim v axis = Ok m -> Forall (fun d => den E d = Ok (vnat m)) ds).
  { intros E v m HE D V. eapply tuple_dim_den; eauto. apply (wt_value _ (SG G) E _ _ P4); auto using env_SG. }
  assert (NE : ds <> []) by apply tuple_dim_nonempty. clearbody ds.
  destruct ds as [|d ds]; [congruence|]. inversion W1 as [|? ? W2 W3]; inversion B1; inversion F1; subst.
  assert (D2 : forall E v m, env_typed G E -> den E e = Ok v -> vdim v axis = Ok m -> den E d = Ok (vnat m) /\ (ds <> [] -> den E (PAssertEq d ds) = Ok (vnat m))).
  { intros E v m HE D V. specialize (D1 E v m HE D V). inversion D1 as [|d0 ds0 Hd Hds]; subst. split; auto. intros NN. simpl.
    assert (Q1 : mapM (den E) ds = Ok (map (fun _ => vnat m) ds)).
    { clear - Hds. induction Hds; simpl; auto. rewrite H, IHHds. auto. }
    rewrite Q1. simpl. assert (Q2 : mapM val_int (map (fun _ : phi => vnat m) ds) = Ok (map (fun _ => Z.of_nat m) ds)).
    { clear. induction ds; simpl; auto. rewrite IHds. auto. }
    rewrite Q2. simpl. rewrite all_equal_const by auto. simpl. auto. }
  destruct ds as [|d2 ds].
  - constructor; auto. intros E v HE D. simpl in D. inv_bind. apply (D2 E a a0); auto.
  - assert (NN : d2 :: ds <> []) by discriminate. remember (d2 :: ds) as l eqn:El. clear El. constructor; auto.
    + simpl. bl. apply below_flat. auto.
    + simpl. rewrite all_and_Forall. auto.
    + simpl. fold (wts (SG G)). split; auto. exists (map (fun _ => int) l). split.
      * apply wts_Forall2. clear - W3. induction W3; simpl; auto.
      * clear. induction l; simpl; auto.
    + intros E v HE D. simpl in D. inv_bind. apply (D2 E a a0); auto.
Qed.

Lemma step_get e i : step_spec (PGet e i).
Proof using HR.
  start. destruct a as [e1 n1], a0 as [i1 n2]. simpl in *.
  assert (P : post G X e (TVec t0) n e1 n1) by (apply HR; auto). destruct P as [P1 P2 P3 P4 P5].
  assert (R : post G X i int n1 i1 n2) by (apply HR; auto; bl). destruct R as [R1 R2 R3 R4 R5].
  assert (a1 = soa_ty (TVec t0)) as -> by (apply wt_typ in P4; congruence).
  constructor.
  - lia.
  - apply (tuple_get_kept (fun d => below n2 (syms d))); simpl; auto; intros; bl.
  - apply (tuple_get_kept (fresh_binders X)); simpl; auto.
  - apply tuple_get_wt; auto.
  - intros E v HE D. simpl in D. inv_bind. eapply tuple_get_den; eauto. apply (wt_value _ (SG G) E _ _ P4); auto using env_SG.
Qed.

Lemma step_concat a b : step_spec (PConcat a b).
Proof using HR.
  start. rename a0 into r, a1 into q. destruct r as [a' n1], q as [b' n']. simpl in *. subst.
  apply ty_eqb_eq in Hb3. subst a3.
  assert (P : post G X a (TVec x) n a' n1) by (apply HR; auto). destruct P as [P1 P2 P3 P4 P5].
  assert (R : post G X b (TVec x) n1 b' n') by (apply HR; auto; bl). destruct R as [R1 R2 R3 R4 R5].
  assert (a2 = soa_ty (TVec x)) as -> by (apply wt_typ in P4; congruence).
  constructor.
  - lia.
  - apply (tuple_cat_kept (fun d => below n' (syms d))); simpl; auto; intros; bl.
  - apply (tuple_cat_kept (fresh_binders X)); simpl; auto.
  - apply tuple_cat_wt; auto.
  - intros E v HE D. simpl in D. inv_bind. eapply tuple_cat_den; eauto.
    + apply (wt_value _ (SG G) E _ _ P4); auto using env_SG.
    + apply (wt_value _ (SG G) E _ _ R4); auto using env_SG.
Qed.

Lemma step_cons a b : step_spec (PCons a b).
Proof using HR.
  start. subst. rename a0 into r, a1 into q. destruct r as [a' n1], q as [b' n2]. simpl in *.
  assert (P : post G X a x n a' n1) by (apply HR; auto). destruct P as [P1 P2 P3 P4 P5].
  assert (R : post G X b x0 n1 b' n2) by (apply HR; auto; bl). destruct R as [R1 R2 R3 R4 R5].
  constructor; simpl; auto; try lia.
  - bl.
  - exists (soa_ty x), (soa_ty x0). auto.
  - intros E v HE D. inv_bind. rewrite (P5 E a0), (R5 E a1); auto.
Qed.

Lemma step_first a : step_spec (PFirst a).
Proof using HR.
  start. rename a0 into r. destruct r as [a' n1]. simpl in *.
  assert (P : post G X a (TPair t0 x) n a' n1) by (apply HR; auto). destruct P as [P1 P2 P3 P4 P5].
  constructor; simpl; auto; try lia.
  - exists (soa_ty x). auto.
  - intros E v HE D. inv_bind. rewrite (P5 E a0); auto. simpl. rewrite Hb1. auto.
Qed.

Lemma step_second a : step_spec (PSecond a).
Proof using HR.
  start. rename a0 into r. destruct r as [a' n1]. simpl in *.
  assert (P : post G X a (TPair x t0) n a' n1) by (apply HR; auto). destruct P as [P1 P2 P3 P4 P5].
  constructor; simpl; auto; try lia.
  - exists (soa_ty x). auto.
  - intros E v HE D. inv_bind. rewrite (P5 E a0); auto. simpl. rewrite Hb1. auto.
Qed.

Lemma step_un o a : step_spec (PUn o a).
Proof using HR.
  start. rename a0 into r. destruct r as [a' n1]. simpl in *.
  assert (P : post G X a x n a' n1) by (apply HR; auto). destruct P as [P1 P2 P3 P4 P5].
  constructor; simpl; auto; try lia.
  - exists (soa_ty x). split; auto. rewrite (wt_typ _ _ _ P4) in T. exact T.
  - intros E v HE D. inv_bind. rewrite (P5 E a0); auto.
Qed.

Lemma step_bin o a b : step_spec (PBin o a b).
Proof using HR.
  start. rename a0 into r, a1 into q. destruct r as [a' n1], q as [b' n2]. simpl in *.
  assert (P : post G X a x n a' n1) by (apply HR; auto). destruct P as [P1 P2 P3 P4 P5].
  assert (R : post G X b x0 n1 b' n2) by (apply HR; auto; bl). destruct R as [R1 R2 R3 R4 R5].
  constructor; simpl; auto; try lia.
  - bl.
  - exists (soa_ty x), (soa_ty x0). split; auto. split; auto. rewrite (wt_typ _ _ _ P4), (wt_typ _ _ _ R4) in T. exact T.
  - intros E v HE D. inv_bind. rewrite (P5 E a0), (R5 E a1); auto.
Qed.

Lemma step_where c a b : step_spec (PWhere c a b).
Proof using HR.
  start. rename a0 into r, a1 into q, a2 into p. destruct r as [c' n0], q as [a' n1], p as [b' n2]. simpl in *.
  assert (M : post G X c x n c' n0) by (apply HR; auto). destruct M as [M1 M2 M3 M4 M5].
  assert (P : post G X a x0 n0 a' n1) by (apply HR; auto; bl). destruct P as [P1 P2 P3 P4 P5].
  assert (R : post G X b x1 n1 b' n2) by (apply HR; auto; bl). destruct R as [R1 R2 R3 R4 R5].
  constructor; simpl; auto; try lia.
  - bl.
  - exists (soa_ty x), (soa_ty x0), (soa_ty x1). repeat (split; [assumption|]). rewrite (wt_typ _ _ _ M4), (wt_typ _ _ _ P4), (wt_typ _ _ _ R4) in T. exact T.
  - intros E v HE D. inv_bind. rewrite (M5 E a0), (P5 E a1), (R5 E a2); auto.
Qed.

Lemma step_fold c s acc init b : step_spec (PFold c s acc init b).
Proof using HR.
  start. rename a into r, a0 into q, a1 into p. destruct r as [s' n0], q as [init' n1], p as [b' n2]. simpl in *.
  assert (M : post G X s int n s' n0) by (apply HR; auto). destruct M as [M1 M2 M3 M4 M5].
  assert (P : post G X init t0 n0 init' n1) by (apply HR; auto; bl). destruct P as [P1 P2 P3 P4 P5].
  assert (SH : shallow t0 = true) by auto.
  assert (R : post (upd (upd G (SV acc) t0) (SV c) int) (SV c :: SV acc :: X) b t0 n1 b' n2).
  { apply HR; auto; [apply shG_upd; auto; apply shG_upd; auto|bl|bl]. }
  destruct R as [R1 R2 R3 R4 R5].
  constructor; simpl; auto; try lia.
  - bl.
  - auto 10.
  - repeat (split; [assumption|]). split; [apply soa_shallow; auto|]. eapply wt_ext; [|exact R4]. intros. rewrite SG_upd2. reflexivity.
  - intros E v HE D. inv_bind. rewrite (M5 E a), (P5 E a1); auto. simpl. rewrite Hb3. simpl.
    destruct (iter_sim (fun x y => x = y /\ has_type x t0) (fun k v => den (upd (upd E (SV acc) v) (SV c) (vnat k)) b)
      (fun k v => den (upd (upd E (SV acc) v) (SV c) (vnat k)) b') (Z.to_nat a0) 0 a1 a1 v) as (y & -> & <- & _); auto.
    + split; auto. apply (wt_value init G E t0 a1); auto.
    + intros j x y x' [<- Hx] Dx. exists x'. assert (HE2 : env_typed (upd (upd G (SV acc) t0) (SV c) int) (upd (upd E (SV acc) x) (SV c) (vnat j))).
      { apply env_typed_upd; [apply env_typed_upd; auto|apply vint_typed]. }
      split; [apply R5; auto|]. split; auto. apply (wt_value b _ _ t0 x' H8 HE2); auto.
Qed.

Lemma step_ext ty0 f ops : step_spec (PExt ty0 f ops).
Proof using HR.
  start. subst. destruct a as [ops' n1]. simpl in *. apply wts_Forall2 in H1.
  destruct (mapS_ok rec G X HR HG ops x n ops' n1) as (R1 & R2 & R3 & R4 & R5); auto.
  assert (Q : t0 = soa_ty t0). { destruct (mapM typ ops'); simpl in T; congruence. }
  constructor; simpl; rewrite ?all_and_Forall; auto; try lia.
  - fold (wts (SG G)). split; auto. split; [rewrite <- Q; auto|]. exists (map soa_ty x). split; [apply wts_Forall2; auto|].
    clear - H2. induction H2; simpl; constructor; auto. rewrite has_pair_soa. auto.
  - intros E v HE D. inv_bind. rewrite (R5 E a) by auto. simpl. rewrite Hb1. simpl. rewrite Hb2. auto.
Qed.


(** *** Comprehensions *)
Lemma vstack_pair v1 v2 vs v : vstack (VPair v1 v2) vs = Ok v ->
  exists ps w1 w2, mapM as_pair vs = Ok ps /\ vstack v1 (map fst ps) = Ok w1 /\ vstack v2 (map snd ps) = Ok w2 /\ v = VPair w1 w2.
Proof using. simpl. intros H. inv_bind. do 3 eexists. repeat split; eauto. Qed.

(** Renaming an index to a fresh one. *)
Lemma rename_den E b i j w v : ~ In (SX i) (bsyms b) -> ~ In (SX j) (syms b) ->
  den (upd E (SX i) w) b = Ok v -> den (upd E (SX j) w) (substitute b [(SX i, p_at j)]) = Ok v.
Proof using.
  intros NI NJ D. apply (subst_many b [(SX i, p_at j)] [w]); simpl.
  - repeat constructor; auto.
  - rewrite upd_eq. reflexivity.
  - intros s t [Q|[]]. inversion Q; subst. exact NI.
  - intros s t r [Q|[]] K. inversion Q; subst. simpl in K. subst. intros B. apply NJ, bsyms_syms, B.
  - rewrite <- D. apply coincidence. intros s Hs. apply free_syms in Hs. destruct (sym_eq_dec s (SX i)) as [->|N].
    + rewrite !upd_eq. auto.
    + rewrite !upd_neq; auto. intros ->. auto.
Qed.

Lemma sassoc_hd {A} s (u : A) l : sassoc s ((s, u) :: l) = Some u.
Proof using. unfold sassoc. cbn [find fst]. rewrite sym_eqb_refl. reflexivity. Qed.
Lemma sassoc_tl {A} s r (u : A) l : s <> r -> sassoc s ((r, u) :: l) = sassoc s l.
Proof using. intros H. unfold sassoc. cbn [find fst]. rewrite (proj2 (sym_eqb_neq s r)) by auto. reflexivity. Qed.

Lemma rename_wt G i j b t : wt (upd G (SX i) int) b t -> ~ In (SX i) (bsyms b) -> ~ In (SX j) (syms b) ->
  wt (upd G (SX j) int) (psub [(SX i, p_at j)] b) t.
Proof using.
  intros W NI NJ. eapply (wt_psub [(SX i, p_at j)]); [| | |exact W].
  - intros x u r [Q|[]]. discriminate.
  - intros s t' Hs K. cbn [sassoc]. destruct (sym_eq_dec s (SX i)) as [->|N].
    + rewrite upd_eq in K. injection K as <-. rewrite sassoc_hd. simpl. rewrite upd_eq. auto.
    + rewrite upd_neq in K by auto. rewrite sassoc_tl by auto. simpl. rewrite upd_neq; auto. intros ->. auto.
  - split.
    + intros s [<-|[]]. exact NI.
    + intros s u r [Q|[]] K. inversion Q; subst. simpl in K. destruct K as [<-|[]]. intros B. apply NJ, bsyms_syms, B.
Qed.

Definition pr (l : bool) (e : phi) : phi := if l then PFirst e else PSecond e.
Definition sel {A} (l : bool) (p : A * A) : A := if l then fst p else snd p.

(** One component of a comprehension over records. *)
Lemma part_ok (l : bool) G X i j m size body A B t :
  wt G size int -> fresh_binders X size -> below m (syms size) ->
  wt (upd G (SX i) int) body (TPair A B) -> fresh_binders (SX i :: X) body -> below m (syms body) -> below m X -> m <= j ->
  let v := PVec j size (substitute (pr l body) [(SX i, p_at j)]) in
  typ v = Ok t ->
  wt G v (TVec (sel l (A, B))) /\ fresh_binders X v /\ below (S j) (syms v) /\
  (forall E vz z v0 vs p0 ps w, den E size = Ok vz -> val_int vz = Ok z -> den (upd E (SX i) (vint 0)) body = Ok v0 ->
    mapM (fun k => den (upd E (SX i) (vnat k)) body) (seq 0 (Z.to_nat z)) = Ok vs ->
    as_pair v0 = Ok p0 -> mapM as_pair vs = Ok ps -> vstack (sel l p0) (map (sel l) ps) = Ok w -> den E v = Ok w).
Proof using.
  intros WS FS BS WB FB BB BX J v T.
  assert (NI : ~ In (SX i) (bsyms body)) by (eapply fresh_not_bound; eauto; left; auto).
  assert (NJ : ~ In (SX j) (syms body)) by (eapply below_notin; eauto; simpl; lia).
  assert (PL : sub_plain [(SX i, p_at j)]) by (intros s u [Q|[]]; inversion Q; reflexivity).
  assert (SUB : substitute (pr l body) [(SX i, p_at j)] = pr l (psub [(SX i, p_at j)] body)).
  { rewrite substitute_psub; [destruct l; reflexivity|]. intros s [<-|[]]. destruct l; exact NI. }
  assert (WP : wt (upd G (SX j) int) (psub [(SX i, p_at j)] body) (TPair A B)) by (apply rename_wt; auto).
  unfold v in *. clear v. split; [|split; [|split]].
  - simpl. exists (sel l (A, B)). split; auto. split; auto. split.
    + simpl in T. inv_bind. rewrite (wt_typ _ _ _ WS) in Hb. injection Hb as <-. inv_bind. destruct (free_indices size); auto; discriminate.
    + rewrite SUB. destruct l; simpl; eauto.
  - simpl. rewrite SUB. split; [|split; auto].
    + intros K. specialize (BX _ K). simpl in BX. lia.
    + assert (F2 : fresh_binders (SX j :: X) body).
      { eapply fresh_binders_add; eauto. intros s [<-|Hs]; [right; intros K; apply NJ, bsyms_syms, K|left; right; auto]. }
      destruct l; simpl; apply psub_fresh_plain; auto.
  - simpl. rewrite SUB. apply below_cons. simpl. split; [lia|]. apply below_app. split; [eapply below_le; [|eauto]; lia|].
    assert (K : below (S j) (syms (psub [(SX i, p_at j)] body))).
    { intros s Hs. apply psub_syms in Hs as [Hs|(s' & u & [Q|[]] & Hs)]; [specialize (BB _ Hs); lia|].
      inversion Q; subst. simpl in Hs. destruct Hs as [<-|[]]. simpl. lia. }
    destruct l; exact K.
  - intros E vz z v0 vs p0 ps w D1 D2 D3 D4 D5 D6 D7. cbn [den]. rewrite D1. cbn [bind]. rewrite D2. cbn [bind].
    assert (PR : forall k u p, den (upd E (SX i) k) body = Ok u -> as_pair u = Ok p ->
      den (upd E (SX j) k) (substitute (pr l body) [(SX i, p_at j)]) = Ok (sel l p)).
    { intros k u p Du Pu. apply rename_den; [destruct l; exact NI|destruct l; exact NJ|]. destruct l; simpl; rewrite Du; simpl; rewrite Pu; reflexivity. }
    rewrite (PR _ _ _ D3 D5). cbn [bind].
    assert (M : mapM (fun k => den (upd E (SX j) (vnat k)) (substitute (pr l body) [(SX i, p_at j)])) (seq 0 (Z.to_nat z)) = Ok (map (sel l) ps)).
    { clear - PR D4 D6. revert vs ps D4 D6. induction (seq 0 (Z.to_nat z)) as [|k ks IH]; intros vs ps D4 D6; cbn [mapM] in D4 |- *.
      - injection D4 as <-. simpl in D6. injection D6 as <-. reflexivity.
      - inv_bind. simpl in D6. inv_bind. rewrite (PR _ _ _ Hb Hb1). cbn [bind]. rewrite (IH _ _ Hb0 Hb2). reflexivity. }
    rewrite M. exact D7.
Qed.

Lemma step_vec i s b : step_spec (PVec i s b).
Proof using HR.
  intros G X t0 n e' n' Q W HG F BX BS T. cbn [soa_step] in Q. simpl in W, F, BS. inv_bind. dd. subst. cbn [symno] in *.
  destruct a as [s' n1], a0 as [b' n2]. cbn [fst snd] in *.
  assert (P : post G X s int n s' n1) by (apply HR; auto). destruct P as [P1 P2 P3 P4 P5].
  assert (R : post (upd G (SX i) int) (SX i :: X) b x n1 b' n2).
  { apply HR; auto; [apply shG_upd; auto|bl|bl]. }
  destruct R as [R1 R2 R3 R4 R5].
  assert (W2 : wt (upd (SG G) (SX i) int) b' (soa_ty x)) by (eapply wt_ext; [|exact R4]; intros; apply SG_upd).
  assert (a1 = soa_ty x) as -> by (apply wt_typ in W2; congruence).
  assert (HV : forall E k, env_typed G E -> env_typed (upd G (SX i) int) (upd E (SX i) (vint k))).
  { intros E k HE. apply env_typed_upd; auto. apply vint_typed. }
  assert (VB : forall E vz z v0 vs, env_typed G E -> den E s = Ok vz -> val_int vz = Ok z -> den (upd E (SX i) (vint 0)) b = Ok v0 ->
    mapM (fun k => den (upd E (SX i) (vnat k)) b) (seq 0 (Z.to_nat z)) = Ok vs ->
    den E s' = Ok vz /\ den (upd E (SX i) (vint 0)) b' = Ok v0 /\
    mapM (fun k => den (upd E (SX i) (vnat k)) b') (seq 0 (Z.to_nat z)) = Ok vs).
  { intros E vz z v0 vs HE D1 D2 D3 D4. split; auto. split; [apply R5; auto|]. eapply mapM_impl; [|exact D4]. intros k v _ Dk. apply R5; auto. apply HV. auto. }
  assert (CASE : (exists A B, soa_ty x = TPair A B) \/ e' = PVec i s' b' /\ n' = n2).
  { destruct (soa_ty x); [right|right|left; eauto]; injection Hk as <- <-; auto. }
  destruct CASE as [(A & B & EX')|[-> ->]].
  - rewrite EX' in *. clear R4. unfold checked in Hk. inv_bind. destruct a1 as [r1 n3], a2 as [r2 n4]. cbn [fst snd] in *.
    destruct (part_ok true (SG G) X i n2 n2 s' b' A B a4) as (V1 & V2 & V3 & V4); auto; try bl.
    destruct (part_ok false (SG G) X i (S n2) n2 s' b' A B a3) as (U1 & U2 & U3 & U4); auto; try bl.
    cbn [pr sel fst snd] in *.
    assert (S1 : post (SG G) X (PVec n2 s' (substitute (PFirst b') [(SX i, p_at n2)])) (TVec A) (S (S n2)) r1 n3).
    { apply HR; auto; [apply shG_SG; auto|bl|apply (below_le (S n2)); auto]. }
    destruct S1 as [S1 S2 S3 S4 S5].
    assert (Z1 : post (SG G) X (PVec (S n2) s' (substitute (PSecond b') [(SX i, p_at (S n2))])) (TVec B) n3 r2 n4).
    { apply HR; auto; [apply shG_SG; auto|bl|apply (below_le (S (S n2))); auto]. }
    destruct Z1 as [Z1 Z2 Z3 Z4 Z5].
    assert (WW : wt (SG G) (PCons r1 r2) (TPair (soa_ty (TVec A)) (soa_ty (TVec B)))).
    { simpl. exists (soa_ty (TVec A)), (soa_ty (TVec B)). split; auto. split; eapply wt_ext; try eassumption; intros; apply SG_SG; auto. }
    constructor.
    + lia.
    + simpl. bl.
    + simpl. auto.
    + pose proof (wt_typ _ _ _ WW) as Q. rewrite T in Q. injection Q as ->. exact WW.
    + intros E v HE D. cbn [den] in D. inv_bind. destruct (VB E a a0 a1 a2) as (D1 & D2 & D3); auto.
      assert (VT : forall k u, den (upd E (SX i) (vint k)) b' = Ok u -> exists u1 u2, u = VPair u1 u2).
      { intros k u Du. apply (wt_value _ _ _ _ _ W2) in Du; [|apply env_typed_upd; [apply env_SG; auto|apply vint_typed]].
        destruct Du as [_ Du]. apply vtype_pair in Du as (u1 & u2 & -> & _). eauto. }
      destruct (VT _ _ D2) as (u1 & u2 & ->). apply vstack_pair in Hk0 as (ps & w1 & w2 & K1 & K2 & K3 & ->).
      cbn [den]. rewrite (S5 E w1), (Z5 E w2); auto using env_SG.
      * apply (U4 E a a0 (VPair u1 u2) a2 (u1, u2) ps w2); auto.
      * apply (V4 E a a0 (VPair u1 u2) a2 (u1, u2) ps w1); auto.
  - constructor.
    + lia.
    + simpl. bl.
    + simpl. auto.
    + simpl in T. rewrite (wt_typ _ _ _ P4), (wt_typ _ _ _ W2) in T. simpl in T. inv_bind.
      simpl. exists (soa_ty x). split; [congruence|]. split; auto. split; auto. destruct (free_indices s'); auto; discriminate.
    + intros E v HE D. cbn [den] in D |- *. inv_bind. destruct (VB E a a0 a1 a2) as (D1 & D2 & D3); auto.
      rewrite D1. cbn [bind]. rewrite Hb3. cbn [bind]. rewrite D2. cbn [bind]. rewrite D3. auto.
Qed.

End Step.
End SoaFacts.
