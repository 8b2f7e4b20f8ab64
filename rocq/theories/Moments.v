(** Moments of an evaluation: one environment for all symbols of a program, with
    every comprehension looked at at index 0 and every loop in one of its
    iterations. *)
From Verif Require Import Base Scalar Tensor Types Sym Phi Den Term PhiTerm DenFree SpecPhi Lining LiningFacts TypesFacts Typing DenWf
  Naive Sizes ClipShift NdOps Yarr Axial AxialFacts AxialOps Codegen IndexOps YOps CodegenSafe.

Section Moments.
Context {FO : FloatOps} {EX : Externs}.

(** * Every name is bound in one place only *)
Definition hyg (e : phi) : Prop := NoDup (bsyms e) /\ forall s, isfree s e -> ~ In s (bsyms e).

Lemma isfree_child s (e c : phi) : In c (subterms e) -> isfree s c -> isfree s e \/ In s (captured e).
Proof.
  intros Hc Hf. change (In c (subs e)) in Hc. apply In_nth_error in Hc as (k & Hk). destruct (nth_error_scope _ _ _ Hk) as (sc & Hs).
  destruct (in_dec sym_eq_dec s sc) as [Hi|Hi].
  - right. change (In s (capt e)). apply (scopes_capt e sc); auto. eapply nth_error_In; eauto.
  - left. eapply free_sub; eauto.
Qed.

Lemma bsyms_sub (n e : phi) : sub_of n e -> incl (bsyms n) (bsyms e).
Proof.
  induction 1 as [|n c e Hc H IH]; [apply incl_refl|]. intros s Hs. rewrite bsyms_list. apply in_or_app. right.
  apply in_flat_map. exists c. auto.
Qed.

Lemma free_sub_of (n e : phi) s : sub_of n e -> isfree s n -> isfree s e \/ In s (bsyms e).
Proof.
  induction 1 as [|n c e Hc H IH]; [auto|]. intros Hf. destruct (IH Hf) as [H1|H1].
  - destruct (isfree_child _ _ _ Hc H1); auto. right. rewrite bsyms_list. apply in_or_app. auto.
  - right. apply (bsyms_sub c e); auto. eapply sub_step; [exact Hc|constructor].
Qed.

Lemma NoDup_app_l {A} (l l' : list A) : NoDup (l ++ l') -> NoDup l.
Proof. induction l; simpl; intros H; [constructor|]. inversion H; subst. constructor; auto. intros K. apply H2, in_or_app. auto. Qed.
Lemma NoDup_app_r {A} (l l' : list A) : NoDup (l ++ l') -> NoDup l'.
Proof. induction l; simpl; intros H; auto. inversion H; auto. Qed.
Lemma NoDup_app_disj {A} (l l' : list A) x : NoDup (l ++ l') -> In x l -> In x l' -> False.
Proof.
  induction l; simpl; intros H H1 H2; auto. inversion H; subst. destruct H1 as [->|H1]; auto.
  apply H4, in_or_app. auto.
Qed.
Lemma NoDup_flat {A B} (f : A -> list B) l c : NoDup (flat_map f l) -> In c l -> NoDup (f c).
Proof.
  induction l; simpl; intros H Hc; [destruct Hc|]. destruct Hc as [->|Hc]; [eapply NoDup_app_l; eauto|].
  apply IHl; auto. eapply NoDup_app_r; eauto.
Qed.

Lemma hyg_child e c : hyg e -> In c (subterms e) -> hyg c.
Proof.
  intros [N F] Hc. rewrite bsyms_list in N. split.
  - eapply NoDup_flat; [eapply NoDup_app_r; exact N|auto].
  - intros s Hs Hb. assert (K : In s (flat_map bsyms (subterms e))) by (apply in_flat_map; eauto).
    destruct (isfree_child _ _ _ Hc Hs) as [H|H].
    + apply (F s H). rewrite bsyms_list. apply in_or_app. auto.
    + eapply NoDup_app_disj; eauto.
Qed.
Lemma hyg_sub n e : sub_of n e -> hyg e -> hyg n.
Proof. induction 1; auto. intros H1. apply IHsub_of. eapply hyg_child; eauto. Qed.

Lemma hyg_unshadowed e : hyg e -> unshadowed e.
Proof.
  intros H d n s Hd Hn Hs Hf. apply (hyg_sub d) in H; auto. destruct H as [_ H]. apply (H s Hf).
  apply (bsyms_sub n d Hn). rewrite bsyms_list. apply in_or_app. left. exact Hs.
Qed.

(** * Moments *)
(** The value of a reduction before its row [k]. *)
Definition red_val (E : env) (init : phi) (x y : nat) (xy : phi) (vs : list val) (k : nat) : res val :=
  let* v0 := den E init in
  iter_res (fun k v => let* r := row_of vs k in den (red_env E x y v r) xy) 0 k v0.

Definition defined (E : env) (e : phi) : Prop := exists v, den E e = Ok v.

Definition local (M : env) (e : phi) : Prop :=
  defined M e /\
  match e with
  | PLet x b _ => exists v, den M b = Ok v /\ M (SV x) = Some v
  | PVec i s _ => M (SX i) = Some (vint 0) /\ exists v z, den M s = Ok v /\ val_int v = Ok z /\ (0 <= z)%Z
  | PFold c s acc init b => exists v z k w, den M s = Ok v /\ val_int v = Ok z /\ k < Z.to_nat z /\
      acc_val M c acc init b k = Ok w /\ M (SV acc) = Some w /\ M (SV c) = Some (vnat k)
  | PReduce init x y xy vecs => exists vs n k w r, mapM (den M) vecs = Ok vs /\ Forall (fun v => vdim v 0 = Ok n) vs /\ k < n /\
      red_val M init x y xy vs k = Ok w /\ row_of vs k = Ok r /\ M (SV x) = Some w /\ M (SV y) = Some r
  | _ => True
  end.
Definition moment (M : env) (e : phi) : Prop := forall n, sub_of n e -> local M n.

(** Every size is at least 0, and every loop is executed at least once.  The last
    iteration of a loop keeps the size of the accumulator when the others do. *)
Fixpoint loops_run (E : env) (e : phi) : Prop :=
  let all (l : list phi) := fold_right and True (map (loops_run E) l) in
  match e with
  | PConst _ | PStore _ _ => True
  | PLet x b body => loops_run E b /\ forall v, den E b = Ok v -> loops_run (upd E (SV x) v) body
  | PAssertEq t ops => loops_run E t /\ all ops
  | PDim t _ => loops_run E t
  | PGet t i => loops_run E t /\ loops_run E i
  | PCons a b => loops_run E a /\ loops_run E b
  | PFirst t | PSecond t => loops_run E t
  | PVec i s b => loops_run E s /\ (forall v z, den E s = Ok v -> val_int v = Ok z -> (0 <= z)%Z) /\ loops_run (upd E (SX i) (vint 0)) b
  | PFold c s acc init b =>
      loops_run E s /\ loops_run E init /\
      forall v z, den E s = Ok v -> val_int v = Ok z ->
        (1 <= z)%Z /\
        (forall k w, k < Z.to_nat z -> acc_val E c acc init b k = Ok w -> loops_run (fold_env E c acc k w) b) /\
        (forall axis v0 vn, den E init = Ok v0 -> acc_val E c acc init b (Z.to_nat z) = Ok vn ->
           (forall k w, k < Z.to_nat z -> acc_val E c acc init b k = Ok w -> vdim w axis = vdim v0 axis) ->
           vdim vn axis = vdim v0 axis)
  | PReduce init x y xy vecs =>
      loops_run E init /\ all vecs /\
      forall vs n, mapM (den E) vecs = Ok vs -> Forall (fun v => vdim v 0 = Ok n) vs ->
        1 <= n /\
        forall k w r, k < n -> red_val E init x y xy vs k = Ok w -> row_of vs k = Ok r -> loops_run (red_env E x y w r) xy
  | PUn _ a => loops_run E a
  | PBin _ a b => loops_run E a /\ loops_run E b
  | PWhere c a b => loops_run E c /\ loops_run E a /\ loops_run E b
  | PConcat a b => loops_run E a /\ loops_run E b
  | PExt _ _ ops => all ops
  end.

(** * Only the symbols of a term matter *)
Lemma acc_val_ext E1 E2 c acc init b k : (forall s, isfree s init -> E1 s = E2 s) ->
  (forall s, isfree s b -> s <> SV c -> s <> SV acc -> E1 s = E2 s) ->
  acc_val E1 c acc init b k = acc_val E2 c acc init b k.
Proof.
  intros H1 H2. unfold acc_val. rewrite (den_ext init E1 E2 H1). destruct (den E2 init); simpl; auto.
  apply iter_res_ext. intros j w _. apply den_ext. intros s Hs. unfold fold_env.
  destruct (sym_eq_dec s (SV c)) as [->|Nc]; [rewrite !upd_eq; auto|]. rewrite !(upd_neq _ (SV c)) by auto.
  destruct (sym_eq_dec s (SV acc)) as [->|Na]; [rewrite !upd_eq; auto|]. rewrite !(upd_neq _ (SV acc)) by auto. auto.
Qed.

Lemma red_val_ext E1 E2 init x y xy vs k : (forall s, isfree s init -> E1 s = E2 s) ->
  (forall s, isfree s xy -> s <> SV x -> s <> SV y -> E1 s = E2 s) ->
  red_val E1 init x y xy vs k = red_val E2 init x y xy vs k.
Proof.
  intros H1 H2. unfold red_val. rewrite (den_ext init E1 E2 H1). destruct (den E2 init); simpl; auto.
  apply iter_res_ext. intros j w _. destruct (row_of vs j); simpl; auto. apply den_ext. intros s Hs. unfold red_env.
  destruct (sym_eq_dec s (SV y)) as [->|Nc]; [rewrite !upd_eq; auto|]. rewrite !(upd_neq _ (SV y)) by auto.
  destruct (sym_eq_dec s (SV x)) as [->|Na]; [rewrite !upd_eq; auto|]. rewrite !(upd_neq _ (SV x)) by auto. auto.
Qed.

Lemma mapM_den_ext E1 E2 l : (forall o s, In o l -> isfree s o -> E1 s = E2 s) -> mapM (den E1) l = mapM (den E2) l.
Proof.
  induction l as [|o l IH]; simpl; intros H; auto. rewrite (den_ext o E1 E2) by (intros; eapply H; eauto).
  rewrite IH by (intros; eapply H; eauto). reflexivity.
Qed.

Lemma runs_ext (e : phi) : forall E1 E2, (forall s, free_in s e -> E1 s = E2 s) -> loops_run E1 e -> loops_run E2 e.
Proof.
  assert (L : forall ops, Forall (fun e => forall E1 E2, (forall s, free_in s e -> E1 s = E2 s) -> loops_run E1 e -> loops_run E2 e) ops ->
    forall E1 E2, (forall s, fold_right or False (map (free_in s) ops) -> E1 s = E2 s) ->
    fold_right and True (map (loops_run E1) ops) -> fold_right and True (map (loops_run E2) ops)).
  { intros ops F E1 E2. induction F as [|o ops Ho F IH]; simpl; intros Q H; auto. destruct H. split; [apply (Ho E1); auto|apply IH; auto]. }
  assert (D : forall e0 E1 E2 v, (forall s, free_in s e0 -> E1 s = E2 s) -> den E2 e0 = Ok v -> den E1 e0 = Ok v).
  { intros e0 E1 E2 v Q H. rewrite <- H. apply den_ext. intros s Hs. apply Q, free_in_isfree; auto. }
  assert (U : forall (E1 E2 : env) s v r, (r <> s -> E1 r = E2 r) -> upd E1 s v r = upd E2 s v r) by (intros; apply upd_agree; auto).
  induction e using phi_ind'; intros E1 E2 Q R; cbn [loops_run free_in] in *; auto.
  - destruct R as [R1 R2]. split; [apply (IHe1 E1); auto|]. intros v Hv.
    apply (IHe2 (upd E1 (SV x) v)); [|apply R2; apply (D e1 E1 E2); auto]. intros s Hs. apply U. auto.
  - destruct R. split; [apply (IHe E1); auto|]. apply (L ops H E1); auto.
  - eapply IHe; eauto.
  - destruct R. split; [apply (IHe1 E1)|apply (IHe2 E1)]; auto.
  - destruct R. split; [apply (IHe1 E1)|apply (IHe2 E1)]; auto.
  - eapply IHe; eauto.
  - eapply IHe; eauto.
  - destruct R as (R1 & R2 & R3). split; [apply (IHe1 E1); auto|]. split; [intros v z Hv Hz; apply (R2 v z); auto; apply (D e1 E1 E2); auto|].
    apply (IHe2 (upd E1 (SX i) (vint 0))); auto.
  - destruct R as (R1 & R2 & R3). split; [apply (IHe1 E1); auto|]. split; [apply (IHe2 E1); auto|]. intros v z Hv Hz.
    destruct (R3 v z) as (R4 & R5 & R6); auto; [apply (D e1 E1 E2); auto|].
    assert (AV : forall k, acc_val E1 c acc e2 e3 k = acc_val E2 c acc e2 e3 k).
    { intros k. apply acc_val_ext; intros s Hs; rewrite <- free_in_isfree in Hs; auto 8. }
    split; auto. split.
    + intros k w Hk Hw. rewrite <- AV in Hw. apply (IHe3 (fold_env E1 c acc k w)); [|apply R5; auto].
      intros s Hs. unfold fold_env. apply U. intros N1. apply U. auto 8.
    + intros axis v0 vn H0 Hn HA. rewrite <- AV in Hn. apply (R6 axis v0 vn); auto; [apply (D e2 E1 E2); auto|].
      intros k w Hk Hw. rewrite AV in Hw. eauto.
  - destruct R as (R1 & R2 & R3). split; [apply (IHe1 E1); auto|]. split; [apply (L vecs H E1); auto|]. intros vs n Hvs Hn.
    destruct (R3 vs n) as (R4 & R5); auto.
    { rewrite <- Hvs. apply mapM_den_ext. intros o s Ho Hs. apply Q. right. left. apply any_Exists. exists o. split; auto.
      apply free_in_isfree. auto. }
    split; auto. intros k w r Hk Hw Hr. apply (IHe2 (red_env E1 x y w r)).
    + intros s Hs. unfold red_env. apply U. intros N1. apply U. auto 8.
    + apply (R5 k); auto. rewrite <- Hw. apply red_val_ext; intros s Hs; rewrite <- free_in_isfree in Hs; auto 8.
  - eapply IHe; eauto.
  - destruct R. split; [apply (IHe1 E1)|apply (IHe2 E1)]; auto.
  - destruct R as (? & ? & ?). split; [apply (IHe1 E1); auto|split; [apply (IHe2 E1)|apply (IHe3 E1)]; auto].
  - destruct R. split; [apply (IHe1 E1)|apply (IHe2 E1)]; auto.
  - apply (L ops H E1); auto.
Qed.
Lemma runs_agree E1 E2 e : (forall s, isfree s e -> E1 s = E2 s) -> loops_run E1 e -> loops_run E2 e.
Proof. intros Q. apply runs_ext. intros s Hs. apply Q, free_in_isfree. auto. Qed.

Lemma local_ext M M' e : (forall s, isfree s e \/ In s (captured e) -> M s = M' s) -> local M e -> local M' e.
Proof.
  intros Q [D H].
  assert (DC : forall c, In c (subterms e) -> den M' c = den M c).
  { intros c Hc. symmetry. apply den_ext. intros s Hs. apply Q. eapply isfree_child; eauto. }
  assert (CC : forall c s, In c (subterms e) -> isfree s c -> M s = M' s).
  { intros c s Hc Hs. apply Q. eapply isfree_child; eauto. }
  split. { destruct D as (v & D). exists v. rewrite <- D. symmetry. apply den_ext. auto. }
  destruct e; auto; cbn [subterms captured] in *.
  - destruct H as (v & H1 & H2). exists v. rewrite DC by (simpl; auto). rewrite <- Q by (simpl; auto). auto.
  - destruct H as (H1 & v & z & H2). rewrite <- Q by (simpl; auto). split; auto. exists v, z. rewrite DC by (simpl; auto). auto.
  - destruct H as (v & z & k & w & H1 & H2 & H3 & H4 & H5 & H6). exists v, z, k, w.
    rewrite DC by (simpl; auto). rewrite <- !Q by (simpl; auto). rewrite <- (acc_val_ext M M'); auto 10.
    + intros s Hs. apply (CC e2); simpl; auto.
    + intros s Hs _ _. apply (CC e3); simpl; auto.
  - destruct H as (vs & n & k & w & r & H1 & H2 & H3 & H4 & H5 & H6 & H7). exists vs, n, k, w, r.
    rewrite <- (mapM_den_ext M M'). 2: { intros o s Ho. apply CC. simpl. right. apply in_or_app. auto. }
    rewrite <- !Q by (simpl; auto). rewrite <- (red_val_ext M M'); auto 10.
    + intros s Hs. apply (CC e1); simpl; auto.
    + intros s Hs _ _. apply (CC e2); simpl; auto. right. apply in_or_app. simpl. auto.
Qed.

Lemma local_syms (n e : phi) s : sub_of n e -> isfree s n \/ In s (captured n) -> isfree s e \/ In s (bsyms e).
Proof.
  intros H [K|K]; [eapply free_sub_of; eauto|]. right. apply (bsyms_sub n e H). rewrite bsyms_list. apply in_or_app. auto.
Qed.

Lemma moment_ext M M' e : (forall s, isfree s e \/ In s (bsyms e) -> M s = M' s) -> moment M e -> moment M' e.
Proof. intros Q H n Hn. apply (local_ext M); auto. intros s Hs. apply Q. eapply local_syms; eauto. Qed.

Lemma moment_node M e : local M e -> Forall (moment M) (subterms e) -> moment M e.
Proof.
  intros H F n Hn. inversion Hn as [|? c ? Hc Hs]; subst; auto. rewrite Forall_forall in F. apply (F c Hc). auto.
Qed.
Lemma moment_sub M n e : sub_of n e -> moment M e -> moment M n.
Proof. intros H K m Hm. apply K. eapply sub_of_trans; eauto. Qed.

End Moments.
