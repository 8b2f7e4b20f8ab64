(** Replacing loop counters by comprehension indices (phi_to_yarr.py:119-121,
    411-413) keeps terms well-formed. *)
From Verif Require Import Base Scalar Tensor Types Sym Phi Den Term PhiTerm DenFree SpecPhi Lining LiningFacts TypesFacts Typing Naive Sizes.

Section Subst.
Context {FO : FloatOps} {EX : Externs}.

(** [psub sb e]: replace occurrences, whatever binds them. *)
Fixpoint psub (sb : list (sym * phi)) (e : phi) : phi :=
  match e with
  | PConst _ => e
  | PStore s _ => match sassoc s sb with Some u => u | None => e end
  | PLet x b body => PLet x (psub sb b) (psub sb body)
  | PAssertEq t ops => PAssertEq (psub sb t) (map (psub sb) ops)
  | PDim t ax => PDim (psub sb t) ax
  | PGet t i => PGet (psub sb t) (psub sb i)
  | PCons a b => PCons (psub sb a) (psub sb b)
  | PFirst t => PFirst (psub sb t)
  | PSecond t => PSecond (psub sb t)
  | PVec i s b => PVec i (psub sb s) (psub sb b)
  | PFold c s acc init b => PFold c (psub sb s) acc (psub sb init) (psub sb b)
  | PReduce init x y xy vecs => PReduce (psub sb init) x y (psub sb xy) (map (psub sb) vecs)
  | PUn o a => PUn o (psub sb a)
  | PBin o a b => PBin o (psub sb a) (psub sb b)
  | PWhere c a b => PWhere (psub sb c) (psub sb a) (psub sb b)
  | PConcat a b => PConcat (psub sb a) (psub sb b)
  | PExt t f ops => PExt t f (map (psub sb) ops)
  end.

Lemma psub_pmap sb e : psub sb e = match symof e with
  | Some s => match sassoc s sb with Some u => u | None => e end | None => pmap (psub sb) e end.
Proof. destruct e; reflexivity. Qed.

Lemma fsyms_child (e c : phi) s : In c (subterms e) -> In s (fsyms c) -> In s (fsyms e) \/ In s (captured e).
Proof.
  intros Hc Hs. rewrite fsyms_eq. destruct (in_dec sym_eq_dec s (captured e)) as [K|K]; auto.
  left. apply sremove_In. split; auto. apply in_or_app. right. apply in_flat_map. eauto.
Qed.

Lemma sassoc_some {A} s (sb : list (sym * A)) u : sassoc s sb = Some u -> In (s, u) sb.
Proof.
  unfold sassoc. destruct (find _ sb) as [p|] eqn:E; [|discriminate]. intros H. injection H as <-.
  apply find_some in E as [E1 E2]. apply sym_eqb_eq in E2. subst. destruct p; auto.
Qed.
Lemma sassoc_none {A} s (sb : list (sym * A)) : ~ In s (map fst sb) -> sassoc s sb = None.
Proof.
  intros H. unfold sassoc. destruct (find _ sb) as [p|] eqn:E; auto. apply find_some in E as [E1 E2].
  apply sym_eqb_eq in E2. subst. exfalso. apply H. apply in_map_iff. eauto.
Qed.

Lemma map_id_in {A} (f : A -> A) l : (forall x, In x l -> f x = x) -> map f l = l.
Proof. intros H. rewrite <- (map_id l) at 2. apply map_ext_in. auto. Qed.

Lemma psub_id sb (e : phi) : (forall s, In s (map fst sb) -> ~ In s (fsyms e) /\ ~ In s (bsyms e)) -> psub sb e = e.
Proof.
  intros H. assert (Q : forall n e, psize e <= n -> (forall s, In s (map fst sb) -> ~ In s (fsyms e) /\ ~ In s (bsyms e)) -> psub sb e = e);
    [|eapply Q; eauto].
  clear e H. induction n as [|n IH]; intros e Hn H; [destruct e; simpl in Hn; lia|].
  assert (K : forall c, In c (subterms e) -> psub sb c = c).
  { intros c Hc. apply IH.
    - pose proof (tsize_sub e c Hc) as Q. change (psize c < psize e) in Q. lia.
    - intros s Hs. destruct (H s Hs) as [H1 H2]. rewrite bsyms_list, in_app_iff in H2. split.
      + intros F. destruct (fsyms_child e c s Hc F); auto.
      + intros B. apply H2. right. apply in_flat_map. eauto. }
  destruct e; simpl in K |- *; rewrite ?K by auto; auto;
    try (rewrite map_id_in by auto; reflexivity).
  - rewrite sassoc_none; auto. intros Q. apply (H s) in Q as [Q _]. apply Q. simpl. auto.
  - rewrite K by (right; apply in_or_app; simpl; auto). rewrite map_id_in; auto. intros o Ho. apply K. right. apply in_or_app. auto.
Qed.

Lemma substitute_psub sb (e : phi) : (forall s, In s (map fst sb) -> ~ In s (bsyms e)) -> substitute e sb = psub sb e.
Proof.
  intros H. unfold substitute.
  assert (Q : forall n e, tsize e <= n -> (forall s, In s (map fst sb) -> ~ In s (bsyms e)) -> substitute_go n sb e = psub sb e); [|apply Q; auto].
  clear e H. induction n as [|n IH]; intros e Hn H; [destruct e; simpl in Hn; lia|].
  cbn [substitute_go]. destruct (existsb _ (tfree e)) eqn:F.
  - rewrite psub_pmap. destruct (symof e) as [s|] eqn:S.
    + destruct (sassoc s sb); auto. destruct e; try discriminate. reflexivity.
    + change (rebuild e (map (substitute_go n sb) (subs e))) with (phi_rebuild e (map (substitute_go n sb) (subterms e))).
      rewrite pmap_rebuild. f_equal. apply map_ext_in. intros c Hc. apply IH.
      * pose proof (tsize_sub e c Hc). lia.
      * intros r Hr B. apply (H r Hr). rewrite bsyms_list, in_app_iff. right. apply in_flat_map. eauto.
  - symmetry. apply psub_id. intros s Hs. split; auto. intros K. apply not_true_iff_false in F. apply F.
    apply existsb_exists. exists s. split; auto. apply smem_In. auto.
Qed.

(** Binders are not touched by replacing symbols by symbols. *)
Definition atomic (sb : list (sym * phi)) : Prop := forall s u, In (s, u) sb -> exists r t, u = PStore r t.

Lemma psub_bsyms sb e : atomic sb -> bsyms (psub sb e) = bsyms e.
Proof.
  intros A. induction e using phi_ind'; simpl; rewrite ?IHe, ?IHe1, ?IHe2, ?IHe3; auto;
    try (f_equal; auto; fail).
  - destruct (sassoc s sb) as [u|] eqn:E; auto. apply sassoc_some, A in E as (r & t' & ->). reflexivity.
  - f_equal. rewrite flat_map_concat_map, map_map, <- flat_map_concat_map.
    induction H; simpl; auto. rewrite H, IHForall. auto.
  - do 4 f_equal. rewrite flat_map_concat_map, map_map, <- flat_map_concat_map.
    induction H; simpl; auto. rewrite H, IHForall. auto.
  - rewrite flat_map_concat_map, map_map, <- flat_map_concat_map.
    induction H; simpl; auto. rewrite H, IHForall. auto.
Qed.

Lemma psub_fresh sb e : atomic sb -> forall X, fresh_binders X e -> fresh_binders X (psub sb e).
Proof.
  intros A. induction e using phi_ind'; intros X F; simpl in *; rewrite ?all_and_Forall in *;
    repeat match goal with H : _ /\ _ |- _ => destruct H end; repeat (match goal with |- _ /\ _ => split end); auto.
  - destruct (sassoc s sb) as [u|] eqn:E; auto. apply sassoc_some, A in E as (r & t' & ->). exact I.
  - rewrite Forall_forall in *. intros o Ho. apply in_map_iff in Ho as (o' & <- & Ho). auto.
  - rewrite Forall_forall in *. intros o Ho. apply in_map_iff in Ho as (o' & <- & Ho). auto.
  - rewrite Forall_forall in *. intros o Ho. apply in_map_iff in Ho as (o' & <- & Ho). auto.
Qed.

(** Free symbols afterwards. *)
Lemma psub_fsyms sb e s : atomic sb -> In s (fsyms (psub sb e)) ->
  In s (fsyms e) \/ exists r t, In (r, PStore s t) sb.
Proof.
  intros A. destruct (in_dec sym_eq_dec s (fsyms e)) as [|N]; auto. intros H. right. revert N H.
  assert (L : forall ops, Forall (fun e => ~ In s (fsyms e) -> In s (fsyms (psub sb e)) -> exists r t, In (r, PStore s t) sb) ops ->
     ~ In s (flat_map fsyms ops) -> In s (flat_map fsyms (map (psub sb) ops)) -> exists r t, In (r, PStore s t) sb).
  { intros ops F N H. apply in_flat_map in H as (o & Ho & H). apply in_map_iff in Ho as (o' & <- & Ho).
    rewrite Forall_forall in F. apply (F o'); auto. intros K. apply N. apply in_flat_map. eauto. }
  induction e using phi_ind'; intros N H0; simpl in H0, N; rewrite ?sremove_In, ?in_app_iff in H0; rewrite ?sremove_In, ?in_app_iff in N;
    try tauto.
  - destruct (sassoc s0 sb) as [u|] eqn:E.
    + apply sassoc_some in E. destruct (A _ _ E) as (r & t' & ->). destruct H0 as [<-|[]]. eauto.
    + destruct H0 as [<-|[]]. simpl in N. tauto.
  - destruct H0 as [H0|H0]; [apply IHe; tauto|]. apply (L ops); tauto.
  - destruct H0 as ([H0|[H0|H0]] & K).
    + apply IHe1; tauto.
    + apply (L vecs); tauto.
    + apply IHe2; tauto.
  - apply (L ops); tauto.
Qed.

Lemma psub_keeps sb e s : ~ In s (map fst sb) -> In s (fsyms e) -> In s (fsyms (psub sb e)).
Proof.
  intros A.
  assert (L : forall ops, Forall (fun e => In s (fsyms e) -> In s (fsyms (psub sb e))) ops ->
     In s (flat_map fsyms ops) -> In s (flat_map fsyms (map (psub sb) ops))).
  { intros ops F H. apply in_flat_map in H as (o & Ho & H). rewrite Forall_forall in F. apply in_flat_map.
    exists (psub sb o). split; auto. apply in_map. auto. }
  induction e using phi_ind'; intros N; simpl in N |- *; rewrite ?sremove_In, ?in_app_iff in *; try tauto.
  - destruct N as [->|[]]. rewrite sassoc_none by auto. simpl. auto.
  - destruct N as [N|N]; auto.
  - destruct N as ([N|[N|N]] & K); auto.
  - auto.
Qed.

Lemma substitute_fsyms sb (e : phi) s : In s (fsyms (substitute e sb)) ->
  In s (fsyms e) \/ exists u, In u (map snd sb) /\ In s (fsyms u).
Proof.
  unfold substitute. generalize (tsize e). intros n. revert e. induction n as [|n IH]; intros e H; [auto|].
  cbn [substitute_go] in H. destruct (existsb _ _); [|auto].
  destruct (match symof e with Some s0 => sassoc s0 sb | None => None end) as [u|] eqn:Q.
  - destruct (symof e); [|discriminate]. apply sassoc_some in Q. right. exists u. split; auto.
    apply in_map_iff. exists (s0, u). auto.
  - clear Q. change (In s (tfree (rebuild e (map (substitute_go n sb) (subs e))))) in H.
    assert (L : length (map (substitute_go n sb) (subs e)) = length (subs e)) by apply map_length.
    apply tfree_spec in H as [H K]. rewrite capt_rebuild in K by auto. rewrite symof_rebuild, subs_rebuild in H by auto.
    destruct H as [H|(c & Hc & H)].
    + left. change (In s (tfree e)). apply tfree_spec. auto.
    + apply in_map_iff in Hc as (c' & <- & Hc). apply IH in H as [H|H]; [|auto].
      left. change (In s (tfree e)). apply tfree_spec. split; [right; exists c'; auto|auto].
Qed.

(** Types and scoping: [G1] types the term, [G2] the result. *)
Section Static.
Variable sb : list (sym * phi).
Hypothesis AT : forall s u, In (s, u) sb -> exists c i, s = SV c /\ u = p_at i.

Lemma at_atomic : atomic sb.
Proof. intros s u H. apply AT in H as (c & i & _ & ->). unfold p_at. eauto. Qed.

Definition sub_ctx (G1 G2 : tctx) : Prop :=
  forall s t, G1 s = Some t -> match sassoc s sb with
    | Some u => t = TScalar KInt /\ exists i, u = p_at i /\ G2 (SX i) = Some (TScalar KInt)
    | None => G2 s = Some t end.

Definition untouched (s : sym) : Prop := ~ In s (map fst sb) /\ (forall r i, In (r, p_at i) sb -> s <> SX i).

Lemma sub_ctx_upd G1 G2 s t : sub_ctx G1 G2 -> untouched s -> sub_ctx (upd G1 s t) (upd G2 s t).
Proof.
  intros H [U1 U2] r tr Hr. destruct (sym_eq_dec r s) as [->|NE].
  - rewrite upd_eq in Hr. injection Hr as ->. rewrite sassoc_none by auto. apply upd_eq.
  - rewrite upd_neq in Hr by auto. specialize (H r tr Hr). destruct (sassoc r sb) as [u|] eqn:E.
    + destruct H as (-> & i & -> & Q). split; auto. exists i. split; auto. rewrite upd_neq; auto.
      apply sassoc_some in E. intros K. apply (U2 r i E). auto.
    + rewrite upd_neq; auto.
Qed.


Ltac ub H := match type of H with bind _ _ = Ok _ =>
  let z := fresh "z" in let E := fresh "E" in apply bind_ok in H as (z & E & H) end.

Definition static (G1 G2 : tctx) (e : phi) (t : ty) : Prop :=
  typ e = Ok t /\ scoped G2 (psub sb e) /\ (int_indices e -> int_indices (psub sb e)) /\ (exts_ok e -> exts_ok (psub sb e)).

Lemma static_list G1 G2 ops ts :
  Forall (fun e => forall t, typ (psub sb e) = Ok t -> static G1 G2 e t) ops ->
  mapM typ (map (psub sb) ops) = Ok ts ->
  mapM typ ops = Ok ts /\ Forall (scoped G2) (map (psub sb) ops) /\
  (Forall int_indices ops -> Forall int_indices (map (psub sb) ops)) /\
  (Forall exts_ok ops -> Forall exts_ok (map (psub sb) ops)).
Proof.
  intros F H. apply mapM_Forall2 in H. rewrite mapM_Forall2.
  revert ts H. induction F as [|e ops He F IH]; simpl; intros ts Q; inversion Q; subst.
  - repeat split; auto.
  - destruct (IH _ H3) as (A & B & C & D). destruct (He _ H1) as (A1 & B1 & C1 & D1).
    split; [constructor; auto|]. split; [constructor; auto|]. split; intros K; inversion K; subst; constructor; auto.
Qed.

Lemma sub_static (e : phi) : forall G1 G2 t,
  sub_ctx G1 G2 -> (forall s, In s (bsyms e) -> untouched s) -> scoped G1 e -> typ (psub sb e) = Ok t -> static G1 G2 e t.
Proof.
  induction e using phi_ind'; intros G1 G2 t0 HG HB HS HT; cbn [psub typ] in HT; unfold static; simpl in HS, HB.
  - simpl in *. auto.
  - cbn [psub]. specialize (HG s t HS). destruct (sassoc s sb) as [u|].
    + destruct HG as (-> & i & -> & Q). cbn [typ p_at] in *. simpl. auto.
    + cbn [typ] in *. simpl. auto.
  - ub HT. destruct HS as (S1 & tb & Tb & S2).
    destruct (IHe1 G1 G2 z HG ltac:(intros; apply HB; right; apply in_or_app; auto) S1 E) as (A & B & C & D).
    rewrite Tb in A. injection A as ->.
    destruct (IHe2 (upd G1 (SV x) z) (upd G2 (SV x) z) t0) as (A' & B' & C' & D'); auto.
    { apply sub_ctx_upd; auto. }
    { intros; apply HB; right; apply in_or_app; auto. }
    cbn [typ psub]. rewrite Tb. split; auto. simpl. split; [split; eauto|]. tauto.
  - ub HT. ub HT. ub HT. injection HT as <-. destruct HS as [S1 S2]. rewrite all_and_Forall in S2.
    destruct (IHe G1 G2 z HG ltac:(intros; apply HB; apply in_or_app; auto) S1 E) as (A & B & C & D).
    destruct (static_list G1 G2 ops z0) as (A' & B' & C' & D'); auto.
    { rewrite Forall_forall in *. intros o Ho to Hto. apply H; auto. intros s Hs. apply HB. apply in_or_app. right. apply in_flat_map. eauto. }
    cbn [typ psub]. rewrite A, A'. cbn [bind]. rewrite E1. split; auto. simpl. rewrite !all_and_Forall. split; [split; auto|].
    split; [|tauto]. intros (Q1 & Q2 & Q3). split; auto. split; auto. clear - E0 A' Q3. apply mapM_Forall2 in E0, A'.
    revert z0 E0 A'. induction Q3; simpl; intros z0 E0 A'; inversion E0; inversion A'; subst; constructor.
    { unfold int_typed in *. congruence. }
    { apply (IHQ3 l'); auto. congruence. }
  - ub HT. injection HT as <-. destruct (IHe G1 G2 z HG HB HS E) as (A & B & C & D).
    cbn [typ psub]. rewrite A. simpl. auto.
  - ub HT. ub HT. destruct HS as [S1 S2].
    destruct (IHe1 G1 G2 z HG ltac:(intros; apply HB; apply in_or_app; auto) S1 E) as (A & B & C & D).
    destruct (IHe2 G1 G2 z0 HG ltac:(intros; apply HB; apply in_or_app; auto) S2 E0) as (A' & B' & C' & D').
    cbn [typ psub]. rewrite A, A'. cbn [bind]. split; auto. simpl. split; auto. split; [|tauto].
    intros (Q1 & Q2 & Q3). split; auto. split; auto. unfold int_typed in *. congruence.
  - ub HT. ub HT. destruct HS as [S1 S2].
    destruct (IHe1 G1 G2 z HG ltac:(intros; apply HB; apply in_or_app; auto) S1 E) as (A & B & C & D).
    destruct (IHe2 G1 G2 z0 HG ltac:(intros; apply HB; apply in_or_app; auto) S2 E0) as (A' & B' & C' & D').
    cbn [typ psub]. rewrite A, A'. cbn [bind]. simpl. tauto.
  - ub HT. destruct (IHe G1 G2 z HG HB HS E) as (A & B & C & D). cbn [typ psub]. rewrite A. simpl. auto.
  - ub HT. destruct (IHe G1 G2 z HG HB HS E) as (A & B & C & D). cbn [typ psub]. rewrite A. simpl. auto.
  - ub HT. ub HT. destruct HS as [S1 S2].
    destruct (IHe1 G1 G2 z HG ltac:(intros; apply HB; right; apply in_or_app; auto) S1 E) as (A & B & C & D).
    destruct (IHe2 (upd G1 (SX i) (TScalar KInt)) (upd G2 (SX i) (TScalar KInt)) z0) as (A' & B' & C' & D'); auto.
    { apply sub_ctx_upd; auto. }
    { intros; apply HB; right; apply in_or_app; auto. }
    cbn [typ psub]. rewrite A, A'. cbn [bind]. destruct z as [k| |]; try discriminate. ub HT. rewrite HT.
    split; [|simpl; tauto]. rewrite <- HT. destruct (free_indices e1) as [|s0 l] eqn:F; [reflexivity|]. exfalso.
    apply guard_ok in E1. destruct (free_indices (psub sb e1)) as [|s1 l1] eqn:F1; [|discriminate].
    assert (K : In s0 (free_indices e1)) by (rewrite F; simpl; auto). unfold free_indices in K, F1. apply filter_In in K as [K1 K2].
    assert (K3 : In s0 (filter is_index (fsyms (psub sb e1)))).
    { apply filter_In. split; auto. apply psub_keeps; auto. intros Q. apply in_map_iff in Q as ([s' u] & <- & Q).
      apply AT in Q as (c & j & Q & _). simpl in K2. subst s'. discriminate. }
    rewrite F1 in K3. destruct K3.
  - ub HT. ub HT. ub HT. destruct HS as (S1 & S2 & ti & Ti & S3).
    destruct (IHe1 G1 G2 z HG ltac:(intros; apply HB; right; right; rewrite !in_app_iff; auto) S1 E) as (A & B & C & D).
    destruct (IHe2 G1 G2 z0 HG ltac:(intros; apply HB; right; right; rewrite !in_app_iff; auto) S2 E0) as (A2 & B2 & C2 & D2).
    rewrite Ti in A2. injection A2 as ->.
    destruct (IHe3 (upd (upd G1 (SV acc) z0) (SV c) (TScalar KInt)) (upd (upd G2 (SV acc) z0) (SV c) (TScalar KInt)) z1) as (A3 & B3 & C3 & D3); auto.
    { apply sub_ctx_upd; auto. apply sub_ctx_upd; auto. }
    { intros; apply HB; right; right; rewrite !in_app_iff; auto. }
    cbn [typ psub]. rewrite A, Ti, A3. cbn [bind]. split; auto. simpl. split; [split; [auto|split; [auto|]]|tauto]. exists z0. auto.
  - ub HT. ub HT. ub HT. destruct HS as (S1 & S2 & tx & Tx & S3). rewrite all_and_Forall in S2.
    destruct (IHe1 G1 G2 z HG ltac:(intros; apply HB; right; right; rewrite !in_app_iff; auto) S1 E) as (A & B & C & D).
    destruct (static_list G1 G2 vecs z1) as (A' & B' & C' & D'); auto.
    { rewrite Forall_forall in *. intros o Ho to Hto. apply H; auto. intros s Hs. apply HB. right. right. rewrite !in_app_iff. right. left.
      apply in_flat_map. eauto. }
    assert (HB2 : forall s, In s (bsyms e2) -> untouched s) by (intros; apply HB; right; right; rewrite !in_app_iff; auto).
    destruct (IHe2 (upd (upd G1 (SV x) tx) (SV y) tx) (upd (upd G2 (SV x) tx) (SV y) tx) z0) as (A3 & B3 & C3 & D3); auto.
    { apply sub_ctx_upd; auto. apply sub_ctx_upd; auto. }
    rewrite Tx in A3. injection A3 as ->.
    cbn [typ psub]. rewrite A, Tx, A'. cbn [bind]. split; auto. simpl. rewrite !all_and_Forall. split; [split; [auto|split; [auto|]]|tauto].
    exists z0. auto.
  - ub HT. destruct (IHe G1 G2 z HG HB HS E) as (A & B & C & D). cbn [typ psub]. rewrite A. simpl. auto.
  - ub HT. ub HT. destruct HS as [S1 S2].
    destruct (IHe1 G1 G2 z HG ltac:(intros; apply HB; apply in_or_app; auto) S1 E) as (A & B & C & D).
    destruct (IHe2 G1 G2 z0 HG ltac:(intros; apply HB; apply in_or_app; auto) S2 E0) as (A' & B' & C' & D').
    cbn [typ psub]. rewrite A, A'. cbn [bind]. simpl. tauto.
  - ub HT. ub HT. ub HT. destruct HS as (S1 & S2 & S3).
    destruct (IHe1 G1 G2 z HG ltac:(intros; apply HB; rewrite !in_app_iff; auto) S1 E) as (A & B & C & D).
    destruct (IHe2 G1 G2 z0 HG ltac:(intros; apply HB; rewrite !in_app_iff; auto) S2 E0) as (A' & B' & C' & D').
    destruct (IHe3 G1 G2 z1 HG ltac:(intros; apply HB; rewrite !in_app_iff; auto) S3 E1) as (A3 & B3 & C3 & D3).
    cbn [typ psub]. rewrite A, A', A3. cbn [bind]. simpl. tauto.
  - ub HT. ub HT. destruct HS as [S1 S2].
    destruct (IHe1 G1 G2 z HG ltac:(intros; apply HB; apply in_or_app; auto) S1 E) as (A & B & C & D).
    destruct (IHe2 G1 G2 z0 HG ltac:(intros; apply HB; apply in_or_app; auto) S2 E0) as (A' & B' & C' & D').
    cbn [typ psub]. rewrite A, A'. cbn [bind]. simpl. tauto.
  - ub HT. injection HT as <-. rewrite all_and_Forall in HS.
    assert (FF : Forall (fun e => forall t, typ (psub sb e) = Ok t -> static G1 G2 e t) ops).
    { rewrite Forall_forall in *. intros o Ho to Hto. apply H; auto. intros s Hs. apply HB. apply in_flat_map. eauto. }
    destruct (static_list G1 G2 ops z FF E) as (A & B & C & D).
    cbn [typ psub]. rewrite A. cbn [bind]. split; auto. simpl. rewrite !all_and_Forall. split; auto. split; auto.
    intros (Q1 & Q2 & Q3). split; auto. split; auto. intros o to Ho Hto. apply in_map_iff in Ho as (o' & <- & Ho).
    rewrite Forall_forall in FF. apply (Q2 o'); auto. apply (FF o' Ho to Hto).
Qed.
End Static.
End Subst.
