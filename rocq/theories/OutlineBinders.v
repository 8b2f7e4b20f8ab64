(** The binders of an outlined program, and its values in any environment
    (ein/midend/lining.py:113-143). *)
From Verif Require Import Base Sym Term Lining Outline Dominators InlineMemo Visits OutlinePass.

Section Generic.
Context {T : Type} {O : TermOps T} {L : TermLaws T}.

(** The binders of the outlined program are the program's own or new. *)
Lemma apply_capt p ins : ins_wf p ins -> ins_tree p ins -> forall n, sub_of n (apply_insertions p ins) ->
  capt n = [] \/ (exists t, sub_of t p /\ capt n = capt t) \/ exists x d b, capt n = [SV x] /\ In (x, b) (ins_at ins d).
Proof.
  intros W TR n Hn. rewrite apply_A in Hn.
  destruct (origins p ins W TR _ _ _ _ (le_n _) (v_root p ins) Hn) as [(y & b & d & -> & Hi)|(bnd & t & V & [->|(l1 & y & b & l2 & E & ->)])].
  - pose proof (symof_wrap y b) as Es. destruct (symof_subs _ _ Es) as (_ & Ec & _). auto.
  - rewrite body_capt. right. left. exists t. split; auto. eapply visit_sub; eauto.
  - rewrite new_let_capt. right. right. exists y, t, b. split; auto. rewrite E. apply in_elt.
Qed.

Lemma inline_capt o p : distinct_binders p -> forall n, sub_of n (inline o p) -> exists t, sub_of t p /\ capt n = capt t.
Proof.
  intros D n Hn. apply inline_origin in Hn; auto. destruct Hn as (bd & t & R & _ & ->).
  rewrite capt_rebuild by apply map_length. exists t. split; auto. eapply reach_sub; eauto.
Qed.

Lemma outline_capt nxt p q : distinct_binders p -> above nxt p -> outline nxt p = Ok q ->
  forall n, sub_of n q -> capt n = [] \/ (exists t, sub_of t p /\ capt n = capt t) \/ exists x, capt n = [SV x] /\ nxt <= x.
Proof.
  intros DB AB H. unfold outline in H. rewrite inline_memo_eq in H by auto.
  apply bind_ok in H as ([] & _ & H). pose proof (inline_capt false p DB) as C1.
  set (p1 := inline false p) in *.
  assert (T1 : tidy nxt p1) by (split; [apply inline_distinct; auto|apply inline_above; auto]).
  pose proof (cse_tidy nxt p1 T1) as C. pose proof (cse_tree p1 nxt) as TR1.
  assert (G1 : forall d x b, In (x, b) (ins_at (fst (bind_common_subexpressions (idom_of p1) nxt p1)) d) -> nxt <= x).
  { intros d x b Hi. pose proof (distinct_unshadowed _ (proj1 T1)) as U.
    assert (HI : forall b, sub_of b p1 -> b <> p1 -> is_idom p1 (idom_of p1 b) b) by (intros; apply idom_of_spec; auto).
    pose proof (cse_good p1 nxt (idom_of p1) U (proj1 T1) HI) as G. unfold insertions in *.
    destruct (bind_common_subexpressions (idom_of p1) nxt p1) as [ins nxt']. destruct G as [_ G].
    destruct (gi_P _ _ _ _ G _ _ _ Hi) as [_ ?]. lia. }
  assert (M1 : nxt <= snd (bind_common_subexpressions (idom_of p1) nxt p1)).
  { pose proof (distinct_unshadowed _ (proj1 T1)) as U.
    assert (HI : forall b, sub_of b p1 -> b <> p1 -> is_idom p1 (idom_of p1 b) b) by (intros; apply idom_of_spec; auto).
    pose proof (cse_good p1 nxt (idom_of p1) U (proj1 T1) HI) as G. unfold insertions in *.
    destruct (bind_common_subexpressions (idom_of p1) nxt p1) as [ins nxt']. apply G. }
  unfold insertions in *. destruct (bind_common_subexpressions (idom_of p1) nxt p1) as [ins1 nxt1]. cbn [fst snd] in *.
  destruct C as (T2 & W1 & F1). pose proof (apply_capt p1 ins1 W1 TR1) as C2. set (p2 := apply_insertions p1 ins1) in *.
  apply bind_ok in H as ([] & Hc2 & H). apply check_tree in Hc2.
  pose proof (licm_tidy nxt1 p2 T2 Hc2) as C. pose proof (licm_tree p2 Hc2 nxt1 (proj1 T2)) as TR2.
  assert (G2 : forall d x b, In (x, b) (ins_at (fst (loop_invariant_code_motion nxt1 p2)) d) -> nxt1 <= x).
  { intros d x b Hi. pose proof (licm_good p2 nxt1 (unshadowed_hygienic _ (distinct_unshadowed _ (proj1 T2)))) as G.
    unfold insertions in *. destruct (loop_invariant_code_motion nxt1 p2) as [ins nxt']. destruct G as [_ G].
    destruct (gi_P _ _ _ _ G _ _ _ Hi) as [_ ?]. lia. }
  unfold insertions in *. destruct (loop_invariant_code_motion nxt1 p2) as [ins2 nxt2]. cbn [fst snd] in *.
  destruct C as (T3 & W2 & F2). pose proof (apply_capt p2 ins2 W2 TR2) as C3. set (p3 := apply_insertions p2 ins2) in *.
  apply bind_ok in H as ([] & _ & H). rewrite inline_memo_eq in H by apply T3.
  apply bind_ok in H as ([] & Hc4 & H). injection H as <-.
  intros n Hn. destruct (inline_capt true p3 (proj1 T3) _ Hn) as (t3 & H3 & ->).
  destruct (C3 _ H3) as [->|[(t2 & H2 & ->)|(x & d & b & -> & Hi)]]; auto.
  - destruct (C2 _ H2) as [->|[(t1 & H1 & ->)|(x & d & b & -> & Hi)]]; auto.
    right. right. exists x. split; eauto.
  - right. right. exists x. split; auto. apply G2 in Hi. lia.
Qed.

Context {V : Type} {sem : genv V -> T -> res V} {S : TermSem T V sem}.

(** A larger environment keeps values. *)
Lemma sem_more : forall t (E1 E2 : genv V), (forall s v, E1 s = Some v -> E2 s = Some v) -> ref (sem E1 t) (sem E2 t).
Proof.
  apply (tsize_ind (fun t => forall E1 E2 : genv V, (forall s v, E1 s = Some v -> E2 s = Some v) -> ref (sem E1 t) (sem E2 t))).
  intros t IH E1 E2 H. destruct (symof t) as [s|] eqn:Es.
  - rewrite !(sem_sym _ _ _ Es). intros v Hv. unfold of_opt in *. destruct (E1 s) eqn:Q; [|discriminate].
    rewrite (H _ _ Q). exact Hv.
  - rewrite <- (rebuild_subs t) at 2. apply sem_mono; auto. intros k c c' sc l Hc Hc' _ _. rewrite Hc in Hc'. injection Hc' as <-.
    apply IH; [apply tsize_sub; eapply nth_error_In; eauto|].
    intros s v. revert E1 E2 H. induction l as [|[a w] l IHl]; simpl; intros E1 E2 H; auto.
    apply IHl. intros s' v'. unfold upd. destruct (sym_eqb s' a); auto.
Qed.

(** Where the program and the outlined program have a value, it is the same. *)
Lemma outline_agree_any (v0 : V) nxt p q E v w : atoms_defined (sem := sem) -> tidy nxt p -> outline nxt p = Ok q ->
  sem E p = Ok v -> sem E q = Ok w -> w = v.
Proof.
  intros AD TP H Hv Hw. set (E' := fun s => match E s with Some u => Some u | None => Some v0 end).
  assert (M : forall s u, E s = Some u -> E' s = Some u) by (intros s u Hu; unfold E'; rewrite Hu; reflexivity).
  eapply (outline_agree nxt p q E'); eauto; try (eapply sem_more; eauto).
  intros s _. unfold E'. destruct (E s); discriminate.
Qed.
End Generic.

(** ** Fresh binders along every path *)
Section Fresh.
Context {T : Type} {O : TermOps T} {L : TermLaws T}.

Record apart (X : list sym) (e : T) : Prop := {
  ap_self : forall n, sub_of n e -> NoDup (capt n);
  ap_out : forall n s, sub_of n e -> In s (capt n) -> ~ In s X;
  ap_path : forall n m s, sub_of n e -> sub_of m n -> m <> n -> In s (capt n) -> ~ In s (capt m) }.

Lemma apart_child X e c sc : apart X e -> In c (subs e) -> incl sc (capt e) -> apart (sc ++ X) c.
Proof.
  intros [A B C] Hc Hs. assert (S : forall n, sub_of n c -> sub_of n e) by (intros; eapply sub_step; eauto).
  constructor; auto.
  - intros n s Hn Hc' Hi. apply in_app_iff in Hi as [Hi|Hi]; [|eapply B; eauto].
    apply Hs in Hi. eapply (C e n); eauto; [constructor|]. intros ->.
    apply sub_of_size in Hn. pose proof (tsize_sub _ _ Hc). destruct Hn; [subst; lia|lia].
  - intros n m s Hn. apply C; auto.
Qed.

Lemma apart_incl X Y e : incl Y X -> apart X e -> apart Y e.
Proof. intros H [A B C]. constructor; auto. intros n s Hn Hs Hi. eapply B; eauto. Qed.

Lemma distinct_apart X e : distinct_binders e -> (forall n, sub_of n e -> NoDup (capt n)) ->
  (forall n s, sub_of n e -> In s (capt n) -> ~ In s X) -> apart X e.
Proof.
  intros D N H. constructor; auto. intros n m s Hn Hm Hne Hs Hs'. apply Hne.
  apply (D n s Hn Hs); auto. eapply sub_of_trans; eauto.
Qed.

Lemma outline_apart nxt X p q : distinct_binders p -> above nxt p -> outline nxt p = Ok q ->
  (forall n, sub_of n p -> NoDup (capt n) /\ forall s, In s (capt n) -> ~ In s X) ->
  (forall x, In (SV x) X -> x < nxt) -> distinct_binders q -> apart X q.
Proof.
  intros D A H AP B DQ. pose proof (outline_capt _ _ _ D A H) as C. apply distinct_apart; auto.
  - intros n Hn. destruct (C n Hn) as [->|[(t & Ht & ->)|(x & -> & _)]]; [constructor|apply AP; auto|].
    constructor; [intros []|constructor].
  - intros n s Hn. destruct (C n Hn) as [->|[(t & Ht & ->)|(x & -> & Hx)]]; [intros []|apply AP; auto|].
    intros [<-|[]] Hi. apply B in Hi. lia.
Qed.
End Fresh.
