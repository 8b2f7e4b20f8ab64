(** Immediate dominators, computed.  The code calls
    [networkx.immediate_dominators] (ein/midend/lining.py:55); immediate
    dominators are unique, so any correct computation of them gives the same
    answer. *)
From Verif Require Import Base Sym Term Lining Outline.

Section Dominators.
Context {T : Type} {O : TermOps T} {L : TermLaws T}.

(** [b] can be reached from [t] without passing through [d]. *)
Fixpoint reach_avoid (fuel : nat) (d t b : T) : bool :=
  match fuel with
  | 0 => false
  | S fuel => negb (teqb t d) && (teqb t b || existsb (fun c => reach_avoid fuel d c b) (subs t))
  end.

Definition dominatesb (p d b : T) : bool := negb (reach_avoid (tsize p) d p b).

(** The smaller of two terms. *)
Definition smaller (a b : T) : T := if tsize b <? tsize a then b else a.

(** The innermost of the proper dominators of [b]. *)
Definition idom_of (p b : T) : T :=
  fold_left smaller
    (filter (fun d => negb (teqb d b) && dominatesb p d b) (fst (cse_build (tsize p) ([], []) p))) p.

Lemma reach_avoid_spec fuel : forall d t b, tsize t <= fuel ->
  (reach_avoid fuel d t b = true <-> exists l, chain t b l /\ ~ In d l).
Proof.
  induction fuel as [|fuel IH]; intros d t b Hf; [pose proof (tsize_pos t); lia|]. simpl.
  rewrite andb_true_iff, negb_true_iff, orb_true_iff, teqb_eq, existsb_exists. split.
  - intros [Hd [->|(c & Hc & Hr)]].
    + exists [b]. split; [constructor|]. intros [->|[]]. rewrite teqb_refl in Hd. discriminate.
    + apply IH in Hr as (l & Hl & Hn); [|apply tsize_sub in Hc; lia].
      apply In_nth_error in Hc as [k Hk]. exists (t :: l). split; [econstructor; eauto|].
      intros [->|Hi]; auto. rewrite teqb_refl in Hd. discriminate.
  - intros (l & Hl & Hn). assert (Hd : teqb t d = false).
    { destruct (teqb t d) eqn:E; auto. apply teqb_eq in E. subst. exfalso. apply Hn.
      inversion Hl; simpl; auto. }
    split; auto. inversion Hl as [|? k c ? l' Hk Hl']; subst; auto. right. exists c.
    split; [eapply nth_error_In; eauto|]. apply IH.
    + apply nth_error_In, tsize_sub in Hk. lia.
    + exists l'. split; auto. intros Hi. apply Hn. simpl; auto.
Qed.

Lemma dominatesb_spec p d b : dominatesb p d b = true <-> dominates p d b.
Proof.
  unfold dominatesb. rewrite negb_true_iff. split.
  - intros H l Hl. destruct (in_dec (fun a b : T => match teqb a b as r return teqb a b = r -> _ with
      | true => fun E => left (proj1 (teqb_eq a b) E)
      | false => fun E => right (fun H => eq_ind true (fun r => if r then True else False) I false
           (eq_trans (eq_sym (proj2 (teqb_eq a b) H)) E)) end eq_refl) d l) as [|N]; auto.
    exfalso. assert (reach_avoid (tsize p) d p b = true); [|congruence].
    apply reach_avoid_spec; eauto.
  - intros H. destruct (reach_avoid (tsize p) d p b) eqn:E; auto.
    apply reach_avoid_spec in E as (l & Hl & Hn); auto. exfalso. apply Hn, H; auto.
Qed.

Lemma fold_smaller l : forall a, (fold_left smaller l a = a \/ In (fold_left smaller l a) l) /\
  tsize (fold_left smaller l a) <= tsize a /\
  forall x, In x l -> tsize (fold_left smaller l a) <= tsize x.
Proof.
  induction l as [|y l IH]; simpl; intros a; [intuition|].
  destruct (IH (smaller a y)) as (H1 & H2 & H3).
  assert (Hs : (smaller a y = a \/ smaller a y = y) /\ tsize (smaller a y) <= tsize a /\ tsize (smaller a y) <= tsize y).
  { unfold smaller. destruct (tsize y <? tsize a) eqn:E; [apply Nat.ltb_lt in E|apply Nat.ltb_ge in E];
      repeat split; auto; lia. }
  destruct Hs as ([Hs|Hs] & Ha & Hy); rewrite Hs in *.
  - repeat split; [tauto|lia|]. intros x [<-|Hx]; [lia|auto].
  - repeat split; [|lia|].
    + destruct H1 as [->|H1]; auto.
    + intros x [<-|Hx]; [lia|auto].
Qed.

Lemma chain_root p b l : chain p b l -> In p l.
Proof. intros H. inversion H; simpl; auto. Qed.

Lemma idom_of_spec p b : sub_of b p -> b <> p -> is_idom p (idom_of p b) b.
Proof.
  intros Hb Hne. unfold idom_of.
  destruct (cse_build (tsize p) ([], []) p) as [nodes order] eqn:Eb.
  destruct (cse_build_nodes _ _ _ Eb) as (_ & Hnodes & _). simpl.
  set (l := filter (fun d => negb (teqb d b) && dominatesb p d b) nodes).
  assert (Hl : forall d, In d l <-> sub_of d p /\ d <> b /\ dominates p d b).
  { intros d. unfold l. rewrite filter_In, andb_true_iff, negb_true_iff, dominatesb_spec, Hnodes.
    assert (teqb d b = false <-> d <> b).
    { rewrite <- (teqb_eq d b). destruct (teqb d b); split; congruence. }
    tauto. }
  destruct (fold_smaller l p) as (H1 & H2 & H3).
  set (d := fold_left smaller l p) in *.
  assert (Hd : sub_of d p /\ d <> b /\ dominates p d b).
  { destruct H1 as [->|H1]; [|apply Hl; auto]. split; [constructor|]. split; auto.
    intros l' Hl'. eapply chain_root; eauto. }
  destruct Hd as (Hdp & Hdb & Hdom). split; auto. split; auto.
  intros n Hn Hnd l1 Hl1.
  assert (Hsub : sub_of b d).
  { destruct (sub_chain _ _ Hb) as (l2 & Hl2).
    exact (proj2 (chain_nodes _ _ _ _ Hl2 (Hdom _ Hl2))). }
  destruct (sub_chain _ _ Hsub) as (l2 & Hl2).
  destruct (chain_app _ _ _ _ _ Hl1 Hl2) as (l3 & Hl3 & Hin).
  pose proof (Hnd _ Hl3) as Hi. apply Hin in Hi as [Hi|Hi]; auto.
  assert (Hnl : In n l).
  { apply Hl. split; [|split; auto]. exact (proj1 (chain_nodes _ _ _ _ Hl3 (Hnd _ Hl3))). }
  apply H3 in Hnl. destruct (chain_nodes _ _ _ _ Hl2 Hi) as [Hs _].
  apply sub_of_size in Hs as [->|Hs]; [|lia].
  clear - L Hl1. induction Hl1; simpl; auto.
Qed.

(** Distinct binders exclude shadowing. *)
Lemma distinct_noshadow p : distinct_binders p -> noshadow (fun s => isfree s p) p.
Proof.
  intros DB.
  assert (H : forall t (G : sym -> Prop), sub_of t p ->
     (forall s, G s -> isfree s p \/ exists n, sub_of n p /\ In s (capt n) /\ tsize t < tsize n) ->
     noshadow G t).
  { intros t. remember (tsize t) as k eqn:Ek. revert t Ek.
    induction k as [k IH] using lt_wf_ind. intros t -> G Ht HG. constructor.
    - intros s Hs Hg. destruct (DB t s Ht Hs) as [Hnf Hu].
      destruct (HG s Hg) as [?|(n & Hn & Hc & Hlt)]; auto.
      rewrite (Hu n Hn Hc) in Hlt. lia.
    - intros j c sc Hc Hsc. pose proof (nth_error_In _ _ Hc) as Hin.
      pose proof (tsize_sub _ _ Hin) as Hlt.
      eapply (IH (tsize c)); auto.
      + eapply sub_of_trans; [|exact Ht]. eapply sub_child; eauto.
      + intros s [Hg|Hs].
        * destruct (HG s Hg) as [?|(n & ? & ? & ?)]; auto. right. exists n. repeat split; auto. lia.
        * right. exists t. repeat split; auto. eapply scopes_capt; eauto. eapply nth_error_In; eauto. }
  apply H; auto. constructor.
Qed.

Lemma distinct_unshadowed p : distinct_binders p -> unshadowed p.
Proof.
  intros DB. eapply noshadow_unshadowed; [apply distinct_noshadow; auto|auto].
Qed.

End Dominators.
