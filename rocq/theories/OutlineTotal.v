(** The checks of [outline] (ein/midend/lining.py:116-131), continued: the passes
    meet the conditions of OutlineTree.v, inlining renames keeps a tree, and the
    whole pass succeeds. *)
From Verif Require Import Base Sym Term Lining Outline Dominators InlineMemo Visits OutlinePass OutlineTree.

(** ** Insertions of the two passes *)
Section Passes.
Context {T : Type} {O : TermOps T} {L : TermLaws T}.

Lemma filter_two (b : T) l : forall k1 k2, nth_error l k1 = Some b -> nth_error l k2 = Some b -> k1 <> k2 -> 2 <= length (filter (teqb b) l).
Proof.
  assert (H1 : forall l k, nth_error l k = Some b -> 1 <= length (filter (teqb b) l)).
  { intros l0 k Hk. apply nth_error_In in Hk. assert (Hi : In b (filter (teqb b) l0)) by (apply filter_In; split; auto; apply teqb_refl).
    destruct (filter (teqb b) l0); [destruct Hi|simpl; lia]. }
  induction l as [|c l IH]; intros k1 k2 E1 E2 Hne; [destruct k1; discriminate|].
  destruct k1 as [|k1], k2 as [|k2]; simpl in E1, E2; try lia.
  - injection E1 as ->. simpl. rewrite teqb_refl. simpl. specialize (H1 _ _ E2). lia.
  - injection E2 as ->. simpl. rewrite teqb_refl. simpl. specialize (H1 _ _ E1). lia.
  - simpl. assert (2 <= length (filter (teqb b) l)) by (eapply (IH k1 k2); eauto). destruct (teqb b c); simpl; lia.
Qed.

Lemma sum_ge {X} (f : X -> nat) l x : In x l -> f x <= list_sum (map f l).
Proof. induction l as [|y l IH]; intros H; [destruct H|]. simpl. destruct H as [->|H]; [|apply IH in H]; lia. Qed.

Lemma sum_ge2 {X} (f : X -> nat) l x y : In x l -> In y l -> x <> y -> f x + f y <= list_sum (map f l).
Proof.
  induction l as [|z l IH]; intros Hx Hy Hne; [destruct Hx|]. simpl.
  destruct Hx as [->|Hx], Hy as [->|Hy]; [congruence| | |].
  - apply (sum_ge f) in Hy. lia.
  - apply (sum_ge f) in Hx. lia.
  - specialize (IH Hx Hy Hne). lia.
Qed.

Lemma in_degree_many nodes (b n1 n2 : T) k1 k2 : In n1 nodes -> In n2 nodes ->
  nth_error (subs n1) k1 = Some b -> nth_error (subs n2) k2 = Some b -> (n1, k1) <> (n2, k2) -> 1 < in_degree nodes b.
Proof.
  intros I1 I2 E1 E2 Hne. unfold in_degree. set (f := fun n : T => length (filter (teqb b) (subs n))).
  assert (P : forall n k, nth_error (subs n) k = Some b -> 1 <= f n).
  { intros n k Hk. unfold f. apply nth_error_In in Hk. assert (Hi : In b (filter (teqb b) (subs n))) by (apply filter_In; split; auto; apply teqb_refl).
    destruct (filter (teqb b) (subs n)); [destruct Hi|simpl; lia]. }
  destruct (teqb n1 n2) eqn:En.
  - apply teqb_eq in En. subst n2. assert (2 <= f n1) by (eapply (filter_two b (subs n1) k1 k2); eauto; congruence).
    pose proof (sum_ge f nodes n1 I1). lia.
  - assert (n1 <> n2) by (intros ->; rewrite teqb_refl in En; discriminate).
    pose proof (sum_ge2 f nodes n1 n2 I1 I2 H). pose proof (P _ _ E1). pose proof (P _ _ E2). lia.
Qed.

Lemma in_add d x b ins d' (y : nat) (c : T) : In (y, c) (ins_at (add_ins d x b ins) d') <-> In (y, c) (ins_at ins d') \/ (d' = d /\ y = x /\ c = b).
Proof.
  rewrite ins_at_add. destruct (teqb d' d) eqn:E.
  - apply teqb_eq in E. subst d'. rewrite in_app_iff. simpl. split.
    + intros [?|[H|[]]]; auto. injection H as <- <-. auto.
    + intros [?|(_ & -> & ->)]; auto.
  - split; auto. intros [?|(-> & _)]; auto. rewrite teqb_refl in E. discriminate.
Qed.

(** lining.py:57-63: exactly the terms at two positions that are no atoms are bound. *)
Lemma cse_all p nxt :
  let ins := fst (bind_common_subexpressions (idom_of p) nxt p) in
  (forall d x b, In (x, b) (ins_at ins d) -> is_atom b = false) /\
  (forall c n1 k1 n2 k2, is_atom c = false -> sub_of n1 p -> sub_of n2 p ->
     nth_error (subs n1) k1 = Some c -> nth_error (subs n2) k2 = Some c -> (n1, k1) <> (n2, k2) -> exists d x, In (x, c) (ins_at ins d)).
Proof.
  unfold bind_common_subexpressions. destruct (cse_build (tsize p) ([], []) p) as [nodes order] eqn:Eb.
  destruct (cse_build_nodes _ _ _ Eb) as (Hnd & Hnodes & Hord).
  pose proof (cse_build_post (tsize p) p [] [] []) as HP. rewrite Eb in HP.
  destruct HP as (_ & _ & _ & _ & Hall & _); auto.
  { intros n []. } { intros o []. } { intros [|? ?] ? ? ?; discriminate. }
  assert (Hloop : forall l ins n,
     (forall d x b, In (x, b) (ins_at ins d) -> is_atom b = false) ->
     let ins' := fst (fold_left (cse_step (idom_of p) nodes) l (ins, n)) in
     (forall d x b, In (x, b) (ins_at ins' d) -> is_atom b = false) /\
     (forall d x b, In (x, b) (ins_at ins d) -> In (x, b) (ins_at ins' d)) /\
     forall b, In b l -> is_atom b = false -> 1 < in_degree nodes b -> exists d x, In (x, b) (ins_at ins' d)).
  { induction l as [|b l IHl]; intros ins n H0; simpl; [split; auto; split; auto; intros b []|].
    replace (cse_step (idom_of p) nodes (ins, n) b) with
        (if (1 <? in_degree nodes b) && negb (is_atom b)
         then (add_ins (idom_of p b) n b ins, S n) else (ins, n)) by reflexivity.
    destruct ((1 <? in_degree nodes b) && negb (is_atom b)) eqn:Ec.
    - apply andb_true_iff in Ec as [Ec Ea]. apply negb_true_iff in Ea.
      destruct (IHl (add_ins (idom_of p b) n b ins) (S n)) as (A1 & A2 & A3).
      { intros d x c Hi. apply in_add in Hi as [Hi|(_ & _ & ->)]; eauto. }
      split; auto. split.
      + intros d x c Hi. apply A2, in_add. auto.
      + intros c [<-|Hc] Hca Hcd; auto. exists (idom_of p b), n. apply A2, in_add. auto.
    - destruct (IHl ins n H0) as (A1 & A2 & A3). split; auto. split; auto.
      intros c [<-|Hc] Hca Hcd; auto. apply Nat.ltb_lt in Hcd. rewrite Hcd, Hca in Ec. discriminate. }
  destruct (Hloop order [] nxt) as (A1 & _ & A3); [intros d x b []|].
  cbv zeta. split; [exact A1|].
  intros c n1 k1 n2 k2 Hc S1 S2 E1 E2 Hne. apply A3; auto.
  - destruct (Hall c) as [?|[]]; auto. apply Hnodes. eapply sub_of_trans; [eapply sub_child; eauto|auto].
  - eapply (in_degree_many nodes c n1 n2); eauto; apply Hnodes; auto.
Qed.

(** lining.py:86-92: no atom is moved. *)
Lemma licm_nonatom p nxt : tree p -> forall d x b, In (x, b) (ins_at (fst (loop_invariant_code_motion nxt p)) d) -> is_atom b = false.
Proof.
  intros TP d x b. unfold loop_invariant_code_motion.
  pose proof (licm_visit_tree p TP (tsize p) p [] None [] nxt [] [p] (le_n _) (ch_refl p) I) as V.
  destruct V as [V1 _ _]; auto.
  { intros n [<-|[]] Hn. congruence. }
  { apply visited_nil. }
  intros Hi. apply V1 in Hi as [(_ & _ & _ & _ & Hi & _) _]. exact Hi.
Qed.

Lemma check_ok fs p b : tree p -> distinct_binders p -> (forall s, In s fs <-> isfree s p) -> check fs p b = Ok tt.
Proof.
  intros TP DB Hfs. unfold check.
  assert (Hy : hygienic p) by (apply unshadowed_hygienic, distinct_unshadowed, DB).
  assert (HS : same_symbols fs (tfree p) = true).
  { unfold same_symbols. apply andb_true_iff. split; apply forallb_forall; intros s Hs; apply smem_In.
    - apply isfree_tfree; auto. apply Hfs; auto.
    - apply Hfs. apply tfree_isfree. auto. }
  assert (HV : exists seen, (if b then check_visit (tsize p) [] p else Ok []) = Ok seen).
  { destruct b; [|eauto]. destruct (check_visit_ok (tsize p) [] p) as (seen & H & _); eauto. }
  destruct HV as (seen & ->). simpl. rewrite HS. reflexivity.
Qed.
End Passes.

Lemma nth_all {X} (l1 : list X) : forall l2, (forall k, nth_error l1 k = nth_error l2 k) -> l1 = l2.
Proof.
  induction l1 as [|x l1 IH]; intros [|y l2] H; auto; try (specialize (H 0); discriminate).
  pose proof (H 0) as H0. injection H0 as <-. f_equal. apply IH. intros k. apply (H (S k)).
Qed.

(** ** Inlining renames *)
Section Renames.
Context {T : Type} {O : TermOps T} {L : TermLaws T} (q : T).
Hypothesis DB : distinct_binders q.
Hypothesis UP : unique_parents q.

(** What the atoms bound in [q] look like: a variable used only there. *)
Definition single_renames : Prop :=
  forall n y b body, sub_of n q -> unlet n = Some (y, b, body) -> is_atom b = true ->
    (exists x, symof b = Some (SV x) /\ (exists n', sub_of n' q /\ In (SV x) (capt n')) /\
       (forall m k c, sub_of m q -> nth_error (subs m) k = Some c -> symof c = Some (SV x) -> m = n /\ k = 0) /\
       (forall n' b' body', sub_of n' q -> unlet n' = Some (x, b', body') -> is_atom b' = false)) /\
    (exists v, sub_of v q /\ symof v = Some (SV y)) /\
    (forall v v', sub_of v q -> sub_of v' q -> symof v = Some (SV y) -> symof v' = Some (SV y) -> v = v').

Hypothesis SR : single_renames.

Definition keep (t : T) : Prop := forall x b body, unlet t = Some (x, b, body) -> is_atom b = false.

(** Through the bodies of renames. *)
Inductive skip (t : T) : T -> Prop :=
| sk_refl : skip t t
| sk_let n x b body : skip t n -> unlet n = Some (x, b, body) -> is_atom b = true -> skip t body.

Lemma skip_cons n x b body h : unlet n = Some (x, b, body) -> is_atom b = true -> skip body h -> skip n h.
Proof. intros Hu Hb. induction 1; [eapply sk_let; eauto; constructor|eapply sk_let; eauto]. Qed.

Lemma skip_inv t h : skip t h -> t = h \/ exists x b body, unlet t = Some (x, b, body) /\ is_atom b = true /\ skip body h.
Proof.
  induction 1 as [|n x b body H IH Hu Hb]; auto. right. destruct IH as [->|(x' & b' & body' & H1 & H2 & H3)].
  - exists x, b, body. split; auto. split; auto. constructor.
  - exists x', b', body'. split; auto. split; auto. eapply sk_let; eauto.
Qed.

Notation RB bd t := (rebuild t (map (inl true bd) (subs t))).
Notation rch := (reach true q).

Lemma let_parts n x (b body : T) : unlet n = Some (x, b, body) ->
  subs n = [b; body] /\ capt n = [SV x] /\ symof n = None /\ tsize b < tsize n /\ tsize body < tsize n.
Proof.
  intros Hu. destruct (unlet_spec _ _ _ _ Hu) as (Es & Ec & _ & Ey). repeat (split; auto); apply tsize_sub; rewrite Es; simpl; auto.
Qed.

Lemma let_sub n x (b body : T) : unlet n = Some (x, b, body) -> sub_of n q -> sub_of b q /\ sub_of body q.
Proof.
  intros Hu Hn. destruct (let_parts _ _ _ _ Hu) as (Es & _).
  split; (eapply sub_of_trans; [|exact Hn]); [apply (sub_step b b n)|apply (sub_step body body n)]; try constructor; rewrite Es; simpl; auto.
Qed.

(** A bound atom stays as it is. *)
Lemma inl_bind bd n y b body : rch bd n -> unlet n = Some (y, b, body) -> is_atom b = true -> inl true bd b = b.
Proof.
  intros R Hu Hb. pose proof (reach_sub _ _ _ _ R) as Hn. destruct (SR _ _ _ _ Hn Hu Hb) as ((x & Hx & _ & _ & Hc) & _).
  destruct (symof_subs _ _ Hx) as (Es & _ & El). rewrite inl_eq, El, Hx.
  destruct (blook x bd) as [r|] eqn:Er; [|rewrite Es; simpl; rewrite <- Es; apply rebuild_subs].
  destruct (reach_look _ _ _ _ _ _ R Er) as (bd' & n' & b' & body' & R' & Hu' & Hp & _). exfalso.
  pose proof (Hc n' b' body' (reach_sub _ _ _ _ R') Hu'). unfold pred in Hp. congruence.
Qed.

Lemma core t : forall bd, rch bd t -> exists bd' h, rch bd' h /\ skip t h /\ keep h /\
  (inl true bd t = RB bd' h \/
   exists n y b body, sub_of n q /\ unlet n = Some (y, b, body) /\ is_atom b = true /\ symof h = Some (SV y) /\ inl true bd t = b).
Proof.
  induction t as [t IH] using tsize_ind. intros bd R. rewrite inl_eq. destruct (unlet t) as [[[x b] body]|] eqn:Eu.
  - destruct (let_parts _ _ _ _ Eu) as (_ & _ & _ & _ & Hsz). unfold pred. destruct (is_atom b) eqn:Eb.
    + destruct (IH body Hsz _ (re_body _ _ _ _ _ _ _ R Eu Eb)) as (bd' & h & R' & Sk & K & C).
      exists bd', h. split; auto. split; auto. eapply skip_cons; eauto.
    + exists bd, t. split; auto. split; [constructor|]. split; auto. intros x' b' body' E. congruence.
  - exists bd, t. split; auto. split; [constructor|]. split; [intros x b body E; congruence|].
    destruct (symof t) as [[x|x]|] eqn:Ex; auto. destruct (blook x bd) as [r|] eqn:Er; auto. right.
    destruct (reach_look _ _ _ _ _ _ R Er) as (bd' & n & b & body & R' & Hu & Hp & -> & _).
    exists n, x, b, body. split; [eapply reach_sub; eauto|]. split; auto. split; auto. split; auto. eapply inl_bind; eauto.
Qed.

(** Variables of renames occur below them. *)
Lemma var_below n y b body v : sub_of n q -> unlet n = Some (y, b, body) -> is_atom b = true -> symof v = Some (SV y) ->
  forall l, chain q v l -> In n l.
Proof.
  intros Hn Hu Hb Hv l C. destruct (let_parts _ _ _ _ Hu) as (_ & Ec & _).
  destruct (DB n (SV y) Hn) as [Hf Hq]; [rewrite Ec; simpl; auto|].
  assert (Hdec : (exists m, In m l /\ In (SV y) (capt m)) \/ forall m, In m l -> ~ In (SV y) (capt m)).
  { clear. induction l as [|m l [(m' & ? & ?)|IHl]]; [right; intros m []|left; exists m'; simpl; auto|].
    destruct (capt_dec (SV y) m); [left; exists m; simpl; auto|right; intros m' [<-|?]; auto]. }
  destruct Hdec as [(m & Hm & Hc)|Hno].
  - destruct (chain_nodes _ _ _ _ C Hm) as [Hmq _]. rewrite <- (Hq m Hmq Hc). auto.
  - exfalso. apply Hf. eapply chain_free; [exact C|constructor; auto|]. intros m Hm _. auto.
Qed.

Lemma var_used n y b body : sub_of n q -> unlet n = Some (y, b, body) -> is_atom b = true ->
  exists v, sub_of v body /\ symof v = Some (SV y).
Proof.
  intros Hn Hu Hb. destruct (SR _ _ _ _ Hn Hu Hb) as ((x & Hx & _ & _ & Hc) & (v & Hv & Hy) & _). exists v. split; auto.
  destruct (sub_chain _ _ Hv) as (l & C). pose proof (var_below _ _ _ _ _ Hn Hu Hb Hy _ C) as Hi.
  apply (chain_nodes _ _ _ _ C) in Hi as [_ Hi]. destruct (let_parts _ _ _ _ Hu) as (Es & _ & Ey & _).
  inversion Hi as [|? c ? Hcn Hs]; subst; [congruence|]. rewrite Es in Hcn. destruct Hcn as [<-|[<-|[]]]; auto. exfalso.
  destruct (symof_subs _ _ Hx) as (Eb & _). apply (sub_leaf _ _ Eb) in Hs. subst v.
  pose proof (Hc n b body Hn). assert (x = y) by congruence. subst y. specialize (H Hu). congruence.
Qed.

Lemma skip_atom t h : sub_of t q -> skip t h -> is_atom h = true ->
  t = h \/ exists y b, unlet t = Some (y, b, h) /\ is_atom b = true /\ symof h = Some (SV y).
Proof.
  induction t as [t IH] using tsize_ind. intros Ht Sk Hh. destruct (skip_inv _ _ Sk) as [->|(y & b & body & Hu & Hb & Sk')]; auto. right.
  destruct (let_parts _ _ _ _ Hu) as (_ & Ec & _ & _ & Hsz). destruct (let_sub _ _ _ _ Hu Ht) as [_ Hbody].
  destruct (var_used _ _ _ _ Ht Hu Hb) as (v & Hv & Hy). destruct (atom_spec _ Hh) as [Eh _].
  destruct (IH body Hsz Hbody Sk' Hh) as [->|(y' & b' & Hu' & Hb' & Hy')].
  - apply (sub_leaf _ _ Eh) in Hv. subst v. exists y, b. auto.
  - exfalso. destruct (let_parts _ _ _ _ Hu') as (Es' & Ec' & Ey' & _).
    inversion Hv as [|? c ? Hcn Hs]; subst; [congruence|]. rewrite Es' in Hcn. destruct Hcn as [<-|[<-|[]]].
    + destruct (SR _ _ _ _ Hbody Hu' Hb') as ((x & Hx & _ & _ & Hc) & _). destruct (symof_subs _ _ Hx) as (Eb & _).
      apply (sub_leaf _ _ Eb) in Hs. subst v. assert (x = y) by congruence. subst y. pose proof (Hc _ _ _ Ht Hu). congruence.
    + apply (sub_leaf _ _ Eh) in Hs. subst v. assert (y' = y) by congruence. subst y'.
      assert (body = t) by (apply (proj2 (DB t (SV y) Ht ltac:(rewrite Ec; simpl; auto)) body Hbody); rewrite Ec'; simpl; auto).
      subst body. lia.
Qed.

(** Up from a term through renames there is one position. *)
Lemma skip_up c1 h : skip c1 h -> is_atom h = false -> forall t1 k1 t2 k2 c2, keep t1 -> keep t2 -> sub_of t1 q -> sub_of t2 q ->
  nth_error (subs t1) k1 = Some c1 -> nth_error (subs t2) k2 = Some c2 -> skip c2 h -> t1 = t2 /\ k1 = k2.
Proof.
  assert (SS : forall a b, skip a b -> sub_of a q -> sub_of b q).
  { induction 1 as [|n x b body H IH Hu Hb]; auto. intros Ha. apply (let_sub _ _ _ _ Hu). auto. }
  assert (CH : forall t k c, sub_of t q -> nth_error (subs t) k = Some c -> sub_of c q).
  { intros t k c Ht Hk. eapply sub_of_trans; [eapply sub_child; eauto|auto]. }
  induction 1 as [|n x b body H IH Hu Hb]; intros Hh t1 k1 t2 k2 c2 K1 K2 S1 S2 E1 E2 Sk.
  - inversion Sk as [|n x b body Sk' Hu Hb]; subst; [eapply UP; eauto|]. exfalso.
    assert (Hn : sub_of n q) by (eapply SS; [eauto|eapply CH; [exact S2|eauto]]).
    destruct (let_parts _ _ _ _ Hu) as (Es & _). assert (En : nth_error (subs n) 1 = Some c1) by (rewrite Es; reflexivity).
    destruct (UP _ _ _ _ _ Hh S1 Hn E1 En) as [-> _]. rewrite (K1 _ _ _ Hu) in Hb. discriminate.
  - assert (Hn : sub_of n q) by (eapply SS; [eauto|eapply CH; [exact S1|eauto]]).
    destruct (let_parts _ _ _ _ Hu) as (Es & _). assert (En : nth_error (subs n) 1 = Some body) by (rewrite Es; reflexivity).
    inversion Sk as [|n' x' b' body' Sk' Hu' Hb']; subst.
    + destruct (UP _ _ _ _ _ Hh S2 Hn E2 En) as [-> _]. rewrite (K2 _ _ _ Hu) in Hb. discriminate.
    + assert (Hn' : sub_of n' q) by (eapply SS; [eauto|eapply CH; [exact S2|eauto]]).
      destruct (let_parts _ _ _ _ Hu') as (Es' & _). assert (En' : nth_error (subs n') 1 = Some body) by (rewrite Es'; reflexivity).
      destruct (UP _ _ _ _ _ Hh Hn Hn' En En') as [<- _]. eapply IH; eauto. eapply (has_sub_nonatom n b). rewrite Es. simpl; auto.
Qed.

(** Children that become atoms. *)
Lemma child_atom bd c : rch bd c -> is_atom (inl true bd c) = true ->
  inl true bd c = c \/
  exists n y b body, sub_of n q /\ unlet n = Some (y, b, body) /\ is_atom b = true /\ inl true bd c = b /\
    (symof c = Some (SV y) \/ (c = n /\ is_atom body = true)).
Proof.
  intros R Ha. pose proof (reach_sub _ _ _ _ R) as Hc. destruct (core _ _ R) as (bd' & h & R' & Sk & K & C).
  assert (Hh : is_atom h = true).
  { destruct C as [E|(n & y & b & body & _ & _ & _ & Hy & _)]; [|eapply symof_atom; eauto].
    rewrite E, atom_rebuild in Ha by apply map_length. exact Ha. }
  destruct (atom_spec _ Hh) as [Eh _].
  destruct (skip_atom _ _ Hc Sk Hh) as [->|(y & b & Hu & Hb & Hy)].
  - destruct C as [E|(n & y & b & body & Hn & Hu & Hb & Hy & E)].
    + left. rewrite E, Eh. simpl. rewrite <- Eh. apply rebuild_subs.
    + right. exists n, y, b, body. auto 10.
  - right. exists c, y, b, h. repeat (split; auto). rewrite inl_eq, Hu. unfold pred. rewrite Hb.
    destruct (symof_subs _ _ Hy) as (_ & _ & El). rewrite inl_eq, El, Hy. rewrite blook_cons, Nat.eqb_refl. eapply inl_bind; eauto.
Qed.

Lemma atoms_same bd1 bd2 t1 t2 k c1 c2 : keep t1 -> keep t2 -> sub_of t1 q -> sub_of t2 q -> rch bd1 c1 -> rch bd2 c2 ->
  nth_error (subs t1) k = Some c1 -> nth_error (subs t2) k = Some c2 -> inl true bd1 c1 = inl true bd2 c2 ->
  is_atom (inl true bd1 c1) = true -> c1 = c2.
Proof.
  intros K1 K2 S1 S2 R1 R2 E1 E2 HE Ha.
  assert (SUB : forall t k c, sub_of t q -> nth_error (subs t) k = Some c -> sub_of c q).
  { intros t k' c Ht Hk. eapply sub_of_trans; [eapply sub_child; eauto|auto]. }
  (* a variable renamed is not an argument elsewhere *)
  assert (X : forall t k c n y b body, keep t -> sub_of t q -> nth_error (subs t) k = Some c -> sub_of n q ->
     unlet n = Some (y, b, body) -> is_atom b = true -> c = b -> False).
  { intros t k' c n y b body K Ht Hk Hn Hu Hb ->. destruct (SR _ _ _ _ Hn Hu Hb) as ((x & Hx & _ & Ho & _) & _).
    destruct (Ho _ _ _ Ht Hk Hx) as [-> _]. rewrite (K _ _ _ Hu) in Hb. discriminate. }
  assert (Y : forall t k c n y b body, keep t -> sub_of t q -> nth_error (subs t) k = Some c -> sub_of n q ->
     unlet n = Some (y, b, body) -> is_atom b = true -> is_atom body = true -> symof c = Some (SV y) -> False).
  { intros t k' c n y b body K Ht Hk Hn Hu Hb Hbody Hy. destruct (sub_chain _ _ Ht) as (l & C).
    pose proof (var_below _ _ _ _ _ Hn Hu Hb Hy _ (chain_snoc _ _ _ _ _ C Hk)) as Hi.
    destruct (let_parts _ _ _ _ Hu) as (Es & _ & Ey & _).
    apply in_app_or in Hi as [Hi|[<-|[]]]; [|congruence]. apply (chain_nodes _ _ _ _ C) in Hi as [_ Hi].
    destruct (atom_spec _ Hb) as [Eb _]. destruct (atom_spec _ Hbody) as [Ebody _].
    inversion Hi as [|? c' ? Hcn Hs]; subst; [rewrite (K _ _ _ Hu) in Hb; discriminate|].
    rewrite Es in Hcn. destruct Hcn as [<-|[<-|[]]]; [apply (sub_leaf _ _ Eb) in Hs|apply (sub_leaf _ _ Ebody) in Hs]; subst t;
      [rewrite Eb in Hk|rewrite Ebody in Hk]; destruct k'; discriminate. }
  assert (Ha2 : is_atom (inl true bd2 c2) = true) by (rewrite <- HE; auto).
  destruct (child_atom _ _ R1 Ha) as [H1|(n1 & y1 & b1 & body1 & Hn1 & Hu1 & Hb1 & H1 & C1)],
    (child_atom _ _ R2 Ha2) as [H2|(n2 & y2 & b2 & body2 & Hn2 & Hu2 & Hb2 & H2 & C2)].
  - congruence.
  - exfalso. eapply (X t1 k c1 n2); eauto. congruence.
  - exfalso. eapply (X t2 k c2 n1); eauto. congruence.
  - assert (HB : b2 = b1) by congruence. clear H2. subst b2.
    destruct (SR _ _ _ _ Hn1 Hu1 Hb1) as ((x & Hx & _ & Ho & _) & _ & Hv).
    assert (n2 = n1) by (destruct (let_parts _ _ _ _ Hu2) as (Es & _); apply (Ho n2 0 b1); auto; rewrite Es; reflexivity). subst n2.
    rewrite Hu1 in Hu2. injection Hu2 as <- <-.
    destruct C1 as [C1|[-> C1]], C2 as [C2|[-> C2]]; auto.
    + apply Hv; auto; [apply (SUB t1 k)|apply (SUB t2 k)]; auto.
    + exfalso. eapply (Y t1 k c1); eauto.
    + exfalso. eapply (Y t2 k c2); eauto.
Qed.

Lemma rebuilt_inj t1 : forall bd1 bd2 t2, rch bd1 t1 -> rch bd2 t2 -> keep t1 -> keep t2 -> RB bd1 t1 = RB bd2 t2 -> t1 = t2.
Proof.
  induction t1 as [t1 IH] using tsize_ind. intros bd1 bd2 t2 R1 R2 K1 K2 HE.
  pose proof (reach_sub _ _ _ _ R1) as S1. pose proof (reach_sub _ _ _ _ R2) as S2.
  assert (EM : map (inl true bd1) (subs t1) = map (inl true bd2) (subs t2)).
  { rewrite <- (subs_rebuild t1 (map (inl true bd1) (subs t1))) by apply map_length. rewrite HE. apply subs_rebuild, map_length. }
  assert (RC1 : forall c, In c (subs t1) -> rch bd1 c) by (intros; eapply re_child; eauto).
  assert (RC2 : forall c, In c (subs t2) -> rch bd2 c) by (intros; eapply re_child; eauto).
  assert (EK : forall k c1, nth_error (subs t1) k = Some c1 -> exists c2, nth_error (subs t2) k = Some c2 /\ inl true bd1 c1 = inl true bd2 c2).
  { intros k c1 Hk. assert (H : nth_error (map (inl true bd1) (subs t1)) k = Some (inl true bd1 c1)) by (rewrite nth_error_map, Hk; reflexivity).
    rewrite EM, nth_error_map in H. destruct (nth_error (subs t2) k) as [c2|]; [|discriminate]. injection H as H. eauto. }
  destruct (forallb (fun c => is_atom (inl true bd1 c)) (subs t1)) eqn:EA.
  - rewrite forallb_forall in EA. apply (rebuild_inj _ _ _ _ (map_length _ _) (map_length _ _) HE).
    apply nth_all. intros k. destruct (nth_error (subs t1) k) as [c1|] eqn:E1.
    + destruct (EK _ _ E1) as (c2 & E2 & Hc). rewrite E2. f_equal.
      eapply (atoms_same bd1 bd2 t1 t2 k); eauto; [apply RC1|apply RC2|apply EA]; eapply nth_error_In; eauto.
    + symmetry. apply nth_error_None. apply nth_error_None in E1. apply (f_equal (@length T)) in EM. rewrite !map_length in EM. lia.
  - assert (HX : exists c1, In c1 (subs t1) /\ is_atom (inl true bd1 c1) = false).
    { clear - EA. induction (subs t1) as [|c l IH]; simpl in EA; [discriminate|]. destruct (is_atom (inl true bd1 c)) eqn:E.
      - destruct (IH EA) as (c1 & ? & ?). exists c1. simpl; auto.
      - exists c. simpl; auto. }
    destruct HX as (c1 & Hc1 & Ha). pose proof Hc1 as Hc1'. apply In_nth_error in Hc1' as [k E1]. destruct (EK _ _ E1) as (c2 & E2 & Hc).
    assert (NAC : forall bd c, rch bd c -> is_atom (inl true bd c) = false ->
       exists bd' h, rch bd' h /\ skip c h /\ keep h /\ inl true bd c = RB bd' h /\ is_atom h = false).
    { intros bd c R Hna. destruct (core _ _ R) as (bd' & h & R' & Sk & K & [E|(n & y & b & body & _ & _ & Hb & _ & E)]); [|congruence].
      exists bd', h. repeat (split; auto). rewrite E, atom_rebuild in Hna by apply map_length. exact Hna. }
    destruct (NAC _ _ (RC1 _ Hc1) Ha) as (bd1' & h1 & R1' & Sk1 & Kh1 & I1 & A1). rewrite Hc in Ha.
    destruct (NAC _ _ (RC2 _ (nth_error_In _ _ E2)) Ha) as (bd2' & h2 & R2' & Sk2 & Kh2 & I2 & A2).
    assert (Hsz : tsize h1 < tsize t1).
    { apply tsize_sub in Hc1. assert (forall a b, skip a b -> tsize b <= tsize a).
      { induction 1 as [|n x b body H IHs Hu Hb]; auto. destruct (let_parts _ _ _ _ Hu) as (_ & _ & _ & _ & ?). lia. }
      specialize (H _ _ Sk1). lia. }
    assert (h1 = h2) by (eapply (IH h1 Hsz bd1' bd2'); eauto; congruence). subst h2.
    eapply (skip_up c1 h1); eauto.
Qed.

Lemma renames_parents : unique_parents (inline true q).
Proof.
  intros n m1 m2 k1 k2 Hn S1 S2 E1 E2.
  assert (P : forall m k, sub_of m (inline true q) -> nth_error (subs m) k = Some n ->
     exists bd t c bd' h, rch bd t /\ keep t /\ m = RB bd t /\ nth_error (subs t) k = Some c /\ skip c h /\ keep h /\ rch bd' h /\ n = RB bd' h /\ is_atom h = false).
  { intros m k Sm Em. destruct (inline_origin _ _ _ Sm) as (bd & t & R & Hu & ->).
    rewrite subs_rebuild, nth_error_map in Em by apply map_length. destruct (nth_error (subs t) k) as [c|] eqn:Ec; [|discriminate]. injection Em as Em.
    assert (RC : rch bd c) by (eapply re_child; eauto; eapply nth_error_In; eauto).
    destruct (core _ _ RC) as (bd' & h & R' & Sk & K & [E|(n' & y & b & body & _ & _ & Hb & _ & E)]); [|congruence].
    exists bd, t, c, bd', h. repeat (split; auto); [congruence|]. rewrite <- Em, E, atom_rebuild in Hn by apply map_length. exact Hn. }
  destruct (P _ _ S1 E1) as (bd1 & t1 & c1 & bd1' & h1 & R1 & K1 & -> & C1 & Sk1 & Kh1 & R1' & N1 & A1).
  destruct (P _ _ S2 E2) as (bd2 & t2 & c2 & bd2' & h2 & R2 & K2 & -> & C2 & Sk2 & Kh2 & R2' & N2 & A2).
  assert (h1 = h2) by (eapply (rebuilt_inj h1 bd1' bd2'); eauto; congruence). subst h2.
  destruct (skip_up _ _ Sk1 A1 _ _ _ _ _ K1 K2 (reach_sub _ _ _ _ R1) (reach_sub _ _ _ _ R2) C1 C2 Sk2) as [<- <-].
  split; auto. f_equal. apply map_ext_in. intros c Hc. apply (reach_inl true q DB); eapply re_child; eauto.
Qed.

(** No free symbol is lost. *)
Lemma renames_stay t l : chain q t l -> (exists bd, rch bd t /\ sub_of (inl true bd t) (inline true q)) \/
  exists n y body, sub_of n q /\ unlet n = Some (y, t, body) /\ is_atom t = true.
Proof.
  assert (G : forall a, (exists bd, rch bd a /\ sub_of (inl true bd a) (inline true q)) \/
       (exists n y body, sub_of n q /\ unlet n = Some (y, a, body) /\ is_atom a = true) ->
     forall t l, chain a t l -> (exists bd, rch bd t /\ sub_of (inl true bd t) (inline true q)) \/
       exists n y body, sub_of n q /\ unlet n = Some (y, t, body) /\ is_atom t = true).
  { intros a Ha u l0 C. induction C as [a|a k c u l0 Hk C IH]; auto. apply IH. clear IH C.
    destruct Ha as [(bd & R & Hs)|(n & y & body & _ & _ & Hat)].
    - pose proof (nth_error_In _ _ Hk) as Hc. rewrite inl_eq in Hs. destruct (unlet a) as [[[x b] body]|] eqn:Eu.
      + destruct (let_parts _ _ _ _ Eu) as (Es & _). unfold pred in Hs. destruct (is_atom b) eqn:Eb.
        * rewrite Es in Hc. destruct Hc as [<-|[<-|[]]].
          -- right. exists a, x, body. split; auto. eapply reach_sub; eauto.
          -- left. exists ((x, inl true bd b) :: bd). split; auto. eapply re_body; eauto.
        * left. exists bd. split; [eapply re_child; eauto; intros; unfold pred; congruence|].
          eapply sub_of_trans; [|exact Hs]. eapply sub_step; [rewrite subs_rebuild by apply map_length; apply in_map; eauto|constructor].
      + assert (Hb : sub_of (RB bd a) (inline true q)).
        { destruct (symof a) as [[x|x]|] eqn:Ex; auto. destruct (symof_subs _ _ Ex) as (E0 & _). rewrite E0 in Hc. destruct Hc. }
        left. exists bd. split; [eapply re_child; eauto; congruence|].
        eapply sub_of_trans; [|exact Hb]. eapply sub_step; [rewrite subs_rebuild by apply map_length; apply in_map; eauto|constructor].
    - destruct (atom_spec _ Hat) as [E0 _]. rewrite E0 in Hk. destruct k; discriminate. }
  apply G. left. exists []. split; [constructor|]. constructor.
Qed.

Lemma renames_free s : isfree s q -> isfree s (inline true q).
Proof.
  intros Hf. destruct (isfree_occ _ _ Hf) as (m & Hm & Hs). destruct (sub_chain _ _ Hm) as (l & C).
  assert (NC : forall n, sub_of n q -> ~ In s (capt n)) by (intros n Hn Hc; apply (proj1 (DB n s Hn Hc)); auto).
  destruct (symof_subs _ _ Hs) as (Es & _ & El).
  assert (Hin : sub_of m (inline true q)).
  { destruct (renames_stay _ _ C) as [(bd & R & Hi)|(n & y & body & Hn & Hu & Ha)].
    - rewrite inl_eq, El, Hs in Hi.
      assert (E0 : RB bd m = m) by (rewrite Es; simpl; rewrite <- Es; apply rebuild_subs).
      destruct s as [x|x]; [|rewrite E0 in Hi; auto]. destruct (blook x bd) as [r|] eqn:Er; [|rewrite E0 in Hi; auto].
      destruct (reach_look _ _ _ _ _ _ R Er) as (bd' & n & b & body & R' & Hu & _). exfalso.
      apply (NC n (reach_sub _ _ _ _ R')). destruct (let_parts _ _ _ _ Hu) as (_ & -> & _). simpl; auto.
    - exfalso. destruct (SR _ _ _ _ Hn Hu Ha) as ((x & Hx & (n' & Hn' & Hc) & _) & _). apply (NC n' Hn'). congruence. }
  destruct (sub_chain _ _ Hin) as (l' & C'). eapply chain_free; [exact C'|constructor; auto|].
  intros n Hn _ Hc. destruct (chain_nodes _ _ _ _ C' Hn) as [Hnq _]. destruct (inline_origin _ _ _ Hnq) as (bd & t & R & _ & ->).
  rewrite capt_rebuild in Hc by apply map_length. apply (NC t); auto. eapply reach_sub; eauto.
Qed.
End Renames.

(** ** The programs between the passes *)
Section Lets.
Context {T : Type} {O : TermOps T} {L : TermLaws T}.
Context (p : T) (ins : @insertions T).
Hypothesis W : ins_wf p ins.
Hypothesis TR : ins_tree p ins.
Hypothesis NA : forall d x b, In (x, b) (ins_at ins d) -> is_atom b = false.

Lemma bind_nonatom bnd t l1 x b l2 : visit p ins bnd t -> ins_at ins t = l1 ++ (x, b) :: l2 -> is_atom (A ins (bnd_after bnd l1) b) = false.
Proof.
  intros V E. rewrite (A_eq p ins W TR), (bind_look p ins W TR _ _ _ _ _ _ V E).
  pose proof (NA _ _ _ (in_mid _ _ _ _ E)) as Hb.
  destruct (applied ins (bnd_after bnd l1) (ins_at ins b)) as [|[y c] l]; simpl; [|apply wrap_let_nonatom].
  unfold body. rewrite atom_rebuild by apply map_length. exact Hb.
Qed.

(** Where the lets of the new program come from. *)
Lemma new_unlet m y b body0 : sub_of m (apply_insertions p ins) -> unlet m = Some (y, b, body0) ->
  (exists bnd t b0 r, visit p ins bnd t /\ m = body ins bnd t /\ unlet t = Some (y, b0, r) /\
     b = A ins (bnd_after bnd (ins_at ins t)) b0) \/
  (is_atom b = false /\ exists d b', In (y, b') (ins_at ins d)).
Proof.
  intros Hm Hu. destruct (unlet_spec _ _ _ _ Hu) as (Hs & Hc & _ & Hy). rewrite apply_A in Hm.
  destruct (origins p ins W TR _ _ _ _ (le_n _) (v_root p ins) Hm) as [(x & b' & d & -> & _)|(bnd & t & V & [->|(l1 & x & b' & l2 & E & ->)])].
  - rewrite symof_wrap in Hy. discriminate.
  - left. destruct (unlet t) as [[[y' b0] r]|] eqn:Et.
    + destruct (unlet_spec _ _ _ _ Et) as (Hs' & Hc' & _). unfold body in Hs. rewrite subs_rebuild, Hs' in Hs by apply map_length.
      rewrite body_capt, Hc' in Hc. injection Hc as <-. injection Hs as Hb _. exists bnd, t, b0, r. auto.
    + exfalso. assert (unlet (body ins bnd t) = None) by (apply unlet_rebuild; [apply map_length|auto]). congruence.
  - right. unfold new_let in Hu. rewrite unlet_wrap in Hu. injection Hu as <- <- _. split; [eapply bind_nonatom; eauto|].
    exists t, b'. eapply in_mid; eauto.
Qed.

(** Where the symbols of the new program come from. *)
Lemma new_symof m s : sub_of m (apply_insertions p ins) -> symof m = Some s ->
  (sub_of m p /\ symof m = Some s) \/ exists d x b, In (x, b) (ins_at ins d) /\ s = SV x /\ m = wrap_var x b.
Proof.
  intros Hm Hs. rewrite apply_A in Hm.
  destruct (origins p ins W TR _ _ _ _ (le_n _) (v_root p ins) Hm) as [(x & b' & d & -> & Hi)|(bnd & t & V & [->|(l1 & x & b' & l2 & E & ->)])].
  - right. rewrite symof_wrap in Hs. injection Hs as <-. eauto 10.
  - left. unfold body in *. rewrite symof_rebuild in Hs by apply map_length. destruct (symof_subs _ _ Hs) as (Es & _).
    rewrite Es. simpl. rewrite <- Es, rebuild_subs. split; auto. eapply visit_sub; eauto.
  - unfold new_let in Hs. destruct (unlet_spec _ _ _ _ (unlet_wrap x (A ins (bnd_after bnd l1) b')
      (lets (applied ins ((b', wrap_var x b') :: bnd_after bnd l1) l2) (body ins bnd t)))) as (_ & _ & _ & E0). congruence.
Qed.
End Lets.

Section Total.
Context {T : Type} {O : TermOps T} {L : TermLaws T}.

Section Two.
Context (p1 : T) (ins1 ins2 : @insertions T).
Notation p2 := (apply_insertions p1 ins1).
Notation p3 := (apply_insertions p2 ins2).
Hypothesis NL : forall n, sub_of n p1 -> unlet n = None.
Hypothesis W1 : ins_wf p1 ins1.
Hypothesis TR1 : ins_tree p1 ins1.
Hypothesis NA1 : forall d x b, In (x, b) (ins_at ins1 d) -> is_atom b = false.
Hypothesis W2 : ins_wf p2 ins2.
Hypothesis TR2 : ins_tree p2 ins2.
Hypothesis NA2 : forall d x b, In (x, b) (ins_at ins2 d) -> is_atom b = false.
Hypothesis UP2 : unique_parents p2.

Lemma mid_let n y b body0 : sub_of n p2 -> unlet n = Some (y, b, body0) -> is_atom b = false /\ exists d b', In (y, b') (ins_at ins1 d).
Proof.
  intros Hn Hu. destruct (new_unlet p1 ins1 W1 TR1 NA1 _ _ _ _ Hn Hu) as [(bnd & t & b0 & r & V & _ & Et & _)|H]; auto.
  rewrite (NL t) in Et; [discriminate|]. eapply visit_sub; eauto.
Qed.

Lemma two_renames : single_renames p3.
Proof.
  intros n y b body0 Hn Hu Hb.
  destruct (new_unlet p2 ins2 W2 TR2 NA2 _ _ _ _ Hn Hu) as [(bnd & t & b0 & r & V & En & Et & Eb)|[H _]]; [|congruence].
  pose proof (visit_sub _ _ W2 TR2 _ _ V) as Ht. destruct (mid_let _ _ _ _ Ht Et) as (Hb0 & dy & by0 & Hy).
  destruct (unlet_spec _ _ _ _ Et) as (Es & Ec & _).
  assert (Ht0 : nth_error (subs t) 0 = Some b0) by (rewrite Es; reflexivity).
  assert (VC : visit p2 ins2 (bnd_after bnd (ins_at ins2 t)) b0) by (eapply v_child; eauto; eapply nth_error_In; eauto).
  destruct (A_cases p2 ins2 W2 TR2 _ _ VC) as [(x & d & E & Hx)|[_ E]].
  2:{ exfalso. rewrite Eb, E in Hb. unfold suf in Hb. destruct (applied ins2 (bnd_after (bnd_after bnd (ins_at ins2 t)) []) (ins_at ins2 b0)) as [|[z c] l]; simpl in Hb.
      - unfold body in Hb. rewrite atom_rebuild in Hb by apply map_length. congruence.
      - rewrite wrap_let_nonatom in Hb. discriminate. }
  split; [exists x; split; [rewrite Eb, E; apply symof_wrap|]; split; [|split]|split].
  - (* bound *)
    destruct (expanded p2 ins2 W2 TR2 _ d (le_n _) (it_site _ _ TR2 _ _ _ Hx)) as (bnd' & _ & Hs).
    pose proof Hx as Hx0. apply in_split in Hx0 as (l1 & l2 & El). unfold suf in Hs. rewrite El in Hs. simpl in Hs.
    clear - L Hs. revert Hs. generalize (body ins2 bnd' d). intros B. revert bnd'. induction l1 as [|[z c] l1 IH]; intros bnd' Hs; simpl in Hs.
    + eexists. split; [exact Hs|]. rewrite wrap_let_capt. simpl; auto.
    + eapply IH. eapply sub_of_trans; [|exact Hs]. eapply sub_step; [rewrite wrap_subs; simpl; right; left; reflexivity|constructor].
  - (* used once *)
    intros m k c Hm Hk Hc. rewrite apply_A in Hm. pose proof (origins p2 ins2 W2 TR2 _ _ _ _ (le_n _) (v_root p2 ins2) Hm) as OR.
    assert (AX : forall bd u, visit p2 ins2 bd u -> symof (A ins2 bd u) = Some (SV x) -> u = b0 /\ (look bd u = None -> False)).
    { intros bd u Vu Hs. destruct (A_cases p2 ins2 W2 TR2 _ _ Vu) as [(x' & d' & E' & Hx')|[_ E']].
      - rewrite E', symof_wrap in Hs. injection Hs as ->. destruct (ins_var p2 ins2 W2 _ _ _ _ _ Hx Hx') as [_ <-]. split; auto.
        intros El. rewrite (A_eq p2 ins2 W2 TR2), El in E'. eapply (suf_not_var p2 ins2 W2 TR2 bd b0 [] (ins_at ins2 b0)); eauto.
      - exfalso. rewrite E' in Hs. unfold suf in Hs. destruct (ins_at ins2 u) as [|[z e] l]; simpl in Hs.
        + unfold body in Hs. rewrite symof_rebuild in Hs by apply map_length.
          apply (proj2 (iw_fresh _ _ W2 _ _ _ u Hx (visit_sub _ _ W2 TR2 _ _ Vu)) Hs).
        + match type of Hs with symof (wrap_let ?a ?b ?c) = _ => destruct (unlet_spec _ _ _ _ (unlet_wrap a b c)) as (_ & _ & _ & E0) end. congruence. }
    destruct (origin_parts p2 ins2 _ _ _ OR Hk) as [(bnd' & t' & c0 & V' & Hc0 & -> & ->)|(bnd' & t' & l1 & z & e & l2 & V' & El & -> & [[-> ->]|[-> ->]])].
    + destruct (AX _ _ (v_child _ _ _ _ _ V' (nth_error_In _ _ Hc0)) Hc) as [-> _].
      destruct (UP2 _ _ _ _ _ Hb0 (visit_sub _ _ W2 TR2 _ _ V') Ht Hc0 Ht0) as [-> ->].
      split; auto. rewrite En. apply (expand_same p2 ins2 W2 TR2); auto.
    + exfalso. apply (AX _ _ (v_bind _ _ _ _ _ _ _ _ V' El) Hc). eapply (bind_look p2 ins2 W2 TR2); eauto.
    + exfalso. unfold suf in Hc. destruct l2 as [|[z' e'] l2]; simpl in Hc.
      * unfold body in Hc. rewrite symof_rebuild in Hc by apply map_length.
        apply (proj2 (iw_fresh _ _ W2 _ _ _ t' Hx (visit_sub _ _ W2 TR2 _ _ V')) Hc).
      * match type of Hc with symof (wrap_let ?a ?b ?c) = _ => destruct (unlet_spec _ _ _ _ (unlet_wrap a b c)) as (_ & _ & _ & E0) end. congruence.
  - (* not a rename itself *)
    intros n' b' body' Hn' Hu'. destruct (new_unlet p2 ins2 W2 TR2 NA2 _ _ _ _ Hn' Hu') as [(bd & u & b1 & r1 & Vu & _ & Eu & _)|[H _]]; auto.
    exfalso. destruct (unlet_spec _ _ _ _ Eu) as (_ & Ecu & _).
    apply (proj1 (iw_fresh _ _ W2 _ _ _ u Hx (visit_sub _ _ W2 TR2 _ _ Vu))). rewrite Ecu. simpl; auto.
  - exists (wrap_var y by0). split; [|apply symof_wrap]. destruct (symof_subs _ _ (symof_wrap y by0)) as (E0 & _).
    apply (leaf_stays p2 ins2 W2 TR2); auto. eapply (new_used p1 ins1 W1 TR1); eauto.
  - assert (Q : forall v, sub_of v p3 -> symof v = Some (SV y) -> v = wrap_var y by0).
    { intros v Hv Hs. destruct (new_symof p2 ins2 W2 TR2 _ _ Hv Hs) as [[Hv2 _]|(d' & x' & b' & Hi' & E' & _)].
      - destruct (new_symof p1 ins1 W1 TR1 _ _ Hv2 Hs) as [[Hv1 _]|(d' & x' & b' & Hi' & E' & ->)].
        + exfalso. apply (proj2 (iw_fresh _ _ W1 _ _ _ v Hy Hv1) Hs).
        + injection E' as <-. destruct (ins_var p1 ins1 W1 _ _ _ _ _ Hy Hi') as [_ <-]. reflexivity.
      - exfalso. injection E' as <-. apply (proj1 (iw_fresh _ _ W2 _ _ _ t Hi' Ht)). rewrite Ec. simpl; auto. }
    intros v v' Hv Hv' Hs Hs'. rewrite (Q v), (Q v'); auto.
Qed.
End Two.

Lemma same_symbols_iff a b : same_symbols a b = true <-> (forall s, In s a <-> In s b).
Proof.
  unfold same_symbols. rewrite andb_true_iff, !forallb_forall. split.
  - intros [H1 H2] s. split; intros Hs; [apply smem_In, H1|apply smem_In, H2]; auto.
  - intros H. split; intros s Hs; apply smem_In, H; auto.
Qed.

Lemma free_tfree (p : T) : distinct_binders p -> forall s, In s (tfree p) <-> isfree s p.
Proof.
  intros DB s. split; [apply tfree_isfree|]. apply isfree_tfree. apply unshadowed_hygienic, distinct_unshadowed, DB.
Qed.

(** lining.py:113-143: [outline] succeeds exactly if full inlining keeps the free symbols. *)
Lemma outline_total nxt p : tidy nxt p -> (forall s, isfree s p -> isfree s (inline false p)) ->
  exists q, outline nxt p = Ok q /\ forall s, isfree s q <-> isfree s p.
Proof.
  intros [DB AB] HF. unfold outline. rewrite inline_memo_eq by auto. set (p1 := inline false p) in *.
  assert (T1 : tidy nxt p1) by (split; [apply inline_distinct; auto|apply inline_above; auto]).
  assert (F1 : forall s, isfree s p1 <-> isfree s p) by (intros s; split; [apply inline_free|apply HF]).
  assert (FS : forall r, distinct_binders r -> (forall s, isfree s r <-> isfree s p) -> forall s, In s (tfree p) <-> isfree s r).
  { intros r _ Hr s. rewrite free_tfree by auto. symmetry. apply Hr. }
  assert (C1 : check (tfree p) p1 false = Ok tt).
  { unfold check. simpl. assert (E : same_symbols (tfree p) (tfree p1) = true); [|rewrite E; reflexivity].
    apply same_symbols_iff. intros s. rewrite !free_tfree by (auto; apply T1). symmetry. apply F1. }
  rewrite C1. simpl.
  pose proof (cse_tidy nxt p1 T1) as C. pose proof (cse_tree p1 nxt) as TR1. pose proof (cse_all p1 nxt) as CA. unfold insertions in *.
  destruct (bind_common_subexpressions (idom_of p1) nxt p1) as [ins1 nxt1]. simpl in TR1, CA. destruct CA as [NA1 ALL1].
  destruct C as (T2 & W1 & F2). pose proof (apply_parents p1 ins1 W1 TR1 ALL1) as UP2. pose proof (parents_tree _ UP2) as TP2.
  set (p2 := apply_insertions p1 ins1) in *.
  assert (G2 : forall s, isfree s p2 <-> isfree s p).
  { intros s. rewrite <- F1. split; [apply F2|]. apply apply_keeps_free; auto. apply T1. }
  rewrite (check_ok (tfree p) p2 true TP2 (proj1 T2)) by (apply FS; [apply T2|exact G2]). simpl.
  pose proof (licm_tidy nxt1 p2 T2 TP2) as C. pose proof (licm_tree p2 TP2 nxt1 (proj1 T2)) as TR2. pose proof (licm_nonatom p2 nxt1 TP2) as NA2.
  unfold insertions in *. destruct (loop_invariant_code_motion nxt1 p2) as [ins2 nxt2]. simpl in TR2, NA2. destruct C as (T3 & W2 & F3).
  assert (UP3 : unique_parents (apply_insertions p2 ins2)).
  { apply apply_parents; auto. intros c n1 k1 n2 k2 Hc S1 S2 E1 E2 Hne. exfalso. apply Hne.
    destruct (UP2 _ _ _ _ _ Hc S1 S2 E1 E2) as [-> ->]. reflexivity. }
  assert (SR : single_renames (apply_insertions p2 ins2)).
  { apply two_renames; auto. intros n Hn. eapply inline_nolet; eauto. }
  set (p3 := apply_insertions p2 ins2) in *.
  assert (G3 : forall s, isfree s p3 <-> isfree s p).
  { intros s. rewrite <- G2. split; [apply F3|]. apply apply_keeps_free; auto. apply T2. }
  rewrite (check_ok (tfree p) p3 true (parents_tree _ UP3) (proj1 T3)) by (apply FS; [apply T3|exact G3]). simpl.
  rewrite inline_memo_eq by apply T3.
  assert (UP4 : unique_parents (inline true p3)) by (apply renames_parents; auto; apply T3).
  assert (D4 : distinct_binders (inline true p3)) by (apply inline_distinct, T3).
  assert (G4 : forall s, isfree s (inline true p3) <-> isfree s p).
  { intros s. rewrite <- G3. split; [apply inline_free|]. apply renames_free; auto. apply T3. }
  rewrite (check_ok (tfree p) (inline true p3) true (parents_tree _ UP4) D4) by (apply FS; auto). simpl. eauto.
Qed.

Lemma outline_needs nxt p q : tidy nxt p -> outline nxt p = Ok q -> forall s, isfree s p -> isfree s (inline false p).
Proof.
  intros [DB AB] H s Hs. unfold outline in H. rewrite inline_memo_eq in H by auto. apply bind_ok in H as ([] & H & _).
  unfold check in H. simpl in H. apply guard_ok in H. rewrite same_symbols_iff in H.
  apply free_tfree; [apply inline_distinct; auto|]. apply H. apply free_tfree; auto.
Qed.
End Total.

(** ** Full inlining keeps the free symbols if every let is used *)
Section Used.
Context {T : Type} {O : TermOps T} {L : TermLaws T} (p : T).
Hypothesis DB : distinct_binders p.
Hypothesis USED : forall n x b body, sub_of n p -> unlet n = Some (x, b, body) -> exists v, sub_of v body /\ symof v = Some (SV x).

Lemma inl_used t : sub_of t p -> forall bd v s, sub_of v t -> symof v = Some s -> (forall n, sub_of n t -> ~ In s (capt n)) ->
  sub_of (inl false bd v) (inl false bd t).
Proof.
  induction t as [t IH] using tsize_ind. intros Ht bd v s Hv Hs Hn.
  destruct (teqb v t) eqn:Evt; [apply teqb_eq in Evt; subst; constructor|].
  rewrite (inl_eq _ _ t). destruct (unlet t) as [[[x b] body]|] eqn:Eu.
  - destruct (let_parts _ _ _ _ Eu) as (Es & Ec & Ey & Sb & Sbody). destruct (let_sub p _ _ _ _ Eu Ht) as [Hb Hbody]. unfold pred.
    assert (SB : sub_of b t) by (apply (sub_step b b t); [rewrite Es; simpl; auto|constructor]).
    assert (SY : sub_of body t) by (apply (sub_step body body t); [rewrite Es; simpl; auto|constructor]).
    assert (Hx : s <> SV x) by (intros ->; apply (Hn t (sub_refl _)); rewrite Ec; simpl; auto).
    assert (HC : sub_of v b \/ sub_of v body).
    { inversion Hv as [|? c ? Hc Hsv]; subst; [rewrite teqb_refl in Evt; discriminate|]. rewrite Es in Hc. destruct Hc as [<-|[<-|[]]]; auto. }
    destruct HC as [HC|HC].
    + destruct (USED _ _ _ _ Ht Eu) as (w & Hw & Hwx).
      eapply sub_of_trans; [eapply (IH b Sb Hb bd v s); eauto; intros n Hnb; apply Hn; eapply sub_of_trans; eauto|].
      pose proof (IH body Sbody Hbody ((x, inl false bd b) :: bd) w (SV x) Hw Hwx) as H1.
      rewrite (inl_eq _ _ w) in H1. destruct (symof_subs _ _ Hwx) as (_ & _ & Ew). rewrite Ew, Hwx, blook_cons, Nat.eqb_refl in H1. apply H1.
      intros n Hnb Hc. assert (Hnp : sub_of n p) by (eapply sub_of_trans; eauto).
      assert (n = t) by (apply (proj2 (DB t (SV x) Ht ltac:(rewrite Ec; simpl; auto))); auto). subst n.
      apply sub_of_size in Hnb as [<-|?]; lia.
    + pose proof (IH body Sbody Hbody ((x, inl false bd b) :: bd) v s HC Hs) as H1.
      assert (E : inl false ((x, inl false bd b) :: bd) v = inl false bd v).
      { apply inl_ext. intros z (m & Hm & Hz). destruct (symof_subs _ _ Hs) as (Ev & _). apply (sub_leaf _ _ Ev) in Hm. subst m.
        rewrite blook_cons. assert (z <> x) by congruence. destruct (z =? x) eqn:Ez; auto. apply Nat.eqb_eq in Ez. congruence. }
      rewrite E in H1. apply H1. intros n Hnb. apply Hn. eapply sub_of_trans; eauto.
  - inversion Hv as [|? c ? Hc Hsv]; subst; [rewrite teqb_refl in Evt; discriminate|].
    assert (Hct : sub_of c t) by (eapply sub_step; [eauto|constructor]).
    assert (H1 : sub_of (inl false bd v) (rebuild t (map (inl false bd) (subs t)))).
    { eapply sub_of_trans; [apply (IH c (tsize_sub _ _ Hc) (sub_of_trans _ _ _ Hct Ht) bd v s); auto; intros n Hnb; apply Hn; eapply sub_of_trans; eauto|].
      eapply sub_step; [rewrite subs_rebuild by apply map_length; apply in_map; exact Hc|constructor]. }
    destruct (symof t) as [[z|z]|] eqn:Ez; auto. destruct (symof_subs _ _ Ez) as (E0 & _). rewrite E0 in Hc. destruct Hc.
Qed.

Lemma inline_keeps_free s : isfree s p -> isfree s (inline false p).
Proof.
  intros Hf. destruct (isfree_occ _ _ Hf) as (m & Hm & Hs).
  assert (NC : forall n, sub_of n p -> ~ In s (capt n)) by (intros n Hn Hc; apply (proj1 (DB n s Hn Hc)); auto).
  pose proof (inl_used p (sub_refl _) [] m s Hm Hs NC) as Hin. destruct (symof_subs _ _ Hs) as (Es & _ & El).
  assert (E : inl false [] m = m).
  { rewrite inl_eq, El, Hs. destruct s as [x|x]; simpl; rewrite Es; simpl; rewrite <- Es; apply rebuild_subs. }
  rewrite E in Hin. change (inl false [] p) with (inline false p) in Hin.
  destruct (sub_chain _ _ Hin) as (l' & C'). eapply chain_free; [exact C'|constructor; auto|].
  intros n Hn _ Hc. destruct (chain_nodes _ _ _ _ C' Hn) as [Hnq _]. destruct (inline_origin _ _ _ Hnq) as (bd & t & R & _ & ->).
  rewrite capt_rebuild in Hc by apply map_length. apply (NC t); auto. eapply reach_sub; eauto.
Qed.
End Used.

Lemma inline_letfree {T} {O : TermOps T} {L : TermLaws T} (p : T) : (forall n, sub_of n p -> unlet n = None) -> inline false p = p.
Proof.
  intros NL. change (inl false [] p = p). revert NL. induction p as [t IH] using tsize_ind. intros NL.
  rewrite inl_eq, (NL t (sub_refl _)).
  assert (E : rebuild t (map (inl false []) (subs t)) = t).
  { replace (map (inl false []) (subs t)) with (subs t); [apply rebuild_subs|]. rewrite <- (map_id (subs t)) at 1.
    apply map_ext_in. intros c Hc. symmetry. apply IH; [apply tsize_sub; auto|]. intros n Hn. apply NL. eapply sub_step; eauto. }
  destruct (symof t) as [[z|z]|]; auto.
Qed.
