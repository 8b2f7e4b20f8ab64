(** Where let bindings are inserted: common subexpressions and loop-invariant
    code (ein/midend/lining.py:40-95), and the pipeline [outline] (113-143). *)
From Verif Require Import Base Sym Term Lining.

Section Outline.
Context {T : Type} {O : TermOps T} {L : TermLaws T}.

(** [insertions.setdefault(d, {})[x] = b] for a new variable [x] *)
Fixpoint add_ins (d : T) (x : nat) (b : T) (ins : @insertions T) : @insertions T :=
  match ins with
  | [] => [(d, [(x, b)])]
  | (d', l) :: r => if teqb d d' then (d', l ++ [(x, b)]) :: r else (d', l) :: add_ins d x b r
  end.

Definition tmem (t : T) (l : list T) : bool := existsb (teqb t) l.

(** ** Common subexpressions *)

(** lining.py:44-51 [build]: the set of visited nodes and the post-order. *)
Fixpoint cse_build (fuel : nat) (st : list T * list T) (t : T) : list T * list T :=
  match fuel with
  | 0 => st
  | S fuel =>
      let (nodes, order) := st in
      if tmem t nodes then st
      else
        let (nodes', order') := fold_left (cse_build fuel) (subs t) (t :: nodes, order) in
        (nodes', order' ++ [t])
  end.

(** lining.py:59: in-degree in the multigraph with an edge for each position
    of each node *)
Definition in_degree (nodes : list T) (t : T) : nat :=
  list_sum (map (fun n => length (filter (teqb t) (subs n))) nodes).

(** lining.py:57-63.  [idom] is the result of [networkx.immediate_dominators];
    [Variable()] is the next unused number. *)
Definition cse_step (idom : T -> T) (nodes : list T) (st : @insertions T * nat) (sub : T)
  : @insertions T * nat :=
  let (ins, nxt) := st in
  if (1 <? in_degree nodes sub) && negb (is_atom sub)
  then (add_ins (idom sub) nxt sub ins, S nxt)
  else st.

Definition cse_loop (idom : T -> T) (nodes order : list T) (nxt : nat) : @insertions T * nat :=
  fold_left (cse_step idom nodes) order ([], nxt).

Definition bind_common_subexpressions (idom : T -> T) (nxt : nat) (p : T) : @insertions T * nat :=
  let (nodes, order) := cse_build (tsize p) ([], []) p in
  cse_loop idom nodes order nxt.

(** ** Loop-invariant code motion *)

(** lining.py:79-84: the outermost site reached without crossing a binder of a
    free symbol; the stack is innermost first. *)
Fixpoint licm_site (fs : list sym) (binders : list (T * list sym)) (prev : option T) : option T :=
  match binders with
  | [] => prev
  | (site, bound) :: rest =>
      if existsb (fun s => smem s fs) bound then prev else licm_site fs rest (Some site)
  end.

Definition opt_teqb (a b : option T) : bool :=
  match a, b with
  | Some a, Some b => teqb a b
  | None, None => true
  | _, _ => false
  end.

(** lining.py:72-77 *)
Definition licm_binders (t : T) (binders : list (T * list sym)) : list (T * list sym) :=
  match (if is_loop t then (t, []) :: binders else binders) with
  | [] => []
  | (site, bound) :: rest => (site, bound ++ capt t) :: rest
  end.

(** lining.py:69-92 [visit] *)
Fixpoint licm_visit (fuel : nat) (binders : list (T * list sym)) (parent_site : option T)
  (st : @insertions T * nat) (t : T) : @insertions T * nat :=
  match fuel with
  | 0 => st
  | S fuel =>
      let prev_site := if is_atom t then None else licm_site (tfree t) binders None in
      let (ins, nxt) :=
        fold_left (licm_visit fuel (licm_binders t binders) prev_site) (subs t) st in
      match prev_site with
      | Some d => if opt_teqb prev_site parent_site then (ins, nxt) else (add_ins d nxt t ins, S nxt)
      | None => (ins, nxt)
      end
  end.

Definition loop_invariant_code_motion (nxt : nat) (p : T) : @insertions T * nat :=
  licm_visit (tsize p) [] None ([], nxt) p.

(** ** Properties *)

(** Insertions made so far: [P d b] holds of each, the variables are those
    numbered from [n0] below [n1], all distinct. *)
Record good_ins (P : T -> T -> Prop) (n0 n1 : nat) (ins : @insertions T) : Prop := {
  gi_P : forall d x b, In (x, b) (ins_at ins d) -> P d b /\ n0 <= x < n1;
  gi_uniq : forall d d' x b b', In (x, b) (ins_at ins d) -> In (x, b') (ins_at ins d') -> d = d';
  gi_nodup : forall d, NoDup (map fst (ins_at ins d))
}.

Lemma teqb_refl (t : T) : teqb t t = true.
Proof. apply teqb_eq. reflexivity. Qed.

Lemma ins_at_add d x b ins d' :
  ins_at (add_ins d x b ins) d' =
  if teqb d' d then ins_at ins d' ++ [(x, b)] else ins_at ins d'.
Proof.
  unfold ins_at. induction ins as [|[e l] r IH]; simpl.
  - destruct (teqb d' d); reflexivity.
  - destruct (teqb d e) eqn:E1; simpl.
    + apply teqb_eq in E1. subst e. destruct (teqb d' d) eqn:E2; auto.
    + destruct (teqb d' e) eqn:E2; auto.
      destruct (teqb d' d) eqn:E3; auto.
      apply teqb_eq in E2, E3. subst. rewrite teqb_refl in E1. discriminate.
Qed.

Lemma good_nil P n : good_ins P n n [].
Proof. constructor; simpl; intros; try contradiction. constructor. Qed.

Lemma good_add P n0 n1 ins d b :
  good_ins P n0 n1 ins -> P d b -> n0 <= n1 -> good_ins P n0 (S n1) (add_ins d n1 b ins).
Proof.
  intros [G1 G2 G3] HP Hn.
  assert (Hin : forall d' x b', In (x, b') (ins_at (add_ins d n1 b ins) d') ->
            In (x, b') (ins_at ins d') \/ (d' = d /\ x = n1 /\ b' = b)).
  { intros d' x b'. rewrite ins_at_add. destruct (teqb d' d) eqn:E; auto.
    rewrite in_app_iff. simpl. apply teqb_eq in E. intros [?|[H|[]]]; auto.
    right. injection H as <- <-. auto. }
  constructor.
  - intros d' x b' H. apply Hin in H as [H|(-> & -> & ->)].
    + apply G1 in H as [? ?]. split; auto. lia.
    + split; auto.
  - intros d1 d2 x b1 b2 H1 H2. apply Hin in H1, H2.
    destruct H1 as [H1|(-> & -> & ->)], H2 as [H2|(-> & H2 & _)]; eauto.
    + subst x. apply G1 in H1. lia.
    + apply G1 in H2. lia.
  - intros d'. rewrite ins_at_add. destruct (teqb d' d); auto.
    rewrite map_app. simpl.
    apply (NoDup_Add (a := n1) (l := map fst (ins_at ins d'))).
    + pose proof (Add_app n1 (map fst (ins_at ins d')) []) as HA.
      rewrite app_nil_r in HA. exact HA.
    + split; auto. intros H. apply in_map_iff in H as ([x b'] & Hx & H). simpl in Hx. subst.
      apply G1 in H. lia.
Qed.

(** Numbers from [nxt] on are unused in [p]. *)
Definition above (nxt : nat) (p : T) : Prop :=
  forall n x, sub_of n p -> (In (SV x) (capt n) \/ symof n = Some (SV x)) -> x < nxt.

Definition in_scope (p d b : T) : Prop :=
  sub_of d p -> sub_of b d /\ b <> d /\ (forall s, isfree s b -> isfree s d).

Lemma good_ins_wf p nxt n1 ins :
  good_ins (in_scope p) nxt n1 ins -> above nxt p -> ins_wf p ins.
Proof.
  intros [G1 G2 G3] Ha. constructor; auto.
  - intros d x b Hd Hi. apply G1 in Hi as [Hi _]. apply Hi; auto.
  - intros d x b n Hi Hn. apply G1 in Hi as [_ Hi]. split; intros H.
    + specialize (Ha n x Hn (or_introl H)). lia.
    + specialize (Ha n x Hn (or_intror H)). lia.
Qed.

(** *** LICM inserts only where the free symbols of the binding are free *)
Definition licm_inv (t : T) (binders : list (T * list sym)) : Prop :=
  forall inner site bound outer, binders = inner ++ (site, bound) :: outer ->
    sub_of t site /\ t <> site /\
    forall s, isfree s t -> ~ In s bound ->
      (forall e, In e inner -> ~ In s (snd e)) -> isfree s site.

Lemma licm_site_spec fs binders prev d :
  licm_site fs binders prev = Some d ->
  prev = Some d \/
  exists inner bound outer, binders = inner ++ (d, bound) :: outer /\
    (forall s, In s fs -> ~ In s bound) /\
    (forall e s, In e inner -> In s fs -> ~ In s (snd e)).
Proof.
  revert prev. induction binders as [|[site bound] rest IH]; simpl; intros prev H; auto.
  destruct (existsb (fun s => smem s fs) bound) eqn:E; auto.
  assert (Hb : forall s, In s fs -> ~ In s bound).
  { intros s Hs Hi. assert (existsb (fun s => smem s fs) bound = true); [|congruence].
    apply existsb_exists. exists s. split; auto. apply smem_In; auto. }
  right. destruct (IH _ H) as [Hd|(inner & bound' & outer & -> & H1 & H2)].
  - injection Hd as <-. exists [], bound, rest. repeat split; auto.
  - exists ((site, bound) :: inner), bound', outer. repeat split; auto.
    intros e s [<-|He] Hs; eauto.
Qed.

Lemma licm_inv_child t c k binders :
  nth_error (subs t) k = Some c -> licm_inv t binders -> licm_inv c (licm_binders t binders).
Proof.
  intros Hc Hinv inner site bound outer Heq.
  destruct (nth_error_scope _ _ _ Hc) as [sc Hsc].
  pose proof (sub_child _ _ _ Hc) as Hct.
  assert (Hne : c <> t).
  { intros ->. apply nth_error_In, tsize_sub in Hc. lia. }
  assert (Hfree : forall s, isfree s c -> ~ In s (capt t) -> isfree s t).
  { intros s Hs Hn. eapply free_sub; eauto. intros Hi. apply Hn. eapply scopes_capt; eauto.
    eapply nth_error_In; eauto. }
  assert (Hold : forall b inner0 site0 bound0 outer0, b = inner0 ++ (site0, bound0) :: outer0 ->
     b = binders -> sub_of c site0 /\ c <> site0 /\
     forall s, isfree s c -> ~ In s (capt t) -> ~ In s bound0 ->
       (forall e, In e inner0 -> ~ In s (snd e)) -> isfree s site0).
  { intros b inner0 site0 bound0 outer0 Hb ->. destruct (Hinv _ _ _ _ Hb) as (H1 & H2 & H3).
    split; [eapply sub_of_trans; eauto|]. split.
    - intros ->. apply H2. apply sub_of_antisym; auto.
    - intros s Hs Hcap Hb0 Hin. apply H3; auto. }
  unfold licm_binders in Heq. destruct (is_loop t).
  - destruct inner as [|e inner]; simpl in Heq;
      [injection Heq as <- <- <-|injection Heq as He Heq].
    + split; [auto|]. split; [auto|].
      intros s Hs Hn _. apply Hfree; auto.
    + subst e. destruct (Hold _ _ _ _ _ Heq eq_refl) as (H1 & H2 & H3).
      split; [auto|]. split; [auto|]. intros s Hs Hb Hin. apply H3; auto.
      * apply (Hin (t, capt t)). simpl; auto.
      * intros e He. apply Hin. simpl; auto.
  - destruct binders as [|[site0 bound0] rest]; [destruct inner; discriminate|].
    destruct inner as [|e inner]; simpl in Heq;
      [injection Heq as <- <- <-|injection Heq as He Heq].
    +
      destruct (Hold _ [] _ _ _ eq_refl eq_refl) as (H1 & H2 & H3).
      split; [auto|]. split; [auto|]. intros s Hs Hn _. rewrite in_app_iff in Hn. apply H3; auto.
    + subst e. rewrite Heq in Hold.
      destruct (Hold _ ((site0, bound0) :: inner) _ _ _ eq_refl eq_refl) as (H1 & H2 & H3).
      split; [auto|]. split; [auto|]. intros s Hs Hb Hin.
      specialize (Hin (site0, bound0 ++ capt t) (or_introl eq_refl)) as Hin0. simpl in Hin0.
      rewrite in_app_iff in Hin0. apply H3; auto.
      intros e [<-|He]; simpl; auto. apply Hin. simpl; auto.
Qed.

Lemma licm_visit_good p n0 fuel : forall t binders ps ins nxt,
  hygienic p -> sub_of t p -> licm_inv t binders -> n0 <= nxt ->
  good_ins (in_scope p) n0 nxt ins ->
  let (ins', nxt') := licm_visit fuel binders ps (ins, nxt) t in
  n0 <= nxt' /\ good_ins (in_scope p) n0 nxt' ins'.
Proof.
  induction fuel as [|fuel IH]; intros t binders ps ins nxt Hy Ht Hinv Hn Hg; simpl; auto.
  set (prev := if is_atom t then None else licm_site (tfree t) binders None).
  assert (Hfold : forall l ins nxt, incl l (subs t) -> n0 <= nxt -> good_ins (in_scope p) n0 nxt ins ->
     let (ins', nxt') := fold_left (licm_visit fuel (licm_binders t binders) prev) l (ins, nxt) in
     n0 <= nxt' /\ good_ins (in_scope p) n0 nxt' ins').
  { clear ins nxt Hn Hg. induction l as [|c l IHl]; intros ins nxt Hi Hn Hg; simpl; auto.
    assert (Hc : In c (subs t)) by (apply Hi; simpl; auto).
    apply In_nth_error in Hc as [k Hc].
    pose proof (IH c (licm_binders t binders) prev ins nxt Hy) as IHc.
    destruct (licm_visit fuel (licm_binders t binders) prev (ins, nxt) c) as [ins1 nxt1].
    destruct IHc as [H1 H2]; auto.
    - eapply sub_of_trans; [eapply sub_child; eauto|auto].
    - eapply licm_inv_child; eauto.
    - apply IHl; auto. intros y Hy'. apply Hi. simpl; auto. }
  specialize (Hfold (subs t) ins nxt (incl_refl _) Hn Hg).
  destruct (fold_left _ (subs t) (ins, nxt)) as [ins' nxt']. destruct Hfold as [H1 H2].
  destruct prev as [d|] eqn:Ep; auto.
  destruct (opt_teqb (Some d) ps); auto.
  split; [lia|]. apply good_add; auto.
  intros Hd. unfold prev in Ep. destruct (is_atom t); [discriminate|].
  apply licm_site_spec in Ep as [Ep|(inner & bound & outer & Hb & Hs1 & Hs2)]; [discriminate|].
  destruct (Hinv _ _ _ _ Hb) as (H3 & H4 & H5). split; [auto|]. split; [auto|].
  intros s Hs. assert (Hs' : In s (tfree t)).
  { apply isfree_tfree; [exact (hygienic_sub t p Ht Hy)|auto]. }
  apply H5; auto.
Qed.

Lemma licm_good p nxt : hygienic p ->
  let (ins, nxt') := loop_invariant_code_motion nxt p in
  nxt <= nxt' /\ good_ins (in_scope p) nxt nxt' ins.
Proof.
  intros Hy. unfold loop_invariant_code_motion.
  apply licm_visit_good; auto; [constructor| |apply good_nil].
  intros inner site bound outer E. destruct inner; discriminate.
Qed.

Lemma licm_wf p nxt : hygienic p -> above nxt p -> ins_wf p (fst (loop_invariant_code_motion nxt p)).
Proof.
  intros Hy Ha. pose proof (licm_good p nxt Hy) as H. unfold insertions in *.
  destruct (loop_invariant_code_motion nxt p) as [ins nxt']. eapply good_ins_wf; [apply H|auto].
Qed.

(** *** CSE inserts at the immediate dominator *)
Inductive chain : T -> T -> list T -> Prop :=
| ch_refl t : chain t t [t]
| ch_step t k c b l : nth_error (subs t) k = Some c -> chain c b l -> chain t b (t :: l).

Definition dominates (p d b : T) : Prop := forall l, chain p b l -> In d l.

(** Specification of [networkx.immediate_dominators] at a node other than the
    root. *)
Definition is_idom (p d b : T) : Prop :=
  d <> b /\ dominates p d b /\
  forall n, n <> b -> dominates p n b -> dominates p n d.

(** Every symbol is captured by at most one node, and never free in the whole
    term. *)
Definition distinct_binders (p : T) : Prop :=
  forall n s, sub_of n p -> In s (capt n) ->
    ~ isfree s p /\ forall n', sub_of n' p -> In s (capt n') -> n' = n.

Lemma chain_sub a b l : chain a b l -> sub_of b a.
Proof.
  induction 1; [constructor|]. eapply sub_of_trans; [eauto|]. eapply sub_child; eauto.
Qed.

Lemma chain_nodes a b l n : chain a b l -> In n l -> sub_of n a /\ sub_of b n.
Proof.
  induction 1 as [t|t k c b l Hk Hc IH]; intros Hi.
  - destruct Hi as [<-|[]]. split; constructor.
  - destruct Hi as [<-|Hi].
    + split; [constructor|]. eapply sub_of_trans; [eapply chain_sub; eauto|eapply sub_child; eauto].
    + destruct (IH Hi). split; auto. eapply sub_of_trans; [eauto|eapply sub_child; eauto].
Qed.

Lemma sub_chain a b : sub_of b a -> exists l, chain a b l.
Proof.
  induction 1 as [t|b c t Hc Hs (l & Hl)]; [eexists; constructor|].
  apply In_nth_error in Hc as [k Hk]. exists (t :: l). econstructor; eauto.
Qed.

Lemma chain_app a b c l l' : chain a b l -> chain b c l' -> exists l2, chain a c l2 /\
  forall n, In n l2 -> In n l \/ In n l'.
Proof.
  induction 1 as [t|t k c0 b l Hk Hc IH]; intros H.
  - exists l'. split; auto.
  - destruct (IH H) as (l2 & H2 & Hn). exists (t :: l2). split; [econstructor; eauto|].
    intros n [<-|Hi]; [left; simpl; auto|]. destruct (Hn _ Hi); [left; simpl|right]; auto.
Qed.

Lemma chain_split p b l d : chain p b l -> In d l ->
  exists l1 l2, chain p d l1 /\ chain d b l2 /\ (forall n, In n l1 -> In n l) /\ incl l2 l.
Proof.
  induction 1 as [t|t k c b l Hk Hc IH]; intros Hi.
  - destruct Hi as [<-|[]]. exists [t], [t].
    split; [constructor|]. split; [constructor|]. split; [auto|apply incl_refl].
  - destruct Hi as [<-|Hi].
    + exists [t], (t :: l). split; [|split; [|split]].
      * constructor.
      * econstructor; eauto.
      * intros n [<-|[]]. simpl; auto.
      * apply incl_refl.
    + destruct (IH Hi) as (l1 & l2 & H1 & H2 & H3 & H4). exists (t :: l1), l2. split; [|split; [auto|split]].
      * econstructor; eauto.
      * intros n [<-|Hn]; simpl; auto.
      * intros n Hn. simpl. right. apply H4; auto.
Qed.

(** Going up a chain a free symbol stays free until a node captures it. *)
Lemma chain_free a b l s :
  chain a b l -> isfree s b -> (forall n, In n l -> n <> b -> ~ In s (capt n)) -> isfree s a.
Proof.
  induction 1 as [t|t k c b l Hk Hc IH]; intros Hf Hn; auto.
  destruct (nth_error_scope _ _ _ Hk) as [sc Hsc].
  assert (Hcf : isfree s c) by (apply IH; auto; intros n Hi; apply Hn; simpl; auto).
  eapply free_sub; eauto. intros Hi. apply (Hn t); simpl; auto.
  - intros ->. apply chain_sub in Hc. apply sub_of_size in Hc.
    pose proof (tsize_sub _ _ (nth_error_In _ _ Hk)). destruct Hc; [subst|]; lia.
  - eapply scopes_capt; eauto. eapply nth_error_In; eauto.
Qed.

Lemma capt_dec s n : {In s (capt n)} + {~ In s (capt n)}.
Proof. apply in_dec, sym_eq_dec. Qed.

Lemma in_degree_two nodes b :
  1 < in_degree nodes b -> NoDup nodes ->
  forall n k, In n nodes -> nth_error (subs n) k = Some b ->
  exists n' k', In n' nodes /\ nth_error (subs n') k' = Some b /\ (n', k') <> (n, k).
Proof.
  intros Hd Hnd n k Hn Hk.
  assert (Hpos : forall l, 1 < length (filter (teqb b) l) -> forall k, nth_error l k = Some b ->
            exists k', nth_error l k' = Some b /\ k' <> k).
  { induction l as [|x l IHl]; simpl; intros Hl k0 Hk0; [lia|].
    destruct (teqb b x) eqn:E.
    - apply teqb_eq in E. subst x. simpl in Hl. destruct k0 as [|k0].
      + destruct (filter (teqb b) l) as [|y r] eqn:Ef; simpl in Hl; [lia|].
        assert (Hy : In y (filter (teqb b) l)) by (rewrite Ef; simpl; auto).
        apply filter_In in Hy as [Hy Hyb]. apply teqb_eq in Hyb. subst y.
        apply In_nth_error in Hy as [j Hj]. exists (S j). split; auto.
      + exists 0. split; auto.
    - destruct k0 as [|k0]; simpl in Hk0.
      + injection Hk0 as ->. rewrite teqb_refl in E. discriminate.
      + destruct (IHl Hl _ Hk0) as (k' & H1 & H2). exists (S k'). split; auto. }
  assert (Hcount : forall l, 0 < length (filter (teqb b) l) -> exists k', nth_error l k' = Some b).
  { intros l Hl. destruct (filter (teqb b) l) as [|y r] eqn:Ef; simpl in Hl; [lia|].
    assert (Hy : In y (filter (teqb b) l)) by (rewrite Ef; simpl; auto).
    apply filter_In in Hy as [Hy Hyb]. apply teqb_eq in Hyb. subst y.
    apply In_nth_error in Hy as [j Hj]. eauto. }
  destruct (Nat.lt_ge_cases 1 (length (filter (teqb b) (subs n)))) as [H2|H2].
  - destruct (Hpos _ H2 _ Hk) as (k' & Hk' & Hne). exists n, k'. repeat split; auto. congruence.
  - assert (Hother : exists n', In n' nodes /\ n' <> n /\ 0 < length (filter (teqb b) (subs n'))).
    { unfold in_degree in Hd. clear Hpos Hcount Hk. induction nodes as [|m r IHr]; [destruct Hn|].
      simpl in Hd. inversion Hnd; subst. destruct Hn as [->|Hn].
      - assert (0 < list_sum (map (fun n => length (filter (teqb b) (subs n))) r)) by lia.
        clear IHr Hd. assert (Hex : exists n', In n' r /\ 0 < length (filter (teqb b) (subs n'))).
        { clear H1 Hnd H3. induction r as [|m r IHr]; simpl in H; [lia|].
          destruct (Nat.eq_dec (length (filter (teqb b) (subs m))) 0).
          - destruct IHr as (n' & ? & ?); [lia|]. exists n'. simpl; auto.
          - exists m. simpl. split; auto. lia. }
        destruct Hex as (n' & Hn' & Hp). exists n'. simpl. repeat split; auto. intros ->. auto.
      - destruct (Nat.eq_dec (length (filter (teqb b) (subs m))) 0) as [Hz|Hz].
        + destruct IHr as (n' & ? & ? & ?); auto; [lia|]. exists n'. simpl; auto.
        + exists m. simpl. repeat split; auto; [|lia]. intros ->. auto. }
    destruct Hother as (n' & Hn' & Hne & Hp). destruct (Hcount _ Hp) as [k' Hk'].
    exists n', k'. repeat split; auto. congruence.
Qed.

(** The node just below [d] on a chain. *)
Lemma chain_next d b l : chain d b l -> d <> b ->
  exists k m l', nth_error (subs d) k = Some m /\ chain m b l' /\ l = d :: l'.
Proof. intros H Hne. inversion H; subst; [congruence|]. eauto 10. Qed.

Lemma chain_no_repeat d m b l k : nth_error (subs d) k = Some m -> chain m b l -> ~ In d l.
Proof.
  intros Hk Hc Hi. apply (chain_nodes _ _ _ _ Hc) in Hi as [Hi _].
  apply sub_of_size in Hi. pose proof (tsize_sub _ _ (nth_error_In _ _ Hk)).
  destruct Hi; [subst|]; lia.
Qed.

Lemma idom_in_scope p d b nodes :
  unshadowed p -> distinct_binders p -> sub_of b p ->
  (forall n, In n nodes <-> sub_of n p) -> NoDup nodes -> 1 < in_degree nodes b ->
  is_idom p d b -> in_scope p d b.
Proof.
  intros U DB Hb Hnodes Hnd Hdeg (Hne & Hdom & Himm) Hd.
  destruct (sub_chain _ _ Hb) as (l0 & Hl0).
  destruct (chain_split _ _ _ _ Hl0 (Hdom _ Hl0)) as (l1 & l2 & Hl1 & Hl2 & _ & _).
  assert (Hbd : sub_of b d) by (eapply chain_sub; eauto).
  split; auto. split; [congruence|]. intros s Hs.
  (* does some node between d and b capture s? *)
  assert (Hex : (exists n, In n l2 /\ n <> b /\ In s (capt n)) \/
                (forall n, In n l2 -> n <> b -> ~ In s (capt n))).
  { assert (Hdec : forall l, (exists n, In n l /\ n <> b /\ In s (capt n)) \/
                             (forall n, In n l -> n <> b -> ~ In s (capt n))).
    { induction l as [|n l [(m & H1 & H2 & H3)|IHl]].
      - right. intros n [].
      - left. exists m. simpl; auto.
      - destruct (teqb n b) eqn:Enb.
        + apply teqb_eq in Enb. subst. right. intros m [<-|Hm] Hmb; [congruence|auto].
        + destruct (capt_dec s n).
          * left. exists n. simpl. repeat split; auto. intros ->. rewrite teqb_refl in Enb. discriminate.
          * right. intros m [<-|Hm] Hmb; auto. }
    apply Hdec. }
  destruct Hex as [(n & Hn & Hnb & Hcap)|Hnone].
  2:{ eapply chain_free; eauto. }
  exfalso.
  destruct (chain_nodes _ _ _ _ Hl2 Hn) as [Hnd_ Hbn].
  assert (Hnp : sub_of n p) by (eapply sub_of_trans; eauto).
  destruct (DB n s Hnp Hcap) as [Hnotfree Huniq].
  (* n dominates b *)
  assert (Hdn : dominates p n b).
  { intros l Hl. destruct (existsb (teqb n) l) eqn:E.
    - apply existsb_exists in E as (m & Hm & E). apply teqb_eq in E. subst; auto.
    - exfalso. apply Hnotfree. eapply chain_free; eauto. intros m Hm Hmb Hc.
      assert (Hmp : sub_of m p) by (apply (chain_nodes _ _ _ _ Hl Hm)).
      rewrite (Huniq m Hmp Hc) in Hm.
      assert (existsb (teqb n) l = true); [|congruence].
      apply existsb_exists. exists n. split; auto. apply teqb_refl. }
  assert (Hnd' : dominates p n d) by (apply Himm; auto).
  assert (n = d).
  { apply sub_of_antisym; auto.
    specialize (Hnd' _ Hl1). apply (chain_nodes _ _ _ _ Hl1 Hnd'). }
  subst n.
  (* below d, s is free up to the child of d on any chain to b *)
  assert (Hbelow : forall k m l, nth_error (subs d) k = Some m -> chain m b l ->
            isfree s m /\ exists sc, nth_error (scopes d) k = Some sc /\ In s sc).
  { intros k m l Hk Hc. assert (Hf : isfree s m).
    { eapply chain_free; eauto. intros n' Hn' _ Hc'.
      assert (Hn'p : sub_of n' p).
      { eapply sub_of_trans; [apply (chain_nodes _ _ _ _ Hc Hn')|].
        eapply sub_of_trans; [eapply sub_child; eauto|auto]. }
      rewrite (Huniq n' Hn'p Hc') in Hn'. eapply chain_no_repeat; eauto. }
    split; auto. destruct (nth_error_scope _ _ _ Hk) as [sc Hsc]. exists sc. split; auto.
    eapply (unshadowed_hygienic p U d); eauto. }
  destruct (chain_next _ _ _ Hl2 Hne) as (k & m & l' & Hk & Hm & _).
  destruct (Hbelow _ _ _ Hk Hm) as (Hfm & sc & Hsc & Hinsc).
  assert (Hsame : forall k' m' l, nth_error (subs d) k' = Some m' -> chain m' b l -> k' = k /\ m' = m).
  { intros k' m' l Hk' Hc. destruct (Hbelow _ _ _ Hk' Hc) as (_ & sc' & Hsc' & Hin').
    assert (k' = k) by (eapply scope_single; eauto). subst. split; auto. congruence. }
  assert (Hmd : dominates p m b).
  { intros l Hl. destruct (chain_split _ _ _ _ Hl (Hdom _ Hl)) as (la & lb & Ha & Hb' & _ & Hi).
    destruct (chain_next _ _ _ Hb' Hne) as (k' & m' & l'' & Hk' & Hm' & ->).
    destruct (Hsame _ _ _ Hk' Hm') as [_ ->]. apply Hi. simpl. right.
    inversion Hm'; subst; simpl; auto. }
  destruct (teqb m b) eqn:Emb.
  - apply teqb_eq in Emb. subst m.
    destruct (in_degree_two nodes b Hdeg Hnd d k) as (n' & k' & Hn' & Hk' & Hneq); auto.
    { apply Hnodes; auto. }
    apply Hnodes in Hn'. destruct (sub_chain _ _ Hn') as (la & Hla).
    destruct (chain_app _ _ b _ _ Hla (ch_step n' k' b b [b] Hk' (ch_refl b))) as (lb & Hlb & Hlbn).
    specialize (Hdom _ Hlb). apply Hlbn in Hdom as [Hdom|[Hdom|[Hdom|[]]]]; [| |congruence].
    + destruct (chain_split _ _ _ _ Hla Hdom) as (lc & ld & _ & Hd' & _).
      destruct (teqb d n') eqn:Edn.
      * apply teqb_eq in Edn. subst n'. apply Hneq. f_equal.
        eapply Hsame; [exact Hk'|constructor].
      * assert (d <> n') by (intros ->; rewrite teqb_refl in Edn; discriminate).
        destruct (chain_next _ _ _ Hd' H) as (k2 & m2 & l2' & Hk2 & Hm2 & _).
        destruct (chain_app _ _ b _ _ Hm2 (ch_step n' k' b b [b] Hk' (ch_refl b))) as (le & Hle & _).
        destruct (Hsame _ _ _ Hk2 Hle) as [_ ->]. apply chain_sub in Hm2.
        apply sub_of_size in Hm2. pose proof (tsize_sub _ _ (nth_error_In _ _ Hk')).
        destruct Hm2; [subst|]; lia.
    + subst n'. apply Hneq. f_equal. eapply Hsame; [exact Hk'|constructor].
  - assert (Hmb : m <> b) by (intros ->; rewrite teqb_refl in Emb; discriminate).
    specialize (Himm m Hmb Hmd _ Hl1). apply (chain_nodes _ _ _ _ Hl1) in Himm as [_ Hdm].
    apply sub_of_size in Hdm. pose proof (tsize_sub _ _ (nth_error_In _ _ Hk)).
    destruct Hdm; [subst|]; lia.
Qed.

(** [build] visits exactly the subterms, each once. *)
Lemma tmem_In t l : tmem t l = true <-> In t l.
Proof.
  unfold tmem. rewrite existsb_exists. split.
  - intros (y & Hy & E). apply teqb_eq in E. subst; auto.
  - intros H. exists t. split; auto. apply teqb_refl.
Qed.

Definition closed_in (open nodes : list T) : Prop :=
  forall n c, In n nodes -> ~ In n open -> In c (subs n) -> In c nodes.

Lemma cse_build_spec fuel : forall t open nodes order,
  tsize t <= fuel -> NoDup nodes -> incl order nodes -> closed_in open nodes ->
  (forall o, In o open -> In o nodes /\ tsize t < tsize o) ->
  let (nodes', order') := cse_build fuel (nodes, order) t in
  NoDup nodes' /\ incl nodes nodes' /\ In t nodes' /\ closed_in open nodes' /\
  incl order' nodes' /\ (forall n, In n nodes' -> In n nodes \/ sub_of n t).
Proof.
  induction fuel as [|fuel IH]; intros t open nodes order Hf Hnd Hord Hcl Hop.
  { pose proof (tsize_pos t). lia. }
  simpl. destruct (tmem t nodes) eqn:Et.
  - apply tmem_In in Et. split; auto. split; [apply incl_refl|]. repeat split; auto.
  - assert (Hnt : ~ In t nodes) by (intros Hi; apply tmem_In in Hi; congruence).
    assert (Hfold : forall l nodes1 order1, incl l (subs t) -> NoDup nodes1 -> incl order1 nodes1 ->
      closed_in (t :: open) nodes1 -> In t nodes1 -> incl nodes nodes1 ->
      (forall n, In n nodes1 -> In n nodes \/ sub_of n t) ->
      let (nodes', order') := fold_left (cse_build fuel) l (nodes1, order1) in
      NoDup nodes' /\ incl nodes1 nodes' /\ closed_in (t :: open) nodes' /\ incl order' nodes' /\
      (forall c, In c l -> In c nodes') /\ (forall n, In n nodes' -> In n nodes \/ sub_of n t)).
    { induction l as [|c l IHl]; intros nodes1 order1 Hi Hnd1 Ho1 Hcl1 Ht1 Hin1 Hsub1; simpl.
      - repeat split; auto; [apply incl_refl|]. intros c [].
      - assert (Hc : In c (subs t)) by (apply Hi; simpl; auto).
        pose proof (tsize_sub _ _ Hc) as Hsz.
        pose proof (IH c (t :: open) nodes1 order1) as IHc.
        destruct (cse_build fuel (nodes1, order1) c) as [nodes2 order2].
        destruct IHc as (A1 & A2 & A3 & A4 & A5 & A6); auto; [lia| |].
        { intros o [<-|Ho]; [split; auto|]. destruct (Hop _ Ho). split; [auto|lia]. }
        specialize (IHl nodes2 order2).
        destruct (fold_left (cse_build fuel) l (nodes2, order2)) as [nodes3 order3].
        destruct IHl as (B1 & B2 & B3 & B4 & B5 & B6); auto.
        + intros y Hy. apply Hi. simpl; auto.
        + intros n Hn. apply A2, Hin1; auto.
        + intros n Hn. apply A6 in Hn as [Hn|Hn]; auto. right. eapply sub_step; eauto.
        + repeat split; auto.
          * intros n Hn. apply B2, A2; auto.
          * intros y [<-|Hy]; auto. }
    specialize (Hfold (subs t) (t :: nodes) order).
    destruct (fold_left (cse_build fuel) (subs t) (t :: nodes, order)) as [nodes' order'].
    destruct Hfold as (B1 & B2 & B3 & B4 & B5 & B6).
    + apply incl_refl.
    + constructor; auto.
    + intros n Hn. simpl. right. apply Hord; auto.
    + intros n c [<-|Hn] Ho Hc; [exfalso; apply Ho; simpl; auto|].
      simpl. right. eapply Hcl; eauto. intros Hi. apply Ho. simpl; auto.
    + simpl; auto.
    + intros n Hn. simpl; auto.
    + intros n [<-|Hn]; [right; constructor|auto].
    + split; auto. split; [intros n Hn; apply B2; simpl; auto|].
      split; [apply B2; simpl; auto|]. split; [|split; auto].
      * intros n c Hn Ho Hc. destruct (teqb n t) eqn:E.
        -- apply teqb_eq in E. subst n. apply B5; auto.
        -- eapply B3; eauto. intros [<-|Hi]; auto. rewrite teqb_refl in E. discriminate.
      * intros n Hn. apply in_app_or in Hn as [Hn|[<-|[]]]; auto. apply B2. simpl; auto.
Qed.

Lemma cse_build_nodes p nodes order :
  cse_build (tsize p) ([], []) p = (nodes, order) ->
  NoDup nodes /\ (forall n, In n nodes <-> sub_of n p) /\ incl order nodes.
Proof.
  intros H. pose proof (cse_build_spec (tsize p) p [] [] []) as HS. rewrite H in HS.
  destruct HS as (A1 & A2 & A3 & A4 & A5 & A6); auto.
  - constructor.
  - intros n [].
  - intros n c [].
  - intros o [].
  - split; auto. split; auto. intros n. split.
    + intros Hn. apply A6 in Hn as [[]|Hn]; auto.
    + assert (Hgen : forall t, sub_of n t -> In t nodes -> In n nodes).
      { induction 1 as [t|n c t Hc Hs IHs]; auto. intros Ht. apply IHs. eapply A4; eauto. }
      intros Hn. eapply Hgen; eauto.
Qed.

Lemma cse_good p nxt idom :
  unshadowed p -> distinct_binders p ->
  (forall b, sub_of b p -> b <> p -> is_idom p (idom b) b) ->
  let (ins, nxt') := bind_common_subexpressions idom nxt p in
  nxt <= nxt' /\ good_ins (in_scope p) nxt nxt' ins.
Proof.
  intros U DB Hidom. unfold bind_common_subexpressions.
  destruct (cse_build (tsize p) ([], []) p) as [nodes order] eqn:Eb.
  destruct (cse_build_nodes _ _ _ Eb) as (Hnd & Hnodes & Hord).
  assert (Hroot : in_degree nodes p = 0).
  { unfold in_degree. assert (H : forall l, incl l nodes ->
      list_sum (map (fun n => length (filter (teqb p) (subs n))) l) = 0).
    { induction l as [|n l IHl]; intros Hi; simpl; auto.
      rewrite IHl by (intros y Hy; apply Hi; simpl; auto).
      destruct (filter (teqb p) (subs n)) as [|y r] eqn:Ef; auto.
      assert (Hy : In y (filter (teqb p) (subs n))) by (rewrite Ef; simpl; auto).
      apply filter_In in Hy as [Hy Hyp]. apply teqb_eq in Hyp. subst y.
      assert (Hn : sub_of n p) by (apply Hnodes, Hi; simpl; auto).
      apply sub_of_size in Hn. apply tsize_sub in Hy. destruct Hn; [subst|]; lia. }
    apply H, incl_refl. }
  assert (Hloop : forall l ins n, incl l nodes -> nxt <= n -> good_ins (in_scope p) nxt n ins ->
     let (ins', n') := fold_left (cse_step idom nodes) l (ins, n) in nxt <= n' /\ good_ins (in_scope p) nxt n' ins').
  { induction l as [|b l IHl]; intros ins n Hi Hn Hg; simpl; auto.
    simpl. replace (cse_step idom nodes (ins, n) b) with
      (if (1 <? in_degree nodes b) && negb (is_atom b)
       then (add_ins (idom b) n b ins, S n) else (ins, n)) by reflexivity.
    destruct ((1 <? in_degree nodes b) && negb (is_atom b)) eqn:E.
    - apply andb_true_iff in E as [E _]. apply Nat.ltb_lt in E.
      apply IHl; [intros y Hy; apply Hi; simpl; auto|lia|].
      apply good_add; auto. apply (idom_in_scope p (idom b) b nodes); auto.
      + apply Hnodes, Hi. simpl; auto.
      + apply Hidom; [apply Hnodes, Hi; simpl; auto|]. intros ->. lia.
    - apply IHl; auto. intros y Hy. apply Hi; simpl; auto. }
  exact (Hloop order [] nxt Hord (le_n _) (good_nil _ _)).
Qed.

Lemma cse_wf p nxt idom :
  unshadowed p -> distinct_binders p -> above nxt p ->
  (forall b, sub_of b p -> b <> p -> is_idom p (idom b) b) ->
  ins_wf p (fst (bind_common_subexpressions idom nxt p)).
Proof.
  intros U DB Ha Hidom. pose proof (cse_good p nxt idom U DB Hidom) as H. unfold insertions in *.
  destruct (bind_common_subexpressions idom nxt p) as [ins nxt']. eapply good_ins_wf; [apply H|auto].
Qed.

End Outline.
