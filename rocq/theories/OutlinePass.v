(** ein/midend/lining.py:113-143 [outline]: the sequence of passes with the checks
    between them. *)
From Verif Require Import Base Sym Term Lining Outline Dominators InlineMemo Visits.

Section Pass.
Context {T : Type} {O : TermOps T} {L : TermLaws T}.

(** ** The code *)

(** lining.py:119-124 [visit] in [check]: a term seen before is an atom. *)
Fixpoint check_visit (fuel : nat) (seen : list T) (t : T) : res (list T) :=
  match fuel with
  | 0 => Ok seen
  | S fuel =>
      let* _ := guard (negb (tmem t seen) || is_atom t) EAssert in
      fold_left (fun r c => let* seen := r in check_visit fuel seen c) (subs t) (Ok (t :: seen))
  end.

(** lining.py:129 [free_symbols == prog.free_symbols], on sets *)
Definition same_symbols (a b : list sym) : bool :=
  forallb (fun s => smem s b) a && forallb (fun s => smem s a) b.

(** lining.py:116-131 [check] *)
Definition check (fs : list sym) (p : T) (tree : bool) : res unit :=
  let* _ := (if tree then check_visit (tsize p) [] p else Ok []) in
  guard (same_symbols fs (tfree p)) EAssert.

(** lining.py:113-143; [nxt] numbers the next variable *)
Definition outline (nxt : nat) (p : T) : res T :=
  let fs := tfree p in
  let p1 := inline_memo false p in
  let* _ := check fs p1 false in
  let (ins, nxt1) := bind_common_subexpressions (idom_of p1) nxt p1 in
  let p2 := apply_insertions p1 ins in
  let* _ := check fs p2 true in
  let (ins', nxt2) := loop_invariant_code_motion nxt1 p2 in
  let p3 := apply_insertions p2 ins' in
  let* _ := check fs p3 true in
  let p4 := inline_memo true p3 in
  let* _ := check fs p4 true in
  Ok p4.

Lemma list_eq_nil_dec_or {X} (l : list X) : l = [] \/ exists l1 x, l = l1 ++ [x].
Proof. induction l using rev_ind; eauto. Qed.

(** ** Insertions in the order of visits *)
Definition before (l : list T) (a b : T) : Prop := exists l1 l2 l3, l = l1 ++ a :: l2 ++ b :: l3.

Record visited_ins (Q : T -> T -> Prop) (done : list T) (ins : @insertions T) : Prop := {
  vi_Q : forall d x b, In (x, b) (ins_at ins d) -> Q d b /\ In b done;
  vi_order : forall d l1 x1 b1 l2 x2 b2, ins_at ins d = l1 ++ (x1, b1) :: l2 -> In (x2, b2) l2 -> before done b1 b2;
  vi_once : forall d d' x x' b, In (x, b) (ins_at ins d) -> In (x', b) (ins_at ins d') -> x = x'
}.

Lemma before_snoc l a b c : before l a b -> before (l ++ [c]) a b.
Proof.
  intros (l1 & l2 & l3 & ->). exists l1, l2, (l3 ++ [c]). rewrite <- !app_assoc. simpl. rewrite <- app_assoc. reflexivity.
Qed.

Lemma visited_nil Q : visited_ins Q [] [].
Proof. constructor; simpl; intros; try contradiction. destruct l1; discriminate. Qed.

Lemma visited_skip Q done ins b : visited_ins Q done ins -> visited_ins Q (done ++ [b]) ins.
Proof.
  intros [V1 V2 V3]. constructor; auto.
  - intros d x c H. destruct (V1 _ _ _ H). split; auto. apply in_or_app; auto.
  - intros. apply before_snoc. eauto.
Qed.

Lemma in_before l a b : In a l -> before (l ++ [b]) a b.
Proof. intros H. apply in_split in H as (l1 & l2 & ->). exists l1, l2, []. rewrite <- app_assoc. reflexivity. Qed.

Lemma visited_add Q done ins d x b : visited_ins Q done ins -> Q d b -> ~ In b done ->
  visited_ins Q (done ++ [b]) (add_ins d x b ins).
Proof.
  intros [V1 V2 V3] HQ Hb.
  assert (Hin : forall d' x' b', In (x', b') (ins_at (add_ins d x b ins) d') ->
            In (x', b') (ins_at ins d') \/ (d' = d /\ x' = x /\ b' = b)).
  { intros d' x' b'. rewrite ins_at_add. destruct (teqb d' d) eqn:E; auto.
    rewrite in_app_iff. simpl. apply teqb_eq in E. intros [?|[H|[]]]; auto.
    right. injection H as <- <-. auto. }
  constructor.
  - intros d' x' b' H. apply Hin in H as [H|(-> & -> & ->)].
    + destruct (V1 _ _ _ H). split; auto. apply in_or_app; auto.
    + split; auto. apply in_or_app; simpl; auto.
  - intros d' l1 x1 b1 l2 x2 b2 HE H2. rewrite ins_at_add in HE. destruct (teqb d' d) eqn:E.
    + destruct (list_eq_nil_dec_or l2) as [->|(l2' & z & ->)]; [destruct H2|].
      rewrite app_comm_cons, app_assoc in HE. apply app_inj_tail in HE as [HE <-].
      apply in_app_or in H2 as [H2|[H2|[]]].
      * apply before_snoc. eapply V2; eauto.
      * injection H2 as <- <-. apply in_before. eapply (V1 d' x1). rewrite HE. apply in_or_app. simpl; auto.
    + apply before_snoc. eapply V2; eauto.
  - intros d1 d2 y y' c H1 H2. apply Hin in H1, H2.
    destruct H1 as [H1|(-> & -> & ->)], H2 as [H2|(-> & -> & H2)]; eauto.
    + subst. destruct (V1 _ _ _ H1). contradiction.
    + destruct (V1 _ _ _ H2). contradiction.
Qed.

(** Subterms come first. *)
Definition subs_first (order : list T) : Prop :=
  forall l1 b l2, order = l1 ++ b :: l2 -> forall c, sub_of c b -> c <> b -> is_atom c = false -> In c l1.

Lemma before_not_sub order a b : NoDup order -> subs_first order -> is_atom b = false -> before order a b -> ~ sub_of b a.
Proof.
  intros ND SF Hb (l1 & l2 & l3 & E) Hs.
  destruct (teqb b a) eqn:Eb.
  - apply teqb_eq in Eb. subst b. rewrite E in ND. apply NoDup_remove_2 in ND. apply ND.
    apply in_or_app. right. apply in_or_app. simpl; auto.
  - assert (Hne : b <> a) by (intros ->; rewrite teqb_refl in Eb; discriminate).
    pose proof (SF _ _ _ E b Hs Hne Hb) as Hi.
    rewrite E, app_comm_cons, app_assoc in ND. apply NoDup_remove_2 in ND. apply ND.
    apply in_or_app. left. apply in_or_app. auto.
Qed.

(** ** Common subexpressions *)
Definition postorder_of (order : list T) : Prop :=
  forall l1 b l2, order = l1 ++ b :: l2 -> ~ In b l1 /\ forall c, In c (subs b) -> In c l1.

Lemma post_snoc order b : postorder_of order -> ~ In b order -> (forall c, In c (subs b) -> In c order) ->
  postorder_of (order ++ [b]).
Proof.
  intros P Hn Hc l1 b' l2 E. destruct (list_eq_nil_dec_or l2) as [->|(l2' & z & ->)].
  - apply app_inj_tail in E as [<- <-]. auto.
  - rewrite app_comm_cons, app_assoc in E. apply app_inj_tail in E as [E <-]. eapply P; eauto.
Qed.

Lemma post_sub order : postorder_of order -> forall c b, sub_of c b -> c <> b ->
  forall l1 l2, order = l1 ++ b :: l2 -> In c l1.
Proof.
  intros P. induction 1 as [t|c c' b Hc Hs IH]; intros Hne l1 l2 E; [congruence|].
  pose proof (proj2 (P _ _ _ E) _ Hc) as Hi. destruct (teqb c c') eqn:Ec; [apply teqb_eq in Ec; subst; auto|].
  apply in_split in Hi as (m1 & m2 & ->). apply in_or_app. left.
  eapply (IH ltac:(intros ->; rewrite teqb_refl in Ec; discriminate) m1 (m2 ++ b :: l2)).
  rewrite E, <- app_assoc. reflexivity.
Qed.

Lemma post_first order : postorder_of order -> subs_first order.
Proof. intros P l1 b l2 E c Hc Hne _. eapply post_sub; eauto. Qed.

Lemma post_nodup order : postorder_of order -> NoDup order.
Proof.
  induction order as [|b order IH] using rev_ind; intros P; [constructor|].
  assert (E : order ++ [b] = order ++ b :: []) by reflexivity.
  apply NoDup_rev in IH; [|].
  - rewrite <- (rev_involutive (order ++ [b])). apply NoDup_rev. rewrite rev_app_distr. simpl. constructor; auto.
    rewrite <- in_rev. apply (P _ _ _ E).
  - intros l1 c l2 E'. apply (P l1 c (l2 ++ [b])). rewrite E', <- app_assoc. reflexivity.
Qed.

Lemma cse_build_post fuel : forall t open nodes order,
  tsize t <= fuel -> incl order nodes -> (forall n, In n nodes -> In n order \/ In n open) ->
  (forall o, In o open -> In o nodes /\ tsize t < tsize o /\ ~ In o order) -> postorder_of order ->
  let (nodes', order') := cse_build fuel (nodes, order) t in
  In t nodes' /\ incl nodes nodes' /\ incl order order' /\ incl order' nodes' /\
  (forall n, In n nodes' -> In n order' \/ In n open) /\ (forall o, In o open -> ~ In o order') /\ postorder_of order'.
Proof.
  induction fuel as [|fuel IH]; intros t open nodes order Hf Hon Hno Hop HP; [pose proof (tsize_pos t); lia|].
  simpl. destruct (tmem t nodes) eqn:Et.
  - apply tmem_In in Et. repeat (split; [first [assumption|apply incl_refl]|]). split; auto. intros o Ho. apply Hop; auto.
  - assert (Hnt : ~ In t nodes) by (intros Hi; apply tmem_In in Hi; congruence).
    assert (Hfold : forall l nodes1 order1, incl l (subs t) -> incl order1 nodes1 ->
      (forall n, In n nodes1 -> In n order1 \/ In n (t :: open)) ->
      (forall o, In o (t :: open) -> In o nodes1 /\ ~ In o order1) -> postorder_of order1 ->
      let (nodes', order') := fold_left (cse_build fuel) l (nodes1, order1) in
      (forall c, In c l -> In c nodes') /\ incl nodes1 nodes' /\ incl order1 order' /\ incl order' nodes' /\
      (forall n, In n nodes' -> In n order' \/ In n (t :: open)) /\ (forall o, In o (t :: open) -> ~ In o order') /\
      postorder_of order').
    { induction l as [|c l IHl]; intros nodes1 order1 Hi H1 H2 H3 H4; simpl.
      - split; [intros c []|]. repeat (split; [first [assumption|apply incl_refl]|]). split; auto. intros o Ho. apply H3; auto.
      - assert (Hc : In c (subs t)) by (apply Hi; simpl; auto). pose proof (tsize_sub _ _ Hc) as Hsz.
        pose proof (IH c (t :: open) nodes1 order1) as IHc.
        destruct (cse_build fuel (nodes1, order1) c) as [nodes2 order2].
        destruct IHc as (A1 & A2 & A3 & A4 & A5 & A6 & A7); auto; [lia| |].
        { intros o Ho. destruct (H3 _ Ho). split; auto. split; auto. destruct Ho as [<-|Ho]; auto. apply Hop in Ho. lia. }
        specialize (IHl nodes2 order2). destruct (fold_left (cse_build fuel) l (nodes2, order2)) as [nodes3 order3].
        destruct IHl as (B1 & B2 & B3 & B4 & B5 & B6 & B7); auto.
        + intros y Hy. apply Hi. simpl; auto.
        + intros o Ho. split; auto. apply A2. apply H3; auto.
        + split; [intros y [<-|Hy]; auto|]. split; [eapply incl_tran; eauto|]. split; [eapply incl_tran; eauto|]. auto. }
    specialize (Hfold (subs t) (t :: nodes) order).
    destruct (fold_left (cse_build fuel) (subs t) (t :: nodes, order)) as [nodes' order'].
    destruct Hfold as (B1 & B2 & B3 & B4 & B5 & B6 & B7).
    + apply incl_refl.
    + intros n Hn. simpl. auto.
    + intros n [<-|Hn]; simpl; auto. destruct (Hno _ Hn); auto.
    + intros o [<-|Ho]; simpl; auto. destruct (Hop _ Ho) as (? & _ & ?). auto.
    + exact HP.
    + split; [apply B2; simpl; auto|]. split; [intros n Hn; apply B2; simpl; auto|].
      split; [intros n Hn; apply in_or_app; auto|].
      split; [intros n Hn; apply in_app_or in Hn as [Hn|[<-|[]]]; auto; apply B2; simpl; auto|].
      split; [|split].
      * intros n Hn. rewrite in_app_iff. simpl. destruct (B5 _ Hn) as [?|[?|?]]; auto.
      * intros o Ho Hi. apply in_app_or in Hi as [Hi|[<-|[]]]; [apply (B6 o); simpl; auto|].
        destruct (Hop _ Ho) as (_ & ? & _). lia.
      * apply post_snoc; auto; [apply B6; simpl; auto|]. intros c Hc.
        destruct (B5 _ (B1 _ Hc)) as [?|[E|Ho]]; auto; apply tsize_sub in Hc; [subst; lia|].
        destruct (Hop _ Ho) as (_ & ? & _). lia.
Qed.

Lemma cse_tree p nxt : ins_tree p (fst (bind_common_subexpressions (idom_of p) nxt p)).
Proof.
  unfold bind_common_subexpressions.
  destruct (cse_build (tsize p) ([], []) p) as [nodes order] eqn:Eb.
  destruct (cse_build_nodes _ _ _ Eb) as (Hnd & Hnodes & Hord).
  pose proof (cse_build_post (tsize p) p [] [] []) as HP. rewrite Eb in HP.
  destruct HP as (_ & _ & _ & _ & _ & _ & HP); auto.
  { intros n []. } { intros o []. } { intros [|? ?] ? ? ?; discriminate. }
  set (Q := fun d b => is_idom p d b /\ sub_of b p /\ is_atom b = false).
  assert (Hroot : forall n, In n nodes -> 1 < in_degree nodes n -> n <> p).
  { intros n Hn Hd ->.
    assert (Hpos : exists m, In m nodes /\ In p (subs m)).
    { unfold in_degree in Hd. clear - L Hd. induction nodes as [|m r IH]; simpl in Hd; [lia|].
      destruct (filter (teqb p) (subs m)) as [|y f] eqn:Ef.
      - destruct IH as (m' & ? & ?); [exact Hd|]. exists m'. simpl; auto.
      - exists m. simpl. split; auto.
        assert (Hy : In y (filter (teqb p) (subs m))) by (rewrite Ef; simpl; auto).
        apply filter_In in Hy as [Hy Hyp]. apply teqb_eq in Hyp. subst; auto. }
    destruct Hpos as (m & Hm & Hp). apply Hnodes in Hm. apply tsize_sub in Hp.
    apply sub_of_size in Hm as [->|?]; lia. }
  assert (Hloop : forall l done ins n, order = done ++ l -> visited_ins Q done ins ->
     visited_ins Q order (fst (fold_left (cse_step (idom_of p) nodes) l (ins, n)))).
  { induction l as [|b l IHl]; intros done ins n E V; simpl.
    - rewrite app_nil_r in E. subst. exact V.
    - replace (cse_step (idom_of p) nodes (ins, n) b) with
        (if (1 <? in_degree nodes b) && negb (is_atom b)
         then (add_ins (idom_of p b) n b ins, S n) else (ins, n)) by reflexivity.
      assert (E' : order = (done ++ [b]) ++ l) by (rewrite <- app_assoc; exact E).
      destruct ((1 <? in_degree nodes b) && negb (is_atom b)) eqn:Ec.
      + apply (IHl (done ++ [b])); auto. apply andb_true_iff in Ec as [Ec Ea].
        apply Nat.ltb_lt in Ec. apply negb_true_iff in Ea.
        assert (Hbn : In b nodes) by (apply Hord; rewrite E; apply in_or_app; simpl; auto).
        apply visited_add; auto.
        * split; [|split; auto; apply Hnodes; auto]. apply idom_of_spec; [apply Hnodes; auto|]. auto.
        * apply (HP _ _ _ E).
      + apply (IHl (done ++ [b])); auto. apply visited_skip; auto. }
  assert (V : visited_ins Q order (fst (cse_loop (idom_of p) nodes order nxt)))
    by exact (Hloop order [] [] nxt eq_refl (visited_nil _)).
  generalize dependent (fst (cse_loop (idom_of p) nodes order nxt)). intros ins [V1 V2 V3].
  assert (DS : forall d b, Q d b -> sub_of d p /\ sub_of b d).
  { intros d b ((Hne & Hdom & _) & Hb & _). destruct (sub_chain _ _ Hb) as (l & Hl).
    destruct (chain_nodes _ _ _ _ Hl (Hdom _ Hl)). auto. }
  constructor.
  - intros d x b Hi. apply V1 in Hi as [Hi _]. apply (DS _ _ Hi).
  - intros d x b Hi. apply V1 in Hi as [((_ & Hi & _) & _) _]. exact Hi.
  - intros d l1 x1 b1 l2 x2 b2 HE H2. eapply before_not_sub; [apply post_nodup|apply post_first| |]; eauto.
    assert (Hi : In (x2, b2) (ins_at ins d)) by (rewrite HE; apply in_or_app; simpl; auto).
    apply V1 in Hi as [(_ & _ & Hi) _]. exact Hi.
  - exact V3.
  - intros d0 x0 b0 d x b H0 H Hbb0 Hb0d Hne.
    apply V1 in H0 as [Q0 _], H as [Q1 _].
    destruct (DS _ _ Q0) as [D0 _]. destruct Q0 as ((Hne0 & Hdom0 & Himm0) & Hb0 & _), Q1 as ((_ & Hdom & _) & _ & _).
    assert (Hdd : dominates p d b0).
    { intros l Hl. destruct (sub_chain _ _ Hbb0) as (l2 & Hl2).
      destruct (chain_app _ _ _ _ _ Hl Hl2) as (l3 & Hl3 & Hin).
      destruct (Hin _ (Hdom _ Hl3)) as [?|Hi]; auto. exfalso. apply Hne.
      apply (chain_nodes _ _ _ _ Hl2) in Hi as [Hi _]. apply sub_of_antisym; auto. }
    destruct (sub_chain _ _ D0) as (l & Hl). apply (chain_nodes _ _ _ _ Hl). apply (Himm0 d); auto.
Qed.

(** ** Syntax trees *)

(** The terms that are not atoms, one for each position, subterms first. *)
Fixpoint nonatoms_go (fuel : nat) (t : T) : list T :=
  match fuel with
  | 0 => []
  | S fuel => flat_map (nonatoms_go fuel) (subs t) ++ (if is_atom t then [] else [t])
  end.
Definition nonatoms (t : T) : list T := nonatoms_go (tsize t) t.
Definition tree (t : T) : Prop := NoDup (nonatoms t).

Lemma flat_map_ext_in {X Y} (f g : X -> list Y) l : (forall x, In x l -> f x = g x) -> flat_map f l = flat_map g l.
Proof. induction l as [|x l IH]; intros H; simpl; auto. rewrite (H x), IH; simpl; auto. intros; apply H; simpl; auto. Qed.

Lemma nonatoms_fuel : forall n m t, tsize t <= n -> tsize t <= m -> nonatoms_go n t = nonatoms_go m t.
Proof.
  induction n as [|n IH]; intros m t Hn Hm; [pose proof (tsize_pos t); lia|].
  destruct m as [|m]; [pose proof (tsize_pos t); lia|]. simpl. f_equal. apply flat_map_ext_in. intros c Hc.
  apply tsize_sub in Hc. apply IH; lia.
Qed.

Lemma nonatoms_eq t : nonatoms t = flat_map nonatoms (subs t) ++ (if is_atom t then [] else [t]).
Proof.
  unfold nonatoms. destruct (tsize t) as [|n] eqn:E; [pose proof (tsize_pos t); lia|]. simpl. f_equal.
  apply flat_map_ext_in. intros c Hc. apply tsize_sub in Hc. apply nonatoms_fuel; lia.
Qed.

Lemma tsize_ind (P : T -> Prop) : (forall t, (forall c, tsize c < tsize t -> P c) -> P t) -> forall t, P t.
Proof.
  intros H t. remember (tsize t) as k eqn:Ek. revert t Ek. induction k as [k IH] using lt_wf_ind.
  intros t ->. apply H. intros c Hc. eapply IH; eauto.
Qed.

Lemma in_nonatoms b t : In b (nonatoms t) <-> sub_of b t /\ is_atom b = false.
Proof.
  induction t as [t IH] using tsize_ind. rewrite nonatoms_eq, in_app_iff, in_flat_map. split.
  - intros [(c & Hc & Hb)|Hb].
    + apply IH in Hb as [Hb Ha]; [|apply tsize_sub; auto]. split; auto. eapply sub_step; eauto.
    + destruct (is_atom t) eqn:E; [destruct Hb|destruct Hb as [<-|[]]]. split; auto. constructor.
  - intros [Hs Ha]. inversion Hs as [|? c ? Hc Hs']; subst; [right; rewrite Ha; simpl; auto|].
    left. exists c. split; auto. apply IH; [apply tsize_sub; auto|auto].
Qed.

Lemma flat_map_split {X Y} (f : X -> list Y) x l1 l2 : flat_map f (l1 ++ x :: l2) = flat_map f l1 ++ f x ++ flat_map f l2.
Proof. induction l1; simpl; auto. rewrite IHl1, app_assoc. reflexivity. Qed.

Lemma NoDup_app_l {X} (l1 l2 : list X) : NoDup (l1 ++ l2) -> NoDup l1.
Proof. induction l1; simpl; intros H; [constructor|]. inversion H; subst. constructor; auto. intros Hi. apply H2, in_or_app; auto. Qed.
Lemma NoDup_app_r {X} (l1 l2 : list X) : NoDup (l1 ++ l2) -> NoDup l2.
Proof. induction l1; simpl; intros H; auto. inversion H; auto. Qed.
Lemma NoDup_app_disj {X} (l1 l2 : list X) x : NoDup (l1 ++ l2) -> In x l1 -> ~ In x l2.
Proof.
  induction l1 as [|a l1 IH]; simpl; intros H Hi H2; [destruct Hi|]. inversion H; subst.
  destruct Hi as [->|Hi]; [apply H3, in_or_app; auto|]. eapply IH; eauto.
Qed.
Lemma NoDup_app_make {X} (l1 l2 : list X) : NoDup l1 -> NoDup l2 -> (forall x, In x l1 -> ~ In x l2) -> NoDup (l1 ++ l2).
Proof.
  induction l1; simpl; intros H1 H2 H; auto. inversion H1; subst. constructor.
  - rewrite in_app_iff. intros [?|?]; auto. eapply H; eauto.
  - apply IHl1; auto.
Qed.

Lemma tree_child t c : tree t -> In c (subs t) -> tree c.
Proof.
  unfold tree. rewrite (nonatoms_eq t). intros H Hc. apply NoDup_app_l in H. apply in_split in Hc as (l1 & l2 & E).
  rewrite E, flat_map_split in H. apply NoDup_app_r in H. apply NoDup_app_l in H. exact H.
Qed.

Lemma tree_sub t c : sub_of c t -> tree t -> tree c.
Proof. induction 1; auto. intros HT. apply IHsub_of. eapply tree_child; eauto. Qed.

Lemma flat_map_nth {X Y} (f : X -> list Y) l : NoDup (flat_map f l) -> forall k k' x x' y,
  nth_error l k = Some x -> nth_error l k' = Some x' -> In y (f x) -> In y (f x') -> k = k'.
Proof.
  induction l as [|a l IH]; simpl; intros H k k' x x' y Hk Hk' Hy Hy'; [destruct k; discriminate|].
  destruct k as [|k], k' as [|k']; simpl in *; auto.
  - injection Hk as ->. exfalso. eapply NoDup_app_disj; eauto. apply in_flat_map. exists x'. split; auto. eapply nth_error_In; eauto.
  - injection Hk' as ->. exfalso. eapply NoDup_app_disj; eauto. apply in_flat_map. exists x. split; auto. eapply nth_error_In; eauto.
  - f_equal. eapply IH; eauto. eapply NoDup_app_r; eauto.
Qed.

Lemma tree_positions t k k' c c' b : tree t -> nth_error (subs t) k = Some c -> nth_error (subs t) k' = Some c' ->
  sub_of b c -> sub_of b c' -> is_atom b = false -> k = k'.
Proof.
  unfold tree. rewrite nonatoms_eq. intros H Hk Hk' Hb Hb' Ha. apply NoDup_app_l in H.
  apply (flat_map_nth nonatoms _ H k k' c c' b); auto; apply in_nonatoms; auto.
Qed.

Lemma chain_unique t b l1 l2 : tree t -> is_atom b = false -> chain t b l1 -> chain t b l2 -> l1 = l2.
Proof.
  intros HT Ha H. revert l2. induction H as [t|t k c b l Hk Hc IH]; intros l2 H2.
  - inversion H2 as [|? k c ? l Hk Hc]; subst; auto. apply chain_sub in Hc. apply nth_error_In, tsize_sub in Hk.
    apply sub_of_size in Hc as [->|?]; lia.
  - inversion H2 as [|? k' c' ? l' Hk' Hc']; subst.
    + apply chain_sub in Hc. apply nth_error_In, tsize_sub in Hk. apply sub_of_size in Hc as [->|?]; lia.
    + assert (k' = k) by (eapply (tree_positions t k' k); eauto; eapply chain_sub; eauto). subst k'.
      rewrite Hk in Hk'. injection Hk' as <-. f_equal. apply IH; auto. eapply tree_child; eauto. eapply nth_error_In; eauto.
Qed.

Lemma nonatoms_first t : tree t -> subs_first (nonatoms t).
Proof.
  induction t as [t IH] using tsize_ind. intros HT l1 b l2 E c Hc Hne Ha. rewrite nonatoms_eq in E.
  assert (HF : forall l l1 l2, incl l (subs t) -> flat_map nonatoms l = l1 ++ b :: l2 -> In c l1).
  { induction l as [|a l IHl]; intros m1 m2 Hi HE; simpl in HE; [destruct m1; discriminate|].
    assert (Has : In a (subs t)) by (apply Hi; simpl; auto).
    apply app_eq_app in HE as (m & [[HE1 HE2]|[HE1 HE2]]).
    - destruct m as [|z m]; simpl in HE2.
      + rewrite app_nil_r in HE1. subst m1. assert (In c []); [|contradiction].
        apply (IHl [] m2); auto. intros y Hy. apply Hi; simpl; auto.
      + injection HE2 as -> HE2. eapply (IH a); eauto; [apply tsize_sub; auto|eapply tree_child; eauto].
    - subst m1. apply in_or_app. right. eapply IHl; eauto. intros y Hy. apply Hi; simpl; auto. }
  destruct (is_atom t) eqn:Et.
  - rewrite app_nil_r in E. eapply HF; eauto. apply incl_refl.
  - destruct (list_eq_nil_dec_or l2) as [->|(l2' & z & ->)].
    + apply app_inj_tail in E as [<- <-]. inversion Hc as [|? c' ? Hc' Hs]; subst; [congruence|].
      apply in_flat_map. exists c'. split; auto. apply in_nonatoms; auto.
    + rewrite app_comm_cons, app_assoc in E. apply app_inj_tail in E as [E _]. eapply HF; eauto. apply incl_refl.
Qed.

(** The check made by the code. *)
Lemma check_visit_spec fuel : forall seen t seen', tsize t <= fuel -> check_visit fuel seen t = Ok seen' ->
  tree t /\ (forall b, In b (nonatoms t) -> ~ In b seen) /\ (forall b, In b seen' <-> In b seen \/ sub_of b t).
Proof.
  induction fuel as [|fuel IH]; intros seen t seen' Hf H; [pose proof (tsize_pos t); lia|]. simpl in H.
  apply bind_ok in H as ([] & Hg & H). apply guard_ok in Hg.
  assert (HF : forall l seen seen', incl l (subs t) ->
    fold_left (fun r c => let* seen := r in check_visit fuel seen c) l (Ok seen) = Ok seen' ->
    NoDup (flat_map nonatoms l) /\ (forall b, In b (flat_map nonatoms l) -> ~ In b seen) /\
    (forall b, In b seen' <-> In b seen \/ exists c, In c l /\ sub_of b c)).
  { clear - L IH Hf. induction l as [|c l IHl]; intros seen seen' Hi H; simpl in *.
    - injection H as <-. split; [constructor|]. split; [intros b []|]. intros b. split; auto. intros [?|(c & [] & _)]; auto.
    - assert (Hc : In c (subs t)) by (apply Hi; simpl; auto). pose proof (tsize_sub _ _ Hc).
      destruct (check_visit fuel seen c) as [seen1|e] eqn:E1.
      2:{ assert (HE : forall l, fold_left (fun r c => let* seen := r in check_visit fuel seen c) l (Err e) = Err e)
            by (induction l0; simpl; auto). rewrite HE in H. discriminate. }
      destruct (IH seen c seen1 ltac:(lia) E1) as (A1 & A2 & A3).
      destruct (IHl seen1 seen') as (B1 & B2 & B3); auto; [intros y Hy; apply Hi; simpl; auto|].
      split; [|split].
      + apply NoDup_app_make; auto. intros b Hb Hb'. apply (B2 _ Hb'). apply A3. right. apply in_nonatoms; auto.
      + intros b Hb. apply in_app_or in Hb as [Hb|Hb]; auto. intros Hs. apply (B2 _ Hb). apply A3; auto.
      + intros b. rewrite B3, A3. split.
        * intros [[?|?]|(c' & ? & ?)]; [auto|right; exists c; auto|right; exists c'; auto].
        * intros [?|(c' & [<-|?] & ?)]; [auto|auto|right; exists c'; auto]. }
  destruct (HF _ _ _ (incl_refl _) H) as (A1 & A2 & A3). unfold tree. rewrite nonatoms_eq. split; [|split].
  - destruct (is_atom t) eqn:Ea; [rewrite app_nil_r; auto|]. apply NoDup_app_make; auto; [repeat constructor; auto|].
    intros b Hb [<-|[]]. apply (A2 _ Hb). simpl; auto.
  - intros b Hb. apply in_app_or in Hb as [Hb|Hb]; [intros Hs; apply (A2 _ Hb); simpl; auto|].
    destruct (is_atom t) eqn:Ea; [destruct Hb|destruct Hb as [<-|[]]]. rewrite orb_false_r in Hg. apply negb_true_iff in Hg.
    intros Hs. apply tmem_In in Hs. congruence.
  - intros b. rewrite A3. simpl. split.
    + intros [[->|?]|(c & Hc & Hs)]; auto; right; [constructor|]. eapply sub_step; eauto.
    + intros [?|Hs]; auto. inversion Hs as [|? c ? Hc Hs']; subst; auto. right. eauto.
Qed.

(** ** Loop-invariant code *)
Section Licm.
Context (p : T).
Hypothesis TP : tree p.

(** The enclosing loops, innermost first, with symbols captured between each and the next. *)
Fixpoint stack_ok (cur : T) (binders : list (T * list sym)) : Prop :=
  match binders with
  | [] => True
  | (site, bound) :: rest =>
      is_loop site = true /\ sub_of site p /\ sub_of cur site /\ cur <> site /\
      (forall s, In s bound -> exists n, In s (capt n) /\ sub_of n site /\ sub_of cur n /\ cur <> n) /\
      stack_ok site rest
  end.

Lemma proper_trans a b c : sub_of a b -> sub_of b c -> b <> c -> sub_of a c /\ a <> c.
Proof.
  intros H1 H2 Hn. split; [eapply sub_of_trans; eauto|]. intros ->. apply Hn. apply sub_of_antisym; auto.
Qed.

Lemma stack_mono c t binders : sub_of c t -> stack_ok t binders -> stack_ok c binders.
Proof.
  destruct binders as [|[site bound] rest]; simpl; auto. intros Hc (H1 & H2 & H3 & H4 & H5 & H6).
  destruct (proper_trans _ _ _ Hc H3 H4). repeat (split; auto).
  intros s Hs. destruct (H5 s Hs) as (n & N1 & N2 & N3 & N4). destruct (proper_trans _ _ _ Hc N3 N4). eauto 10.
Qed.

Lemma stack_child t c binders : sub_of t p -> In c (subs t) -> stack_ok t binders -> stack_ok c (licm_binders t binders).
Proof.
  intros Ht Hc H. assert (Hct : sub_of c t) by (eapply sub_step; [eauto|constructor]).
  assert (Hne : c <> t) by (intros ->; apply tsize_sub in Hc; lia).
  unfold licm_binders. destruct (is_loop t) eqn:El.
  - simpl. repeat (split; auto). intros s Hs. exists t. repeat (split; auto). constructor.
  - destruct binders as [|[site bound] rest]; [exact I|].
    pose proof (stack_mono _ _ _ Hct H) as (H1 & H2 & H3 & H4 & H5 & H6). destruct H as (_ & _ & G3 & G4 & _).
    simpl. repeat (split; auto). intros s Hs. apply in_app_or in Hs as [Hs|Hs]; auto. exists t. auto.
Qed.

Lemma stack_above cur binders d bd : stack_ok cur binders -> In (d, bd) binders -> sub_of cur d /\ cur <> d.
Proof.
  revert cur. induction binders as [|[site bound] rest IH]; intros cur H Hi; [destruct Hi|].
  destruct H as (_ & _ & H3 & H4 & _ & H6). destruct Hi as [E|Hi]; [injection E as -> ->; auto|].
  destruct (IH _ H6 Hi) as [H7 H8]. eapply proper_trans; eauto.
Qed.

Definition blocked (fs : list sym) (d d' : T) : Prop :=
  exists n s, In s fs /\ In s (capt n) /\ sub_of n d' /\ sub_of d n /\ d <> n.

Lemma site_max fs binders : forall cur prev d, stack_ok cur binders -> licm_site fs binders prev = Some d ->
  (prev = Some d /\ forall d' bd, In (d', bd) binders -> blocked fs cur d') \/
  ((exists bd, In (d, bd) binders) /\ is_loop d = true /\ sub_of d p /\ sub_of cur d /\ cur <> d /\
   forall d' bd, In (d', bd) binders -> sub_of d d' -> d <> d' -> blocked fs d d').
Proof.
  induction binders as [|[site bound] rest IH]; intros cur prev d H E.
  - left. split; auto. intros d' bd [].
  - simpl in E. pose proof H as (H1 & H2 & H3 & H4 & H5 & H6).
    destruct (existsb (fun s => smem s fs) bound) eqn:Eb.
    + left. split; auto. apply existsb_exists in Eb as (s & Hs & Hf). apply smem_In in Hf.
      destruct (H5 s Hs) as (n & N1 & N2 & N3 & N4). intros d' bd Hi. exists n, s. repeat (split; auto).
      destruct Hi as [Hi|Hi]; [injection Hi as <- <-; auto|]. destruct (stack_above _ _ _ _ H6 Hi). eapply sub_of_trans; eauto.
    + right. destruct (IH _ _ _ H6 E) as [[Ed Hb]|((bd0 & Hi0) & L1 & L2 & L3 & L4 & L5)].
      * injection Ed as <-. split; [exists bound; simpl; auto|]. repeat (split; auto).
        intros d' bd [Hi|Hi] Hs Hn; [injection Hi as <- <-; congruence|eauto].
      * split; [exists bd0; simpl; auto|]. repeat (split; auto); try (destruct (proper_trans _ _ _ H3 L3 L4); auto).
        intros d' bd [Hi|Hi] Hs Hn; [|eauto]. injection Hi as <- <-. exfalso. apply Hn. apply sub_of_antisym; auto.
Qed.

(** What is recorded about a binding [b] moved to [d]. *)
Definition moved (d b : T) : Prop :=
  is_loop d = true /\ sub_of d p /\ sub_of b d /\ b <> d /\ is_atom b = false /\
  forall d', is_loop d' = true -> sub_of d' p -> sub_of d d' -> d <> d' -> blocked (tfree b) d d'.

Lemma chain_through a b c l l' : chain a b l -> chain b c l' -> exists l2, chain a c l2 /\ In b l2.
Proof.
  induction 1 as [t|t k c0 b l Hk Hc IH]; intros H.
  - exists l'. split; auto. eapply chain_root; eauto.
  - destruct (IH H) as (l2 & H2 & Hn). exists (t :: l2). split; [econstructor; eauto|simpl; auto].
Qed.

Lemma chain_snoc a t l k c : chain a t l -> nth_error (subs t) k = Some c -> chain a c (l ++ [c]).
Proof. induction 1; intros Hk; simpl; [econstructor; eauto; constructor|econstructor; eauto]. Qed.

Lemma licm_visit_tree fuel : forall t binders ps ins nxt done lp,
  tsize t <= fuel -> chain p t lp -> stack_ok t binders ->
  (forall n, In n lp -> n <> t -> is_loop n = true -> exists bd, In (n, bd) binders) ->
  NoDup (done ++ nonatoms t) -> visited_ins moved done ins ->
  visited_ins moved (done ++ nonatoms t) (fst (licm_visit fuel binders ps (ins, nxt) t)).
Proof.
  induction fuel as [|fuel IH]; intros t binders ps ins nxt done lp Hf Hlp Hst Hloops ND V; [pose proof (tsize_pos t); lia|].
  simpl. set (prev := if is_atom t then None else licm_site (tfree t) binders None).
  pose proof (chain_sub _ _ _ Hlp) as Htp.
  assert (HF : forall l done ins nxt, incl l (subs t) -> NoDup (done ++ flat_map nonatoms l) -> visited_ins moved done ins ->
     visited_ins moved (done ++ flat_map nonatoms l) (fst (fold_left (licm_visit fuel (licm_binders t binders) prev) l (ins, nxt)))).
  { clear ins nxt done ND V. induction l as [|c l IHl]; intros done ins nxt Hi ND V; simpl; [rewrite app_nil_r; auto|].
    assert (Hc : In c (subs t)) by (apply Hi; simpl; auto). pose proof (tsize_sub _ _ Hc).
    simpl in ND. rewrite app_assoc in ND |- *.
    pose proof Hc as Hc0. apply In_nth_error in Hc0 as [k Hk].
    pose proof (IH c (licm_binders t binders) prev ins nxt done (lp ++ [c]) ltac:(lia) (chain_snoc _ _ _ _ _ Hlp Hk)
      (stack_child _ _ _ Htp Hc Hst)) as IHc.
    destruct (licm_visit fuel (licm_binders t binders) prev (ins, nxt) c) as [ins1 nxt1]. simpl in IHc.
    apply IHl; auto; [intros y Hy; apply Hi; simpl; auto|]. apply IHc; auto; [|eapply NoDup_app_l; eauto].
    intros n Hn Hnc Hl. apply in_app_or in Hn as [Hn|[<-|[]]]; [|congruence].
    unfold licm_binders. destruct (teqb n t) eqn:En.
    - apply teqb_eq in En. subst n. rewrite Hl. eexists. simpl. auto.
    - assert (Hnt : n <> t) by (intros ->; rewrite teqb_refl in En; discriminate).
      destruct (Hloops n Hn Hnt Hl) as (bd & Hb). destruct (is_loop t); [exists bd; simpl; auto|].
      destruct binders as [|[site bound] rest]; [destruct Hb|]. destruct Hb as [E|Hb].
      + injection E as -> ->. eexists. simpl. auto.
      + exists bd. simpl. auto. }
  rewrite nonatoms_eq in ND |- *. rewrite app_assoc in ND |- *.
  specialize (HF (subs t) done ins nxt (incl_refl _) (NoDup_app_l _ _ ND) V).
  destruct (fold_left _ (subs t) (ins, nxt)) as [ins' nxt']. simpl in HF.
  destruct prev as [d|] eqn:Ep.
  - unfold prev in Ep. destruct (is_atom t) eqn:Ea; [discriminate|].
    destruct (opt_teqb (Some d) ps); simpl; [apply visited_skip; auto|].
    apply visited_add; auto.
    + destruct (site_max _ _ _ _ _ Hst Ep) as [[E _]|(_ & M1 & M2 & M3 & M4 & M5)]; [discriminate|].
      unfold moved. repeat (split; auto). intros d' L1 L2 L3 L4.
      destruct (sub_chain _ _ L2) as (la & Hla).
      destruct (sub_chain d' t (sub_of_trans _ _ _ M3 L3)) as (lb & Hlb).
      destruct (chain_through _ _ _ _ _ Hla Hlb) as (lc & Hlc & Hin).
      rewrite (chain_unique p t lc lp TP Ea Hlc Hlp) in Hin.
      destruct (Hloops d' Hin) as (bd & Hb); [|auto|eauto].
      intros ->. apply M4. apply sub_of_antisym; auto.
    + intros Hi. eapply NoDup_app_disj; eauto. simpl; auto.
  - destruct (is_atom t); simpl; [rewrite app_nil_r; auto|apply visited_skip; auto].
Qed.

Lemma licm_tree nxt : distinct_binders p -> ins_tree p (fst (loop_invariant_code_motion nxt p)).
Proof.
  intros DB. pose proof (distinct_unshadowed _ DB) as U. pose proof (unshadowed_hygienic _ U) as Hy.
  pose proof (licm_good p nxt Hy) as G. unfold loop_invariant_code_motion in *.
  pose proof (licm_visit_tree (tsize p) p [] None [] nxt [] [p] (le_n _) (ch_refl p) I) as V.
  unfold insertions in *. destruct (licm_visit (tsize p) [] None ([], nxt) p) as [ins nxt']. simpl in V. destruct G as [_ G].
  destruct V as [V1 V2 V3]; auto.
  { intros n [<-|[]] Hn. congruence. }
  { apply visited_nil. }
  assert (DM : forall d b, moved d b -> dominates p d b).
  { intros d b (M1 & M2 & M3 & M4 & M5 & _) l Hl. destruct (sub_chain _ _ M2) as (la & Hla), (sub_chain _ _ M3) as (lb & Hlb).
    destruct (chain_through _ _ _ _ _ Hla Hlb) as (lc & Hlc & Hin). rewrite (chain_unique p b l lc TP M5 Hl Hlc). auto. }
  simpl. constructor.
  - intros d x b Hi. apply V1 in Hi as [(_ & Hi & _) _]. exact Hi.
  - intros d x b Hi. apply V1 in Hi as [Hi _]. auto.
  - intros d l1 x1 b1 l2 x2 b2 HE H2. eapply before_not_sub; [exact TP|apply nonatoms_first; auto| |]; eauto.
    assert (Hi : In (x2, b2) (ins_at ins d)) by (rewrite HE; apply in_or_app; simpl; auto).
    apply V1 in Hi as [(_ & _ & _ & _ & Hi & _) _]. exact Hi.
  - exact V3.
  - intros d0 x0 b0 d x b H0 H Hbb0 Hb0d Hne.
    destruct (gi_P _ _ _ _ G _ _ _ H0) as [S0 _].
    apply V1 in H0 as [M0 _], H as [M _].
    assert (D0 : dominates p d0 b0) by auto.
    destruct M0 as (A1 & A2 & A3 & A4 & A5 & _), M as (B1 & B2 & B3 & B4 & B5 & B6).
    (* d0 is above or below d *)
    destruct (sub_chain _ _ B2) as (la & Hla), (sub_chain _ _ Hb0d) as (lb & Hlb).
    destruct (chain_app _ _ _ _ _ Hla Hlb) as (lc & Hlc & Hin).
    destruct (Hin _ (D0 _ Hlc)) as [Hi|Hi]; [|apply (chain_nodes _ _ _ _ Hlb Hi)].
    apply (chain_nodes _ _ _ _ Hla) in Hi as [_ Hdd].
    destruct (teqb d d0) eqn:Ed; [apply teqb_eq in Ed; subst; constructor|].
    assert (Hdn : d <> d0) by (intros ->; rewrite teqb_refl in Ed; discriminate). exfalso.
    destruct (B6 d0 A1 A2 Hdd Hdn) as (n & s & F1 & F2 & F3 & F4 & F5). apply tfree_isfree in F1.
    destruct (sub_chain _ _ Hbb0) as (ld & Hld).
    assert (Hdec : (exists m, In m ld /\ In s (capt m)) \/ forall m, In m ld -> ~ In s (capt m)).
    { clear. induction ld as [|m l [(m' & ? & ?)|IHl]]; [right; intros m []|left; exists m'; simpl; auto|].
      destruct (capt_dec s m); [left; exists m; simpl; auto|right; intros m' [<-|?]; auto]. }
    assert (Hnp : sub_of n p) by (eapply sub_of_trans; eauto).
    destruct Hdec as [(m & Hm & Hc)|Hno].
    + destruct (chain_nodes _ _ _ _ Hld Hm) as [Hmb0 _].
      assert (Hmn : m = n).
      { apply (proj2 (DB n s Hnp F2)); auto. eapply sub_of_trans; [exact Hmb0|]. eapply sub_of_trans; eauto. }
      subst m. apply F5. apply sub_of_antisym; auto. eapply sub_of_trans; eauto.
    + assert (Hs0 : isfree s b0) by (eapply chain_free; eauto).
      destruct (S0 A2) as (_ & _ & S1). apply (U d0 n s A2 F3 F2). auto.
Qed.
End Licm.

End Pass.

(** ** Inlining preserves distinct binders *)
Section InlineDistinct.
Context {T : Type} {O : TermOps T} {L : TermLaws T} (o : bool) (p : T).
Hypothesis DB : distinct_binders p.

Definition inl_origin (n : T) : Prop :=
  exists bd t, reach o p bd t /\ (forall x b body, unlet t = Some (x, b, body) -> pred o b = false) /\
    n = rebuild t (map (inl o bd) (subs t)).

Lemma inl_origins t : forall bd, reach o p bd t ->
  (forall x r n, blook x bd = Some r -> sub_of n r -> inl_origin n) ->
  forall n, sub_of n (inl o bd t) -> inl_origin n.
Proof.
  induction t as [t IH] using tsize_ind. intros bd R Hbd n Hn. rewrite inl_eq in Hn.
  assert (Hre : (forall x b body, unlet t = Some (x, b, body) -> pred o b = false) ->
     sub_of n (rebuild t (map (inl o bd) (subs t))) -> inl_origin n).
  { intros Hu Hn'. apply sub_of_rebuild in Hn' as [->|(c & Hc & Hs)]; [| |apply map_length].
    - exists bd, t. auto.
    - apply in_map_iff in Hc as (c0 & <- & Hc0). eapply (IH c0); eauto; [apply tsize_sub; auto|]. eapply re_child; eauto. }
  destruct (unlet t) as [[[x b] body]|] eqn:Eu.
  - destruct (unlet_spec _ _ _ _ Eu) as (Es & _).
    assert (tsize b < tsize t) by (apply tsize_sub; rewrite Es; simpl; auto).
    assert (tsize body < tsize t) by (apply tsize_sub; rewrite Es; simpl; auto).
    destruct (pred o b) eqn:Ep.
    + eapply (IH body); [auto|eapply re_body; eauto| |exact Hn].
      intros y r m Hy Hm. rewrite blook_cons in Hy. destruct (y =? x); [|eauto]. injection Hy as <-.
      eapply (IH b); eauto. eapply re_bind; eauto.
    + apply Hre; auto. intros y b' body' E. injection E as <- <- <-. auto.
  - assert (Hre' : sub_of n (rebuild t (map (inl o bd) (subs t))) -> inl_origin n) by (apply Hre; discriminate).
    destruct (symof t) as [[x|x]|]; auto. destruct (blook x bd) eqn:Eb; eauto.
Qed.

Lemma inline_origin n : sub_of n (inline o p) -> inl_origin n.
Proof. intros H. eapply (inl_origins p []); [constructor| |exact H]. intros x r m E. discriminate. Qed.

Lemma inline_distinct : distinct_binders (inline o p).
Proof.
  intros n s Hn Hs.
  assert (C : forall n, sub_of n (inline o p) -> In s (capt n) -> exists bd t, reach o p bd t /\ In s (capt t) /\
     (forall x b body, unlet t = Some (x, b, body) -> pred o b = false) /\ n = rebuild t (map (inl o bd) (subs t))).
  { intros m Hm Hc. apply inline_origin in Hm as (bd & t & R & Hu & ->). exists bd, t.
    rewrite capt_rebuild in Hc by apply map_length. auto. }
  destruct (C n Hn Hs) as (bd & t & R & Ht & Hu & En). destruct (DB t s (reach_sub _ _ _ _ R) Ht) as [Hf Hq]. split.
  - intros F. apply Hf. eapply inline_free; eauto.
  - intros n' Hn' Hs'. destruct (C n' Hn' Hs') as (bd' & t' & R' & Ht' & Hu' & En').
    assert (t' = t) by (apply Hq; auto; eapply reach_sub; eauto). subst t'. rewrite En, En'. f_equal.
    apply map_ext_in. intros c Hc. apply (reach_inl o p DB); eapply re_child; eauto.
Qed.

Lemma inline_above nxt : above nxt p -> above nxt (inline o p).
Proof.
  intros AB n x Hn Hx. apply inline_origin in Hn as (bd & t & R & _ & ->).
  rewrite capt_rebuild, symof_rebuild in Hx by apply map_length. eapply AB; eauto. eapply reach_sub; eauto.
Qed.
End InlineDistinct.

(** ** Undoing the inlining of atoms *)
Section Renames.
Context {T : Type} {O : TermOps T} {L : TermLaws T}.
Context {V : Type} {sem : genv V -> T -> res V} {S : TermSem T V sem}.

Definition atoms_defined : Prop :=
  forall E b, is_atom b = true -> (forall s, isfree s b -> E s <> None) -> exists v, sem E b = Ok v.
Hypothesis AD : atoms_defined.

Lemma upds_bound (E : genv V) l s : In s (map fst l) -> upds E l s <> None.
Proof.
  revert E. induction l as [|[s' v] l IH]; simpl; intros E H; [destruct H|].
  destruct (in_dec sym_eq_dec s (map fst l)) as [Hi|Hi]; [apply IH; auto|].
  destruct H as [->|H]; [|contradiction]. fold (upds (upd E s v) l). rewrite upds_notin by auto. rewrite upd_eq. discriminate.
Qed.

Lemma sem_mono_back t cs E1 E2 : symof t = None -> length cs = length (subs t) ->
  (forall k c c' sc l, nth_error (subs t) k = Some c -> nth_error cs k = Some c' ->
     nth_error (scopes t) k = Some sc -> map fst l = sc -> ref (sem (upds E1 l) c') (sem (upds E2 l) c)) ->
  ref (sem E1 (rebuild t cs)) (sem E2 t).
Proof.
  intros Es Hl H. pose proof (sem_mono (rebuild t cs) (subs t) E1 E2) as M.
  rewrite rebuild_rebuild, rebuild_subs in M by auto. rewrite symof_rebuild, subs_rebuild, scopes_rebuild in M by auto.
  apply M; auto. intros k c c' sc l H1 H2 H3 H4. eapply H; eauto.
Qed.

Lemma renames_back fuel : forall t bound (G D : sym -> Prop) E E0,
  tsize t <= fuel -> noshadow G t ->
  (forall s, D s -> G s) ->
  (forall x r, blook x bound = Some r -> G (SV x)) ->
  (forall s, isfree s t -> D s \/ exists x r, s = SV x /\ blook x bound = Some r) ->
  (forall x r s, blook x bound = Some r -> isfree s r -> D s) ->
  inline_env (sem := sem) bound E E0 -> (forall s, isfree s t -> E s <> None) ->
  ref (sem E0 (inline_go fuel true bound t)) (sem E t).
Proof.
  induction fuel as [|fuel IH]; intros t bound G D E E0 Hf Hns HDG Hdom H1 H2 HE HB.
  { pose proof (tsize_pos t). lia. }
  assert (Hfall : ref (sem E0 (match symof t with
        | Some (SV x) =>
            match blook x bound with
            | Some r => r
            | None => rebuild t (map (inline_go fuel true bound) (subs t))
            end
        | _ => rebuild t (map (inline_go fuel true bound) (subs t))
        end)) (sem E t)).
  { destruct (symof t) as [s'|] eqn:Es.
    - assert (Er : rebuild t (map (inline_go fuel true bound) (subs t)) = t).
      { destruct (symof_subs _ _ Es) as (Ec & _). rewrite Ec. simpl. rewrite <- Ec. apply rebuild_subs. }
      specialize (HE s'). rewrite Er, (sem_sym _ _ _ Es). destruct s' as [x|x].
      + destruct (blook x bound) as [r|] eqn:Eb.
        * destruct HE as (v & Hv & HE). rewrite HE, Hv. apply ref_refl.
        * rewrite HE, (sem_sym _ _ _ Es). apply ref_refl.
      + rewrite HE, (sem_sym _ _ _ Es). apply ref_refl.
    - inversion Hns as [? ? Hcap Hch]; subst.
      apply sem_mono_back; [auto|apply map_length|].
      intros k c c' sc l Hc Hc' Hsc Hl. rewrite nth_error_map, Hc in Hc'. injection Hc' as <-.
      assert (Hin : forall s, In s (map fst l) -> ~ G s).
      { intros s Hs. apply Hcap. rewrite Hl in Hs. eapply scopes_capt; eauto. eapply nth_error_In; eauto. }
      eapply (IH c bound (fun s => G s \/ In s sc) (fun s => D s \/ In s sc)).
      + apply nth_error_In, tsize_sub in Hc. lia.
      + eapply Hch; eauto.
      + intros s [?|?]; auto.
      + intros x r Hr. left. eapply Hdom; eauto.
      + intros s Hs. destruct (in_dec sym_eq_dec s sc); auto.
        destruct (H1 s) as [?|?]; auto. eapply free_sub; eauto.
      + intros x r s Hr Hs. left. eapply H2; eauto.
      + intros s. specialize (HE s).
        destruct (match s with SV x => blook x bound | SX _ => None end) as [r|] eqn:Eb.
        * destruct HE as (v & Hv & HE). exists v. split.
          -- eapply (sem_coincidence r E0 (upds E0 l)); [|exact Hv].
             intros s' Hs'. symmetry. apply upds_notin. intros Hi. apply (Hin _ Hi), HDG.
             destruct s as [x|x]; [|discriminate]. eapply H2; eauto.
          -- rewrite upds_notin; auto. intros Hi. apply (Hin _ Hi).
             destruct s as [x|x]; [|discriminate]. eapply Hdom; eauto.
        * apply upds_agree. auto.
      + intros s Hs. destruct (in_dec sym_eq_dec s sc) as [Hi|Hi].
        * apply upds_bound. rewrite Hl. auto.
        * rewrite upds_notin by (rewrite Hl; auto). apply HB. eapply free_sub; eauto. }
  simpl. destruct (unlet t) as [[[x b] body]|] eqn:Eu; auto.
  destruct (is_atom b) eqn:Ea; auto.
  destruct (unlet_spec _ _ _ _ Eu) as (Esub & Ecap & Esc & Esy).
  assert (Sb : tsize b < tsize t) by (apply tsize_sub; rewrite Esub; simpl; auto).
  assert (Sy : tsize body < tsize t) by (apply tsize_sub; rewrite Esub; simpl; auto).
  inversion Hns as [? ? Hcap Hch]; subst.
  assert (Hb0 : forall s, isfree s b -> isfree s t).
  { intros s' Hs'. eapply (free_sub _ t 0 b []); rewrite ?Esub, ?Esc; auto. }
  assert (Nx : ~ G (SV x)) by (apply Hcap; rewrite Ecap; simpl; auto).
  destruct (AD E b Ea) as (a & Ha); [auto|].
  assert (Hr : sem E0 (inline_go fuel true bound b) = Ok a).
  { eapply (inline_go_sem fuel true b bound (fun s => G s \/ In s []) D E E0); eauto; try lia.
    eapply (Hch 0); rewrite ?Esub, ?Esc; reflexivity. }
  intros v Hv. rewrite (sem_let _ _ _ _ _ Eu), Ha. simpl.
  eapply (IH body _ (fun s => G s \/ In s [SV x]) D); [lia| | | | | | | |exact Hv].
  - eapply (Hch 1); rewrite ?Esub, ?Esc; reflexivity.
  - auto.
  - intros y r. rewrite blook_cons. destruct (y =? x) eqn:Ey.
    + apply Nat.eqb_eq in Ey. subst. simpl. auto.
    + intros Hy. left. eapply Hdom; eauto.
  - intros s' Hs'. destruct (sym_eq_dec s' (SV x)) as [->|Nxs].
    + right. exists x. eexists. split; [reflexivity|]. rewrite blook_cons, Nat.eqb_refl. reflexivity.
    + destruct (H1 s') as [?|(y & r & -> & Hy)]; auto.
      * eapply (free_sub _ t 1 body [SV x]); rewrite ?Esub, ?Esc; auto. simpl. intuition congruence.
      * right. exists y, r. split; auto. rewrite blook_cons.
        destruct (y =? x) eqn:Ey; auto. apply Nat.eqb_eq in Ey. congruence.
  - intros y r s'. rewrite blook_cons. destruct (y =? x) eqn:Ey.
    + intros Hy; injection Hy as <-. apply inline_go_free; auto. lia.
    + apply H2.
  - intros s. specialize (HE s). destruct s as [y|y].
    + rewrite blook_cons. destruct (y =? x) eqn:Ey.
      * apply Nat.eqb_eq in Ey. subst. exists a. split; auto. apply upd_eq.
      * assert (SV y <> SV x) by (apply Nat.eqb_neq in Ey; congruence).
        rewrite upd_neq by auto. exact HE.
    + rewrite upd_neq by congruence. exact HE.
  - intros s Hs. destruct (sym_eq_dec s (SV x)) as [->|Nxs]; [rewrite upd_eq; discriminate|].
    rewrite upd_neq by auto. apply HB. eapply (free_sub _ t 1 body [SV x]); rewrite ?Esub, ?Esc; auto. simpl. intuition congruence.
Qed.

Lemma inline_renames_back t E v : distinct_binders t -> (forall s, isfree s t -> E s <> None) ->
  sem E (inline true t) = Ok v -> sem E t = Ok v.
Proof.
  intros DB HB. unfold inline.
  eapply (renames_back (tsize t) t [] (fun s => isfree s t) (fun s => isfree s t) E E); eauto.
  - apply distinct_noshadow; auto.
  - intros x r Hr. discriminate.
  - intros x r s Hr. discriminate.
  - intros [x|x]; reflexivity.
Qed.
End Renames.

(** ** The whole pass *)
Section Whole.
Context {T : Type} {O : TermOps T} {L : TermLaws T}.
Context {V : Type} {sem : genv V -> T -> res V} {S : TermSem T V sem}.

(** Facts about a program between passes. *)
Definition tidy (nxt : nat) (p : T) : Prop := distinct_binders p /\ above nxt p.

Lemma cse_tidy nxt p : tidy nxt p ->
  let (ins, nxt') := bind_common_subexpressions (idom_of p) nxt p in
  tidy nxt' (apply_insertions p ins) /\ ins_wf p ins /\ (forall s, isfree s (apply_insertions p ins) -> isfree s p).
Proof.
  intros [DB AB]. pose proof (distinct_unshadowed _ DB) as U.
  assert (HI : forall b, sub_of b p -> b <> p -> is_idom p (idom_of p b) b) by (intros; apply idom_of_spec; auto).
  pose proof (cse_good p nxt (idom_of p) U DB HI) as G.
  pose proof (cse_wf p nxt (idom_of p) U DB AB HI) as W. pose proof (cse_tree p nxt) as TR. unfold insertions in *.
  destruct (bind_common_subexpressions (idom_of p) nxt p) as [ins nxt']. simpl in *. destruct G as [Hle G].
  split; [split|split; auto].
  - apply apply_distinct; auto.
  - eapply apply_above; eauto. intros d x b Hi. destruct (gi_P _ _ _ _ G _ _ _ Hi) as [_ ?]. lia.
  - intros s. apply apply_free; auto.
Qed.

Lemma licm_tidy nxt p : tidy nxt p -> tree p ->
  let (ins, nxt') := loop_invariant_code_motion nxt p in
  tidy nxt' (apply_insertions p ins) /\ ins_wf p ins /\ (forall s, isfree s (apply_insertions p ins) -> isfree s p).
Proof.
  intros [DB AB] TP. pose proof (distinct_unshadowed _ DB) as U. pose proof (unshadowed_hygienic _ U) as Hy.
  pose proof (licm_good p nxt Hy) as G. pose proof (licm_wf p nxt Hy AB) as W. pose proof (licm_tree p TP nxt DB) as TR.
  unfold insertions in *. destruct (loop_invariant_code_motion nxt p) as [ins nxt']. simpl in *. destruct G as [Hle G].
  split; [split|split; auto].
  - apply apply_distinct; auto.
  - eapply apply_above; eauto. intros d x b Hi. destruct (gi_P _ _ _ _ G _ _ _ Hi) as [_ ?]. lia.
  - intros s. apply apply_free; auto.
Qed.

Lemma check_tree fs p : check fs p true = Ok tt -> tree p.
Proof.
  unfold check. intros H. apply bind_ok in H as (seen & H & _). eapply check_visit_spec in H; [apply H|auto].
Qed.

Lemma outline_spec nxt p q : tidy nxt p -> outline nxt p = Ok q ->
  exists p3 nxt3, q = inline true p3 /\ tidy nxt3 p3 /\ tidy nxt3 q /\ tree q /\
    (forall s, isfree s q -> isfree s p) /\ (forall s, isfree s p3 -> isfree s p) /\
    forall E v, sem E p3 = Ok v -> sem E (inline false p) = Ok v.
Proof.
  intros [DB AB] H. unfold outline in H. rewrite inline_memo_eq in H by auto.
  apply bind_ok in H as ([] & _ & H).
  set (p1 := inline false p) in *.
  assert (T1 : tidy nxt p1) by (split; [apply inline_distinct; auto|apply inline_above; auto]).
  pose proof (cse_tidy nxt p1 T1) as C. destruct (bind_common_subexpressions (idom_of p1) nxt p1) as [ins1 nxt1].
  destruct C as (T2 & W1 & F1). set (p2 := apply_insertions p1 ins1) in *.
  apply bind_ok in H as ([] & Hc2 & H). apply check_tree in Hc2.
  pose proof (licm_tidy nxt1 p2 T2 Hc2) as C. destruct (loop_invariant_code_motion nxt1 p2) as [ins2 nxt2].
  destruct C as (T3 & W2 & F2). set (p3 := apply_insertions p2 ins2) in *.
  apply bind_ok in H as ([] & _ & H). rewrite inline_memo_eq in H by apply T3.
  apply bind_ok in H as ([] & Hc4 & H). apply check_tree in Hc4. injection H as <-.
  exists p3, nxt2. split; auto. split; auto. split; [split; [apply inline_distinct|apply inline_above]; apply T3|].
  split; auto. assert (F3 : forall s, isfree s p3 -> isfree s p).
  { intros s Hs. apply (inline_free false). apply F1, F2. exact Hs. }
  split; [|split; auto].
  - intros s Hs. apply F3. eapply inline_free; eauto.
  - intros E v Hv. apply (apply_insertions_sound p1 ins1 W1 (distinct_unshadowed _ (proj1 T1))).
    apply (apply_insertions_sound p2 ins2 W2 (distinct_unshadowed _ (proj1 T2))). exact Hv.
Qed.

Lemma outline_sound nxt p q E v : atoms_defined (sem := sem) -> tidy nxt p -> outline nxt p = Ok q ->
  (forall s, isfree s p -> E s <> None) -> sem E q = Ok v -> sem E (inline false p) = Ok v.
Proof.
  intros AD TP H HB Hv. destruct (outline_spec _ _ _ TP H) as (p3 & nxt3 & -> & T3 & _ & _ & _ & F3 & Hs).
  apply Hs. apply inline_renames_back; auto. apply T3.
Qed.

Lemma outline_agree nxt p q E v v' : atoms_defined (sem := sem) -> tidy nxt p -> outline nxt p = Ok q ->
  (forall s, isfree s p -> E s <> None) -> sem E p = Ok v -> sem E q = Ok v' -> v' = v.
Proof.
  intros AD TP H HB Hv Hv'. eapply outline_sound in Hv'; eauto.
  apply (inline_sem false) in Hv; [congruence|apply distinct_noshadow, TP].
Qed.
End Whole.
