(** The checks of [outline] (ein/midend/lining.py:116-131) succeed: after each
    pass every term that is not an atom occurs once, and no free symbol is lost. *)
From Verif Require Import Base Sym Term Lining Outline Dominators InlineMemo Visits OutlinePass.

Section Parents.
Context {T : Type} {O : TermOps T} {L : TermLaws T}.

(** Every term that is not an atom is at one position of one term. *)
Definition unique_parents (q : T) : Prop :=
  forall n n1 n2 k1 k2, is_atom n = false -> sub_of n1 q -> sub_of n2 q ->
    nth_error (subs n1) k1 = Some n -> nth_error (subs n2) k2 = Some n -> n1 = n2 /\ k1 = k2.

Lemma has_sub_nonatom (t c : T) : In c (subs t) -> is_atom t = false.
Proof. intros H. destruct (is_atom t) eqn:E; auto. destruct (atom_spec _ E) as [E' _]. rewrite E' in H. destruct H. Qed.

Lemma sub_nonatom (b c : T) : sub_of b c -> is_atom b = false -> is_atom c = false.
Proof. intros H Hb. inversion H; subst; auto. eapply has_sub_nonatom; eauto. Qed.

(** Going up from [b] there is one way. *)
Lemma parents_linear q b c c' : unique_parents q -> is_atom b = false -> sub_of b c -> sub_of b c' -> sub_of c q -> sub_of c' q ->
  sub_of c c' \/ sub_of c' c.
Proof.
  intros U Hb H. revert c'. induction H as [t|b c0 t Hc Hs IH]; intros c' H' Hq Hq'; auto.
  assert (Hc0 : sub_of c0 q) by (eapply sub_of_trans; [eapply sub_step; [eauto|constructor]|auto]).
  destruct (IH Hb c' H' Hc0 Hq') as [H0|H0].
  - inversion H0 as [|? c1 ? Hc1 Hs1]; subst; [right; eapply sub_step; [eauto|constructor]|]. clear IH.
    (* the parent of c0 inside c' is t *)
    assert (Hp : forall c', sub_of c0 c' -> sub_of c' q -> c0 = c' \/ sub_of t c').
    { intros c2 Hs2. induction Hs2 as [u|v w u Hw Hsw IHw]; intros Hq2; auto. right.
      assert (Hwq : sub_of w q) by (eapply sub_of_trans; [eapply sub_step; [eauto|constructor]|auto]).
      destruct (IHw Hc Hs Hc0 H0 Hs1 Hwq) as [E|E].
      - subst w. apply In_nth_error in Hc as [k Hk]. apply In_nth_error in Hw as [k' Hk'].
        destruct (U _ _ _ _ _ (sub_nonatom _ _ Hs Hb) Hq Hq2 Hk Hk') as [-> _]. constructor.
      - eapply sub_step; eauto. }
    destruct (Hp c' H0 Hq') as [E|E]; auto. subst c'. right. eapply sub_step; [eauto|constructor].
  - right. eapply sub_step; eauto.
Qed.

Lemma parents_tree q : unique_parents q -> tree q.
Proof.
  intros U. assert (H : forall t, sub_of t q -> tree t); [|apply H; constructor].
  intros t. induction t as [t IH] using tsize_ind. intros Ht. unfold tree. rewrite nonatoms_eq.
  assert (Hsz : forall b, In b (flat_map nonatoms (subs t)) -> tsize b < tsize t).
  { intros b Hb. apply in_flat_map in Hb as (c & Hc & Hb). apply in_nonatoms in Hb as [Hb _]. apply tsize_sub in Hc.
    apply sub_of_size in Hb as [->|?]; lia. }
  apply NoDup_app_make; [| |intros b Hb Hi; apply Hsz in Hb; destruct (is_atom t); [destruct Hi|destruct Hi as [<-|[]]; lia]].
  2:{ destruct (is_atom t); repeat constructor; auto. }
  assert (HF : forall l k0, (forall k c, nth_error l k = Some c -> nth_error (subs t) (k0 + k) = Some c) -> NoDup (flat_map nonatoms l)).
  { induction l as [|c l IHl]; intros k0 Hl; simpl; [constructor|].
    pose proof (Hl 0 c eq_refl) as Hc. rewrite Nat.add_0_r in Hc.
    assert (Hct : sub_of c t) by (eapply sub_child; eauto). pose proof (tsize_sub _ _ (nth_error_In _ _ Hc)).
    apply NoDup_app_make.
    - apply IH; auto. eapply sub_of_trans; eauto.
    - apply (IHl (S k0)). intros k c' Hk. rewrite Nat.add_succ_comm. apply Hl. exact Hk.
    - intros b Hb Hb'. apply in_nonatoms in Hb as [Hb Ha]. apply in_flat_map in Hb' as (c' & Hc' & Hb').
      apply in_nonatoms in Hb' as [Hb' _]. apply In_nth_error in Hc' as [k Hk].
      pose proof (Hl (S k) c' Hk) as Hc'. assert (Hct' : sub_of c' t) by (eapply sub_child; eauto).
      pose proof (tsize_sub _ _ (nth_error_In _ _ Hc')).
      (* two children with a common subterm *)
      assert (HX : forall a a' j j', nth_error (subs t) j = Some a -> nth_error (subs t) j' = Some a' -> j <> j' ->
         sub_of b a -> sub_of a a' -> tsize a' < tsize t -> False).
      { intros a a' j j' Hj Hj' Hne Hba Haa Hlt. pose proof (sub_nonatom _ _ Hba Ha) as Haa2.
        inversion Haa as [|? w ? Hw Hsw]; subst.
        - apply Hne. eapply (U a' t t); eauto.
        - assert (HY : forall a', sub_of a a' -> sub_of a' q -> tsize a' < tsize t -> a = a').
          { intros a2 Hs2. induction Hs2 as [u|v w2 u Hw2 Hsw2 IHw2]; intros Hq2 Hlt2; auto. exfalso.
            assert (v = w2) by (apply IHw2; auto; [eapply sub_of_trans; [eapply sub_step; [eauto|constructor]|auto]|
              apply tsize_sub in Hw2; lia]). subst w2.
            apply In_nth_error in Hw2 as [j2 Hj2]. destruct (U _ _ _ _ _ Haa2 Ht Hq2 Hj Hj2) as [-> _]. lia. }
          assert (Ha'q : sub_of a' q) by (eapply sub_of_trans; [eapply sub_child; eauto|auto]).
          pose proof (HY a' Haa Ha'q Hlt). subst a'. apply tsize_sub in Hw. apply sub_of_size in Hsw as [->|?]; lia. }
      destruct (parents_linear q b c c' U Ha Hb Hb') as [Hcc|Hcc];
        [eapply sub_of_trans; eauto|eapply sub_of_trans; eauto| |].
      + apply (HX c c' k0 (k0 + S k)); auto; lia.
      + apply (HX c' c (k0 + S k) k0); auto; lia. }
  apply (HF (subs t) 0). intros k c Hk. exact Hk.
Qed.

Lemma tree_parents q : tree q -> unique_parents q.
Proof.
  intros TQ n n1 n2 k1 k2 Hn H1 H2 Hk1 Hk2.
  destruct (sub_chain _ _ H1) as (l1 & C1), (sub_chain _ _ H2) as (l2 & C2).
  pose proof (chain_unique q n _ _ TQ Hn (chain_snoc _ _ _ _ _ C1 Hk1) (chain_snoc _ _ _ _ _ C2 Hk2)) as E.
  apply app_inj_tail in E as [-> _].
  assert (E : n1 = n2).
  { assert (HL : forall a b l, chain a b l -> exists l', l = l' ++ [b]).
    { induction 1 as [|? ? ? ? ? ? ? (l' & ->)]; [exists []; auto|]. exists (t :: l'). reflexivity. }
    destruct (HL _ _ _ C1) as (m1 & E1), (HL _ _ _ C2) as (m2 & E2). rewrite E1 in E2. apply app_inj_tail in E2 as [_ E2]. auto. }
  subst n2. split; auto. eapply (tree_positions n1); eauto; [eapply tree_sub; eauto| |]; constructor.
Qed.

Lemma check_visit_ok fuel : forall seen t, tsize t <= fuel -> tree t -> (forall b, In b (nonatoms t) -> ~ In b seen) ->
  exists seen', check_visit fuel seen t = Ok seen' /\ forall b, In b seen' <-> In b seen \/ sub_of b t.
Proof.
  induction fuel as [|fuel IH]; intros seen t Hf HT HD; [pose proof (tsize_pos t); lia|]. simpl.
  assert (Hg : negb (tmem t seen) || is_atom t = true).
  { destruct (is_atom t) eqn:Ea; [apply orb_true_r|]. rewrite orb_false_r. apply negb_true_iff.
    destruct (tmem t seen) eqn:E; auto. apply tmem_In in E. exfalso. apply (HD t); auto. apply in_nonatoms. split; auto. constructor. }
  rewrite Hg. simpl. unfold tree in HT. rewrite nonatoms_eq in HT, HD. apply NoDup_app_l in HT as HT'.
  assert (HF : forall l seen, incl l (subs t) -> NoDup (flat_map nonatoms l) -> (forall b, In b (flat_map nonatoms l) -> ~ In b seen) ->
    exists seen', fold_left (fun r c => let* seen := r in check_visit fuel seen c) l (Ok seen) = Ok seen' /\
      forall b, In b seen' <-> In b seen \/ exists c, In c l /\ sub_of b c).
  { clear - L IH Hf. induction l as [|c l IHl]; intros seen Hi HN HD; simpl in *.
    - exists seen. split; auto. intros b. split; auto. intros [?|(c & [] & _)]; auto.
    - assert (Hc : In c (subs t)) by (apply Hi; simpl; auto). pose proof (tsize_sub _ _ Hc).
      destruct (IH seen c) as (seen1 & E1 & A1); [lia|apply (NoDup_app_l _ _ HN)|intros b Hb; apply HD, in_or_app; auto|].
      rewrite E1. destruct (IHl seen1) as (seen2 & E2 & A2); [intros y Hy; apply Hi; simpl; auto|apply (NoDup_app_r _ _ HN)| |].
      + intros b Hb Hs. apply A1 in Hs as [Hs|Hs]; [apply (HD b); auto; apply in_or_app; auto|].
        apply in_flat_map in Hb as Hb'. destruct Hb' as (c' & _ & Hb'). apply in_nonatoms in Hb' as [_ Ha].
        eapply NoDup_app_disj; [exact HN| |exact Hb]. apply in_nonatoms; auto.
      + exists seen2. split; auto. intros b. rewrite A2, A1. split.
        * intros [[?|?]|(c' & ? & ?)]; [auto|right; exists c; auto|right; exists c'; auto].
        * intros [?|(c' & [<-|?] & ?)]; [auto|auto|right; exists c'; auto]. }
  destruct (HF (subs t) (t :: seen) (incl_refl _) HT') as (seen' & E & A).
  - intros b Hb [<-|Hs]; [|apply (HD b); auto; apply in_or_app; auto].
    apply in_flat_map in Hb as (c & Hc & Hb). apply in_nonatoms in Hb as [Hb _]. apply tsize_sub in Hc.
    apply sub_of_size in Hb as [->|?]; lia.
  - exists seen'. split; auto. intros b. rewrite A. simpl. split.
    + intros [[->|?]|(c & Hc & Hs)]; auto; right; [constructor|]. eapply sub_step; eauto.
    + intros [?|Hs]; auto. inversion Hs as [|? c ? Hc Hs']; subst; auto. right. eauto.
Qed.
End Parents.

(** ** Let insertion yields a tree *)
Section Insert.
Context {T : Type} {O : TermOps T} {L : TermLaws T}.
Context (p : T) (ins : @insertions T).
Hypothesis W : ins_wf p ins.
Hypothesis TR : ins_tree p ins.

Notation vis := (visit p ins).
Notation AA := (A ins).
Notation bod := (body ins).
Notation app := (applied ins).
Notation scp := (scope_of p ins W TR).

Lemma atom_rebuild (t : T) cs : length cs = length (subs t) -> is_atom (rebuild t cs) = is_atom t.
Proof.
  intros H. destruct (subs t) as [|c l] eqn:E.
  - destruct cs; [|discriminate]. rewrite <- E, rebuild_subs. reflexivity.
  - assert (H1 : is_atom t = false) by (apply (has_sub_nonatom t c); rewrite E; simpl; auto).
    destruct cs as [|c' cs]; [discriminate|]. rewrite H1. apply (has_sub_nonatom _ c').
    rewrite subs_rebuild by (rewrite E; auto). simpl; auto.
Qed.

Lemma wrap_let_nonatom x (b t : T) : is_atom (wrap_let x b t) = false.
Proof. apply (has_sub_nonatom _ b). rewrite wrap_subs. simpl; auto. Qed.

Lemma wrap_let_capt x (b t : T) : capt (wrap_let x b t) = [SV x].
Proof. apply (unlet_spec _ _ _ _ (unlet_wrap x b t)). Qed.

Lemma no_ins_leaf t : subs t = [] -> ins_at ins t = [].
Proof.
  intros H. destruct (ins_at ins t) as [|[x b] l] eqn:E; auto.
  destruct (scp t x b) as (H1 & H2 & _); [rewrite E; simpl; auto|]. exfalso. apply H2. eapply sub_leaf; eauto.
Qed.

Lemma ins_var d d' x b b' : In (x, b) (ins_at ins d) -> In (x, b') (ins_at ins d') -> d = d' /\ b = b'.
Proof.
  intros H1 H2. pose proof (iw_uniq _ _ W _ _ _ _ _ H1 H2). subst d'. split; auto.
  pose proof (iw_nodup _ _ W d) as ND. revert H1 H2 ND. generalize (ins_at ins d). clear.
  induction l as [|[y c] l IH]; simpl; intros H1 H2 ND; [destruct H1|]. inversion ND; subst.
  destruct H1 as [H1|H1], H2 as [H2|H2]; try congruence; auto.
  - injection H1 as -> ->. exfalso. apply H3. apply in_map_iff. exists (x, b'). auto.
  - injection H2 as -> ->. exfalso. apply H3. apply in_map_iff. exists (x, b). auto.
Qed.

(** A term is not bound when its own binding is expanded. *)
Lemma bind_look bnd t l1 x b l2 : vis bnd t -> ins_at ins t = l1 ++ (x, b) :: l2 -> look (bnd_after bnd l1) b = None.
Proof.
  intros V E. destruct (look (bnd_after bnd l1) b) as [q|] eqn:El; auto. exfalso.
  apply look_In in El as (u & -> & Hi). pose proof (in_mid _ _ _ _ E) as Hb. apply after_In in Hi as [Hi|(y & Hi & ->)].
  - destruct (visit_sound p ins W TR _ _ V _ _ Hi) as (y & d & -> & Hd & _ & Hlt).
    pose proof (it_once _ _ TR _ _ _ _ _ Hb Hd). subst y. destruct (ins_var _ _ _ _ _ Hb Hd) as [-> _]. lia.
  - assert (Hy : In (y, b) (ins_at ins t)) by (rewrite E; apply in_or_app; auto).
    pose proof (it_once _ _ TR _ _ _ _ _ Hb Hy). subst y.
    pose proof (iw_nodup _ _ W t) as ND. rewrite E, map_app in ND. simpl in ND. apply NoDup_remove_2 in ND. apply ND.
    apply in_or_app. left. apply in_map_iff. exists (x, b). auto.
Qed.

(** A bound term is bound when it is visited as a child. *)
Lemma child_look bnd t c d x : vis bnd t -> In c (subs t) -> In (x, c) (ins_at ins d) ->
  look (bnd_after bnd (ins_at ins t)) c = Some (c, wrap_var x c).
Proof.
  intros V Hc Hi.
  assert (Hin : In (c, wrap_var x c) (bnd_after bnd (ins_at ins t))).
  { pose proof (tsize_sub _ _ Hc) as Hsz. assert (Hct : sub_of c t) by (eapply sub_step; [eauto|constructor]).
    destruct (visit_chain p ins W TR _ _ V) as (l & C). pose proof Hc as Hc0. apply In_nth_error in Hc0 as [k Hk].
    pose proof (it_dom _ _ TR _ _ _ Hi _ (chain_snoc _ _ _ _ _ C Hk)) as Hd. destruct (scp _ _ _ Hi) as (_ & Hne & _).
    apply in_app_or in Hd as [Hd|[Hd|[]]]; [|congruence]. apply (chain_nodes _ _ _ _ C) in Hd as [_ Htd].
    apply after_In. destruct (teqb t d) eqn:E.
    - apply teqb_eq in E. subst d. right. eauto.
    - left. eapply (visit_complete p ins W TR _ _ V); eauto.
      + intros ->. lia.
      + intros ->. rewrite teqb_refl in E. discriminate. }
  destruct (look (bnd_after bnd (ins_at ins t)) c) as [q|] eqn:El.
  - apply look_In in El as (u & -> & Hu).
    destruct (visit_sound p ins W TR _ _ (v_child _ _ _ _ _ V Hc) _ _ Hu) as (y & d' & -> & Hd' & _).
    rewrite (it_once _ _ TR _ _ _ _ _ Hi Hd'). reflexivity.
  - exfalso. apply (find_none _ _ El) in Hin. simpl in Hin. rewrite teqb_refl in Hin. discriminate.
Qed.

(** *** Expansion is injective *)
Definition suf (bnd : list (T * T)) (t : T) (l1 l2 : list (nat * T)) : T := lets (app (bnd_after bnd l1) l2) (bod bnd t).

Lemma split_unique (l1 l1' : list (nat * T)) x b b' l2 l2' : NoDup (map fst (l1 ++ (x, b) :: l2)) ->
  l1 ++ (x, b) :: l2 = l1' ++ (x, b') :: l2' -> l1 = l1' /\ b = b' /\ l2 = l2'.
Proof.
  revert l1'. induction l1 as [|[y c] l1 IH]; intros [|[y' c'] l1'] ND E; simpl in *; injection E as E1 E2.
  - subst. auto.
  - intros. subst. exfalso. inversion ND; subst. apply H1. rewrite map_app. apply in_or_app. simpl. auto.
  - intros. subst. exfalso. inversion ND; subst. apply H1. rewrite map_app. apply in_or_app. simpl. auto.
  - intros. subst. inversion ND; subst. destruct (IH _ H3 H) as (-> & -> & ->). auto.
Qed.

Lemma body_not_let bnd t d x b bb r : vis bnd t -> In (x, b) (ins_at ins d) -> bod bnd t <> wrap_let x bb r.
Proof.
  intros V Hi E. assert (Hc : capt (bod bnd t) = [SV x]) by (rewrite E; apply wrap_let_capt).
  rewrite body_capt in Hc. apply (proj1 (iw_fresh _ _ W _ _ _ t Hi (visit_sub p ins W TR _ _ V))). rewrite Hc. simpl; auto.
Qed.

Definition binj (t : T) : Prop := forall bnd bnd' t', vis bnd t -> vis bnd' t' -> bod bnd t = bod bnd' t' -> t = t'.

Lemma suf_inj bnd bnd' t t' l1 l2 l1' l2' : binj t -> vis bnd t -> vis bnd' t' ->
  ins_at ins t = l1 ++ l2 -> ins_at ins t' = l1' ++ l2' -> suf bnd t l1 l2 = suf bnd' t' l1' l2' -> t = t' /\ l1 = l1' /\ l2 = l2'.
Proof.
  intros BI V V' E E' H. unfold suf in H. destruct l2 as [|[x b] l2], l2' as [|[x' b'] l2']; simpl in H.
  - pose proof (BI _ _ _ V V' H). subst t'. rewrite app_nil_r in *. split; auto. split; congruence.
  - exfalso. eapply (body_not_let bnd t t' x' b'); eauto. eapply in_mid; eauto.
  - exfalso. eapply (body_not_let bnd' t' t x b); eauto. eapply in_mid; eauto.
  - assert (Hu : unlet (wrap_let x (AA (bnd_after bnd l1) b) (lets (app ((b, wrap_var x b) :: bnd_after bnd l1) l2) (bod bnd t))) =
       Some (x', AA (bnd_after bnd' l1') b', lets (app ((b', wrap_var x' b') :: bnd_after bnd' l1') l2') (bod bnd' t'))).
    { rewrite H. apply unlet_wrap. }
    rewrite unlet_wrap in Hu. injection Hu as Hx _ _. subst x'.
    destruct (ins_var _ _ _ _ _ (in_mid _ _ _ _ E) (in_mid _ _ _ _ E')) as [Et Eb]. subst t' b'. split; auto.
    pose proof (iw_nodup _ _ W t) as ND. rewrite E in E'. rewrite E in ND.
    destruct (split_unique _ _ _ _ _ _ _ ND E') as (-> & _ & ->). auto.
Qed.

Lemma A_cases bnd t : vis bnd t ->
  (exists x d, AA bnd t = wrap_var x t /\ In (x, t) (ins_at ins d)) \/ (look bnd t = None /\ AA bnd t = suf bnd t [] (ins_at ins t)).
Proof.
  intros V. rewrite (A_eq p ins W TR). destruct (look bnd t) as [q|] eqn:El; [left|right; auto].
  apply look_In in El as (u & -> & Hi). destruct (visit_sound p ins W TR _ _ V _ _ Hi) as (x & d & -> & Hd & _). exists x, d. auto.
Qed.

Lemma suf_not_var bnd t l1 l2 d x b : vis bnd t -> ins_at ins t = l1 ++ l2 -> In (x, b) (ins_at ins d) -> suf bnd t l1 l2 <> wrap_var x b.
Proof.
  intros V E Hi H. unfold suf in H. destruct l2 as [|[y c] l2]; simpl in H.
  - assert (Hs : symof (bod bnd t) = Some (SV x)) by (rewrite H; apply symof_wrap).
    unfold body in Hs. rewrite symof_rebuild in Hs by apply map_length.
    apply (proj2 (iw_fresh _ _ W _ _ _ t Hi (visit_sub p ins W TR _ _ V))). exact Hs.
  - pose proof (symof_wrap x b) as Hs. rewrite <- H in Hs.
    destruct (unlet_spec _ _ _ _ (unlet_wrap y (AA (bnd_after bnd l1) c) (lets (app ((c, wrap_var y c) :: bnd_after bnd l1) l2) (bod bnd t)))) as (_ & _ & _ & Es).
    congruence.
Qed.

Lemma A_inj_at t : binj t -> forall bnd bnd' t', vis bnd t -> vis bnd' t' -> AA bnd t = AA bnd' t' -> t = t'.
Proof.
  intros BI bnd bnd' t' V V' H.
  destruct (A_cases _ _ V) as [(x & d & E & Hi)|[_ E]], (A_cases _ _ V') as [(x' & d' & E' & Hi')|[_ E']]; rewrite E, E' in H.
  - apply wrap_var_inj in H. subst x'. apply (ins_var _ _ _ _ _ Hi Hi').
  - exfalso. eapply (suf_not_var bnd' t' [] (ins_at ins t') d x t); eauto.
  - exfalso. eapply (suf_not_var bnd t [] (ins_at ins t) d' x' t'); eauto.
  - apply (suf_inj bnd bnd' t t' [] (ins_at ins t) [] (ins_at ins t')); auto.
Qed.

Lemma rebuild_inj (t t' : T) cs cs' : length cs = length (subs t) -> length cs' = length (subs t') ->
  rebuild t cs = rebuild t' cs' -> subs t = subs t' -> t = t'.
Proof.
  intros H1 H2 E Es. rewrite <- (rebuild_subs t), <- (rebuild_subs t').
  rewrite <- (rebuild_rebuild t cs (subs t)), <- (rebuild_rebuild t' cs' (subs t')) by auto. rewrite E, Es. reflexivity.
Qed.

Lemma body_inj t : binj t.
Proof.
  induction t as [t IH] using tsize_ind. intros bnd bnd' t' V V' H. unfold body in H.
  apply (rebuild_inj _ _ _ _ (map_length _ _) (map_length _ _) H).
  assert (E : map (AA (bnd_after bnd (ins_at ins t))) (subs t) = map (AA (bnd_after bnd' (ins_at ins t'))) (subs t')).
  { rewrite <- (subs_rebuild t (map (AA (bnd_after bnd (ins_at ins t))) (subs t))) by apply map_length. rewrite H.
    apply subs_rebuild, map_length. }
  assert (HF : forall l l', incl l (subs t) -> incl l' (subs t') ->
     map (AA (bnd_after bnd (ins_at ins t))) l = map (AA (bnd_after bnd' (ins_at ins t'))) l' -> l = l').
  { induction l as [|c l IHl]; intros [|c' l'] Hi Hi' HE; simpl in HE; try discriminate; auto. injection HE as HE1 HE2.
    f_equal; [|apply IHl; auto; intros y Hy; [apply Hi|apply Hi']; simpl; auto].
    eapply A_inj_at; [apply IH, tsize_sub; apply Hi; simpl; auto| | |exact HE1]; eapply v_child; eauto; [apply Hi|apply Hi']; simpl; auto. }
  apply HF; auto; apply incl_refl.
Qed.

(** *** One parent each *)
Hypothesis ALL : forall c n1 k1 n2 k2, is_atom c = false -> sub_of n1 p -> sub_of n2 p ->
  nth_error (subs n1) k1 = Some c -> nth_error (subs n2) k2 = Some c -> (n1, k1) <> (n2, k2) -> exists d x, In (x, c) (ins_at ins d).

Definition parent_kind (m : T) (k : nat) (n : T) : Prop :=
  (exists bnd t c, vis bnd t /\ nth_error (subs t) k = Some c /\ m = bod bnd t /\
     look (bnd_after bnd (ins_at ins t)) c = None /\ n = suf (bnd_after bnd (ins_at ins t)) c [] (ins_at ins c)) \/
  (exists bnd t l1 x b l2, vis bnd t /\ ins_at ins t = l1 ++ (x, b) :: l2 /\ m = new_let ins bnd t l1 x b l2 /\ k = 0 /\
     n = suf (bnd_after bnd l1) b [] (ins_at ins b)) \/
  (exists bnd t l1 x b l2, vis bnd t /\ ins_at ins t = l1 ++ (x, b) :: l2 /\ m = new_let ins bnd t l1 x b l2 /\ k = 1 /\
     n = suf bnd t (l1 ++ [(x, b)]) l2).

Lemma origin_parts m k n : origin p ins m -> nth_error (subs m) k = Some n ->
  (exists bnd t c, vis bnd t /\ nth_error (subs t) k = Some c /\ m = bod bnd t /\ n = AA (bnd_after bnd (ins_at ins t)) c) \/
  (exists bnd t l1 x b l2, vis bnd t /\ ins_at ins t = l1 ++ (x, b) :: l2 /\ m = new_let ins bnd t l1 x b l2 /\
     ((k = 0 /\ n = AA (bnd_after bnd l1) b) \/ (k = 1 /\ n = suf bnd t (l1 ++ [(x, b)]) l2))).
Proof.
  intros [(x & b & d & -> & _)|(bnd & t & V & [->|(l1 & x & b & l2 & E & ->)])] Hk.
  - destruct (symof_subs _ _ (symof_wrap x b)) as (Es & _). rewrite Es in Hk. destruct k; discriminate.
  - left. unfold body in Hk. rewrite subs_rebuild in Hk by apply map_length. rewrite nth_error_map in Hk.
    destruct (nth_error (subs t) k) as [c|] eqn:Ec; [|discriminate]. injection Hk as <-. exists bnd, t, c. auto.
  - right. exists bnd, t, l1, x, b, l2. split; auto. split; auto. split; auto.
    unfold new_let in Hk. rewrite wrap_subs in Hk. destruct k as [|[|k]]; simpl in Hk.
    + injection Hk as <-. auto.
    + injection Hk as <-. right. split; auto. unfold suf. rewrite after_snoc. reflexivity.
    + destruct k; discriminate.
Qed.

Lemma parent_kinds m k n : sub_of m (apply_insertions p ins) -> nth_error (subs m) k = Some n -> is_atom n = false -> parent_kind m k n.
Proof.
  intros Hm Hk Hn. rewrite apply_A in Hm. pose proof (origins p ins W TR _ _ _ _ (le_n _) (v_root p ins) Hm) as OR.
  destruct (origin_parts _ _ _ OR Hk) as [(bnd & t & c & V & Hc & -> & ->)|(bnd & t & l1 & x & b & l2 & V & E & -> & [[-> ->]|[-> ->]])].
  - left. exists bnd, t, c. destruct (A_cases _ _ (v_child _ _ _ _ _ V (nth_error_In _ _ Hc))) as [(x & d & E & _)|[E1 E2]]; auto.
    rewrite E in Hn. pose proof (symof_atom _ _ (symof_wrap x c)). congruence.
  - right. left. exists bnd, t, l1, x, b, l2. destruct (A_cases _ _ (v_bind _ _ _ _ _ _ _ _ V E)) as [(y & d & E1 & _)|[E1 E2]]; auto.
    rewrite E1 in Hn. pose proof (symof_atom _ _ (symof_wrap y b)). congruence.
  - right. right. exists bnd, t, l1, x, b, l2. auto.
Qed.

Lemma expand_same bnd bnd' t : vis bnd t -> vis bnd' t ->
  bod bnd t = bod bnd' t /\
  forall l1 x b l2, ins_at ins t = l1 ++ (x, b) :: l2 -> new_let ins bnd t l1 x b l2 = new_let ins bnd' t l1 x b l2.
Proof.
  intros V V'. destruct (expand_ext p ins W TR t bnd bnd' (visit_sub p ins W TR _ _ V)) as [EB EA].
  { intros b Hb Hne. eapply (visit_agree p ins W TR); eauto. }
  split; auto. intros l1 x b l2 E. unfold new_let. pose proof (EA _ _ E) as EA1. simpl in EA1. injection EA1 as EA1 EA2.
  rewrite EA1, EA2, EB. reflexivity.
Qed.

Lemma apply_parents : unique_parents (apply_insertions p ins).
Proof.
  intros n m1 m2 k1 k2 Hn H1 H2 Hk1 Hk2.
  pose proof (parent_kinds _ _ _ H1 Hk1 Hn) as P1. pose proof (parent_kinds _ _ _ H2 Hk2 Hn) as P2.
  assert (SI : forall bnd bnd' t t' l1 l2 l1' l2', vis bnd t -> vis bnd' t' -> ins_at ins t = l1 ++ l2 -> ins_at ins t' = l1' ++ l2' ->
     suf bnd t l1 l2 = suf bnd' t' l1' l2' -> t = t' /\ l1 = l1' /\ l2 = l2') by (intros; eapply suf_inj; eauto; apply body_inj).
  assert (K1 : forall bnd t c, vis bnd t -> In c (subs t) -> look (bnd_after bnd (ins_at ins t)) c = None -> forall d x, ~ In (x, c) (ins_at ins d)).
  { intros bnd t c V Hc El d x Hi. rewrite (child_look _ _ _ _ _ V Hc Hi) in El. discriminate. }
  assert (SF : forall bnd bnd' t t', vis bnd t -> vis bnd' t' -> suf bnd t [] (ins_at ins t) = suf bnd' t' [] (ins_at ins t') -> t = t')
    by (intros bnd bnd' t t' V V' HE; apply (SI bnd bnd' t t' [] (ins_at ins t) [] (ins_at ins t') V V' eq_refl eq_refl HE)).
  assert (X12 : forall m k m' k' n', 
     (exists bnd t c, vis bnd t /\ nth_error (subs t) k = Some c /\ m = bod bnd t /\
       look (bnd_after bnd (ins_at ins t)) c = None /\ n' = suf (bnd_after bnd (ins_at ins t)) c [] (ins_at ins c)) ->
     (exists bnd t l1 x b l2, vis bnd t /\ ins_at ins t = l1 ++ (x, b) :: l2 /\ m' = new_let ins bnd t l1 x b l2 /\ k' = 0 /\
     n' = suf (bnd_after bnd l1) b [] (ins_at ins b)) -> False).
  { intros m k m' k' n' (bnd & t & c & V & Hc & _ & El & En) (bnd' & t' & l1 & x & b & l2 & V' & E & _ & _ & En'). rewrite En in En'.
    apply nth_error_In in Hc.
    pose proof (SF _ _ _ _ (v_child _ _ _ _ _ V Hc) (v_bind _ _ _ _ _ _ _ _ V' E) En'). subst b.
    exact (K1 _ _ _ V Hc El _ _ (in_mid _ _ _ _ E)). }
  assert (X3 : forall bnd t c bnd' t' l1 x (b : T) l2, vis bnd c -> vis bnd' t' -> ins_at ins t' = l1 ++ (x, b) :: l2 ->
     t = suf bnd c [] (ins_at ins c) -> t = suf bnd' t' (l1 ++ [(x, b)]) l2 -> False).
  { intros bnd t c bnd' t' l1 x b l2 V V' E E1 E2. rewrite E1 in E2.
    destruct (SI _ _ _ _ [] (ins_at ins c) (l1 ++ [(x, b)]) l2 V V' eq_refl ltac:(rewrite <- app_assoc; exact E) E2) as (_ & E3 & _).
    destruct l1; discriminate. }
  destruct P1 as [P1|[P1|P1]], P2 as [P2|[P2|P2]].
  - destruct P1 as (bnd & t & c & V & Hc & -> & El & En), P2 as (bnd' & t' & c' & V' & Hc' & -> & El' & En'). rewrite En in En'.
    pose proof (v_child _ _ _ _ _ V (nth_error_In _ _ Hc)) as VC. pose proof (v_child _ _ _ _ _ V' (nth_error_In _ _ Hc')) as VC'.
    pose proof (SF _ _ _ _ VC VC' En'). subst c'.
    assert (Hcn : is_atom c = false).
    { destruct (is_atom c) eqn:Ea; auto. destruct (atom_spec _ Ea) as [Es _]. rewrite En, (no_ins_leaf _ Es) in Hn. unfold suf, body in Hn. simpl in Hn.
      rewrite atom_rebuild in Hn by apply map_length. congruence. }
    assert (Heq : t = t' /\ k1 = k2).
    { destruct (teqb t t') eqn:Et; [apply teqb_eq in Et; destruct (Nat.eq_dec k1 k2) as [|Nk]; [auto|]|];
        exfalso; destruct (ALL c t k1 t' k2 Hcn (visit_sub p ins W TR _ _ V) (visit_sub p ins W TR _ _ V') Hc Hc') as (d & x & Hi);
        try (eapply K1; [exact V|eapply nth_error_In; eauto|exact El|exact Hi]).
      - congruence.
      - intros E. injection E as E _. subst t'. rewrite teqb_refl in Et. discriminate. }
    destruct Heq as [<- <-]. split; auto. apply expand_same; auto.
  - exfalso. eapply X12; eauto.
  - exfalso. destruct P1 as (bnd & t & c & V & Hc & _ & _ & En), P2 as (bnd' & t' & l1 & x & b & l2 & V' & E & _ & _ & En').
    eapply X3; [exact (v_child _ _ _ _ _ V (nth_error_In _ _ Hc))|exact V'|exact E|exact En|exact En'].
  - exfalso. eapply X12; eauto.
  - destruct P1 as (bnd & t & l1 & x & b & l2 & V & E & -> & -> & En), P2 as (bnd' & t' & l1' & x' & b' & l2' & V' & E' & -> & -> & En').
    rewrite En in En'. pose proof (SF _ _ _ _ (v_bind _ _ _ _ _ _ _ _ V E) (v_bind _ _ _ _ _ _ _ _ V' E') En'). subst b'.
    pose proof (in_mid _ _ _ _ E) as Hi. pose proof (in_mid _ _ _ _ E') as Hi'.
    pose proof (it_once _ _ TR _ _ _ _ _ Hi Hi'). subst x'. destruct (ins_var _ _ _ _ _ Hi Hi') as [<- _].
    pose proof (iw_nodup _ _ W t) as ND. rewrite E in E', ND. destruct (split_unique _ _ _ _ _ _ _ ND E') as (<- & _ & <-).
    split; auto. apply expand_same; auto.
  - exfalso. destruct P1 as (bnd & t & l1 & x & b & l2 & V & E & _ & _ & En), P2 as (bnd' & t' & l1' & x' & b' & l2' & V' & E' & _ & _ & En').
    eapply X3; [exact (v_bind _ _ _ _ _ _ _ _ V E)|exact V'|exact E'|exact En|exact En'].
  - exfalso. destruct P2 as (bnd & t & c & V & Hc & _ & _ & En), P1 as (bnd' & t' & l1 & x & b & l2 & V' & E & _ & _ & En').
    eapply X3; [exact (v_child _ _ _ _ _ V (nth_error_In _ _ Hc))|exact V'|exact E|exact En|exact En'].
  - exfalso. destruct P2 as (bnd & t & l1 & x & b & l2 & V & E & _ & _ & En), P1 as (bnd' & t' & l1' & x' & b' & l2' & V' & E' & _ & _ & En').
    eapply X3; [exact (v_bind _ _ _ _ _ _ _ _ V E)|exact V'|exact E'|exact En|exact En'].
  - destruct P1 as (bnd & t & l1 & x & b & l2 & V & E & -> & -> & En), P2 as (bnd' & t' & l1' & x' & b' & l2' & V' & E' & -> & -> & En').
    rewrite En in En'.
    assert (EE : ins_at ins t = (l1 ++ [(x, b)]) ++ l2) by (rewrite <- app_assoc; exact E).
    assert (EE' : ins_at ins t' = (l1' ++ [(x', b')]) ++ l2') by (rewrite <- app_assoc; exact E').
    destruct (SI _ _ _ _ _ _ _ _ V V' EE EE' En') as (<- & E1 & <-).
    apply app_inj_tail in E1 as [<- E1]. injection E1 as <- <-. split; auto. apply expand_same; auto.
Qed.

(** *** Every term is expanded *)
Lemma lets_last (l : list (nat * T)) B : sub_of B (lets l B).
Proof.
  induction l as [|[x b] l IH]; simpl; [constructor|]. eapply sub_step; [|exact IH]. rewrite wrap_subs. simpl; auto.
Qed.

Lemma lets_bind l1 x (b : T) l2 : forall bnd t, sub_of (AA (bnd_after bnd l1) b) (lets (app bnd (l1 ++ (x, b) :: l2)) t).
Proof.
  induction l1 as [|[y c] l1 IH]; intros bnd t; simpl.
  - eapply sub_step; [rewrite wrap_subs; simpl; left; reflexivity|constructor].
  - eapply sub_step; [rewrite wrap_subs; simpl; right; left; reflexivity|]. apply IH.
Qed.

Lemma expanded : forall k t, tsize p - tsize t <= k -> sub_of t p ->
  exists bnd, vis bnd t /\ sub_of (suf bnd t [] (ins_at ins t)) (apply_insertions p ins).
Proof.
  induction k as [k IH] using lt_wf_ind. intros t Hk Ht.
  destruct (teqb t p) eqn:Ep.
  - apply teqb_eq in Ep. subst t. exists []. split; [constructor|]. rewrite apply_A. rewrite (A_eq p ins W TR). constructor.
  - assert (Hpar : exists t' k', sub_of t' p /\ nth_error (subs t') k' = Some t).
    { clear - L Ht Ep. induction Ht as [u|a c u Hc Hs IHs]; [rewrite teqb_refl in Ep; discriminate|].
      destruct (teqb a c) eqn:Ec.
      - apply teqb_eq in Ec. subst c. apply In_nth_error in Hc as [k Hk]. exists u, k. split; auto. constructor.
      - destruct (IHs eq_refl) as (t' & k' & H1 & H2). exists t', k'. split; auto. eapply sub_step; eauto. }
    destruct Hpar as (t' & k' & Ht' & Hk').
    assert (BIG : forall u, sub_of u p -> tsize t < tsize u -> exists bnd, vis bnd u /\ sub_of (suf bnd u [] (ins_at ins u)) (apply_insertions p ins)).
    { intros u Hu Hlt. eapply (IH (tsize p - tsize u)); auto. apply sub_of_size in Hu as [->|?]; [|lia].
      apply sub_of_size in Ht as [->|?]; lia. }
    pose proof (tsize_sub _ _ (nth_error_In _ _ Hk')) as Hsz. destruct (BIG t' Ht' Hsz) as (bnd & V & Hs).
    pose proof (v_child _ _ _ _ _ V (nth_error_In _ _ Hk')) as VC.
    destruct (A_cases _ _ VC) as [(x & d & _ & Hi)|[_ E]].
    + destruct (BIG d (it_site _ _ TR _ _ _ Hi) (site_size p ins W TR _ _ _ Hi)) as (bnd' & V' & Hs').
      pose proof Hi as Hi0. apply in_split in Hi0 as (l1 & l2 & E). pose proof (v_bind _ _ _ _ _ _ _ _ V' E) as VB.
      exists (bnd_after bnd' l1). split; auto.
      assert (E2 : AA (bnd_after bnd' l1) t = suf (bnd_after bnd' l1) t [] (ins_at ins t)).
      { rewrite (A_eq p ins W TR), (bind_look _ _ _ _ _ _ V' E). reflexivity. }
      eapply sub_of_trans; [|exact Hs']. rewrite <- E2. unfold suf. simpl. rewrite E. apply lets_bind.
    + exists (bnd_after bnd (ins_at ins t')). split; auto. rewrite <- E. eapply sub_of_trans; [|exact Hs].
      eapply sub_of_trans; [|apply lets_last]. eapply sub_step; [|constructor].
      unfold body. rewrite subs_rebuild by apply map_length. apply in_map. eapply nth_error_In; eauto.
Qed.

(** Terms without subterms stay. *)
Lemma leaf_stays t : sub_of t p -> subs t = [] -> sub_of t (apply_insertions p ins).
Proof.
  intros Ht Es. destruct (expanded _ t (le_n _) Ht) as (bnd & _ & Hs). unfold suf, body in Hs.
  rewrite (no_ins_leaf _ Es), Es in Hs. simpl in Hs. rewrite <- Es, rebuild_subs in Hs. exact Hs.
Qed.

(** Every new variable is used. *)
Lemma new_used d x b : In (x, b) (ins_at ins d) -> sub_of (wrap_var x b) (apply_insertions p ins).
Proof.
  intros Hi. destruct (scp _ _ _ Hi) as (Hs & Hne & _). pose proof (it_site _ _ TR _ _ _ Hi) as Hd.
  assert (Hpar : exists t', sub_of t' p /\ In b (subs t')).
  { clear - L Hs Hne Hd. induction Hs as [u|a c u Hc Hs IHs]; [congruence|].
    destruct (teqb a c) eqn:Ec.
    - apply teqb_eq in Ec. subst c. exists u. auto.
    - apply IHs; [intros ->; rewrite teqb_refl in Ec; discriminate|]. eapply sub_of_trans; [eapply sub_step; [eauto|constructor]|auto]. }
  destruct Hpar as (t' & Ht' & Hb). destruct (expanded _ t' (le_n _) Ht') as (bnd & V & Hx).
  eapply sub_of_trans; [|exact Hx]. eapply sub_of_trans; [|apply lets_last]. eapply sub_step; [|constructor].
  unfold body. rewrite subs_rebuild by apply map_length. apply in_map_iff. exists b. split; auto.
  rewrite (A_eq p ins W TR), (child_look _ _ _ _ _ V Hb Hi). reflexivity.
Qed.

(** What the new program captures. *)
Lemma new_capt m s : sub_of m (apply_insertions p ins) -> In s (capt m) ->
  (exists bnd t, vis bnd t /\ m = bod bnd t /\ In s (capt t)) \/ exists d x b, In (x, b) (ins_at ins d) /\ s = SV x.
Proof.
  intros Hm Hs. rewrite apply_A in Hm.
  destruct (origins p ins W TR _ _ _ _ (le_n _) (v_root p ins) Hm) as [(x & b & d & -> & _)|(bnd & t & V & [->|(l1 & x & b & l2 & E & ->)])].
  - destruct (symof_subs _ _ (symof_wrap x b)) as (_ & Ec & _). rewrite Ec in Hs. destruct Hs.
  - left. exists bnd, t. rewrite body_capt in Hs. auto.
  - right. rewrite new_let_capt in Hs. destruct Hs as [<-|[]]. exists t, x, b. split; auto. eapply in_mid; eauto.
Qed.

(** No free symbol is lost. *)
Lemma apply_keeps_free s : distinct_binders p -> isfree s p -> isfree s (apply_insertions p ins).
Proof.
  intros DB Hf. destruct (isfree_occ _ _ Hf) as (m & Hm & Hs). destruct (symof_subs _ _ Hs) as (Es & _).
  pose proof (leaf_stays _ Hm Es) as Hq. destruct (sub_chain _ _ Hq) as (l & C).
  eapply chain_free; [exact C|constructor; auto|]. intros n Hn _ Hc. destruct (chain_nodes _ _ _ _ C Hn) as [Hnq _].
  destruct (new_capt _ _ Hnq Hc) as [(bnd & t & V & _ & Ht)|(d & x & b & Hi & ->)].
  - apply (proj1 (DB t s (visit_sub p ins W TR _ _ V) Ht) Hf).
  - apply (proj2 (iw_fresh _ _ W _ _ _ m Hi Hm) Hs).
Qed.
End Insert.
