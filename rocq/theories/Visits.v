(** The nodes of a program after let insertion (ein/midend/lining.py:24-37):
    each node of the old program gives the same new nodes wherever it is visited,
    so the new program has distinct binders when the old one has. *)
From Verif Require Import Base Sym Term Lining Outline.

Section Visits.
Context {T : Type} {O : TermOps T} {L : TermLaws T}.

(** What the insertions made by both passes satisfy: the site is on every path to
    the binding; bindings at one site are listed inner first; a term is bound once;
    no binding is moved across the site of one of its subterms. *)
Record ins_tree (p : T) (ins : @insertions T) : Prop := {
  it_site : forall d x b, In (x, b) (ins_at ins d) -> sub_of d p;
  it_dom : forall d x b, In (x, b) (ins_at ins d) -> dominates p d b;
  it_order : forall d l1 x1 b1 l2 x2 b2, ins_at ins d = l1 ++ (x1, b1) :: l2 -> In (x2, b2) l2 -> ~ sub_of b2 b1;
  it_once : forall d d' x x' b, In (x, b) (ins_at ins d) -> In (x', b) (ins_at ins d') -> x = x';
  it_cross : forall d0 x0 b0 d x b, In (x0, b0) (ins_at ins d0) -> In (x, b) (ins_at ins d) ->
    sub_of b b0 -> sub_of b0 d -> b0 <> d -> sub_of d0 d
}.

Context (p : T) (ins : @insertions T).
Hypothesis W : ins_wf p ins.
Hypothesis TR : ins_tree p ins.

Definition look (bnd : list (T * T)) (b : T) : option (T * T) := find (fun q => teqb b (fst q)) bnd.
Fixpoint bnd_after (bnd : list (T * T)) (l : list (nat * T)) : list (T * T) :=
  match l with [] => bnd | (x, b) :: l => bnd_after ((b, wrap_var x b) :: bnd) l end.

(** [_apply_insertions] without fuel *)
Definition A (bnd : list (T * T)) (t : T) : T := apply_go (tsize t) ins bnd t.
Fixpoint applied (bnd : list (T * T)) (l : list (nat * T)) : list (nat * T) :=
  match l with [] => [] | (x, b) :: l => (x, A bnd b) :: applied ((b, wrap_var x b) :: bnd) l end.
Definition body (bnd : list (T * T)) (t : T) : T :=
  rebuild t (map (A (bnd_after bnd (ins_at ins t))) (subs t)).

Lemma scope_of d x b : In (x, b) (ins_at ins d) ->
  sub_of b d /\ b <> d /\ (forall s, isfree s b -> isfree s d).
Proof. intros H. apply (iw_scope _ _ W d x b); auto. eapply it_site; eauto. Qed.

Lemma site_size d x b : In (x, b) (ins_at ins d) -> tsize b < tsize d.
Proof. intros H. destruct (scope_of _ _ _ H) as (H1 & H2 & _). apply sub_of_size in H1 as [?|?]; [congruence|auto]. Qed.

Lemma ins_step_ext go1 go2 l : forall bnd, (forall x b bnd, In (x, b) l -> go1 bnd b = go2 bnd b) ->
  ins_step go1 l bnd = ins_step go2 l bnd.
Proof.
  induction l as [|[x b] l IH]; intros bnd H; simpl; auto.
  rewrite (IH ((b, wrap_var x b) :: bnd)) by (intros; eapply H; simpl; eauto).
  rewrite (H x b bnd) by (simpl; auto). reflexivity.
Qed.

Lemma apply_go_fuel : forall n m t bnd, tsize t <= n -> tsize t <= m -> apply_go n ins bnd t = apply_go m ins bnd t.
Proof.
  induction n as [|n IH]; intros m t bnd Hn Hm; [pose proof (tsize_pos t); lia|].
  destruct m as [|m]; [pose proof (tsize_pos t); lia|]. simpl.
  destruct (find _ bnd); auto.
  rewrite (ins_step_ext (apply_go n ins) (apply_go m ins)).
  - destruct (ins_step _ _ _) as [ap bnd']. f_equal. f_equal. apply map_ext_in. intros c Hc.
    apply tsize_sub in Hc. apply IH; lia.
  - intros x b bnd0 Hi. apply site_size in Hi. apply IH; lia.
Qed.

Lemma ins_step_A l t : incl l (ins_at ins t) -> forall bnd n, tsize t <= S n ->
  ins_step (apply_go n ins) l bnd = (applied bnd l, bnd_after bnd l).
Proof.
  intros Hl. induction l as [|[x b] l IH]; intros bnd n Hn; simpl; auto.
  rewrite IH by (auto; intros y Hy; apply Hl; simpl; auto).
  assert (tsize b < tsize t) by (eapply site_size; apply Hl; simpl; eauto).
  unfold A. rewrite (apply_go_fuel n (tsize b)) by lia. reflexivity.
Qed.

Lemma A_eq bnd t : A bnd t = match look bnd t with
  | Some q => snd q
  | None => lets (applied bnd (ins_at ins t)) (body bnd t)
  end.
Proof.
  unfold A. destruct (tsize t) as [|n] eqn:E; [pose proof (tsize_pos t); lia|]. simpl. fold (look bnd t).
  destruct (look bnd t); auto. rewrite (ins_step_A _ t (incl_refl _)) by lia. f_equal. unfold body. f_equal.
  apply map_ext_in. intros c Hc. unfold A. apply tsize_sub in Hc. apply apply_go_fuel; lia.
Qed.

Lemma look_cons b u bnd c : look ((b, u) :: bnd) c = if teqb c b then Some (b, u) else look bnd c.
Proof. reflexivity. Qed.

Lemma look_after l : forall bnd1 bnd2 b, look bnd1 b = look bnd2 b -> look (bnd_after bnd1 l) b = look (bnd_after bnd2 l) b.
Proof.
  induction l as [|[x c] l IH]; intros bnd1 bnd2 b H; simpl; auto.
  apply IH. rewrite !look_cons, H. reflexivity.
Qed.

(** Only the bindings of subterms matter. *)
Lemma A_ext : forall k t bnd1 bnd2, tsize t <= k -> sub_of t p ->
  (forall b, sub_of b t -> look bnd1 b = look bnd2 b) -> A bnd1 t = A bnd2 t.
Proof.
  induction k as [|k IH]; intros t bnd1 bnd2 Hk Ht H; [pose proof (tsize_pos t); lia|].
  rewrite !A_eq, (H t (sub_refl t)). destruct (look bnd2 t); auto.
  assert (AP : forall l b1 b2, incl l (ins_at ins t) -> (forall b, sub_of b t -> look b1 b = look b2 b) -> applied b1 l = applied b2 l).
  { induction l as [|[x b] l IHl]; intros b1 b2 Hl Hb; simpl; auto.
    assert (Hi : In (x, b) (ins_at ins t)) by (apply Hl; simpl; auto).
    destruct (scope_of _ _ _ Hi) as (H1 & _). pose proof (site_size _ _ _ Hi).
    f_equal.
    - f_equal. apply IH; [lia|eapply sub_of_trans; eauto|]. intros c Hc. apply Hb. eapply sub_of_trans; eauto.
    - apply IHl; [intros y Hy; apply Hl; simpl; auto|]. intros c Hc. rewrite !look_cons, (Hb c Hc). reflexivity. }
  rewrite (AP _ bnd1 bnd2 (incl_refl _) H). f_equal. unfold body. f_equal. apply map_ext_in. intros c Hc.
  assert (Hct : sub_of c t) by (eapply sub_step; [eauto|constructor]).
  apply IH; [apply tsize_sub in Hc; lia|eapply sub_of_trans; eauto|].
  intros b Hb. apply look_after. apply H. eapply sub_of_trans; eauto.
Qed.

(** A node is expanded the same way whenever the bindings of its proper subterms agree. *)
Lemma expand_ext t bnd1 bnd2 : sub_of t p -> (forall b, sub_of b t -> b <> t -> look bnd1 b = look bnd2 b) ->
  body bnd1 t = body bnd2 t /\
  forall l1 l2, ins_at ins t = l1 ++ l2 -> applied (bnd_after bnd1 l1) l2 = applied (bnd_after bnd2 l1) l2.
Proof.
  intros Ht H. split.
  - unfold body. f_equal. apply map_ext_in. intros c Hc. pose proof (tsize_sub _ _ Hc) as Hsz.
    assert (Hct : sub_of c t) by (eapply sub_step; [eauto|constructor]).
    apply (A_ext (tsize c)); [lia|eapply sub_of_trans; eauto|].
    intros b Hb. apply look_after. apply H; [eapply sub_of_trans; eauto|].
    intros ->. apply sub_of_size in Hb as [?|?]; [subst|]; lia.
  - intros l1 l2 HL.
    assert (AP : forall l b1 b2, incl l (ins_at ins t) -> (forall b, sub_of b t -> b <> t -> look b1 b = look b2 b) -> applied b1 l = applied b2 l).
    { induction l as [|[x b] l IHl]; intros b1 b2 Hl Hb; simpl; auto.
      assert (Hi : In (x, b) (ins_at ins t)) by (apply Hl; simpl; auto).
      destruct (scope_of _ _ _ Hi) as (H1 & H2 & _). pose proof (site_size _ _ _ Hi).
      f_equal.
      - f_equal. apply (A_ext (tsize b)); [lia|eapply sub_of_trans; eauto|]. intros c Hc. apply Hb; [eapply sub_of_trans; eauto|].
        intros ->. apply sub_of_size in Hc as [?|?]; [subst|]; lia.
      - apply IHl; [intros y Hy; apply Hl; simpl; auto|]. intros c Hc Hne. rewrite !look_cons, (Hb c Hc Hne). reflexivity. }
    apply AP; [rewrite HL; intros y Hy; apply in_or_app; auto|]. intros b Hb Hne. apply look_after. auto.
Qed.

(** The visits of [_apply_insertions]. *)
Inductive visit : list (T * T) -> T -> Prop :=
| v_root : visit [] p
| v_bind bnd t l1 x b l2 : visit bnd t -> ins_at ins t = l1 ++ (x, b) :: l2 -> visit (bnd_after bnd l1) b
| v_child bnd t c : visit bnd t -> In c (subs t) -> visit (bnd_after bnd (ins_at ins t)) c.

Lemma in_mid {X} (l1 : list X) a l2 l : l = l1 ++ a :: l2 -> In a l.
Proof. intros ->. apply in_or_app. simpl. auto. Qed.

Lemma visit_sub bnd t : visit bnd t -> sub_of t p.
Proof.
  induction 1 as [|bnd t l1 x b l2 H IH E|bnd t c H IH Hc]; [constructor| |].
  - apply in_mid in E. destruct (scope_of _ _ _ E) as (H1 & _). eapply sub_of_trans; eauto.
  - eapply sub_of_trans; [eapply sub_step; [eauto|constructor]|auto].
Qed.

Lemma after_In l : forall bnd b u, In (b, u) (bnd_after bnd l) <-> In (b, u) bnd \/ exists x, In (x, b) l /\ u = wrap_var x b.
Proof.
  induction l as [|[x c] l IH]; intros bnd b u; simpl.
  - split; auto. intros [?|(x & [] & _)]; auto.
  - rewrite IH. simpl. split.
    + intros [[E|?]|(y & ? & ?)]; auto; [injection E as <- <-; right; exists x; auto|right; exists y; auto].
    + intros [?|(y & [E|?] & Hu)]; auto; [injection E as -> ->; left; left; subst; auto|right; exists y; auto].
Qed.

Lemma visit_sound bnd t : visit bnd t -> forall b u, In (b, u) bnd ->
  exists x d, u = wrap_var x b /\ In (x, b) (ins_at ins d) /\ sub_of t d /\ tsize t < tsize d.
Proof.
  induction 1 as [|bnd t l1 x b l2 H IH E|bnd t c H IH Hc]; intros b' u Hi; [destruct Hi| |].
  - pose proof (in_mid _ _ _ _ E) as Hb. destruct (scope_of _ _ _ Hb) as (H1 & _). pose proof (site_size _ _ _ Hb).
    apply after_In in Hi as [Hi|(y & Hi & ->)].
    + destruct (IH _ _ Hi) as (z & d & -> & Hd & S1 & S2). exists z, d. repeat split; auto; [eapply sub_of_trans; eauto|lia].
    + exists y, t. repeat split; auto. rewrite E. apply in_or_app; auto.
  - assert (H1 : sub_of c t) by (eapply sub_step; [eauto|constructor]). pose proof (tsize_sub _ _ Hc).
    apply after_In in Hi as [Hi|(y & Hi & ->)].
    + destruct (IH _ _ Hi) as (z & d & -> & Hd & S1 & S2). exists z, d. repeat split; auto; [eapply sub_of_trans; eauto|lia].
    + exists y, t. repeat split; auto.
Qed.

Lemma visit_chain bnd t : visit bnd t -> exists l, chain p t l.
Proof. intros H. apply sub_chain. eapply visit_sub; eauto. Qed.

Lemma visit_complete bnd t : visit bnd t -> forall d x b, In (x, b) (ins_at ins d) ->
  sub_of b t -> b <> t -> sub_of t d -> t <> d -> In (b, wrap_var x b) bnd.
Proof.
  induction 1 as [|bnd t l1 x0 b0 l2 H IH E|bnd t c H IH Hc]; intros d x b Hi Hb Hne Htd Hnd.
  - exfalso. apply Hnd. apply sub_of_antisym; auto. eapply it_site; eauto.
  - pose proof (in_mid _ _ _ _ E) as Hb0. destruct (scope_of _ _ _ Hb0) as (S1 & S2 & _).
    pose proof (it_cross _ _ TR _ _ _ _ _ _ Hb0 Hi Hb Htd Hnd) as Sd.
    apply after_In. destruct (teqb t d) eqn:Et.
    + apply teqb_eq in Et. subst d. right. exists x. split; auto.
      rewrite E in Hi. apply in_app_iff in Hi as [Hi|[Hi|Hi]]; auto.
      * injection Hi as <- <-. congruence.
      * exfalso.
        exact (it_order _ _ TR t l1 x0 b0 l2 x b E Hi Hb).
    + left. eapply (IH d x b); eauto.
      * eapply sub_of_trans; eauto.
      * intros ->. apply S2. apply sub_of_antisym; auto.
      * intros ->. rewrite teqb_refl in Et. discriminate.
  - assert (Hct : sub_of c t) by (eapply sub_step; [eauto|constructor]). pose proof (tsize_sub _ _ Hc) as Hsz.
    assert (Std : sub_of t d).
    { pose proof (it_dom _ _ TR _ _ _ Hi) as Hdom.
      apply In_nth_error in Hc as [k Hk].
      destruct (visit_chain _ _ H) as (m1 & C1). destruct (sub_chain _ _ Hb) as (m3 & C3).
      destruct (chain_app _ _ _ _ _ C1 (ch_step t k c b m3 Hk C3)) as (m & C & I).
      destruct (I _ (Hdom _ C)) as [Hd|[Hd|Hd]].
      - apply (chain_nodes _ _ _ _ C1 Hd).
      - rewrite Hd. constructor.
      - apply (chain_nodes _ _ _ _ C3) in Hd as [Hd _]. exfalso. apply Hnd. apply sub_of_antisym; auto. }
    apply after_In. destruct (teqb t d) eqn:Et.
    + apply teqb_eq in Et. subst d. right. eauto.
    + left. eapply (IH d x b); eauto.
      * eapply sub_of_trans; eauto.
      * intros ->. apply sub_of_size in Hb as [?|?]; [subst|]; lia.
      * intros ->. rewrite teqb_refl in Et. discriminate.
Qed.

Lemma look_In bnd b q : look bnd b = Some q -> exists u, q = (b, u) /\ In (b, u) bnd.
Proof.
  intros H. apply find_some in H as [H1 H2]. apply teqb_eq in H2. destruct q as [b' u]. simpl in H2. subst. eauto.
Qed.

Lemma visit_agree bnd1 bnd2 t b : visit bnd1 t -> visit bnd2 t -> sub_of b t -> b <> t -> look bnd1 b = look bnd2 b.
Proof.
  assert (H : forall bnd1 bnd2 q, visit bnd1 t -> visit bnd2 t -> sub_of b t -> b <> t -> look bnd1 b = Some q -> look bnd2 b = Some q).
  { clear bnd1 bnd2. intros bnd1 bnd2 q V1 V2 Hb Hne Hq. apply look_In in Hq as (u & -> & Hi).
    destruct (visit_sound _ _ V1 _ _ Hi) as (x & d & -> & Hd & S1 & S2).
    assert (Hi2 : In (b, wrap_var x b) bnd2).
    { eapply visit_complete; eauto. intros ->. lia. }
    destruct (look bnd2 b) as [q|] eqn:E.
    - apply look_In in E as (u & -> & Hu). destruct (visit_sound _ _ V2 _ _ Hu) as (y & d' & -> & Hd' & _).
      rewrite (it_once _ _ TR _ _ _ _ _ Hd Hd'). reflexivity.
    - exfalso. apply (find_none _ _ E) in Hi2. simpl in Hi2. rewrite teqb_refl in Hi2. discriminate. }
  intros V1 V2 Hb Hne. destruct (look bnd1 b) as [q|] eqn:E1.
  - symmetry. eauto.
  - destruct (look bnd2 b) as [q|] eqn:E2; auto. rewrite <- E1. eauto.
Qed.

(** The nodes of the new program. *)
Definition new_let (bnd : list (T * T)) (t : T) (l1 : list (nat * T)) (x : nat) (b : T) (l2 : list (nat * T)) : T :=
  wrap_let x (A (bnd_after bnd l1) b) (lets (applied ((b, wrap_var x b) :: bnd_after bnd l1) l2) (body bnd t)).

Definition origin (n : T) : Prop :=
  (exists x b d, n = wrap_var x b /\ In (x, b) (ins_at ins d)) \/
  exists bnd t, visit bnd t /\
    (n = body bnd t \/
     exists l1 x b l2, ins_at ins t = l1 ++ (x, b) :: l2 /\ n = new_let bnd t l1 x b l2).

Lemma after_snoc l1 x b : forall bnd, bnd_after bnd (l1 ++ [(x, b)]) = (b, wrap_var x b) :: bnd_after bnd l1.
Proof. induction l1 as [|[y c] l1 IH]; intros bnd; simpl; auto. Qed.

Lemma sub_leaf n t : subs t = [] -> sub_of n t -> n = t.
Proof. intros H Hs. inversion Hs as [|? c ? Hc]; subst; auto. rewrite H in Hc. destruct Hc. Qed.

Lemma wrap_subs x b t : subs (wrap_let x b t) = [b; t].
Proof. apply (unlet_spec _ _ _ _ (unlet_wrap x b t)). Qed.

Lemma origins : forall k t bnd n, tsize t <= k -> visit bnd t -> sub_of n (A bnd t) -> origin n.
Proof.
  induction k as [|k IH]; intros t bnd n Hk V Hn; [pose proof (tsize_pos t); lia|].
  rewrite A_eq in Hn. destruct (look bnd t) as [q|] eqn:El.
  - apply look_In in El as (u & -> & Hi). simpl in Hn.
    destruct (visit_sound _ _ V _ _ Hi) as (x & d & -> & Hd & _).
    left. exists x, t, d. split; auto. apply sub_leaf; auto. eapply symof_subs. apply symof_wrap.
  - assert (LL : forall l2 l1, ins_at ins t = l1 ++ l2 ->
      sub_of n (lets (applied (bnd_after bnd l1) l2) (body bnd t)) -> origin n).
    { clear Hn. induction l2 as [|[x b] l2 IHl]; intros l1 E Hn.
      - simpl in Hn. inversion Hn as [|? c ? Hc Hs]; subst.
        + right. exists bnd, t. split; auto.
        + unfold body in Hc. rewrite subs_rebuild in Hc by apply map_length.
          apply in_map_iff in Hc as (c0 & <- & Hc0).
          eapply (IH c0); [apply tsize_sub in Hc0; lia|eapply v_child; eauto|exact Hs].
      - simpl in Hn. inversion Hn as [|? c ? Hc Hs]; subst.
        + right. exists bnd, t. split; auto. right. exists l1, x, b, l2. split; auto.
        + rewrite wrap_subs in Hc. destruct Hc as [<-|[<-|[]]].
          * eapply (IH b); [|eapply v_bind; eauto|exact Hs]. pose proof (site_size t x b (in_mid _ _ _ _ E)). lia.
          * apply (IHl (l1 ++ [(x, b)])); [rewrite <- app_assoc; exact E|]. rewrite after_snoc. exact Hs. }
    apply (LL _ [] eq_refl). exact Hn.
Qed.

Lemma body_capt bnd t : capt (body bnd t) = capt t.
Proof. apply capt_rebuild, map_length. Qed.
Lemma new_let_capt bnd t l1 x b l2 : capt (new_let bnd t l1 x b l2) = [SV x].
Proof. apply (unlet_spec _ _ _ _ (unlet_wrap x _ _)). Qed.

Lemma apply_A : apply_insertions p ins = A [] p.
Proof. reflexivity. Qed.

(** Free symbols of the new program. *)
Lemma lets_free s l B : isfree s (lets l B) ->
  (exists l1 x b l2, l = l1 ++ (x, b) :: l2 /\ isfree s b /\ forall y c, In (y, c) l1 -> s <> SV y) \/
  (isfree s B /\ forall y c, In (y, c) l -> s <> SV y).
Proof.
  induction l as [|[x b] l IH]; simpl; intros H; [right; split; auto; intros y c []|].
  destruct (unlet_spec _ _ _ _ (unlet_wrap x b (lets l B))) as (Es & _ & Esc & Esy).
  inversion H as [? H0|? k c sc Hc Hsc Hf Hn]; subst; [congruence|].
  rewrite Es in Hc. rewrite Esc in Hsc. destruct k as [|[|k]]; simpl in Hc, Hsc; [| |destruct k; discriminate].
  - injection Hc as <-. left. exists [], x, b, l. split; [auto|]. split; [auto|]. intros y c [].
  - injection Hc as <-. injection Hsc as <-. assert (Hx : s <> SV x) by (intros ->; apply Hn; simpl; auto).
    destruct (IH Hf) as [(l1 & y & c & l2 & -> & H1 & H2)|[H1 H2]].
    + left. exists ((x, b) :: l1), y, c, l2. split; auto. split; auto.
      intros z e [E|Hz]; [injection E as <- <-; auto|eauto].
    + right. split; auto. intros z e [E|Hz]; [injection E as <- <-; auto|eauto].
Qed.

Lemma applied_split l : forall bnd l1 x b l2, applied bnd l = l1 ++ (x, b) :: l2 ->
  exists m1 c m2, l = m1 ++ (x, c) :: m2 /\ b = A (bnd_after bnd m1) c /\ map fst l1 = map fst m1.
Proof.
  induction l as [|[y c] l IH]; intros bnd l1 x b l2 H; simpl in H; [destruct l1; discriminate|].
  destruct l1 as [|[z e] l1]; simpl in H; injection H as H1 H2.
  - subst. exists [], c, l. auto.
  - intros. destruct (IH _ _ _ _ _ H) as (m1 & c' & m2 & -> & -> & Hm). exists ((y, c) :: m1), c', m2. subst z.
    split; auto. split; auto. simpl. f_equal. auto.
Qed.

Lemma applied_fst l : forall bnd, map fst (applied bnd l) = map fst l.
Proof. induction l as [|[x b] l IH]; intros bnd; simpl; auto. f_equal. apply IH. Qed.

Lemma after_free s l bnd x b : In (b, wrap_var x b) (bnd_after bnd l) -> s = SV x ->
  (exists x' b', In (b', wrap_var x' b') bnd /\ s = SV x') \/ exists b', In (x, b') l.
Proof.
  intros H ->. apply after_In in H as [H|(y & H & E)]; [left; eauto|]. apply wrap_var_inj in E as <-. right. eauto.
Qed.

Lemma A_free : forall k t bnd s, tsize t <= k -> visit bnd t -> isfree s (A bnd t) ->
  isfree s t \/ exists x b, In (b, wrap_var x b) bnd /\ s = SV x.
Proof.
  induction k as [|k IH]; intros t bnd s Hk V Hs; [pose proof (tsize_pos t); lia|].
  rewrite A_eq in Hs. destruct (look bnd t) as [q|] eqn:El.
  - apply look_In in El as (u & -> & Hi). simpl in Hs.
    destruct (visit_sound _ _ V _ _ Hi) as (x & d & -> & Hd & _). right. exists x, t. split; auto.
    pose proof (symof_wrap x t) as E. inversion Hs as [? H0|? j c sc Hc]; subst; [congruence|].
    apply symof_subs in E as (E & _). rewrite E in Hc. destruct j; discriminate.
  - apply lets_free in Hs as [(l1 & x & b & l2 & E & Hf & Hn)|[Hf Hn]].
    + apply applied_split in E as (m1 & c & m2 & E & -> & Em).
      pose proof (in_mid _ _ _ _ E) as Hi. destruct (scope_of _ _ _ Hi) as (_ & _ & Hfr). pose proof (site_size _ _ _ Hi).
      destruct (IH c _ s ltac:(lia) (v_bind _ _ _ _ _ _ V E) Hf) as [H1|(y & e & H1 & ->)]; [auto|].
      destruct (after_free _ _ _ _ _ H1 eq_refl) as [(x' & b' & H2 & H3)|(b' & H2)]; [right; eauto|].
      exfalso. assert (Hy : In y (map fst l1)) by (rewrite Em; apply in_map_iff; exists (y, b'); auto).
      apply in_map_iff in Hy as ([y' c'] & Ey & Hy). simpl in Ey. subst y'. apply (Hn _ _ Hy). reflexivity.
    + unfold body in Hf. destruct (symof t) as [s0|] eqn:Es.
      * assert (Er : rebuild t (map (A (bnd_after bnd (ins_at ins t))) (subs t)) = t).
        { destruct (symof_subs _ _ Es) as (Ec & _). rewrite Ec. simpl. rewrite <- Ec. apply rebuild_subs. }
        rewrite Er in Hf. auto.
      * apply isfree_rebuild in Hf as (j & c & sc & Hc & Hsc & Hfc & Hns); [|auto|apply map_length].
        rewrite nth_error_map in Hc. destruct (nth_error (subs t) j) as [c0|] eqn:Ec; [|discriminate]. injection Hc as <-.
        pose proof (nth_error_In _ _ Ec) as Hin. pose proof (tsize_sub _ _ Hin).
        destruct (IH c0 _ s ltac:(lia) (v_child _ _ _ V Hin) Hfc) as [H1|(y & e & H1 & ->)].
        -- left. eapply free_sub; eauto.
        -- destruct (after_free _ _ _ _ _ H1 eq_refl) as [(x' & b' & H2 & H3)|(b' & H2)]; [right; eauto|].
           exfalso. assert (Hy : In y (map fst (applied bnd (ins_at ins t)))) by (rewrite applied_fst; apply in_map_iff; exists (y, b'); auto).
           apply in_map_iff in Hy as ([y' c'] & Ey & Hy). simpl in Ey. subst y'. apply (Hn _ _ Hy). reflexivity.
Qed.

Lemma apply_free s : isfree s (apply_insertions p ins) -> isfree s p.
Proof.
  intros H. rewrite apply_A in H. destruct (A_free (tsize p) p [] s (le_n _) v_root H) as [?|(x & b & [] & _)]; auto.
Qed.

(** Let insertion preserves distinct binders. *)
Lemma apply_distinct : distinct_binders p -> distinct_binders (apply_insertions p ins).
Proof.
  intros DB n s Hn Hs.
  assert (OR : forall n, sub_of n (apply_insertions p ins) -> origin n)
    by (intros m Hm; rewrite apply_A in Hm; eapply origins; [|apply v_root|exact Hm]; auto).
  assert (NW : forall x b d t, In (x, b) (ins_at ins d) -> sub_of t p -> ~ In (SV x) (capt t))
    by (intros x b d t Hi Ht; apply (iw_fresh _ _ W d x b t Hi Ht)).
  assert (CP : forall n, sub_of n (apply_insertions p ins) -> In s (capt n) ->
     exists bnd t, visit bnd t /\
       ((n = body bnd t /\ In s (capt t)) \/
        exists l1 x b l2, ins_at ins t = l1 ++ (x, b) :: l2 /\ n = new_let bnd t l1 x b l2 /\ s = SV x)).
  { intros m Hm Hc. destruct (OR m Hm) as [(x & b & d & -> & _)|(bnd & t & V & [->|(l1 & x & b & l2 & E & ->)])].
    - pose proof (symof_subs _ _ (symof_wrap x b)) as (_ & E & _). rewrite E in Hc. destruct Hc.
    - exists bnd, t. split; auto. left. split; auto. rewrite body_capt in Hc. auto.
    - exists bnd, t. split; auto. right. exists l1, x, b, l2. split; auto. split; auto.
      rewrite new_let_capt in Hc. destruct Hc as [<-|[]]. auto. }
  split.
  - intros Hf. apply apply_free in Hf.
    destruct (CP n Hn Hs) as (bnd & t & V & [(-> & Hc)|(l1 & x & b & l2 & E & -> & ->)]).
    + apply (proj1 (DB t s (visit_sub _ _ V) Hc) Hf).
    + apply isfree_occ in Hf as (m & Hm & Hx). apply (proj2 (iw_fresh _ _ W t x b m (in_mid _ _ _ _ E) Hm) Hx).
  - intros n' Hn' Hs'.
    destruct (CP n Hn Hs) as (bnd & t & V & H1), (CP n' Hn' Hs') as (bnd' & t' & V' & H2).
    assert (EX : t' = t -> body bnd t = body bnd' t /\
       forall l1 l2, ins_at ins t = l1 ++ l2 -> applied (bnd_after bnd l1) l2 = applied (bnd_after bnd' l1) l2).
    { intros ->. apply expand_ext; [eapply visit_sub; eauto|]. intros b Hb Hne. eapply visit_agree; eauto. }
    destruct H1 as [(-> & Hc)|(l1 & x & b & l2 & E & -> & ->)], H2 as [(-> & Hc')|(l1' & x' & b' & l2' & E' & -> & E2)].
    + pose proof (proj2 (DB t s (visit_sub _ _ V) Hc) t' (visit_sub _ _ V') Hc') as Et.
      destruct (EX Et) as [-> _]. subst. reflexivity.
    + exfalso. subst s. apply (NW x' b' t' t (in_mid _ _ _ _ E') (visit_sub _ _ V)). auto.
    + exfalso. apply (NW x b t t' (in_mid _ _ _ _ E) (visit_sub _ _ V')). auto.
    + injection E2 as <-.
      pose proof (iw_uniq _ _ W _ _ _ _ _ (in_mid _ _ _ _ E') (in_mid _ _ _ _ E)) as Et. destruct (EX Et) as [EB EA]. subst t'.
      assert (EL : l1 = l1' /\ b = b' /\ l2 = l2').
      { pose proof (iw_nodup _ _ W t) as ND. rewrite E in E'. rewrite E, map_app in ND. simpl in ND. clear -E' ND.
        revert l1' E' ND. induction l1 as [|[y c] l1 IH]; intros [|[y' c'] l1'] E' ND; simpl in *; injection E' as E1 E2.
        - subst. auto.
        - intros. subst. exfalso. inversion ND; subst. apply H1. rewrite map_app. apply in_or_app. simpl. auto.
        - intros. subst. exfalso. inversion ND; subst. apply H1. apply in_or_app. simpl. auto.
        - intros. subst. inversion ND; subst. destruct (IH _ H H3) as (-> & -> & ->). auto. }
      destruct EL as (<- & <- & <-). unfold new_let.
      pose proof (EA _ _ E) as EA1. simpl in EA1. injection EA1 as EA1 EA2. rewrite EA1, EA2, EB. reflexivity.
Qed.

(** Fresh variables stay below the counter. *)
Lemma apply_above n1 n2 : above n1 p -> n1 <= n2 -> (forall d x b, In (x, b) (ins_at ins d) -> x < n2) -> above n2 (apply_insertions p ins).
Proof.
  intros AB Hle HI n x Hn Hx. rewrite apply_A in Hn.
  destruct (origins _ _ _ _ (le_n _) v_root Hn) as [(y & b & d & -> & Hi)|(bnd & t & V & [->|(l1 & y & b & l2 & E & ->)])].
  - pose proof (symof_wrap y b) as Es. destruct (symof_subs _ _ Es) as (_ & Ec & _). rewrite Ec, Es in Hx.
    destruct Hx as [[]|Hx]. injection Hx as <-. eauto.
  - rewrite body_capt in Hx. unfold body in Hx. rewrite symof_rebuild in Hx by apply map_length.
    pose proof (AB t x (visit_sub _ _ V) Hx). lia.
  - rewrite new_let_capt in Hx. destruct (unlet_spec _ _ _ _ (unlet_wrap y (A (bnd_after bnd l1) b) (lets (applied ((b, wrap_var y b) :: bnd_after bnd l1) l2) (body bnd t)))) as (_ & _ & _ & Es).
    unfold new_let in Hx. rewrite Es in Hx. destruct Hx as [[Hx|[]]|Hx]; [|discriminate]. injection Hx as <-.
    eapply HI. eapply in_mid. exact E.
Qed.

End Visits.
