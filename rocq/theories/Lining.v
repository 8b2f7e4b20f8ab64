(** Correctness of inlining and let insertion (ein/midend/lining.py) for any
    term language with a compositional semantics. *)
From Verif Require Import Base Sym Term.

Section Lining.
Context {T : Type} {O : TermOps T} {L : TermLaws T}.

(** No binder rebinds a symbol that is already in use around it: [G] holds of
    the symbols in scope. *)
Inductive noshadow : (sym -> Prop) -> T -> Prop :=
| ns_node (G : sym -> Prop) t :
    (forall s, In s (capt t) -> ~ G s) ->
    (forall k c sc, nth_error (subs t) k = Some c -> nth_error (scopes t) k = Some sc ->
       noshadow (fun s => G s \/ In s sc) c) ->
    noshadow G t.

(** No binder inside a subterm captures a symbol free in that subterm. *)
Definition unshadowed (p : T) : Prop :=
  forall d n s, sub_of d p -> sub_of n d -> In s (capt n) -> ~ isfree s d.

Lemma noshadow_unshadowed G t :
  noshadow G t -> (forall s, isfree s t -> G s) -> unshadowed t.
Proof.
  intros H. assert (HG : (forall s, isfree s t -> G s) ->
      forall d n s, sub_of d t -> sub_of n d -> In s (capt n) -> ~ isfree s d); [|exact HG].
  assert (Hno : forall G t, noshadow G t -> forall n s, sub_of n t -> In s (capt n) -> ~ G s).
  { clear - L. induction 1 as [G t Hc Hk IH]. intros n s Hn Hs.
    inversion Hn as [|? c ? Hin Hsub]; subst; [auto|].
    apply In_nth_error in Hin as [k Hk']. destruct (nth_error_scope _ _ _ Hk') as [sc Hsc].
    intros Hg. eapply IH; eauto. }
  induction H as [G t Hc Hk IH]. intros HG d n s Hd Hn Hs Hf.
  inversion Hd as [|? c ? Hin Hsub]; subst.
  - exact (Hno G t (ns_node G t Hc Hk) n s Hn Hs (HG _ Hf)).
  - apply In_nth_error in Hin as [k Hk']. destruct (nth_error_scope _ _ _ Hk') as [sc Hsc].
    eapply (IH k c sc); eauto. intros s' Hs'.
    destruct (in_dec sym_eq_dec s' sc); [auto|left]. apply HG. eapply free_sub; eauto.
Qed.

Lemma unshadowed_hygienic t : unshadowed t -> hygienic t.
Proof.
  intros H n k c sc s Hn Hc Hsc Hs Hf. destruct (in_dec sym_eq_dec s sc); auto.
  exfalso. eapply (H n n); eauto; [constructor|]. eapply free_sub; eauto.
Qed.

Lemma unshadowed_sub c t : sub_of c t -> unshadowed t -> unshadowed c.
Proof. intros H U d n s Hd. apply U. eapply sub_of_trans; eauto. Qed.

Lemma sub_child k c t : nth_error (subs t) k = Some c -> sub_of c t.
Proof. intros H. eapply sub_step; [eapply nth_error_In; eauto|constructor]. Qed.

Lemma isfree_occ s t : isfree s t -> exists m, sub_of m t /\ symof m = Some s.
Proof.
  induction 1 as [t H|t k c sc Hc Hsc Hf (m & Hm & Hs) Hn].
  - exists t. split; [constructor|auto].
  - exists m. split; auto. eapply sub_of_trans; [exact Hm|eapply sub_child; eauto].
Qed.

Lemma isfree_rebuild s t cs :
  symof t = None -> length cs = length (subs t) -> isfree s (rebuild t cs) ->
  exists k c sc, nth_error cs k = Some c /\ nth_error (scopes t) k = Some sc /\
    isfree s c /\ ~ In s sc.
Proof.
  intros Hs Hl H. inversion H as [? H0|? k c sc Hc Hsc Hf Hn]; subst.
  - rewrite symof_rebuild in H0 by auto. congruence.
  - rewrite subs_rebuild in Hc by auto. rewrite scopes_rebuild in Hsc by auto. eauto 10.
Qed.

(** ** Inlining *)
Lemma blook_cons x y (r : T) bound :
  blook x ((y, r) :: bound) = if x =? y then Some r else blook x bound.
Proof. unfold blook. simpl. destruct (x =? y); reflexivity. Qed.

Lemma inline_go_free fuel o : forall t bound (D : sym -> Prop),
  tsize t <= fuel ->
  (forall s, isfree s t -> D s \/ exists x r, s = SV x /\ blook x bound = Some r) ->
  (forall x r s, blook x bound = Some r -> isfree s r -> D s) ->
  forall s, isfree s (inline_go fuel o bound t) -> D s.
Proof.
  induction fuel as [|fuel IH]; intros t bound D Hf H1 H2 s Hs.
  { pose proof (tsize_pos t). lia. }
  assert (Hfall : isfree s (match symof t with
        | Some (SV x) =>
            match blook x bound with
            | Some r => r
            | None => rebuild t (map (inline_go fuel o bound) (subs t))
            end
        | _ => rebuild t (map (inline_go fuel o bound) (subs t))
        end) -> D s).
  { clear Hs. intros Hs. destruct (symof t) as [s'|] eqn:Es.
    - assert (Er : rebuild t (map (inline_go fuel o bound) (subs t)) = t).
      { destruct (symof_subs _ _ Es) as (E & _). rewrite E. simpl. rewrite <- E.
        apply rebuild_subs. }
      assert (Ht : isfree s t -> blook (match s' with SV x => x | SX x => x end) bound = None
                   \/ is_index s' = true -> D s).
      { intros Hi Hb. destruct (H1 _ Hi) as [?|(x & r & -> & Hr)]; auto.
        inversion Hi as [? Hi'|? k c sc Hc]; subst.
        - rewrite Es in Hi'. injection Hi' as ->. simpl in Hb. destruct Hb; congruence.
        - destruct (symof_subs _ _ Es) as (E & _). rewrite E in Hc. destruct k; discriminate. }
      destruct s' as [x|x].
      + destruct (blook x bound) as [r|] eqn:Eb; [eapply H2; eauto|].
        rewrite Er in Hs. auto.
      + rewrite Er in Hs. auto.
    - apply isfree_rebuild in Hs as (k & c & sc & Hc & Hsc & Hfc & Hn);
        [|auto|apply map_length].
      rewrite nth_error_map in Hc. destruct (nth_error (subs t) k) as [c0|] eqn:Ec; [|discriminate].
      injection Hc as <-.
      assert (HD : D s \/ In s sc); [|tauto].
      eapply (IH c0 bound (fun s => D s \/ In s sc)); eauto.
      + apply nth_error_In, tsize_sub in Ec. lia.
      + intros s' Hs'. destruct (in_dec sym_eq_dec s' sc); auto.
        destruct (H1 s') as [?|?]; auto. eapply free_sub; eauto. }
  simpl in Hs. destruct (unlet t) as [[[x b] body]|] eqn:Eu; auto.
  destruct (if o then is_atom b else true); auto.
  destruct (unlet_spec _ _ _ _ Eu) as (Esub & _ & Esc & _).
  assert (Sb : tsize b < tsize t) by (apply tsize_sub; rewrite Esub; simpl; auto).
  assert (Sy : tsize body < tsize t) by (apply tsize_sub; rewrite Esub; simpl; auto).
  eapply IH in Hs; [exact Hs|lia| |].
  - intros s' Hs'. destruct (sym_eq_dec s' (SV x)) as [->|Nx].
    + right. exists x. eexists. split; [reflexivity|]. rewrite blook_cons, Nat.eqb_refl. reflexivity.
    + destruct (H1 s') as [?|(y & r & -> & Hr)]; auto.
      * eapply (free_sub _ t 1 body [SV x]); rewrite ?Esub, ?Esc; auto. simpl. intuition congruence.
      * right. exists y. exists r. split; auto. rewrite blook_cons.
        destruct (y =? x) eqn:E; auto. apply Nat.eqb_eq in E. congruence.
  - intros y r s'. rewrite blook_cons. destruct (y =? x) eqn:E.
    + intros Hr; injection Hr as <-. apply IH; auto; [lia|].
      intros s'' Hs''. apply H1. eapply (free_sub _ t 0 b []); rewrite ?Esub, ?Esc; auto.
    + apply H2.
Qed.

Section Sem.
Context {V : Type} {sem : genv V -> T -> res V} {S : TermSem T V sem}.

Definition inline_env (bound : list (nat * T)) (E E0 : genv V) : Prop :=
  forall s, match (match s with SV x => blook x bound | SX _ => None end) with
            | Some r => exists v, sem E0 r = Ok v /\ E s = Some v
            | None => E s = E0 s
            end.

Lemma inline_go_sem fuel o : forall t bound (G D : sym -> Prop) E E0,
  tsize t <= fuel -> noshadow G t ->
  (forall s, D s -> G s) ->
  (forall x r, blook x bound = Some r -> G (SV x)) ->
  (forall s, isfree s t -> D s \/ exists x r, s = SV x /\ blook x bound = Some r) ->
  (forall x r s, blook x bound = Some r -> isfree s r -> D s) ->
  inline_env bound E E0 ->
  ref (sem E t) (sem E0 (inline_go fuel o bound t)).
Proof.
  induction fuel as [|fuel IH]; intros t bound G D E E0 Hf Hns HDG Hdom H1 H2 HE.
  { pose proof (tsize_pos t). lia. }
  assert (Hfall : ref (sem E t) (sem E0 (match symof t with
        | Some (SV x) =>
            match blook x bound with
            | Some r => r
            | None => rebuild t (map (inline_go fuel o bound) (subs t))
            end
        | _ => rebuild t (map (inline_go fuel o bound) (subs t))
        end))).
  { destruct (symof t) as [s'|] eqn:Es.
    - assert (Er : rebuild t (map (inline_go fuel o bound) (subs t)) = t).
      { destruct (symof_subs _ _ Es) as (Ec & _). rewrite Ec. simpl. rewrite <- Ec.
        apply rebuild_subs. }
      specialize (HE s'). rewrite Er, (sem_sym _ _ _ Es). destruct s' as [x|x].
      + destruct (blook x bound) as [r|] eqn:Eb.
        * destruct HE as (v & Hv & HE). rewrite HE, Hv. apply ref_refl.
        * rewrite HE, (sem_sym _ _ _ Es). apply ref_refl.
      + rewrite HE, (sem_sym _ _ _ Es). apply ref_refl.
    - inversion Hns as [? ? Hcap Hch]; subst.
      apply sem_mono; [auto|apply map_length|].
      intros k c c' sc l Hc Hc' Hsc Hl. rewrite nth_error_map, Hc in Hc'. injection Hc' as <-.
      assert (Hin : forall s, In s (map fst l) -> ~ G s).
      { intros s Hs. apply Hcap. rewrite Hl in Hs. eapply scopes_capt; eauto.
        eapply nth_error_In; eauto. }
      eapply (IH c bound (fun s => G s \/ In s sc) (fun s => D s \/ In s sc)).
      + apply nth_error_In, tsize_sub in Hc. lia.
      + eapply Hch; eauto.
      + intros s [?|?]; auto.
      + intros x r Hr. left. eapply Hdom; eauto.
      + intros s Hs. destruct (in_dec sym_eq_dec s sc); auto.
        destruct (H1 s) as [?|?]; auto. eapply free_sub; eauto.
      + intros x r s Hr Hs. left. eapply H2; eauto.
      + intros s. specialize (HE s).
        destruct (match s with SV x => blook x bound | SX _ => None end) as [r|] eqn:Eb.
        * destruct HE as (v & Hv & HE). exists v. split.
          -- eapply (sem_coincidence r E0 (upds E0 l)); [|exact Hv].
             intros s' Hs'. symmetry. apply upds_notin. intros Hi. apply (Hin _ Hi), HDG.
             destruct s as [x|x]; [|discriminate]. eapply H2; eauto.
          -- rewrite upds_notin; auto. intros Hi. apply (Hin _ Hi).
             destruct s as [x|x]; [|discriminate]. eapply Hdom; eauto.
        * apply upds_agree. auto. }
  simpl. destruct (unlet t) as [[[x b] body]|] eqn:Eu; auto.
  destruct (if o then is_atom b else true); auto.
  destruct (unlet_spec _ _ _ _ Eu) as (Esub & Ecap & Esc & Esy).
  assert (Sb : tsize b < tsize t) by (apply tsize_sub; rewrite Esub; simpl; auto).
  assert (Sy : tsize body < tsize t) by (apply tsize_sub; rewrite Esub; simpl; auto).
  inversion Hns as [? ? Hcap Hch]; subst.
  assert (Hb1 : forall s, isfree s b -> D s \/ exists x r, s = SV x /\ blook x bound = Some r).
  { intros s' Hs'. apply H1. eapply (free_sub _ t 0 b []); rewrite ?Esub, ?Esc; auto. }
  assert (Nx : ~ G (SV x)) by (apply Hcap; rewrite Ecap; simpl; auto).
  intros v Hv. rewrite (sem_let _ _ _ _ _ Eu) in Hv. inv_bind.
  assert (Hr : sem E0 (inline_go fuel o bound b) = Ok a).
  { eapply (IH b bound (fun s => G s \/ In s []) D); eauto; try lia.
    eapply (Hch 0); rewrite ?Esub, ?Esc; reflexivity. }
  eapply (IH body _ (fun s => G s \/ In s [SV x]) D); [lia| | | | | | |exact Hk].
  - eapply (Hch 1); rewrite ?Esub, ?Esc; reflexivity.
  - auto.
  - intros y r. rewrite blook_cons. destruct (y =? x) eqn:Ey.
    + apply Nat.eqb_eq in Ey. subst. simpl. auto.
    + intros Hy. left. eapply Hdom; eauto.
  - intros s' Hs'. destruct (sym_eq_dec s' (SV x)) as [->|Nxs].
    + right. exists x. eexists. split; [reflexivity|]. rewrite blook_cons, Nat.eqb_refl. reflexivity.
    + destruct (H1 s') as [?|(y & r & -> & Hy)]; auto.
      * eapply (free_sub _ t 1 body [SV x]); rewrite ?Esub, ?Esc; auto. simpl. intuition congruence.
      * right. exists y, r. split; auto. rewrite blook_cons.
        destruct (y =? x) eqn:Ey; auto. apply Nat.eqb_eq in Ey. congruence.
  - intros y r s'. rewrite blook_cons. destruct (y =? x) eqn:Ey.
    + intros Hy; injection Hy as <-. apply inline_go_free; auto. lia.
    + apply H2.
  - intros s. specialize (HE s). destruct s as [y|y].
    + rewrite blook_cons. destruct (y =? x) eqn:Ey.
      * apply Nat.eqb_eq in Ey. subst. exists a. split; auto. apply upd_eq.
      * assert (SV y <> SV x) by (apply Nat.eqb_neq in Ey; congruence).
        rewrite upd_neq by auto. exact HE.
    + rewrite upd_neq by congruence. exact HE.
Qed.

Lemma inline_sem o t E v :
  noshadow (fun s => isfree s t) t ->
  sem E t = Ok v -> sem E (inline o t) = Ok v.
Proof.
  intros H Hv. unfold inline.
  eapply (inline_go_sem (tsize t) o t [] (fun s => isfree s t) (fun s => isfree s t) E E); eauto.
  - intros x r Hr. discriminate.
  - intros x r s Hr. discriminate.
  - intros [x|x]; reflexivity.
Qed.
End Sem.

Lemma inline_free o t s : isfree s (inline o t) -> isfree s t.
Proof.
  apply (inline_go_free (tsize t) o t [] (fun s => isfree s t)); auto.
  intros x r s' Hr. discriminate.
Qed.

(** ** Let insertion *)
Record ins_wf (p : T) (ins : @insertions T) : Prop := {
  iw_scope : forall d x b, sub_of d p -> In (x, b) (ins_at ins d) ->
    sub_of b d /\ b <> d /\ (forall s, isfree s b -> isfree s d);
  iw_fresh : forall d x b n, In (x, b) (ins_at ins d) -> sub_of n p ->
    ~ In (SV x) (capt n) /\ symof n <> Some (SV x);
  iw_uniq : forall d d' x b b', In (x, b) (ins_at ins d) -> In (x, b') (ins_at ins d') -> d = d';
  iw_nodup : forall d, NoDup (map fst (ins_at ins d))
}.

Definition is_new (ins : @insertions T) (s : sym) : Prop :=
  exists d x b, In (x, b) (ins_at ins d) /\ s = SV x.

Section InsSem.
Context {V : Type} {sem : genv V -> T -> res V} {S : TermSem T V sem}.
Context (p : T) (ins : @insertions T).
Hypothesis W : ins_wf p ins.
Hypothesis U : unshadowed p.

(** Whenever a site has a value, so has every binding inserted there. *)
Definition ins_needed : Prop :=
  forall d x b E v, sub_of d p -> In (x, b) (ins_at ins d) -> sem E d = Ok v ->
    exists w, sem E b = Ok w.

Definition irel (bnd : list (T * T)) (E E' : genv V) : Prop :=
  (forall s, ~ is_new ins s -> E' s = E s) /\
  (forall b u, In (b, u) bnd -> exists x w,
     u = wrap_var x b /\ E' (SV x) = Some w /\ sem E b = Ok w).

Definition bnd_ok (t : T) (bnd : list (T * T)) : Prop :=
  forall b u, In (b, u) bnd -> exists x d,
    u = wrap_var x b /\ In (x, b) (ins_at ins d) /\ tsize t < tsize d /\
    sub_of d p /\ sub_of t d.

Lemma isfree_not_new n s : sub_of n p -> isfree s n -> ~ is_new ins s.
Proof.
  intros Hn Hf (d & x & b & Hi & ->). apply isfree_occ in Hf as (m & Hm & Hs).
  destruct (iw_fresh _ _ W d x b m Hi) as [_ H]; auto. eapply sub_of_trans; eauto.
Qed.

Lemma irel_upds bnd E E' t k sc l :
  irel bnd E E' -> sub_of t p ->
  (forall b u, In (b, u) bnd -> exists x d,
    u = wrap_var x b /\ In (x, b) (ins_at ins d) /\ sub_of d p /\ sub_of t d) ->
  nth_error (scopes t) k = Some sc -> map fst l = sc -> irel bnd (upds E l) (upds E' l).
Proof.
  intros [H1 H2] Ht Hb Hsc Hl. split.
  - intros s Hs. apply upds_agree. auto.
  - intros b u Hi. destruct (H2 _ _ Hi) as (x & w & Hu & HE & Hw).
    destruct (Hb _ _ Hi) as (x' & d & Hu' & Hid & Hd & Htd).
    rewrite Hu in Hu'. apply wrap_var_inj in Hu' as <-. exists x, w. split; auto.
    assert (Hcap : forall s, In s (map fst l) -> In s (capt t)).
    { intros s Hs. rewrite Hl in Hs. eapply scopes_capt; eauto. eapply nth_error_In; eauto. }
    split.
    + rewrite upds_notin; auto. intros Hx. apply Hcap in Hx.
      destruct (iw_fresh _ _ W d x b t Hid Ht); auto.
    + eapply (sem_coincidence b E (upds E l)); [|exact Hw].
      intros s Hs. symmetry. apply upds_notin. intros Hx. apply Hcap in Hx.
      destruct (iw_scope _ _ W d x b Hd Hid) as (_ & _ & Hfree).
      eapply (U d t s); eauto.
Qed.

Lemma ins_step_sem go t B E :
  sub_of t p ->
  forall l bnd E' ap bnd',
  ins_step go l bnd = (ap, bnd') ->
  incl l (ins_at ins t) -> NoDup (map fst l) ->
  (forall b u, In (b, u) bnd -> forall x, u = wrap_var x b -> ~ In x (map fst l)) ->
  (forall x b bnd E', In (x, b) l -> irel bnd E E' ->
     (forall b' u, In (b', u) bnd -> exists y d,
        u = wrap_var y b' /\ In (y, b') (ins_at ins d) /\ sub_of d p /\ sub_of t d) ->
     ref (sem E' (go bnd b)) (sem E b) /\ (ins_needed -> ref (sem E b) (sem E' (go bnd b)))) ->
  (forall b' u, In (b', u) bnd -> exists y d,
        u = wrap_var y b' /\ In (y, b') (ins_at ins d) /\ sub_of d p /\ sub_of t d) ->
  (forall E'', irel bnd' E E'' -> ref (sem E'' B) (sem E t) /\
     (ins_needed -> ref (sem E t) (sem E'' B))) ->
  irel bnd E E' ->
  ref (sem E' (lets ap B)) (sem E t) /\ (ins_needed -> ref (sem E t) (sem E' (lets ap B))).
Proof.
  intros Ht. induction l as [|[x b] l IH]; simpl; intros bnd E' ap bnd' Hst Hincl Hnd Hfr Hgo Hbo HB HE.
  - injection Hst as <- <-. simpl. apply HB; auto.
  - destruct (ins_step go l ((b, wrap_var x b) :: bnd)) as [ap0 bnd0] eqn:Est.
    injection Hst as <- <-. simpl.
    assert (Hin : In (x, b) (ins_at ins t)) by (apply Hincl; simpl; auto).
    inversion Hnd as [|? ? Hx Hnd']; subst.
    destruct (Hgo x b bnd E' (or_introl eq_refl) HE Hbo) as [Hg1 Hg2].
    assert (Hnext : forall w, sem E b = Ok w ->
      ref (sem (upd E' (SV x) w) (lets ap0 B)) (sem E t) /\
      (ins_needed -> ref (sem E t) (sem (upd E' (SV x) w) (lets ap0 B)))).
    { intros w Hw. eapply (IH _ _ _ _ Est); auto.
      - intros y Hy. apply Hincl. simpl; auto.
      - intros b' u [Hi|Hi] y Hy.
        + injection Hi as <- <-. apply wrap_var_inj in Hy as <-. exact Hx.
        + intros Hl. eapply Hfr; eauto.
      - intros y b' bnd1 E1 Hi. apply (Hgo y). simpl; auto.
      - intros b' u [Hi|Hi]; [|eauto]. injection Hi as <- <-.
        exists x, t. repeat split; auto. constructor.
      - destruct HE as [HE1 HE2]. split.
        + intros s Hs. rewrite upd_neq; auto. intros ->. apply Hs. exists t, x, b. auto.
        + intros b' u [Hi|Hi].
          * injection Hi as <- <-. exists x, w. rewrite upd_eq. auto.
          * destruct (HE2 _ _ Hi) as (y & w' & -> & Hy & Hw'). exists y, w'.
            split; auto. split; auto. rewrite upd_neq; auto. intros Hxy. injection Hxy as ->.
            eapply Hfr; eauto. }
    pose proof (fun E => sem_let E _ _ _ _ (unlet_wrap x (go bnd b) (lets ap0 B))) as Hlet.
    split.
    + intros v Hv. rewrite Hlet in Hv. inv_bind. apply Hg1 in Hb.
      destruct (Hnext _ Hb) as [Hn _]. auto.
    + intros Hneed v Hv. rewrite Hlet.
      destruct (Hneed t x b E v Ht Hin Hv) as [w Hw].
      rewrite (Hg2 Hneed _ Hw). simpl. apply Hnext; auto.
Qed.

Lemma apply_go_sem fuel : forall t bnd E E',
  tsize t <= fuel -> sub_of t p -> bnd_ok t bnd -> irel bnd E E' ->
  ref (sem E' (apply_go fuel ins bnd t)) (sem E t) /\
  (ins_needed -> ref (sem E t) (sem E' (apply_go fuel ins bnd t))).
Proof.
  induction fuel as [|fuel IH]; intros t bnd E E' Hf Ht Hbnd HE.
  { pose proof (tsize_pos t). lia. }
  simpl. destruct (find (fun p => teqb t (fst p)) bnd) as [[b u]|] eqn:Ef.
  - apply find_some in Ef as [Hi He]. simpl in *. apply teqb_eq in He. subst b.
    destruct HE as [_ HE]. destruct (HE _ _ Hi) as (x & w & -> & Hx & Hw).
    rewrite (sem_sym _ _ _ (symof_wrap x t)), Hx, Hw. simpl. split; [|intros _]; apply ref_refl.
  - destruct (ins_step (apply_go fuel ins) (ins_at ins t) bnd) as [ap bnd'] eqn:Est.
    assert (Hbnd' : forall b u, In (b, u) bnd' -> exists y d,
        u = wrap_var y b /\ In (y, b) (ins_at ins d) /\ sub_of d p /\ sub_of t d).
    { assert (Hgen : forall l bnd ap bnd', ins_step (apply_go fuel ins) l bnd = (ap, bnd') ->
         incl l (ins_at ins t) ->
         (forall b u, In (b, u) bnd -> exists y d,
            u = wrap_var y b /\ In (y, b) (ins_at ins d) /\ sub_of d p /\ sub_of t d) ->
         forall b u, In (b, u) bnd' -> exists y d,
            u = wrap_var y b /\ In (y, b) (ins_at ins d) /\ sub_of d p /\ sub_of t d).
      { clear - Ht L. induction l as [|[x b] l IHl]; simpl; intros bnd ap bnd' Hst Hinc Hb.
        - injection Hst as <- <-. exact Hb.
        - destruct (ins_step _ l _) as [ap0 bnd0] eqn:Est. injection Hst as <- <-.
          eapply IHl; eauto.
          + intros y Hy. apply Hinc. simpl; auto.
          + intros b' u [Hi|Hi]; [|eauto]. injection Hi as <- <-. exists x, t.
            repeat split; auto; [apply Hinc; simpl; auto|constructor]. }
      eapply Hgen; eauto; [apply incl_refl|].
      intros b u Hi. destruct (Hbnd _ _ Hi) as (x & d & ? & ? & ? & ? & ?). eauto 10. }
    eapply (ins_step_sem (apply_go fuel ins) t _ E Ht _ _ _ _ _ Est); auto.
    + apply incl_refl.
    + apply (iw_nodup _ _ W).
    + intros b u Hi x -> Hx. destruct (Hbnd _ _ Hi) as (y & d & Hy & Hid & Hsz & _).
      apply wrap_var_inj in Hy as <-. apply in_map_iff in Hx as ([x' b'] & Hxe & Hx).
      simpl in Hxe. subst x'. rewrite (iw_uniq _ _ W _ _ _ _ _ Hx Hid) in Hsz. lia.
    + intros x b bnd0 E0 Hi HE0 Hb0.
      destruct (iw_scope _ _ W t x b Ht Hi) as (Hsub & Hne & _).
      assert (tsize b < tsize t) by (destruct (sub_of_size _ _ Hsub); [congruence|auto]).
      apply IH; auto; [lia|eapply sub_of_trans; eauto|].
      intros b' u Hi'. destruct (Hb0 _ _ Hi') as (y & d & Hy & Hid & Hd & Htd). exists y, d.
      repeat split; auto.
      * destruct (sub_of_size _ _ Htd); [subst|]; lia.
      * eapply sub_of_trans; eauto.
    + intros b u Hi. destruct (Hbnd _ _ Hi) as (x & d & ? & ? & ? & ? & ?). eauto 10.
    + intros E'' HE''. set (cs := map (apply_go fuel ins bnd') (subs t)).
      assert (Hlen : length cs = length (subs t)) by apply map_length.
      destruct (symof t) as [s|] eqn:Es.
      * assert (Er : rebuild t cs = t).
        { destruct (symof_subs _ _ Es) as (Ec & _). unfold cs. rewrite Ec. simpl. rewrite <- Ec.
          apply rebuild_subs. }
        rewrite Er, !(sem_sym _ _ _ Es). destruct HE'' as [HE1 _].
        rewrite HE1; [split; [|intros _]; apply ref_refl|].
        eapply isfree_not_new; eauto. constructor; auto.
      * assert (Hch : forall k c c' sc l,
          nth_error (subs t) k = Some c -> nth_error cs k = Some c' ->
          nth_error (scopes t) k = Some sc -> map fst l = sc ->
          ref (sem (upds E'' l) c') (sem (upds E l) c) /\
          (ins_needed -> ref (sem (upds E l) c) (sem (upds E'' l) c'))).
        { intros k c c' sc l Hc Hc' Hsc Hl. unfold cs in Hc'.
          rewrite nth_error_map, Hc in Hc'. injection Hc' as <-.
          pose proof (tsize_sub _ _ (nth_error_In _ _ Hc)).
          apply IH; [lia| | |].
          - eapply sub_of_trans; [eapply sub_child; eauto|auto].
          - intros b u Hi. destruct (Hbnd' _ _ Hi) as (y & d & Hy & Hid & Hd & Htd). exists y, d.
            repeat split; auto.
            + destruct (sub_of_size _ _ Htd); [subst|]; lia.
            + eapply sub_of_trans; [eapply sub_child; eauto|auto].
          - eapply irel_upds; eauto. }
        split.
        -- assert (Et : sem E t = sem E (rebuild (rebuild t cs) (subs t))).
           { rewrite rebuild_rebuild, rebuild_subs by auto. reflexivity. }
           rewrite Et. apply sem_mono.
           ++ rewrite symof_rebuild; auto.
           ++ rewrite subs_rebuild; auto.
           ++ rewrite subs_rebuild, scopes_rebuild by auto. intros. eapply Hch; eauto.
        -- intros Hneed. apply sem_mono; auto. intros. eapply Hch; eauto.
Qed.

Lemma apply_insertions_sound E v :
  sem E (apply_insertions p ins) = Ok v -> sem E p = Ok v.
Proof.
  unfold apply_insertions. apply (apply_go_sem (tsize p) p [] E E); auto.
  - constructor.
  - intros b u [].
  - split; [auto|]. intros b u [].
Qed.

Lemma apply_insertions_complete E v :
  ins_needed -> sem E p = Ok v -> sem E (apply_insertions p ins) = Ok v.
Proof.
  unfold apply_insertions. intros Hn. apply (apply_go_sem (tsize p) p [] E E); auto.
  - constructor.
  - intros b u [].
  - split; [auto|]. intros b u [].
Qed.
End InsSem.

End Lining.
