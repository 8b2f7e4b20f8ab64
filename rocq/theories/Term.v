(** ein/term.py: the generic term interface, instantiated by Phi terms and by
    Yarr terms.  Substitution (ein/midend/substitution.py), inlining and let
    insertion (ein/midend/lining.py) are written in Python against this
    interface; they are modelled once here.

    Children are accessed by position: [subs] lists them, [rebuild] replaces
    them ([Term.map] is [rebuild t (map f (subs t))]).  [scopes] says which
    captured symbols are in scope in which child. *)
From Verif Require Import Base Sym.

Class TermOps (T : Type) := {
  subs : T -> list T;                       (* subterms *)
  rebuild : T -> list T -> T;               (* map *)
  capt : T -> list sym;                     (* captured_symbols *)
  scopes : T -> list (list sym);            (* captured symbols visible in each child *)
  symof : T -> option sym;                  (* unwrap_symbol *)
  unlet : T -> option (nat * T * T);        (* unwrap_let *)
  wrap_let : nat -> T -> T -> T;            (* var bind body *)
  wrap_var : nat -> T -> T;                 (* var, term whose type is used *)
  is_atom : T -> bool;
  is_loop : T -> bool;
  teqb : T -> T -> bool;
  tsize : T -> nat;
  tfree : T -> list sym                     (* free_symbols, term.py:80-83 *)
}.

Class TermLaws (T : Type) {O : TermOps T} := {
  rebuild_subs : forall t, rebuild t (subs t) = t;
  subs_rebuild : forall t cs, length cs = length (subs t) -> subs (rebuild t cs) = cs;
  capt_rebuild : forall t cs, length cs = length (subs t) -> capt (rebuild t cs) = capt t;
  scopes_rebuild : forall t cs, length cs = length (subs t) -> scopes (rebuild t cs) = scopes t;
  symof_rebuild : forall t cs, length cs = length (subs t) -> symof (rebuild t cs) = symof t;
  rebuild_rebuild : forall t cs cs', length cs = length (subs t) -> length cs' = length (subs t) ->
    rebuild (rebuild t cs) cs' = rebuild t cs';
  scopes_length : forall t, length (scopes t) = length (subs t);
  scope_single : forall t k k' sc sc' s, nth_error (scopes t) k = Some sc ->
    nth_error (scopes t) k' = Some sc' -> In s sc -> In s sc' -> k = k';
  scopes_capt : forall t sc s, In sc (scopes t) -> In s sc -> In s (capt t);
  symof_subs : forall t s, symof t = Some s -> subs t = [] /\ capt t = [] /\ unlet t = None;
  tsize_pos : forall t, 0 < tsize t;
  tsize_sub : forall t c, In c (subs t) -> tsize c < tsize t;
  teqb_eq : forall a b, teqb a b = true <-> a = b;
  unlet_spec : forall t x b body, unlet t = Some (x, b, body) ->
    subs t = [b; body] /\ capt t = [SV x] /\ scopes t = [[]; [SV x]] /\ symof t = None;
  unlet_wrap : forall x b t, unlet (wrap_let x b t) = Some (x, b, t);
  unlet_rebuild : forall t cs, length cs = length (subs t) ->
    (unlet (rebuild t cs) = None <-> unlet t = None);
  symof_wrap : forall x t, symof (wrap_var x t) = Some (SV x);
  wrap_var_inj : forall x y t u, wrap_var x t = wrap_var y u -> x = y;
  atom_spec : forall t, is_atom t = true -> subs t = [] /\ capt t = [];
  symof_atom : forall t s, symof t = Some s -> is_atom t = true;
  tfree_spec : forall t s, In s (tfree t) <->
    ((symof t = Some s \/ exists c, In c (subs t) /\ In s (tfree c)) /\ ~ In s (capt t))
}.

(** [ref r1 r2]: whenever [r1] is a value, [r2] is the same value. *)
Definition ref {V} (r1 r2 : res V) : Prop := forall v, r1 = Ok v -> r2 = Ok v.

Lemma ref_refl {V} (r : res V) : ref r r.
Proof. intros v H; exact H. Qed.

Lemma ref_trans {V} (a b c : res V) : ref a b -> ref b c -> ref a c.
Proof. unfold ref. auto. Qed.

Lemma ref_bind {A B} (m1 m2 : res A) (k1 k2 : A -> res B) :
  ref m1 m2 -> (forall a, ref (k1 a) (k2 a)) -> ref (bind m1 k1) (bind m2 k2).
Proof.
  intros H1 H2 v H. inv_bind. rewrite (H1 _ Hb). simpl. apply H2. exact Hk.
Qed.

Section Upds.
Context {V : Type}.
Definition upds (E : genv V) (l : list (sym * V)) : genv V :=
  fold_left (fun E p => upd E (fst p) (snd p)) l E.

Lemma upds_agree (E1 E2 : genv V) l s :
  (In s (map fst l) \/ E1 s = E2 s) -> upds E1 l s = upds E2 l s.
Proof.
  revert E1 E2. induction l as [|[k v] l IH]; simpl; intros E1 E2 H.
  - destruct H; [tauto|auto].
  - apply IH. destruct (sym_eq_dec s k) as [->|N].
    + right. rewrite !upd_eq. reflexivity.
    + destruct H as [[H|H]|H]; [congruence|auto|right]. rewrite !upd_neq by auto. exact H.
Qed.

Lemma upds_notin (E : genv V) l s : ~ In s (map fst l) -> upds E l s = E s.
Proof.
  revert E. induction l as [|[k v] l IH]; simpl; intros E H; auto.
  rewrite IH by tauto. apply upd_neq. intros ->. tauto.
Qed.
End Upds.

(** Semantics of terms: strict in errors, compositional, environment extended
    exactly by the symbols in scope in each child. *)
Class TermSem (T : Type) {O : TermOps T} (V : Type) (sem : genv V -> T -> res V) := {
  sem_sym : forall E t s, symof t = Some s -> sem E t = of_opt EUnbound (E s);
  sem_let : forall E t x b body, unlet t = Some (x, b, body) ->
    sem E t = (let* v := sem E b in sem (upd E (SV x) v) body);
  sem_mono : forall t cs E1 E2, symof t = None -> length cs = length (subs t) ->
    (forall k c c' sc l,
        nth_error (subs t) k = Some c -> nth_error cs k = Some c' ->
        nth_error (scopes t) k = Some sc -> map fst l = sc ->
        ref (sem (upds E1 l) c) (sem (upds E2 l) c')) ->
    ref (sem E1 t) (sem E2 (rebuild t cs))
}.

Section Generic.
Context {T : Type} {O : TermOps T} {L : TermLaws T}.

(** Reflexive-transitive subterm relation. *)
Inductive sub_of : T -> T -> Prop :=
| sub_refl t : sub_of t t
| sub_step s c t : In c (subs t) -> sub_of s c -> sub_of s t.

Lemma sub_of_trans a b c : sub_of a b -> sub_of b c -> sub_of a c.
Proof. intros H1 H2. induction H2; auto. eapply sub_step; eauto. Qed.

Lemma sub_of_size a b : sub_of a b -> a = b \/ tsize a < tsize b.
Proof.
  induction 1; auto. right. apply tsize_sub in H. destruct IHsub_of; [subst|]; lia.
Qed.

Lemma sub_of_antisym a b : sub_of a b -> sub_of b a -> a = b.
Proof.
  intros H1 H2. apply sub_of_size in H1, H2. destruct H1, H2; auto; lia.
Qed.

(** Occurs free, respecting the scope of each child. *)
Inductive isfree (s : sym) : T -> Prop :=
| free_sym t : symof t = Some s -> isfree s t
| free_sub t k c sc :
    nth_error (subs t) k = Some c -> nth_error (scopes t) k = Some sc ->
    isfree s c -> ~ In s sc -> isfree s t.

(** [s] is captured by some node inside [t]. *)
Definition binds (s : sym) (t : T) : Prop := exists n, sub_of n t /\ In s (capt n).

Lemma binds_sub s c t : In c (subs t) -> binds s c -> binds s t.
Proof. intros H (n & Hn & Hs). exists n. split; auto. eapply sub_step; eauto. Qed.

Lemma binds_self s t : In s (capt t) -> binds s t.
Proof. exists t. split; auto. constructor. Qed.

Lemma binds_sub_of s c t : sub_of c t -> binds s c -> binds s t.
Proof. intros H (n & Hn & Hs). exists n. split; auto. eapply sub_of_trans; eauto. Qed.

Lemma nth_error_scope t k c :
  nth_error (subs t) k = Some c -> exists sc, nth_error (scopes t) k = Some sc.
Proof.
  intros H. destruct (nth_error (scopes t) k) eqn:E; eauto.
  apply nth_error_None in E. rewrite scopes_length in E.
  assert (k < length (subs t)) by (apply nth_error_Some; congruence). lia.
Qed.

(** Free symbols as computed by the code are free in the scoped sense. *)
Lemma tfree_isfree t s : In s (tfree t) -> isfree s t.
Proof.
  remember (tsize t) as n eqn:En. revert t En.
  induction n as [n IH] using lt_wf_ind. intros t -> H.
  apply tfree_spec in H as [[H|(c & Hc & H)] Hn]; [constructor; auto|].
  apply In_nth_error in Hc as [k Hk].
  destruct (nth_error_scope _ _ _ Hk) as [sc Hsc].
  eapply free_sub; eauto.
  - eapply IH; [|reflexivity|exact H]. apply tsize_sub. eapply nth_error_In; eauto.
  - intros Hs. apply Hn. eapply scopes_capt; [eapply nth_error_In; eauto|auto].
Qed.

(** Conversely when no symbol captured by a node occurs free in a child out of
    its scope. *)
Definition hygienic (t : T) : Prop :=
  forall n k c sc s, sub_of n t -> nth_error (subs n) k = Some c ->
    nth_error (scopes n) k = Some sc -> In s (capt n) -> isfree s c -> In s sc.

Lemma hygienic_sub c t : sub_of c t -> hygienic t -> hygienic c.
Proof. intros H Hy n k c' sc s Hn. apply Hy. eapply sub_of_trans; eauto. Qed.

Lemma isfree_tfree t s : hygienic t -> isfree s t -> In s (tfree t).
Proof.
  intros Hy H. induction H as [t Ht|t k c sc Hk Hsc Hf IH Hn].
  - apply tfree_spec. split; [auto|]. apply symof_subs in Ht as (_ & -> & _). auto.
  - apply tfree_spec. split.
    + right. exists c. split; [eapply nth_error_In; eauto|]. apply IH.
      eapply hygienic_sub; [|exact Hy]. eapply sub_step; [eapply nth_error_In; eauto|constructor].
    + intros Hs. apply Hn. eapply (Hy t); eauto. constructor.
Qed.

Section Sem.
Context {V : Type} {sem : genv V -> T -> res V} {S : TermSem T V sem}.

(** Coincidence: the value depends only on the free symbols. *)
Lemma sem_coincidence t E1 E2 :
  (forall s, isfree s t -> E1 s = E2 s) -> ref (sem E1 t) (sem E2 t).
Proof.
  remember (tsize t) as n eqn:En. revert t En E1 E2.
  induction n as [n IH] using lt_wf_ind. intros t -> E1 E2 H.
  destruct (symof t) as [s|] eqn:Es.
  - rewrite !(sem_sym _ _ _ Es). rewrite (H s) by (constructor; auto). apply ref_refl.
  - rewrite <- (rebuild_subs t) at 2. apply sem_mono; auto.
    intros k c c' sc l Hc Hc' Hsc Hl. rewrite Hc in Hc'. injection Hc' as <-.
    eapply IH; [apply tsize_sub; eapply nth_error_In; eauto|reflexivity|].
    intros s Hs. apply upds_agree. destruct (in_dec sym_eq_dec s sc) as [I|I].
    + left. rewrite Hl. auto.
    + right. apply H. eapply free_sub; eauto.
Qed.

End Sem.

(** ein/midend/substitution.py:8-20 [substitute].  [go] is cached in Python,
    which cannot be observed (it is a pure function of the term). *)
Definition sassoc {A} (s : sym) (l : list (sym * A)) : option A :=
  match find (fun p => sym_eqb s (fst p)) l with
  | Some p => Some (snd p)
  | None => None
  end.

Fixpoint substitute_go (fuel : nat) (sb : list (sym * T)) (t : T) : T :=
  match fuel with
  | 0 => t
  | Datatypes.S fuel =>
      if existsb (fun s => smem s (map fst sb)) (tfree t) then
        match (match symof t with Some s => sassoc s sb | None => None end) with
        | Some u => u
        | None => rebuild t (map (substitute_go fuel sb) (subs t))
        end
      else t
  end.

Definition substitute (t : T) (sb : list (sym * T)) : T := substitute_go (tsize t) sb t.

(** ein/midend/lining.py:167-176 [_go] without the memo table [transformed];
    the code as it is, with the table, is [inline_memo] in InlineMemo.v. *)
Definition blook (x : nat) (bound : list (nat * T)) : option T :=
  option_map snd (find (fun p => x =? fst p) bound).

Fixpoint inline_go (fuel : nat) (only_renames : bool) (bound : list (nat * T)) (t : T) : T :=
  match fuel with
  | 0 => t
  | Datatypes.S fuel =>
      let fallback :=
        match symof t with
        | Some (SV x) =>
            match blook x bound with
            | Some r => r
            | None => rebuild t (map (inline_go fuel only_renames bound) (subs t))
            end
        | _ => rebuild t (map (inline_go fuel only_renames bound) (subs t))
        end in
      match unlet t with
      | Some (x, b, body) =>
          if (if only_renames then is_atom b else true) then
            inline_go fuel only_renames
              ((x, inline_go fuel only_renames bound b) :: bound) body
          else fallback
      | None => fallback
      end
  end.

Definition inline (only_renames : bool) (t : T) : T := inline_go (tsize t) only_renames [] t.

(** ein/midend/lining.py:16-21 [_let] *)
Fixpoint lets (bs : list (nat * T)) (body : T) : T :=
  match bs with
  | [] => body
  | (x, b) :: bs => wrap_let x b (lets bs body)
  end.

(** ein/midend/lining.py:12 [Insertions]: for each site the variables to bind
    there, in insertion order. *)
Definition insertions : Type := list (T * list (nat * T)).

Definition ins_at (ins : insertions) (t : T) : list (nat * T) :=
  match find (fun p => teqb t (fst p)) ins with
  | Some p => snd p
  | None => []
  end.

(** The loop of [_apply_insertions] (30-33) over the insertions at a site:
    each binding is itself processed with the bindings made so far, which are
    then extended by it. *)
Section InsStep.
Context (go : list (T * T) -> T -> T).
Fixpoint ins_step (l : list (nat * T)) (bnd : list (T * T))
  : list (nat * T) * list (T * T) :=
  match l with
  | [] => ([], bnd)
  | (x, b) :: l =>
      let (applied, bnd') := ins_step l ((b, wrap_var x b) :: bnd) in
      ((x, go bnd b) :: applied, bnd')
  end.
End InsStep.

(** ein/midend/lining.py:24-37 [_apply_insertions] *)
Fixpoint apply_go (fuel : nat) (ins : insertions) (bnd : list (T * T)) (t : T) : T :=
  match fuel with
  | 0 => t
  | Datatypes.S fuel =>
      match find (fun p => teqb t (fst p)) bnd with
      | Some p => snd p
      | None =>
          let (applied, bnd') := ins_step (apply_go fuel ins) (ins_at ins t) bnd in
          lets applied (rebuild t (map (apply_go fuel ins bnd') (subs t)))
      end
  end.

Definition apply_insertions (t : T) (ins : insertions) : T := apply_go (tsize t) ins [] t.

(** ** Substitution *)
Section SubstSem.
Context {V : Type} {sem : genv V -> T -> res V} {S : TermSem T V sem}.

(** [E'] is [E] with every substituted symbol given the value of its term. *)
Definition subst_env (sb : list (sym * T)) (E E' : genv V) : Prop :=
  forall s, match sassoc s sb with
            | Some u => exists v, sem E u = Ok v /\ E' s = Some v
            | None => E' s = E s
            end.

Lemma sassoc_In {A} s (l : list (sym * A)) u : sassoc s l = Some u -> In (s, u) l.
Proof.
  unfold sassoc. destruct (find _ l) as [[s' u']|] eqn:E; [|discriminate].
  intros H; injection H as ->. apply find_some in E as [E1 E2]. simpl in E2.
  apply sym_eqb_eq in E2. subst. exact E1.
Qed.

Lemma sassoc_notin {A} s (l : list (sym * A)) : sassoc s l = None <-> ~ In s (map fst l).
Proof.
  unfold sassoc. destruct (find _ l) as [[s' u']|] eqn:E.
  - apply find_some in E as [E1 E2]. simpl in E2. apply sym_eqb_eq in E2. subst.
    split; [discriminate|]. intros H. exfalso. apply H. apply in_map_iff. eexists; split; eauto.
    reflexivity.
  - split; auto. intros _ H. apply in_map_iff in H as ([s' u] & Hs & H). simpl in Hs. subst.
    apply (find_none _ _ E) in H. simpl in H. rewrite sym_eqb_refl in H. discriminate.
Qed.

Definition subst_ok (sb : list (sym * T)) (t : T) : Prop :=
  (forall s u, In (s, u) sb -> ~ binds s t) /\
  (forall s u r, In (s, u) sb -> isfree r u -> ~ binds r t).

Lemma subst_ok_sub sb t c : In c (subs t) -> subst_ok sb t -> subst_ok sb c.
Proof.
  intros Hc [H1 H2]. split.
  - intros s u Hi Hb. eapply H1; eauto. eapply binds_sub; eauto.
  - intros s u r Hi Hr Hb. eapply H2; eauto. eapply binds_sub; eauto.
Qed.

Lemma subst_env_upds sb E E' l t sc k :
  subst_ok sb t -> nth_error (scopes t) k = Some sc -> map fst l = sc ->
  subst_env sb E E' -> subst_env sb (upds E l) (upds E' l).
Proof.
  intros [H1 H2] Hsc Hl HE s. specialize (HE s).
  assert (Hcap : forall s, In s (map fst l) -> binds s t).
  { intros s' Hs'. rewrite Hl in Hs'. apply binds_self. eapply scopes_capt; eauto.
    eapply nth_error_In; eauto. }
  destruct (sassoc s sb) as [u|] eqn:Es.
  - destruct HE as (v & Hv & HE'). pose proof (sassoc_In _ _ _ Es) as Hi. exists v. split.
    + assert (R : ref (sem E u) (sem (upds E l) u)).
      { apply sem_coincidence. intros r Hr. symmetry. apply upds_notin. intros Hc.
        eapply H2; eauto. }
      apply R; auto.
    + rewrite upds_notin; auto. intros Hc. eapply H1; eauto.
  - apply upds_agree. auto.
Qed.

(** Two-sided: evaluation of the substituted term agrees with evaluation in the
    updated environment. *)
(** A symbol not captured anywhere inside is reported free when it is. *)
Lemma isfree_tfree_nb t s : ~ binds s t -> isfree s t -> In s (tfree t).
Proof.
  intros Hb H. induction H as [t Ht|t k c sc Hk Hsc Hf IH Hn].
  - apply tfree_spec. split; [auto|]. apply symof_subs in Ht as (_ & -> & _). auto.
  - apply tfree_spec. split.
    + right. exists c. split; [eapply nth_error_In; eauto|]. apply IH.
      intros Hc. apply Hb. eapply binds_sub; eauto. eapply nth_error_In; eauto.
    + intros Hs. apply Hb. apply binds_self; auto.
Qed.

Lemma substitute_go_sem fuel sb t E E' :
  tsize t <= fuel -> subst_ok sb t -> subst_env sb E E' ->
  ref (sem E' t) (sem E (substitute_go fuel sb t)) /\
  ref (sem E (substitute_go fuel sb t)) (sem E' t).
Proof.
  revert t E E'. induction fuel as [|fuel IH]; intros t E E' Hf Hok HE.
  - pose proof (tsize_pos t). lia.
  - simpl. destruct (existsb _ (tfree t)) eqn:Ex.
    2:{ assert (Hag : forall s, isfree s t -> E' s = E s).
        { intros s Hs. specialize (HE s).
          destruct (sassoc s sb) eqn:Es; auto. exfalso.
          apply isfree_tfree_nb in Hs; [|eapply (proj1 Hok), sassoc_In; eauto].
          assert (existsb (fun s => smem s (map fst sb)) (tfree t) = true); [|congruence].
          apply existsb_exists. exists s. split; auto. apply smem_In.
          apply sassoc_In in Es. apply in_map_iff. eexists; split; eauto. reflexivity. }
        split; apply sem_coincidence; auto. intros; symmetry; auto. }
    destruct (symof t) as [s|] eqn:Es.
    + rewrite !(sem_sym _ _ _ Es). specialize (HE s). destruct (sassoc s sb) as [u|] eqn:Eu.
      * destruct HE as (v & Hv & HE). rewrite HE, Hv. split; apply ref_refl.
      * rewrite HE. destruct (symof_subs _ _ Es) as (Hsub & _).
        rewrite Hsub. simpl. rewrite <- Hsub, rebuild_subs, (sem_sym _ _ _ Es).
        split; apply ref_refl.
    + assert (Hlen : length (map (substitute_go fuel sb) (subs t)) = length (subs t))
        by apply map_length.
      assert (Hch : forall k c c' sc l,
        nth_error (subs t) k = Some c ->
        nth_error (map (substitute_go fuel sb) (subs t)) k = Some c' ->
        nth_error (scopes t) k = Some sc -> map fst l = sc ->
        ref (sem (upds E' l) c) (sem (upds E l) c') /\
        ref (sem (upds E l) c') (sem (upds E' l) c)).
      { intros k c c' sc l Hc Hc' Hsc Hl.
        rewrite nth_error_map, Hc in Hc'. injection Hc' as <-.
        pose proof (nth_error_In _ _ Hc) as Hin.
        apply IH.
        - apply tsize_sub in Hin. lia.
        - eapply subst_ok_sub; eauto.
        - eapply subst_env_upds; eauto. }
      split.
      * apply sem_mono; auto. intros. eapply Hch; eauto.
      * assert (Et : sem E' t = sem E' (rebuild (rebuild t (map (substitute_go fuel sb) (subs t))) (subs t))).
        { rewrite rebuild_rebuild, rebuild_subs by auto. reflexivity. }
        rewrite Et. apply sem_mono.
        -- rewrite symof_rebuild; auto.
        -- rewrite subs_rebuild; auto.
        -- rewrite subs_rebuild, scopes_rebuild by auto. intros. eapply Hch; eauto.
Qed.

Lemma substitute_sem sb t E E' v :
  subst_ok sb t -> subst_env sb E E' ->
  (sem E (substitute t sb) = Ok v <-> sem E' t = Ok v).
Proof.
  intros. destruct (substitute_go_sem (tsize t) sb t E E'); auto. split; auto.
Qed.

End SubstSem.
End Generic.
