(** ein/midend/lining.py:161-185 [inline] with its memo table, and its relation
    to the table-free function of Term.v. *)
From Verif Require Import Base Sym Term Lining Outline.

Section InlineMemo.
Context {T : Type} {O : TermOps T} {L : TermLaws T}.

Definition memo : Type := list (T * T).
Definition mlook (t : T) (m : memo) : option T := option_map snd (find (fun p => teqb t (fst p)) m).

(** [expr.map(lambda e: go(e, bound))], threading the table *)
Section MapS.
Context (f : memo -> T -> T * memo).
Fixpoint mapS (m : memo) (l : list T) : list T * memo :=
  match l with
  | [] => ([], m)
  | t :: l => let (r, m1) := f m t in let (rs, m2) := mapS m1 l in (r :: rs, m2)
  end.
End MapS.

(** 167-183 *)
Fixpoint inlm_go (fuel : nat) (only_renames : bool) (bound : list (nat * T)) (m : memo) (t : T)
  : T * memo :=
  match fuel with
  | 0 => (t, m)
  | S fuel =>
      match mlook t m with
      | Some r => (r, m)
      | None =>
          let (r, m') :=
            match
              match unlet t with
              | Some (x, b, body) =>
                  if (if only_renames then is_atom b else true) then Some (x, b, body) else None
              | None => None
              end
            with
            | Some (x, b, body) =>
                let (rb, m1) := inlm_go fuel only_renames bound m b in
                inlm_go fuel only_renames ((x, rb) :: bound) m1 body
            | None =>
                match
                  match symof t with Some (SV x) => blook x bound | _ => None end
                with
                | Some r => (r, m)
                | None =>
                    let (cs, m1) := mapS (inlm_go fuel only_renames bound) m (subs t) in
                    (rebuild t cs, m1)
                end
            end in
          (r, (t, r) :: m')
      end
  end.

Definition inline_memo (only_renames : bool) (t : T) : T :=
  fst (inlm_go (tsize t) only_renames [] [] t).

(** ** Relation to the table-free version *)
Variable o : bool.

Definition pred (b : T) : bool := if o then is_atom b else true.

Definition inl (bound : list (nat * T)) (t : T) : T := inline_go (tsize t) o bound t.

Lemma inline_go_fuel : forall n m t bound,
  tsize t <= n -> tsize t <= m -> inline_go n o bound t = inline_go m o bound t.
Proof.
  induction n as [|n IH]; intros m t bound Hn Hm; [pose proof (tsize_pos t); lia|].
  destruct m as [|m]; [pose proof (tsize_pos t); lia|]. simpl.
  assert (Hmap : map (inline_go n o bound) (subs t) = map (inline_go m o bound) (subs t)).
  { apply map_ext_in. intros c Hc. apply tsize_sub in Hc. apply IH; lia. }
  rewrite Hmap. destruct (unlet t) as [[[x b] body]|] eqn:Eu; auto.
  destruct (unlet_spec _ _ _ _ Eu) as (Hs & _).
  assert (tsize b < tsize t) by (apply tsize_sub; rewrite Hs; simpl; auto).
  assert (tsize body < tsize t) by (apply tsize_sub; rewrite Hs; simpl; auto).
  rewrite (IH m b bound) by lia. destruct (if o then is_atom b else true); auto.
  apply IH; lia.
Qed.

Lemma inl_eq bound t :
  inl bound t =
  match unlet t with
  | Some (x, b, body) =>
      if pred b then inl ((x, inl bound b) :: bound) body
      else rebuild t (map (inl bound) (subs t))
  | None =>
      match match symof t with Some (SV x) => blook x bound | _ => None end with
      | Some r => r
      | None => rebuild t (map (inl bound) (subs t))
      end
  end.
Proof.
  unfold inl. destruct (tsize t) as [|n] eqn:Et; [pose proof (tsize_pos t); lia|]. simpl.
  assert (Hmap : map (inline_go n o bound) (subs t) =
                 map (fun t => inline_go (tsize t) o bound t) (subs t)).
  { apply map_ext_in. intros c Hc. apply tsize_sub in Hc. apply inline_go_fuel; lia. }
  rewrite Hmap. destruct (unlet t) as [[[x b] body]|] eqn:Eu.
  - destruct (unlet_spec _ _ _ _ Eu) as (Hs & _ & _ & Hsym).
    assert (tsize b < tsize t) by (apply tsize_sub; rewrite Hs; simpl; auto).
    assert (tsize body < tsize t) by (apply tsize_sub; rewrite Hs; simpl; auto).
    rewrite Hsym. change (if o then is_atom b else true) with (pred b). destruct (pred b) eqn:Ep; auto.
    rewrite (inline_go_fuel n (tsize b) b) by lia. apply inline_go_fuel; lia.
  - destruct (symof t) as [[x|x]|]; auto.
Qed.

Definition occurs (x : nat) (t : T) : Prop := exists m, sub_of m t /\ symof m = Some (SV x).

Lemma inl_ext t : forall bd1 bd2,
  (forall x, occurs x t -> blook x bd1 = blook x bd2) -> inl bd1 t = inl bd2 t.
Proof.
  remember (tsize t) as n eqn:En. revert t En.
  induction n as [n IH] using lt_wf_ind. intros t -> bd1 bd2 H.
  assert (Hocc : forall c x, In c (subs t) -> occurs x c -> occurs x t).
  { intros c x Hc (m & Hm & Hx). exists m. split; auto. eapply sub_step; eauto. }
  assert (Hmap : map (inl bd1) (subs t) = map (inl bd2) (subs t)).
  { apply map_ext_in. intros c Hc. eapply IH; [apply tsize_sub; eauto|auto|].
    intros x Hx. apply H. eapply Hocc; eauto. }
  rewrite (inl_eq bd1), (inl_eq bd2), Hmap.
  destruct (unlet t) as [[[x b] body]|] eqn:Eu.
  - destruct (unlet_spec _ _ _ _ Eu) as (Hs & _).
    assert (Hb : In b (subs t)) by (rewrite Hs; simpl; auto).
    assert (Hy : In body (subs t)) by (rewrite Hs; simpl; auto).
    rewrite (IH (tsize b) (tsize_sub _ _ Hb) b eq_refl bd1 bd2)
      by (intros y Hx; apply H; exact (Hocc b y Hb Hx)).
    destruct (pred b); auto. eapply IH; [apply tsize_sub; exact Hy|auto|].
    intros y Hx. rewrite !blook_cons. destruct (y =? x); auto. apply H. exact (Hocc body y Hy Hx).
  - destruct (symof t) as [[x|x]|] eqn:Es; auto.
    rewrite (H x); auto. exists t. split; auto. constructor.
Qed.

(** [reach p bd t]: inlining [p] visits [t] with the bindings [bd]. *)
Inductive reach (p : T) : list (nat * T) -> T -> Prop :=
| re_root : reach p [] p
| re_bind bd n x b body : reach p bd n -> unlet n = Some (x, b, body) -> pred b = true ->
    reach p bd b
| re_body bd n x b body : reach p bd n -> unlet n = Some (x, b, body) -> pred b = true ->
    reach p ((x, inl bd b) :: bd) body
| re_child bd n c :
    reach p bd n -> (forall x b body, unlet n = Some (x, b, body) -> pred b = false) ->
    In c (subs n) -> reach p bd c.

Lemma reach_sub p bd t : reach p bd t -> sub_of t p.
Proof.
  induction 1 as [|bd n x b body H IH Hu Hp|bd n x b body H IH Hu Hp|bd n c H IH Hn Hc].
  - constructor.
  - destruct (unlet_spec _ _ _ _ Hu) as (Hs & _).
    eapply sub_of_trans; [|exact IH]. eapply sub_step; [|constructor]. rewrite Hs; simpl; auto.
  - destruct (unlet_spec _ _ _ _ Hu) as (Hs & _).
    eapply sub_of_trans; [|exact IH]. eapply sub_step; [|constructor]. rewrite Hs; simpl; auto.
  - eapply sub_of_trans; [|exact IH]. eapply sub_step; [eauto|constructor].
Qed.

(** Every binding comes from a let above. *)
Lemma reach_look p bd t x r : reach p bd t -> blook x bd = Some r ->
  exists bd' n b body, reach p bd' n /\ unlet n = Some (x, b, body) /\ pred b = true /\
    r = inl bd' b /\ length bd' < length bd /\ sub_of t body.
Proof.
  induction 1 as [|bd n y b body H IH Hu Hp|bd n y b body H IH Hu Hp|bd n c H IH Hn Hc]; intros Hl.
  - discriminate.
  - destruct (IH Hl) as (bd' & n' & b' & body' & ? & ? & ? & ? & ? & Hsub).
    exists bd', n', b', body'. repeat split; auto.
    eapply sub_of_trans; [|exact Hsub]. destruct (unlet_spec _ _ _ _ Hu) as (Hs & _).
    eapply sub_step; [|constructor]. rewrite Hs; simpl; auto.
  - rewrite blook_cons in Hl. destruct (x =? y) eqn:E.
    + apply Nat.eqb_eq in E. subst y. injection Hl as <-.
      exists bd, n, b, body. repeat split; auto. constructor.
    + destruct (IH Hl) as (bd' & n' & b' & body' & ? & ? & ? & ? & ? & Hsub).
      exists bd', n', b', body'. repeat split; auto; [simpl; lia|].
      eapply sub_of_trans; [|exact Hsub]. destruct (unlet_spec _ _ _ _ Hu) as (Hs & _).
      eapply sub_step; [|constructor]. rewrite Hs; simpl; auto.
  - destruct (IH Hl) as (bd' & n' & b' & body' & ? & ? & ? & ? & ? & Hsub).
    exists bd', n', b', body'. repeat split; auto.
    eapply sub_of_trans; [|exact Hsub]. eapply sub_step; [eauto|constructor].
Qed.

(** Every free symbol is free in the program or captured above; when captured
    by an inlined let, its value is in the bindings. *)
Lemma reach_free p bd t s : reach p bd t -> isfree s t ->
  isfree s p \/
  exists n, sub_of n p /\ In s (capt n) /\
    forall x b body, unlet n = Some (x, b, body) -> pred b = true ->
      s = SV x /\ exists bd', reach p bd' n /\ blook x bd = Some (inl bd' b).
Proof.
  intros H. revert s.
  induction H as [|bd n y b body H IH Hu Hp|bd n y b body H IH Hu Hp|bd n c H IH Hn Hc]; intros s Hs; auto.
  - apply IH. destruct (unlet_spec _ _ _ _ Hu) as (E & _ & Esc & _).
    eapply (free_sub _ n 0 b []); rewrite ?E, ?Esc; auto.
  - destruct (unlet_spec _ _ _ _ Hu) as (E & Ecap & Esc & _).
    destruct (sym_eq_dec s (SV y)) as [->|Ns].
    + right. exists n. split; [eapply reach_sub; eauto|]. split; [rewrite Ecap; simpl; auto|].
      intros x b' body' Hu' _. rewrite Hu in Hu'. injection Hu' as <- <- <-. split; auto.
      exists bd. split; auto. rewrite blook_cons, Nat.eqb_refl. reflexivity.
    + destruct (IH s) as [?|(n' & H1 & H2 & H3)]; auto.
      * eapply (free_sub _ n 1 body [SV y]); rewrite ?E, ?Esc; auto. simpl. intuition congruence.
      * right. exists n'. split; auto. split; auto. intros x b' body' Hu' Hp'.
        destruct (H3 _ _ _ Hu' Hp') as (-> & bd' & Hr & Hb). split; auto. exists bd'. split; auto.
        rewrite blook_cons. destruct (x =? y) eqn:Ex; auto. apply Nat.eqb_eq in Ex. congruence.
  - apply In_nth_error in Hc as [k Hk]. destruct (nth_error_scope _ _ _ Hk) as [sc Hsc].
    destruct (in_dec sym_eq_dec s sc) as [Hi|Hi].
    + right. exists n. split; [eapply reach_sub; eauto|].
      split; [eapply scopes_capt; eauto; eapply nth_error_In; eauto|].
      intros x b body Hu Hp. rewrite (Hn _ _ _ Hu) in Hp. discriminate.
    + apply IH. eapply free_sub; eauto.
Qed.

Section Prog.
Context (p : T).
Hypothesis DB : distinct_binders p.

Lemma occurs_free bd' n x b body t :
  reach p bd' n -> unlet n = Some (x, b, body) -> sub_of t body -> occurs x t -> isfree (SV x) t.
Proof.
  intros Hr Hu Ht (m & Hm & Hx). destruct (sub_chain _ _ Hm) as (l & Hl).
  eapply chain_free; [exact Hl|constructor; auto|].
  intros n' Hn' _ Hc. destruct (unlet_spec _ _ _ _ Hu) as (Es & Ec & _).
  pose proof (reach_sub _ _ _ Hr) as Hnp.
  assert (Hbn : sub_of body n) by (eapply sub_step; [rewrite Es; simpl; eauto|constructor]).
  assert (Hn't : sub_of n' t) by (apply (chain_nodes _ _ _ _ Hl Hn')).
  assert (n' = n).
  { apply (proj2 (DB n (SV x) Hnp ltac:(rewrite Ec; simpl; auto))); auto.
    eapply sub_of_trans; [exact Hn't|]. eapply sub_of_trans; [exact Ht|].
    eapply sub_of_trans; eauto. }
  subst n'. assert (Hsz : tsize body < tsize n) by (apply tsize_sub; rewrite Es; simpl; auto).
  pose proof (sub_of_size _ _ (sub_of_trans _ _ _ Hn't Ht)) as [->|?]; lia.
Qed.

(** If one visit has [x] bound, so has every other visit of the same term. *)
Lemma reach_transfer bd1 bd2 t x r :
  reach p bd1 t -> reach p bd2 t -> occurs x t -> blook x bd1 = Some r ->
  exists bd1' bd2' n b body, reach p bd1' n /\ reach p bd2' n /\ unlet n = Some (x, b, body) /\
    pred b = true /\ length bd1' < length bd1 /\ r = inl bd1' b /\
    blook x bd2 = Some (inl bd2' b).
Proof.
  intros H1 H2 Ho Hl.
  destruct (reach_look _ _ _ _ _ H1 Hl) as (bd1' & n & b & body & Hr & Hu & Hp & -> & Hlen & Hsub).
  pose proof (occurs_free _ _ _ _ _ _ Hr Hu Hsub Ho) as Hf.
  destruct (unlet_spec _ _ _ _ Hu) as (Es & Ec & _).
  assert (Hcap : In (SV x) (capt n)) by (rewrite Ec; simpl; auto).
  destruct (DB n (SV x) (reach_sub _ _ _ Hr) Hcap) as [Hnf Huniq].
  destruct (reach_free _ _ _ _ H2 Hf) as [?|(n' & Hn' & Hc' & Hlook)]; [contradiction|].
  rewrite (Huniq n' Hn' Hc') in Hlook.
  destruct (Hlook _ _ _ Hu Hp) as (_ & bd2' & Hr2 & Hb2).
  exists bd1', bd2', n, b, body. repeat split; auto.
Qed.

Lemma reach_agree : forall k bd1 bd2 t, length bd1 <= k ->
  reach p bd1 t -> reach p bd2 t -> forall x, occurs x t -> blook x bd1 = blook x bd2.
Proof.
  induction k as [|k IH]; intros bd1 bd2 t Hk H1 H2 x Ho;
    destruct (blook x bd1) as [r1|] eqn:E1.
  - destruct bd1; [discriminate|simpl in Hk; lia].
  - destruct (blook x bd2) as [r2|] eqn:E2; auto.
    destruct (reach_transfer _ _ _ _ _ H2 H1 Ho E2) as (? & ? & ? & ? & ? & ? & ? & ? & ? & ? & ? & E).
    congruence.
  - destruct (reach_transfer _ _ _ _ _ H1 H2 Ho E1)
      as (bd1' & bd2' & n & b & body & R1 & R2 & Hu & Hp & Hlen & -> & E).
    rewrite E. f_equal. apply inl_ext. intros y Hy.
    eapply (IH bd1' bd2' b); eauto; [lia| |]; eapply re_bind; eauto.
  - destruct (blook x bd2) as [r2|] eqn:E2; auto.
    destruct (reach_transfer _ _ _ _ _ H2 H1 Ho E2) as (? & ? & ? & ? & ? & ? & ? & ? & ? & ? & ? & E).
    congruence.
Qed.

Lemma reach_inl bd1 bd2 t : reach p bd1 t -> reach p bd2 t -> inl bd1 t = inl bd2 t.
Proof. intros H1 H2. apply inl_ext. eapply reach_agree; eauto. Qed.

Definition memo_ok (m : memo) : Prop :=
  forall t r, In (t, r) m -> exists bd, reach p bd t /\ r = inl bd t.

Lemma inlm_go_spec fuel : forall bd m t,
  tsize t <= fuel -> reach p bd t -> memo_ok m ->
  fst (inlm_go fuel o bd m t) = inl bd t /\ memo_ok (snd (inlm_go fuel o bd m t)).
Proof.
  induction fuel as [|fuel IH]; intros bd m t Hf Hr Hm; [pose proof (tsize_pos t); lia|].
  simpl. unfold mlook. destruct (find (fun p => teqb t (fst p)) m) as [[t' r]|] eqn:Ef; simpl.
  - apply find_some in Ef as [Hi He]. simpl in He. apply teqb_eq in He. subst t'.
    destruct (Hm _ _ Hi) as (bd' & Hr' & ->). split; auto. apply reach_inl; auto.
  - assert (Hadd : forall r m', r = inl bd t -> memo_ok m' -> memo_ok ((t, r) :: m')).
    { intros r m' -> Hm' t0 r0 [Hi|Hi]; auto. injection Hi as <- <-. eauto. }
    assert (Hmap : (forall x b body, unlet t = Some (x, b, body) -> pred b = false) ->
       fst (mapS (inlm_go fuel o bd) m (subs t)) = map (inl bd) (subs t) /\
       memo_ok (snd (mapS (inlm_go fuel o bd) m (subs t)))).
    { intros Hnl. assert (Hgen : forall l m, incl l (subs t) -> memo_ok m ->
        fst (mapS (inlm_go fuel o bd) m l) = map (inl bd) l /\
        memo_ok (snd (mapS (inlm_go fuel o bd) m l))).
      { induction l as [|c l IHl]; intros m0 Hi Hm0; simpl; auto.
        assert (Hc : In c (subs t)) by (apply Hi; simpl; auto).
        destruct (IH bd m0 c) as [F1 F2]; auto.
        - apply tsize_sub in Hc. lia.
        - eapply re_child; eauto.
        - destruct (inlm_go fuel o bd m0 c) as [r m1]. simpl in F1, F2.
          destruct (IHl m1) as [G1 G2]; auto; [intros y Hy; apply Hi; simpl; auto|].
          destruct (mapS (inlm_go fuel o bd) m1 l) as [rs m2]. simpl in *. split; auto. congruence. }
      apply Hgen; auto. apply incl_refl. }
    rewrite (inl_eq bd t). destruct (unlet t) as [[[x b] body]|] eqn:Eu.
    + destruct (unlet_spec _ _ _ _ Eu) as (Es & _ & _ & Hsym).
      change (if o then is_atom b else true) with (pred b).
      destruct (pred b) eqn:Ep.
      * destruct (IH bd m b) as [F1 F2]; auto.
        { assert (tsize b < tsize t) by (apply tsize_sub; rewrite Es; simpl; auto). lia. }
        { eapply re_bind; eauto. }
        destruct (inlm_go fuel o bd m b) as [rb m1]. simpl in F1, F2. subst rb.
        destruct (IH ((x, inl bd b) :: bd) m1 body) as [G1 G2]; auto.
        { assert (tsize body < tsize t) by (apply tsize_sub; rewrite Es; simpl; auto). lia. }
        { eapply re_body; eauto. }
        destruct (inlm_go fuel o ((x, inl bd b) :: bd) m1 body) as [r m2]. simpl in *.
        split; auto. apply Hadd; auto. rewrite (inl_eq bd t), Eu, Ep. auto.
      * rewrite Hsym. destruct Hmap as [F1 F2].
        { intros x' b' body' Hu'. injection Hu' as <- <- <-. auto. }
        destruct (mapS (inlm_go fuel o bd) m (subs t)) as [cs m1]. simpl in *. subst cs.
        split; auto. apply Hadd; auto. rewrite (inl_eq bd t), Eu, Ep. auto.
    + assert (Hin : inl bd t = match match symof t with Some (SV x) => blook x bd | _ => None end with
              | Some r => r | None => rebuild t (map (inl bd) (subs t)) end)
        by (rewrite (inl_eq bd t), Eu; reflexivity).
      destruct (match symof t with Some (SV x) => blook x bd | _ => None end) as [r|]; simpl.
      * split; auto.
      * destruct Hmap as [F1 F2]; [discriminate|].
        destruct (mapS (inlm_go fuel o bd) m (subs t)) as [cs m1]. simpl in *. subst cs.
        split; auto.
Qed.

Lemma inline_memo_eq : inline_memo o p = inline o p.
Proof.
  unfold inline_memo, inline. apply (inlm_go_spec (tsize p) [] [] p); auto.
  - constructor.
  - intros t r [].
Qed.
End Prog.

End InlineMemo.

(** The result of full inlining contains no let. *)
Section NoLet.
Context {T : Type} {O : TermOps T} {L : TermLaws T}.

Lemma sub_of_rebuild n t cs : length cs = length (subs t) ->
  sub_of n (rebuild t cs) -> n = rebuild t cs \/ exists c, In c cs /\ sub_of n c.
Proof.
  intros Hl H. inversion H as [|? c ? Hc Hs]; subst; auto.
  rewrite subs_rebuild in Hc by auto. eauto.
Qed.

Lemma inl_nolet t : forall bd,
  (forall x r n, blook x bd = Some r -> sub_of n r -> unlet n = None) ->
  forall n, sub_of n (inl false bd t) -> unlet n = None.
Proof.
  remember (tsize t) as k eqn:Ek. revert t Ek.
  induction k as [k IH] using lt_wf_ind. intros t -> bd Hbd n Hn.
  rewrite inl_eq in Hn.
  assert (Hre : unlet t = None -> sub_of n (rebuild t (map (inl false bd) (subs t))) -> unlet n = None).
  { intros Hu Hn'. apply sub_of_rebuild in Hn' as [->|(c & Hc & Hs)]; [|..|apply map_length].
    - apply unlet_rebuild; auto. apply map_length.
    - apply in_map_iff in Hc as (c0 & <- & Hc0).
      eapply (IH (tsize c0)); [apply tsize_sub; auto|reflexivity|eauto|eauto]. }
  destruct (unlet t) as [[[x b] body]|] eqn:Eu.
  - destruct (unlet_spec _ _ _ _ Eu) as (Es & _). simpl in Hn.
    eapply (IH (tsize body)); [apply tsize_sub; rewrite Es; simpl; auto|reflexivity| |exact Hn].
    intros y r n' Hy Hs. rewrite blook_cons in Hy. destruct (y =? x); [|eauto].
    injection Hy as <-.
    eapply (IH (tsize b)); [apply tsize_sub; rewrite Es; simpl; auto|reflexivity|eauto|eauto].
  - destruct (symof t) as [[x|x]|]; auto. destruct (blook x bd) as [r|] eqn:Eb; eauto.
Qed.

Lemma inline_nolet t n : sub_of n (inline false t) -> unlet n = None.
Proof. apply (inl_nolet t []). intros x r n' H. discriminate. Qed.
End NoLet.
