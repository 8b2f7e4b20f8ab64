(** The interpreter of ein/backend/naive.py:14-85 returns whatever [den_once true]
    gives a value to: each fold, reduction and comprehension that is reached is
    executed, and only plain arrays are indexed, measured and concatenated. *)
From Verif Require Import Base Scalar Tensor Types Sym Phi Den NdOps Term PhiTerm DenFree SpecPhi Naive Once.

Section OnceNaive.
Context {FO : FloatOps} {EX : Externs}.

(** The computation returns [a] and leaves the environment as it was. *)
Definition yields {A} (E : env) (m : st A) (a : A) : Prop := exists E', m E = Ok (a, E') /\ same_env E' E.

Lemma yields_ret {A} E (a : A) : yields E (ret a) a.
Proof. exists E. split; [reflexivity|intros s; reflexivity]. Qed.
Lemma yields_lift {A} E (m : res A) a : m = Ok a -> yields E (lift m) a.
Proof. intros ->. apply yields_ret. Qed.
Lemma yields_bind {A B} E (m : st A) (k : A -> st B) a b :
  yields E m a -> (forall E1, same_env E1 E -> yields E1 (k a) b) -> yields E (sbind m k) b.
Proof.
  intros (E1 & H1 & S1) H2. destruct (H2 E1 S1) as (E2 & H3 & S2). exists E2. split.
  - unfold sbind. rewrite H1. exact H3.
  - intros s. rewrite S2. apply S1.
Qed.
Lemma yields_copy {A} E f (m : st A) a : yields (f E) m a -> yields E (on_copy f m) a.
Proof. intros (E1 & H1 & _). exists E. split; [unfold on_copy; rewrite H1; reflexivity|intros s; reflexivity]. Qed.
Lemma yields_smapM {A B} (f : A -> st B) l ys : forall E,

  Forall2 (fun x y => forall E', same_env E' E -> yields E' (f x) y) l ys -> yields E (smapM f l) ys.
Proof.
  intros E F. assert (G : forall E', same_env E' E -> yields E' (smapM f l) ys); [|apply G; intros s; reflexivity].
  induction F as [|x y l ys Hx F IH]; intros E' S; cbn [smapM]; [apply yields_ret|].
  eapply yields_bind; [apply Hx; auto|]. intros E1 S1.
  eapply yields_bind; [apply IH; intros s; rewrite S1; apply S|]. intros E2 _. apply yields_ret.
Qed.

Lemma once_eq st E1 E2 e v : same_env E1 E2 -> den_once st E2 e = Ok v -> den_once st E1 e = Ok v.
Proof. intros H. apply (sem_coincidence (sem := den_once st) e E2 E1). intros s _. symmetry. apply H. Qed.

Lemma plain_arr v u : plain true v = Ok u -> exists a, v = VArr a.
Proof. destruct v; [eauto|discriminate]. Qed.

Lemma dom_none X E s : env_dom X E -> ~ In s X -> E s = None.
Proof. intros D N. destruct (E s) eqn:Q; auto. exfalso. apply N, D. congruence. Qed.

Lemma del_yes E s v : E s = Some v -> exists E', del_sym s E = Ok (tt, E') /\ E' s = None /\ forall r, r <> s -> E' r = E r.
Proof.
  intros H. unfold del_sym, env_del. rewrite H. eexists. split; [reflexivity|]. split; [rewrite sym_eqb_refl; auto|].
  intros r N. destruct (sym_eqb r s) eqn:Q; auto. apply sym_eqb_eq in Q. congruence.
Qed.

Lemma nin_complete (e : phi) : forall X E v, fresh_binders X e -> env_dom X E ->
  den_once true E e = Ok v -> yields E (nin true e) v.
Proof.
  assert (OP : forall {B} (g : val -> res B) ops, Forall (fun e => forall X E v, fresh_binders X e -> env_dom X E ->
       den_once true E e = Ok v -> yields E (nin true e) v) ops ->
     forall X E vs ys, Forall (fresh_binders X) ops -> env_dom X E -> mapM (den_once true E) ops = Ok vs -> mapM g vs = Ok ys ->
     yields E (smapM (fun o => sbind (nin true o) (fun v => lift (g v))) ops) ys).
  { intros B g ops H X E vs ys F D Hv Hy. apply yields_smapM.
    apply mapM_Forall2 in Hv. apply mapM_Forall2 in Hy. revert ys Hy.
    induction Hv as [|o v ops vs Ho Hv IH]; intros ys Hy; inversion Hy as [|? y ? ys' Hg Hy']; subst; constructor.
    - intros E' S. inversion H; subst. inversion F; subst.
      eapply yields_bind; [eapply H2; eauto; [eapply env_dom_eq; eauto|eapply once_eq; eauto]|].
      intros E1 _. apply yields_lift. exact Hg.
    - inversion H; subst. inversion F; subst. apply IH; auto. }
  induction e using phi_ind'; intros X E v FB D Hv; simpl in FB; rewrite ?all_and_Forall' in FB;
    cbn [nin den_once] in *.
  - injection Hv as <-. apply yields_ret.
  - exists E. unfold get_sym. rewrite Hv. split; [reflexivity|intros r; reflexivity].
  - (* Let *) destruct FB as (N & F1 & F2). apply bind_ok in Hv as (w & Hw & Hv).
    eapply yields_bind; [eapply IHe1; eauto|]. intros E1 S. apply yields_copy.
    eapply IHe2; [exact F2|apply env_dom_upd; eapply env_dom_eq; eauto|].
    eapply once_eq; [|exact Hv]. apply upd_same_env. auto.
  - (* AssertEq *) destruct FB as [F1 F2]. apply bind_ok in Hv as (vs & Hvs & Hv).
    apply bind_ok in Hv as (zs & Hz & Hv). apply bind_ok in Hv as ([] & Hg & Hv).
    eapply yields_bind; [eapply (OP Z val_int); eauto|]. intros E1 S1.
    eapply yields_bind; [apply yields_lift; exact Hg|]. intros E2 S2.
    assert (S : same_env E2 E) by (intros s; rewrite S2; apply S1).
    eapply IHe; eauto; [eapply env_dom_eq; eauto|eapply once_eq; eauto].
  - (* Dim *) apply bind_ok in Hv as (w & Hw & Hv). apply bind_ok in Hv as (u & Hp & Hv).
    apply plain_arr in Hp as [a ->].
    eapply yields_bind; [eapply yields_bind; [eapply IHe; eauto|intros; apply yields_lift; reflexivity]|].
    intros E1 _. apply yields_lift. exact Hv.
  - (* Get *) destruct FB as [F1 F2]. apply bind_ok in Hv as (w & Hw & Hv). apply bind_ok in Hv as (u & Hp & Hv).
    apply plain_arr in Hp as [a ->]. apply bind_ok in Hv as (i & Hi & Hv).
    eapply yields_bind; [eapply yields_bind; [eapply IHe1; eauto|intros; apply yields_lift; reflexivity]|].
    intros E1 S. eapply yields_bind; [eapply IHe2; eauto; [eapply env_dom_eq; eauto|eapply once_eq; eauto]|].
    intros E2 _. apply yields_lift. exact Hv.
  - (* Cons *) destruct FB as [F1 F2]. apply bind_ok in Hv as (w & Hw & Hv). apply bind_ok in Hv as (u & Hu & Hv). injection Hv as <-.
    eapply yields_bind; [eapply IHe1; eauto|]. intros E1 S.
    eapply yields_bind; [eapply IHe2; eauto; [eapply env_dom_eq; eauto|eapply once_eq; eauto]|]. intros E2 _. apply yields_ret.
  - apply bind_ok in Hv as (w & Hw & Hv). eapply yields_bind; [eapply IHe; eauto|]. intros E1 _. apply yields_lift. exact Hv.
  - apply bind_ok in Hv as (w & Hw & Hv). eapply yields_bind; [eapply IHe; eauto|]. intros E1 _. apply yields_lift. exact Hv.
  - (* Vec *) destruct FB as (N & F1 & F2). apply bind_ok in Hv as (w & Hw & Hv). apply bind_ok in Hv as (z & Hz & Hv).
    apply bind_ok in Hv as ([] & Hg & Hv). apply guard_ok in Hg. cbn [negb orb] in Hg. apply Z.leb_le in Hg.
    apply bind_ok in Hv as (v0 & H0 & Hv). apply bind_ok in Hv as (u & Hp & Hv). apply plain_arr in Hp as [a ->].
    apply bind_ok in Hv as (vs & Hvs & Hv). cbn [vstack] in Hv. apply bind_ok in Hv as (l & Hl & Hv).
    apply bind_ok in Hv as ([] & Hj & Hv). injection Hv as <-.
    eapply yields_bind; [eapply yields_bind; [eapply IHe1; eauto|intros; apply yields_lift; exact Hz]|].
    intros E1 S1. eapply yields_bind.
    { apply yields_smapM with (ys := l). apply mapM_Forall2 in Hvs. apply mapM_Forall2 in Hl.
      clear Hj. revert l Hl. induction Hvs as [|k r ks rs Hk Hvs IH]; intros l Hl; inversion Hl as [|? b ? l' Hb Hl']; subst; constructor; auto.
      intros E2 S2. apply yields_copy.
      assert (S : same_env (upd E2 (SX i) (vnat k)) (upd E (SX i) (vnat k))) by (apply upd_same_env; intros s; rewrite S2; apply S1).
      eapply yields_bind; [eapply IHe2; [exact F2| |eapply once_eq; eauto]|].
      - eapply env_dom_eq; [exact S|]. apply env_dom_upd. auto.
      - intros E3 _. apply yields_lift. exact Hb. }
    intros E2 _. apply yields_lift.
    destruct (Z.to_nat z) as [|n] eqn:Qz; [lia|]. cbn [seq mapM] in Hvs. apply bind_ok in Hvs as (r0 & Hr & Hvs).
    apply bind_ok in Hvs as (rs & _ & Hvs). injection Hvs as <-.
    change (vnat 0) with (vint 0) in Hr. rewrite H0 in Hr. injection Hr as <-.
    cbn [mapM as_arr bind] in Hl. apply bind_ok in Hl as (l' & _ & Hl). injection Hl as <-.
    unfold np_array. rewrite Hj. reflexivity.
  - (* Fold *) destruct FB as (N1 & N2 & N3 & F1 & F2 & F3). apply bind_ok in Hv as (w & Hw & Hv).
    apply bind_ok in Hv as (z & Hz & Hv). apply bind_ok in Hv as ([] & Hg & Hv). apply guard_ok, Z.leb_le in Hg.
    apply bind_ok in Hv as (v0 & H0 & Hv).
    eapply yields_bind; [eapply yields_bind; [eapply IHe1; eauto|intros; apply yields_lift; exact Hz]|]. intros E1 S1.
    eapply yields_bind; [eapply IHe2; eauto; [eapply env_dom_eq; eauto|eapply once_eq; eauto]|]. intros E2 S2.
    assert (S : same_env E2 E) by (intros s; rewrite S2; apply S1). clear E1 S1 S2.
    pose proof (dom_none X E (SV c) D N1) as Ec0. pose proof (dom_none X E (SV acc) D N2) as Ea0.
    assert (LOOP : forall n k w w' Ea,
      (forall s, s <> SV c -> s <> SV acc -> Ea s = E s) -> Ea (SV acc) = Some w ->
      iter_res (fun k v => den_once true (upd (upd E (SV acc) v) (SV c) (vnat k)) e3) k n w = Ok w' ->
      exists Eb, sloop (fun k (_ : unit) => sbind (set_sym (SV c) (vnat k)) (fun _ =>
               sbind (nin true e3) (set_sym (SV acc)))) k n tt Ea = Ok (tt, Eb) /\ Eb (SV acc) = Some w' /\
        (forall s, s <> SV c -> s <> SV acc -> Eb s = E s) /\ (1 <= n -> exists u, Eb (SV c) = Some u)).
    { induction n as [|n IHn]; intros k x x' Ea HEa HA HI.
      - injection HI as <-. exists Ea. repeat split; auto. lia.
      - cbn [iter_res] in HI. apply bind_ok in HI as (x1 & H1 & HI).
        assert (Eq : same_env (upd Ea (SV c) (vnat k)) (upd (upd E (SV acc) x) (SV c) (vnat k))).
        { intros s. destruct (sym_eq_dec s (SV c)) as [->|Nc]; [rewrite !upd_eq; auto|].
          rewrite !(upd_neq _ (SV c)) by auto. destruct (sym_eq_dec s (SV acc)) as [->|Na]; [rewrite upd_eq; auto|].
          rewrite upd_neq by auto. auto. }
        assert (Dc : env_dom (SV c :: SV acc :: X) (upd Ea (SV c) (vnat k))).
        { eapply env_dom_eq; [exact Eq|]. apply env_dom_upd, env_dom_upd. auto. }
        destruct (IHe3 _ _ x1 F3 Dc (once_eq _ _ _ _ _ Eq H1)) as (Ed & Rd & Sd).
        destruct (IHn (Datatypes.S k) x1 x' (upd Ed (SV acc) x1)) as (Eb & R & A1 & A2 & A3); auto.
        + intros s Nc Na. rewrite upd_neq by auto. rewrite Sd, upd_neq by auto. auto.
        + apply upd_eq.
        + exists Eb. split; [|repeat split; auto].
          * cbn [sloop]. unfold sbind at 1. unfold sbind at 1. cbn [set_sym bind fst snd]. unfold sbind at 1. rewrite Rd. cbn [bind fst snd set_sym]. exact R.
          * intros _. destruct n as [|n]; [|apply A3; lia]. cbn [sloop] in R. injection R as <-. exists (vnat k).
            rewrite upd_neq by congruence. rewrite Sd. apply upd_eq. }
    destruct (LOOP (Z.to_nat z) 0 v0 v (upd E2 (SV acc) v0)) as (Eb & R & A1 & A2 & A3); auto.
    { intros s Nc Na. rewrite upd_neq by auto. apply S. } { apply upd_eq. }
    destruct A3 as [uc A3]; [lia|].
    destruct (del_yes Eb (SV c) uc A3) as (E3 & R3 & B1 & B2).
    assert (A4 : E3 (SV acc) = Some v) by (rewrite B2 by congruence; auto).
    destruct (del_yes E3 (SV acc) v A4) as (E4 & R4 & C1 & C2).
    exists E4. split.
    + unfold sbind at 1. cbn [set_sym bind fst snd]. unfold sbind at 1. rewrite R. cbn [bind fst snd].
      assert (Q : (z =? 0)%Z = false) by (apply Z.eqb_neq; lia). rewrite Q. unfold sbind at 1. rewrite R3. cbn [bind fst snd].
      unfold sbind at 1, get_sym. rewrite A4. cbn [of_opt bind fst snd]. unfold sbind. rewrite R4. reflexivity.
    + intros s. rewrite S. destruct (sym_eq_dec s (SV acc)) as [->|Na]; [congruence|]. rewrite C2 by auto.
      destruct (sym_eq_dec s (SV c)) as [->|Nc]; [congruence|]. rewrite B2 by auto. auto.
  - (* Reduce *) destruct FB as (N1 & N2 & N3 & F1 & F2 & F3).
    pose proof (dom_none X E (SV x) D N1) as Ex0. pose proof (dom_none X E (SV y) D N2) as Ey0.
    apply bind_ok in Hv as (vs & Hvs & Hv). apply bind_ok in Hv as (us & Hp & Hv).
    assert (exists l, vs = map VArr l /\ mapM as_arr vs = Ok l) as (l & -> & Hl).
    { clear - Hp. revert us Hp. induction vs as [|v vs IH]; intros us Hp; [exists []; auto|]. cbn [mapM] in Hp.
      apply bind_ok in Hp as (u & Hu & Hp). apply bind_ok in Hp as (us' & Hus & _). apply plain_arr in Hu as [a ->].
      destruct (IH us' Hus) as (l & -> & Hl). exists (a :: l). split; auto. cbn [mapM as_arr bind]. rewrite Hl. reflexivity. }
    apply bind_ok in Hv as (ns & Hns & Hv). destruct ns as [|n ns]; [discriminate|].
    apply bind_ok in Hv as ([] & Hg & Hv). apply bind_ok in Hv as ([] & Hn & Hv). apply guard_ok, Nat.leb_le in Hn.
    apply bind_ok in Hv as (v0 & H0 & Hv).
    eapply yields_bind; [eapply (OP arr as_arr); eauto|]. intros E1 S1.
    eapply yields_bind. { apply yields_lift. rewrite mapM_map in Hns. cbn [vdim] in Hns. rewrite Hns. cbn [bind the_only]. rewrite Hg. reflexivity. }
    intros E2 S2.
    eapply yields_bind; [eapply IHe1; eauto; [do 2 (eapply env_dom_eq; eauto)|do 2 (eapply once_eq; eauto)]|]. intros E3 S3.
    assert (S : same_env E3 E) by (intros s; rewrite S3, S2; apply S1). clear E1 E2 S1 S2 S3.
    assert (Rows : forall k es, k < n -> mapM (fun u => vget u (Z.of_nat k)) (map VArr l) = Ok es ->
                      es = map (fun a => VArr (asub a k)) l).
    { intros k es Hk He. rewrite mapM_map in He. rewrite mapM_map in Hns. apply guard_ok in Hg. rewrite forallb_forall in Hg.
      assert (Q : forall m, In m (n :: ns) -> m = n) by (intros m [Hm|Hm]; [auto|]; apply Hg in Hm; apply Nat.eqb_eq in Hm; auto).
      apply mapM_Forall2 in He. apply mapM_Forall2 in Hns. revert Q Hns He. clear - Hk. generalize (n :: ns). intros ms Q Hns.
      revert es Q. induction Hns as [|a m l ms Ha F IH]; intros es Q He; inversion He as [|? r ? es' Hr He']; subst; auto.
      cbn [map]. f_equal; [|apply IH; auto; intros; apply Q; right; auto].
      cbn [vdim] in Ha. apply of_opt_ok in Ha. destruct (ashape a) as [|n0 sh] eqn:Qs; [discriminate|]. cbn in Ha. injection Ha as ->.
      rewrite (vget_row a k m sh Qs) in Hr; [congruence|]. rewrite (Q m) by (left; auto). auto. }
    assert (LOOP : forall j k w w' Ea, k + j <= n ->
      (forall s, s <> SV x -> s <> SV y -> Ea s = E s) ->
      iter_res (fun k v => let* es := mapM (fun u => vget u (Z.of_nat k)) (map VArr l) in
         match es with [] => Err EType | e0 :: es' => den_once true (upd (upd E (SV x) v) (SV y) (fold_left VPair es' e0)) e2 end) k j w = Ok w' ->
      exists Eb, sloop (fun k acc =>
               sbind (set_sym (SV x) acc) (fun _ =>
               sbind (lift (match map (fun a => VArr (asub a k)) l with
                            | [] => Err EType
                            | e0 :: es => Ok (fold_left VPair es e0)
                            end)) (fun v =>
               sbind (set_sym (SV y) v) (fun _ => nin true e2)))) k j w Ea = Ok (w', Eb) /\
        (forall s, s <> SV x -> s <> SV y -> Eb s = E s) /\ (1 <= j -> (exists u, Eb (SV x) = Some u) /\ exists u, Eb (SV y) = Some u)).
    { induction j as [|j IHj]; intros k w w' Ea Hk HEa HI.
      - injection HI as <-. exists Ea. repeat split; auto; lia.
      - cbn [iter_res] in HI. apply bind_ok in HI as (w1 & H1 & HI). apply bind_ok in H1 as (es & He & H1).
        apply Rows in He; [|lia]. cbn [sloop]. destruct es as [|r0 es]; [discriminate|].
        set (r := fold_left VPair es r0) in *.
        assert (Eq : same_env (upd (upd Ea (SV x) w) (SV y) r) (upd (upd E (SV x) w) (SV y) r)).
        { intros s. destruct (sym_eq_dec s (SV y)) as [->|Ny]; [rewrite !upd_eq; auto|].
          rewrite !(upd_neq _ (SV y)) by auto. destruct (sym_eq_dec s (SV x)) as [->|Nx]; [rewrite !upd_eq; auto|].
          rewrite !upd_neq by auto. auto. }
        assert (Dc : env_dom (SV x :: SV y :: X) (upd (upd Ea (SV x) w) (SV y) r)).
        { eapply env_dom_eq; [exact Eq|]. intros s Hs. apply (env_dom_upd _ _ (SV y) r (env_dom_upd _ _ (SV x) w D)) in Hs.
          destruct Hs as [<-|[<-|Hs]]; simpl; auto. }
        destruct (IHe2 _ _ w1 F3 Dc (once_eq _ _ _ _ _ Eq H1)) as (Ed & Rd & Sd).
        destruct (IHj (Datatypes.S k) w1 w' Ed) as (Eb & R & A2 & A3); [lia| |exact HI|].
        + intros s Nx Ny. rewrite Sd, !upd_neq by auto. auto.
        + exists Eb. split; [|repeat split; auto].
          * unfold sbind at 1. unfold sbind at 1. cbn [set_sym bind fst snd]. rewrite <- He. fold r.
            unfold sbind at 1. unfold lift at 1. cbn [bind fst snd]. unfold sbind at 1. cbn [set_sym bind fst snd]. rewrite Rd. cbn [bind fst snd]. exact R.
          * destruct j as [|j]; [|apply A3; lia]. cbn [sloop] in R. injection R as _ <-. exists w. rewrite Sd. rewrite upd_neq by congruence. apply upd_eq.
          * destruct j as [|j]; [|apply A3; lia]. cbn [sloop] in R. injection R as _ <-. exists r. rewrite Sd. apply upd_eq. }
    destruct (LOOP n 0 v0 v E3) as (Eb & R & A2 & A3); auto.
    destruct A3 as [[ux A3] [uy A4]]; [lia|].
    destruct (del_yes Eb (SV x) ux A3) as (E4 & R4 & B1 & B2).
    assert (A5 : E4 (SV y) = Some uy) by (rewrite B2 by congruence; auto).
    destruct (del_yes E4 (SV y) uy A5) as (E5 & R5 & C1 & C2).
    exists E5. split.
    + unfold sbind at 1. rewrite R. cbn [bind fst snd].
      assert (Q : (n =? 0) = false) by (apply Nat.eqb_neq; lia). rewrite Q. unfold sbind at 1. unfold sbind at 1. rewrite R4. cbn [bind fst snd].
      rewrite R5. reflexivity.
    + intros s. rewrite S. destruct (sym_eq_dec s (SV y)) as [->|Ny]; [congruence|]. rewrite C2 by auto.
      destruct (sym_eq_dec s (SV x)) as [->|Nx]; [congruence|]. rewrite B2 by auto. auto.
  - apply bind_ok in Hv as (w & Hw & Hv). eapply yields_bind; [eapply IHe; eauto|]. intros E1 _. apply yields_lift. exact Hv.
  - destruct FB as [F1 F2]. apply bind_ok in Hv as (w & Hw & Hv). apply bind_ok in Hv as (u & Hu & Hv).
    eapply yields_bind; [eapply IHe1; eauto|]. intros E1 S.
    eapply yields_bind; [eapply IHe2; eauto; [eapply env_dom_eq; eauto|eapply once_eq; eauto]|]. intros E2 _. apply yields_lift. exact Hv.
  - destruct FB as (F1 & F2 & F3). apply bind_ok in Hv as (w & Hw & Hv). apply bind_ok in Hv as (u & Hu & Hv). apply bind_ok in Hv as (t & Ht & Hv).
    eapply yields_bind; [eapply IHe1; eauto|]. intros E1 S.
    eapply yields_bind; [eapply IHe2; eauto; [eapply env_dom_eq; eauto|eapply once_eq; eauto]|]. intros E2 S2.
    assert (S' : same_env E2 E) by (intros s; rewrite S2; apply S).
    eapply yields_bind; [eapply IHe3; eauto; [eapply env_dom_eq; eauto|eapply once_eq; eauto]|]. intros E3 _. apply yields_lift. exact Hv.
  - (* Concat *) destruct FB as [F1 F2]. apply bind_ok in Hv as (w & Hw & Hv). apply bind_ok in Hv as (p1 & Hp & Hv).
    apply plain_arr in Hp as [a ->]. apply bind_ok in Hv as (u & Hu & Hv). apply bind_ok in Hv as (p2 & Hp & Hv). apply plain_arr in Hp as [b ->].
    eapply yields_bind; [eapply yields_bind; [eapply IHe1; eauto|intros; apply yields_lift; reflexivity]|]. intros E1 S.
    eapply yields_bind; [eapply yields_bind; [eapply IHe2; eauto; [eapply env_dom_eq; eauto|eapply once_eq; eauto]|intros; apply yields_lift; reflexivity]|].
    intros E2 _. apply yields_lift. exact Hv.
  - (* Ext *) apply bind_ok in Hv as (vs & Hvs & Hv). apply bind_ok in Hv as (l & Hl & Hv).
    eapply yields_bind; [eapply (OP arr as_arr); eauto|]. intros E1 _. apply yields_lift. exact Hv.
Qed.
End OnceNaive.
