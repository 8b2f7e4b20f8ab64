(** ein/backend/naive.py:14-85: the reference interpreter, as a transcript with
    its mutable environment, and its agreement with [den].

    Simplifications: a ufunc is applied to 0-d arrays only (anything else is a
    type error here, numpy would broadcast); numpy.array on a list of arrays of
    different shapes or kinds raises. *)
From Verif Require Import Base Scalar Tensor Types Sym Phi Den Term PhiTerm DenFree SpecPhi.

Section Naive.
Context {FO : FloatOps} {EX : Externs}.

(** [del env[s]] *)
Definition env_del (E : env) (s : sym) : res env :=
  match E s with
  | None => Err EUnbound
  | Some _ => Ok (fun r => if sym_eqb r s then None else E r)
  end.

Definition st (A : Type) : Type := env -> res (A * env).
Definition ret {A} (a : A) : st A := fun E => Ok (a, E).
Definition sbind {A B} (m : st A) (k : A -> st B) : st B :=
  fun E => let* r := m E in k (fst r) (snd r).
Definition lift {A} (m : res A) : st A := fun E => let* a := m in Ok (a, E).
Definition set_sym (s : sym) (v : val) : st unit := fun E => Ok (tt, upd E s v).
Definition del_sym (s : sym) : st unit := fun E => let* E' := env_del E s in Ok (tt, E').
Definition get_sym (s : sym) : st val := fun E => let* v := of_opt EUnbound (E s) in Ok (v, E).
(** Run on a copy of the environment ([env | {...}]), which is then dropped. *)
Definition on_copy {A} (f : env -> env) (m : st A) : st A :=
  fun E => let* r := m (f E) in Ok (fst r, E).

Definition smapM {A B} (f : A -> st B) : list A -> st (list B) :=
  fix go l := match l with
  | [] => ret []
  | x :: l => sbind (f x) (fun y => sbind (go l) (fun ys => ret (y :: ys)))
  end.

Fixpoint sloop {A} (f : nat -> A -> st A) (k n : nat) (a : A) : st A :=
  match n with
  | 0 => ret a
  | S n => sbind (f k a) (sloop f (S k) n)
  end.

(** numpy.array([...]) (20); [strict] additionally rejects the empty list, for
    which numpy makes a float array of shape (0,). *)
Definition np_array (strict : bool) (l : list arr) : res arr :=
  match l with
  | [] => if strict then Err EValue else Ok (mkArr KFloat [0] [])
  | a :: _ =>
      let* _ := guard (forallb (arr_like a) l) EJagged in
      Ok (astack (akind a) (ashape a) l)
  end.

(** The unique element of a set built from a list (38, 62). *)
Definition the_only (l : list nat) : res nat :=
  match l with
  | [] => Err EValue
  | n :: l => let* _ := guard (forallb (Nat.eqb n) l) EValue in Ok n
  end.

(** naive.py:14-85 [_interpret].  [strict = false] is the code; [strict = true]
    fails when a comprehension of size 0 is executed. *)
Fixpoint nin (strict : bool) (e : phi) : st val :=
  match e with
  | PVec i size body =>
      sbind (sbind (nin strict size) (fun v => lift (val_int v))) (fun z =>
      sbind (smapM (fun k => on_copy (fun E => upd E (SX i) (vnat k))
                               (sbind (nin strict body) (fun v => lift (as_arr v))))
                   (seq 0 (Z.to_nat z))) (fun l =>
      lift (let* a := np_array strict l in Ok (VArr a))))
  | PFold c size acc init body =>
      sbind (sbind (nin strict size) (fun v => lift (val_int v))) (fun z =>
      sbind (nin strict init) (fun v0 =>
      sbind (set_sym (SV acc) v0) (fun _ =>
      sbind (sloop (fun k (_ : unit) =>
               sbind (set_sym (SV c) (vnat k)) (fun _ =>
               sbind (nin strict body) (set_sym (SV acc)))) 0 (Z.to_nat z) tt) (fun _ =>
      sbind (if (z =? 0)%Z then ret tt else del_sym (SV c)) (fun _ =>
      sbind (get_sym (SV acc)) (fun v => sbind (del_sym (SV acc)) (fun _ => ret v)))))))
  | PReduce init x y xy vecs =>
      sbind (smapM (fun u => sbind (nin strict u) (fun v => lift (as_arr v))) vecs) (fun l =>
      sbind (lift (let* ns := mapM (fun a => of_opt EShape (nth_error (ashape a) 0)) l in the_only ns)) (fun n =>
      sbind (nin strict init) (fun v0 =>
      sbind (sloop (fun k acc =>
               sbind (set_sym (SV x) acc) (fun _ =>
               sbind (lift (match map (fun a => VArr (asub a k)) l with
                            | [] => Err EType
                            | e0 :: es => Ok (fold_left VPair es e0)
                            end)) (fun v =>
               sbind (set_sym (SV y) v) (fun _ => nin strict xy)))) 0 n v0) (fun v =>
      sbind (if n =? 0 then ret tt else sbind (del_sym (SV x)) (fun _ => del_sym (SV y))) (fun _ =>
      ret v)))))
  | PGet t i =>
      sbind (sbind (nin strict t) (fun v => lift (as_arr v))) (fun a =>
      sbind (nin strict i) (fun w =>
      lift (let* z := val_int w in let* b := aget a z in Ok (VArr b))))
  | PConcat a b =>
      sbind (sbind (nin strict a) (fun v => lift (as_arr v))) (fun u => sbind (sbind (nin strict b) (fun v => lift (as_arr v))) (fun v =>
      lift (let* c := aconcat u v in Ok (VArr c))))
  | PAssertEq t ops =>
      sbind (smapM (fun o => sbind (nin strict o) (fun v => lift (val_int v))) ops) (fun zs =>
      sbind (lift (guard (all_equal zs) EAssert)) (fun _ => nin strict t))
  | PConst a => ret (VArr a)
  | PStore s _ => get_sym s
  | PDim t ax => sbind (sbind (nin strict t) (fun v => lift (as_arr v))) (fun a =>
      lift (let* n := of_opt EShape (nth_error (ashape a) ax) in Ok (vnat n)))
  | PLet x b body =>
      sbind (nin strict b) (fun v => on_copy (fun E => upd E (SV x) v) (nin strict body))
  | PCons a b => sbind (nin strict a) (fun v => sbind (nin strict b) (fun w => ret (VPair v w)))
  | PFirst t => sbind (nin strict t) (fun v => lift (let* p := as_pair v in Ok (fst p)))
  | PSecond t => sbind (nin strict t) (fun v => lift (let* p := as_pair v in Ok (snd p)))
  | PUn o a => sbind (nin strict a) (fun v => lift (lift1 (sem_un o) v))
  | PBin o a b => sbind (nin strict a) (fun v => sbind (nin strict b) (fun w => lift (lift2 (sem_bin o) v w)))
  | PWhere c a b =>
      sbind (nin strict c) (fun u => sbind (nin strict a) (fun v => sbind (nin strict b) (fun w =>
      lift (lift3 sem_where u v w))))
  | PExt _ f ops =>
      sbind (smapM (fun o => sbind (nin strict o) (fun v => lift (as_arr v))) ops) (fun l =>
      lift (let* a := ext_call f l in Ok (VArr a)))
  end.

(** No binder rebinds a symbol that is already in scope. *)
Fixpoint fresh_binders (X : list sym) (e : phi) : Prop :=
  let all (l : list phi) := fold_right and True (map (fresh_binders X) l) in
  match e with
  | PConst _ | PStore _ _ => True
  | PLet x b body => ~ In (SV x) X /\ fresh_binders X b /\ fresh_binders (SV x :: X) body
  | PAssertEq t ops => fresh_binders X t /\ all ops
  | PDim t _ => fresh_binders X t
  | PGet t i => fresh_binders X t /\ fresh_binders X i
  | PCons a b => fresh_binders X a /\ fresh_binders X b
  | PFirst t | PSecond t => fresh_binders X t
  | PVec i s b => ~ In (SX i) X /\ fresh_binders X s /\ fresh_binders (SX i :: X) b
  | PFold c s acc init b =>
      ~ In (SV c) X /\ ~ In (SV acc) X /\ c <> acc /\
      fresh_binders X s /\ fresh_binders X init /\ fresh_binders (SV c :: SV acc :: X) b
  | PReduce init x y xy vecs =>
      ~ In (SV x) X /\ ~ In (SV y) X /\ x <> y /\
      fresh_binders X init /\ all vecs /\ fresh_binders (SV x :: SV y :: X) xy
  | PUn _ a => fresh_binders X a
  | PBin _ a b => fresh_binders X a /\ fresh_binders X b
  | PWhere c a b => fresh_binders X c /\ fresh_binders X a /\ fresh_binders X b
  | PConcat a b => fresh_binders X a /\ fresh_binders X b
  | PExt _ _ ops => all ops
  end.

Definition env_dom (X : list sym) (E : env) : Prop := forall s, E s <> None -> In s X.
Definition same_env (E1 E2 : env) : Prop := forall s, E1 s = E2 s.

(** A computation that yields [r] and restores the environment. *)
Definition restores {A} (E : env) (m : st A) (P : A -> Prop) : Prop :=
  forall a E', m E = Ok (a, E') -> same_env E' E /\ P a.

Lemma restores_bind {A B} E (m : st A) (k : A -> st B) (P : A -> Prop) (Q : B -> Prop) :
  restores E m P ->
  (forall a E', same_env E' E -> P a -> restores E' (k a) Q) ->
  restores E (sbind m k) Q.
Proof.
  intros Hm Hk b E2 H. unfold sbind in H. inv_bind. destruct a as [a E1]. simpl in Hk0.
  destruct (Hm a E1 Hb) as [H1 H2]. destruct (Hk a E1 H1 H2 b E2 Hk0) as [H3 H4].
  split; auto. intros s. rewrite H3. apply H1.
Qed.

Lemma restores_lift {A} E (m : res A) (P : A -> Prop) : (forall a, m = Ok a -> P a) -> restores E (lift m) P.
Proof.
  intros H a E' Ha. unfold lift in Ha. inv_bind. split; [intros s; reflexivity|auto].
Qed.

Lemma restores_ret {A} E (a : A) (P : A -> Prop) : P a -> restores E (ret a) P.
Proof. intros H b E' Hb. injection Hb as <- <-. split; [intros s; reflexivity|auto]. Qed.

Lemma restores_copy {A} E f (m : st A) (P : A -> Prop) : restores (f E) m P -> restores E (on_copy f m) P.
Proof.
  intros H a E' Ha. unfold on_copy in Ha. inv_bind. destruct a0 as [b E2]. simpl in *.
  destruct (H b E2 Hb) as [_ H2]. split; [intros s; reflexivity|auto].
Qed.

Lemma restores_smapM {A B} (f : A -> st B) (R : A -> B -> Prop) l : forall E,
  (forall x E', In x l -> same_env E' E -> restores E' (f x) (R x)) ->
  restores E (smapM f l) (fun ys => Forall2 R l ys).
Proof.
  induction l as [|x l IH]; simpl; intros E H.
  - apply restores_ret. constructor.
  - eapply restores_bind; [apply H; auto; intros s; reflexivity|]. intros y E1 E1E Hy.
    eapply restores_bind.
    { apply IH. intros x' E2 Hx E2E. apply H; auto. intros s. rewrite E2E. apply E1E. }
    intros ys E2 _ Hys. apply restores_ret. constructor; auto.
Qed.

Lemma restores_imp {A} E (m : st A) (P Q : A -> Prop) :
  (forall a, P a -> Q a) -> restores E m P -> restores E m Q.
Proof. intros H Hm a E' Ha. destruct (Hm a E' Ha). auto. Qed.

Lemma den_eq E1 E2 e : same_env E1 E2 -> den E1 e = den E2 e.
Proof. intros H. apply den_ext. auto. Qed.

Lemma env_dom_eq X E1 E2 : same_env E1 E2 -> env_dom X E2 -> env_dom X E1.
Proof. intros H D s Hs. apply D. rewrite <- H. auto. Qed.

Lemma env_dom_upd X E s v : env_dom X E -> env_dom (s :: X) (upd E s v).
Proof.
  intros D r Hr. unfold upd in Hr. destruct (sym_eqb r s) eqn:Er.
  - apply sym_eqb_eq in Er. simpl; auto.
  - simpl; auto.
Qed.

Lemma upd_same_env E1 E2 s v : same_env E1 E2 -> same_env (upd E1 s v) (upd E2 s v).
Proof. intros H r. unfold upd. destruct (sym_eqb r s); auto. Qed.

Lemma all_and_Forall' {A} (P : A -> Prop) l : fold_right and True (map P l) <-> Forall P l.
Proof.
  induction l; simpl; split; intros H; auto.
  - constructor; tauto.
  - inversion H; subst. tauto.
Qed.

Lemma mapM_of_Forall2 {A B} (f : A -> res B) l ys :
  Forall2 (fun x y => f x = Ok y) l ys -> mapM f l = Ok ys.
Proof. intros H. apply mapM_Forall2. auto. Qed.

Lemma as_arr_ok v a : as_arr v = Ok a -> v = VArr a.
Proof. destruct v; simpl; intros H; inv_bind; congruence. Qed.

Lemma vget_row a k n sh : ashape a = n :: sh -> k < n ->
  vget (VArr a) (Z.of_nat k) = Ok (VArr (asub a k)).
Proof. intros H L. simpl. unfold aget. rewrite H. simpl. rewrite clip_id by auto. reflexivity. Qed.

(** Agreement with [den] and restoration of the environment, for runs that
    execute no empty comprehension. *)
Lemma nin_den (e : phi) : forall X E, fresh_binders X e -> env_dom X E ->
  restores E (nin true e) (fun v => den E e = Ok v).
Proof.
  induction e using phi_ind'; intros X E FB D; simpl in FB; rewrite ?all_and_Forall' in FB;
    cbn [nin den].
  - apply restores_ret. reflexivity.
  - intros v E' H. unfold get_sym in H. inv_bind.
    split; [intros r; reflexivity|]. rewrite Hb. reflexivity.
  - (* Let *) destruct FB as (N & F1 & F2).
    eapply restores_bind; [eapply IHe1; eauto|]. intros v E1 E1E Hv.
    apply restores_copy.
    eapply restores_imp; [|eapply IHe2; eauto; apply env_dom_upd; eapply env_dom_eq; eauto].
    intros w Hw. rewrite Hv. cbn [bind]. rewrite <- Hw. apply den_eq. apply upd_same_env.
    intros s. symmetry. apply E1E.
  - (* AssertEq *) destruct FB as [F1 F2]. rewrite Forall_forall in H, F2.
    eapply restores_bind.
    { apply restores_smapM with (R := fun o z => exists v, den E o = Ok v /\ val_int v = Ok z).
      intros o E1 Ho E1E. eapply restores_bind; [eapply H; eauto; eapply env_dom_eq; eauto|].
      intros v E2 _ Hv. apply restores_lift. intros z Hz. exists v. split; auto.
      rewrite <- Hv. apply den_eq. intros s. symmetry. apply E1E. }
    intros zs E1 E1E Hzs.
    eapply restores_bind; [apply restores_lift with (P := fun _ => all_equal zs = true);
                           intros u Hu; eapply guard_ok; eauto|].
    intros u E2 E2E Hz. cbv beta in Hz.
    eapply restores_imp; [|eapply IHe; eauto; do 2 (eapply env_dom_eq; eauto)].
    intros v Hv.
    assert (exists vs, mapM (den E) ops = Ok vs /\ mapM val_int vs = Ok zs) as (vs & M1 & M2).
    { clear - Hzs. induction Hzs as [|o z ops zs (v & H1 & H2) _ (vs & IH1 & IH2)].
      - exists []. auto.
      - exists (v :: vs). simpl. rewrite H1, IH1. simpl. rewrite H2, IH2. auto. }
    rewrite M1. simpl. rewrite M2. simpl. rewrite Hz. simpl. rewrite <- Hv. apply den_eq.
    intros s. rewrite E2E. rewrite E1E. reflexivity.
  - (* Dim *)
    eapply restores_bind.
    { eapply restores_bind; [eapply IHe; eauto|]. intros v E1 _ Hv.
      apply restores_lift with (P := fun a => den E e = Ok (VArr a)). intros a Ha.
      apply as_arr_ok in Ha. subst v. exact Hv. }
    intros a E1 _ Ha. apply restores_lift. intros v Hv. inv_bind.
    rewrite Ha. simpl. rewrite Hb. reflexivity.
  - (* Get *) destruct FB as [F1 F2].
    eapply restores_bind.
    { eapply restores_bind; [eapply IHe1; eauto|]. intros v E1 _ Hv.
      apply restores_lift with (P := fun a => den E e1 = Ok (VArr a)). intros a Ha.
      apply as_arr_ok in Ha. subst v. exact Hv. }
    intros a E1 E1E Ha.
    eapply restores_bind; [eapply IHe2; eauto; eapply env_dom_eq; eauto|].
    intros w E2 _ Hw. apply restores_lift. intros v Hv. inv_bind.
    rewrite Ha. simpl. rewrite (den_eq E E1) by (intros s; symmetry; apply E1E).
    rewrite Hw. simpl. rewrite Hb. simpl. rewrite Hb0. reflexivity.
  - (* Cons *) destruct FB as [F1 F2].
    eapply restores_bind; [eapply IHe1; eauto|]. intros v E1 E1E Hv.
    eapply restores_bind; [eapply IHe2; eauto; eapply env_dom_eq; eauto|]. intros w E2 E2E Hw.
    apply restores_ret. rewrite Hv. simpl. rewrite (den_eq E E1) by (intros s; symmetry; apply E1E).
    rewrite Hw. reflexivity.
  - eapply restores_bind; [eapply IHe; eauto|]. intros v E1 _ Hv. apply restores_lift.
    intros w Hw. rewrite Hv. exact Hw.
  - eapply restores_bind; [eapply IHe; eauto|]. intros v E1 _ Hv. apply restores_lift.
    intros w Hw. rewrite Hv. exact Hw.
  - (* Vec *) destruct FB as (N & F1 & F2).
    eapply restores_bind.
    { eapply restores_bind; [eapply IHe1; eauto|]. intros v E1 _ Hv.
      apply restores_lift with (P := fun z => exists v, den E e1 = Ok v /\ val_int v = Ok z). intros z Hz. exists v. split; auto. }
    intros z E1 E1E (vz & Hvz & Hz).
    eapply restores_bind.
    { apply restores_smapM with (R := fun k a => den (upd E (SX i) (vnat k)) e2 = Ok (VArr a)).
      intros k E2 _ E2E. apply restores_copy.
      eapply restores_bind.
      - eapply IHe2; eauto. apply env_dom_upd. do 2 (eapply env_dom_eq; eauto).
      - intros v E3 _ Hv. apply restores_lift. intros a Ha. apply as_arr_ok in Ha. subst v.
        rewrite <- Hv. apply den_eq. apply upd_same_env. intros s. rewrite E2E. symmetry. apply E1E. }
    intros l E2 _ Hl. apply restores_lift. intros v Hv. inv_bind.
    rewrite Hvz. simpl. rewrite Hz. simpl.
    unfold np_array in Hb. destruct (Z.to_nat z) as [|n]; simpl in Hl.
    { inversion Hl; subst. discriminate. }
    simpl. inversion Hl as [|? a0 ? l' H0 Hl']; subst. inv_bind.
    change (den (upd E (SX i) (vint 0)) e2) with (den (upd E (SX i) (vnat 0)) e2).
    rewrite H0. cbn [bind].
    assert (M : mapM (fun k => den (upd E (SX i) (vnat k)) e2) (seq 1 n) = Ok (map VArr l')).
    { clear - Hl'. induction Hl' as [|k a ks l' Hk Hl' IH]; simpl; auto. rewrite Hk. simpl. rewrite IH. auto. }
    rewrite M. cbn [bind vstack].
    assert (M2 : mapM as_arr (VArr a0 :: map VArr l') = Ok (a0 :: l')).
    { rewrite <- (map_cons VArr), mapM_map. cbn [as_arr].
      rewrite (mapM_Ok (fun x => x)), map_id. reflexivity. }
    rewrite M2. cbn [bind]. rewrite Hb0. cbn [guard bind]. reflexivity.
  - (* Fold *) destruct FB as (N1 & N2 & N3 & F1 & F2 & F3).
    intros v E' H. unfold sbind in H. apply bind_ok in H as ([z E1] & H1 & H). simpl in H.
    apply bind_ok in H1 as ([vz E0] & H1 & H1'). simpl in H1'. unfold lift in H1'.
    apply bind_ok in H1' as (z' & Hz & H1'). injection H1' as -> ->.
    destruct (IHe1 X E F1 D vz E1 H1) as [EE1 Dz].
    apply bind_ok in H as ([v0 E2] & Hi & H). simpl in H.
    assert (D1 : env_dom X E1) by (eapply env_dom_eq; eauto).
    destruct (IHe2 X E1 F2 D1 v0 E2 Hi) as [EE2 Di].
    apply bind_ok in H as ([[] Eloop] & HL & H). simpl in H.
    rewrite Dz. simpl. rewrite Hz. simpl.
    rewrite (den_eq E E1) by (intros s; symmetry; apply EE1). rewrite Di. simpl.
    set (body := fun k w => den (upd (upd E (SV acc) w) (SV c) (vnat k)) e3).
    assert (LOOP : forall n k w Ea Eb,
      (forall s, s <> SV c -> s <> SV acc -> Ea s = E s) -> Ea (SV acc) = Some w ->
      sloop (fun k (_ : unit) => sbind (set_sym (SV c) (vnat k)) (fun _ =>
               sbind (nin true e3) (set_sym (SV acc)))) k n tt Ea = Ok (tt, Eb) ->
      exists w', iter_res body k n w = Ok w' /\ Eb (SV acc) = Some w' /\
        (forall s, s <> SV c -> s <> SV acc -> Eb s = E s) /\
        (n = 0 -> Eb (SV c) = Ea (SV c))).
    { induction n as [|n IHn]; intros k w Ea Eb HEa HA HLo.
      - simpl in HLo. injection HLo as <-. exists w. simpl. repeat split; auto.
      - simpl in HLo. unfold sbind at 1 in HLo.
        apply bind_ok in HLo as ([[] Ec] & HL1 & HL2). simpl in HL2.
        unfold sbind at 1 in HL1. simpl in HL1.
        unfold sbind in HL1. apply bind_ok in HL1 as ([w1 Ed] & HL1 & HL3). simpl in HL3.
        unfold set_sym in HL3. injection HL3 as <-.
        assert (Dc : env_dom (SV c :: SV acc :: X) (upd Ea (SV c) (vnat k))).
        { intros s Hs. unfold upd in Hs. destruct (sym_eqb s (SV c)) eqn:Ec.
          - apply sym_eqb_eq in Ec. simpl; auto.
          - apply sym_eqb_neq in Ec. destruct (sym_eq_dec s (SV acc)) as [->|Na]; [simpl; auto|].
            rewrite HEa in Hs by auto. simpl. auto. }
        destruct (IHe3 _ _ F3 Dc w1 Ed HL1) as [EEd Dd].
        assert (Eq : same_env (upd Ea (SV c) (vnat k)) (upd (upd E (SV acc) w) (SV c) (vnat k))).
        { intros s. destruct (sym_eq_dec s (SV c)) as [->|Nc]; [rewrite !upd_eq; auto|].
          rewrite !(upd_neq _ (SV c)) by auto.
          destruct (sym_eq_dec s (SV acc)) as [->|Na]; [rewrite upd_eq; auto|].
          rewrite upd_neq by auto. auto. }
        destruct (IHn (S k) w1 (upd Ed (SV acc) w1) Eb) as (w' & I1 & I2 & I3 & I4).
        + intros s Nc Na. rewrite upd_neq by auto. rewrite EEd, upd_neq by auto. auto.
        + apply upd_eq.
        + exact HL2.
        + exists w'. split; [|split; [|split]]; auto; try lia.
          simpl. unfold body at 1. rewrite <- (den_eq _ _ e3 Eq), Dd. exact I1. }
    destruct (LOOP (Z.to_nat z) 0 v0 (upd E2 (SV acc) v0) Eloop) as (w & I1 & I2 & I3 & I4); auto.
    { intros s Nc Na. rewrite upd_neq by auto. rewrite EE2, EE1. auto. }
    { apply upd_eq. }
    fold body. rewrite I1.
    assert (Ec0 : E (SV c) = None).
    { destruct (E (SV c)) eqn:Ec; auto. exfalso. apply N1, D. congruence. }
    assert (Ea0 : E (SV acc) = None).
    { destruct (E (SV acc)) eqn:Ec; auto. exfalso. apply N2, D. congruence. }
    apply bind_ok in H as ([[] E3] & HD & H). simpl in H.
    unfold get_sym in H. apply bind_ok in H as ([w2 E4] & HG & H). simpl in H.
    apply bind_ok in HG as (w3 & HG & HG'). injection HG' as <- <-.
    apply of_opt_ok in HG.
    apply bind_ok in H as ([[] E5] & HX & H). simpl in H. injection H as <- <-.
    unfold del_sym in HX. apply bind_ok in HX as (E6 & HX & HX'). injection HX' as ->.
    unfold env_del in HX. rewrite HG in HX. injection HX as <-.
    assert (HE3 : (forall s, s <> SV c -> E3 s = Eloop s) /\ E3 (SV c) = None).
    { destruct (z =? 0)%Z eqn:Ez.
      - injection HD as <-. split; auto. apply Z.eqb_eq in Ez. subst z.
        rewrite I4 by reflexivity. rewrite upd_neq by congruence. rewrite EE2, EE1. auto.
      - unfold del_sym in HD. apply bind_ok in HD as (E6 & HD & HD'). injection HD' as ->.
        unfold env_del in HD. destruct (Eloop (SV c)); [|discriminate]. injection HD as <-.
        split; [|rewrite sym_eqb_refl; auto]. intros s Ns.
        destruct (sym_eqb s (SV c)) eqn:Es; [apply sym_eqb_eq in Es; congruence|auto]. }
    destruct HE3 as [HE3 HE3c].
    split.
    + intros s. destruct (sym_eqb s (SV acc)) eqn:Es.
      * apply sym_eqb_eq in Es. subst. auto.
      * apply sym_eqb_neq in Es. destruct (sym_eq_dec s (SV c)) as [->|Nc]; [congruence|].
        rewrite HE3 by auto. auto.
    + rewrite HE3, I2 in HG by congruence. congruence.
  - (* Reduce *) destruct FB as (N1 & N2 & N3 & F1 & F2 & F3).
    rewrite Forall_forall in H, F2.
    assert (Ex0 : E (SV x) = None).
    { destruct (E (SV x)) eqn:Ec; auto. exfalso. apply N1, D. congruence. }
    assert (Ey0 : E (SV y) = None).
    { destruct (E (SV y)) eqn:Ec; auto. exfalso. apply N2, D. congruence. }
    eapply restores_bind.
    { apply restores_smapM with (R := fun u a => den E u = Ok (VArr a)).
      intros o E1 Ho E1E. eapply restores_bind; [eapply H; eauto; eapply env_dom_eq; eauto|].
      intros v E2 _ Hv. apply restores_lift. intros a Ha. apply as_arr_ok in Ha. subst v.
      rewrite <- Hv. apply den_eq. intros s. symmetry. apply E1E. }
    intros l E1 E1E Hl.
    assert (M1 : mapM (den E) vecs = Ok (map VArr l)).
    { clear - Hl. induction Hl as [|u a us l Hu Hl IH]; simpl; auto. rewrite Hu. simpl. rewrite IH. auto. }
    rewrite M1. cbn [bind]. rewrite mapM_map. cbn [vdim].
    eapply restores_bind.
    { apply restores_lift with (P := fun n => exists ns,
        mapM (fun a => of_opt EShape (nth_error (ashape a) 0)) l = Ok (n :: ns) /\ forallb (Nat.eqb n) ns = true).
      intros n Hn. inv_bind. unfold the_only in Hk. destruct a as [|n0 ns]; [discriminate|].
      inv_bind. exists ns. rewrite Hb. split; auto. }
    intros n E2 E2E (ns & M2 & AE). rewrite M2. cbn [bind]. rewrite AE. cbn [guard bind].
    eapply restores_bind; [eapply IHe1; eauto; do 2 (eapply env_dom_eq; eauto)|].
    intros v0 E3 E3E Hv0.
    rewrite (den_eq E E2) by (intros s; rewrite E2E, E1E; auto). rewrite Hv0. cbn [bind].
    assert (Rows : forall k, k < n -> mapM (fun u => vget u (Z.of_nat k)) (map VArr l)
                    = Ok (map (fun a => VArr (asub a k)) l)).
    { intros k Hk. rewrite mapM_map. rewrite <- mapM_Ok. apply mapM_ext. intros a Ha.
      pose proof M2 as F. apply mapM_Forall2 in F.
      assert (exists m, In m (n :: ns) /\ of_opt EShape (nth_error (ashape a) 0) = Ok m) as (m & Hm & Hd).
      { clear - F Ha. induction F as [|b m l ns' Hb F IH]; [destruct Ha|].
        destruct Ha as [->|Ha]; [exists m; simpl; auto|].
        destruct (IH Ha) as (m' & I1 & I2). exists m'. simpl. auto. }
      assert (m = n).
      { destruct Hm as [->|Hm]; auto. rewrite forallb_forall in AE. apply AE in Hm.
        apply Nat.eqb_eq in Hm. auto. }
      subst m. apply of_opt_ok in Hd. destruct (ashape a) as [|m sh] eqn:Es; [discriminate|].
      injection Hd as ->. eapply vget_row; eauto. }
    set (stepd := fun k v => let* es := mapM (fun u => vget u (Z.of_nat k)) (map VArr l) in
              match es with
              | [] => Err EType
              | e0 :: es' => den (upd (upd E (SV x) v) (SV y) (fold_left VPair es' e0)) e2
              end).
    intros v E' HH. unfold sbind at 1 in HH.
    apply bind_ok in HH as ([w Eloop] & HL & HH). cbn [fst snd] in HH.
    assert (LOOP : forall m k w Ea w' Eb, k + m <= n ->
      (forall s, s <> SV x -> s <> SV y -> Ea s = E s) ->
      sloop (fun k acc =>
               sbind (set_sym (SV x) acc) (fun _ =>
               sbind (lift (match map (fun a => VArr (asub a k)) l with
                            | [] => Err EType
                            | e0 :: es => Ok (fold_left VPair es e0)
                            end)) (fun v =>
               sbind (set_sym (SV y) v) (fun _ => nin true e2)))) k m w Ea = Ok (w', Eb) ->
      iter_res stepd k m w = Ok w' /\ (forall s, s <> SV x -> s <> SV y -> Eb s = E s) /\
      (m = 0 -> same_env Eb Ea)).
    { induction m as [|m IHm]; intros k u Ea w' Eb Hkm HEa HLo.
      - simpl in HLo. injection HLo as <- <-. simpl. repeat split; auto.
      - simpl in HLo. unfold sbind at 1 in HLo.
        apply bind_ok in HLo as ([u1 Ec] & HL1 & HL2). cbn [fst snd] in HL2.
        unfold sbind at 1 in HL1. cbn [set_sym bind fst snd] in HL1.
        unfold sbind at 1 in HL1. apply bind_ok in HL1 as ([y1 Ed] & HLy & HL1). cbn [fst snd] in HL1.
        unfold lift in HLy. apply bind_ok in HLy as (y2 & HLy & HLy'). injection HLy' as <- <-.
        unfold sbind at 1 in HL1. cbn [set_sym bind fst snd] in HL1.
        assert (Dc : env_dom (SV x :: SV y :: X) (upd (upd Ea (SV x) u) (SV y) y2)).
        { intros s Hs. destruct (sym_eq_dec s (SV y)) as [->|Ny]; [simpl; auto|].
          destruct (sym_eq_dec s (SV x)) as [->|Nx]; [simpl; auto|].
          rewrite !upd_neq in Hs by auto. rewrite HEa in Hs by auto. simpl. auto. }
        destruct (IHe2 _ _ F3 Dc u1 Ec HL1) as [EEc Dd].
        assert (Eq : same_env (upd (upd Ea (SV x) u) (SV y) y2) (upd (upd E (SV x) u) (SV y) y2)).
        { intros s. destruct (sym_eq_dec s (SV y)) as [->|Ny]; [rewrite !upd_eq; auto|].
          rewrite !(upd_neq _ (SV y)) by auto.
          destruct (sym_eq_dec s (SV x)) as [->|Nx]; [rewrite !upd_eq; auto|].
          rewrite !upd_neq by auto. auto. }
        destruct (IHm (S k) u1 Ec w' Eb) as (I1 & I2 & I3); auto; [lia| |].
        { intros s Nx Ny. rewrite EEc, Eq, !upd_neq by auto. auto. }
        split; [|split]; auto; [|lia].
        simpl. unfold stepd at 1. rewrite Rows by lia. cbn [bind].
        destruct (map (fun a => VArr (asub a k)) l) as [|r0 rs]; [discriminate|].
        injection HLy as ->. rewrite <- (den_eq _ _ e2 Eq), Dd. exact I1. }
    destruct (LOOP n 0 v0 E3 w Eloop) as (I1 & I2 & I3); auto.
    { intros s _ _. apply E3E || (rewrite E3E, E2E, E1E; auto). }
    fold stepd. rewrite I1.
    unfold sbind in HH. apply bind_ok in HH as ([[] E4] & HD & HH). simpl in HH. injection HH as <- <-.
    split; auto. intros s. rewrite E3E, E2E, E1E.
    destruct (n =? 0) eqn:En.
    + injection HD as <-. apply Nat.eqb_eq in En. rewrite I3 by auto. rewrite E3E, E2E, E1E. auto.
    + apply bind_ok in HD as ([[] E5] & HD1 & HD2). simpl in HD2.
      unfold del_sym in HD1, HD2.
      apply bind_ok in HD1 as (E6 & HD1 & HD1'). injection HD1' as ->.
      apply bind_ok in HD2 as (E7 & HD2 & HD2'). injection HD2' as ->.
      unfold env_del in HD1, HD2.
      destruct (Eloop (SV x)); [|discriminate]. injection HD1 as <-.
      destruct (sym_eqb (SV y) (SV x)); [discriminate|].
      destruct (Eloop (SV y)); [|discriminate]. injection HD2 as <-.
      destruct (sym_eqb s (SV y)) eqn:Es; [apply sym_eqb_eq in Es; congruence|].
      apply sym_eqb_neq in Es.
      destruct (sym_eqb s (SV x)) eqn:Es'; [apply sym_eqb_eq in Es'; congruence|].
      apply sym_eqb_neq in Es'. auto.
  - eapply restores_bind; [eapply IHe; eauto|]. intros v E1 _ Hv. apply restores_lift.
    intros w Hw. rewrite Hv. exact Hw.
  - destruct FB as [F1 F2].
    eapply restores_bind; [eapply IHe1; eauto|]. intros v E1 E1E Hv.
    eapply restores_bind; [eapply IHe2; eauto; eapply env_dom_eq; eauto|]. intros w E2 E2E Hw.
    apply restores_lift. intros r Hr. rewrite Hv. cbn [bind].
    rewrite (den_eq E E1) by (intros s; symmetry; apply E1E). rewrite Hw. exact Hr.
  - destruct FB as (F1 & F2 & F3).
    eapply restores_bind; [eapply IHe1; eauto|]. intros v E1 E1E Hv.
    assert (D1 : env_dom X E1) by (eapply env_dom_eq; eauto).
    eapply restores_bind; [eapply IHe2; eauto|]. intros w E2 E2E Hw.
    eapply restores_bind; [eapply IHe3; eauto; eapply env_dom_eq; eauto|]. intros u E3 E3E Hu.
    apply restores_lift. intros r Hr. rewrite Hv. cbn [bind].
    rewrite (den_eq E E1) by (intros s; symmetry; apply E1E). rewrite Hw. cbn [bind].
    rewrite (den_eq E E2) by (intros s; rewrite E2E; symmetry; apply E1E). rewrite Hu. exact Hr.
  - destruct FB as [F1 F2].
    eapply restores_bind.
    { eapply restores_bind; [eapply IHe1; eauto|]. intros v E1 _ Hv.
      apply restores_lift with (P := fun a => den E e1 = Ok (VArr a)). intros a Ha.
      apply as_arr_ok in Ha. subst v. exact Hv. }
    intros a E1 E1E Ha.
    eapply restores_bind.
    { eapply restores_bind; [eapply IHe2; eauto; eapply env_dom_eq; eauto|]. intros v E2 _ Hv.
      apply restores_lift with (P := fun a => den E e2 = Ok (VArr a)). intros b Hb0.
      apply as_arr_ok in Hb0. subst v. rewrite <- Hv. apply den_eq. intros s. symmetry; apply E1E. }
    intros b E2 E2E Hb. apply restores_lift. intros r Hr. rewrite Ha, Hb. exact Hr.
  - rewrite Forall_forall in H, FB.
    eapply restores_bind.
    { apply restores_smapM with (R := fun o a => den E o = Ok (VArr a)).
      intros o E1 Ho E1E. eapply restores_bind; [eapply H; eauto; eapply env_dom_eq; eauto|].
      intros v E2 _ Hv. apply restores_lift. intros a Ha. apply as_arr_ok in Ha. subst v.
      rewrite <- Hv. apply den_eq. intros s. symmetry. apply E1E. }
    intros l E1 E1E Hl. apply restores_lift. intros r Hr.
    assert (M1 : mapM (den E) ops = Ok (map VArr l)).
    { clear - Hl. induction Hl as [|u a us l Hu Hl IH]; simpl; auto. rewrite Hu. simpl. rewrite IH. auto. }
    rewrite M1. cbn [bind]. rewrite mapM_map. cbn [as_arr].
    rewrite (mapM_Ok (fun x => x)), map_id. exact Hr.
Qed.

(** Runs from pointwise equal environments agree. *)
Definition sim {A} (m : st A) : Prop := forall E1 E2, same_env E1 E2 ->
  match m E1, m E2 with
  | Ok (a, E1'), Ok (b, E2') => a = b /\ same_env E1' E2'
  | Err x, Err y => x = y
  | _, _ => False
  end.

Lemma sim_bind {A B} (m : st A) (k : A -> st B) : sim m -> (forall a, sim (k a)) -> sim (sbind m k).
Proof.
  intros Hm Hk E1 E2 H. unfold sbind. specialize (Hm E1 E2 H).
  destruct (m E1) as [[a E1']|x], (m E2) as [[b E2']|y]; simpl; try contradiction; auto.
  destruct Hm as [-> H']. apply Hk; auto.
Qed.

Lemma sim_ret {A} (a : A) : sim (ret a).
Proof. intros E1 E2 H. simpl. auto. Qed.

Lemma sim_lift {A} (m : res A) : sim (lift m).
Proof. intros E1 E2 H. unfold lift. destruct m; simpl; auto. Qed.

Lemma sim_set s v : sim (set_sym s v).
Proof. intros E1 E2 H. simpl. split; auto. apply upd_same_env; auto. Qed.

Lemma sim_del s : sim (del_sym s).
Proof.
  intros E1 E2 H. unfold del_sym, env_del. rewrite (H s). destruct (E2 s); simpl; auto.
  split; auto. intros r. destruct (sym_eqb r s); auto.
Qed.

Lemma sim_get s : sim (get_sym s).
Proof. intros E1 E2 H. unfold get_sym. rewrite (H s). destruct (E2 s); simpl; auto. Qed.

Lemma sim_copy {A} s v (m : st A) : sim m -> sim (on_copy (fun E => upd E s v) m).
Proof.
  intros Hm E1 E2 H. unfold on_copy. specialize (Hm _ _ (upd_same_env _ _ s v H)).
  destruct (m (upd E1 s v)) as [[a E1']|x], (m (upd E2 s v)) as [[b E2']|y]; simpl; try contradiction; auto.
  destruct Hm as [-> _]. auto.
Qed.

Lemma sim_smapM {A B} (f : A -> st B) l : (forall x, In x l -> sim (f x)) -> sim (smapM f l).
Proof.
  induction l as [|x l IH]; intros H; simpl; [apply sim_ret|].
  apply sim_bind; [apply H; simpl; auto|]. intros y.
  apply sim_bind; [apply IH; intros; apply H; simpl; auto|]. intros ys. apply sim_ret.
Qed.

Lemma sim_sloop {A} (f : nat -> A -> st A) n : (forall k a, sim (f k a)) ->
  forall k a, sim (sloop f k n a).
Proof.
  intros H. induction n; intros k a; simpl; [apply sim_ret|]. apply sim_bind; auto.
Qed.

Lemma nin_sim b (e : phi) : sim (nin b e).
Proof.
  induction e using phi_ind'; cbn [nin];
    try rewrite Forall_forall in H;
    repeat first
      [ assumption
      | apply sim_bind; [|intros ?]
      | apply sim_ret | apply sim_lift | apply sim_set | apply sim_del | apply sim_get
      | apply sim_copy
      | apply sim_smapM; intros ? ?
      | apply sim_sloop; intros ? ?
      | apply H; assumption
      | match goal with |- sim (if ?c then _ else _) => destruct c end ].
Qed.

Lemma nin_same b e E1 E2 v E1' : same_env E1 E2 -> nin b e E1 = Ok (v, E1') ->
  exists E2', nin b e E2 = Ok (v, E2') /\ same_env E1' E2'.
Proof.
  intros H H1. pose proof (nin_sim b e E1 E2 H) as S. rewrite H1 in S.
  destruct (nin b e E2) as [[w E2']|]; [|contradiction]. destruct S as [<- S]. eauto.
Qed.

(** A strict run is a run of the code. *)
Definition sle {A} (m1 m2 : st A) : Prop := forall E r, m1 E = Ok r -> m2 E = Ok r.

Lemma sle_refl {A} (m : st A) : sle m m.
Proof. intros E r H. auto. Qed.

Lemma sle_bind {A B} (m1 m2 : st A) (k1 k2 : A -> st B) :
  sle m1 m2 -> (forall a, sle (k1 a) (k2 a)) -> sle (sbind m1 k1) (sbind m2 k2).
Proof.
  intros Hm Hk E r H. unfold sbind in *. apply bind_ok in H as ([a E'] & H1 & H2).
  rewrite (Hm _ _ H1). simpl in *. apply Hk. auto.
Qed.

Lemma sle_copy {A} f (m1 m2 : st A) : sle m1 m2 -> sle (on_copy f m1) (on_copy f m2).
Proof.
  intros Hm E r H. unfold on_copy in *. apply bind_ok in H as ([a E'] & H1 & H2).
  rewrite (Hm _ _ H1). auto.
Qed.

Lemma sle_smapM {A B} (f g : A -> st B) l :
  (forall x, In x l -> sle (f x) (g x)) -> sle (smapM f l) (smapM g l).
Proof.
  induction l as [|x l IH]; intros H; simpl; [apply sle_refl|].
  apply sle_bind; [apply H; simpl; auto|]. intros y.
  apply sle_bind; [apply IH; intros; apply H; simpl; auto|]. intros ys. apply sle_refl.
Qed.

Lemma sle_sloop {A} (f g : nat -> A -> st A) n : (forall k a, sle (f k a) (g k a)) ->
  forall k a, sle (sloop f k n a) (sloop g k n a).
Proof. intros H. induction n; intros k a; simpl; [apply sle_refl|]. apply sle_bind; auto. Qed.

Lemma sle_np l : sle (lift (let* a := np_array true l in Ok (VArr a)))
                     (lift (let* a := np_array false l in Ok (VArr a))).
Proof. intros E r. destruct l; simpl; auto. discriminate. Qed.

Lemma nin_strict (e : phi) : sle (nin true e) (nin false e).
Proof.
  induction e using phi_ind'; cbn [nin];
    try rewrite Forall_forall in H;
    repeat first
      [ assumption
      | apply sle_refl
      | apply sle_np
      | apply sle_bind; [|intros ?]
      | apply sle_copy
      | apply sle_smapM; intros ? ?
      | apply sle_sloop; intros ? ?
      | apply H; assumption ].
Qed.

(** The environment is restored, with or without empty comprehensions. *)
Lemma sloop_keeps {A} (f : nat -> A -> st A) (I : env -> Prop) n : 
  (forall k a E b E', I E -> f k a E = Ok (b, E') -> I E') ->
  forall k a E b E', I E -> sloop f k n a E = Ok (b, E') -> I E'.
Proof.
  intros Hf. induction n as [|n IH]; intros k a E b E' HI H; simpl in H.
  - injection H as <- <-. auto.
  - unfold sbind in H. apply bind_ok in H as ([c E1] & H1 & H2). simpl in H2. eauto.
Qed.

Lemma del_ok s E E' : del_sym s E = Ok (tt, E') ->
  E' s = None /\ forall r, r <> s -> E' r = E r.
Proof.
  unfold del_sym, env_del. intros H. destruct (E s); [|discriminate]. simpl in H.
  injection H as <-. rewrite sym_eqb_refl. split; auto. intros r Hr.
  destruct (sym_eqb r s) eqn:Er; auto. apply sym_eqb_eq in Er. congruence.
Qed.

Lemma nin_restores b (e : phi) : forall X E, fresh_binders X e -> env_dom X E ->
  restores E (nin b e) (fun _ => True).
Proof.
  induction e using phi_ind'; intros X E FB D; simpl in FB; rewrite ?all_and_Forall' in FB;
    cbn [nin]; try rewrite Forall_forall in H.
  - apply restores_ret; auto.
  - intros v E' H. unfold get_sym in H. inv_bind. split; auto. intros r; reflexivity.
  - destruct FB as (N & F1 & F2).
    eapply restores_bind; [eapply IHe1; eauto|]. intros v E1 E1E _. apply restores_copy.
    eapply IHe2; eauto. apply env_dom_upd. eapply env_dom_eq; eauto.
  - destruct FB as [F1 F2]. rewrite Forall_forall in F2.
    eapply restores_bind.
    { apply restores_smapM with (R := fun _ _ => True). intros o E1 Ho E1E.
      eapply restores_bind; [eapply H; eauto; eapply env_dom_eq; eauto|].
      intros; apply restores_lift; auto. }
    intros zs E1 E1E _.
    eapply restores_bind; [apply restores_lift with (P := fun _ => True); auto|].
    intros u E2 E2E _. eapply IHe; eauto. do 2 (eapply env_dom_eq; eauto).
  - eapply restores_bind; [eapply restores_bind; [eapply IHe; eauto|intros; apply restores_lift with (P := fun _ => True); auto]|].
    intros; apply restores_lift; auto.
  - destruct FB as [F1 F2].
    eapply restores_bind; [eapply restores_bind; [eapply IHe1; eauto|intros; apply restores_lift with (P := fun _ => True); auto]|].
    intros a E1 E1E _. eapply restores_bind; [eapply IHe2; eauto; eapply env_dom_eq; eauto|].
    intros; apply restores_lift; auto.
  - destruct FB as [F1 F2].
    eapply restores_bind; [eapply IHe1; eauto|].
    intros a E1 E1E _. eapply restores_bind; [eapply IHe2; eauto; eapply env_dom_eq; eauto|].
    intros; apply restores_ret; auto.
  - eapply restores_bind; [eapply IHe; eauto|]. intros; apply restores_lift; auto.
  - eapply restores_bind; [eapply IHe; eauto|]. intros; apply restores_lift; auto.
  - destruct FB as (N & F1 & F2).
    eapply restores_bind; [eapply restores_bind; [eapply IHe1; eauto|intros; apply restores_lift with (P := fun _ => True); auto]|].
    intros z E1 E1E _. eapply restores_bind.
    { apply restores_smapM with (R := fun _ _ => True). intros k E2 _ E2E. apply restores_copy.
      eapply restores_bind; [eapply IHe2; eauto; apply env_dom_upd; do 2 (eapply env_dom_eq; eauto)|].
      intros; apply restores_lift; auto. }
    intros; apply restores_lift; auto.
  - destruct FB as (N1 & N2 & N3 & F1 & F2 & F3).
    eapply restores_bind; [eapply restores_bind; [eapply IHe1; eauto|intros; apply restores_lift with (P := fun _ => True); auto]|].
    intros z E1 E1E _.
    eapply restores_bind; [eapply IHe2; eauto; eapply env_dom_eq; eauto|]. intros v0 E2 E2E _.
    assert (D2 : env_dom X E2) by (do 2 (eapply env_dom_eq; eauto)).
    assert (Ec0 : E2 (SV c) = None).
    { destruct (E2 (SV c)) eqn:Ec; auto. exfalso. apply N1, D2. congruence. }
    assert (Ea0 : E2 (SV acc) = None).
    { destruct (E2 (SV acc)) eqn:Ec; auto. exfalso. apply N2, D2. congruence. }
    intros v E' H. unfold sbind at 1 in H. simpl in H. unfold sbind at 1 in H.
    apply bind_ok in H as ([[] Eloop] & HL & H). cbn [fst snd] in H.
    set (I := fun E' : env => (forall s, s <> SV c -> s <> SV acc -> E' s = E2 s) /\
                              (Z.to_nat z = 0 -> E' (SV c) = None)).
    assert (HI : I Eloop).
    { destruct (Z.to_nat z) as [|n] eqn:En.
      - simpl in HL. injection HL as <-. split; [|intros _; rewrite upd_neq by congruence; auto].
        intros s _ Ns. rewrite upd_neq; auto.
      - split; [|discriminate].
        eapply sloop_keeps with (I := fun E' : env => forall s, s <> SV c -> s <> SV acc -> E' s = E2 s); [| |exact HL].
        + intros k [] Ea [] Eb HEa Hs. unfold sbind at 1 in Hs. simpl in Hs.
          unfold sbind in Hs. apply bind_ok in Hs as ([w Ed] & H1 & H2). simpl in H2.
          injection H2 as <-.
          assert (Dc : env_dom (SV c :: SV acc :: X) (upd Ea (SV c) (vnat k))).
          { intros s Hs. unfold upd in Hs. destruct (sym_eqb s (SV c)) eqn:Ec.
            - apply sym_eqb_eq in Ec. simpl; auto.
            - apply sym_eqb_neq in Ec. destruct (sym_eq_dec s (SV acc)) as [->|Na]; [simpl; auto|].
              rewrite HEa in Hs by auto. simpl. auto. }
          destruct (IHe3 _ _ F3 Dc w Ed H1) as [EEd _].
          intros s Nc Na. rewrite upd_neq by auto. rewrite EEd, upd_neq by auto. auto.
        + intros s _ Ns. rewrite upd_neq; auto. }
    destruct HI as [HI1 HI2].
    unfold sbind in H. apply bind_ok in H as ([[] E3] & HD & H). cbn [fst snd] in H.
    apply bind_ok in H as ([w E4] & HG & H). cbn [fst snd] in H.
    unfold get_sym in HG. apply bind_ok in HG as (w' & _ & HG). injection HG as <- <-.
    apply bind_ok in H as ([[] E5] & HX & H). cbn [fst snd] in H. injection H as <- <-.
    apply del_ok in HX as [HX1 HX2].
    assert (HE3 : (forall s, s <> SV c -> E3 s = Eloop s) /\ E3 (SV c) = None).
    { destruct (z =? 0)%Z eqn:Ez.
      - injection HD as <-. split; auto. apply HI2. apply Z.eqb_eq in Ez. subst. auto.
      - apply del_ok in HD as [HD1 HD2]. auto. }
    destruct HE3 as [HE3 HE3c]. split; auto. intros s.
    destruct (sym_eq_dec s (SV acc)) as [->|Na]; [congruence|]. rewrite HX2 by auto.
    destruct (sym_eq_dec s (SV c)) as [->|Nc]; [congruence|]. rewrite HE3 by auto. auto.
  - destruct FB as (N1 & N2 & N3 & F1 & F2 & F3). rewrite Forall_forall in F2.
    eapply restores_bind.
    { apply restores_smapM with (R := fun _ _ => True). intros o E1 Ho E1E.
      eapply restores_bind; [eapply H; eauto; eapply env_dom_eq; eauto|].
      intros; apply restores_lift; auto. }
    intros l E1 E1E _.
    eapply restores_bind; [apply restores_lift with (P := fun _ => True); auto|]. intros n E2 E2E _.
    eapply restores_bind; [eapply IHe1; eauto; do 2 (eapply env_dom_eq; eauto)|]. intros v0 E3 E3E _.
    assert (D3 : env_dom X E3) by (do 3 (eapply env_dom_eq; eauto)).
    assert (Ex0 : E3 (SV x) = None).
    { destruct (E3 (SV x)) eqn:Ec; auto. exfalso. apply N1, D3. congruence. }
    assert (Ey0 : E3 (SV y) = None).
    { destruct (E3 (SV y)) eqn:Ec; auto. exfalso. apply N2, D3. congruence. }
    intros v E' HH. unfold sbind at 1 in HH.
    apply bind_ok in HH as ([w Eloop] & HL & HH). cbn [fst snd] in HH.
    assert (HI : (forall s, s <> SV x -> s <> SV y -> Eloop s = E3 s) /\ (n = 0 -> same_env Eloop E3)).
    { split; [|intros ->; simpl in HL; injection HL as <- <-; intros s; auto].
      eapply sloop_keeps with (I := fun E' : env => forall s, s <> SV x -> s <> SV y -> E' s = E3 s); [| |exact HL]; auto.
      intros k u Ea u' Eb HEa Hs. unfold sbind at 1 in Hs. cbn [set_sym bind fst snd] in Hs.
      unfold sbind at 1 in Hs. apply bind_ok in Hs as ([y1 Ed] & HLy & Hs). cbn [fst snd] in Hs.
      unfold lift in HLy. apply bind_ok in HLy as (y2 & _ & HLy). injection HLy as <- <-.
      unfold sbind at 1 in Hs. cbn [set_sym bind fst snd] in Hs.
      assert (Dc : env_dom (SV x :: SV y :: X) (upd (upd Ea (SV x) u) (SV y) y2)).
      { intros s Hss. destruct (sym_eq_dec s (SV y)) as [->|Ny]; [simpl; auto|].
        destruct (sym_eq_dec s (SV x)) as [->|Nx]; [simpl; auto|].
        rewrite !upd_neq in Hss by auto. rewrite HEa in Hss by auto. simpl. auto. }
      destruct (IHe2 _ _ F3 Dc u' Eb Hs) as [EEc _].
      intros s Nx Ny. rewrite EEc, !upd_neq by auto. auto. }
    destruct HI as [HI1 HI2].
    unfold sbind in HH. apply bind_ok in HH as ([[] E4] & HD & HH). cbn [fst snd] in HH. injection HH as <- <-.
    split; auto. intros s. destruct (n =? 0) eqn:En.
    + injection HD as <-. apply Nat.eqb_eq in En. apply HI2; auto.
    + apply bind_ok in HD as ([[] E5] & HD1 & HD2). cbn [fst snd] in HD2.
      apply del_ok in HD1 as [HD1 HD1']. apply del_ok in HD2 as [HD2 HD2'].
      destruct (sym_eq_dec s (SV y)) as [->|Ny]; [congruence|]. rewrite HD2' by auto.
      destruct (sym_eq_dec s (SV x)) as [->|Nx]; [congruence|]. rewrite HD1' by auto. auto.
  - eapply restores_bind; [eapply IHe; eauto|]. intros; apply restores_lift; auto.
  - destruct FB as [F1 F2].
    eapply restores_bind; [eapply IHe1; eauto|]. intros v E1 E1E _.
    eapply restores_bind; [eapply IHe2; eauto; eapply env_dom_eq; eauto|]. intros; apply restores_lift; auto.
  - destruct FB as (F1 & F2 & F3).
    eapply restores_bind; [eapply IHe1; eauto|]. intros v E1 E1E _.
    eapply restores_bind; [eapply IHe2; eauto; eapply env_dom_eq; eauto|]. intros w E2 E2E _.
    eapply restores_bind; [eapply IHe3; eauto; do 2 (eapply env_dom_eq; eauto)|]. intros; apply restores_lift; auto.
  - destruct FB as [F1 F2].
    eapply restores_bind; [eapply restores_bind; [eapply IHe1; eauto|intros; apply restores_lift with (P := fun _ => True); auto]|].
    intros v E1 E1E _.
    eapply restores_bind; [eapply restores_bind; [eapply IHe2; eauto; eapply env_dom_eq; eauto|intros; apply restores_lift with (P := fun _ => True); auto]|].
    intros; apply restores_lift; auto.
  - rewrite Forall_forall in FB. eapply restores_bind.
    { apply restores_smapM with (R := fun _ _ => True). intros o E1 Ho E1E.
      eapply restores_bind; [eapply H; eauto; eapply env_dom_eq; eauto|].
      intros; apply restores_lift; auto. }
    intros; apply restores_lift; auto.
Qed.
End Naive.
