(** The backends of Backend.v compute what [yeval] says and restore the
    environment, wherever their operations are those of NumPy. *)
From Verif Require Import Base Scalar Tensor Types Sym Phi Den NdOps Term PhiTerm NdFacts DenWf Yarr YTerm YWf Machine MachineSim MachineRun Torch Backend.

Section Rel.
Context {FO : FloatOps} {EX : Externs} {PO : PadOps}.
(** [up]: the backend does not raise where [yeval] has a result; [dn]: it raises
    where [yeval] does. *)
Variables up dn : bool.

Definition opsim {A} (r1 r2 : res A) : Prop :=
  match r1, r2 with
  | Ok a, Ok b => a = b
  | Ok _, Err _ => dn = false
  | Err _, Ok _ => up = false
  | Err _, Err _ => True
  end.
Definition sagree (D : list sym) (R' R : yenv) : Prop := forall s, ~ In s D -> R' s = R s.
Definition rel {A} (D : list sym) (R : yenv) (m : SM A) (r : res A) : Prop :=
  match m R, r with
  | Ok (a, R'), Ok b => a = b /\ sagree D R' R
  | Ok _, Err _ => dn = false
  | Err _, Ok _ => up = false
  | Err _, Err _ => True
  end.

Lemma sagree_refl D R : sagree D R R.
Proof. intros s _. reflexivity. Qed.
Lemma sagree_trans D a b c : sagree D a b -> sagree D b c -> sagree D a c.
Proof. intros H1 H2 s Hs. rewrite H1, H2; auto. Qed.

Lemma opsim_refl {A} (r : res A) : opsim r r.
Proof. destruct r; simpl; auto. Qed.

Lemma opsim_bind {A C} (r1 r2 : res A) (k1 k2 : A -> res C) : opsim r1 r2 ->
  (forall a, r2 = Ok a -> opsim (k1 a) (k2 a)) -> opsim (let* a := r1 in k1 a) (let* a := r2 in k2 a).
Proof.
  intros H K. destruct r1 as [a|], r2 as [b|]; simpl in *; auto.
  - subst b. auto.
  - destruct (k1 a); simpl; auto.
  - destruct (k2 b); simpl; auto.
Qed.
Lemma opsim_mapM {A C} (f g : A -> res C) l : (forall a, In a l -> opsim (f a) (g a)) -> opsim (mapM f l) (mapM g l).
Proof.
  induction l as [|a l IH]; intros H; simpl; auto. apply opsim_bind; [apply H; simpl; auto|]. intros b Hb.
  apply opsim_bind; [apply IH; intros; apply H; simpl; auto|]. intros bs _. reflexivity.
Qed.

Lemma rel_bind {A C} D R (m : SM A) (r : res A) (k : A -> SM C) (k' : A -> res C) :
  rel D R m r -> (forall a R1, sagree D R1 R -> r = Ok a -> rel D R1 (k a) (k' a)) ->
  rel D R (sbind m k) (let* a := r in k' a).
Proof.
  intros H K. unfold rel, sbind in *. destruct (m R) as [[a R1]|]; simpl.
  - destruct r as [b|e]; simpl.
    + destruct H as [<- AG]. specialize (K a R1 AG eq_refl). destruct (k a R1) as [[c R2]|]; destruct (k' a); auto.
      destruct K as [-> AG2]. split; auto. eapply sagree_trans; eauto.
    + destruct (k a R1) as [[c R2]|]; auto.
  - destruct r as [b|]; simpl; auto. destruct (k' b); auto.
Qed.
Lemma rel_step {A C} D R (m : SM A) (k : A -> SM C) (r : res C) a R1 :
  m R = Ok (a, R1) -> sagree D R1 R -> rel D R1 (k a) r -> rel D R (sbind m k) r.
Proof.
  intros Hm AG H. unfold rel, sbind in *. rewrite Hm. simpl. destruct (k a R1) as [[c R2]|]; destruct r; auto.
  destruct H as [-> AG2]. split; auto. eapply sagree_trans; eauto.
Qed.
Lemma rel_ret {A} D R (a : A) : rel D R (sret a) (Ok a).
Proof. simpl. split; auto. apply sagree_refl. Qed.
Lemma rel_op {A} D R (r1 r2 : res A) : opsim r1 r2 -> rel D R (slift r1) r2.
Proof. intros H. unfold rel, slift. destruct r1, r2; simpl in *; auto. split; auto. apply sagree_refl. Qed.
Lemma rel_lift {A} D R (r : res A) : rel D R (slift r) r.
Proof. apply rel_op, opsim_refl. Qed.
Lemma rel_mono {A} D D' R (m : SM A) r : incl D D' -> rel D R m r -> rel D' R m r.
Proof. intros I H. unfold rel in *. destruct (m R) as [[a R1]|]; destruct r; auto. destruct H as [-> AG]. split; auto. intros s Hs. apply AG. auto. Qed.
Lemma rel_req {A} D R (m : SM A) r r' : req r r' -> rel D R m r -> rel D R m r'.
Proof.
  intros Q H. destruct r as [b|e], r' as [b'|e'].
  - assert (Ok b' = Ok b) as G by (apply Q; auto). injection G as ->. exact H.
  - assert (Err e' = Ok b) as G by (apply Q; auto). discriminate.
  - assert (Err e = Ok b') as G by (apply Q; auto). discriminate.
  - unfold rel in *. destruct (m R) as [[a R1]|]; auto.
Qed.
Lemma rel_err {A} D R e e' : @rel A D R (fun _ => Err e) (Err e').
Proof. exact I. Qed.
Lemma rel_mapM {A C} D (f : A -> SM C) (g : A -> res C) l : forall R,
  (forall a R1, In a l -> sagree D R1 R -> rel D R1 (f a) (g a)) -> rel D R (smapM f l) (mapM g l).
Proof.
  induction l as [|a l IH]; intros R H; [apply rel_ret|]. simpl. apply rel_bind.
  - apply H; simpl; auto. apply sagree_refl.
  - intros b R1 A1 _. apply rel_bind.
    + apply IH. intros a' R2 Ha A2. apply H; simpl; auto. eapply sagree_trans; eauto.
    + intros bs R2 _ _. apply rel_ret.
Qed.
Lemma rel_omapM {A C} D R (f : A -> SM C) (g : A -> res C) o :
  (forall a, o = Some a -> rel D R (f a) (g a)) -> rel D R (somapM f o) (omapM g o).
Proof.
  intros H. destruct o as [a|]; [|apply rel_ret]. simpl. apply rel_bind; auto. intros b R1 _ _. apply rel_ret.
Qed.

(** Variables that were not bound are removed. *)
Lemma sdel_ok R x v : R x = Some v -> sdel x R = Ok (tt, fun y => if sym_eqb y x then None else R y).
Proof. intros H. unfold sdel. rewrite H. reflexivity. Qed.

(** * Loops *)
Lemma rel_loop {A} D (f : nat -> A -> SM A) (g : nat -> A -> res A) (P : A -> Prop) n : forall k a R,
  P a -> (forall k a b, P a -> g k a = Ok b -> P b) ->
  (forall k a R1, P a -> sagree D R1 R -> rel D R1 (f k a) (g k a)) ->
  rel D R (sloop f k n a) (iter_res g k n a).
Proof.
  induction n as [|n IH]; intros k a R Pa HP H; [apply rel_ret|]. simpl. apply rel_bind.
  - apply H; auto. apply sagree_refl.
  - intros b R1 A1 Hb. apply IH; eauto. intros k' a' R2 Pa' A2. apply H; auto. eapply sagree_trans; eauto.
Qed.
(** * Reductions *)
Lemma rel_tree D g1 g2 ax fuel : forall n vals acc R,
  (forall p q R1, Forall arr_wf p -> Forall arr_wf q -> sagree D R1 R -> rel D R1 (g1 p q) (g2 p q)) ->
  (forall p q r, Forall arr_wf p -> Forall arr_wf q -> g2 p q = Ok r -> Forall arr_wf r) ->
  Forall arr_wf vals -> Forall arr_wf acc ->
  rel D R (btree g1 ax fuel n vals acc) (tree_loop g2 ax fuel n vals acc).
Proof.
  induction fuel as [|fuel IH]; intros n vals acc R H W Wv Wa; [exact I|]. cbn [btree tree_loop].
  assert (P : forall f l, mapM (pick ax f) vals = Ok l -> Forall arr_wf l).
  { intros f l Hl. apply (mapM_wf _ _ _ (fun a b W E => nd_pick_wf _ _ a b W E) Wv Hl). }
  destruct (1 <? n).
  - apply rel_bind.
    + destruct (Nat.odd n); [|apply rel_ret]. apply rel_bind; [apply rel_lift|]. intros l R1 A1 Hl. apply H; eauto.
    + intros ac R1 A1 Hac. apply rel_bind; [apply rel_lift|]. intros p R2 A2 Hp. apply rel_bind; [apply rel_lift|].
      intros q R3 A3 Hq. assert (A31 : sagree D R3 R) by (eapply sagree_trans; [eauto|eapply sagree_trans; eauto]).
      apply rel_bind; [apply H; eauto|]. intros vs R4 A4 Hvs. apply IH; auto.
      * intros p' q' R5 Wp Wq A5. apply H; auto. eapply sagree_trans; [eauto|eapply sagree_trans; eauto].
      * apply (W p q); eauto.
      * destruct (Nat.odd n); [|injection Hac as <-; auto]. apply bind_ok in Hac as (l & Hl & Hac). apply (W l acc); eauto.
  - destruct (n =? 1); [|apply rel_ret]. apply rel_bind; [apply rel_lift|]. intros l R1 A1 Hl. apply H; eauto.
Qed.
(** After a step the two variables are bound. *)
Lemma btree_bound D (Q : yenv -> Prop) g1 g2 ax fuel : forall n vals acc R r R',
  (forall p q R1, Forall arr_wf p -> Forall arr_wf q -> sagree D R1 R -> rel D R1 (g1 p q) (g2 p q)) ->
  (forall p q r, Forall arr_wf p -> Forall arr_wf q -> g2 p q = Ok r -> Forall arr_wf r) ->
  (forall p q R1 r R2, Forall arr_wf p -> Forall arr_wf q -> sagree D R1 R -> g1 p q R1 = Ok (r, R2) -> g2 p q = Ok r -> Q R2) ->
  Forall arr_wf vals -> Forall arr_wf acc ->
  btree g1 ax fuel n vals acc R = Ok (r, R') -> tree_loop g2 ax fuel n vals acc = Ok r ->
  if n =? 0 then R' = R else Q R'.
Proof.
  induction fuel as [|fuel IH]; intros n vals acc R r R' HG W HQ Wv Wa H H2; [discriminate|]. cbn [btree tree_loop] in H, H2.
  assert (P : forall f l, mapM (pick ax f) vals = Ok l -> Forall arr_wf l).
  { intros f l Hl. apply (mapM_wf _ _ _ (fun a b W E => nd_pick_wf _ _ a b W E) Wv Hl). }
  destruct n as [|n].
  { cbn in H, H2. cbn. injection H as _ <-. reflexivity. }
  change (S n =? 0) with false. cbv iota. unfold slift in H. destruct (1 <? S n) eqn:L.
  - unfold sbind at 1 in H. apply bind_ok in H as ([ac R1] & Hac & H). cbn [fst snd] in H.
    apply bind_ok in H2 as (ac' & Hac' & H2).
    assert (X1 : ac = ac' /\ sagree D R1 R).
    { destruct (Nat.odd (S n)).
      - unfold sbind in Hac. apply bind_ok in Hac as ([l R2] & Hl & Hac). apply bind_ok in Hl as (l' & Hl & E). injection E as <- <-.
        cbn [fst snd] in Hac. rewrite Hl in Hac'. cbn [bind] in Hac'.
        assert (RL : rel D R (g1 l' acc) (g2 l' acc)) by (apply HG; eauto; apply sagree_refl).
        unfold rel in RL. rewrite Hac, Hac' in RL. exact RL.
      - injection Hac as <- <-. injection Hac' as <-. split; auto. apply sagree_refl. }
    destruct X1 as [-> A1].
    assert (Wac : Forall arr_wf ac').
    { destruct (Nat.odd (S n)); [|injection Hac' as <-; auto]. apply bind_ok in Hac' as (l & Hl & Hac'). apply (W l acc); eauto. }
    unfold sbind in H. apply bind_ok in H as ([p R2] & Hp & H). apply bind_ok in Hp as (p' & Hp & E). injection E as <- <-.
    cbn [fst snd] in H. apply bind_ok in H as ([q R3] & Hq & H). apply bind_ok in Hq as (q' & Hq & E). injection E as <- <-.
    cbn [fst snd] in H. rewrite Hp, Hq in H2. cbn [bind] in H2. apply bind_ok in H as ([vs R4] & Hv & H). cbn [fst snd] in H.
    apply bind_ok in H2 as (vs' & Hv' & H2).
    assert (RL : rel D R1 (g1 p' q') (g2 p' q')) by (apply HG; eauto).
    unfold rel in RL. rewrite Hv, Hv' in RL. destruct RL as [-> A4].
    assert (A5 : sagree D R4 R) by (eapply sagree_trans; eauto).
    assert (K : if S n / 2 =? 0 then R' = R4 else Q R').
    { apply (IH (S n / 2) vs' ac' R4 r R'); auto.
      - intros. apply HG; auto. eapply sagree_trans; eauto.
      - intros p0 q0 R0 r0 R5 Wp Wq A0. apply HQ; auto. eapply sagree_trans; eauto.
      - apply (W p' q'); eauto. }
    assert (0 < S n / 2) by (apply Nat.ltb_lt in L; apply Nat.div_str_pos; lia).
    destruct (S n / 2) as [|m]; [lia|exact K].
  - destruct (S n =? 1) eqn:L1; [|apply Nat.ltb_ge in L; apply Nat.eqb_neq in L1; lia].
    unfold sbind in H. apply bind_ok in H as ([l R1] & Hl & H). apply bind_ok in Hl as (l' & Hl & E). injection E as <- <-.
    cbn [fst snd] in H. rewrite Hl in H2. cbn [bind] in H2. apply (HQ l' acc R r R'); eauto. apply sagree_refl.
Qed.

(** * The main induction *)
Variable B : backend.
Hypothesis XW : ext_wf.
Hypothesis PW : pad_wf.
Hypothesis REF : forall e R, b_refuses B e R = true -> up = false.

(** The operations of the backend that a node uses are those of NumPy. *)
Definition fits1 (n : yarr) : Prop :=
  match n with
  | YSqueeze axes _ => forall a, arr_wf a -> opsim (b_squeeze B axes a) (nd_squeeze axes a)
  | YUnsqueeze axes _ => forall a, arr_wf a -> opsim (b_unsqueeze B axes a) (nd_unsqueeze axes a)
  | YGather ax _ _ => forall a i, arr_wf a -> opsim (b_gather B ax a i) (nd_gather ax a i)
  | YTake _ _ => forall a l, arr_wf a -> opsim (b_take B a l) (nd_take a l)
  | YPad _ l r => forall a ps, arr_wf a -> length ps = Nat.min (length l) (length r) -> opsim (b_pad B a ps) (pad_call a ps)
  | YFold _ _ _ _ _ => b_fori B = true -> up = false
  | YReduce _ _ _ _ _ ax =>
      (forall a, arr_wf a -> opsim (b_unsqueeze B [ax] a) (nd_unsqueeze [ax] a)) /\
      (forall a, arr_wf a -> opsim (b_squeeze B [ax] a) (nd_squeeze [ax] a))
  | _ => True
  end.
Definition fits (e : yarr) : Prop := forall n, sub_of n e -> fits1 n.

Definition senv_in (X : list sym) (R : yenv) : Prop := forall s, R s <> None -> In s X.
Definition bside (X : list sym) (e : yarr) (R : yenv) : Prop :=
  yfresh X e /\ senv_in X R /\ yenv_wf R /\ yconsts_wf e /\ fits e.
Definition bclaim (e : yarr) : Prop := forall X R, bside X e R -> rel [] R (bexec B e) (yeval R e).

Lemma bclaim_at e X R R1 : bclaim e -> bside X e R -> sagree [] R1 R -> rel [] R1 (bexec B e) (yeval R e).
Proof.
  intros C (S1 & S2 & S3 & S4 & S5) AG. assert (Q : forall s, R1 s = R s) by (intros s; apply AG; auto).
  apply rel_req with (r := yeval R1 e); [apply yeval_req; auto|]. apply (C X). split; auto. split; [|split; auto].
  - intros s Hs. apply S2. rewrite <- Q. auto.
  - intros s v Hv. apply (S3 s). rewrite <- Q. auto.
Qed.
Lemma bside_sub X X' e c R R' : bside X e R -> In c (ysubs e) -> yfresh X' c -> senv_in X' R' -> yenv_wf R' -> bside X' c R'.
Proof.
  intros (S1 & S2 & S3 & S4 & S5) Hc HF HX HW. split; auto. split; auto. split; auto. split.
  - eapply consts_sub; eauto.
  - intros n Hn. apply S5. eapply sub_step; eauto.
Qed.
Lemma bside_same X e c R : bside X e R -> In c (ysubs e) -> yfresh X c -> bside X c R.
Proof. intros S. destruct S as (S1 & S2 & S3 & S4 & S5) eqn:E. intros Hc HF. eapply bside_sub; eauto. Qed.
Lemma bside_val X e R v : bside X e R -> yeval R e = Ok v -> yval_wf v.
Proof. intros (S1 & S2 & S3 & S4 & S5) H. eapply (yeval_wf XW PW); eauto. Qed.
Lemma senv_upd X R s v : senv_in X R -> senv_in (s :: X) (upd R s v).
Proof.
  intros H s' Hs. destruct (sym_eq_dec s' s) as [->|N]; [left; auto|]. rewrite upd_neq in Hs by auto. right. auto.
Qed.
Lemma senv_none X R s : senv_in X R -> ~ In s X -> R s = None.
Proof. intros H N. destruct (R s) eqn:E; auto. exfalso. apply N, H. congruence. Qed.

Lemma rel_check {A} D R e (k : unit -> SM A) r : (forall R1, R1 = R -> rel D R1 (k tt) r) ->
  rel D R (sbind (fun R => if b_refuses B e R then Err EType else Ok (tt, R)) k) r.
Proof.
  intros H. unfold rel, sbind in *. destruct (b_refuses B e R) eqn:E; simpl.
  - destruct r; auto. eapply REF; eauto.
  - apply H; auto.
Qed.

Lemma rel_op1 R (m : SM yval) r (f g : arr -> res arr) : rel [] R m r -> (forall v, r = Ok v -> yval_wf v) ->
  (forall a, arr_wf a -> opsim (f a) (g a)) ->
  rel [] R (sbind m (fun v => sbind (slift (ya v)) (fun a => sbind (slift (f a)) (fun b => sret (YA b)))))
           (let* v := r in let* a := ya v in let* b := g a in Ok (YA b)).
Proof.
  intros H W F. apply rel_bind; auto. intros v R1 _ Hv. apply rel_bind; [apply rel_lift|]. intros a R2 _ Ha.
  apply rel_bind; [apply rel_op, F; eapply ya_wf; eauto|]. intros b R3 _ _. apply rel_ret.
Qed.
Lemma rel_arrs R l (h : list arr -> SM yval) (h' : list arr -> res yval) :
  (forall c R1, In c l -> sagree [] R1 R -> rel [] R1 (bexec B c) (yeval R c)) ->
  (forall as_ R1, rel [] R1 (h as_) (h' as_)) ->
  rel [] R (sbind (smapM (bexec B) l) (fun vs => sbind (slift (mapM ya vs)) h))
           (let* vs := mapM (yeval R) l in let* as_ := mapM ya vs in h' as_).
Proof.
  intros H K. apply rel_bind; [apply rel_mapM; auto|]. intros vs R1 _ _. apply rel_bind; [apply rel_lift|]. auto.
Qed.
Lemma rel_let R (m : SM yval) r x v : R x = None -> rel [] (upd R x v) m r ->
  rel [] R (sbind (sset x v) (fun _ => sbind m (fun a => sbind (sdel x) (fun _ => sret a)))) r.
Proof.
  intros N H. unfold rel, sbind, sset, sdel, sret in *. cbn [bind fst snd].
  destruct (m (upd R x v)) as [[a R1]|]; cbn [bind fst snd]; auto.
  destruct r as [b|].
  - destruct H as [-> AG]. assert (Q : R1 x = Some v) by (rewrite AG by auto; apply upd_eq). rewrite Q. cbn [bind fst snd].
    split; auto. intros s _. destruct (sym_eqb s x) eqn:E.
    + apply sym_eqb_eq in E. subst s. auto.
    + rewrite AG by auto. apply upd_neq. intros ->. rewrite sym_eqb_refl in E. discriminate.
  - destruct (R1 x); simpl; auto.
Qed.
(** Two variables, removed when there was an iteration. *)
Lemma rel_scope2 {A C} R (m : SM A) r x y n (k : A -> SM C) (k' : A -> res C) :
  x <> y -> R x = None -> R y = None -> rel [x; y] R m r ->
  (forall a R1, m R = Ok (a, R1) -> r = Ok a -> if n =? 0 then R1 = R else R1 x <> None /\ R1 y <> None) ->
  (forall a R1, sagree [] R1 R -> r = Ok a -> rel [] R1 (k a) (k' a)) ->
  rel [] R (sbind m (fun a => sbind (if n =? 0 then sret tt else sbind (sdel x) (fun _ => sdel y)) (fun _ => k a)))
           (let* a := r in k' a).
Proof.
  intros NE Nx Ny H S K. unfold rel, sbind in *. destruct (m R) as [[a R1]|] eqn:M; cbn [bind fst snd].
  2:{ destruct r as [b|]; cbn [bind]; auto. destruct (k' b); auto. }
  destruct r as [b|]; cbn [bind].
  - destruct H as [-> AG]. specialize (S b R1 eq_refl eq_refl). destruct (n =? 0).
    + subst R1. cbn [sret bind fst snd]. apply K; auto. apply sagree_refl.
    + destruct S as [Sx Sy]. destruct (R1 x) as [vx|] eqn:X; [|congruence]. rewrite (sdel_ok _ _ _ X). cbn [bind fst snd].
      destruct (R1 y) as [vy|] eqn:Y; [|congruence].
      assert (E : sym_eqb y x = false). { destruct (sym_eqb y x) eqn:E; auto. apply sym_eqb_eq in E. congruence. }
      erewrite sdel_ok by (rewrite E; exact Y). cbn [bind fst snd].
      set (R2 := fun s => if sym_eqb s y then None else if sym_eqb s x then None else R1 s).
      assert (A2 : sagree [] R2 R).
      { intros s _. unfold R2. destruct (sym_eqb s y) eqn:Q1; [apply sym_eqb_eq in Q1; congruence|].
        destruct (sym_eqb s x) eqn:Q2; [apply sym_eqb_eq in Q2; congruence|]. apply AG. simpl. intros [->|[->|[]]].
        - rewrite sym_eqb_refl in Q2. discriminate.
        - rewrite sym_eqb_refl in Q1. discriminate. }
      specialize (K b R2 A2 eq_refl). destruct (k b R2) as [[c R3]|]; destruct (k' b); auto.
      destruct K as [-> A3]. split; auto. eapply sagree_trans; eauto.
  - destruct (n =? 0); cbn [sret bind fst snd].
    + destruct (k a R1) as [[c R2]|]; auto.
    + unfold sdel. destruct (R1 x); cbn [bind fst snd]; auto.
      destruct (if sym_eqb y x then None else R1 y); cbn [bind fst snd]; auto. destruct (k a _) as [[c R2]|]; auto.
Qed.

Lemma rel_ints R R' l : sagree [] R' R -> (forall c R1, In (Some c) l -> sagree [] R1 R -> rel [] R1 (bexec B c) (yeval R c)) ->
  rel [] R' (smapM (somapM (fun y => sbind (bexec B y) (fun w => sbind (slift (ya w)) (fun a => slift (as_int a))))) l)
           (mapM (omapM (fun y => let* w := yeval R y in let* a := ya w in as_int a)) l).
Proof.
  intros A H. apply rel_mapM. intros o R1 Ho A1. apply rel_omapM. intros c ->.
  apply rel_bind; [apply H; auto; eapply sagree_trans; eauto|].
  intros w R2 _ _. apply rel_bind; [apply rel_lift|]. intros a R3 _ _. apply rel_lift.
Qed.
Lemma mapM_length {A C} (f : A -> res C) l r : mapM f l = Ok r -> length r = length l.
Proof.
  revert r. induction l as [|a l IH]; intros r H; simpl in H; [injection H as <-; auto|].
  apply bind_ok in H as (b & _ & H). apply bind_ok in H as (bs & Hb & H). injection H as <-. simpl. f_equal. auto.
Qed.

Lemma sub_rel X e R c : bside X e R -> In c (ysubs e) -> bclaim c -> yfresh X c ->
  (forall R1, sagree [] R1 R -> rel [] R1 (bexec B c) (yeval R c)) /\ (forall v, yeval R c = Ok v -> yval_wf v).
Proof.
  intros S Hc C F. assert (S' : bside X c R) by (eapply bside_same; eauto). split.
  - intros R1 A. apply (bclaim_at c X); auto.
  - intros v. apply (bside_val X); auto.
Qed.
Lemma in_somes {A} (c : A) l : In (Some c) l -> In c (somes l).
Proof. intros H. apply in_flat_map. exists (Some c). simpl. auto. Qed.

Lemma sagree_nil R1 R2 R : sagree [] R2 R1 -> sagree [] R1 R -> sagree [] R2 R.
Proof. apply sagree_trans. Qed.
Local Hint Resolve sagree_refl sagree_nil : core.

Lemma rel_fold X R c acc size init body :
  bside X (YFold c size acc init body) R -> bclaim size -> bclaim init -> bclaim body ->
  rel [] R (bexec B (YFold c size acc init body)) (yeval R (YFold c size acc init body)).
Proof.
  intros SD C1 C2 C3. pose proof SD as (S1 & S2 & S3 & S4 & S5). pose proof (S5 _ (sub_refl _)) as FT.
  cbn [fits1] in FT. cbn [bexec yeval]. apply rel_check; intros R0 ->. cbn [yfresh] in S1.
  destruct S1 as (F1 & F2 & F3 & F4 & F5 & F6).
  destruct (sub_rel _ _ _ size SD) as [H1 W1]; simpl; auto. destruct (sub_rel _ _ _ init SD) as [H2 W2]; simpl; auto.
  assert (NE : SV acc <> SV c) by congruence.
  assert (Na : R (SV acc) = None) by (eapply senv_none; eauto). assert (Nc : R (SV c) = None) by (eapply senv_none; eauto).
  set (g := fun k v => yeval (upd (upd R (SV acc) v) (SV c) (YA (ascalar (SI (Z.of_nat k))))) body).
  assert (BS : forall k v, yval_wf v -> bside (SV c :: SV acc :: X) body (upd (upd R (SV acc) v) (SV c) (YA (ascalar (SI (Z.of_nat k)))))).
  { intros k v Wv. eapply bside_sub; [exact SD|simpl; auto|auto| |].
    - apply senv_upd, senv_upd. auto.
    - apply yenv_wf_upd; [apply yenv_wf_upd; auto|]. apply ascalar_wf. }
  assert (GW : forall k a b, yval_wf a -> g k a = Ok b -> yval_wf b).
  { intros k a b Wa Hb. eapply bside_val; [apply BS; eauto|exact Hb]. }
  destruct (b_fori B) eqn:FB.
  - specialize (FT eq_refl). unfold bfori.
    apply rel_req with (r := let* w := yeval R size in let* b := ya w in let* z := as_int b in
      let* v0 := yeval R init in iter_res g 0 (Z.to_nat z) v0).
    { intros v. fold g. destruct (yeval R init) as [v0|]; destruct (yeval R size) as [w|]; cbn [bind]; try reflexivity;
        try (split; discriminate). destruct (ya w) as [b|]; cbn [bind]; try (split; discriminate).
      destruct (as_int b); cbn [bind]; split; discriminate. }
    apply rel_bind; [auto|]. intros w R1 A1 Hw. apply rel_bind; [apply rel_lift|]. intros b R2 A2 Hb.
    apply rel_bind; [apply rel_lift|]. intros z R3 A3 Hz. apply rel_bind; [apply H2; eauto|]. intros v0 R4 A4 Hv.
    assert (A : sagree [] R4 R) by eauto.
    apply rel_loop with (P := yval_wf); auto. intros k a R5 Wa A5.
    assert (A6 : sagree [] R5 R) by eauto.
    set (T := upd (upd R5 (SV acc) a) (SV c) (YA (ascalar (SI (Z.of_nat k))))).
    assert (HB : rel [] T (bexec B body) (g k a)).
    { unfold g. apply (bclaim_at body (SV c :: SV acc :: X)); auto. intros s _. unfold T.
      unfold upd. rewrite A6 by auto. reflexivity. }
    unfold rel, sbind, sset in *. cbn [bind fst snd]. fold T. destruct (bexec B body T) as [[v R6]|]; cbn [bind fst snd]; auto.
    destruct (g k a) as [v'|].
    + destruct HB as [-> A7].
      assert (Qa : R6 (SV acc) = Some a).
      { rewrite A7 by auto. unfold T. rewrite upd_neq by auto. apply upd_eq. }
      assert (Qc : R6 (SV c) = Some (YA (ascalar (SI (Z.of_nat k))))).
      { rewrite A7 by auto. unfold T. apply upd_eq. }
      rewrite (sdel_ok _ _ _ Qa). cbn [bind fst snd].
      erewrite sdel_ok by (replace (sym_eqb (SV c) (SV acc)) with false; [exact Qc|]; symmetry;
        destruct (sym_eqb (SV c) (SV acc)) eqn:Q; auto; apply sym_eqb_eq in Q; congruence).
      cbn [bind fst snd]. unfold slift. destruct (guard (same_carry a v') EType) eqn:GQ; cbn [bind fst snd sret]; auto.
      split; auto. intros s _. destruct (sym_eqb s (SV c)) eqn:Q1; [apply sym_eqb_eq in Q1; subst s; rewrite A6; auto|].
      destruct (sym_eqb s (SV acc)) eqn:Q2; [apply sym_eqb_eq in Q2; subst s; rewrite A6; auto|].
      rewrite A7 by auto. unfold T. rewrite !upd_neq; auto; intros ->; rewrite sym_eqb_refl in *; discriminate.
    + unfold sdel. destruct (R6 (SV acc)); cbn [bind fst snd]; auto.
      destruct (if sym_eqb _ _ then None else R6 (SV c)); cbn [bind fst snd]; auto.
      unfold slift. destruct (guard (same_carry a v) EType); cbn [bind fst snd sret]; auto.
  - unfold bfold. apply rel_bind; [apply H2; auto|]. intros v0 R1 A1 Hv. apply rel_bind; [apply H1; auto|].
    intros w R2 A2 Hw. apply rel_bind; [apply rel_lift|]. intros b R3 A3 Hb.
    apply rel_bind; [apply rel_lift|]. intros z R4 A4 Hz. assert (A : sagree [] R4 R) by eauto.
    fold g. set (f := fun k a => sbind (sset (SV acc) a) (fun _ => sbind (sset (SV c) (YA (ascalar (SI (Z.of_nat k))))) (fun _ => bexec B body))).
    assert (FB' : forall k a R5, yval_wf a -> sagree [SV acc; SV c] R5 R4 -> rel [SV acc; SV c] R5 (f k a) (g k a) /\
              forall b R6, f k a R5 = Ok (b, R6) -> g k a = Ok b -> R6 (SV acc) <> None /\ R6 (SV c) <> None).
    { intros k a R5 Wa A5. set (T := upd (upd R5 (SV acc) a) (SV c) (YA (ascalar (SI (Z.of_nat k))))).
      assert (HB : rel [] T (bexec B body) (g k a)).
      { unfold g. apply (bclaim_at body (SV c :: SV acc :: X)); auto. intros s _. unfold T.
        destruct (sym_eq_dec s (SV c)) as [->|N1]; [rewrite !upd_eq; auto|]. rewrite !(upd_neq _ (SV c)) by auto.
        destruct (sym_eq_dec s (SV acc)) as [->|N2]; [rewrite !upd_eq; auto|]. rewrite !upd_neq by auto.
        rewrite A5, A; auto. simpl. intuition congruence. }
      unfold f. unfold rel, sbind, sset in *. cbn [bind fst snd]. fold T. split.
      - destruct (bexec B body T) as [[v R6]|]; auto. destruct (g k a) as [v'|]; auto. destruct HB as [-> A7]. split; auto.
        intros s Hs. simpl in Hs. rewrite A7 by auto. unfold T. rewrite !upd_neq; auto; intros ->; apply Hs; auto.
      - intros b' R6 E G. rewrite E, G in HB. destruct HB as [_ A7]. rewrite !A7 by auto. unfold T. rewrite upd_eq.
        rewrite upd_neq by auto. rewrite upd_eq. split; discriminate. }
    apply rel_req with (r := let* v := iter_res g 0 (Z.to_nat z) v0 in Ok v).
    { destruct (iter_res g 0 (Z.to_nat z) v0); apply req_refl. }
    (* the machine's run either agrees with the reference, or nothing is claimed *)
    assert (BND : forall n k a R5 b R6, yval_wf a -> sagree [SV acc; SV c] R5 R4 ->
       sloop f k n a R5 = Ok (b, R6) -> (exists r, iter_res g k n a = Ok r) ->
       if n =? 0 then R6 = R5 else R6 (SV acc) <> None /\ R6 (SV c) <> None).
    { induction n as [|n IHn]; intros k a R5 b' R6 Wa A5 HL (r & HG); cbn [Nat.eqb].
      - injection HL as _ <-. reflexivity.
      - simpl in HL, HG. unfold sbind at 1 in HL. apply bind_ok in HL as ([v R7] & Hf & HL). cbn [fst snd] in HL.
        apply bind_ok in HG as (v' & Hg & HG). destruct (FB' k a R5 Wa A5) as [RL BD]. unfold rel in RL. rewrite Hf, Hg in RL.
        destruct RL as [-> A7]. specialize (BD _ _ Hf Hg).
        assert (A8 : sagree [SV acc; SV c] R7 R4) by (eapply sagree_trans; eauto).
        specialize (IHn (S k) v' R7 b' R6 (GW _ _ _ Wa Hg) A8 HL (ex_intro _ _ HG)).
        destruct n; cbn [Nat.eqb] in IHn; [subst R7; auto|auto]. }
    assert (RL : rel [SV acc; SV c] R4 (sloop f 0 (Z.to_nat z) v0) (iter_res g 0 (Z.to_nat z) v0)).
    { apply rel_loop with (P := yval_wf); eauto. intros k a R5 Wa A5. apply FB'; auto. }
    apply rel_scope2; auto.
    + rewrite A; auto.
    + rewrite A; auto.
    + intros a R5 HL IR. apply (BND (Z.to_nat z) 0 v0 R4 a R5); eauto.
    + intros a R5 _ Q. apply rel_ret.
Qed.

Lemma rel_reduce X R init x y xy vecs ax :
  bside X (YReduce init x y xy vecs ax) R -> bclaim init -> bclaim vecs -> bclaim xy ->
  rel [] R (bexec B (YReduce init x y xy vecs ax)) (yeval R (YReduce init x y xy vecs ax)).
Proof.
  intros SD C1 C2 C3. pose proof SD as (S1 & S2 & S3 & S4 & S5). pose proof (S5 _ (sub_refl _)) as FT.
  cbn [fits1] in FT. destruct FT as [FT1 FT2]. cbn [bexec yeval]. apply rel_check; intros R0 ->. cbn [yfresh] in S1.
  destruct S1 as (F1 & F2 & F3 & F4 & F5 & F6).
  destruct (sub_rel _ _ _ init SD) as [H1 W1]; simpl; auto. destruct (sub_rel _ _ _ vecs SD) as [H2 W2]; simpl; auto.
  assert (NE : SV x <> SV y) by congruence.
  assert (Nx : R (SV x) = None) by (eapply senv_none; eauto). assert (Ny : R (SV y) = None) by (eapply senv_none; eauto).
  apply rel_bind; [auto|]. intros v0 R1 A1 Hv0. apply rel_bind; [auto|]. intros vs R2 A2 Hvs.
  assert (A : sagree [] R2 R) by eauto. specialize (W1 _ Hv0). specialize (W2 _ Hvs).
  unfold breduce, reduce_call. set (sg := match vs with YA _ => true | YT _ => false end).
  apply rel_bind; [apply rel_lift|]. intros vl R3 A3 Hvl. apply rel_bind; [apply rel_lift|]. intros al R4 A4 Hal.
  apply rel_bind; [apply rel_lift|]. intros ns R5 A5 Hns. destruct ns as [|n ns]; [exact I|].
  apply rel_bind; [apply rel_lift|]. intros u R6 A6 _.
  apply wrap_wf in Hvl; auto. apply wrap_wf in Hal; auto.
  apply rel_bind.
  { apply rel_op, opsim_mapM. intros a Ha. apply FT1. rewrite Forall_forall in Hal. auto. }
  intros ac R7 A7 Hac. assert (B7 : sagree [] R7 R) by eauto 10.
  assert (Wac : Forall arr_wf ac) by (apply (mapM_wf _ _ _ (fun a b W E => nd_unsqueeze_wf _ a b W E) Hal Hac)).
  cbv zeta.
  set (g1 := fun x0 y0 => sbind (slift (unwrap_vals sg x0)) (fun a => sbind (sset (SV x) a) (fun _ =>
        sbind (slift (unwrap_vals sg y0)) (fun b => sbind (sset (SV y) b) (fun _ =>
        sbind (bexec B xy) (fun v => slift (wrap_vals sg v))))))).
  set (g2 := fun x0 y0 => let* a := unwrap_vals sg x0 in let* b := unwrap_vals sg y0 in
        let* v := yeval (upd (upd R (SV x) a) (SV y) b) xy in wrap_vals sg v).
  assert (BS : forall a b, yval_wf a -> yval_wf b -> bside (SV x :: SV y :: X) xy (upd (upd R (SV x) a) (SV y) b)).
  { intros a b Wa Wb. eapply bside_sub; [exact SD|simpl; auto|auto| |].
    - intros s Hs. apply (senv_upd (SV x :: X)) in Hs; [simpl in *; tauto|]. apply senv_upd. auto.
    - apply yenv_wf_upd; [apply yenv_wf_upd; auto|]. auto. }
  assert (GW : forall p q r, Forall arr_wf p -> Forall arr_wf q -> g2 p q = Ok r -> Forall arr_wf r).
  { intros p q r Wp Wq E. unfold g2 in E. apply bind_ok in E as (a & Ha & E). apply bind_ok in E as (b & Hb & E).
    apply bind_ok in E as (w & Hw & E). apply wrap_wf in E; auto. apply unwrap_wf in Ha, Hb; auto.
    eapply bside_val; [apply BS; [exact Ha|exact Hb]|exact Hw]. }
  assert (GR : forall p q R8, Forall arr_wf p -> Forall arr_wf q -> sagree [SV x; SV y] R8 R7 ->
     rel [SV x; SV y] R8 (g1 p q) (g2 p q) /\
     forall r R9, g1 p q R8 = Ok (r, R9) -> g2 p q = Ok r -> R9 (SV x) <> None /\ R9 (SV y) <> None).
  { intros p q R8 Wp Wq A8. unfold g1, g2. unfold rel, sbind, slift, sset.
    destruct (unwrap_vals sg p) as [a|] eqn:Ua; cbn [bind fst snd]; [|split; auto; intros; discriminate].
    destruct (unwrap_vals sg q) as [b|] eqn:Ub; cbn [bind fst snd]; [|split; auto; intros; discriminate].
    apply unwrap_wf in Ua, Ub; auto.
    set (T := upd (upd R8 (SV x) a) (SV y) b).
    assert (HB : rel [] T (bexec B xy) (yeval (upd (upd R (SV x) a) (SV y) b) xy)).
    { apply (bclaim_at xy (SV x :: SV y :: X)); auto. intros s _. unfold T.
      destruct (sym_eq_dec s (SV y)) as [->|N1]; [rewrite !upd_eq; auto|]. rewrite !(upd_neq _ (SV y)) by auto.
      destruct (sym_eq_dec s (SV x)) as [->|N2]; [rewrite !upd_eq; auto|]. rewrite !upd_neq by auto.
      rewrite A8, B7; auto. simpl. intuition congruence. }
    unfold rel in HB. destruct (bexec B xy T) as [[v R9]|]; cbn [bind fst snd].
    - destruct (yeval _ xy) as [v'|]; cbn [bind].
      + destruct HB as [-> A9]. destruct (wrap_vals sg v') as [r|]; cbn [bind]; [|split; auto; intros; discriminate]. split.
        * split; auto. intros s Hs. simpl in Hs. rewrite A9 by auto. unfold T. rewrite !upd_neq; auto; intros ->; apply Hs; auto.
        * intros r0 R10 E _. injection E as _ <-. rewrite !A9 by auto. unfold T. rewrite upd_eq, upd_neq by auto.
          rewrite upd_eq. split; discriminate.
      + split; [destruct (wrap_vals sg v); cbn [bind]; auto|intros; discriminate].
    - split; [|intros; discriminate]. destruct (yeval _ xy) as [v'|]; cbn [bind]; auto. destruct (wrap_vals sg v'); auto. }
  apply rel_scope2; auto.
  - rewrite B7; auto.
  - rewrite B7; auto.
  - apply rel_tree; auto. intros. apply GR; auto.
  - intros a R8 E1 E2.
    apply (btree_bound [SV x; SV y] (fun R' => R' (SV x) <> None /\ R' (SV y) <> None) g1 g2 ax (S n) n vl ac R7 a R8); auto.
    + intros. apply GR; auto.
    + intros p q R9 r R10 Wp Wq A9 G1 G2. destruct (GR p q R9 Wp Wq A9) as [_ K]. eauto.
  - intros l R8 A8 Hl. apply tree_loop_wf in Hl; auto. apply rel_bind; [|intros; apply rel_lift].
    apply rel_op, opsim_mapM. intros a Ha. apply FT2. rewrite Forall_forall in Hl. auto.
Qed.

Theorem run_backend e : bclaim e.
Proof.
  induction e using yarr_ind'; intros X R SD.
  20: apply (rel_fold X); auto.
  20: apply (rel_reduce X); auto.
  all: pose proof SD as (S1 & S2 & S3 & S4 & S5);
    pose proof (S5 _ (sub_refl _)) as FT; cbn [fits1] in FT; pose proof (fun c => sub_rel X _ R c SD) as SUB;
    cbn [bexec yeval]; apply rel_check; intros R0 ->; cbn [yfresh] in S1; cbn [ysubs] in SUB.
  all: try (apply rel_op1; [apply SUB; simpl; auto|apply SUB; simpl; auto|];
            solve [auto | intros; apply opsim_refl]).
  - apply rel_ret.
  - unfold rel, sget. destruct (R (SV x)); simpl; auto.
  - destruct S1 as (F1 & F2 & F3). destruct (SUB e1) as [H1 W1]; simpl; auto. apply rel_bind; auto.
    intros v R1 A1 Hv. apply rel_let.
    + rewrite A1 by auto. eapply senv_none; eauto.
    + apply (bclaim_at e2 (SV x :: X)); auto.
      * eapply bside_sub; [exact SD|simpl; auto|auto|apply senv_upd; auto|apply yenv_wf_upd; auto].
      * intros s _. unfold upd. rewrite A1 by auto. reflexivity.
  - destruct (SUB e) as [H1 W1]; simpl; auto. apply rel_bind; auto. intros v R1 _ _. apply rel_bind; [apply rel_lift|].
    intros a R2 _ _. apply rel_req with (r := let* b := (let* z := as_int a in Ok (nd_range z)) in Ok (YA b)).
    { destruct (as_int a); apply req_refl. }
    apply rel_bind; [apply rel_lift|]. intros; apply rel_ret.
  - apply fold_and in S1. rewrite Forall_forall in H, S1. apply rel_arrs.
    + intros c R1 Hc A1. apply SUB; auto.
    + intros l R1. apply rel_bind; [apply rel_lift|]. intros; apply rel_ret.
  - destruct S1 as [F1 F2]. destruct (SUB e1) as [H1 W1]; simpl; auto. destruct (SUB e2) as [H2 W2]; simpl; auto.
    apply rel_bind; auto. intros v R1 A1 Hv. apply rel_bind; auto. intros w R2 A2 Hw.
    apply rel_bind; [apply rel_lift|]. intros a R3 _ Ha. apply rel_bind; [apply rel_lift|]. intros b R4 _ _.
    apply rel_bind; [apply rel_op, FT; eapply ya_wf; eauto|]. intros; apply rel_ret.
  - destruct S1 as [F1 F2]. apply fold_and in F2. rewrite Forall_forall in H, F2. destruct (SUB e) as [H1 W1]; simpl; auto.
    apply rel_bind; auto. intros v R1 A1 Hv. apply rel_bind.
    { apply rel_mapM. intros o R2 Ho A2. apply rel_omapM. intros c ->. apply rel_bind; [|intros; apply rel_lift].
      apply SUB; [simpl; right; apply in_somes; auto|apply (H _ Ho)|apply (F2 _ Ho)|eauto]. }
    intros l R2 _ _. apply rel_bind; [apply rel_lift|]. intros a R3 _ Ha.
    apply rel_bind; [apply rel_op, FT; eapply ya_wf; eauto|]. intros; apply rel_ret.
  - destruct S1 as (F1 & F2 & F3). apply fold_and in F2, F3. rewrite Forall_forall in *. destruct (SUB e) as [H1 W1]; simpl; auto.
    apply rel_bind; auto. intros v R1 A1 Hv. apply rel_bind.
    { apply rel_ints; auto. intros c R2 Hc A2.
      apply SUB; [simpl; right; apply in_app_iff; left; apply in_somes; auto|apply (H _ Hc)|apply (F2 _ Hc)|eauto]. }
    intros ls R2 A2 Hl. apply rel_bind.
    { apply rel_ints; eauto. intros c R3 Hc A3.
      apply SUB; [simpl; right; apply in_app_iff; right; apply in_somes; auto|apply (H0 _ Hc)|apply (F3 _ Hc)|eauto]. }
    intros rs R3 A3 Hr. apply rel_bind; [apply rel_lift|]. intros a R4 _ Ha.
    apply rel_bind; [apply rel_lift|]. intros; apply rel_ret.
  - destruct S1 as (F1 & F2 & F3). apply fold_and in F2, F3. rewrite Forall_forall in *. destruct (SUB e) as [H1 W1]; simpl; auto.
    apply rel_bind; auto. intros v R1 A1 Hv. apply rel_bind.
    { apply rel_ints; auto. intros c R2 Hc A2.
      apply SUB; [simpl; right; apply in_app_iff; left; apply in_somes; auto|apply (H _ Hc)|apply (F2 _ Hc)|eauto]. }
    intros ls R2 A2 Hl. apply rel_bind.
    { apply rel_ints; eauto. intros c R3 Hc A3.
      apply SUB; [simpl; right; apply in_app_iff; right; apply in_somes; auto|apply (H0 _ Hc)|apply (F3 _ Hc)|eauto]. }
    intros rs R3 A3 Hr. apply rel_bind; [apply rel_lift|]. intros a R4 _ Ha.
    apply rel_bind; [apply rel_op, FT|intros; apply rel_ret].
    + eapply ya_wf; eauto.
    + rewrite combine_length, !map_length. apply mapM_length in Hl, Hr. congruence.
  - destruct S1 as [F1 F2]. destruct (SUB e1) as [H1 W1]; simpl; auto. destruct (SUB e2) as [H2 W2]; simpl; auto.
    apply rel_bind; auto. intros v R1 A1 Hv. apply rel_bind; auto. intros w R2 A2 Hw.
    apply rel_bind; [apply rel_lift|]. intros a R3 _ Ha. apply rel_bind; [apply rel_lift|]. intros b R4 _ _.
    apply rel_bind; [apply rel_lift|]. intros z R5 _ _. apply rel_bind; [apply rel_lift|]. intros; apply rel_ret.
  - destruct S1 as [F1 F2]. destruct (SUB e1) as [H1 W1]; simpl; auto. destruct (SUB e2) as [H2 W2]; simpl; auto.
    apply rel_bind; auto. intros v R1 A1 Hv. apply rel_bind; auto. intros w R2 A2 Hw.
    apply rel_bind; [apply rel_lift|]. intros a R3 _ Ha. apply rel_bind; [apply rel_lift|]. intros b R4 _ _.
    apply rel_bind; [apply rel_lift|]. intros; apply rel_ret.
  - destruct S1 as (F1 & F2 & F3). destruct (SUB e1) as [H1 W1]; simpl; auto. destruct (SUB e2) as [H2 W2]; simpl; auto.
    destruct (SUB e3) as [H3 W3]; simpl; auto.
    apply rel_bind; auto. intros u R1 A1 Hu. apply rel_bind; auto. intros v R2 A2 Hv. apply rel_bind; [eauto|]. intros w R3 A3 Hw.
    apply rel_bind; [apply rel_lift|]. intros a R4 _ Ha. apply rel_bind; [apply rel_lift|]. intros b R5 _ _.
    apply rel_bind; [apply rel_lift|]. intros c R6 _ _. apply rel_bind; [apply rel_lift|]. intros; apply rel_ret.
  - apply fold_and in S1. rewrite Forall_forall in H, S1. apply rel_arrs.
    + intros c R1 Hc A1. apply SUB; auto.
    + intros l R1. apply rel_ret.
  - destruct (SUB e) as [H1 W1]; simpl; auto. apply rel_bind; auto. intros v R1 _ _. destruct v as [a|l]; [exact I|].
    apply rel_bind; [apply rel_lift|]. intros; apply rel_ret.
  - apply fold_and in S1. rewrite Forall_forall in H, S1. apply rel_arrs.
    + intros c R1 Hc A1. apply SUB; auto.
    + intros l R1. apply rel_bind; [apply rel_lift|]. intros; apply rel_ret.
  - apply fold_and in S1. rewrite Forall_forall in H, S1. apply rel_arrs.
    + intros c R1 Hc A1. apply SUB; auto.
    + intros l R1. apply rel_bind; [apply rel_lift|]. intros; apply rel_ret.
Qed.
End Rel.
