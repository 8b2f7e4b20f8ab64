(** The machine computes what [yeval_fit] says: [yeval] with the check that an
    operation in place fits into its buffer (main induction). *)
From Verif Require Import Base Scalar Tensor Types Sym Phi Den NdOps Term PhiTerm NdFacts DenWf Yarr YTerm YFit YWf Machine MachineSim.

Section Run.
Context {FO : FloatOps} {EX : Externs} {PO : PadOps}.
Variable cl : arr -> nat.
Variable copies : heap -> href -> bool.
Variable shares : heap -> list href -> arr -> option href.
Hypothesis SH : shares_ok shares.
Variable str : bool.
Notation sim := (sim str).

(** No binder rebinds a symbol that is already in scope. *)
Fixpoint yfresh (X : list sym) (e : yarr) : Prop :=
  let all (l : list yarr) := fold_right and True (map (yfresh X) l) in
  let oalls (l : list (option yarr)) :=
    fold_right and True (map (fun o => match o with Some y => yfresh X y | None => True end) l) in
  match e with
  | YConst _ | YVar _ _ => True
  | YLet x b body => ~ In (SV x) X /\ yfresh X b /\ yfresh (SV x :: X) body
  | YDim _ t | YRange t | YTranspose _ t | YSqueeze _ t | YUnsqueeze _ t
  | YReduceAxis _ _ t | YCast _ t | YUn _ t | YUntuple _ _ t => yfresh X t
  | YConcat ops _ | YTuple ops | YEinsum _ ops | YExt _ _ ops => all ops
  | YGather _ t i => yfresh X t /\ yfresh X i
  | YTake t items => yfresh X t /\ oalls items
  | YSlice t l r | YPad t l r => yfresh X t /\ oalls l /\ oalls r
  | YRepeat _ c t => yfresh X c /\ yfresh X t
  | YBin _ a b _ => yfresh X a /\ yfresh X b
  | YWhere c a b => yfresh X c /\ yfresh X a /\ yfresh X b
  | YFold c s acc init body =>
      ~ In (SV c) X /\ ~ In (SV acc) X /\ c <> acc /\
      yfresh X s /\ yfresh X init /\ yfresh (SV c :: SV acc :: X) body
  | YReduce init x y xy vecs _ =>
      ~ In (SV x) X /\ ~ In (SV y) X /\ x <> y /\
      yfresh X init /\ yfresh X vecs /\ yfresh (SV x :: SV y :: X) xy
  end.

Definition env_in (X : list sym) (E : henv) : Prop := forall s, E s <> None -> In s X.

(** Operations whose result has the kind of their operands. *)
Definition keeps_kind (o : bop) : bool :=
  match o with BLt | BLe | BEq | BNe => false | _ => true end.

Definition marks_ok (e : yarr) : Prop :=
  forall o a b i, sub_of (YBin o a b i) e ->
    (i = Some 0 -> is_temporary a = true /\ keeps_kind o = true) /\
    (i = Some 1 -> is_temporary b = true /\ keeps_kind o = true).
Definition unmarked (e : yarr) : Prop := forall o a b i, sub_of (YBin o a b i) e -> i = None.
Definition consts_at (h : heap) (e : yarr) : Prop :=
  forall a, sub_of (YConst a) e -> nth_error h (cl a) = Some a.

Lemma consts_at_ext h h' e : hext h h' -> consts_at h e -> consts_at h' e.
Proof.
  intros [t ->] H a Ha. specialize (H a Ha). rewrite nth_error_app1; auto.
  apply nth_error_Some. congruence.
Qed.

Lemma nd_bin_keeps o a b c : keeps_kind o = true -> nd_bin o a b = Ok c -> akind c = akind a /\ akind c = akind b.
Proof.
  unfold nd_bin, nd_ew. intros K H. apply bind_ok in H as (sh & Hs & H). apply bind_ok in H as (k & Hk & H).
  injection H as <-. apply of_opt_ok in Hk. simpl in Hk. unfold tab. simpl.
  destruct o, (akind a), (akind b); simpl in *; try discriminate; injection Hk as <-; auto.
Qed.

Lemma cast_into_same c : cast_into (akind c) c = Ok c.
Proof. unfold cast_into. destruct (akind c); reflexivity. Qed.

Lemma yeval_req R1 R2 e : (forall s, R1 s = R2 s) -> req (yeval R1 e) (yeval R2 e).
Proof.
  intros H v. split; intros G.
  - refine (sem_coincidence (sem := yeval) e R1 R2 _ v G). auto.
  - refine (sem_coincidence (sem := yeval) e R2 R1 _ v G). auto.
Qed.

Lemma yfit_req R1 R2 e : (forall s, R1 s = R2 s) -> req (yeval_fit R1 e) (yeval_fit R2 e).
Proof.
  intros H v. split; intros G.
  - refine (sem_coincidence (sem := yeval_fit) e R1 R2 _ v G). auto.
  - refine (sem_coincidence (sem := yeval_fit) e R2 R1 _ v G). auto.
Qed.

Lemma absE_ext h h1 E E1 s : hext h h1 -> env_ok h E -> E1 s = E s -> absE h1 E1 s = absE h E s.
Proof.
  intros X EO Hs. unfold absE. rewrite Hs. destruct (E s) eqn:Es; auto. simpl. f_equal.
  apply abs_ext; auto. eapply EO; eauto.
Qed.

Definition side (X : list sym) (e : yarr) (h : heap) (E : henv) : Prop :=
  yfresh X e /\ marks_ok e /\ env_in X E /\ env_ok h E /\ consts_at h e.

Definition claim (e : yarr) : Prop := forall X h E, side X e h E ->
  sim [] h E (mexec cl copies shares e) (yeval_fit (absE h E) e) (post (length h) e).

Lemma claim_at e X h E h1 E1 : claim e -> side X e h E -> hext h h1 -> env_ok h1 E1 -> agree [] E1 E ->
  sim [] h1 E1 (mexec cl copies shares e) (yeval_fit (absE h E) e) (post (length h1) e).
Proof.
  intros C (S1 & S2 & S3 & S4 & S5) HX EO AG.
  apply sim_req with (r := yeval_fit (absE h1 E1) e).
  { apply yfit_req. intros s. apply absE_ext; auto. }
  apply (C X). split; auto. split; auto. split; [|split; auto].
  - intros s Hs. apply S3. rewrite <- (AG s); auto.
  - eapply consts_at_ext; eauto.
Qed.

Lemma side_sub X X' e c h E : side X e h E -> In c (ysubs e) -> yfresh X' c -> env_in X' E -> side X' c h E.
Proof.
  intros (S1 & S2 & S3 & S4 & S5) Hc HF HX. split; auto. split.
  - intros o a b i Hs. apply S2. eapply sub_step; eauto.
  - split; auto. split; auto.
    intros a Ha. apply S5. eapply sub_step; eauto.
Qed.

Lemma post_good n e h E v b : post n e h E v b -> good h v b.
Proof. intros [H _]. exact H. Qed.

(** * In-place operations *)
Lemma set_nth_app {A} k (x : A) l t : length l <= k -> set_nth k x (l ++ t) = l ++ set_nth (k - length l) x t.
Proof.
  revert k. induction l as [|y l IH]; simpl; intros k Hk; [rewrite Nat.sub_0_r; auto|].
  destruct k; [lia|]. simpl. rewrite IH by lia. reflexivity.
Qed.

Lemma sim_inplace h E m1 r1 m2 r2 (f : arr -> arr -> res arr) e1 eb :
  is_temporary e1 = true ->
  sim [] h E m1 r1 (post (length h) e1) ->
  (forall h1 E1, hext h h1 -> env_ok h1 E1 -> agree [] E1 E -> sim [] h1 E1 m2 r2 (fun h' _ v b => good h' v b)) ->
  (forall a b c, f a b = Ok c -> akind c = akind a) ->
  sim [] h E (mbind m1 (fun v => mbind m2 (fun w =>
      mbind (mlift (ha v)) (fun out => mbind (mlift (ha w)) (fun q =>
      mbind (mread out) (fun a => mbind (mread q) (fun b =>
      mbind (mlift (f a b)) (fun c => mbind (mwrite out c) (fun _ => mret (HA out)))))))))
   ) (let* v := r1 in let* w := r2 in let* a := ya v in let* b := ya w in let* c := f a b in
      let* _ := guard (list_nat_eqb (ashape a) (ashape c)) EValue in Ok (YA c))
   (post (length h) eb).
Proof.
  intros T H1 H2 HF. unfold MachineSim.sim in *. unfold mbind at 1.
  destruct (m1 (h, E)) as [[v [h1 E1]]|] eqn:M1; cbn [bind fst snd].
  2:{ destruct r1; [|exact I]. destruct (bind _ _); auto. }
  destruct r1 as [bv|]; [|contradiction]. destruct H1 as (X1 & EO1 & A1 & G1 & FR).
  destruct (FR T) as (L & -> & HL). cbn [bind].
  specialize (H2 h1 E1 X1 EO1 A1). unfold mbind at 1.
  destruct (m2 (h1, E1)) as [[w [h2 E2]]|] eqn:M2; cbn [bind fst snd].
  2:{ destruct r2; [|exact I]. destruct (bind _ _); auto. }
  destruct r2 as [bw|]; [|contradiction]. destruct H2 as (X2 & EO2 & A2 & G2). cbn [bind].
  apply (good_ext _ _ _ _ X2) in G1. destruct G1 as [R1 G1]. cbn [hval_ok abs] in R1, G1. subst bv.
  destruct G2 as [R2 G2]. destruct w as [q|lw]; cbn [abs] in G2; subst bw; [|exact I].
  unfold mbind, mlift, mread. cbn [ha bind fst snd ya].
  destruct (f (rd h2 (whole L)) (rd h2 q)) as [c|] eqn:Ef; [|exact I]. cbn [bind fst snd].
  unfold mwrite. cbn [rwhole whole guard bind fst snd rloc].
  destruct (list_nat_eqb (ashape (rd h2 (whole L))) (ashape c)); [|exact I]. cbn [guard bind].
  rewrite <- (HF _ _ _ Ef), cast_into_same. cbn [bind fst snd mret].
  unfold ref_ok in R1. simpl in R1.
  destruct (hext_trans _ _ _ X1 X2) as [t ->].
  split; [exists (set_nth (L - length h) c t); apply set_nth_app; auto|].
  split; [intros s u Hu; apply EO2 in Hu; destruct u as [u|u]; simpl in *;
          unfold ref_ok in *; [rewrite set_nth_length; auto|
          eapply Forall_impl; [|exact Hu]; simpl; intros r Hr; rewrite set_nth_length; auto]|].
  split; [eapply agree_trans; eauto|]. split; [|intros _; eauto].
  split; [simpl; unfold ref_ok; rewrite set_nth_length; auto|]. simpl. unfold rd. simpl.
  rewrite nth_set_nth by auto. rewrite Nat.eqb_refl. reflexivity.
Qed.

(** * Let *)
Lemma copy1_run h E r : ref_ok h r ->
  exists r' h1, mcopy1 copies r (h, E) = Ok (r', (h1, E)) /\ hext h h1 /\ rgood h1 r' (rd h r).
Proof.
  intros R. unfold mcopy1. simpl. destruct (copies h r).
  - exists (whole (length h)), (h ++ [rd h r]). split; [reflexivity|]. split; [apply hext_app|].
    destruct (new_good h (rd h r)) as [N1 N2]. simpl in *. injection N2 as N2. split; auto.
  - exists r, h. split; [reflexivity|]. split; [apply hext_refl|]. split; auto.
Qed.

Lemma copies_run E l : forall h, Forall (ref_ok h) l ->
  exists l' h1, mmapM (mcopy1 copies) l (h, E) = Ok (l', (h1, E)) /\ hext h h1 /\
    Forall2 (rgood h1) l' (map (rd h) l).
Proof.
  induction l as [|r l IH]; intros h H.
  - exists [], h. split; [reflexivity|]. split; [apply hext_refl|constructor].
  - inversion H as [|r0 l0 H1 H2]; subst. destruct (copy1_run h E r H1) as (r' & h1 & C1 & X1 & G1).
    destruct (IH h1) as (l' & h2 & C2 & X2 & G2).
    { eapply Forall_impl; [|exact H2]. intros x. apply ref_ok_ext; auto. }
    exists (r' :: l'), h2. simpl. unfold mbind. rewrite C1. cbn [bind fst snd].
    change ((fix go (l0 : list href) : M (list href) := match l0 with
      | [] => mret [] | x :: l1 => fun s => let* r0 := mcopy1 copies x s in
         (let y := fst r0 in fun s0 => let* r1 := go l1 s0 in mret (y :: fst r1) (snd r1)) (snd r0) end) l) with (mmapM (mcopy1 copies) l).
    rewrite C2. cbn [bind fst snd mret]. split; [reflexivity|]. split; [eapply hext_trans; eauto|].
    constructor; [eapply rgood_ext; eauto|].
    replace (map (rd h) l) with (map (rd h1) l); auto. apply map_ext_in. intros x Hx.
    rewrite Forall_forall in H2. apply rd_ext; auto.
Qed.

Lemma rgoods_map h l : Forall (ref_ok h) l -> Forall2 (rgood h) l (map (rd h) l).
Proof. induction 1; simpl; constructor; auto. split; auto. Qed.
Lemma rgoods_eq h l as_ : Forall2 (rgood h) l as_ -> Forall (ref_ok h) l /\ as_ = map (rd h) l.
Proof. induction 1 as [|r a l as_ [H1 H2] _ [IH1 IH2]]; simpl; auto. split; [constructor; auto|]. subst. auto. Qed.
Lemma rgoods_ext h h' l as_ : hext h h' -> Forall2 (rgood h) l as_ -> Forall2 (rgood h') l as_.
Proof. intros X. apply F2_impl. intros. eapply rgood_ext; eauto. Qed.

Lemma preprocess_run h E v b : good h v b ->
  exists v' h1, preprocess copies v (h, E) = Ok (v', (h1, E)) /\ hext h h1 /\ good h1 v' b.
Proof.
  intros [H1 H2]. destruct v as [r|l]; simpl in *; subst b.
  - destruct (copy1_run h E r H1) as (r' & h1 & C1 & X1 & R1 & G1).
    exists (HA r'), h1. unfold mbind. rewrite C1. split; [reflexivity|]. split; auto. split; auto. simpl. rewrite G1. auto.
  - destruct (copies_run E l h H1) as (l' & h1 & C1 & X1 & G1).
    exists (HT l'), h1. unfold mbind. rewrite C1. split; [reflexivity|]. split; auto.
    apply rgoods_eq in G1 as [G1 G2]. split; auto. simpl. rewrite G2. auto.
Qed.

Lemma env_ok_upd h E s v : env_ok h E -> hval_ok h v -> env_ok h (upd E s v).
Proof.
  intros H G r u Hu. destruct (sym_eq_dec r s) as [->|N]; [rewrite upd_eq in Hu; congruence|].
  rewrite upd_neq in Hu by auto. eapply H; eauto.
Qed.

Lemma env_in_upd X E s v : env_in X E -> env_in (s :: X) (upd E s v).
Proof.
  intros H r Hr. destruct (sym_eq_dec r s) as [->|N]; [left; auto|]. rewrite upd_neq in Hr by auto. right. auto.
Qed.

Lemma absE_upd h E s v r : absE h (upd E s v) r = upd (absE h E) s (abs h v) r.
Proof.
  unfold absE. destruct (sym_eq_dec r s) as [->|N]; [rewrite !upd_eq; auto|]. rewrite !upd_neq by auto. reflexivity.
Qed.
Lemma upd_pt {V} (R1 R2 : genv V) s v r : R1 r = R2 r -> upd R1 s v r = upd R2 s v r.
Proof. intros H. unfold upd. destruct (sym_eqb r s); auto. Qed.

Lemma mdel_run x (h : heap) (E : henv) v : E x = Some v -> mdel x (h, E) = Ok (tt, (h, fun y => if sym_eqb y x then None else E y)).
Proof. intros H. unfold mdel. simpl. rewrite H. reflexivity. Qed.
Definition del (E : henv) (x : sym) : henv := fun y => if sym_eqb y x then None else E y.
Lemma del_eq E x : del E x x = None.
Proof. unfold del. rewrite sym_eqb_refl. reflexivity. Qed.
Lemma del_neq E x y : y <> x -> del E x y = E y.
Proof. intros H. unfold del. apply sym_eqb_neq in H. rewrite H. reflexivity. Qed.
Lemma env_ok_del h E x : env_ok h E -> env_ok h (del E x).
Proof. intros H s v Hv. unfold del in Hv. destruct (sym_eqb s x); [discriminate|]. eapply H; eauto. Qed.

Lemma sim_del {A B} D h E x (k : unit -> M A) (r : res B) Q :
  In x D -> E x <> None -> sim D h (del E x) (k tt) r Q -> sim D h E (mbind (mdel x) k) r Q.
Proof.
  intros HD HE H. destruct (E x) as [v|] eqn:Ex; [|congruence].
  eapply sim_step; [apply (mdel_run x h E v Ex)|apply hext_refl| |exact H].
  intros s Hs. apply del_neq. intros ->. auto.
Qed.
Lemma sim_set {A B} D h E x v (k : unit -> M A) (r : res B) Q :
  In x D -> sim D h (upd E x v) (k tt) r Q -> sim D h E (mbind (mset x v) k) r Q.
Proof.
  intros HD H. eapply sim_step; [reflexivity|apply hext_refl| |exact H].
  intros s Hs. apply upd_neq. intros ->. auto.
Qed.

(** * Loops *)
Lemma sim_loop {A B} D (G : heap -> A -> B -> Prop) (I : henv -> Prop) (f : nat -> A -> M A) (g : nat -> B -> res B) h0 E0 n :
  (forall k h E a b, hext h0 h -> env_ok h E -> agree D E E0 -> G h a b ->
     sim D h E (f k a) (g k b) (fun h' E' a b => G h' a b /\ I E')) ->
  forall k h E a b, hext h0 h -> env_ok h E -> agree D E E0 -> G h a b ->
  sim D h E (mloop f k n a) (iter_res g k n b) (fun h' E' a b => G h' a b /\ (n <> 0 -> I E') /\ (n = 0 -> E' = E)).
Proof.
  intros H. induction n as [|n IH]; intros k h E a b X EO AG HG; cbn [mloop iter_res].
  - apply sim_ret; auto. split; auto. split; [lia|auto].
  - eapply sim_bind; [apply H; auto|]. intros a1 b1 h1 E1 X1 EO1 A1 [G1 I1].
    destruct n as [|n].
    + cbn [mloop iter_res]. apply sim_ret; auto. split; auto. split; auto. discriminate.
    + eapply sim_mono; [apply incl_refl|apply IH; auto; [eapply hext_trans; eauto|eapply agree_trans; eauto]|].
      intros a2 b2 h2 E2 X2 EO2 A2 (G2 & I2 & _). split; auto. split; auto. discriminate.
Qed.

(** * Reductions *)
Lemma sim_mview D h E (f : arr -> res arr) r a : env_ok h E -> rgood h r a ->
  sim D h E (mview f r) (f a) (fun h' _ r' b => rgood h' r' b).
Proof. intros EO [R <-]. apply sim_view; auto. Qed.

Lemma sim_mviews D h E (f : arr -> res arr) rs as_ : env_ok h E -> Forall2 (rgood h) rs as_ ->
  sim D h E (mmapM (mview f) rs) (mapM f as_) (fun h' _ rs' bs => Forall2 (rgood h') rs' bs).
Proof.
  intros EO H. apply sim_mapM2 with (R := rgood); auto; try (intros; eapply rgood_ext; eauto; fail).
  intros x y h1 E1 G X EO1 A. apply sim_mview; auto.
Qed.

Lemma sim_picks D h E ax f rs as_ : env_ok h E -> Forall2 (rgood h) rs as_ ->
  sim D h E (mmapM (mpick_new ax f) rs) (mapM (pick ax f) as_) (fun h' _ rs' bs => Forall2 (rgood h') rs' bs).
Proof.
  intros EO H. apply sim_mapM2 with (R := rgood); auto; try (intros; eapply rgood_ext; eauto; fail).
  intros x y h1 E1 [G1 G2] X EO1 A. unfold mpick_new. apply sim_read. rewrite G2.
  destruct (pick ax f y) as [b|]; [|exact I].
  eapply sim_step; [reflexivity|apply hext_refl|intros s _; reflexivity|].
  unfold alloc. unfold MachineSim.sim. simpl. split; [apply hext_app|].
  split; [eapply env_ok_ext; eauto; apply hext_app|]. split; [intros s _; reflexivity|].
  destruct (new_good h1 b) as [N1 N2]. simpl in *. split; auto. injection N2 as N2. auto.
Qed.

Lemma sim_tree D (I : henv -> Prop) get1 get2 ax h0 E0 fuel :
  (forall h E x y x' y', hext h0 h -> env_ok h E -> agree D E E0 -> Forall2 (rgood h) x x' -> Forall2 (rgood h) y y' ->
     sim D h E (get1 x y) (get2 x' y') (fun h' E' l l' => Forall2 (rgood h') l l' /\ I E')) ->
  forall n h E vs vs' ac ac', hext h0 h -> env_ok h E -> agree D E E0 ->
    Forall2 (rgood h) vs vs' -> Forall2 (rgood h) ac ac' ->
  sim D h E (mtree get1 ax fuel n vs ac) (tree_loop get2 ax fuel n vs' ac')
    (fun h' E' l l' => Forall2 (rgood h') l l' /\ (n <> 0 -> I E') /\ (n = 0 -> E' = E)).
Proof.
  intros H. induction fuel as [|fuel IH]; intros n h E vs vs' ac ac' X EO AG HV HA_; cbn [mtree tree_loop]; [exact Logic.I|].
  destruct (1 <? n) eqn:En.
  - apply Nat.ltb_lt in En.
    eapply sim_bind with (P := fun h' _ l l' => Forall2 (rgood h') l l').
    { destruct (Nat.odd n).
      - eapply sim_bind; [apply sim_picks; auto|]. intros l l' h1 E1 X1 EO1 A1 G1.
        eapply sim_mono; [apply incl_refl|apply H; eauto using hext_trans, agree_trans, rgoods_ext|]. simpl. tauto.
      - apply sim_ret; auto. }
    intros ac1 ac1' h1 E1 X1 EO1 A1 G1.
    eapply sim_bind; [apply sim_mviews; eauto using rgoods_ext|]. intros p p' h2 E2 X2 EO2 A2 G2.
    eapply sim_bind; [apply sim_mviews; eauto using rgoods_ext, hext_trans|]. intros q q' h3 E3 X3 EO3 A3 G3.
    eapply sim_bind; [apply H; eauto using rgoods_ext, hext_trans, agree_trans|].
    intros w w' h4 E4 X4 EO4 A4 [G4 _].
    eapply sim_mono; [apply incl_refl|apply IH; eauto 6 using rgoods_ext, hext_trans, agree_trans|].
    intros a b h5 E5 X5 EO5 A5 (G5 & I5 & _). split; auto. split; [|lia]. intros _. apply I5.
    intros Z. apply Nat.div_small_iff in Z; lia.
  - destruct (n =? 1) eqn:E1n.
    + eapply sim_bind; [apply sim_picks; auto|]. intros l l' h1 E1 X1 EO1 A1 G1.
      eapply sim_mono; [apply incl_refl|apply H; eauto using hext_trans, agree_trans, rgoods_ext|].
      intros a b h2 E2 X2 EO2 A2 [G2 I2]. split; auto. split; auto. apply Nat.eqb_eq in E1n. lia.
    + apply sim_ret; auto. split; auto. split; auto. apply Nat.ltb_ge in En. apply Nat.eqb_neq in E1n. lia.
Qed.

Lemma sim_wrap {A' B'} D h E sg v b (k : list href -> M A') (k' : list arr -> res B') Q :
  good h v b -> (forall rs, Forall (ref_ok h) rs -> sim D h E (k rs) (k' (map (rd h) rs)) Q) ->
  sim D h E (mbind (mlift (hwrap sg v)) k) (let* l := wrap_vals sg b in k' l) Q.
Proof.
  intros [H1 H2] K. destruct sg, v as [r|l]; cbn [abs] in H2; subst b; try exact I.
  - assert (R : Forall (ref_ok h) [r]) by (constructor; auto). exact (K [r] R).
  - specialize (K l H1). exact K.
Qed.

Lemma sim_wrap_end D h E sg v b : env_ok h E -> good h v b ->
  sim D h E (mlift (hwrap sg v)) (wrap_vals sg b) (fun h' E' rs l => Forall2 (rgood h') rs l /\ E' = E).
Proof.
  intros EO [H1 H2]. destruct sg, v as [r|l]; cbn [abs] in H2; subst b; try exact I.
  - unfold MachineSim.sim. simpl. split; [apply hext_refl|]. split; auto. split; [intros s _; reflexivity|].
    split; auto. constructor; [split; auto|constructor].
  - unfold MachineSim.sim. simpl. split; [apply hext_refl|]. split; auto. split; [intros s _; reflexivity|].
    split; auto. apply rgoods_map; auto.
Qed.

Lemma sim_unwrap {A' B'} D h E sg rs l (k : hval -> M A') (k' : yval -> res B') Q :
  Forall2 (rgood h) rs l -> (forall v, hval_ok h v -> sim D h E (k v) (k' (abs h v)) Q) ->
  sim D h E (mbind (mlift (hunwrap sg rs)) k) (let* l := unwrap_vals sg l in k' l) Q.
Proof.
  intros H K. apply rgoods_eq in H as [H ->]. destruct sg.
  - destruct rs as [|r [|r2 rs]]; try exact I. inversion H; subst. apply (K (HA r)); auto.
  - apply (K (HT rs)); auto.
Qed.

Lemma forall2_eq {A} (l l' : list A) : Forall2 eq l l' -> l = l'.
Proof. induction 1; subst; auto. Qed.

Lemma sim_bind_eq {A A' B'} D h E (m : M A) (r : res A) (k : A -> M A') (k' : A -> res B') Q :
  sim D h E m r (fun _ _ a b => a = b) ->
  (forall a h1 E1, hext h h1 -> env_ok h1 E1 -> agree D E1 E -> sim D h1 E1 (k a) (k' a) Q) ->
  sim D h E (mbind m k) (let* b := r in k' b) Q.
Proof. intros H K. eapply sim_bind; [exact H|]. intros a b h1 E1 X EO A1 ->. auto. Qed.

Lemma sim_reduce h (E : henv) x y run1 run2 ax acc vals acc' vals' :
  x <> y -> E x = None -> E y = None -> env_ok h E -> good h acc acc' -> good h vals vals' ->
  (forall h1 E1 a b, hext h h1 -> env_ok h1 E1 -> agree [x; y] E1 E -> hval_ok h1 a -> hval_ok h1 b ->
     sim [] h1 (upd (upd E1 x a) y b) run1 (run2 (abs h1 a) (abs h1 b)) (fun h' _ v b => good h' v b)) ->
  sim [] h E (mreduce x y run1 ax acc vals) (reduce_call run2 ax acc' vals') (fun h' _ v b => good h' v b).
Proof.
  intros NE Ex Ey EO GA GV HR. unfold mreduce, reduce_call.
  assert ((match vals' with YA _ => true | YT _ => false end) = match vals with HA _ => true | HT _ => false end) as ->.
  { destruct GV as [_ GV]. destruct vals; simpl in GV; subst; reflexivity. }
  set (sg := match vals with HA _ => true | HT _ => false end). clearbody sg.
  apply sim_wrap; auto. intros vs RV. apply sim_wrap; auto. intros ac RA.
  eapply sim_bind with (P := fun _ _ ns ns' => ns = ns').
  { eapply sim_mono; [apply incl_refl|apply sim_mapM2 with (R := rgood) (P := fun _ (n n' : nat) => n = n'); auto|].
    - intros; eapply rgood_ext; eauto.
    - apply rgoods_map; auto.
    - intros r a h1 E1 [R1 R2] X1 EO1 A1. apply sim_read. rewrite R2.
      destruct (nth_error (ashape a) ax); [|exact I]. apply (sim_ret str [] h1 E1); auto.
    - intros a b h1 E1 _ _ _ F. apply forall2_eq; auto. }
  intros ns ns' h1 E1 X1 EO1 A1 <-. destruct ns as [|n ns]; [exact I|].
  apply sim_pure. intros u _.
  eapply sim_bind.
  { apply sim_mviews; auto. eapply rgoods_ext; [exact X1|]. apply rgoods_map; auto. }
  intros ac1 ac1' h2 E2 X2 EO2 A2 G2. cbv zeta.
  assert (EE : forall s, E2 s = E s) by (intros s; rewrite A2, A1; auto).
  apply sim_restore with (D := [x; y]).
  eapply sim_bind.
  { apply sim_tree with (I := fun E' => E' x <> None /\ E' y <> None) (h0 := h) (E0 := E); auto.
    - intros h3 E3 a b a' b' X3 EO3 A3 Ga Gb.
      apply sim_unwrap; auto. intros va RVa. apply sim_set; [simpl; auto|].
      apply sim_unwrap; auto. intros vb RVb. apply sim_set; [simpl; auto|].
      eapply sim_bind with (P := fun h' E' v b => good h' v b /\ E' x <> None /\ E' y <> None).
      { apply (sim_mono str []) with (P := fun h' _ v b => good h' v b); [intros s []|apply HR; auto|].
        intros v b0 h4 E4 X4 EO4 A4 G4. split; auto. split.
        - rewrite A4 by auto. rewrite upd_neq, upd_eq by auto. discriminate.
        - rewrite A4 by auto. rewrite upd_eq by auto. discriminate. }
      intros v b0 h4 E4 X4 EO4 A4 (G4 & I1 & I2).
      eapply sim_mono; [apply incl_refl|apply sim_wrap_end; eauto|]. simpl.
      intros rs l h5 E5 X5 EO5 A5 [G5 ->]. auto.
    - eauto using hext_trans.
    - intros s _. apply EE.
    - apply (rgoods_ext h); [exact (hext_trans _ _ _ X1 X2)|]. apply rgoods_map; auto. }
  intros ac2 ac2' h3 E3 X3 EO3 A3 (G3 & I3 & I0).
  assert (AG : agree [x; y] E3 E) by (intros s Hs; rewrite A3; auto).
  assert (FIN : forall E4, env_ok h3 E4 -> agree [x; y] E4 E -> E4 x = None -> E4 y = None ->
    sim [x; y] h3 E4 (mbind (mmapM (mview (nd_squeeze [ax])) ac2) (fun ac => mlift (hunwrap sg ac)))
      (let* ac := mapM (nd_squeeze [ax]) ac2' in unwrap_vals sg ac)
      (fun h' E' a b => (forall s, In s [x; y] -> E' s = E2 s) /\ good h' a b)).
  { intros E4 EO4 A4 N1 N2. eapply sim_bind.
    { eapply (sim_mono str []); [intros s []|apply sim_mviews; eauto|]. intros a b h4 E5 X4 EO5 A5 G4.
      exact (conj G4 A5). }
    intros rs l h4 E5 X4 EO5 _ [G4 A5].
    apply sim_req with (r := let* v := unwrap_vals sg l in Ok v); [intros v; destruct (unwrap_vals sg l); reflexivity|].
    assert (sim [x; y] h4 E5 (mbind (mlift (hunwrap sg rs)) mret) (let* v := unwrap_vals sg l in Ok v)
      (fun h' E' a b => (forall s, In s [x; y] -> E' s = E2 s) /\ good h' a b)) as Q.
    { apply sim_unwrap; auto. intros v Hv. apply sim_ret; auto. split; [|split; auto].
      intros s [<-|[<-|[]]]; rewrite A5 by auto; rewrite EE; congruence. }
    unfold MachineSim.sim, mbind in *. destruct (hunwrap sg rs); exact Q. }
  destruct (n =? 0) eqn:En.
  - eapply sim_step; [reflexivity|apply hext_refl|intros s _; reflexivity|].
    apply Nat.eqb_eq in En. specialize (I0 En). subst E3.
    apply FIN; auto; rewrite EE; auto.
  - apply Nat.eqb_neq in En. destruct (I3 En) as [I4 I5].
    destruct (E3 x) as [vx|] eqn:Ex3; [|congruence]. destruct (E3 y) as [vy|] eqn:Ey3; [|congruence].
    apply sim_step with (a := tt) (h1 := h3) (E1 := del (del E3 x) y).
    + cbv iota. unfold mbind. rewrite (mdel_run x h3 E3 vx Ex3). cbn [bind fst snd].
      apply (mdel_run y h3 (del E3 x) vy). rewrite del_neq; auto.
    + apply hext_refl.
    + intros s Hs. simpl in Hs. rewrite !del_neq by (intro; subst; tauto). reflexivity.
    + apply FIN.
      * apply env_ok_del, env_ok_del; auto.
      * intros s Hs. simpl in Hs. rewrite !del_neq by (intro; subst; tauto). apply AG. simpl. tauto.
      * rewrite del_neq, del_eq by auto. reflexivity.
      * apply del_eq.
Qed.

(** * Main induction *)
Lemma mapM_bind_req {A B C} (f : A -> res B) (g : B -> res C) l :
  req (mapM (fun x => let* y := f x in g y) l) (let* ys := mapM f l in mapM g ys).
Proof.
  induction l as [|x l IH]; simpl; [apply req_refl|].
  destruct (f x) as [y|]; simpl; [|apply req_refl].
  destruct (mapM f l) as [ys|]; simpl in *.
  - destruct (g y); simpl; [|apply req_refl]. apply req_bind; auto. intros; apply req_refl.
  - destruct (g y); simpl; [|intros v; split; discriminate]. intros v.
    split; intros H; [|discriminate]. apply bind_ok in H as (zs & Hz & _). apply IH in Hz. discriminate.
Qed.
Lemma omapM_bind {A B C} (f : A -> res B) (g : B -> res C) o :
  omapM (fun x => let* y := f x in g y) o = (let* y := omapM f o in omapM g y).
Proof. destruct o; simpl; auto. destruct (f a); simpl; auto. Qed.
Lemma mapM_omapM_req {A B C} (f : A -> res B) (g : B -> res C) l :
  req (mapM (omapM (fun x => let* y := f x in g y)) l) (let* ys := mapM (omapM f) l in mapM (omapM g) ys).
Proof.
  rewrite (mapM_ext _ (fun o => let* y := omapM f o in omapM g y)) by (intros; apply omapM_bind).
  apply mapM_bind_req.
Qed.

Lemma fold_and {A} (P : A -> Prop) l : fold_right and True (map P l) -> Forall P l.
Proof. induction l; simpl; intros H; constructor; tauto. Qed.

(** Operands of every node, in sequence. *)
Lemma sim_operands X e ops h E h1 E1 :
  Forall claim ops -> side X e h E -> incl ops (ysubs e) -> Forall (yfresh X) ops ->
  hext h h1 -> env_ok h1 E1 -> agree [] E1 E ->
  sim [] h1 E1 (mmapM (mexec cl copies shares) ops) (mapM (yeval_fit (absE h E)) ops) (fun h' _ vs bs => Forall2 (good h') vs bs).
Proof.
  intros C S I F HX EO AG. apply sim_mapM; auto; [intros; eapply good_ext; eauto|].
  intros c h2 E2 Hc X2 EO2 A2. rewrite Forall_forall in C, F.
  eapply sim_mono; [apply incl_refl|apply (claim_at c X); eauto using hext_trans, agree_trans|].
  - eapply side_sub; eauto. apply S.
  - intros a b h3 E3 _ _ _. apply post_good.
Qed.

Lemma sim_opt_operands X e ops h E h1 E1 :
  Forall (oall claim) ops -> side X e h E -> incl (somes ops) (ysubs e) -> Forall (oall (yfresh X)) ops ->
  hext h h1 -> env_ok h1 E1 -> agree [] E1 E ->
  sim [] h1 E1 (mmapM (momap (mexec cl copies shares)) ops) (mapM (omapM (yeval_fit (absE h E))) ops)
    (fun h' _ vs bs => Forall2 (orel (good h')) vs bs).
Proof.
  intros C S I F HX EO AG. apply sim_mapM with (P := fun h' => orel (good h')); auto.
  - intros h2 h3 [b|] [c|] X2; simpl; auto. intros; eapply good_ext; eauto.
  - intros o h2 E2 Ho X2 EO2 A2. rewrite Forall_forall in C, F. specialize (C o Ho). specialize (F o Ho).
    apply (sim_omap str [] h2 E2 (mexec cl copies shares) (yeval_fit (absE h E)) (fun h' v b => good h' v b)); auto.
    destruct o as [c|]; simpl in *; auto.
    eapply sim_mono; [apply incl_refl|apply (claim_at c X); eauto using hext_trans, agree_trans|].
    + eapply side_sub; eauto; [|apply S]. apply I. apply in_flat_map. exists (Some c). simpl. auto.
    + intros a b h3 E3 _ _ _. apply post_good.
Qed.

Lemma orel_goods_ext h h' vs bs : hext h h' -> Forall2 (orel (good h)) vs bs -> Forall2 (orel (good h')) vs bs.
Proof. intros X. apply F2_impl. intros [a|] [b|]; simpl; auto. apply good_ext; auto. Qed.

Definition ints (l : list (option hval)) : M (list (option Z)) :=
  mmapM (momap (fun v => mbind (mlift (ha v)) (fun r => mbind (mread r) (fun a => mlift (as_int a))))) l.

Lemma sim_ints h E vs bs : env_ok h E -> Forall2 (orel (good h)) vs bs ->
  sim [] h E (ints vs) (mapM (omapM (fun w => let* a := ya w in as_int a)) bs) (fun _ _ a b => a = b).
Proof.
  intros EO H. eapply sim_mono; [apply incl_refl|
    apply (sim_mapM2 str [] h E _ _ (fun h => orel (good h)) (fun _ (a b : option Z) => a = b)); auto|].
  - intros h1 h2 [a|] [b|] X; simpl; auto. apply good_ext; auto.
  - intros o o' h1 E1 HO X1 EO1 A1.
    eapply sim_mono; [apply incl_refl|
      apply (sim_omap str [] h1 E1 _ (fun w => let* a := ya w in as_int a) (fun _ (a b : Z) => a = b)); auto|].
    + destruct o as [v|], o' as [b|]; simpl in *; auto.
      apply sim_ha; auto. intros r -> R ->. apply sim_read.
      destruct (as_int (rd h1 r)) as [z|]; [|exact I]. apply (sim_ret str [] h1 E1); auto.
    + intros [a|] [b|] h2 E2 _ _ _; simpl; congruence || tauto.
  - simpl. intros a b h1 E1 _ _ _ F. apply forall2_eq; auto.
Qed.

Lemma sim_readopts h E vs bs : env_ok h E -> Forall2 (orel (good h)) vs bs ->
  sim [] h E (mmapM (momap (fun v => mbind (mlift (ha v)) mread)) vs) (mapM (omapM ya) bs) (fun _ _ a b => a = b).
Proof.
  intros EO H. eapply sim_mono; [apply incl_refl|
    apply (sim_mapM2 str [] h E _ _ (fun h => orel (good h)) (fun _ (a b : option arr) => a = b)); auto|].
  - intros h1 h2 [a|] [b|] X; simpl; auto. apply good_ext; auto.
  - intros o o' h1 E1 HO X1 EO1 A1.
    eapply sim_mono; [apply incl_refl|
      apply (sim_omap str [] h1 E1 _ ya (fun _ (a b : arr) => a = b)); auto|].
    + destruct o as [v|], o' as [b|]; simpl in *; auto. destruct HO as [R <-].
      destruct v as [r|l]; simpl; [|exact I]. unfold MachineSim.sim. simpl.
      split; [apply hext_refl|]. split; auto. split; auto. intros s _. reflexivity.
    + intros [a|] [b|] h2 E2 _ _ _; simpl; congruence || tauto.
  - simpl. intros a b h1 E1 _ _ _ F. apply forall2_eq; auto.
Qed.

Lemma two_lists {A B C D} (f : A -> res B) (g : B -> res C) l r (k : list (option C) -> list (option C) -> res D) :
  req (let* ws := mapM (omapM f) l in let* us := mapM (omapM f) r in
       let* zl := mapM (omapM g) ws in let* zr := mapM (omapM g) us in k zl zr)
      (let* zl := mapM (omapM (fun y => let* w := f y in g w)) l in
       let* zr := mapM (omapM (fun y => let* w := f y in g w)) r in k zl zr).
Proof.
  apply req_trans with (r2 := let* zl := (let* ws := mapM (omapM f) l in mapM (omapM g) ws) in
    let* zr := (let* us := mapM (omapM f) r in mapM (omapM g) us) in k zl zr).
  - destruct (mapM (omapM f) l) as [ws|]; cbn [bind]; [|apply req_refl].
    intros v. destruct (mapM (omapM f) r) as [us|]; cbn [bind].
    + destruct (mapM (omapM g) ws); cbn [bind]; reflexivity.
    + destruct (mapM (omapM g) ws); cbn [bind]; split; discriminate.
  - apply req_bind; [apply req_sym, mapM_omapM_req|]. intros zl.
    apply req_bind; [apply req_sym, mapM_omapM_req|]. intros; apply req_refl.
Qed.

Ltac here := eauto using hext_refl, hext_trans, agree_trans.

Theorem mexec_sim e : claim e.
Proof.
  induction e using yarr_ind'; intros X h E HS; pose proof HS as (FR & MK & EI & EO & CA).
  all: assert (SUB : forall c X', In c (ysubs _) -> yfresh X' c -> env_in X' E -> side X' c h E)
    by (intros; eapply side_sub; eauto); simpl in SUB.
  all: assert (A0 : agree [] E E) by (intros ? _; reflexivity).
  all: pose proof (hext_refl h) as X0.
  - (* Const *) simpl. assert (G := CA a (sub_refl _)). apply (sim_ret str [] h E); auto. split; [|discriminate].
    split; simpl; [unfold ref_ok; simpl; apply nth_error_Some; congruence|].
    unfold rd. simpl. rewrite (nth_error_nth h (cl a) (ascalar (SI 0)) G). reflexivity.
  - (* Var *) simpl. unfold absE. unfold MachineSim.sim, mget. simpl. destruct (E (SV x)) as [v|] eqn:Ex; simpl; [|exact I].
    split; auto. split; auto. split; auto. split; [split; auto; eapply EO; eauto|discriminate].
  - (* Let *) destruct FR as (F1 & F2 & F3). cbn [mexec yeval_fit].
    eapply sim_bind; [apply (claim_at e1 X); here; apply SUB; simpl; auto|].
    intros v b h1 E1 X1 EO1 A1 [G1 _].
    destruct (preprocess_run h1 E1 v b G1) as (v' & h2 & C2 & X2 & [R2 G2]).
    eapply sim_step; [exact C2|exact X2|intros s _; reflexivity|].
    apply sim_restore with (D := [SV x]). apply sim_set; [simpl; auto|].
    assert (EO2 : env_ok h2 E1) by (eapply env_ok_ext; eauto).
    assert (EI1 : env_in X E1) by (intros s Hs; rewrite A1 in Hs; auto).
    assert (N1 : E1 (SV x) = None) by (destruct (E1 (SV x)) eqn:Q; auto; exfalso; apply F1, EI1; congruence).
    apply sim_req with (r := let* w := yeval_fit (upd (absE h E) (SV x) b) e2 in Ok w);
      [intros w; destruct (yeval_fit _ e2); reflexivity|].
    eapply sim_bind with (P := fun h' E' w b => post (length h) (YLet x e1 e2) h' E' w b /\ E' (SV x) <> None).
    { eapply (sim_mono str []); [intros s []| |].
      - apply sim_req with (r := yeval_fit (absE h2 (upd E1 (SV x) v')) e2).
        + apply yfit_req. intros s. rewrite absE_upd, G2. apply upd_pt. apply absE_ext; eauto using hext_trans.
        + apply (IHe2 (SV x :: X)).
          assert (S2 : side (SV x :: X) e2 h E).
          { apply SUB; simpl; auto. intros s Hs. right. auto. }
          destruct S2 as (S21 & S22 & S23 & S24 & S25).
          split; auto. split; auto. split; [apply env_in_upd; auto|]. split; [apply env_ok_upd; auto|].
          eapply consts_at_ext; [|exact S25]. eapply hext_trans; eauto.
      - intros w c h3 E3 X3 EO3 A3 [G3 _]. split; [split; [exact G3|discriminate]|].
        rewrite A3 by auto. rewrite upd_eq. discriminate. }
    intros w c h3 E3 X3 EO3 A3 [G3 N3]. apply sim_del; [simpl; auto|auto|].
    apply (sim_ret str [SV x]); [apply env_ok_del; auto|]. split; auto.
    intros s [<-|[]]. rewrite del_eq. auto.
  - (* Dim *) cbn [mexec yeval_fit]. eapply sim_bind; [apply (claim_at e X); here|].
    intros v b h1 E1 X1 EO1 A1 [G1 _]. apply sim_ha; auto. intros r -> R ->. apply sim_read. apply sim_pure.
    intros a Ha. apply sim_new; auto. apply hext_length; auto.
  - (* Range *) cbn [mexec yeval_fit]. eapply sim_bind; [apply (claim_at e X); here|].
    intros v b h1 E1 X1 EO1 A1 [G1 _]. apply sim_ha; auto. intros r -> R ->. apply sim_read.
    destruct (as_int (rd h1 r)) as [z|]; [|exact I]. cbn [bind].
    eapply sim_step; [reflexivity|apply hext_refl|intros s _; reflexivity|].
    apply sim_new; auto. apply hext_length; auto.
  - (* Concat *) simpl in FR. apply fold_and in FR. cbn [mexec yeval_fit].
    eapply sim_bind; [eapply (sim_operands X); here; simpl; apply incl_refl|].
    intros vs bs h1 E1 X1 EO1 A1 G1. apply sim_has; auto. intros rs R. apply sim_reads. apply sim_pure.
    intros a Ha. apply sim_new; auto. apply hext_length; auto.
  - (* Transpose *) cbn [mexec yeval_fit]. eapply sim_bind; [apply (claim_at e X); here|].
    intros v b h1 E1 X1 EO1 A1 [G1 _]. apply sim_ha; auto. intros r -> R ->.
    eapply sim_bind; [apply sim_view; auto|]. intros r' a h2 E2 X2 EO2 A2 [R2 G2].
    apply sim_ret; auto. split; [|discriminate]. split; simpl; congruence.
  - (* Squeeze *) cbn [mexec yeval_fit]. eapply sim_bind; [apply (claim_at e X); here|].
    intros v b h1 E1 X1 EO1 A1 [G1 _]. apply sim_ha; auto. intros r -> R ->.
    eapply sim_bind; [apply sim_view; auto|]. intros r' a h2 E2 X2 EO2 A2 [R2 G2].
    apply sim_ret; auto. split; [|discriminate]. split; simpl; congruence.
  - (* Unsqueeze *) cbn [mexec yeval_fit]. eapply sim_bind; [apply (claim_at e X); here|].
    intros v b h1 E1 X1 EO1 A1 [G1 _]. apply sim_ha; auto. intros r -> R ->.
    eapply sim_bind; [apply sim_view; auto|]. intros r' a h2 E2 X2 EO2 A2 [R2 G2].
    apply sim_ret; auto. split; [|discriminate]. split; simpl; congruence.
  - (* Gather *) destruct FR as [F1 F2]. cbn [mexec yeval_fit].
    eapply sim_bind; [apply (claim_at e1 X); here; apply SUB; simpl; auto|]. intros v b h1 E1 X1 EO1 A1 [G1 _].
    eapply sim_bind; [apply (claim_at e2 X h E); here; apply SUB; simpl; auto|]. intros w c h2 E2 X2 EO2 A2 [G2 _].
    apply (good_ext _ _ _ _ X2) in G1.
    apply sim_ha; auto. intros r -> R ->. apply sim_ha; auto. intros q -> RQ ->.
    apply sim_read. apply sim_read. apply sim_pure. intros a Ha. apply sim_new; auto.
    apply hext_length; here.
  - (* Take *) simpl in FR. destruct FR as [F1 F2]. apply fold_and in F2. cbn [mexec yeval_fit].
    apply sim_req with (r := let* v := yeval_fit (absE h E) e in
       let* ws := mapM (omapM (yeval_fit (absE h E))) items in
       let* l := mapM (omapM ya) ws in
       let* a := ya v in let* c := nd_take a l in Ok (YA c)).
    { apply req_bind; [apply req_refl|]. intros v.
      apply req_trans with (r2 := let* l := (let* ws := mapM (omapM (yeval_fit (absE h E))) items in mapM (omapM ya) ws) in
        let* a := ya v in let* c := nd_take a l in Ok (YA c)).
      - destruct (mapM (omapM (yeval_fit (absE h E))) items); apply req_refl.
      - apply req_bind; [apply req_sym, mapM_omapM_req|]. intros; apply req_refl. }
    eapply sim_bind; [apply (claim_at e X); here; apply SUB; simpl; auto|]. intros v b h1 E1 X1 EO1 A1 [G1 _].
    eapply sim_bind.
    { apply (sim_opt_operands X (YTake e items) items h E); here. intros c Hc. simpl. auto. }
    intros vs bs h2 E2 X2 EO2 A2 G2.
    apply sim_bind_eq; [apply sim_readopts; auto|]. intros l h3 E3 X3 EO3 A3.
    assert (G3 : good h3 v b) by (eapply good_ext; [|exact G1]; here).
    apply sim_ha; auto. intros r -> R ->. apply sim_read. apply sim_pure. intros a Ha.
    apply (sim_share str shares SH); auto. apply hext_length; here.
  - (* Slice *) simpl in FR. destruct FR as (F1 & F2 & F3). apply fold_and in F2, F3. cbn [mexec yeval_fit].
    apply sim_req with (r := let* v := yeval_fit (absE h E) e in
       let* ws := mapM (omapM (yeval_fit (absE h E))) l in
       let* us := mapM (omapM (yeval_fit (absE h E))) r in
       let* zl := mapM (omapM (fun w => let* a := ya w in as_int a)) ws in
       let* zr := mapM (omapM (fun w => let* a := ya w in as_int a)) us in
       let* a := ya v in let* c := nd_slice zl zr a in Ok (YA c)).
    { apply req_bind; [apply req_refl|]. intros v. apply two_lists. }
    eapply sim_bind; [apply (claim_at e X); here; apply SUB; simpl; auto|]. intros v b h1 E1 X1 EO1 A1 [G1 _].
    eapply sim_bind.
    { apply (sim_opt_operands X (YSlice e l r) l h E); here. intros c Hc. simpl. right. apply in_or_app; auto. }
    intros vs bs h2 E2 X2 EO2 A2 G2.
    eapply sim_bind.
    { apply (sim_opt_operands X (YSlice e l r) r h E); here. intros c Hc. simpl. right. apply in_or_app; auto. }
    intros us cs h3 E3 X3 EO3 A3 G3.
    apply sim_bind_eq; [apply sim_ints; auto; eapply orel_goods_ext; eauto|]. intros zl h4 E4 X4 EO4 A4.
    apply sim_bind_eq; [apply sim_ints; auto; eapply orel_goods_ext; eauto|]. intros zr h5 E5 X5 EO5 A5.
    assert (G5 : good h5 v b) by (eapply good_ext; [|exact G1]; here).
    apply sim_ha; auto. intros q -> R ->.
    eapply sim_bind; [apply sim_view; auto|]. intros r' a h6 E6 X6 EO6 A6 [R6 G6].
    apply sim_ret; auto. split; [|discriminate]. split; simpl; congruence.
  - (* Pad *) simpl in FR. destruct FR as (F1 & F2 & F3). apply fold_and in F2, F3. cbn [mexec yeval_fit].
    apply sim_req with (r := let* v := yeval_fit (absE h E) e in
       let* ws := mapM (omapM (yeval_fit (absE h E))) l in
       let* us := mapM (omapM (yeval_fit (absE h E))) r in
       let* zl := mapM (omapM (fun w => let* a := ya w in as_int a)) ws in
       let* zr := mapM (omapM (fun w => let* a := ya w in as_int a)) us in
       let* a := ya v in let* c := pad_call a (combine (map or0 zl) (map or0 zr)) in Ok (YA c)).
    { apply req_bind; [apply req_refl|]. intros v.
      apply (two_lists _ _ _ _ (fun zl zr => let* a := ya v in let* c := pad_call a (combine (map or0 zl) (map or0 zr)) in Ok (YA c))). }
    eapply sim_bind; [apply (claim_at e X); here; apply SUB; simpl; auto|]. intros v b h1 E1 X1 EO1 A1 [G1 _].
    eapply sim_bind.
    { apply (sim_opt_operands X (YPad e l r) l h E); here. intros c Hc. simpl. right. apply in_or_app; auto. }
    intros vs bs h2 E2 X2 EO2 A2 G2.
    eapply sim_bind.
    { apply (sim_opt_operands X (YPad e l r) r h E); here. intros c Hc. simpl. right. apply in_or_app; auto. }
    intros us cs h3 E3 X3 EO3 A3 G3.
    apply sim_bind_eq; [apply sim_ints; auto; eapply orel_goods_ext; eauto|]. intros zl h4 E4 X4 EO4 A4.
    apply sim_bind_eq; [apply sim_ints; auto; eapply orel_goods_ext; eauto|]. intros zr h5 E5 X5 EO5 A5.
    assert (G5 : good h5 v b) by (eapply good_ext; [|exact G1]; here).
    apply sim_ha; auto. intros q -> R ->. apply sim_read. apply sim_pure. intros a Ha.
    apply sim_new; auto. apply hext_length; here.
  - (* Repeat *) destruct FR as [F1 F2]. cbn [mexec yeval_fit].
    eapply sim_bind; [apply (claim_at e2 X); here; apply SUB; simpl; auto|]. intros v b h1 E1 X1 EO1 A1 [G1 _].
    eapply sim_bind; [apply (claim_at e1 X h E); here; apply SUB; simpl; auto|]. intros w c h2 E2 X2 EO2 A2 [G2 _].
    apply (good_ext _ _ _ _ X2) in G1.
    apply sim_ha; auto. intros r -> R ->. apply sim_ha; auto. intros q -> RQ ->.
    apply sim_read. apply sim_pure. intros z Hz. apply sim_read. apply sim_pure. intros a Ha. apply sim_new; auto.
    apply hext_length; here.
  - (* ReduceAxis *) cbn [mexec yeval_fit]. eapply sim_bind; [apply (claim_at e X); here|].
    intros v b h1 E1 X1 EO1 A1 [G1 _]. apply sim_ha; auto. intros q -> R ->. apply sim_read. apply sim_pure.
    intros a Ha. apply sim_new; auto. apply hext_length; auto.
  - (* Cast *) cbn [mexec yeval_fit]. eapply sim_bind; [apply (claim_at e X); here|].
    intros v b h1 E1 X1 EO1 A1 [G1 _]. apply sim_ha; auto. intros q -> R ->. apply sim_read. apply sim_pure.
    intros a Ha. apply sim_new; auto. apply hext_length; auto.
  - (* Un *) cbn [mexec yeval_fit]. eapply sim_bind; [apply (claim_at e X); here|].
    intros v b h1 E1 X1 EO1 A1 [G1 _]. apply sim_ha; auto. intros q -> R ->. apply sim_read. apply sim_pure.
    intros a Ha. apply sim_new; auto. apply hext_length; auto.
  - (* Bin *) destruct FR as [F1 F2].
    assert (C1 : forall h1 E1, hext h h1 -> env_ok h1 E1 -> agree [] E1 E ->
      sim [] h1 E1 (mexec cl copies shares e1) (yeval_fit (absE h E) e1) (post (length h1) e1))
      by (intros; apply (claim_at e1 X); here; apply SUB; simpl; auto).
    assert (C2 : forall h1 E1, hext h h1 -> env_ok h1 E1 -> agree [] E1 E ->
      sim [] h1 E1 (mexec cl copies shares e2) (yeval_fit (absE h E) e2) (post (length h1) e2))
      by (intros; apply (claim_at e2 X); here; apply SUB; simpl; auto).
    assert (W1 : forall e h1 E1, sim [] h1 E1 (mexec cl copies shares e) (yeval_fit (absE h E) e) (post (length h1) e) ->
      sim [] h1 E1 (mexec cl copies shares e) (yeval_fit (absE h E) e) (fun h' _ v b => good h' v b)).
    { intros e h1 E1 Q. eapply sim_mono; [apply incl_refl|exact Q|]. intros a b h2 E2 _ _ _. apply post_good. }
    destruct (MK o e1 e2 i (sub_refl _)) as [MK0 MK1].
    assert (PLAIN : sim [] h E (mbind (mexec cl copies shares e1) (fun v => mbind (mexec cl copies shares e2) (fun w =>
      mbind (mlift (ha v)) (fun r => mbind (mlift (ha w)) (fun q =>
      mbind (mread r) (fun a => mbind (mread q) (fun b =>
      mbind (mlift (nd_bin o a b)) mnew))))))) (yeval_fit (absE h E) (YBin o e1 e2 None)) (post (length h) (YBin o e1 e2 i))).
    { cbn [yeval_fit]. eapply sim_bind; [apply C1; here|]. intros v b h1 E1 X1 EO1 A1 [G1 _].
      eapply sim_bind; [apply C2; here|]. intros w c h2 E2 X2 EO2 A2 [G2 _].
      apply (good_ext _ _ _ _ X2) in G1.
      apply sim_ha; auto. intros r -> R ->. apply sim_ha; auto. intros q -> RQ ->.
      apply sim_read. apply sim_read. apply sim_pure. intros a Ha. apply sim_new; auto. apply hext_length; here. }
    destruct i as [[|[|i]]|]; try exact PLAIN.
    + destruct (MK0 eq_refl) as [T K]. cbn [mexec yeval_fit].
      apply (sim_inplace h E _ _ _ _ (nd_bin o) e1); here.
      intros a b c Hc. destruct (nd_bin_keeps o a b c K Hc); congruence.
    + destruct (MK1 eq_refl) as [T K]. cbn [mexec yeval_fit].
      apply sim_req with (r := let* w := yeval_fit (absE h E) e2 in let* v := yeval_fit (absE h E) e1 in
        let* b := ya w in let* a := ya v in let* c := nd_bin o a b in
        let* _ := guard (list_nat_eqb (ashape b) (ashape c)) EValue in Ok (YA c)).
      { eapply req_trans; [|apply req_swap]. apply req_bind; [apply req_refl|]. intros v. apply req_bind; [apply req_refl|].
        intros w. apply req_swap. }
      apply (sim_inplace h E _ _ _ _ (fun b a => nd_bin o a b) e2); here.
      intros a b c Hc. destruct (nd_bin_keeps o b a c K Hc); congruence.
  - (* Where *) destruct FR as (F1 & F2 & F3). cbn [mexec yeval_fit].
    eapply sim_bind; [apply (claim_at e1 X); here; apply SUB; simpl; auto|]. intros u b h1 E1 X1 EO1 A1 [G1 _].
    eapply sim_bind; [apply (claim_at e2 X h E); here; apply SUB; simpl; auto|]. intros v c h2 E2 X2 EO2 A2 [G2 _].
    eapply sim_bind; [apply (claim_at e3 X h E); here; apply SUB; simpl; auto|]. intros w d h3 E3 X3 EO3 A3 [G3 _].
    apply (good_ext _ _ _ _ X3) in G2. apply (good_ext _ _ _ _ (hext_trans _ _ _ X2 X3)) in G1.
    apply sim_ha; auto. intros r -> R ->. apply sim_ha; auto. intros q -> RQ ->. apply sim_ha; auto. intros p -> RP ->.
    apply sim_read. apply sim_read. apply sim_read. apply sim_pure. intros a Ha. apply sim_new; auto.
    apply hext_length; here.
  - (* Fold *) destruct FR as (F1 & F2 & F3 & F4 & F5 & F6). cbn [mexec yeval_fit].
    eapply sim_bind; [apply (claim_at e2 X); here; apply SUB; simpl; auto|]. intros v0 b0 h1 E1 X1 EO1 A1 [G1 _].
    eapply sim_bind; [apply (claim_at e1 X h E); here; apply SUB; simpl; auto|]. intros w d h2 E2 X2 EO2 A2 [G2 _].
    apply (good_ext _ _ _ _ X2) in G1.
    apply sim_ha; auto. intros r -> R ->. apply sim_read. apply sim_pure. intros z Hz.
    assert (A02 : agree [] E2 E) by here.
    assert (NC : E2 (SV c) = None) by (destruct (E2 (SV c)) eqn:Q; auto; exfalso; apply F1, EI; rewrite <- A02 by auto; congruence).
    assert (NA : E2 (SV acc) = None) by (destruct (E2 (SV acc)) eqn:Q; auto; exfalso; apply F2, EI; rewrite <- A02 by auto; congruence).
    apply sim_restore with (D := [SV acc; SV c]).
    match goal with |- MachineSim.sim _ _ _ _ _ ?rr _ => apply sim_req with (r := let* w := rr in Ok w) end.
    { match goal with |- req (bind ?rr _) _ => intros w; destruct rr; reflexivity end. }
    eapply sim_bind.
    { apply (sim_loop [SV acc; SV c] (fun h' v b => good h' v b) (fun E' => E' (SV acc) <> None /\ E' (SV c) <> None)) with (h0 := h2) (E0 := E2);
        auto using hext_refl; [|intros ? _; reflexivity].
      intros k h3 E3 a b X3 EO3 A3 G3.
      apply sim_set; [simpl; auto|].
      unfold mnew. eapply sim_step; [reflexivity|apply hext_app|intros s _; reflexivity|].
      apply sim_set; [simpl; auto|].
      cbn [fst snd]. set (h4 := h3 ++ [ascalar (SI (Z.of_nat k))]). set (E4 := upd (upd E3 (SV acc) a) (SV c) (HA (whole (length h3))) : henv).
      assert (X4 : hext h3 h4) by apply hext_app.
      assert (EO4 : env_ok h4 E4).
      { apply env_ok_upd; [apply env_ok_upd; [eapply env_ok_ext; eauto|]|].
        - eapply good_ext; eauto.
        - apply (new_good h3). }
      eapply (sim_mono str []); [intros s []| |].
      - apply sim_req with (r := yeval_fit (absE h4 E4) e3).
        + apply yfit_req. intros s. unfold E4. rewrite absE_upd.
          assert (abs h4 (HA (whole (length h3))) = YA (ascalar (SI (Z.of_nat k)))) as Q by (apply (new_good h3)).
          rewrite Q. unfold upd at 1 3. destruct (sym_eqb s (SV c)) eqn:Es; auto.
          rewrite absE_upd. assert (abs h4 a = b) as -> by (apply (good_ext _ _ _ _ X4 G3)).
          unfold upd. destruct (sym_eqb s (SV acc)) eqn:Es2; auto.
          apply absE_ext; [here|auto|]. apply sym_eqb_neq in Es, Es2. rewrite A3; [|simpl; intuition congruence].
          rewrite A02; auto.
        + apply (IHe3 (SV c :: SV acc :: X)).
          assert (S2 : side (SV c :: SV acc :: X) e3 h E).
          { apply SUB; simpl; auto. intros s Hs. right. right. auto. }
          destruct S2 as (S21 & S22 & S23 & S24 & S25).
          split; auto. split; auto. split.
          { intros s Hs. unfold E4, upd in Hs. destruct (sym_eqb s (SV c)) eqn:Es; [apply sym_eqb_eq in Es; subst; left; auto|].
            destruct (sym_eqb s (SV acc)) eqn:Es2; [apply sym_eqb_eq in Es2; subst; right; left; auto|].
            apply sym_eqb_neq in Es, Es2. rewrite A3 in Hs by (simpl; intuition congruence). rewrite A02 in Hs by auto.
            right. right. auto. }
          split; auto. eapply consts_at_ext; [|exact S25]. here.
      - intros v b1 h5 E5 X5 EO5 A5 [G5 _]. split; auto. rewrite !A5 by auto. unfold E4. cbn [fst snd].
        rewrite upd_eq. rewrite upd_neq by congruence. rewrite upd_eq. split; discriminate. }
    intros v b h3 E3 X3 EO3 A3 (G3 & I3 & I0).
    destruct (Z.to_nat z =? 0) eqn:En.
    + eapply sim_step; [reflexivity|apply hext_refl|intros s _; reflexivity|].
      apply Nat.eqb_eq in En. specialize (I0 En). subst E3.
      apply sim_ret; auto. split; auto. split; [auto|discriminate].
    + apply Nat.eqb_neq in En. destruct (I3 En) as [I4 I5].
      destruct (E3 (SV acc)) as [vx|] eqn:Ex3; [|congruence]. destruct (E3 (SV c)) as [vy|] eqn:Ey3; [|congruence].
      apply sim_step with (a := tt) (h1 := h3) (E1 := del (del E3 (SV acc)) (SV c)).
      * cbv iota. unfold mbind. rewrite (mdel_run (SV acc) h3 E3 vx Ex3). cbn [bind fst snd].
        apply (mdel_run (SV c) h3 (del E3 (SV acc)) vy). rewrite del_neq; auto. congruence.
      * apply hext_refl.
      * intros s Hs. simpl in Hs. rewrite !del_neq by (intro; subst; tauto). reflexivity.
      * apply sim_ret; [apply env_ok_del, env_ok_del; auto|]. split; [|split; [auto|discriminate]].
        intros s [<-|[<-|[]]].
        -- rewrite del_neq by congruence. rewrite del_eq. auto.
        -- rewrite del_eq. auto.
  - (* Reduce *) destruct FR as (F1 & F2 & F3 & F4 & F5 & F6). cbn [mexec yeval_fit].
    eapply sim_bind; [apply (claim_at e1 X); here; apply SUB; simpl; auto|]. intros v0 b0 h1 E1 X1 EO1 A1 [G1 _].
    eapply sim_bind; [apply (claim_at e3 X h E); here; apply SUB; simpl; auto|]. intros w d h2 E2 X2 EO2 A2 [G2 _].
    apply (good_ext _ _ _ _ X2) in G1.
    assert (A02 : agree [] E2 E) by here.
    assert (NX : E2 (SV x) = None) by (destruct (E2 (SV x)) eqn:Q; auto; exfalso; apply F1, EI; rewrite <- A02 by auto; congruence).
    assert (NY : E2 (SV y) = None) by (destruct (E2 (SV y)) eqn:Q; auto; exfalso; apply F2, EI; rewrite <- A02 by auto; congruence).
    eapply sim_mono; [apply incl_refl|apply sim_reduce; auto; [congruence|]|].
    2: intros a b h3 E3 _ _ _ G3; split; [exact G3|discriminate].
    intros h3 E3 a b X3 EO3 A3 Ra Rb.
    set (E4 := upd (upd E3 (SV x) a) (SV y) b).
    eapply sim_mono; [apply incl_refl| |intros ? ? ? ? _ _ _; apply post_good].
    apply sim_req with (r := yeval_fit (absE h3 E4) e2).
    + apply yfit_req. intros s. unfold E4. rewrite absE_upd. unfold upd at 1 3. destruct (sym_eqb s (SV y)) eqn:Es; auto.
      rewrite absE_upd. unfold upd. destruct (sym_eqb s (SV x)) eqn:Es2; auto.
      apply absE_ext; [here|auto|]. apply sym_eqb_neq in Es, Es2. rewrite A3; [|simpl; intuition congruence].
      rewrite A02; auto.
    + apply (IHe2 (SV x :: SV y :: X)).
      assert (S2 : side (SV x :: SV y :: X) e2 h E).
      { apply SUB; simpl; auto. intros s Hs. right. right. auto. }
      destruct S2 as (S21 & S22 & S23 & S24 & S25).
      split; auto. split; auto. split.
      { intros s Hs. unfold E4, upd in Hs. destruct (sym_eqb s (SV y)) eqn:Es; [apply sym_eqb_eq in Es; subst; right; left; auto|].
        destruct (sym_eqb s (SV x)) eqn:Es2; [apply sym_eqb_eq in Es2; subst; left; auto|].
        apply sym_eqb_neq in Es, Es2. rewrite A3 in Hs by (simpl; intuition congruence). rewrite A02 in Hs by auto.
        right. right. auto. }
      split; [apply env_ok_upd; auto; apply env_ok_upd; auto|]. eapply consts_at_ext; [|exact S25]. here.
  - (* Tuple *) simpl in FR. apply fold_and in FR. cbn [mexec yeval_fit].
    eapply sim_bind; [eapply (sim_operands X); here; simpl; apply incl_refl|].
    intros vs bs h1 E1 X1 EO1 A1 G1. apply sim_has; auto. intros rs R.
    apply sim_ret; auto. split; [|discriminate]. split; auto.
  - (* Untuple *) cbn [mexec yeval_fit]. eapply sim_bind; [apply (claim_at e X); here|].
    intros v b h1 E1 X1 EO1 A1 [[R G] _]. destruct v as [r|l]; simpl in G; subst b; [exact I|].
    rewrite nth_error_map. simpl in R. destruct (nth_error l at_) as [r|] eqn:En; [|exact I]. simpl.
    eapply sim_step; [reflexivity|apply hext_refl|intros s _; reflexivity|].
    apply sim_ret; auto. split; [|discriminate]. apply nth_error_In in En. rewrite Forall_forall in R. split; simpl; auto.
  - (* Einsum *) simpl in FR. apply fold_and in FR. cbn [mexec yeval_fit].
    eapply sim_bind; [eapply (sim_operands X); here; simpl; apply incl_refl|].
    intros vs bs h1 E1 X1 EO1 A1 G1. apply sim_has; auto. intros rs R. apply sim_reads. apply sim_pure. intros a Ha.
    apply (sim_share str shares SH); auto. apply hext_length; here.
  - (* Ext *) simpl in FR. apply fold_and in FR. cbn [mexec yeval_fit].
    eapply sim_bind; [eapply (sim_operands X); here; simpl; apply incl_refl|].
    intros vs bs h1 E1 X1 EO1 A1 G1. apply sim_has; auto. intros rs R. apply sim_reads. apply sim_pure. intros a Ha.
    apply (sim_share str shares SH); auto. apply hext_length; here.
Qed.
End Run.
