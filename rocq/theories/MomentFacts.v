(** Every evaluation has moments, at any iteration of its loops. *)
From Verif Require Import Base Scalar Tensor Types Sym Phi Den Term PhiTerm DenFree SpecPhi Lining LiningFacts TypesFacts Typing DenWf
  Naive Sizes ClipShift NdOps Yarr Axial AxialFacts AxialOps Codegen IndexOps YOps CodegenSafe Moments.

Section MomentFacts.
Context {FO : FloatOps} {EX : Externs}.

Definition has_moment (c : phi) : Prop := forall E, hyg c -> defined E c -> loops_run E c ->
  exists M, moment M c /\ forall s, ~ In s (bsyms c) -> M s = E s.

Lemma moments_list cs : Forall has_moment cs -> forall E, Forall hyg cs -> NoDup (flat_map bsyms cs) ->
  (forall c s, In c cs -> isfree s c -> ~ In s (flat_map bsyms cs)) ->
  Forall (fun c => defined E c /\ loops_run E c) cs ->
  exists M, Forall (moment M) cs /\ forall s, ~ In s (flat_map bsyms cs) -> M s = E s.
Proof.
  induction 1 as [|c cs Hc F IH]; intros E HY ND FR OK; [exists E; auto|].
  inversion HY as [|? ? HYc HYs]; subst. inversion OK as [|? ? [D R] OKs]; subst. simpl in ND.
  destruct (IH E HYs) as (M1 & F1 & A1); auto.
  { eapply NoDup_app_r; eauto. }
  { intros d s Hd Hs K. apply (FR d s); simpl; auto. apply in_or_app. auto. }
  assert (AC : forall s, isfree s c -> E s = M1 s).
  { intros s Hs. symmetry. apply A1. intros K. apply (FR c s); simpl; auto. apply in_or_app. auto. }
  destruct (Hc M1) as (M2 & C2 & A2); auto.
  { destruct D as (v & D). exists v. rewrite <- D. symmetry. apply den_ext. auto. }
  { apply (runs_agree E); auto. }
  exists M2. split.
  - constructor; auto. rewrite Forall_forall in F1 |- *. intros d Hd. apply (moment_ext M1); auto. intros s Hs. symmetry. apply A2.
    intros K. destruct Hs as [Hs|Hs].
    + apply (FR d s); simpl; auto. apply in_or_app. auto.
    + eapply (NoDup_app_disj (bsyms c)); eauto. apply in_flat_map. eauto.
  - simpl. intros s Hs. rewrite A2, A1; auto; intros K; apply Hs, in_or_app; auto.
Qed.

(** Nodes that bind nothing. *)
Lemma moment_plain e E : captured e = [] -> (forall M, defined M e -> local M e) ->
  Forall has_moment (subterms e) -> hyg e -> defined E e ->
  Forall (fun c => defined E c /\ loops_run E c) (subterms e) ->
  exists M, moment M e /\ forall s, ~ In s (bsyms e) -> M s = E s.
Proof.
  intros CP LC HM HY D OK.
  assert (BS : bsyms e = flat_map bsyms (subterms e)) by (rewrite bsyms_list, CP; reflexivity).
  destruct (moments_list _ HM E) as (M & F & A); auto.
  - rewrite Forall_forall. intros c Hc. eapply hyg_child; eauto.
  - rewrite <- BS. apply HY.
  - rewrite <- BS. intros c s Hc Hs. destruct (isfree_child _ _ _ Hc Hs) as [K|K]; [apply HY; auto|]. rewrite CP in K. destruct K.
  - exists M. rewrite BS. split; auto. apply moment_node; auto. apply LC. destruct D as (v & D). exists v. rewrite <- D.
    apply den_ext. intros s Hs. apply A. rewrite <- BS. apply HY. auto.
Qed.

(** Nodes that bind names in their last subterm. *)
Lemma moment_binder e us b E l : subterms e = us ++ [b] -> Forall has_moment (us ++ [b]) -> hyg e ->
  (forall u s, In u us -> isfree s u -> isfree s e) ->
  (forall s, In s (map fst l) <-> In s (captured e)) ->
  Forall (fun c => defined E c /\ loops_run E c) us -> defined (upds E l) b -> loops_run (upds E l) b ->
  exists M, Forall (moment M) (us ++ [b]) /\ (forall s, ~ In s (bsyms e) -> M s = E s) /\
    (forall s, In s (captured e) -> M s = upds E l s) /\
    (forall s, isfree s e -> M s = E s).
Proof.
  intros SB HM HY UF CL OK DB RB.
  assert (BS : bsyms e = captured e ++ flat_map bsyms us ++ bsyms b).
  { rewrite bsyms_list, SB, flat_map_app. simpl. rewrite app_nil_r. reflexivity. }
  pose proof (proj1 HY) as ND. rewrite BS in ND.
  assert (NF : forall s, isfree s e -> ~ In s (captured e) /\ ~ In s (flat_map bsyms us) /\ ~ In s (bsyms b)).
  { intros s Hs. pose proof (proj2 HY s Hs) as K. rewrite BS in K. rewrite !in_app_iff in K. tauto. }
  apply Forall_app in HM as [HMu HMb]. inversion HMb as [|? ? HMb' _]; subst. clear HMb.
  destruct (moments_list us HMu E) as (M1 & F1 & A1); auto.
  - rewrite Forall_forall. intros c Hc. apply (hyg_child e); auto. rewrite SB. apply in_or_app. auto.
  - eapply NoDup_app_l. eapply NoDup_app_r. exact ND.
  - intros c s Hc Hs. apply NF. eauto.
  - assert (BF : forall s, isfree s b -> upds E l s = upds M1 l s).
    { intros s Hs. apply upds_agree. destruct (in_dec sym_eq_dec s (map fst l)) as [Hi|Hi]; auto. right.
      symmetry. apply A1. apply NF. destruct (isfree_child s e b) as [K|K]; auto.
      - rewrite SB. apply in_or_app. simpl. auto.
      - exfalso. apply Hi, CL, K. }
    destruct (HMb' (upds M1 l)) as (M2 & C2 & A2).
    + apply (hyg_child e); auto. rewrite SB. apply in_or_app. simpl. auto.
    + destruct DB as (v & D). exists v. rewrite <- D. symmetry. apply den_ext. auto.
    + apply (runs_agree (upds E l)); auto.
    + assert (AM : forall s, ~ In s (captured e) -> ~ In s (bsyms b) -> M2 s = M1 s).
      { intros s H1 H2. rewrite A2 by auto. apply upds_notin. rewrite CL. auto. }
      assert (AE : forall s, ~ In s (bsyms e) -> M2 s = E s).
      { intros s Hs. rewrite BS, !in_app_iff in Hs. rewrite AM by tauto. apply A1. tauto. }
      exists M2. split; [|split; [exact AE|split]].
      * apply Forall_app. split; [|constructor; auto]. rewrite Forall_forall in F1 |- *. intros c Hc. apply (moment_ext M1); auto.
        intros s Hs. symmetry.
        assert (K : ~ In s (captured e) /\ ~ In s (bsyms b)).
        { destruct Hs as [Hs|Hs]; [destruct (NF s) as (? & ? & ?); eauto|].
          assert (Hi : In s (flat_map bsyms us)) by (apply in_flat_map; eauto).
          split; intros K.
          - eapply NoDup_app_disj; [exact ND|exact K|]. apply in_or_app. auto.
          - eapply NoDup_app_disj; [eapply NoDup_app_r; exact ND|exact Hi|exact K]. }
        apply AM; apply K.
      * intros s Hs. rewrite A2. 2: { intros K. eapply NoDup_app_disj; [exact ND|exact Hs|]. apply in_or_app. auto. }
        symmetry. apply upds_agree. left. apply CL. auto.
      * intros s Hs. apply AE. apply HY. auto.
Qed.

Lemma iter_prefix {A} (f : nat -> A -> res A) n m a v : iter_res f 0 n a = Ok v -> m <= n -> exists w, iter_res f 0 m a = Ok w.
Proof.
  intros H Hm. revert v H. induction Hm as [|n Hm IH]; intros v H; [eauto|]. rewrite iter_res_snoc in H. inv_bind. eauto.
Qed.

Lemma acc_val_S E c acc init b k w : acc_val E c acc init b (S k) = Ok w ->
  exists u, acc_val E c acc init b k = Ok u /\ den (fold_env E c acc k u) b = Ok w.
Proof.
  unfold acc_val. intros H. apply bind_ok in H as (v0 & H0 & H). rewrite iter_res_snoc in H.
  apply bind_ok in H as (u & H1 & H). exists u. rewrite H0. split; auto.
Qed.
Lemma acc_val_step E c acc init b k u : acc_val E c acc init b k = Ok u ->
  acc_val E c acc init b (S k) = den (fold_env E c acc k u) b.
Proof.
  unfold acc_val. intros H. inv_bind. rewrite Hb. cbn [bind]. rewrite iter_res_snoc, Hk. reflexivity.
Qed.
Lemma acc_val_le E c acc init b n m v : acc_val E c acc init b n = Ok v -> m <= n -> exists w, acc_val E c acc init b m = Ok w.
Proof. unfold acc_val. intros H Hm. inv_bind. rewrite Hb. cbn [bind]. eapply iter_prefix; eauto. Qed.

Lemma fold_acc E c s acc init b v z w : den E (PFold c s acc init b) = Ok w -> den E s = Ok v -> val_int v = Ok z ->
  acc_val E c acc init b (Z.to_nat z) = Ok w.
Proof. cbn [den]. intros H Hs Hz. rewrite Hs in H. cbn [bind] in H. rewrite Hz in H. cbn [bind] in H. exact H. Qed.

Lemma red_iter E x y xy vs n v : 
  iter_res (fun k v => let* r := row_of vs k in den (red_env E x y v r) xy) 0 n v = iter_res (fun k v =>
              let* es := mapM (fun u => vget u (Z.of_nat k)) vs in
              match es with
              | [] => Err EType
              | e0 :: es' =>
                  den (upd (upd E (SV x) v) (SV y) (fold_left VPair es' e0)) xy
              end) 0 n v.
Proof.
  apply iter_res_ext. intros j b _. unfold row_of. destruct (mapM _ vs) as [[|e0 es]|]; reflexivity.
Qed.

Lemma dims_all vs n ns : mapM (fun v => vdim v 0) vs = Ok (n :: ns) -> forallb (Nat.eqb n) ns = true ->
  Forall (fun v => vdim v 0 = Ok n) vs.
Proof.
  intros H F. apply mapM_Forall2 in H. rewrite forallb_forall in F.
  assert (G : forall m, In m (n :: ns) -> m = n). { intros m [<-|Hm]; auto. apply F in Hm. apply Nat.eqb_eq in Hm. auto. }
  revert G H. generalize (n :: ns). intros l G H. induction H as [|v m vs l Hv H IH]; constructor.
  - rewrite <- (G m) by (simpl; auto). auto.
  - apply IH. intros; apply G; simpl; auto.
Qed.

Theorem all_have_moments e : has_moment e.
Proof.
  assert (LP : forall e, match e with PLet _ _ _ | PVec _ _ _ | PFold _ _ _ _ _ | PReduce _ _ _ _ _ => False | _ => True end ->
    forall M, defined M e -> local M e). { intros e0 H M D. split; auto. destruct e0; auto; destruct H. }
  assert (MD : forall E ops vs, mapM (den E) ops = Ok vs -> Forall (fun c => defined E c) ops).
  { intros E ops vs H. apply mapM_Forall2 in H. induction H; constructor; auto. eexists; eauto. }
  assert (AR : forall E ops, fold_right and True (map (loops_run E) ops) -> Forall (defined E) ops -> Forall (fun c => defined E c /\ loops_run E c) ops).
  { intros E ops H F. induction F; constructor; simpl in H; [tauto|]. apply IHF. tauto. }
  assert (FE : forall (e c : phi) s, (free_in s c -> free_in s e) -> isfree s c -> isfree s e).
  { intros e0 c s H Hs. apply free_in_isfree. apply H. apply free_in_isfree. auto. }
  induction e using phi_ind'; intros E HY D R;
    try (apply moment_plain; [reflexivity|apply LP; exact I|simpl; auto|exact HY|exact D|];
         destruct D as (w & D); cbn [den] in D; cbn [loops_run] in R; inv_bind; simpl;
         repeat match goal with H : _ /\ _ |- _ => destruct H end;
         repeat (constructor; [split; [eexists; eassumption|assumption]|]); auto; fail).
  - (* let *) destruct D as (w & D). pose proof D as D0. cbn [den] in D. inv_bind. destruct R as [R1 R2].
    destruct (moment_binder (PLet x e1 e2) [e1] e2 E [(SV x, a)]) as (M & F & A & C & FR); auto.
    + constructor; auto.
    + intros u s [<-|[]]. apply FE. simpl. auto.
    + simpl. tauto.
    + constructor; auto. split; auto. exists a. auto.
    + exists w. auto.
    + apply R2. auto.
    + exists M. split; auto. apply moment_node; auto. split.
      * exists w. rewrite <- D0. apply den_ext. auto.
      * exists a. split.
        -- rewrite <- Hb. apply den_ext. intros s Hs. apply FR. revert Hs. apply FE. simpl. auto.
        -- rewrite C by (simpl; auto). simpl. apply upd_eq.
  - (* assertion *) destruct D as (w & D). pose proof D as D0. apply moment_plain; auto; [simpl; auto|exists w; auto|].
    cbn [den] in D. inv_bind. destruct R. simpl. constructor; eauto. split; auto. exists w. auto.
  - (* comprehension *) destruct D as (w & D). pose proof D as D0. cbn [den] in D. inv_bind. destruct R as (R1 & R2 & R3).
    destruct (moment_binder (PVec i e1 e2) [e1] e2 E [(SX i, vint 0)]) as (M & F & A & C & FR); auto.
    + constructor; auto.
    + intros u s [<-|[]]. apply FE. simpl. auto.
    + simpl. tauto.
    + constructor; auto. split; auto. eexists; eauto.
    + eexists; eauto.
    + exists M. split; auto. apply moment_node; auto. split.
      * exists w. rewrite <- D0. apply den_ext. auto.
      * split; [rewrite C by (simpl; auto); simpl; apply upd_eq|]. exists a, a0. split; [|split; eauto].
        rewrite <- Hb. apply den_ext. intros s Hs. apply FR. revert Hs. apply FE. simpl. auto.
  - (* fold *) destruct D as (w & D). pose proof D as D0. cbn [den] in D. inv_bind. destruct R as (R1 & R2 & R3).
    destruct (R3 _ _ Hb Hb0) as (R4 & R5 & R6).
    assert (A0 : acc_val E c acc e2 e3 0 = Ok a1) by (unfold acc_val; rewrite Hb1; reflexivity).
    assert (D1 : exists w1, den (fold_env E c acc 0 a1) e3 = Ok w1).
    { destruct (acc_val_le E c acc e2 e3 (Z.to_nat a0) 1 w) as (w1 & H1); [eapply fold_acc; eauto|lia|].
      exists w1. rewrite <- H1. symmetry. apply acc_val_step. auto. }
    destruct (moment_binder (PFold c e1 acc e2 e3) [e1; e2] e3 E [(SV acc, a1); (SV c, vnat 0)]) as (M & F & A & C & FR); auto.
    + constructor; auto.
    + intros u s [<-|[<-|[]]]; apply FE; simpl; auto.
    + simpl. tauto.
    + constructor; [|constructor; auto]; split; auto; eexists; eauto.
    + apply (R5 0 a1); auto. lia.
    + assert (NC : c <> acc). { intros ->. destruct HY as [ND _]. simpl in ND. inversion ND as [|? ? K _]. apply K. simpl. auto. }
      exists M. split; auto. apply moment_node; auto. split.
      * exists w. rewrite <- D0. apply den_ext. auto.
      * exists a, a0, 0, a1. split; [|split; [auto|split; [lia|split; [|split]]]].
        -- rewrite <- Hb. apply den_ext. intros s Hs. apply FR. revert Hs. apply FE. simpl. auto.
        -- unfold acc_val. rewrite (den_ext e2 M E), Hb1; [reflexivity|]. intros s Hs. apply FR. revert Hs. apply FE. simpl. auto.
        -- rewrite C by (simpl; auto). simpl. rewrite upd_neq by congruence. apply upd_eq.
        -- rewrite C by (simpl; auto). simpl. apply upd_eq.
  - (* reduction *) destruct D as (w & D). pose proof D as D0. cbn [den] in D. inv_bind. destruct a0 as [|n ns]; [discriminate|]. inv_bind.
    pose proof (dims_all _ _ _ Hb0 Hb1) as DM. destruct R as (R1 & R2 & R3). destruct (R3 _ _ Hb DM) as (R4 & R5).
    rename Hk0 into Hk, a1 into v0. rewrite <- red_iter in Hk.
    destruct n as [|n]; [lia|]. cbn [iter_res] in Hk. apply bind_ok in Hk as (w1 & H1 & _). apply bind_ok in H1 as (r & Hr & H1).
    destruct (moment_binder (PReduce e1 x y e2 vecs) (e1 :: vecs) e2 E [(SV x, v0); (SV y, r)]) as (M & F & A & C & FR); auto.
    + constructor; auto. apply Forall_app. auto.
    + intros u s [<-|Hu]; apply FE; simpl; auto. intros Hs. right. left. apply any_Exists. eauto.
    + simpl. tauto.
    + constructor; [split; auto; eexists; eauto|]. eauto.
    + eexists; eauto.
    + apply (R5 0 v0 r); auto. unfold red_val. rewrite Hb2. reflexivity.
    + assert (NC : x <> y). { intros ->. destruct HY as [ND _]. simpl in ND. inversion ND as [|? ? K _]. apply K. simpl. auto. }
      exists M. split; auto. apply moment_node; auto. split.
      * exists w. rewrite <- D0. apply den_ext. auto.
      * exists a, (S n), 0, v0, r. split; [|split; [auto|split; [lia|split; [|split; [auto|split]]]]].
        -- rewrite <- Hb. apply mapM_den_ext. intros o s Ho Hs. apply FR. revert Hs. apply FE. simpl. intros Hs. right. left.
           apply any_Exists. eauto.
        -- unfold red_val. rewrite (den_ext e1 M E), Hb2; [reflexivity|]. intros s Hs. apply FR. revert Hs. apply FE. simpl. auto.
        -- rewrite C by (simpl; auto). simpl. rewrite upd_neq by congruence. apply upd_eq.
        -- rewrite C by (simpl; auto). simpl. apply upd_eq.
  - (* external *) destruct D as (w & D). pose proof D as D0. apply moment_plain; auto; [exists w; auto|].
    cbn [den] in D. inv_bind. simpl. eauto.
Qed.

(** * What loops_run in a program loops_run in its parts *)
Lemma upd_same (M : env) s v r : M s = Some v -> upd M s v r = M r.
Proof. intros H. destruct (sym_eq_dec r s) as [->|N]; [rewrite upd_eq; auto|apply upd_neq; auto]. Qed.
Lemma upd2_same (M : env) s v t w r : M s = Some v -> M t = Some w -> upd (upd M s v) t w r = M r.
Proof.
  intros H1 H2. destruct (sym_eq_dec r t) as [->|N]; [rewrite upd_eq; auto|]. rewrite upd_neq by auto. apply upd_same. auto.
Qed.

Lemma runs_child M p c : local M p -> loops_run M p -> In c (subterms p) -> loops_run M c.
Proof.
  assert (L : forall l, fold_right and True (map (loops_run M) l) -> In c l -> loops_run M c).
  { induction l as [|d l IHl]; simpl; intros H Hc; [destruct Hc|]. destruct Hc as [->|Hc]; [tauto|]. apply IHl; tauto. }
  intros [D LC] R Hc. destruct p; simpl in Hc; cbn [loops_run] in R; cbn in LC;
    repeat match goal with
           | H : _ \/ _ |- _ => destruct H
           | H : False |- _ => destruct H
           | H : In _ (_ ++ _) |- _ => apply in_app_or in H
           | H : _ = c |- _ => subst c
           end; try tauto; try (destruct R; eauto; fail).
  - destruct LC as (v & Hv & Hx). destruct R as [_ R]. apply (runs_agree (upd M (SV x) v)); auto. intros s _. apply upd_same. auto.
  - destruct LC as (Hi & _). destruct R as (_ & _ & R). eapply runs_agree; [|exact R]. intros s _. apply upd_same. auto.
  - destruct LC as (v & z & k & w & Hv & Hz & Hk & HA & H1 & H2). destruct R as (_ & _ & R). destruct (R v z Hv Hz) as (_ & R1 & _).
    eapply runs_agree; [|exact (R1 k w Hk HA)]. intros s _. apply upd2_same; auto.
  - destruct R as (_ & R & _). eauto.
  - destruct H as [<-|[]]. destruct LC as (vs & n & k & w & r & Hvs & Hn & Hk & HA & Hr & H1 & H2). destruct R as (_ & _ & R).
    destruct (R vs n Hvs Hn) as (_ & R1). eapply runs_agree; [|exact (R1 k w r Hk HA Hr)]. intros s _. apply upd2_same; auto.
  - eauto.
Qed.
Lemma runs_sub M n p : sub_of n p -> moment M p -> loops_run M p -> loops_run M n.
Proof.
  induction 1 as [|n c p Hc H IH]; auto. intros HM R. apply IH.
  - eapply moment_sub; [|exact HM]. eapply sub_step; [exact Hc|constructor].
  - eapply runs_child; eauto. apply HM. constructor.
Qed.

(** * Another iteration of one loop *)
Definition phi_dec (a b : phi) : {a = b} + {a <> b}.
Proof.
  destruct (phi_eqb a b) eqn:Q; [left; apply phi_eqb_eq; exact Q|right]. intros H. apply phi_eqb_eq in H. congruence.
Defined.
Lemma NoDup_flat_disj {A B} (f : A -> list B) l a b x : NoDup (flat_map f l) -> In a l -> In b l -> a <> b ->
  In x (f a) -> In x (f b) -> False.
Proof.
  induction l as [|d l IH]; simpl; intros ND Ha Hb N Xa Xb; [auto|].
  destruct Ha as [<-|Ha], Hb as [<-|Hb]; try congruence.
  - eapply NoDup_app_disj; [exact ND|exact Xa|]. apply in_flat_map. eauto.
  - eapply NoDup_app_disj; [exact ND|exact Xb|]. apply in_flat_map. eauto.
  - apply IH; auto. eapply NoDup_app_r; eauto.
Qed.

Definition syms (s : sym) (e : phi) : Prop := isfree s e \/ In s (captured e).

Lemma fold_parts c sz acc init b (p e : phi) : hyg p -> sub_of (PFold c sz acc init b) p -> sub_of e p ->
  sub_of e b \/ e = PFold c sz acc init b \/ forall s, syms s e -> ~ In s (SV c :: SV acc :: bsyms b).
Proof.
  set (f := PFold c sz acc init b). set (B := SV c :: SV acc :: bsyms b).
  assert (BF : incl B (bsyms f)).
  { intros s Hs. rewrite bsyms_list. simpl in *. rewrite !in_app_iff. tauto. }
  intros HY Hf. revert e. change (PFold c sz acc init b) with f in Hf. remember f as f0 eqn:EF in Hf.
  induction Hf as [f0|f0 d p Hd Hf IH]; subst f0; intros e He.
  - inversion He as [|? d ? Hd He']; subst; auto. destruct (phi_dec d b) as [->|N]; auto.
    right. right. intros s Hs Hb. apply (local_syms _ _ s He') in Hs. pose proof (proj1 HY) as ND. rewrite bsyms_list in ND.
    destruct Hs as [Hs|Hs].
    + apply (proj2 HY s); auto. apply free_in_isfree. apply free_in_isfree in Hs. simpl in Hd |- *.
      destruct Hd as [Hd|[Hd|[Hd|[]]]]; subst d; auto. congruence.
    + destruct (in_dec sym_eq_dec s (captured f)) as [Hc|Hc].
      * eapply NoDup_app_disj; [exact ND|exact Hc|]. apply in_flat_map. eauto.
      * apply NoDup_app_r in ND. apply (NoDup_flat_disj bsyms (subterms f) d b s); auto; [simpl; auto|].
        simpl in Hb, Hc. tauto.
  - assert (Bd : incl B (bsyms d)) by (intros s Hs; apply (bsyms_sub f d Hf); auto).
    assert (Bp : incl B (flat_map bsyms (subterms p))) by (intros s Hs; apply in_flat_map; eauto).
    pose proof (proj1 HY) as ND. rewrite bsyms_list in ND.
    assert (FB : forall s, isfree s p -> ~ In s B).
    { intros s Hs Hb. apply (proj2 HY s); auto. rewrite bsyms_list. apply in_or_app. auto. }
    assert (CB : forall s, In s (captured p) -> ~ In s B) by (intros s Hs Hb; eapply NoDup_app_disj; eauto).
    inversion He as [|? d' ? Hd' He']; subst.
    + right. right. intros s [Hs|Hs]; auto.
    + destruct (phi_dec d' d) as [->|N]; [apply IH; auto; eapply hyg_child; eauto|].
      right. right. intros s Hs Hb. apply (local_syms _ _ s He') in Hs. destruct Hs as [Hs|Hs].
      * destruct (isfree_child s p d' Hd' Hs) as [K|K]; [apply (FB s)|apply (CB s)]; auto.
      * apply NoDup_app_r in ND. eapply (NoDup_flat_disj bsyms (subterms p) d' d s); eauto.
Qed.

(** A program at a moment can be looked at during any other iteration of a loop. *)
Lemma fold_moments M p c sz acc init b v z j w : hyg p -> moment M p -> loops_run M p -> sub_of (PFold c sz acc init b) p ->
  den M sz = Ok v -> val_int v = Ok z -> j < Z.to_nat z -> acc_val M c acc init b j = Ok w ->
  exists M', moment M' p /\ loops_run M' p /\ M' (SV c) = Some (vnat j) /\ M' (SV acc) = Some w /\
    forall s, ~ In s (SV c :: SV acc :: bsyms b) -> M' s = M s.
Proof.
  intros HY HM R Hf Hv Hz Hj HA. set (f := PFold c sz acc init b) in *. set (B := SV c :: SV acc :: bsyms b).
  pose proof (hyg_sub _ _ Hf HY) as HYf. pose proof (runs_sub _ _ _ Hf HM R) as Rf. destruct (HM f Hf) as [(u & D) _].
  assert (HYb : hyg b) by (apply (hyg_child f); simpl; auto).
  pose proof (fold_acc _ _ _ _ _ _ _ _ _ D Hv Hz) as HN.
  destruct Rf as (Rs & Ri & Rb). destruct (Rb v z Hv Hz) as (Rz & RB & _).
  destruct (all_have_moments b (fold_env M c acc j w)) as (M' & Mb & A); auto.
  { destruct (acc_val_le M c acc init b (Z.to_nat z) (S j) u) as (w' & Hw'); auto. exists w'.
    rewrite <- Hw'. symmetry. apply acc_val_step. auto. }
  pose proof (proj1 HYf) as ND. rewrite bsyms_list in ND. cbn [captured f app] in ND.
  assert (BF : incl B (bsyms f)). { intros s Hs. rewrite bsyms_list. simpl in *. rewrite !in_app_iff. tauto. }
  assert (NF : forall s, isfree s f -> ~ In s B). { intros s Hs Hb. apply (proj2 HYf s); auto. }
  assert (CA : SV c <> SV acc /\ ~ In (SV c) (bsyms b) /\ ~ In (SV acc) (bsyms b)).
  { assert (K : forall s, In s (bsyms b) -> In s (flat_map bsyms (subterms f))) by (intros; apply in_flat_map; exists b; simpl; auto).
    inversion ND as [|? ? N1 ND1]; subst. inversion ND1 as [|? ? N2 _]; subst. split; [|split]; intros H.
    - apply N1. simpl. auto.
    - apply N1. simpl. right. apply K. auto.
    - apply N2. apply K. auto. }
  destruct CA as (N1 & N2 & N3).
  assert (AO : forall s, ~ In s B -> M' s = M s).
  { intros s Hs. unfold B in Hs. simpl in Hs. rewrite A by tauto. unfold fold_env. rewrite !upd_neq; auto. }
  assert (Ac : M' (SV c) = Some (vnat j)) by (rewrite A by auto; apply upd_eq).
  assert (Aa : M' (SV acc) = Some w) by (rewrite A by auto; unfold fold_env; rewrite upd_neq by auto; apply upd_eq).
  assert (FF : forall d s, free_in s d -> (d = sz \/ d = init) -> M' s = M s).
  { intros d s Hs Hd. apply AO, NF. apply free_in_isfree. simpl. destruct Hd; subst d; auto. }
  assert (FB : forall s, isfree s b -> s <> SV c -> s <> SV acc -> M' s = M s).
  { intros s Hs H1 H2. apply AO, NF. apply free_in_isfree. apply free_in_isfree in Hs. simpl. auto. }
  assert (Hfp : incl (bsyms f) (bsyms p)) by (apply bsyms_sub; auto).
  exists M'. split; [|split; [|split; [|split]]]; auto.
  - intros e He. destruct (fold_parts c sz acc init b p e HY Hf He) as [H|[->|H]].
    + apply Mb. auto.
    + split.
      * exists u. rewrite <- D. apply den_ext. intros s Hs. apply AO, NF. auto.
      * exists v, z, j, w. split; [|split; [auto|split; [auto|split; [|auto]]]].
        -- rewrite <- Hv. apply den_ext. intros s Hs. apply (FF sz); auto. apply free_in_isfree; auto.
        -- rewrite <- HA. apply acc_val_ext; auto. intros s Hs. apply (FF init); auto. apply free_in_isfree; auto.
    + apply (local_ext M); [|apply HM; auto]. intros s Hs. symmetry. apply AO. apply H. exact Hs.
  - apply (runs_agree M); auto. intros s Hs. symmetry. apply AO. intros Hb. apply (proj2 HY s); auto.
Qed.
End MomentFacts.
