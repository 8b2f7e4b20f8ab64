(** Sizes taken to be equal are equal, at every moment of an evaluation. *)
From Verif Require Import Base Scalar Tensor Types Sym Phi Den Term PhiTerm DenFree SpecPhi Lining LiningFacts TypesFacts Typing DenWf
  Equiv Naive Sizes ClipShift NdOps Yarr Axial AxialFacts AxialOps Codegen IndexOps YOps CodegenSafe SizeClasses Moments MomentFacts.

(** * Joining equal things keeps classes of equal things *)
Section Classes.
Context {T : Type} (dec : forall a b : T, {a = b} + {a <> b}) (norm : T -> T) (R : T -> T -> Prop).
Hypothesis Rrefl : forall a, R a a.
Hypothesis Rsym : forall a b, R a b -> R b a.
Hypothesis Rtrans : forall a b c, R a b -> R b c -> R a c.

Definition okst (s : @uf T) : Prop :=
  (forall u p, uf_parent s u = Some p -> R u p) /\
  (forall r ws w, uf_classes s r = Some ws -> In w ws -> R w r).

Lemma okst_empty : okst uf_empty.
Proof. split; simpl; discriminate. Qed.
Lemma okst_parent s u : okst s -> R (norm u) (get_parent norm s u).
Proof. intros [H _]. unfold get_parent. destruct (uf_parent s (norm u)) eqn:Q; simpl; auto. Qed.

Lemma okst_absorb ws : forall s v, okst s -> (forall w, In w ws -> R w v) -> okst (uf_absorb dec s v ws).
Proof.
  induction ws as [|w ws IH]; intros s v [H1 H2] HW; simpl; [split; auto|]. apply IH; [|intros; apply HW; simpl; auto].
  assert (Hw : R w v) by (apply HW; simpl; auto). split; simpl.
  - intros u p. unfold uf_upd. destruct (dec u w) as [->|N]; [|apply H1]. intros Q. injection Q as <-. auto.
  - intros r l x. unfold uf_upd. destruct (dec r v) as [->|N]; [|apply H2]. intros Q Hx. injection Q as <-.
    unfold set_add in Hx. destruct (uf_classes s v) as [l|] eqn:C; simpl in Hx.
    + destruct (in_dec dec w l); [eapply H2; eauto|]. apply in_app_or in Hx as [Hx|[<-|[]]]; auto. eapply H2; eauto.
    + destruct Hx as [<-|[]]; auto.
Qed.

Lemma okst_unite s u0 v0 : okst s -> R (norm u0) (norm v0) -> okst (fst (uf_unite dec norm s u0 v0)).
Proof.
  intros HS Q. pose proof (okst_parent s u0 HS) as Pu. pose proof (okst_parent s v0 HS) as Pv.
  assert (RP : R (get_parent norm s u0) (get_parent norm s v0)) by eauto.
  unfold uf_unite. destruct (dec _ _); simpl; auto. set (sw := _ <? _).
  set (u := if sw then get_parent norm s v0 else get_parent norm s u0).
  set (v := if sw then get_parent norm s u0 else get_parent norm s v0).
  assert (RU : R u v) by (unfold u, v; destruct sw; auto).
  assert (N : u <> v) by (unfold u, v; destruct sw; congruence). clearbody u v.
  destruct HS as [H1 H2]. rewrite (uf_upd_neq _ _ v) by auto. apply okst_absorb.
  - split; simpl; auto. intros r l w. unfold uf_upd. destruct (dec r u); [discriminate|]. destruct (dec r v) as [->|]; [|apply H2].
    intros K Hw. injection K as <-. destruct (uf_classes s v) eqn:C; simpl in Hw; [eapply H2; eauto|]. destruct Hw as [<-|[]]; auto.
  - intros w Hw. apply Rtrans with u; auto. destruct (uf_classes s u) eqn:C; simpl in Hw; [eapply H2; eauto|]. destruct Hw as [<-|[]]; auto.
Qed.

Lemma okst_equiv s args x y : okst s -> uf_equiv dec norm s args = true -> In x args -> In y args -> R (norm x) (norm y).
Proof.
  intros HS H Hx Hy. unfold uf_equiv in H. destruct args as [|a rest]; [destruct Hx|]. rewrite forallb_forall in H.
  assert (G : forall z, In z (a :: rest) -> R (norm z) (get_parent norm s a)).
  { intros z [<-|Hz]; [apply okst_parent; auto|]. apply H in Hz. destruct (dec _ _) as [E|]; [|discriminate]. rewrite E.
    apply okst_parent. auto. }
  eauto.
Qed.
End Classes.

Section SizeSound.
Context {FO : FloatOps} {EX : Externs}.

(** * What a class element stands for *)
Definition vread (v : val) : option Z := match val_int v with Ok z => Some z | Err _ => None end.
Definition kread (r : res val) : option Z := match r with Ok v => vread v | Err _ => None end.
Definition vd (v : val) (axis : nat) : option Z := match vdim v axis with Ok n => Some (Z.of_nat n) | Err _ => None end.

Lemma kread_dim E e axis : kread (den E (PDim e axis)) = match den E e with Ok v => vd v axis | Err _ => None end.
Proof. cbn [den]. destruct (den E e) as [v|]; auto. cbn [bind]. unfold vd. destruct (vdim v axis); reflexivity. Qed.
Lemma kread_dim_ok E e axis v : den E e = Ok v -> kread (den E (PDim e axis)) = vd v axis.
Proof. intros H. rewrite kread_dim, H. reflexivity. Qed.

Lemma vdim_err v ax err : vdim v ax = Err err -> err = EShape.
Proof.
  revert err. induction v as [a|v1 IH1 v2 IH2]; simpl; intros err.
  - destruct (nth_error _ _); simpl; congruence.
  - destruct (vdim v1 ax) as [n|]; cbn [bind]; [|intros H; apply IH1; auto].
    destruct (vdim v2 ax) as [m|]; cbn [bind]; [|intros H; apply IH2; auto].
    destruct (n =? m); simpl; congruence.
Qed.
Lemma vd_eq v w ax : vd v ax = vd w ax <-> vdim v ax = vdim w ax.
Proof.
  unfold vd. destruct (vdim v ax) as [n|x] eqn:V, (vdim w ax) as [m|y] eqn:W; split; intros H; try congruence.
  - injection H as H. f_equal. lia.
  - f_equal. rewrite (vdim_err _ _ _ V), (vdim_err _ _ _ W). reflexivity.
Qed.

(** The terms of a program. *)
Fixpoint nodes (fuel : nat) (e : phi) : list phi :=
  match fuel with 0 => [] | S fuel => e :: flat_map (nodes fuel) (subterms e) end.
Lemma nodes_sub fuel : forall e n, In n (nodes fuel e) -> sub_of n e.
Proof.
  induction fuel as [|fuel IH]; simpl; intros e n H; [destruct H|]. destruct H as [<-|H]; [constructor|].
  apply in_flat_map in H as (c & Hc & H). eapply sub_step; [exact Hc|]. auto.
Qed.
Lemma sub_nodes n e : sub_of n e -> forall fuel, psize e <= fuel -> In n (nodes fuel e).
Proof.
  induction 1 as [e|n c e Hc H IH]; intros fuel F.
  - destruct fuel; [destruct e; simpl in F; lia|]. simpl. auto.
  - destruct fuel; [destruct e; simpl in F; lia|]. simpl. right. apply in_flat_map. exists c. split; auto. apply IH.
    pose proof (tsize_sub e c Hc) as Q. change (psize c < psize e) in Q. lia.
Qed.

Definition size_at (p : phi) (i : nat) : option phi :=
  match find (fun e => match e with PVec j _ _ => i =? j | _ => false end) (nodes (psize p) p) with
  | Some (PVec _ s _) => Some s
  | _ => None
  end.

Lemma vec_unique p i s b s' b' : hyg p -> sub_of (PVec i s b) p -> sub_of (PVec i s' b') p -> PVec i s b = PVec i s' b'.
Proof.
  intros HY H. remember (PVec i s b) as f eqn:EF.
  assert (IN : forall f q, (exists s b, f = PVec i s b) -> sub_of f q -> In (SX i) (bsyms q)).
  { intros f0 q (s0 & b0 & ->) Hq. apply (bsyms_sub _ _ Hq). simpl. auto. }
  assert (Hf : exists s b, f = PVec i s b) by eauto. clear EF s b.
  induction H as [f|f d p Hd H IH]; intros H'.
  - inversion H' as [|? d ? Hd H1]; subst; auto. exfalso. apply (IN _ d) in H1; eauto. destruct Hf as (s & b & ->).
    pose proof (proj1 HY) as ND. rewrite bsyms_list in ND. eapply NoDup_app_disj; [exact ND|simpl; eauto|]. apply in_flat_map. eauto.
  - pose proof (proj1 HY) as ND. rewrite bsyms_list in ND. inversion H' as [|? d' ? Hd' H1]; subst.
    + exfalso. apply (IN _ d) in H; eauto. eapply NoDup_app_disj; [exact ND|simpl; eauto|]. apply in_flat_map. eauto.
    + destruct (phi_dec d' d) as [->|N]; [apply IH; auto; eapply hyg_child; eauto|].
      exfalso. apply NoDup_app_r in ND. apply (NoDup_flat_disj bsyms (subterms p) d' d (SX i)); eauto.
Qed.

Lemma size_at_vec p i s b : hyg p -> sub_of (PVec i s b) p -> size_at p i = Some s.
Proof.
  intros HY H. unfold size_at. destruct (find _ _) as [f|] eqn:F.
  - apply find_some in F as [F1 F2]. destruct f; try discriminate. apply Nat.eqb_eq in F2. subst. apply nodes_sub in F1.
    pose proof (vec_unique p _ _ _ _ _ HY H F1). congruence.
  - exfalso. eapply find_none in F; [|apply (sub_nodes (PVec i s b)); eauto]. simpl in F. rewrite Nat.eqb_refl in F. discriminate.
Qed.

Definition kval (p : phi) (M : env) (k : key) : option Z :=
  match k with
  | KIdx i => match size_at p i with Some s => kread (den M s) | None => None end
  | KExpr e => kread (den M e)
  end.

(** Equal at every moment of every evaluation in which every loop loops_run. *)
Definition alike (p : phi) (a b : key) : Prop := forall M, moment M p -> loops_run M p -> kval p M a = kval p M b.

Lemma alike_refl p a : alike p a a. Proof. intros M _ _. reflexivity. Qed.
Lemma alike_sym p a b : alike p a b -> alike p b a. Proof. intros H M H1 H2. symmetry. auto. Qed.
Lemma alike_trans p a b c : alike p a b -> alike p b c -> alike p a c.
Proof. intros H K M H1 H2. rewrite H; auto. Qed.

(** * Terms read with all indices at 0 *)
Variable p : phi.
Hypothesis HY : hyg p.
Hypothesis closed : forall i, ~ isfree (SX i) p.

Definition good (e : phi) : Prop := hyg e /\ forall s, isfree s e -> isfree s p \/ In s (bsyms p).

Lemma bsyms_binder (q : phi) s : In s (bsyms q) -> exists n, sub_of n q /\ In s (captured n).
Proof.
  induction q as [q IH] using (well_founded_induction (well_founded_ltof _ psize)). intros H. rewrite bsyms_list in H.
  apply in_app_or in H as [H|H]; [exists q; split; auto; constructor|]. apply in_flat_map in H as (c & Hc & H).
  destruct (IH c) as (n & Hn & Hs); auto.
  - unfold ltof. pose proof (tsize_sub q c Hc) as Q. exact Q.
  - exists n. split; auto. eapply sub_step; eauto.
Qed.

Lemma index_zero M i : moment M p -> In (SX i) (bsyms p) -> M (SX i) = Some (vint 0).
Proof.
  intros HM H. apply bsyms_binder in H as (n & Hn & Hi). destruct n; simpl in Hi;
    repeat match goal with H : _ \/ _ |- _ => destruct H | H : False |- _ => destruct H | H : SV _ = SX _ |- _ => discriminate H end.
  injection H as ->. destruct (HM _ Hn) as [_ L]. cbn in L. tauto.
Qed.

Lemma good_zero M e : moment M p -> good e -> kread (den M (with_indices_at_zero e)) = kread (den M e).
Proof.
  intros HM [Hg HF]. apply hyg_unshadowed in Hg.
  assert (Q : den (zeroed M) e = den M e).
  { apply den_ext. intros s Hs. unfold zeroed. destruct s as [x|i]; simpl; auto. symmetry. apply index_zero; auto.
    destruct (HF _ Hs); auto. exfalso. eapply closed; eauto. }
  destruct (den M e) as [v|err] eqn:D.
  - rewrite (proj2 (with_indices_at_zero_den e M v Hg)); auto.
  - destruct (den M (with_indices_at_zero e)) as [v|] eqn:D'; auto.
    apply (with_indices_at_zero_den e M v Hg) in D'. congruence.
Qed.

Definition gkey (k : key) : Prop := match k with KIdx _ => True | KExpr e => good e end.
Lemma alike_norm a b : gkey a -> gkey b -> (alike p (knorm a) (knorm b) <-> alike p a b).
Proof.
  intros Ga Gb. assert (Q : forall M k, moment M p -> gkey k -> kval p M (knorm k) = kval p M k).
  { intros M k HM G. destruct k as [i|e]; simpl; auto. apply good_zero; auto. }
  split; intros H M HM HR; specialize (H M HM HR); rewrite !Q in *; auto.
Qed.

Lemma good_sub e : sub_of e p -> good e.
Proof. intros H. split; [eapply hyg_sub; eauto|]. intros s Hs. eapply free_sub_of; eauto. Qed.
Lemma hyg_same (e d : phi) : bsyms d = bsyms e -> (forall s, isfree s d -> isfree s e) -> hyg e -> hyg d.
Proof. intros Q F [H1 H2]. unfold hyg. rewrite Q. split; auto. Qed.
Lemma good_dim e ax : good e -> good (PDim e ax).
Proof.
  assert (Q : forall s, isfree s (PDim e ax) -> isfree s e).
  { intros s Hs. apply free_in_isfree. apply free_in_isfree in Hs. exact Hs. }
  intros [H1 H2]. split; auto. apply (hyg_same e); auto.
Qed.
Lemma good_const a : good (PConst a).
Proof. split; [split; [constructor|intros s H; apply free_in_isfree in H; destruct H]|intros s H; apply free_in_isfree in H; destruct H]. Qed.
Lemma good_var x t : In (SV x) (bsyms p) -> good (p_var x t).
Proof.
  intros H. split.
  - split; [constructor|]. intros s _ [].
  - intros s Hs. apply free_in_isfree in Hs. simpl in Hs. subst. auto.
Qed.
Lemma good_get t z : good t -> good (PGet t (p_int z)).
Proof.
  assert (Q : forall s, isfree s (PGet t (p_int z)) -> isfree s t).
  { intros s Hs. apply free_in_isfree. apply free_in_isfree in Hs. simpl in Hs. tauto. }
  intros [H1 H2]. split; auto. apply (hyg_same t); auto. simpl. apply app_nil_r.
Qed.

(** * Arrays *)
Lemma vdim_vstack_S t : forall vs v ax, vstack t vs = Ok v -> vdim v (S ax) = vdim t ax.
Proof.
  induction t as [a|t1 IH1 t2 IH2]; simpl; intros vs v ax H; inv_bind; simpl; auto.
  rewrite (IH1 _ _ _ Hb0), (IH2 _ _ _ Hb1). reflexivity.
Qed.
Lemma vget_dims u : forall z v ax, vget u z = Ok v -> vdim v ax = vdim u (S ax).
Proof.
  induction u as [a|u1 IH1 u2 IH2]; simpl; intros z v ax H; inv_bind; simpl.
  - unfold aget in Hb. destruct (ashape a) as [|n sh] eqn:S; [discriminate|]. injection Hb as <-. unfold asub. rewrite S. reflexivity.
  - rewrite (IH1 _ _ _ Hb), (IH2 _ _ _ Hb0). reflexivity.
Qed.
Lemma vget_any u : forall z v z', vget u z = Ok v -> exists v', vget u z' = Ok v'.
Proof.
  induction u as [a|u1 IH1 u2 IH2]; simpl; intros z v z' H; inv_bind.
  - unfold aget in *. destruct (ashape a) as [|n sh]; [discriminate|]. simpl. eauto.
  - destruct (IH1 _ _ z' Hb) as (v1 & ->), (IH2 _ _ z' Hb0) as (v2 & ->). simpl. eauto.
Qed.
Lemma val_int_vint z : val_int (vint z) = Ok z. Proof. reflexivity. Qed.

(** * The iterations of a loop *)
Definition adim (M : env) (c acc : nat) (init b : phi) (ax j : nat) : option Z :=
  match acc_val M c acc init b j with Ok w => vd w ax | Err _ => None end.

Lemma fold_facts M c sz acc init b t : moment M p -> loops_run M p -> sub_of (PFold c sz acc init b) p -> typ init = Ok t ->
  exists n k, k < n /\
    (forall ax, kread (den M (PDim (p_var acc t) ax)) = adim M c acc init b ax k /\
                kread (den M (PDim b ax)) = adim M c acc init b ax (S k) /\
                kread (den M (PDim init ax)) = adim M c acc init b ax 0 /\
                kread (den M (PDim (PFold c sz acc init b) ax)) = adim M c acc init b ax n /\
                ((forall j, j < n -> adim M c acc init b ax j = adim M c acc init b ax 0) ->
                 adim M c acc init b ax n = adim M c acc init b ax 0)) /\
    forall j, j < n -> exists M', moment M' p /\ loops_run M' p /\ forall ax,
      kread (den M' (PDim (p_var acc t) ax)) = adim M c acc init b ax j /\
      kread (den M' (PDim b ax)) = adim M c acc init b ax (S j) /\
      kread (den M' (PDim init ax)) = adim M c acc init b ax 0.
Proof.
  intros HM HR Hf Ht. set (f := PFold c sz acc init b) in *. pose proof (hyg_sub _ _ Hf HY) as HYf.
  destruct (HM f Hf) as [(u & D) (v & z & k & w & Hv & Hz & Hk & HA & Ha & Hc)].
  pose proof (fold_acc _ _ _ _ _ _ _ _ _ D Hv Hz) as HN.
  pose proof (runs_sub _ _ _ Hf HM HR) as (_ & _ & Rf). destruct (Rf v z Hv Hz) as (_ & _ & RL).
  assert (DI : exists w0, den M init = Ok w0) by (unfold acc_val in HN; apply bind_ok in HN as (w0 & H0 & _); eauto).
  destruct DI as (w0 & DI).
  assert (A0 : acc_val M c acc init b 0 = Ok w0) by (unfold acc_val; rewrite DI; reflexivity).
  assert (FB : forall s, isfree s b -> s <> SV c -> s <> SV acc -> isfree s f).
  { intros s Hs H1 H2. apply free_in_isfree. apply free_in_isfree in Hs. simpl. auto. }
  assert (FI : forall s, isfree s init -> isfree s f).
  { intros s Hs. apply free_in_isfree. apply free_in_isfree in Hs. simpl. auto. }
  assert (BF : forall s, isfree s f -> ~ In s (SV c :: SV acc :: bsyms b)).
  { intros s Hs Hb. apply (proj2 HYf s Hs). rewrite bsyms_list. simpl in *. rewrite !in_app_iff. tauto. }
  assert (BODY : forall M' j wj, acc_val M c acc init b j = Ok wj -> M' (SV c) = Some (vnat j) -> M' (SV acc) = Some wj ->
     (forall s, ~ In s (SV c :: SV acc :: bsyms b) -> M' s = M s) -> forall ax,
      kread (den M' (PDim (p_var acc t) ax)) = adim M c acc init b ax j /\
      kread (den M' (PDim b ax)) = adim M c acc init b ax (S j) /\
      kread (den M' (PDim init ax)) = adim M c acc init b ax 0).
  { intros M' j wj Hj Q1 Q2 Q3 ax. split; [|split].
    - rewrite (kread_dim_ok _ _ _ wj); [unfold adim; rewrite Hj; reflexivity|]. simpl. rewrite Q2. reflexivity.
    - rewrite kread_dim. unfold adim. rewrite (acc_val_step _ _ _ _ _ _ _ Hj).
      rewrite (den_ext b M' (fold_env M c acc j wj)); auto. intros s Hs. unfold fold_env.
      destruct (sym_eq_dec s (SV c)) as [->|N1]; [rewrite upd_eq; auto|]. rewrite upd_neq by auto.
      destruct (sym_eq_dec s (SV acc)) as [->|N2]; [rewrite upd_eq; auto|]. rewrite upd_neq by auto.
      apply Q3. apply BF. auto.
    - rewrite kread_dim. unfold adim. rewrite A0. rewrite (den_ext init M' M), DI; auto. }
  exists (Z.to_nat z), k. split; auto. split.
  - intros ax. destruct (BODY M k w HA Hc Ha) with (ax := ax) as (B1 & B2 & B3); auto. split; auto. split; auto. split; auto. split.
    + rewrite (kread_dim_ok _ _ _ u); auto. unfold adim. rewrite HN. reflexivity.
    + intros HH. unfold adim. rewrite HN, A0. apply vd_eq. apply (RL ax w0 u); auto.
      intros j wj Hj Hwj. specialize (HH j Hj). unfold adim in HH. rewrite Hwj, A0 in HH. apply vd_eq. auto.
  - intros j Hj. destruct (acc_val_le M c acc init b (Z.to_nat z) j u) as (wj & Hwj); auto; [lia|].
    destruct (fold_moments M p c sz acc init b v z j wj) as (M' & HM' & HR' & Q1 & Q2 & Q3); auto.
    exists M'. split; auto. split; auto. eapply BODY; eauto.
Qed.

(** * Each recorded fact is true *)
Notation R := (fun a b => alike p (knorm a) (knorm b)).
Definition valid (t : trigger) : Prop :=
  (forall x y, In x (fst t) -> In y (fst t) -> R (KExpr x) (KExpr y)) -> forall x, In x (fst t) -> R (KExpr x) (KExpr (snd t)).

Lemma chain (A : nat -> option Z) n : (forall j, j < n -> A j = A (S j)) -> forall j, j <= n -> A j = A 0.
Proof. intros H. induction j; intros Hj; auto. rewrite <- H by lia. apply IHj. lia. Qed.

Lemma fold_valid c sz acc init b t ax tr : sub_of (PFold c sz acc init b) p -> typ init = Ok t ->
  (let a := PDim (p_var acc t) ax in let b' := PDim b ax in let c' := PDim init ax in
   In tr [([a; b'], c'); ([b'; c'], a); ([c'; a], b'); ([a; b'; c'], PDim (PFold c sz acc init b) ax)]) -> valid tr.
Proof.
  intros Hf Ht Htr. cbv zeta in Htr.
  assert (SB : sub_of b p /\ sub_of init p).
  { split; (eapply sub_of_trans; [|exact Hf]); (eapply sub_step; [|constructor]); simpl; auto. }
  assert (BA : In (SV acc) (bsyms p)) by (apply (bsyms_sub _ _ Hf); simpl; auto).
  assert (Ga : gkey (KExpr (PDim (p_var acc t) ax))) by (apply good_dim, good_var; auto).
  assert (Gb : gkey (KExpr (PDim b ax))) by (apply good_dim, good_sub; tauto).
  assert (Gc : gkey (KExpr (PDim init ax))) by (apply good_dim, good_sub; tauto).
  assert (Gf : gkey (KExpr (PDim (PFold c sz acc init b) ax))) by (apply good_dim, good_sub; tauto).
  intros H x Hx.
  assert (GG : forall d d', gkey (KExpr d) -> gkey (KExpr d') -> R (KExpr d) (KExpr d') ->
    forall M, moment M p -> loops_run M p -> kread (den M d) = kread (den M d')).
  { intros d d' G1 G2 Q M HM HR. apply (proj1 (alike_norm _ _ G1 G2) Q M HM HR). }
  assert (GX : gkey (KExpr x)).
  { destruct Htr as [<-|[<-|[<-|[<-|[]]]]]; simpl in Hx;
      repeat match goal with H : _ \/ _ |- _ => destruct H | H : False |- _ => destruct H end; subst x; auto. }
  assert (GT : gkey (KExpr (snd tr))) by (destruct Htr as [<-|[<-|[<-|[<-|[]]]]]; simpl; auto).
  apply (proj2 (alike_norm _ _ GX GT)). intros M HM HR. cbn [kval].
  destruct (fold_facts M c sz acc init b t HM HR Hf Ht) as (n & k & Hk & Q & MV). destruct (Q ax) as (Qa & Qb & Qc & Qf & QL).
  set (A := adim M c acc init b ax) in *.
  destruct Htr as [<-|[<-|[<-|[<-|[]]]]]; cbn [fst snd] in *.
  - assert (S1 : forall j, j < n -> A j = A (S j)).
    { intros j Hj. destruct (MV j Hj) as (M' & HM' & HR' & QQ). destruct (QQ ax) as (R1 & R2 & R3). unfold A. rewrite <- R1, <- R2. apply GG; auto. apply H; simpl; auto. }
    pose proof (chain A n S1) as S2. destruct Hx as [<-|[<-|[]]].
    + rewrite Qa, Qc. apply S2. lia.
    + rewrite Qb, Qc. apply S2. lia.
  - assert (S1 : forall j, j < n -> A (S j) = A 0).
    { intros j Hj. destruct (MV j Hj) as (M' & HM' & HR' & QQ). destruct (QQ ax) as (R1 & R2 & R3). unfold A. rewrite <- R2, <- R3. apply GG; auto. apply H; simpl; auto. }
    assert (S2 : A k = A 0) by (destruct k; auto; apply S1; lia). destruct Hx as [<-|[<-|[]]].
    + rewrite Qa, Qb, S2. apply S1. auto.
    + rewrite Qa, Qc. auto.
  - assert (S1 : forall j, j < n -> A j = A 0).
    { intros j Hj. destruct (MV j Hj) as (M' & HM' & HR' & QQ). destruct (QQ ax) as (R1 & R2 & R3). unfold A. rewrite <- R1, <- R3. apply GG; auto. apply H; simpl; auto. }
    assert (S2 : A (S k) = A 0). { destruct (Nat.eq_dec (S k) n) as [->|]; [auto|]. apply S1. lia. }
    destruct Hx as [<-|[<-|[]]].
    + rewrite Qb, Qc. auto.
    + rewrite Qa, Qb, S2. auto.
  - assert (S1 : forall j, j < n -> A (S j) = A 0).
    { intros j Hj. destruct (MV j Hj) as (M' & HM' & HR' & QQ). destruct (QQ ax) as (R1 & R2 & R3). unfold A. rewrite <- R2, <- R3. apply GG; auto. apply H; simpl; auto. }
    assert (S2 : A k = A 0) by (destruct k; auto; apply S1; lia).
    assert (S3 : A n = A 0) by (destruct n; [lia|apply S1; lia]).
    destruct Hx as [<-|[<-|[<-|[]]]].
    + rewrite Qa, Qf. congruence.
    + rewrite Qb, Qf, S3. auto.
    + rewrite Qc, Qf. auto.
Qed.

Definition sound (f : found) : Prop :=
  (forall q, In q (fst f) -> R (fst q) (snd q)) /\ forall t, In t (snd f) -> valid t.

Lemma own_sound e f : sub_of e p -> own_facts e = Ok f -> sound f.
Proof.
  intros He H. pose proof (good_sub e He) as Ge.
  assert (RR : forall a b, gkey a -> gkey b -> (forall M, moment M p -> loops_run M p -> kval p M a = kval p M b) -> R a b).
  { intros a b G1 G2 Q. apply (proj2 (alike_norm a b G1 G2)). intros M HM HR. apply Q; auto. }
  assert (SUB : forall c, In c (subterms e) -> sub_of c p) by (intros c Hc; eapply sub_of_trans; [eapply sub_step; [exact Hc|constructor]|auto]).
  assert (E0 : sound ([], [])) by (split; intros ? []).
  destruct e; cbn [own_facts] in H; try (injection H as <-; exact E0).
  - (* constants *) injection H as <-. split; [|intros ? []]. intros q Hq. cbn [fst] in Hq. apply in_map_iff in Hq as ((ax & d) & <- & Hq).
    apply RR; [apply good_dim; auto|apply good_const|]. intros M HM HR. cbn [pair_e fst snd kval].
    rewrite (kread_dim_ok _ _ _ (VArr a)) by reflexivity. unfold vd. simpl.
    assert (Q : nth_error (ashape a) ax = Some d).
    { clear - Hq. assert (G : forall l k ax, In (ax, d) (combine (seq k (length l)) l) -> k <= ax /\ nth_error l (ax - k) = Some d).
      { clear. induction l as [|x l IH]; simpl; intros k ax H; [destruct H|]. destruct H as [H|H].
        - injection H as <- <-. rewrite Nat.sub_diag. auto.
        - apply IH in H as [H1 H2]. split; [lia|]. replace (ax - k) with (S (ax - S k)) by lia. exact H2. }
      apply G in Hq as [_ Hq]. rewrite Nat.sub_0_r in Hq. auto. }
    rewrite Q. reflexivity.
  - (* let *) apply bind_ok in H as (t & Ht & H). apply bind_ok in H as (one & _ & H). destruct one; [|injection H as <-; exact E0].
    apply bind_ok in H as (rank & _ & H). injection H as <-. split; [|intros ? []]. cbn [fst].
    assert (Gx : good (p_var x t)) by (apply good_var; apply (bsyms_sub _ _ He); simpl; auto).
    assert (Gb : good e1) by (apply good_sub, SUB; simpl; auto).
    assert (DD : forall M, moment M p -> den M (p_var x t) = den M e1).
    { intros M HM. destruct (HM _ He) as [_ (v & Hv & Hx)]. rewrite Hv. simpl. rewrite Hx. reflexivity. }
    intros q [<-|Hq].
    + apply RR; auto. intros M HM HR. cbn [pair_e fst snd kval]. rewrite DD; auto.
    + apply in_map_iff in Hq as (ax & <- & _). apply RR; try apply good_dim; auto.
      intros M HM HR. cbn [pair_e fst snd kval]. rewrite !kread_dim, DD; auto.
  - (* assertion *) injection H as <-. split; [|intros ? []]. cbn [fst].
    intros q [<-|Hq].
    + apply RR; auto; [apply good_sub, SUB; simpl; auto|]. intros M HM HR. cbn [pair_e fst snd kval].
      destruct (HM _ He) as [(v & D) _]. pose proof D as D0. cbn [den] in D. inv_bind. congruence.
    + destruct ops as [|op0 ops]; [destruct Hq|]. apply in_map_iff in Hq as (o & <- & Ho).
      apply RR; try (apply good_sub, SUB; simpl; auto). intros M HM HR. cbn [pair_e fst snd kval].
      destruct (HM _ He) as [(v & D) _]. cbn [den] in D. apply bind_ok in D as (vs & Hvs & D). apply bind_ok in D as (zs & Hzs & D).
      apply bind_ok in D as (u & G & _). apply guard_ok in G.
      assert (Q : Forall2 (fun o z => kread (den M o) = Some z) (op0 :: ops) zs).
      { apply mapM_Forall2 in Hvs. apply mapM_Forall2 in Hzs. clear - Hvs Hzs. revert zs Hzs.
        induction Hvs as [|o w os ws Ho HH IH]; intros zs Hz; inversion Hz; subst; constructor; auto.
        rewrite Ho. simpl. unfold vread. rewrite H1. reflexivity. }
      inversion Q as [|? z0 ? zs' Q0 Q1]; subst. simpl in G. rewrite forallb_forall in G. rewrite Q0. destruct Ho as [<-|Ho]; auto.
      clear - Q1 G Ho. induction Q1 as [|o' z os zs Hz Q IH]; [destruct Ho|]. destruct Ho as [<-|Ho].
      * rewrite Hz. f_equal. apply Z.eqb_eq. apply G. simpl. auto.
      * apply IH; auto. intros y Hy. apply G. simpl. auto.
  - (* get *) apply bind_ok in H as (t & Ht & H). apply bind_ok in H as (rank & _ & H). injection H as <-. split; [|intros ? []]. cbn [fst].
    assert (G1 : good e1) by (apply good_sub, SUB; simpl; auto).
    intros q Hq. apply in_flat_map in Hq as (ax & _ & Hq).
    assert (DD : forall M, moment M p -> exists v z u u0, den M e1 = Ok v /\ vget v z = Ok u /\ vget v 0 = Ok u0 /\
      den M (PGet e1 e2) = Ok u /\ den M (PGet e1 (p_int 0)) = Ok u0).
    { intros M HM. destruct (HM _ He) as [(u & D) _]. pose proof D as D0. cbn [den] in D.
      apply bind_ok in D as (v & Hb & D). apply bind_ok in D as (w & Hw & D). apply bind_ok in D as (z & Hz & D).
      destruct (vget_any _ _ _ 0%Z D) as (u0 & H0). exists v, z, u, u0. split; auto. split; auto. split; auto. split; auto.
      cbn [den]. rewrite Hb. cbn [bind]. exact H0. }
    destruct Hq as [<-|[<-|[]]].
    + apply RR; [apply good_dim; auto|apply good_dim, good_get; auto|]. intros M HM HR. cbn [pair_e fst snd kval].
      destruct (DD M HM) as (v & z & u & u0 & D1 & D2 & D3 & D4 & D5). rewrite (kread_dim_ok _ _ _ u), (kread_dim_ok _ _ _ u0) by auto.
      apply vd_eq. rewrite (vget_dims _ _ _ _ D2), (vget_dims _ _ _ _ D3). reflexivity.
    + apply RR; try (apply good_dim; auto). intros M HM HR. cbn [pair_e fst snd kval].
      destruct (DD M HM) as (v & z & u & u0 & D1 & D2 & D3 & D4 & D5). rewrite (kread_dim_ok _ _ _ u), (kread_dim_ok _ _ _ v) by auto.
      unfold vd. rewrite (vget_dims _ _ _ _ D2). reflexivity.
  - (* comprehension *) apply bind_ok in H as (t & Ht & H). apply bind_ok in H as (rank & _ & H). injection H as <-.
    split; [|intros ? []]. cbn [fst].
    assert (SZ : size_at p i = Some e1) by (apply (size_at_vec p i e1 e2); auto).
    assert (DD : forall M, moment M p -> exists vz z v0 vs v, den M e1 = Ok vz /\ val_int vz = Ok z /\ (0 <= z)%Z /\ den M e2 = Ok v0 /\
      vstack v0 vs = Ok v /\ length vs = Z.to_nat z /\ den M (PVec i e1 e2) = Ok v).
    { intros M HM. destruct (HM _ He) as [(v & D) (Hi & vz & z & H1 & H2 & H3)]. pose proof D as D0. cbn [den] in D.
      rewrite H1 in D. cbn [bind] in D. rewrite H2 in D. cbn [bind] in D. inv_bind. exists vz, z, a, a0, v.
      apply mapM_length in Hb0. rewrite seq_length in Hb0. split; auto. split; auto. split; auto. split; [|auto].
      rewrite <- Hb. apply den_ext. intros s _. symmetry. apply upd_same. auto. }
    intros q [<-|[<-|Hq]].
    + apply RR; [exact I|apply good_sub, SUB; simpl; auto|]. intros M HM HR. cbn [fst snd kval]. rewrite SZ. reflexivity.
    + apply RR; [exact I|apply good_dim; auto|]. intros M HM HR. cbn [fst snd kval]. rewrite SZ.
      destruct (DD M HM) as (vz & z & v0 & vs & v & D1 & D2 & D3 & D4 & D5 & D6 & D7). rewrite (kread_dim_ok _ _ _ v) by auto.
      rewrite D1. simpl. unfold vread, vd. rewrite D2, (vdim_vstack _ _ _ D5), D6. f_equal. lia.
    + apply in_map_iff in Hq as (k & <- & Hk). apply in_seq in Hk.
      apply RR; [apply good_dim; auto|apply good_dim, good_sub, SUB; simpl; auto|]. intros M HM HR. cbn [pair_e fst snd kval].
      destruct (DD M HM) as (vz & z & v0 & vs & v & D1 & D2 & D3 & D4 & D5 & D6 & D7).
      rewrite (kread_dim_ok _ _ _ v), (kread_dim_ok _ _ _ v0) by auto. unfold vd. destruct rank as [|rank]; [lia|].
      rewrite (vdim_vstack_S _ _ _ _ D5). simpl. rewrite Nat.sub_0_r. reflexivity.
  - (* fold *) apply bind_ok in H as (t & Ht & H). apply bind_ok in H as (one & _ & H). destruct one; [|injection H as <-; exact E0].
    apply bind_ok in H as (te & _ & H). apply bind_ok in H as (rank & _ & H). injection H as <-. split; [intros ? []|]. cbn [snd].
    intros tr Htr. apply in_flat_map in Htr as (ax & _ & Htr). eapply fold_valid; eauto.
Qed.

Lemma collect_sound fuel : forall e f, sub_of e p -> collect fuel e = Ok f -> sound f.
Proof.
  induction fuel as [|fuel IH]; intros e f He H; cbn [collect] in H; [discriminate|].
  apply bind_ok in H as (own & Ho & H). apply bind_ok in H as (fs & Hf & H). injection H as <-.
  destruct (own_sound e own He Ho) as [S1 S2]. apply mapM_Forall2 in Hf.
  assert (F : Forall sound fs).
  { assert (K : forall c, In c (subterms e) -> sub_of c p) by (intros c Hc; eapply sub_of_trans; [eapply sub_step; [exact Hc|constructor]|auto]).
    revert K Hf. generalize (subterms e). intros l K Hf. induction Hf as [|c f l fs Hc Hf IHf]; constructor.
    - apply (IH c); auto. apply K. simpl. auto.
    - apply IHf. intros; apply K; simpl; auto. }
  rewrite Forall_forall in F. split; cbn [fst snd].
  - intros q Hq. apply in_app_or in Hq as [Hq|Hq]; auto. apply in_flat_map in Hq as (f & Hf1 & Hq). apply (proj1 (F f Hf1)). auto.
  - intros q Hq. apply in_app_or in Hq as [Hq|Hq]; auto. apply in_flat_map in Hq as (f & Hf1 & Hq). apply (proj2 (F f Hf1)). auto.
Qed.

Notation ok := (okst (alike p)).
Lemma unite_ok s q : ok s -> R (fst q) (snd q) -> ok (unite s q).
Proof. intros HS Q. apply okst_unite; auto using alike_refl, alike_sym. intros; eapply alike_trans; eauto. Qed.
Lemma same_ok s ks a b : ok s -> same s ks = true -> In a ks -> In b ks -> R a b.
Proof. intros HS Q Ha Hb. eapply okst_equiv with (R := alike p); eauto using alike_refl, alike_sym. intros; eapply alike_trans; eauto. Qed.

Lemma unites_ok ps : forall s, ok s -> (forall q, In q ps -> R (fst q) (snd q)) -> ok (unites s ps).
Proof.
  induction ps as [|q ps IH]; intros s HS H; simpl; auto. apply IH; [|intros; apply H; simpl; auto].
  apply unite_ok; auto. apply H. simpl. auto.
Qed.
Lemma fire_ok ts : forall s s' rest, ok s -> (forall t, In t ts -> valid t) -> fire s ts = (s', rest) ->
  ok s' /\ forall t, In t rest -> valid t.
Proof.
  induction ts as [|[req obt] ts IH]; intros s s' rest HS HT H; cbn [fire] in H.
  - injection H as <- <-. auto.
  - assert (HT' : forall t, In t ts -> valid t) by (intros; apply HT; simpl; auto).
    destruct (same s (map KExpr req)) eqn:Q.
    + apply IH in H; auto. destruct req as [|r req]; auto. apply unite_ok; auto. cbn [pair_e fst snd].
      apply (HT (r :: req, obt) (or_introl eq_refl)); [|left; reflexivity]. cbn [fst]. intros x y Hx Hy.
      apply (same_ok s (map KExpr (r :: req)) (KExpr x) (KExpr y)); auto; apply in_map; auto.
    + destruct (fire s ts) as [s1 rest1] eqn:F. injection H as <- <-. destruct (IH _ _ _ HS HT' F) as [H1 H2]. split; auto.
      intros t [<-|Ht]; auto. apply HT. simpl. auto.
Qed.
Lemma rounds_ok fuel : forall s ts, ok s -> (forall t, In t ts -> valid t) -> ok (rounds fuel s ts).
Proof.
  induction fuel as [|fuel IH]; intros s ts HS HT; cbn [rounds]; auto. destruct (fire s ts) as [s' rest] eqn:F.
  destruct (fire_ok _ _ _ _ HS HT F) as [H1 H2]. destruct (_ =? _); auto.
Qed.

Theorem size_classes_sound s a b : find_size_classes p = Ok s -> same s [a; b] = true -> gkey a -> gkey b -> alike p a b.
Proof.
  intros H Q Ga Gb. unfold find_size_classes, update_size_classes in H. apply bind_ok in H as (f & Hf & H). injection H as <-.
  destruct (collect_sound _ _ _ (sub_refl p) Hf) as [S1 S2].
  apply (proj1 (alike_norm a b Ga Gb)). apply (same_ok _ [a; b]) with (2 := Q); simpl; auto.
  apply rounds_ok; auto. apply unites_ok; auto. apply okst_empty.
Qed.
End SizeSound.
