(** Reductions over records (structs.py:110-151). *)
From Verif Require Import Base Scalar Tensor Types Sym Phi Den DenWf Term PhiTerm DenFree SpecPhi Lining LiningFacts TypesFacts Typing Naive Sizes Subst CodegenSub Soa SoaTyp SoaOps SoaFacts.

Section SoaReduce.
Ltac bl := repeat first [apply below_app; split | apply below_cons; split | assumption
  | match goal with H : below ?m ?l |- below _ ?l => apply (below_le m); [simpl; lia|exact H] end | simpl; lia].
Context {FO : FloatOps} {EX : Externs}.

Notation int := (TScalar KInt).

(** ** Left-nested records *)
Definition ltype (ts : list ty) : ty := match ts with [] => int | t :: ts => fold_left TPair ts t end.

Lemma leaf_tys_fold ts : forall t0, leaf_tys (fold_left TPair ts t0) = leaf_tys t0 ++ flat_map leaf_tys ts.
Proof. induction ts as [|t ts IH]; intros t0; simpl; [rewrite app_nil_r; auto|]. rewrite IH. simpl. rewrite app_assoc. auto. Qed.

Lemma flat_map_leaf ts : Forall (fun t => leaf_tys t = [t]) ts -> flat_map leaf_tys ts = ts.
Proof. induction 1 as [|t ts H _ IH]; simpl; auto. rewrite H, IH. auto. Qed.

Lemma leaf_tys_ltype t : leaf_tys (ltype (leaf_tys t)) = leaf_tys t.
Proof.
  pose proof (leaf_tys_leaf t) as H. destruct (leaf_tys t) as [|l0 ls] eqn:Q.
  - exfalso. revert Q. clear. induction t; simpl; try discriminate. intros Q. apply app_eq_nil in Q as [Q _]. auto.
  - simpl. rewrite leaf_tys_fold. inversion H as [|? ? H1 H2]; subst. rewrite H1, flat_map_leaf; auto.
Qed.

Lemma flat_fold ts : forall t0, flat t0 = true -> Forall (fun t => flat t = true) ts -> flat (fold_left TPair ts t0) = true.
Proof. induction ts as [|t ts IH]; intros t0 H0 H; simpl; auto. inversion H; subst. apply IH; auto. simpl. rewrite H0. auto. Qed.

Lemma flat_ltype t : flat t = true -> flat (ltype (leaf_tys t)) = true.
Proof.
  intros H. apply leaf_tys_flat in H. destruct (leaf_tys t) as [|l0 ls]; auto. inversion H; subst. apply flat_fold; auto.
Qed.

Lemma vtype_fold vs : forall ts v0 t0, vtype v0 = dist t0 -> Forall2 (fun v t => vtype v = dist t) vs ts ->
  vtype (fold_left VPair vs v0) = dist (fold_left TPair ts t0).
Proof.
  induction vs as [|v vs IH]; intros ts v0 t0 H0 H; inversion H; subst; simpl; auto. apply IH; auto. simpl. congruence.
Qed.

Lemma vleaves_typed t : forall v, vtype v = dist t -> Forall2 (fun v t => vtype v = dist t) (vleaves t v) (leaf_tys t).
Proof.
  induction t as [k|e _|a IHa b IHb]; intros v T.
  1, 2: simpl; constructor; auto.
  apply vtype_pair in T as (v1 & v2 & -> & T1 & T2). simpl. apply Forall2_app; auto.
Qed.

Lemma ltuple_typed t v : flat t = true -> vtype v = dist t -> vtype (ltuple (vall v)) = dist (ltype (leaf_tys t)).
Proof.
  intros F T. rewrite <- (vleaves_flat t) by auto. pose proof (vleaves_typed t v T) as H.
  destruct (leaf_tys t) eqn:Q; inversion H; subst.
  - exfalso. revert Q. clear. induction t; simpl; try discriminate. intros Q. apply app_eq_nil in Q as [Q _]. auto.
  - simpl. apply vtype_fold; auto.
Qed.

Lemma vleaves_ltype t v : flat t = true -> vtype v = dist t -> vleaves (ltype (leaf_tys t)) (ltuple (vall v)) = vall v.
Proof.
  intros F T. pose proof (vall_len t F v T) as L. pose proof (leaf_tys_leaf t) as H.
  destruct (leaf_tys t) as [|l0 ls], (vall v) as [|u us] eqn:Q; simpl in L; try discriminate.
  - exfalso. eapply vall_nonempty; eauto.
  - simpl. apply vleaves_ltuple; auto; lia.
Qed.

(** Taking a left-nested record apart and building the original one. *)
Lemma relike_den E t sub v e : into_tuple_like t (in_tuple (ltype (leaf_tys t)) sub) = Ok e ->
  flat t = true -> vtype v = dist t -> den E sub = Ok (ltuple (vall v)) -> den E e = Ok v.
Proof.
  intros Q F T D. eapply into_tuple_like_den; eauto.
  rewrite (vleaves_flat t) by auto. rewrite <- (vleaves_ltype t v) by auto. apply in_tuple_den; auto. apply (ltuple_typed t v); auto.
Qed.

Lemma relike_wt G t sub e : into_tuple_like t (in_tuple (ltype (leaf_tys t)) sub) = Ok e ->
  wt G sub (ltype (leaf_tys t)) -> wt G e t.
Proof.
  intros Q W. eapply into_tuple_like_wt; eauto. apply in_tuple_wt in W. rewrite leaf_tys_ltype in W. auto.
Qed.

Lemma relike_kept (P : phi -> Prop) t sub e : into_tuple_like t (in_tuple (ltype (leaf_tys t)) sub) = Ok e ->
  (forall e, P e -> P (PFirst e)) -> (forall e, P e -> P (PSecond e)) -> (forall a b, P a -> P b -> P (PCons a b)) ->
  P sub -> P e.
Proof. intros Q P1 P2 P3 H. eapply into_tuple_like_kept; eauto. apply in_tuple_kept; auto. Qed.

(** ** Element types *)
Lemma mapM_vec_elem tps els : mapM vec_elem tps = Ok els -> tps = map TVec els.
Proof.
  revert els. induction tps as [|t tps IH]; simpl; intros els H; [injection H as <-; auto|].
  inv_bind. unfold vec_elem in Hb. destruct t; try discriminate. injection Hb as ->. simpl. f_equal. auto.
Qed.

Lemma combine_wt G tvs vs : Forall2 (wt G) vs tvs ->
  Forall2 (wt G) (concat (map (fun p => in_tuple (fst p) (snd p)) (combine tvs vs))) (flat_map leaf_tys tvs).
Proof. induction 1; simpl; [constructor|]. apply Forall2_app; auto. apply in_tuple_wt; auto. Qed.

Lemma combine_kept (P : phi -> Prop) tvs vs : (forall e, P e -> P (PFirst e)) -> (forall e, P e -> P (PSecond e)) ->
  Forall P vs -> Forall P (concat (map (fun p => in_tuple (fst p) (snd p)) (combine tvs vs))).
Proof.
  intros P1 P2 H. revert tvs. induction H; intros tvs; destruct tvs; simpl; auto. apply Forall_app. split; auto. apply in_tuple_kept; auto.
Qed.

Lemma combine_den E tvs : forall vs us, Forall (fun t => flat t = true) tvs -> dens E vs us -> Forall2 (fun u t => vtype u = dist t) us tvs ->
  dens E (concat (map (fun p => in_tuple (fst p) (snd p)) (combine tvs vs))) (flat_map vall us).
Proof.
  induction tvs as [|t tvs IH]; intros vs us F D T; inversion T; subst; inversion D; subst; simpl; [constructor|]. inversion F; subst.
  apply Forall2_app; [|apply IH; auto]. rewrite <- (vleaves_flat t) by auto. apply in_tuple_den; auto.
Qed.

Lemma mapM_flat_vget k us es : mapM (fun u => vget u k) us = Ok es -> mapM (fun u => vget u k) (flat_map vall us) = Ok (flat_map vall es).
Proof.
  revert es. induction us as [|u us IH]; simpl; intros es H; [injection H as <-; auto|]. inv_bind. simpl.
  rewrite mapM_app, (vget_vall _ _ _ Hb), (IH _ Hb0). reflexivity.
Qed.

Lemma mapM_flat_vdim n us ns : mapM (fun u => vdim u 0) us = Ok ns -> Forall (fun m => m = n) ns ->
  mapM (fun u => vdim u 0) (flat_map vall us) = Ok (map (fun _ => n) (flat_map vall us)).
Proof.
  intros H F. assert (K : Forall (fun u => vdim u 0 = Ok n) (flat_map vall us)).
  { revert ns H F. induction us as [|u us IH]; simpl; intros ns H F; auto. inv_bind. inversion F; subst.
    apply Forall_app. split; [apply vdim_vall; auto|eapply IH; eauto]. }
  clear H F. induction K; simpl; auto. rewrite H, IHK. reflexivity.
Qed.

Lemma ltuple_flat e0 es : ltuple (flat_map vall (e0 :: es)) = ltuple (vall (fold_left VPair es e0)).
Proof. rewrite vall_fold. reflexivity. Qed.

Lemma dens_mapM E l vs : dens E l vs <-> mapM (den E) l = Ok vs.
Proof. unfold dens. symmetry. apply mapM_Forall2. Qed.

Lemma flat_vec e : flat (TVec e) = true -> shallow (TVec e) = true.
Proof. apply flat_shallow. Qed.

Lemma into_leaves_wt G t sub e : into_tuple (in_tuple t sub) = Ok e -> wt G sub t -> wt G e (ltype (leaf_tys t)).
Proof.
  intros Q W. destruct (into_tuple_wt G _ _ e (in_tuple_wt G t sub W) Q) as (l0 & ls & -> & H). exact H.
Qed.

Lemma into_leaves_den E t sub e v : into_tuple (in_tuple t sub) = Ok e -> flat t = true -> vtype v = dist t -> den E sub = Ok v ->
  den E e = Ok (ltuple (vall v)).
Proof.
  intros Q F T D. rewrite <- (vleaves_flat t) by auto. eapply into_tuple_den; eauto. apply in_tuple_den; auto.
Qed.

Lemma into_leaves_kept (P : phi -> Prop) t sub e : into_tuple (in_tuple t sub) = Ok e ->
  (forall e, P e -> P (PFirst e)) -> (forall e, P e -> P (PSecond e)) -> (forall a b, P a -> P b -> P (PCons a b)) ->
  P sub -> P e.
Proof. intros Q P1 P2 P3 H. eapply into_tuple_kept; eauto. apply in_tuple_kept; auto. Qed.

Section Step.
Variable rec : phi -> nat -> res (phi * nat).
Hypothesis HR : go_spec rec.

Lemma step_reduce init x y xy vecs : step_spec rec (PReduce init x y xy vecs).
Proof using HR.
  intros G X t0 n e' n' Q W HG F BX BS T. cbn [soa_step] in Q. simpl in W, F, BS. fold (wts G) in W. rewrite all_and_Forall in F. inv_bind.
  repeat match goal with
  | H : _ /\ _ |- _ => destruct H
  | H : exists _, _ |- _ => destruct H
  | H : below _ (_ ++ _) |- _ => apply below_app in H
  | H : below _ (_ :: _) |- _ => apply below_cons in H
  end. cbn [symno] in *.
  subst t0. set (t0 := fold_left TPair x1 x0) in *.
  destruct a as [init' n1], a0 as [xy' n2], a1 as [vecs' n3]. cbn [fst snd] in *.
  apply wts_Forall2 in H8. set (tv := TVec x0 :: map TVec x1) in *.
  assert (P : post G X init t0 n init' n1) by (apply HR; auto). destruct P as [P1 P2 P3 P4 P5].
  assert (R : post (upd (upd G (SV x) t0) (SV y) t0) (SV x :: SV y :: X) xy t0 n1 xy' n2).
  { apply HR; auto; [apply shG_upd; auto; apply shG_upd; auto|bl|bl]. }
  destruct R as [R1 R2 R3 R4 R5].
  destruct (mapS_ok rec G X HR HG vecs tv n2 vecs' n3) as (V1 & V2 & V3 & V4 & V5); auto; try bl.
  set (U := soa_ty t0) in *.
  assert (FU : flat U = true) by (apply soa_shallow_flat; auto).
  assert (R4' : wt (upd (upd (SG G) (SV x) U) (SV y) U) xy' U) by (eapply wt_ext; [|exact R4]; intros; apply SG_upd2).
  assert (a2 = U) as -> by (apply wt_typ in R4'; congruence).
  assert (a3 = U) as -> by (apply wt_typ in P4; congruence).
  set (L := ltype (leaf_tys U)) in *.
  assert (WI : wt (SG G) a4 L) by (eapply into_leaves_wt; eauto).
  assert (WX : wt (upd (upd (SG G) (SV x) U) (SV y) U) a5 L) by (eapply into_leaves_wt; eauto).
  assert (a6 = L) as -> by (apply wt_typ in WI; congruence).
  assert (a7 = L) as -> by (apply wt_typ in WX; congruence).
  assert (a9 = map soa_ty tv) as ->.
  { assert (K : mapM typ vecs' = Ok (map soa_ty tv)) by (apply mapM_Forall2; eapply Forall2_imp_in; [|exact V4]; apply Forall_forall; intros; eapply wt_typ; eauto). congruence. }
  set (pr := concat _) in *.
  assert (WP : Forall2 (wt (SG G)) pr (flat_map leaf_tys (map soa_ty tv))) by (apply combine_wt; auto).
  assert (a10 = flat_map leaf_tys (map soa_ty tv)) as ->.
  { assert (K : mapM typ pr = Ok (flat_map leaf_tys (map soa_ty tv))) by (apply mapM_Forall2; eapply Forall2_imp_in; [|exact WP]; apply Forall_forall; intros; eapply wt_typ; eauto). congruence. }
  apply mapM_vec_elem in Hb11. destruct a11 as [|el els]; [discriminate|]. apply ty_eqb_eq in Hb12.
  assert (FT : Forall (fun t => flat t = true) (map soa_ty tv)).
  { unfold tv. apply Forall_map. apply (Forall_map TVec _ (x0 :: x1)). eapply Forall_impl; [|exact H10]. intros e He. apply soa_shallow_flat. exact He. }
  assert (SE : Forall (fun e => shallow (TVec e) = true) (el :: els)).
  { apply (Forall_map TVec (fun t => shallow t = true) (el :: els)). rewrite <- Hb11. apply Forall_flat_map.
    eapply Forall_impl; [|exact FT]. intros t Ht. apply leaf_tys_flat in Ht. eapply Forall_impl; [|exact Ht]. apply flat_shallow. }
  (* symbols *)
  assert (Bpr : below n3 (flat_map syms pr)).
  { apply below_flat. apply (combine_kept (fun e => below n3 (syms e))); auto. apply below_flat. auto. }
  assert (Fpr : Forall (fresh_binders X) pr) by (apply combine_kept; auto).
  assert (B4 : below n3 (syms a4)) by (eapply (into_leaves_kept (fun e => below n3 (syms e))); eauto; [intros; simpl; bl|bl]).
  assert (F4 : fresh_binders X a4) by (eapply (into_leaves_kept (fresh_binders X)); eauto; simpl; auto).
  assert (B5 : below n3 (syms a5)) by (eapply (into_leaves_kept (fun e => below n3 (syms e))); eauto; [intros; simpl; bl|bl]).
  assert (F5 : fresh_binders (SV x :: SV y :: X) a5) by (eapply (into_leaves_kept (fresh_binders (SV x :: SV y :: X))); eauto; simpl; auto).
  assert (S13 : forall r, In r (syms a13) -> r = SV n3).
  { eapply (relike_kept (fun e => forall r, In r (syms e) -> r = SV n3)); eauto; simpl; auto.
    - intros a b Ha Hc r. rewrite in_app_iff. intros [K|K]; auto.
    - intros r [<-|[]]. auto. }
  assert (S14 : forall r, In r (syms a14) -> r = SV (S n3)).
  { eapply (relike_kept (fun e => forall r, In r (syms e) -> r = SV (S n3))); eauto; simpl; auto.
    - intros a b Ha Hc r. rewrite in_app_iff. intros [K|K]; auto.
    - intros r [<-|[]]. auto. }
  assert (N13 : bsyms a13 = []).
  { eapply (relike_kept (fun e => bsyms e = [])); eauto; simpl; auto. intros a b -> ->. auto. }
  assert (N14 : bsyms a14 = []).
  { eapply (relike_kept (fun e => bsyms e = [])); eauto; simpl; auto. intros a b -> ->. auto. }
  set (sb := [(SV x, a13); (SV y, a14)]) in *.
  assert (PL : sub_plain sb) by (intros s u [K|[K|[]]]; inversion K; subst; auto).
  assert (NB : forall s, In s (map fst sb) -> ~ In s (bsyms a5)).
  { intros s Hs. eapply fresh_not_bound; [exact F5|]. simpl in Hs |- *. tauto. }
  assert (SB : substitute a5 sb = psub sb a5) by (apply substitute_psub; auto).
  assert (NX1 : ~ In (SV n3) (syms a5)) by (eapply below_notin; eauto; simpl; lia).
  assert (NX2 : ~ In (SV (S n3)) (syms a5)) by (eapply below_notin; eauto; simpl; lia).
  assert (CL : clear_of sb a5).
  { split; auto. intros s u r [K|[K|[]]] Hr B; inversion K; subst.
    - apply S13 in Hr. subst. apply NX1, bsyms_syms, B.
    - apply S14 in Hr. subst. apply NX2, bsyms_syms, B. }
  assert (W13 : wt (upd (upd (SG G) (SV n3) L) (SV (S n3)) L) a13 U).
  { eapply relike_wt; eauto. simpl. split; auto. rewrite upd_neq by (intros K; inversion K; lia). apply upd_eq. }
  assert (W14 : wt (upd (upd (SG G) (SV n3) L) (SV (S n3)) L) a14 U).
  { eapply relike_wt; eauto. simpl. split; auto. apply upd_eq. }
  assert (WS : wt (upd (upd (SG G) (SV n3) L) (SV (S n3)) L) (substitute a5 sb) L).
  { rewrite SB. eapply wt_psub; [| |exact CL|exact WX].
    - intros v u r [K|[K|[]]] Hr; inversion K; subst; apply fsyms_syms in Hr.
      + apply S13 in Hr. subst. auto. + apply S14 in Hr. subst. auto.
    - intros s t Hs K. unfold sb. destruct (sym_eq_dec s (SV x)) as [->|Nx].
      + rewrite sassoc_hd. rewrite upd_neq, upd_eq in K by congruence. injection K as <-. auto.
      + rewrite sassoc_tl by auto. destruct (sym_eq_dec s (SV y)) as [->|Ny].
        * rewrite sassoc_hd. rewrite upd_eq in K. injection K as <-. auto.
        * rewrite sassoc_tl by auto. rewrite !upd_neq in K by auto. simpl. rewrite !upd_neq; auto; intros ->; tauto. }
  assert (BSub : below (S (S n3)) (syms (substitute a5 sb))).
  { rewrite SB. intros s Hs. apply psub_syms in Hs as [Hs|(s' & u & [K|[K|[]]] & Hs)].
    - specialize (B5 _ Hs). lia. - inversion K; subst. apply S13 in Hs. subst. simpl. lia. - inversion K; subst. apply S14 in Hs. subst. simpl. lia. }
  assert (FSub : fresh_binders (SV n3 :: SV (S n3) :: X) (substitute a5 sb)).
  { rewrite SB. apply psub_fresh_plain; auto. eapply fresh_binders_add; [exact F5|]. intros s [<-|[<-|Hs]].
    - right. intros B. apply NX1, bsyms_syms, B. - right. intros B. apply NX2, bsyms_syms, B. - left. simpl. auto. }
  unfold checked in Hb15. inv_bind.
  set (out := PReduce a4 n3 (S n3) (substitute a5 sb) pr) in *.
  assert (WO : wt (SG G) out L).
  { unfold out. simpl. fold (wts (SG G)). split; auto. split; [apply flat_shallow, flat_ltype; auto|]. split; auto.
    exists el, els. split; [apply wts_Forall2; simpl in Hb11; rewrite <- Hb11; auto|]. split; auto. }
  assert (a16 = L) as -> by (apply wt_typ in WO; congruence).
  constructor.
  - lia.
  - eapply (relike_kept (fun e => below (S (S n3)) (syms e))); eauto; [intros; simpl; bl|]. unfold out. simpl. bl.
  - eapply (relike_kept (fresh_binders X)); eauto; simpl; auto. rewrite all_and_Forall.
    repeat match goal with |- _ /\ _ => split end; auto.
    + eapply below_notin; eauto. simpl. lia.
    + eapply below_notin; eauto. simpl. lia.
  - eapply relike_wt; eauto.
  - intros E v HE D. cbn [den] in D. inv_bind. rename a0 into us, a1 into ns.
    destruct ns as [|m ns]; [discriminate|]. inv_bind. rename a1 into v0.
    assert (UT : Forall2 (fun u t => has_type u t) us tv).
    { apply dens_mapM in Hb15. clear - Hb15 H8 HE. revert us Hb15. induction H8; intros us D; inversion D; subst; constructor; auto.
      eapply wt_value; eauto. }
    assert (VT0 : has_type v0 t0) by (apply (wt_value init G E t0 v0); auto).
    assert (DP : dens E pr (flat_map vall us)).
    { unfold pr. apply combine_den; auto; [apply dens_mapM; auto|]. clear - UT. induction UT; simpl; constructor; auto.
      rewrite dist_soa. apply H. }
    assert (NSm : Forall (fun k => k = m) (m :: ns)).
    { constructor; auto. apply Forall_forall. intros k Hk'. rewrite forallb_forall in Hb20. symmetry. apply Nat.eqb_eq. auto. }
    assert (NEus : flat_map vall us <> []).
    { destruct us as [|u us']; [simpl in Hb19; discriminate|]. simpl. intros K. apply app_eq_nil in K as [K _]. eapply vall_nonempty; eauto. }
    (* one step *)
    assert (STEP : forall k u w u', has_type u t0 -> w = ltuple (vall u) ->
      (let* es := mapM (fun u => vget u (Z.of_nat k)) us in
       match es with [] => Err EType | e0 :: es' => den (upd (upd E (SV x) u) (SV y) (fold_left VPair es' e0)) xy end) = Ok u' ->
      has_type u' t0 /\
      (let* es := mapM (fun u => vget u (Z.of_nat k)) (flat_map vall us) in
       match es with [] => Err EType | e0 :: es' => den (upd (upd E (SV n3) w) (SV (S n3)) (fold_left VPair es' e0)) (substitute a5 sb) end) =
      Ok (ltuple (vall u'))).
    { intros k u w u' Tu -> Du. inv_bind. destruct a1 as [|e0 es]; [discriminate|]. rename Hb22 into Hes.
      assert (Ty : has_type (fold_left VPair es e0) t0).
      { assert (K : Forall2 (fun e t => has_type e t) (e0 :: es) (x0 :: x1)).
        { unfold tv in UT. change (TVec x0 :: map TVec x1) with (map TVec (x0 :: x1)) in UT. apply mapM_Forall2 in Hes. clear - UT Hes.
          revert UT Hes. generalize (x0 :: x1) (e0 :: es). induction us as [|u us IH]; intros ts vs UT H; inversion H; subst.
          - destruct ts; [constructor|inversion UT].
          - destruct ts as [|t ts]; inversion UT; subst. constructor; [|apply IH; auto].
            destruct H5 as [W T]. pose proof (vget_typed u (Z.of_nat k) (dist t) W T) as V. rewrite H2 in V. exact V. }
        inversion K; subst. apply fold_pair_typed; auto. }
      set (uy := fold_left VPair es e0) in *.
      assert (HE2 : env_typed (upd (upd G (SV x) t0) (SV y) t0) (upd (upd E (SV x) u) (SV y) uy)).
      { apply env_typed_upd; auto. apply env_typed_upd; auto. }
      assert (Tu' : has_type u' t0) by (apply (wt_value xy _ _ t0 u' H7 HE2); auto).
      split; auto. rewrite (mapM_flat_vget _ _ _ Hes). cbn [bind].
      assert (LY : exists f0 fs, flat_map vall (e0 :: es) = f0 :: fs /\ fold_left VPair fs f0 = ltuple (vall uy)).
      { pose proof (ltuple_flat e0 es) as K. fold uy in K. destruct (flat_map vall (e0 :: es)) as [|f0 fs] eqn:Q.
        - exfalso. simpl in Q. apply app_eq_nil in Q as [Q _]. eapply vall_nonempty; eauto.
        - exists f0, fs. split; auto. }
      destruct LY as (f0 & fs & -> & ->).
      set (E2 := upd (upd E (SV n3) (ltuple (vall u))) (SV (S n3)) (ltuple (vall uy))).
      apply (subst_many a5 sb [u; uy]).
      - simpl. repeat constructor; simpl; intuition congruence.
      - simpl. rewrite (relike_den E2 U (p_var n3 L) u a13), (relike_den E2 U (p_var (S n3) L) uy a14); auto.
        + unfold U. rewrite dist_soa. apply Ty.
        + simpl. unfold E2. rewrite upd_eq. reflexivity.
        + unfold U. rewrite dist_soa. apply Tu.
        + simpl. unfold E2. rewrite upd_neq by (intros K; inversion K; lia). rewrite upd_eq. reflexivity.
      - intros s t Hs. apply NB. apply (in_map fst) in Hs. exact Hs.
      - intros s t r Hs Hr. apply free_syms in Hr. eapply (proj2 CL); eauto.
      - rewrite (coincidence a5 _ (upd (upd E (SV x) u) (SV y) uy)).
        + eapply into_leaves_den; [exact Hb5|exact FU| |apply (R5 _ u' HE2); auto]. unfold U. rewrite dist_soa. apply Tu'.
        + intros s Hs. apply free_syms in Hs. simpl. unfold E2. destruct (sym_eq_dec s (SV y)) as [->|Ny].
          * rewrite !upd_eq. reflexivity.
          * rewrite !(upd_neq _ (SV y)) by auto. destruct (sym_eq_dec s (SV x)) as [->|Nx]; [rewrite !upd_eq; reflexivity|].
            rewrite !upd_neq; auto; intros ->; auto. }
    assert (FIN : has_type v t0 /\ den E out = Ok (ltuple (vall v))).
    { destruct (iter_sim (fun u w => has_type u t0 /\ w = ltuple (vall u))
        (fun k v => let* es := mapM (fun u => vget u (Z.of_nat k)) us in
           match es with [] => Err EType | e0 :: es' => den (upd (upd E (SV x) v) (SV y) (fold_left VPair es' e0)) xy end)
        (fun k v => let* es := mapM (fun u => vget u (Z.of_nat k)) (flat_map vall us) in
           match es with [] => Err EType | e0 :: es' => den (upd (upd E (SV n3) v) (SV (S n3)) (fold_left VPair es' e0)) (substitute a5 sb) end)
        m 0 v0 (ltuple (vall v0)) v) as (w & K1 & K2 & ->); auto.
      - intros k u w u' [Tu Ew] Du. destruct (STEP k u w u' Tu Ew Du) as [K1 K2]. eauto.
      - split; auto. unfold out. cbn [den]. apply dens_mapM in DP. rewrite DP. cbn [bind].
        rewrite (mapM_flat_vdim m _ _ Hb19 NSm). cbn [bind].
        assert (DI : den E a4 = Ok (ltuple (vall v0))).
        { eapply into_leaves_den; [exact Hb4|exact FU| |apply P5; auto]. unfold U. rewrite dist_soa. apply VT0. }
        clear STEP. destruct (flat_map vall us) as [|f0 fs]; [congruence|]. cbn [map].
        assert (G1 : forallb (Nat.eqb m) (map (fun _ => m) fs) = true).
        { apply forallb_forall. intros k K. apply in_map_iff in K as (? & <- & _). apply Nat.eqb_refl. }
        rewrite G1. cbn [guard bind]. rewrite DI. cbn [bind]. exact K1. }
    destruct FIN as [Tv DO]. apply (relike_den E U out v e'); auto. unfold U. rewrite dist_soa. apply Tv.
Qed.
End Step.
End SoaReduce.
