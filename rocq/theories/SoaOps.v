(** Records taken apart and put together (structs.py:67-98, 115-135). *)
From Verif Require Import Base Scalar Tensor Types Sym Phi Den DenWf Term PhiTerm DenFree SpecPhi Lining LiningFacts TypesFacts Typing Naive Sizes Subst CodegenSub Soa SoaTyp.

Section SoaOps.
Context {FO : FloatOps} {EX : Externs}.

Notation int := (TScalar KInt).

(** ** Types *)
Fixpoint leaf_tys (t : ty) : list ty :=
  match t with TPair a b => leaf_tys a ++ leaf_tys b | _ => [t] end.

Lemma in_tuple_wt G t : forall sub, wt G sub t -> Forall2 (wt G) (in_tuple t sub) (leaf_tys t).
Proof.
  induction t as [k|e _|a IHa b IHb]; intros sub W; simpl; auto.
  apply Forall2_app; [apply IHa|apply IHb]; simpl; eauto.
Qed.

Lemma fold_cons_wt G args : forall ts a t, wt G a t -> Forall2 (wt G) args ts ->
  wt G (fold_left PCons args a) (fold_left TPair ts t).
Proof.
  induction args as [|x args IH]; intros ts a t W H; inversion H; subst; simpl; auto.
  apply IH; auto. simpl. eauto.
Qed.

Lemma into_tuple_wt G args ts e : Forall2 (wt G) args ts -> into_tuple args = Ok e ->
  exists t0 ts', ts = t0 :: ts' /\ wt G e (fold_left TPair ts' t0).
Proof.
  intros H Q. inversion H; subst; simpl in Q; [discriminate|]. injection Q as <-.
  do 2 eexists. split; [reflexivity|]. apply fold_cons_wt; auto.
Qed.

Lemma into_tuple_rec_wt G t : forall args ts e rest, into_tuple_rec t args = Ok (e, rest) ->
  Forall2 (wt G) args (leaf_tys t ++ ts) -> wt G e t /\ Forall2 (wt G) rest ts.
Proof.
  induction t as [k|el _|a IHa b IHb]; intros args ts e rest Q H; simpl in Q, H.
  1, 2: inversion H; subst; injection Q as <- <-; auto.
  inv_bind. destruct a0 as [e1 r1]. simpl in *. rewrite <- app_assoc in H.
  destruct (IHa _ _ _ _ Hb H) as [W1 H1]. destruct a1 as [e2 r2]. destruct (IHb _ _ _ _ Hb0 H1) as [W2 H2]. simpl in *.
  split; auto. exists a, b. auto.
Qed.

Lemma into_tuple_like_wt G t args e : into_tuple_like t args = Ok e -> Forall2 (wt G) args (leaf_tys t) -> wt G e t.
Proof.
  unfold into_tuple_like. intros Q H. inv_bind. destruct a as [e rest].
  apply (into_tuple_rec_wt G t args [] e rest); auto. rewrite app_nil_r. auto.
Qed.

Lemma tuple_get_wt G it t : wt G it int -> forall sub r, wt G sub t -> typ (tuple_get t sub it) = Ok r -> wt G (tuple_get t sub it) r.
Proof.
  intros WI. induction t as [k|e _|a IHa b IHb]; intros sub r W T; simpl in T.
  - rewrite (wt_typ _ _ _ W) in T. inv_bind; try discriminate.
  - rewrite (wt_typ _ _ _ W), (wt_typ _ _ _ WI) in T. simpl in T. injection T as <-. simpl. auto.
  - inv_bind. simpl. exists a0, a1. split; auto. split; [apply IHa|apply IHb]; simpl; eauto.
Qed.

Lemma tuple_cat_wt G t : forall s1 s2 r, wt G s1 t -> wt G s2 t -> typ (tuple_cat t s1 s2) = Ok r -> wt G (tuple_cat t s1 s2) r.
Proof.
  induction t as [k|e _|a IHa b IHb]; intros s1 s2 r W1 W2 T; simpl in T.
  - rewrite (wt_typ _ _ _ W1) in T. inv_bind; try discriminate.
  - rewrite (wt_typ _ _ _ W1), (wt_typ _ _ _ W2) in T. simpl in T. rewrite ty_eqb_refl in T. simpl in T. injection T as <-. simpl. eauto.
  - inv_bind. simpl. exists a0, a1. split; auto. split; [apply IHa|apply IHb]; simpl; eauto.
Qed.

Lemma tuple_dim_wt G axis t : forall sub, wt G sub t -> Forall (fun d => wt G d int) (tuple_dim t sub axis).
Proof.
  induction t as [k|e _|a IHa b IHb]; intros sub W; simpl.
  1, 2: constructor; auto; simpl; eauto.
  apply Forall_app. split; [apply IHa|apply IHb]; simpl; eauto.
Qed.

(** ** Properties kept by construction *)
Section Kept.
Variable P : phi -> Prop.
Hypothesis P1 : forall e, P e -> P (PFirst e).
Hypothesis P2 : forall e, P e -> P (PSecond e).
Hypothesis PC : forall a b, P a -> P b -> P (PCons a b).

Lemma in_tuple_kept t : forall sub, P sub -> Forall P (in_tuple t sub).
Proof using P1 P2. clear PC. induction t; intros sub H; simpl; auto. apply Forall_app. auto. Qed.

Lemma into_tuple_kept args e : into_tuple args = Ok e -> Forall P args -> P e.
Proof using PC.
  clear P1 P2. destruct args as [|a args]; simpl; [discriminate|]. intros Q H. injection Q as <-. inversion H; subst.
  clear H. revert a H2. induction args; intros b Hb; simpl; auto. inversion H3; subst. auto.
Qed.

Lemma into_tuple_rec_kept t : forall args e rest, into_tuple_rec t args = Ok (e, rest) -> Forall P args -> P e /\ Forall P rest.
Proof using PC.
  clear P1 P2. induction t as [k|el _|a IHa b IHb]; intros args e rest Q H; simpl in Q.
  1, 2: destruct args; [discriminate|]; injection Q as <- <-; inversion H; auto.
  inv_bind. destruct a0 as [e1 r1], a1 as [e2 r2]. simpl in *. destruct (IHa _ _ _ Hb H). destruct (IHb _ _ _ Hb0 H1). auto.
Qed.

Lemma into_tuple_like_kept t args e : into_tuple_like t args = Ok e -> Forall P args -> P e.
Proof using PC. unfold into_tuple_like. intros Q H. inv_bind. destruct a. eapply into_tuple_rec_kept; eauto. Qed.

Lemma tuple_get_kept t it : (forall e, P e -> P (PGet e it)) -> forall sub, P sub -> P (tuple_get t sub it).
Proof using P1 P2 PC. intros PG. induction t; intros sub H; simpl; auto. Qed.

Lemma tuple_cat_kept t : (forall a b, P a -> P b -> P (PConcat a b)) -> forall s1 s2, P s1 -> P s2 -> P (tuple_cat t s1 s2).
Proof using P1 P2 PC. intros PG. induction t; intros s1 s2 H1 H2; simpl; auto. Qed.

Lemma tuple_dim_kept t axis : (forall e, P e -> P (PDim e axis)) -> forall sub, P sub -> Forall P (tuple_dim t sub axis).
Proof using P1 P2. clear PC. intros PG. induction t; intros sub H; simpl; auto. apply Forall_app. auto. Qed.
End Kept.

(** ** Values *)
Fixpoint vleaves (t : ty) (v : val) : list val :=
  match t, v with TPair a b, VPair v w => vleaves a v ++ vleaves b w | _, _ => [v] end.
Fixpoint vall (v : val) : list val :=
  match v with VPair v w => vall v ++ vall w | _ => [v] end.

Lemma vtype_pair v a b : vtype v = TPair a b -> exists v1 v2, v = VPair v1 v2 /\ vtype v1 = a /\ vtype v2 = b.
Proof.
  destruct v as [x|v1 v2]; simpl; intros H.
  - exfalso. eapply ndarray_not_pair; eauto.
  - injection H as <- <-. eauto.
Qed.

Lemma dist_nopair t : has_pair t = false -> dist t = t.
Proof.
  induction t as [k|e IH|a _ b _]; simpl; intros H; auto; [|discriminate]. rewrite IH by auto.
  destruct e; auto. discriminate.
Qed.

Lemma vleaves_flat t : flat t = true -> forall v, vtype v = dist t -> vleaves t v = vall v.
Proof.
  induction t as [k|e _|a IHa b IHb]; intros F v T; simpl in F.
  - destruct v; [reflexivity|discriminate].
  - apply negb_true_iff in F. rewrite dist_nopair in T by auto. destruct v; [reflexivity|discriminate].
  - apply andb_true_iff in F as [F1 F2]. apply vtype_pair in T as (v1 & v2 & -> & T1 & T2). simpl. rewrite IHa, IHb; auto.
Qed.

Definition dens (E : env) : list phi -> list val -> Prop := Forall2 (fun e v => den E e = Ok v).

Lemma in_tuple_den E t : forall sub v, den E sub = Ok v -> vtype v = dist t -> dens E (in_tuple t sub) (vleaves t v).
Proof.
  induction t as [k|e _|a IHa b IHb]; intros sub v D T; simpl.
  1, 2: constructor; auto; constructor.
  apply vtype_pair in T as (v1 & v2 & -> & T1 & T2).
  apply Forall2_app; [apply IHa|apply IHb]; auto; simpl; rewrite D; reflexivity.
Qed.

Lemma fold_cons_den E args : forall vs a v, den E a = Ok v -> dens E args vs ->
  den E (fold_left PCons args a) = Ok (fold_left VPair vs v).
Proof.
  induction args as [|x args IH]; intros vs a v D H; inversion H; subst; simpl; auto.
  apply IH; auto. simpl. rewrite D, H2. reflexivity.
Qed.

Definition ltuple (vs : list val) : val :=
  match vs with [] => VPair (vint 0) (vint 0) | v :: vs => fold_left VPair vs v end.

Lemma into_tuple_den E args vs e : dens E args vs -> into_tuple args = Ok e -> den E e = Ok (ltuple vs).
Proof.
  intros H Q. inversion H; subst; simpl in Q; [discriminate|]. injection Q as <-. apply fold_cons_den; auto.
Qed.

Lemma into_tuple_rec_den E t : forall args ws v e rest, into_tuple_rec t args = Ok (e, rest) ->
  vtype v = dist t -> dens E args (vleaves t v ++ ws) -> den E e = Ok v /\ dens E rest ws.
Proof.
  induction t as [k|el _|a IHa b IHb]; intros args ws v e rest Q T H; simpl in Q, H.
  1, 2: inversion H; subst; injection Q as <- <-; auto.
  apply vtype_pair in T as (v1 & v2 & -> & T1 & T2). inv_bind. destruct a0 as [e1 r1], a1 as [e2 r2]. simpl in *.
  rewrite <- app_assoc in H. destruct (IHa _ _ _ _ _ Hb T1 H) as [D1 H1]. destruct (IHb _ _ _ _ _ Hb0 T2 H1) as [D2 H2].
  split; auto. rewrite D1, D2. reflexivity.
Qed.

Lemma into_tuple_like_den E t args v e : into_tuple_like t args = Ok e ->
  vtype v = dist t -> dens E args (vleaves t v) -> den E e = Ok v.
Proof.
  unfold into_tuple_like. intros Q T H. inv_bind. destruct a as [e rest].
  apply (into_tuple_rec_den E t args [] v e rest); auto. rewrite app_nil_r. auto.
Qed.

(** Left-nested records of arrays. *)
Lemma vleaves_ltuple ts : forall vs t0 v0, length ts = length vs ->
  Forall (fun t => leaf_tys t = [t]) (t0 :: ts) ->
  vleaves (fold_left TPair ts t0) (fold_left VPair vs v0) = v0 :: vs.
Proof.
  induction ts as [|t ts IH] using rev_ind; intros vs t0 v0 L H.
  - destruct vs; [|discriminate]. simpl. inversion H; subst. destruct t0 as [| |a b]; auto.
    exfalso. simpl in H2. destruct (leaf_tys a) as [|x [|y l]] eqn:Q; simpl in H2; try discriminate.
    + destruct a; simpl in Q; try discriminate. apply app_eq_nil in Q as [Q _]. clear - Q. induction a1; simpl in Q; try discriminate.
      apply app_eq_nil in Q as [Q _]. auto.
    + clear - H2. injection H2 as _ Q. induction b; simpl in Q; try discriminate. apply app_eq_nil in Q as [Q _]. auto.
  - rewrite app_length in L. simpl in L. destruct (exists_last (l := vs)) as (vs' & w & ->).
    { destruct vs; simpl in *; [lia|discriminate]. }
    rewrite app_length in L. simpl in L. rewrite !fold_left_app. simpl. rewrite IH; [|lia|].
    + simpl. f_equal. f_equal. assert (Q : leaf_tys t = [t]).
      { rewrite Forall_forall in H. apply H. right. apply in_or_app. simpl. auto. }
      destruct t as [| |a b]; auto. exfalso. clear - Q. simpl in Q.
      destruct (leaf_tys a) as [|x [|y l]] eqn:E; simpl in Q; try discriminate.
      * clear - E. induction a; simpl in E; try discriminate. apply app_eq_nil in E as [E _]. auto.
      * injection Q as _ Q. clear - Q. induction b; simpl in Q; try discriminate. apply app_eq_nil in Q as [Q _]. auto.
    + rewrite Forall_forall in *. intros x [<-|Hx]; apply H; [left|right; apply in_or_app]; auto.
Qed.

Lemma leaf_tys_leaf t : Forall (fun x => leaf_tys x = [x]) (leaf_tys t).
Proof. induction t; simpl; auto. apply Forall_app. auto. Qed.

Lemma leaf_tys_flat t : flat t = true -> Forall (fun x => flat x = true) (leaf_tys t).
Proof.
  induction t as [k|e _|a IHa b IHb]; simpl; intros H; auto. apply andb_true_iff in H as [H1 H2]. apply Forall_app. auto.
Qed.

Lemma vall_len t : flat t = true -> forall v, vtype v = dist t -> length (vall v) = length (leaf_tys t).
Proof.
  induction t as [k|e _|a IHa b IHb]; intros F v T; simpl in F.
  - destruct v; [reflexivity|discriminate].
  - apply negb_true_iff in F. rewrite dist_nopair in T by auto. destruct v; [reflexivity|discriminate].
  - apply andb_true_iff in F as [F1 F2]. apply vtype_pair in T as (v1 & v2 & -> & T1 & T2). simpl. rewrite !app_length, IHa, IHb; auto.
Qed.

Lemma vall_nonempty v : vall v <> [].
Proof. induction v; simpl; [discriminate|]. intros H. apply app_eq_nil in H as [H _]. auto. Qed.

Lemma vall_fold es : forall e0, vall (fold_left VPair es e0) = vall e0 ++ flat_map vall es.
Proof.
  induction es as [|e es IH]; intros e0; simpl; [rewrite app_nil_r; auto|]. rewrite IH. simpl. rewrite app_assoc. reflexivity.
Qed.

Lemma vget_vall z v : forall w, vget v z = Ok w -> mapM (fun u => vget u z) (vall v) = Ok (vall w).
Proof.
  induction v as [a|v1 IH1 v2 IH2]; simpl; intros w H; inv_bind.
  - simpl. rewrite Hb. reflexivity.
  - simpl. rewrite mapM_app. rewrite (IH1 _ Hb), (IH2 _ Hb0). reflexivity.
Qed.

Lemma vdim_vall ax v : forall n, vdim v ax = Ok n -> Forall (fun u => vdim u ax = Ok n) (vall v).
Proof.
  induction v as [a|v1 IH1 v2 IH2]; simpl; intros n H.
  - constructor; auto.
  - inv_bind. apply Nat.eqb_eq in Hb1; subst. apply Forall_app. auto.
Qed.

Lemma tuple_get_den E it w z t : den E it = Ok w -> val_int w = Ok z -> forall sub v r,
  den E sub = Ok v -> vtype v = dist t -> vget v z = Ok r -> den E (tuple_get t sub it) = Ok r.
Proof.
  intros DI ZI. induction t as [k|e _|a IHa b IHb]; intros sub v r D T V; simpl.
  1, 2: rewrite D, DI; simpl; rewrite ZI; exact V.
  apply vtype_pair in T as (v1 & v2 & -> & T1 & T2). simpl in V. inv_bind.
  rewrite (IHa (PFirst sub) v1 a0), (IHb (PSecond sub) v2 a1); auto; simpl; rewrite D; reflexivity.
Qed.

Lemma tuple_cat_den E t : forall s1 s2 v1 v2 r, den E s1 = Ok v1 -> den E s2 = Ok v2 ->
  vtype v1 = dist t -> vtype v2 = dist t -> vconcat v1 v2 = Ok r -> den E (tuple_cat t s1 s2) = Ok r.
Proof.
  induction t as [k|e _|a IHa b IHb]; intros s1 s2 v1 v2 r D1 D2 T1 T2 V; simpl.
  1, 2: rewrite D1, D2; exact V.
  apply vtype_pair in T1 as (u1 & u2 & -> & U1 & U2). apply vtype_pair in T2 as (w1 & w2 & -> & W1 & W2). simpl in V. inv_bind.
  rewrite (IHa (PFirst s1) (PFirst s2) u1 w1 a0), (IHb (PSecond s1) (PSecond s2) u2 w2 a1); auto; simpl; rewrite ?D1, ?D2; reflexivity.
Qed.

Lemma tuple_dim_den E ax n t : forall sub v, den E sub = Ok v -> vtype v = dist t -> vdim v ax = Ok n ->
  Forall (fun d => den E d = Ok (vnat n)) (tuple_dim t sub ax).
Proof.
  induction t as [k|e _|a IHa b IHb]; intros sub v D T V; simpl.
  1, 2: constructor; auto; simpl; rewrite D; simpl; rewrite V; reflexivity.
  apply vtype_pair in T as (v1 & v2 & -> & T1 & T2). simpl in V. inv_bind. apply Nat.eqb_eq in Hb1; subst.
  apply Forall_app. split; [eapply IHa|eapply IHb]; eauto; simpl; rewrite D; reflexivity.
Qed.

Lemma tuple_dim_nonempty t : forall sub ax, tuple_dim t sub ax <> [].
Proof. induction t; simpl; intros; try discriminate. intros H. apply app_eq_nil in H as [H _]. eapply IHt1; eauto. Qed.

End SoaOps.
