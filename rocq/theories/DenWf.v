(** Values computed by [den] are well formed, and the laws of comprehensions. *)
From Verif Require Import Base Scalar Tensor Types Sym Phi Den Typing.

Section DenWf.
Context {FO : FloatOps} {EX : Externs}.

Definition env_wf (E : env) : Prop := forall s v, E s = Some v -> val_wf v.

(** Embedded constants are proper arrays, extrinsic functions return proper
    arrays. *)
Fixpoint consts_wf (e : phi) : Prop :=
  let all (l : list phi) := fold_right and True (map consts_wf l) in
  match e with
  | PConst a => arr_wf a
  | PStore _ _ => True
  | PLet _ b body => consts_wf b /\ consts_wf body
  | PAssertEq t ops => consts_wf t /\ all ops
  | PDim t _ => consts_wf t
  | PGet t i => consts_wf t /\ consts_wf i
  | PCons a b => consts_wf a /\ consts_wf b
  | PFirst t | PSecond t => consts_wf t
  | PVec _ s b => consts_wf s /\ consts_wf b
  | PFold _ s _ init b => consts_wf s /\ consts_wf init /\ consts_wf b
  | PReduce init _ _ xy vecs => consts_wf init /\ consts_wf xy /\ all vecs
  | PUn _ a => consts_wf a
  | PBin _ a b => consts_wf a /\ consts_wf b
  | PWhere c a b => consts_wf c /\ consts_wf a /\ consts_wf b
  | PConcat a b => consts_wf a /\ consts_wf b
  | PExt t f ops => all ops /\ (forall l a, ext_call f l = Ok a -> arr_wf a)
  end.

Lemma env_wf_upd E s v : env_wf E -> val_wf v -> env_wf (upd E s v).
Proof.
  intros H W r w. unfold upd. destruct (sym_eqb r s); intros Hr; [injection Hr as <-; auto|eauto].
Qed.

Lemma mapM_all {A B} (f : A -> res B) (P : B -> Prop) l ys :
  mapM f l = Ok ys -> (forall x y, In x l -> f x = Ok y -> P y) -> Forall P ys.
Proof.
  revert ys. induction l as [|x l IH]; simpl; intros ys H Hf; inv_bind; constructor; eauto.
Qed.

Lemma iter_res_inv {A} (P : A -> Prop) (f : nat -> A -> res A) n : forall k a b,
  P a -> (forall j c d, P c -> f j c = Ok d -> P d) -> iter_res f k n a = Ok b -> P b.
Proof.
  induction n as [|n IH]; simpl; intros k a b Ha Hf H; inv_bind; auto.
  eapply IH; [|eauto|eauto]. eauto.
Qed.

Lemma aget_wf a z b : arr_wf a -> aget a z = Ok b -> arr_wf b.
Proof.
  intros W. unfold aget. destruct (ashape a) eqn:E; simpl; intros H; inv_bind.
  apply tab_wf. intros idx _. apply get_kind_any; auto.
Qed.

Lemma vget_wf v : forall z w, val_wf v -> vget v z = Ok w -> val_wf w.
Proof.
  induction v as [a|v1 IH1 v2 IH2]; simpl; intros z w W H; inv_bind; simpl.
  - eapply aget_wf; eauto.
  - destruct W. split; eauto.
Qed.

Lemma as_arr_inv v a : as_arr v = Ok a -> v = VArr a.
Proof. destruct v; simpl; intros H; inv_bind; congruence. Qed.

Lemma as_pair_inv v p : as_pair v = Ok p -> v = VPair (fst p) (snd p).
Proof. destruct v; simpl; intros H; inv_bind; reflexivity. Qed.

Lemma mapM_as_arr vs l : mapM as_arr vs = Ok l -> vs = map VArr l.
Proof.
  revert l. induction vs as [|v vs IH]; simpl; intros l H; inv_bind; auto.
  apply as_arr_inv in Hb. simpl. f_equal; auto.
Qed.

Lemma mapM_as_pair vs ps : mapM as_pair vs = Ok ps -> vs = map (fun p => VPair (fst p) (snd p)) ps.
Proof.
  revert ps. induction vs as [|v vs IH]; simpl; intros l H; inv_bind; auto.
  apply as_pair_inv in Hb. simpl. f_equal; auto.
Qed.

Lemma vstack_wf t : forall vs v, Forall val_wf vs -> vstack t vs = Ok v -> val_wf v.
Proof.
  induction t as [a|t1 IH1 t2 IH2]; simpl; intros vs v W H; inv_bind; simpl.
  - apply mapM_as_arr in Hb. subst vs. apply astack_wf. apply Forall_forall. intros b Hin.
    rewrite Forall_forall in W. rewrite forallb_forall in Hb0.
    specialize (Hb0 b Hin). apply arr_like_true in Hb0 as [? ?].
    specialize (W (VArr b) (in_map _ _ _ Hin)). auto.
  - apply mapM_as_pair in Hb. subst vs. rewrite Forall_map in W. split.
    + eapply IH1; [|eauto]. apply Forall_map. revert W. apply Forall_impl. simpl. tauto.
    + eapply IH2; [|eauto]. apply Forall_map. revert W. apply Forall_impl. simpl. tauto.
Qed.

Lemma aconcat_wf a b c : arr_wf a -> arr_wf b -> aconcat a b = Ok c -> arr_wf c.
Proof.
  unfold aconcat. intros Wa Wb H. destruct (ashape a), (ashape b); inv_bind; try discriminate.
  apply kind_eqb_eq in Hb0. apply tab_wf. intros [|k idx] _; [apply skind_sjunk|].
  destruct (k <? n); [|rewrite Hb0]; apply get_kind_any; auto.
Qed.

Lemma vconcat_wf v : forall w u, val_wf v -> val_wf w -> vconcat v w = Ok u -> val_wf u.
Proof.
  induction v as [a|v1 IH1 v2 IH2]; intros [b|w1 w2] u Wv Ww H; simpl in *; inv_bind; simpl; try discriminate.
  - eapply aconcat_wf; [| |eauto]; auto.
  - destruct Wv, Ww. eauto.
Qed.

Lemma vscalar_wf s : val_wf (vscalar s).
Proof. apply ascalar_wf. Qed.

Lemma fold_pair_wf es : forall e0, val_wf e0 -> Forall val_wf es -> val_wf (fold_left VPair es e0).
Proof.
  induction es as [|e es IH]; simpl; intros e0 H0 H; auto. inversion H; subst.
  apply IH; simpl; auto.
Qed.

Lemma den_wf (e : phi) : forall E v, consts_wf e -> env_wf E -> den E e = Ok v -> val_wf v.
Proof.
  induction e using phi_ind'; intros E v C W H'; simpl in C; rewrite ?all_and_Forall in C;
    cbn [den] in H'; try rewrite Forall_forall in H.
  - inv_bind. auto.
  - inv_bind. eauto.
  - inv_bind. destruct C. eapply IHe2; [auto| |eauto]. apply env_wf_upd; eauto.
  - inv_bind. destruct C. eauto.
  - inv_bind. apply vscalar_wf.
  - inv_bind. destruct C. eapply vget_wf; [|eauto]. eauto.
  - inv_bind. destruct C. simpl. eauto.
  - inv_bind. apply as_pair_inv in Hb0. subst a. apply IHe in Hb; auto. simpl in Hb. tauto.
  - inv_bind. apply as_pair_inv in Hb0. subst a. apply IHe in Hb; auto. simpl in Hb. tauto.
  - inv_bind. destruct C. eapply vstack_wf; [|eauto]. eapply mapM_all; [eauto|].
    intros k w _ Hw. cbv beta in Hw. eapply IHe2; [| |eauto]; auto. apply env_wf_upd; auto. apply vscalar_wf.
  - inv_bind. destruct C as (C1 & C2 & C3).
    eapply (iter_res_inv val_wf); [eapply IHe2; [| |eauto]; auto| |eauto].
    intros j c0 d Hc Hd. cbv beta in Hd. eapply IHe3; [| |eauto]; auto.
    repeat apply env_wf_upd; auto. apply vscalar_wf.
  - inv_bind. destruct C as (C1 & C2 & C3). rewrite Forall_forall in C3.
    assert (Wv : Forall val_wf a). { eapply mapM_all; [eauto|]. intros u w Hu Hw. eapply H; eauto. }
    destruct a0 as [|n ns]; [discriminate|]. inv_bind.
    eapply (iter_res_inv val_wf); [eapply IHe1; [| |eauto]; auto| |eauto].
    intros j c0 d Hc Hd. cbv beta in Hd. inv_bind.
    assert (We : Forall val_wf a2).
    { eapply mapM_all; [eauto|]. intros u w Hu Hw. cbv beta in Hw. rewrite Forall_forall in Wv. eapply vget_wf; [|eauto]; auto. }
    destruct a2 as [|e0 es]; [discriminate|]. inversion We; subst.
    eapply IHe2; [| |eauto]; auto. repeat apply env_wf_upd; auto. apply fold_pair_wf; auto.
  - inv_bind. unfold lift1 in Hk. inv_bind. apply vscalar_wf.
  - inv_bind. unfold lift2 in Hk0. inv_bind. apply vscalar_wf.
  - inv_bind. unfold lift3 in *. inv_bind. apply vscalar_wf.
  - inv_bind. destruct C. eapply vconcat_wf; [| |eauto]; eauto.
  - inv_bind. destruct C. simpl. eauto.
Qed.

Lemma nth_map_lt {A B} (f : A -> B) l k d d' : k < length l -> nth k (map f l) d' = f (nth k l d).
Proof. revert k. induction l; simpl; intros [|k] H; try lia; auto. apply IHl. lia. Qed.

(** Element and size of a stack. *)
Lemma vget_vstack t : forall vs v k d,
  Forall val_wf vs -> vstack t vs = Ok v -> k < length vs -> vget v (Z.of_nat k) = Ok (nth k vs d).
Proof.
  induction t as [a|t1 IH1 t2 IH2]; simpl; intros vs v k d W H Hk; inv_bind.
  - apply mapM_as_arr in Hb. subst vs. rewrite map_length in Hk. simpl. unfold aget.
    cbn [astack ashape tab]. rewrite clip_id by auto. cbn [bind].
    rewrite asub_astack; auto.
    + f_equal. rewrite (nth_map_lt _ _ _ (mkArr (akind a) (ashape a) [])) by auto. reflexivity.
    + apply Forall_forall. intros b Hin. rewrite forallb_forall in Hb0. specialize (Hb0 b Hin).
      apply arr_like_true in Hb0 as [? ?]. rewrite Forall_forall in W.
      specialize (W (VArr b) (in_map _ _ _ Hin)). auto.
  - apply mapM_as_pair in Hb. subst vs. rewrite map_length in Hk. rewrite Forall_map in W. simpl.
    rewrite (IH1 (map fst a) a0 k (VArr (mkArr KInt [] []))); auto.
    + rewrite (IH2 (map snd a) a1 k (VArr (mkArr KInt [] []))); auto.
      * simpl. f_equal.
        rewrite !(nth_map_lt _ _ _ (VArr (mkArr KInt [] []), VArr (mkArr KInt [] []))) by auto.
        reflexivity.
      * apply Forall_map. revert W. apply Forall_impl. simpl. tauto.
      * rewrite map_length; auto.
    + apply Forall_map. revert W. apply Forall_impl. simpl. tauto.
    + rewrite map_length; auto.
Qed.

Lemma vdim_vstack t : forall vs v, vstack t vs = Ok v -> vdim v 0 = Ok (length vs).
Proof.
  induction t as [a|t1 IH1 t2 IH2]; simpl; intros vs v H; inv_bind.
  - apply mapM_as_arr in Hb. subst vs. simpl. rewrite map_length. reflexivity.
  - apply mapM_as_pair in Hb. subst vs. simpl. rewrite (IH1 _ _ Hb0), (IH2 _ _ Hb1).
    simpl. rewrite !map_length, Nat.eqb_refl. reflexivity.
Qed.

(** The values can be stacked: same structure, kinds and shapes. *)
Fixpoint vlike (v w : val) : bool :=
  match v, w with
  | VArr a, VArr b => arr_like a b
  | VPair v1 v2, VPair w1 w2 => vlike v1 w1 && vlike v2 w2
  | _, _ => false
  end.

Lemma vstack_defined t : forall vs, Forall (fun v => vlike t v = true) vs -> exists v, vstack t vs = Ok v.
Proof.
  induction t as [a|t1 IH1 t2 IH2]; intros vs H; cbn [vstack].
  - assert (exists l, vs = map VArr l /\ forallb (arr_like a) l = true) as (l & -> & Hl).
    { induction H as [|v vs Hv H (l & -> & Hl)]; [exists []; auto|].
      destruct v as [b|]; [|discriminate]. exists (b :: l). simpl in *. rewrite Hv, Hl. auto. }
    rewrite mapM_map. cbn [as_arr]. rewrite (mapM_Ok (fun x => x)), map_id. cbn [bind].
    rewrite Hl. cbn [guard bind]. eauto.
  - assert (exists ps, vs = map (fun p => VPair (fst p) (snd p)) ps /\
              Forall (fun v => vlike t1 v = true) (map fst ps) /\
              Forall (fun v => vlike t2 v = true) (map snd ps)) as (ps & -> & H1 & H2).
    { induction H as [|v vs Hv H (l & -> & H1 & H2)]; [exists []; simpl; auto|].
      destruct v as [|v1 v2]; [discriminate|]. exists ((v1, v2) :: l). simpl in *.
      apply andb_true_iff in Hv as [? ?]. auto. }
    rewrite mapM_map. cbn [as_pair]. rewrite (mapM_Ok (fun p => (fst p, snd p))). cbn [bind].
    rewrite !map_map. cbn [fst snd]. change (fun x : val * val => fst x) with (@fst val val). change (fun x : val * val => snd x) with (@snd val val).
    destruct (IH1 _ H1) as [v ->], (IH2 _ H2) as [w ->]. simpl. eauto.
Qed.

End DenWf.
