(** ein/codegen/phi_to_yarr.py:318-345: removal of shape and tuple operations
    that do nothing. *)
From Verif Require Import Base Scalar Tensor Types Sym Phi Den NdOps Term PhiTerm NdFacts DenWf Yarr YTerm YWf.

Section Cancel.
Context {FO : FloatOps} {EX : Externs} {PO : PadOps}.

(** phi_to_yarr.py:318-333 [cancel_shape_ops] *)
Fixpoint cancel_shape_ops (e : yarr) : yarr :=
  match e with
  | YTranspose pi t =>
      if list_nat_eqb pi (seq 0 (length pi)) then cancel_shape_ops t else ymap cancel_shape_ops e
  | YUnsqueeze axes t =>
      match axes with [] => cancel_shape_ops t | _ => ymap cancel_shape_ops e end
  | YSqueeze axes t =>
      match axes with [] => cancel_shape_ops t | _ => ymap cancel_shape_ops e end
  | _ => ymap cancel_shape_ops e
  end.

(** phi_to_yarr.py:336-345 [cancel_tuple_ops].  An Untuple out of range cannot be
    built (yarr.py:701-704). *)
Fixpoint cancel_tuple_ops (e : yarr) : yarr :=
  match e with
  | YUntuple p _ (YTuple elems) =>
      match nth_error (map cancel_tuple_ops elems) p with
      | Some r => r
      | None => ymap cancel_tuple_ops e
      end
  | _ => ymap cancel_tuple_ops e
  end.

(** * Replacing subterms by better-defined ones *)

Lemma ref_iter_wf (f g : nat -> yval -> res yval) n : forall k a,
  (forall j b, yval_wf b -> ref (f j b) (g j b)) ->
  (forall j b c, yval_wf b -> f j b = Ok c -> yval_wf c) ->
  yval_wf a -> ref (iter_res f k n a) (iter_res g k n a).
Proof.
  induction n as [|n IH]; simpl; intros k a H HP W; [apply ref_refl|].
  intros v Hv. apply bind_ok in Hv as (b & Hb & Hv).
  rewrite (H k a W b Hb). simpl. apply (IH (S k) b H HP); auto. apply (HP k a); auto.
Qed.

Lemma ref_tree_wf get1 get2 ax fuel :
  (forall p q, Forall arr_wf p -> Forall arr_wf q -> ref (get1 p q) (get2 p q)) ->
  (forall p q r, Forall arr_wf p -> Forall arr_wf q -> get1 p q = Ok r -> Forall arr_wf r) ->
  forall n vals acc, Forall arr_wf vals -> Forall arr_wf acc ->
  ref (tree_loop get1 ax fuel n vals acc) (tree_loop get2 ax fuel n vals acc).
Proof.
  intros H HP. induction fuel as [|fuel IH]; intros n vals acc Wv Wa r Hr; [discriminate|]. simpl in *.
  assert (P : forall f l, mapM (pick ax f) vals = Ok l -> Forall arr_wf l).
  { intros f l Hl. apply (mapM_wf _ _ _ (fun a b W E => nd_pick_wf _ _ a b W E) Wv Hl). }
  destruct (1 <? n).
  - apply bind_ok in Hr as (ac & Hac & Hr). apply bind_ok in Hr as (p & Hp & Hr).
    apply bind_ok in Hr as (q & Hq & Hr). apply bind_ok in Hr as (vs & Hvs & Hr).
    assert (X : (if Nat.odd n then let* l := mapM (pick ax (fun d => [d - 1])) vals in get2 l acc
                 else Ok acc) = Ok ac /\ Forall arr_wf ac).
    { destruct (Nat.odd n).
      - apply bind_ok in Hac as (l & Hl & Hac). rewrite Hl. simpl. split.
        + refine (H l acc _ Wa _ Hac). eauto.
        + apply (HP l acc); eauto.
      - injection Hac as <-. auto. }
    destruct X as [X Wac]. rewrite X. simpl. rewrite Hp. simpl. rewrite Hq. simpl.
    rewrite (H p q (P _ _ Hp) (P _ _ Hq) vs Hvs). simpl. refine (IH _ _ _ _ Wac _ Hr).
    apply (HP p q); eauto.
  - destruct (n =? 1); [|exact Hr]. apply bind_ok in Hr as (l & Hl & Hr). rewrite Hl. simpl.
    refine (H l acc _ Wa _ Hr). eauto.
Qed.

Lemma ref_reduce_wf run1 run2 ax acc vals :
  (forall a b, yval_wf a -> yval_wf b -> ref (run1 a b) (run2 a b)) ->
  (forall a b w, yval_wf a -> yval_wf b -> run1 a b = Ok w -> yval_wf w) ->
  yval_wf acc -> yval_wf vals ->
  ref (reduce_call run1 ax acc vals) (reduce_call run2 ax acc vals).
Proof.
  intros H HP Wa Wv v Hv. unfold reduce_call in *.
  set (sg := match vals with YA _ => true | _ => false end) in *.
  apply bind_ok in Hv as (vs & Hvs & Hv). apply bind_ok in Hv as (ac & Hac & Hv).
  apply bind_ok in Hv as (ns & Hns & Hv). rewrite Hvs, Hac. cbn [bind]. rewrite Hns. cbn [bind].
  destruct ns as [|n ns]; [discriminate|].
  apply bind_ok in Hv as (u & Hu & Hv). apply bind_ok in Hv as (ac1 & H1 & Hv).
  apply bind_ok in Hv as (ac2 & H2 & Hv). rewrite Hu. cbn [bind]. rewrite H1. cbn [bind].
  apply wrap_wf in Hvs, Hac; auto.
  pose proof (mapM_wf _ _ _ (fun a b W E => nd_unsqueeze_wf _ a b W E) Hac H1) as W1.
  eapply ref_tree_wf in H2; [rewrite H2; exact Hv| | |auto|auto].
  - intros p q Wp Wq r E. apply bind_ok in E as (x & Hx & E). apply bind_ok in E as (y & Hy & E).
    apply bind_ok in E as (w & Hw & E). rewrite Hx. simpl. rewrite Hy. simpl.
    rewrite (H x y (unwrap_wf sg p x Wp Hx) (unwrap_wf sg q y Wq Hy) w Hw). exact E.
  - intros p q r Wp Wq E. apply bind_ok in E as (x & Hx & E). apply bind_ok in E as (y & Hy & E).
    apply bind_ok in E as (w & Hw & E). apply wrap_wf in E; auto.
    apply (HP x y); auto; [apply (unwrap_wf sg p)|apply (unwrap_wf sg q)]; auto.
Qed.

Context (XW : ext_wf) (PW : pad_wf).

(** [better f e]: in well-formed environments [f e] has the value of [e]. *)
Definition better (f : yarr -> yarr) (e : yarr) : Prop :=
  forall R, yenv_wf R -> yconsts_wf e -> ref (yeval R e) (yeval R (f e)).

Lemma ref_mapM_in {A B} (h g : A -> res B) (f : A -> A) l :
  (forall x, In x l -> ref (h x) (g (f x))) -> ref (mapM h l) (mapM g (map f l)).
Proof.
  intros H. apply ref_mapM2; [rewrite map_length; auto|]. intros k x y Hx Hy.
  rewrite nth_error_map, Hx in Hy. injection Hy as <-. apply H. eapply nth_error_In; eauto.
Qed.

Lemma ref_omapM_in {A B} (h g : A -> res B) (f : A -> A) l :
  (forall x, In x (somes l) -> ref (h x) (g (f x))) ->
  ref (mapM (omapM h) l) (mapM (omapM g) (map (option_map f) l)).
Proof.
  intros H. apply ref_omapM.
  - rewrite map_map. apply map_ext. intros [x|]; reflexivity.
  - rewrite somes_map. intros k x y Hx Hy. rewrite nth_error_map, Hx in Hy. injection Hy as <-.
    apply H. eapply nth_error_In; eauto.
Qed.

Ltac rb := apply ref_bind; [|intros].
Ltac rr := first [apply ref_refl | rb; [apply ref_refl|rr]].

Lemma ymap_better f e : (forall c, In c (ysubs e) -> better f c) -> better (ymap f) e.
Proof.
  intros H R W C.
  assert (B : forall c, In c (ysubs e) -> ref (yeval R c) (yeval R (f c))).
  { intros c Hc. apply H; auto. eapply consts_sub; eauto. }
  assert (V : forall c v, In c (ysubs e) -> yeval R c = Ok v -> yval_wf v).
  { intros c v Hc. apply (yeval_wf XW PW); auto. eapply consts_sub; eauto. }
  assert (B' : forall c R', In c (ysubs e) -> yenv_wf R' -> ref (yeval R' c) (yeval R' (f c))).
  { intros c R' Hc W'. apply H; auto. eapply consts_sub; eauto. }
  assert (V' : forall c R' v, In c (ysubs e) -> yenv_wf R' -> yeval R' c = Ok v -> yval_wf v).
  { intros c R' v Hc W'. apply (yeval_wf XW PW); auto. eapply consts_sub; eauto. }
  clear H C.
  destruct e; cbn [ysubs] in *; simpl;
    try (rb; [apply B; simpl; auto|]; rr);
    try (rb; [apply ref_mapM_in; intros; apply B; auto|]; rr);
    try (rb; [apply B; simpl; auto|]; rb; [apply B; simpl; auto|]; rr).
  - apply ref_refl.
  - apply ref_refl.
  - intros v Hv. apply bind_ok in Hv as (w & Hw & Hv).
    rewrite (B e1 ltac:(simpl; auto) w Hw). simpl. apply (B' e2); simpl; auto. apply yenv_wf_upd; auto.
    apply (V e1); simpl; auto.
  - rb; [apply B; simpl; auto|]. rb; [|rr]. apply ref_omapM_in. intros x Hx. rb; [|rr].
    apply B. simpl. auto.
  - rb; [apply B; simpl; auto|]. rb; [|rb; [|rr]];
      apply ref_omapM_in; intros x Hx; (rb; [|rr]); apply B; simpl; right; apply in_or_app; auto.
  - rb; [apply B; simpl; auto|]. rb; [|rb; [|rr]];
      apply ref_omapM_in; intros x Hx; (rb; [|rr]); apply B; simpl; right; apply in_or_app; auto.
  - rb; [apply B; simpl; auto|]. rb; [apply B; simpl; auto|]. rb; [apply B; simpl; auto 6|]. rr.
  - intros v Hv. apply bind_ok in Hv as (v0 & H0 & Hv). apply bind_ok in Hv as (w & Hw & Hv).
    apply bind_ok in Hv as (b & Hb & Hv). apply bind_ok in Hv as (z & Hz & Hv).
    rewrite (B e2 ltac:(simpl; auto) v0 H0). simpl. rewrite (B e1 ltac:(simpl; auto) w Hw). simpl.
    rewrite Hb. simpl. rewrite Hz. simpl. revert v Hv. apply ref_iter_wf.
    + intros j b0 W0. apply B'; simpl; auto 6.
      apply yenv_wf_upd; [apply yenv_wf_upd; auto|]. apply ascalar_wf.
    + intros j b0 c0 W0. apply V'; simpl; auto 6.
      apply yenv_wf_upd; [apply yenv_wf_upd; auto|]. apply ascalar_wf.
    + apply (V e2); simpl; auto.
  - intros v Hv. apply bind_ok in Hv as (v0 & H0 & Hv). apply bind_ok in Hv as (w & Hw & Hv).
    rewrite (B e1 ltac:(simpl; auto) v0 H0). simpl. rewrite (B e3 ltac:(simpl; auto 6) w Hw). simpl.
    revert v Hv. apply ref_reduce_wf.
    + intros a b Wa Wb. apply B'; simpl; auto. apply yenv_wf_upd; auto. apply yenv_wf_upd; auto.
    + intros a b u Wa Wb. apply V'; simpl; auto. apply yenv_wf_upd; auto. apply yenv_wf_upd; auto.
    + apply (V e1); simpl; auto.
    + apply (V e3); simpl; auto 6.
Qed.

(** * The operations removed do nothing *)

Lemma transpose_id pi a b :
  arr_wf a -> list_nat_eqb pi (seq 0 (length pi)) = true -> nd_transpose pi a = Ok b -> b = a.
Proof.
  intros W E H. apply list_nat_eqb_eq in E. unfold nd_transpose in H.
  apply bind_ok in H as (u & Hu & H). apply guard_ok in Hu. injection H as <-.
  apply is_perm_spec in Hu as (L & _ & _). rewrite L in E. subst pi.
  unfold arank. rewrite map_nth_seq. rewrite <- (tab_get a W) at 3. apply tab_ext.
  intros idx Hi. f_equal. apply inb_length in Hi.
  transitivity (map (fun k => nth k idx 0) (seq 0 (length (ashape a)))).
  - apply map_ext_in. intros k Hk. apply in_seq in Hk. f_equal.
    unfold arank. destruct (pos_spec k (seq 0 (length (ashape a)))) as [P1 P2]; [apply in_seq; lia|].
    rewrite seq_length in P1. rewrite seq_nth in P2 by auto. lia.
  - rewrite <- Hi. apply map_nth_seq.
Qed.

Lemma unsqueeze_id a b : arr_wf a -> nd_unsqueeze [] a = Ok b -> b = a.
Proof.
  intros W H. unfold nd_unsqueeze in H. simpl in H. injection H as <-.
  unfold arank. rewrite Nat.add_0_r, ins_at_none by auto. rewrite <- (tab_get a W) at 3. apply tab_ext.
  intros idx Hi. f_equal. apply drop_at_none. auto.
Qed.

Lemma squeeze_id a b : arr_wf a -> nd_squeeze [] a = Ok b -> b = a.
Proof.
  intros W H. unfold nd_squeeze in H. simpl in H. injection H as <-.
  rewrite drop_at_none by auto. rewrite <- (tab_get a W) at 3. apply tab_ext.
  intros idx Hi. f_equal. unfold arank. rewrite <- (inb_length _ _ Hi). apply ins_at_none. auto.
Qed.

Lemma cancel_shape_better e : better cancel_shape_ops e.
Proof.
  induction e as [e IH] using (well_founded_induction (well_founded_ltof _ ysize)).
  assert (S : forall c, In c (ysubs e) -> better cancel_shape_ops c)
    by (intros c Hc; apply IH; apply ysize_sub; auto).
  pose proof (ymap_better cancel_shape_ops e S) as M. clear IH.
  intros R W C. specialize (M R W C).
  destruct e; try exact M.
  - cbn [cancel_shape_ops]. destruct (list_nat_eqb pi (seq 0 (length pi))) eqn:E; [|exact M].
    intros v Hv. cbn [yeval] in Hv. apply bind_ok in Hv as (w & Hw & Hv).
    apply bind_ok in Hv as (a & Ha & Hv). apply bind_ok in Hv as (b & Hb & Hv). injection Hv as <-.
    assert (Cc : yconsts_wf e) by (eapply consts_sub; eauto; simpl; auto).
    assert (Wa : arr_wf a) by (apply (ya_wf w); auto; apply (yeval_wf XW PW e R); auto).
    apply (S e) in Hw; simpl; auto. apply transpose_id in Hb; auto. subst b.
    destruct w; [|discriminate]. injection Ha as ->. exact Hw.
  - cbn [cancel_shape_ops]. destruct axes as [|ax axes]; [|exact M].
    intros v Hv. cbn [yeval] in Hv. apply bind_ok in Hv as (w & Hw & Hv).
    apply bind_ok in Hv as (a & Ha & Hv). apply bind_ok in Hv as (b & Hb & Hv). injection Hv as <-.
    assert (Cc : yconsts_wf e) by (eapply consts_sub; eauto; simpl; auto).
    assert (Wa : arr_wf a) by (apply (ya_wf w); auto; apply (yeval_wf XW PW e R); auto).
    apply (S e) in Hw; simpl; auto. apply squeeze_id in Hb; auto. subst b.
    destruct w; [|discriminate]. injection Ha as ->. exact Hw.
  - cbn [cancel_shape_ops]. destruct axes as [|ax axes]; [|exact M].
    intros v Hv. cbn [yeval] in Hv. apply bind_ok in Hv as (w & Hw & Hv).
    apply bind_ok in Hv as (a & Ha & Hv). apply bind_ok in Hv as (b & Hb & Hv). injection Hv as <-.
    assert (Cc : yconsts_wf e) by (eapply consts_sub; eauto; simpl; auto).
    assert (Wa : arr_wf a) by (apply (ya_wf w); auto; apply (yeval_wf XW PW e R); auto).
    apply (S e) in Hw; simpl; auto. apply unsqueeze_id in Hb; auto. subst b.
    destruct w; [|discriminate]. injection Ha as ->. exact Hw.
Qed.

Lemma Forall2_nth_error_r {A B} (Q : A -> B -> Prop) l1 l2 : Forall2 Q l1 l2 ->
  forall k y, nth_error l2 k = Some y -> exists x, nth_error l1 k = Some x /\ Q x y.
Proof.
  induction 1; intros k z Hz; destruct k; simpl in *; try discriminate; eauto.
  injection Hz as <-. eauto.
Qed.

Lemma cancel_tuple_better e : better cancel_tuple_ops e.
Proof.
  induction e as [e IH] using (well_founded_induction (well_founded_ltof _ ysize)).
  assert (S : forall c, In c (ysubs e) -> better cancel_tuple_ops c)
    by (intros c Hc; apply IH; apply ysize_sub; auto).
  pose proof (ymap_better cancel_tuple_ops e S) as M.
  intros R W C. specialize (M R W C).
  destruct e; try exact M. destruct e; try exact M.
  cbn [cancel_tuple_ops]. rewrite nth_error_map.
  destruct (nth_error ops at_) as [c|] eqn:E; [|exact M]. simpl.
  intros v Hv. simpl in Hv. apply bind_ok in Hv as (w & Hw & Hv).
  apply bind_ok in Hw as (vs & Hvs & Hw). apply bind_ok in Hw as (l & Hl & Hw). injection Hw as <-.
  apply bind_ok in Hv as (a & Ha & Hv). injection Hv as <-.
  assert (Ic : In c ops) by (eapply nth_error_In; eauto).
  apply (IH c); auto.
  - unfold ltof. apply Nat.lt_trans with (ysize (YTuple ops)); apply ysize_sub; simpl; auto.
  - eapply consts_sub; [eapply consts_sub; [exact C|simpl; auto]|]. exact Ic.
  - apply mapM_Forall2 in Hvs. apply mapM_Forall2 in Hl.
    destruct (nth_error l at_) as [a'|] eqn:Ea; [|discriminate]. injection Ha as ->.
    destruct (Forall2_nth_error_r _ _ _ Hl _ _ Ea) as (y & Hy & Hya).
    destruct (Forall2_nth_error_r _ _ _ Hvs _ _ Hy) as (c' & Hc' & Hcy).
    rewrite E in Hc'. injection Hc' as <-. rewrite Hcy.
    destruct y; [|discriminate]. injection Hya as ->. reflexivity.
Qed.

(** * Types are kept: rebuilding a node never fails an assertion *)

Lemma ymap_typ f e : (forall c, In c (ysubs e) -> ref (ytyp c) (ytyp (f c))) ->
  ref (ytyp e) (ytyp (ymap f e)).
Proof.
  intros B.
  destruct e; cbn [ysubs] in *; simpl;
    try (rb; [apply B; simpl; auto|]; rr);
    try (rb; [apply ref_mapM_in; intros; apply B; auto|]; rr);
    try (rb; [apply B; simpl; auto|]; rb; [apply B; simpl; auto|]; rr);
    try (rb; [apply B; simpl; auto|]; rb; [apply B; simpl; auto|]; rb; [apply B; simpl; auto 6|]; rr).
  - apply ref_refl.
  - apply ref_refl.
  - rb; [apply B; simpl; auto|]. apply B; simpl; auto.
  - rb; [apply B; simpl; auto|]. rb; [apply ref_refl|]. rb.
    + apply ref_omapM_in. intros x Hx. rb; [|rr]. apply B. simpl. auto.
    + rewrite map_length. rr.
  - rb; [apply B; simpl; auto|]. rb; [apply ref_refl|]. rb; [|rb]; [| |rewrite !map_length; rr];
      apply ref_omapM_in; intros x Hx; apply B; simpl; right; apply in_or_app; auto.
  - rb; [apply B; simpl; auto|]. rb; [apply ref_refl|]. rb; [|rb]; [| |rewrite !map_length; rr];
      apply ref_omapM_in; intros x Hx; apply B; simpl; right; apply in_or_app; auto.
Qed.

Lemma single_ok p s : single p = Ok s -> p = [s].
Proof. destruct p as [|q [|]]; simpl; try discriminate. intros H; injection H as <-. reflexivity. Qed.

Lemma cancel_shape_typ e : ref (ytyp e) (ytyp (cancel_shape_ops e)).
Proof.
  induction e as [e IH] using (well_founded_induction (well_founded_ltof _ ysize)).
  assert (S : forall c, In c (ysubs e) -> ref (ytyp c) (ytyp (cancel_shape_ops c)))
    by (intros c Hc; apply IH; apply ysize_sub; auto).
  pose proof (ymap_typ cancel_shape_ops e S) as M. clear IH.
  destruct e; try exact M.
  - cbn [cancel_shape_ops]. destruct (list_nat_eqb pi (seq 0 (length pi))) eqn:E; [|exact M].
    intros v Hv. cbn [ytyp] in Hv. apply bind_ok in Hv as (p & Hp & Hv).
    apply bind_ok in Hv as (s & Hs & Hv). apply bind_ok in Hv as (u & _ & Hv). injection Hv as <-.
    apply single_ok in Hs as ->. apply (S e); simpl; auto.
  - cbn [cancel_shape_ops]. destruct axes as [|ax axes]; [|exact M].
    intros v Hv. cbn [ytyp] in Hv. apply bind_ok in Hv as (p & Hp & Hv).
    apply bind_ok in Hv as (u & _ & Hv). apply bind_ok in Hv as (s & Hs & Hv).
    apply single_ok in Hs as ->. cbn in Hv. rewrite Nat.sub_0_r in Hv. injection Hv as <-.
    rewrite <- surjective_pairing. apply (S e); simpl; auto.
  - cbn [cancel_shape_ops]. destruct axes as [|ax axes]; [|exact M].
    intros v Hv. cbn [ytyp] in Hv. apply bind_ok in Hv as (p & Hp & Hv).
    apply bind_ok in Hv as (u & _ & Hv). apply bind_ok in Hv as (s & Hs & Hv).
    apply single_ok in Hs as ->. cbn in Hv. rewrite Nat.add_0_r in Hv. injection Hv as <-.
    rewrite <- surjective_pairing. apply (S e); simpl; auto.
Qed.

Lemma cancel_tuple_typ e : ref (ytyp e) (ytyp (cancel_tuple_ops e)).
Proof.
  induction e as [e IH] using (well_founded_induction (well_founded_ltof _ ysize)).
  assert (S : forall c, In c (ysubs e) -> ref (ytyp c) (ytyp (cancel_tuple_ops c)))
    by (intros c Hc; apply IH; apply ysize_sub; auto).
  pose proof (ymap_typ cancel_tuple_ops e S) as M.
  destruct e; try exact M. destruct e; try exact M.
  cbn [cancel_tuple_ops]. rewrite nth_error_map.
  destruct (nth_error ops at_) as [c|] eqn:E; [|exact M]. simpl.
  intros v Hv. cbn [ytyp] in Hv. apply bind_ok in Hv as (p & Hp & Hv).
  apply bind_ok in Hp as (ps & Hps & Hp).
  apply bind_ok in Hv as (u & _ & Hv). apply bind_ok in Hv as (s & Hs & Hv). injection Hv as <-.
  apply (IH c).
  - unfold ltof. apply Nat.lt_trans with (ysize (YTuple ops)); apply ysize_sub; simpl; auto.
    eapply nth_error_In; eauto.
  - apply mapM_Forall2 in Hps. apply mapM_Forall2 in Hp.
    destruct (nth_error p at_) as [s'|] eqn:Ea; [|discriminate]. injection Hs as ->.
    destruct (Forall2_nth_error_r _ _ _ Hp _ _ Ea) as (y & Hy & Hya).
    destruct (Forall2_nth_error_r _ _ _ Hps _ _ Hy) as (c' & Hc' & Hcy).
    rewrite E in Hc'. injection Hc' as <-. rewrite Hcy. apply single_ok in Hya as ->. reflexivity.
Qed.

End Cancel.
