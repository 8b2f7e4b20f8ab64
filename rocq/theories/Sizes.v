(** Size expressions: ein/midend/size_classes.py:14-30 and the inference of
    comprehension sizes, ein/frontend/comprehension.py:53-102. *)
From Verif Require Import Base Scalar Tensor Types Sym Phi Den Term PhiTerm DenFree SpecPhi Lining DenWf.

Section Sizes.
Context {FO : FloatOps} {EX : Externs}.

(** size_classes.py:14-18 *)
Definition with_indices_at_zero (e : phi) : phi :=
  substitute e (map (fun s => (s, p_int 0)) (free_indices e)).

(** size_classes.py:21-30 *)
Fixpoint dim_of (e : phi) (axis : nat) : phi :=
  match e with
  | PGet target _ => dim_of target (S axis)
  | PVec _ size _ => match axis with 0 => size | _ => PDim e axis end
  | _ => PDim e axis
  end.

Lemma vdim_vget u : forall z v axis d, vget u z = Ok v -> vdim v axis = Ok d -> vdim u (S axis) = Ok d.
Proof.
  induction u as [a|u1 IH1 u2 IH2]; simpl; intros z v axis d H D; inv_bind.
  - unfold aget in Hb. destruct (ashape a) as [|n sh] eqn:S; [discriminate|]. injection Hb as <-.
    simpl in D. unfold asub in D. rewrite S in D. simpl in D. auto.
  - simpl in D. inv_bind. rewrite (IH1 _ _ _ _ Hb Hb1), (IH2 _ _ _ _ Hb0 Hb2). cbn [bind].
    rewrite Hb3. reflexivity.
Qed.

Lemma dim_of_den e : forall E axis v d, den E e = Ok v -> vdim v axis = Ok d ->
  exists w z, den E (dim_of e axis) = Ok w /\ val_int w = Ok z /\ Z.to_nat z = d.
Proof.
  assert (G : forall E e axis v d, den E e = Ok v -> vdim v axis = Ok d ->
    exists w z, den E (PDim e axis) = Ok w /\ val_int w = Ok z /\ Z.to_nat z = d).
  { intros E e0 axis v d H D. exists (vnat d), (Z.of_nat d). cbn [den]. rewrite H. cbn [bind]. rewrite D.
    split; [reflexivity|]. split; [reflexivity|lia]. }
  induction e using phi_ind'; intros E axis v d Hv Hd; try (eapply G; eauto; fail).
  - cbn [dim_of]. cbn [den] in Hv. inv_bind. eapply IHe1; eauto. eapply vdim_vget; eauto.
  - cbn [dim_of]. destruct axis as [|axis]; [|eapply G; eauto].
    cbn [den] in Hv. inv_bind. 
    rewrite (vdim_vstack _ _ _ Hk0) in Hd. injection Hd as <-.
    exists a, a0. split; auto. split; auto. apply mapM_length in Hb2. rewrite seq_length in Hb2. auto.
Qed.

(** comprehension.py:66-75: the assignments [direct_indices[symbol][target] =
    captured], in the order in which [go] makes them.  [visited] stays empty in
    the code. *)
Fixpoint accesses (fuel : nat) (capd : list sym) (sub : phi) : list (sym * phi * list sym) :=
  match fuel with
  | 0 => []
  | S fuel =>
      match sub with
      | PGet target (PStore symbol _) => [(symbol, target, capd)]
      | _ => []
      end ++ flat_map (accesses fuel (capd ++ captured sub)) (subterms sub)
  end.

(** dict assignment: an existing key keeps its place *)
Fixpoint dset {A} (k : phi) (x : A) (d : list (phi * A)) : list (phi * A) :=
  match d with
  | [] => [(k, x)]
  | (k', y) :: d => if phi_eqb k k' then (k', x) :: d else (k', y) :: dset k x d
  end.

Definition direct_of (s : sym) (l : list (sym * phi * list sym)) : list (phi * list sym) :=
  fold_left (fun d p => if sym_eqb s (fst (fst p)) then dset (snd (fst p)) (snd p) d else d) l [].

(** comprehension.py:84-90 *)
Definition candidates (d : list (phi * list sym)) : list phi :=
  flat_map (fun p =>
    let cand := dim_of (fst p) 0 in
    if existsb (fun s => smem s (snd p)) (fsyms cand) then [] else [with_indices_at_zero cand]) d.

(** comprehension.py:95-99 *)
Definition dedupe (l : list phi) : list phi :=
  fold_left (fun acc x => if existsb (phi_eqb x) acc then acc else acc ++ [x]) l [].

(** comprehension.py:79-102 for one symbol *)
Definition infer_size (body : phi) (capd : list sym) (s : sym) : res phi :=
  match candidates (direct_of s (accesses (psize body) capd body)) with
  | [] => Err EValue
  | c :: cs =>
      let l := dedupe (c :: cs) in
      if 1 <? length l then Ok (PAssertEq c l) else Ok c
  end.

(** comprehension.py:53-102 *)
Definition infer_sizes (body : phi) (symbols captured0 : list sym) (sizes : option (list phi))
  : res (list (sym * phi)) :=
  match sizes with
  | Some l =>
      let* _ := guard (length symbols =? length l) EValue in
      Ok (combine symbols l)
  | None =>
      mapM (fun s => let* e := infer_size body (symbols ++ captured0) s in Ok (s, e)) symbols
  end.

(** * Specification *)

(** [accessed s t C e]: somewhere in [e], under binders of the symbols [C],
    stands the access [t[s]]. *)
Inductive accessed (s : sym) (t : phi) : list sym -> phi -> Prop :=
| acc_here ty : accessed s t [] (PGet t (PStore s ty))
| acc_sub C e c : In c (subterms e) -> accessed s t C c -> accessed s t (captured e ++ C) e.

Lemma accessed_in s t C e : accessed s t C e -> forall fuel C0, psize e <= fuel ->
  exists C1, In (s, t, C1) (accesses fuel C0 e) /\ (forall r, In r C1 <-> In r (C0 ++ C)).
Proof.
  induction 1 as [ty|C e c Hc H IH]; intros fuel C0 Hf.
  - destruct fuel; [simpl in Hf; lia|]. exists C0. split; [simpl; auto|]. intros r. rewrite app_nil_r. tauto.
  - assert (psize c < psize e) by (exact (@tsize_sub phi PhiOps PhiLaws e c Hc)).
    destruct fuel; [lia|]. destruct (IH fuel (C0 ++ captured e) ltac:(lia)) as (C1 & I1 & I2).
    exists C1. split.
    + cbn [accesses]. apply in_or_app. right. apply in_flat_map. exists c. auto.
    + intros r. rewrite I2, !in_app_iff. tauto.
Qed.

Lemma accesses_accessed fuel : forall C0 e s t C1, In (s, t, C1) (accesses fuel C0 e) ->
  exists C, accessed s t C e /\ (forall r, In r C1 <-> In r (C0 ++ C)).
Proof.
  induction fuel as [|fuel IH]; intros C0 e s t C1 H; [destruct H|]. cbn [accesses] in H.
  apply in_app_or in H as [H|H].
  - destruct e; try (destruct H; fail). destruct e2; try (destruct H; fail). destruct H as [H|[]].
    injection H as <- <- <-. exists []. split; [constructor|]. intros. rewrite app_nil_r. tauto.
  - apply in_flat_map in H as (c & Hc & H). apply IH in H as (C & H1 & H2).
    exists (captured e ++ C). split; [econstructor; eauto|]. intros r. rewrite H2, !in_app_iff. tauto.
Qed.

Lemma dset_get {A} k (x : A) d : In (k, x) (dset k x d).
Proof.
  induction d as [|[k' y] d IH]; simpl; auto. destruct (phi_eqb k k') eqn:Q; [|simpl; auto].
  apply phi_eqb_eq in Q. subst. simpl. auto.
Qed.

Lemma dset_in {A} k (x : A) d p : In p (dset k x d) -> p = (k, x) \/ In p d.
Proof.
  induction d as [|[k' y] d IH]; simpl.
  - intros [<-|[]]; auto.
  - destruct (phi_eqb k k') eqn:Q.
    + apply phi_eqb_eq in Q. subst. intros [<-|H]; auto.
    + intros [<-|H]; auto. destruct (IH H); auto.
Qed.

Lemma dset_keep {A} k (x : A) d k' y : In (k', y) d -> exists y', In (k', y') (dset k x d).
Proof.
  induction d as [|[k0 y0] d IH]; simpl; [tauto|]. intros [H|H].
  - injection H as -> ->. destruct (phi_eqb k k'); simpl; eauto.
  - destruct (phi_eqb k k0); simpl; eauto. destruct (IH H); eauto.
Qed.

Lemma direct_of_app s l p : direct_of s (l ++ [p]) =
  if sym_eqb s (fst (fst p)) then dset (snd (fst p)) (snd p) (direct_of s l) else direct_of s l.
Proof. unfold direct_of. rewrite fold_left_app. reflexivity. Qed.

Lemma direct_of_complete s t l : forall C, In (s, t, C) l -> exists C', In (t, C') (direct_of s l).
Proof.
  induction l as [|[[s' t'] C'] l IH] using rev_ind; [intros ? []|]. intros C H.
  rewrite direct_of_app. cbn [fst snd]. apply in_app_or in H as [H|[H|[]]].
  - destruct (IH _ H) as [C0 H0]. destruct (sym_eqb s s'); eauto. eapply dset_keep; eauto.
  - injection H as -> -> ->. rewrite sym_eqb_refl. exists C. apply dset_get.
Qed.

Lemma direct_of_sound s t C l : In (t, C) (direct_of s l) -> In (s, t, C) l.
Proof.
  induction l as [|[[s' t'] C'] l IH] using rev_ind; [intros []|].
  rewrite direct_of_app. cbn [fst snd]. intros H. apply in_or_app.
  destruct (sym_eqb s s') eqn:Q; [|auto]. apply sym_eqb_eq in Q. subst s'.
  apply dset_in in H as [H|H]; [|auto]. injection H as -> ->. right. simpl. auto.
Qed.

Lemma dedupe_in l x : In x (dedupe l) <-> In x l.
Proof.
  unfold dedupe. assert (G : forall l acc, In x (fold_left (fun acc x => if existsb (phi_eqb x) acc then acc else acc ++ [x]) l acc) <-> In x acc \/ In x l).
  { clear l. induction l as [|y l IH]; intros acc; simpl; [tauto|]. rewrite IH.
    destruct (existsb (phi_eqb y) acc) eqn:Q.
    - apply existsb_exists in Q as (z & Hz & Q). apply phi_eqb_eq in Q. subst z.
      split; [tauto|]. intros [H|[<-|H]]; auto.
    - rewrite in_app_iff. simpl. tauto. }
  rewrite G. simpl. tauto.
Qed.

Lemma all_equal_in zs z : all_equal zs = true -> In z zs -> forall z', In z' zs -> z = z'.
Proof.
  destruct zs as [|z0 zs]; simpl; [discriminate|]. intros H. rewrite forallb_forall in H.
  assert (G : forall z, z0 = z \/ In z zs -> z0 = z). { intros y [<-|Hy]; auto. apply Z.eqb_eq. auto. }
  intros H1 z' H2. rewrite <- (G _ H1), <- (G _ H2). reflexivity.
Qed.

(** The inferred size has, where it is defined, the value of every candidate. *)
Lemma infer_size_value body capd s e E w z : infer_size body capd s = Ok e ->
  den E e = Ok w -> val_int w = Ok z ->
  forall c, In c (candidates (direct_of s (accesses (psize body) capd body))) ->
  exists w', den E c = Ok w' /\ val_int w' = Ok z.
Proof.
  unfold infer_size. intros H D V c Hc.
  destruct (candidates _) as [|c0 cs] eqn:Q; [discriminate|].
  assert (LI : forall x, In x (dedupe (c0 :: cs)) <-> In x (c0 :: cs)) by (intros; apply dedupe_in).
  destruct (1 <? length (dedupe (c0 :: cs))) eqn:L.
  - injection H as <-. cbn [den] in D. inv_bind.
    apply mapM_Forall2 in Hb. apply mapM_Forall2 in Hb0.
    assert (G : forall x, In x (dedupe (c0 :: cs)) -> exists w' z', den E x = Ok w' /\ val_int w' = Ok z' /\ In z' a0).
    { clear - Hb Hb0. revert a0 Hb0. induction Hb as [|x w0 l l' H H' IH]; intros a0 F2 y Hy; [destruct Hy|].
      inversion F2 as [|? z0 ? zs Hz F2']; subst. destruct Hy as [<-|Hy].
      - exists w0, z0. simpl. auto.
      - destruct (IH _ F2' y Hy) as (w1 & z1 & A & B & C). exists w1, z1. simpl. auto. }
    apply LI in Hc. destruct (G c Hc) as (w1 & z1 & A1 & B1 & C1).
    destruct (G c0) as (w2 & z2 & A2 & B2 & C2); [apply LI; simpl; auto|].
    rewrite Hk in A2. injection A2 as <-. rewrite V in B2. injection B2 as <-.
    rewrite (all_equal_in _ _ Hb1 C1 _ C2) in B1. eauto.
  - injection H as <-. apply Nat.ltb_ge in L. apply LI in Hc.
    assert (In c0 (dedupe (c0 :: cs))) as H0 by (apply LI; simpl; auto).
    destruct (dedupe (c0 :: cs)) as [|x [|y l]]; simpl in *; [tauto| |lia].
    destruct Hc as [<-|[]], H0 as [<-|[]]. eauto.
Qed.

(** [e] at the environment with all free indices of [e] at zero *)
Definition zeroed (E : env) : env := fun s => if is_index s then Some (vint 0) else E s.

Lemma sassoc_zero s l : sassoc s (map (fun s => (s, p_int 0)) l) = if smem s l then Some (p_int 0) else None.
Proof.
  destruct (smem s l) eqn:Q.
  - apply smem_In in Q. destruct (sassoc s (map (fun s => (s, p_int 0)) l)) eqn:A.
    + apply sassoc_In in A. apply in_map_iff in A as (s' & A & _). congruence.
    + apply sassoc_notin in A. exfalso. apply A. rewrite map_map. simpl. rewrite map_id. auto.
  - apply sassoc_notin. rewrite map_map. simpl. rewrite map_id. intros H. apply smem_In in H. congruence.
Qed.

Lemma with_indices_at_zero_den e E v : unshadowed e ->
  (den E (with_indices_at_zero e) = Ok v <-> den (zeroed E) e = Ok v).
Proof.
  intros U. unfold with_indices_at_zero.
  rewrite (substitute_sem _ e E (fun s => if smem s (free_indices e) then Some (vint 0) else E s)).
  - rewrite (den_ext e _ (zeroed E)); [reflexivity|]. intros s Hs. unfold zeroed.
    destruct (smem s (free_indices e)) eqn:Q.
    + apply smem_In, filter_In in Q as [_ Q]. rewrite Q. reflexivity.
    + destruct (is_index s) eqn:I; [|reflexivity]. exfalso.
      assert (In s (free_indices e)).
      { apply filter_In. split; auto. exact (isfree_tfree e s (unshadowed_hygienic e U) Hs). }
      apply smem_In in H. congruence.
  - split.
    + intros s u H. apply in_map_iff in H as (s' & H & Hs). injection H as <- <-.
      apply filter_In in Hs as [Hs _]. intros (n & Hn & Hb). apply (U e n s'); auto; [constructor|].
      apply (tfree_isfree e s'). exact Hs.
    + intros s u r H Hr. apply in_map_iff in H as (s' & H & _). injection H as <- <-.
      apply free_in_isfree in Hr. destruct Hr.
  - intros s. rewrite sassoc_zero. destruct (smem s (free_indices e)); auto.
    exists (vint 0). split; reflexivity.
Qed.

Lemma dim_of_sub e : forall axis, exists t, sub_of t e /\ (dim_of e axis = t \/ exists ax, dim_of e axis = PDim t ax).
Proof.
  induction e using phi_ind'; intros axis;
    try (eexists; split; [apply sub_refl|right; eexists; reflexivity]).
  - cbn [dim_of]. destruct (IHe1 (S axis)) as (t & H1 & H2). exists t. split; auto.
    eapply sub_step; [|exact H1]. simpl. auto.
  - cbn [dim_of]. destruct axis; [|eexists; split; [apply sub_refl|right; eexists; reflexivity]].
    exists e1. split; auto. eapply sub_step; [|apply sub_refl]. simpl. auto.
Qed.

Lemma unshadowed_dim t axis : unshadowed t -> unshadowed (PDim t axis).
Proof.
  intros U d n s Hd Hn Hs Hf.
  assert (G : forall u, sub_of u (PDim t axis) -> u = PDim t axis \/ sub_of u t).
  { intros u Hu. inversion Hu as [|? c ? Hc Hu']; subst; auto. simpl in Hc. destruct Hc as [<-|[]]. auto. }
  destruct (G d Hd) as [->|Hd'].
  - destruct (G n Hn) as [->|Hn']; [destruct Hs|].
    apply (U t n s); auto; [constructor|]. apply free_in_isfree. apply free_in_isfree in Hf. exact Hf.
  - apply (U d n s); auto.
Qed.

Lemma unshadowed_dim_of e axis : unshadowed e -> unshadowed (dim_of e axis).
Proof.
  intros U. destruct (dim_of_sub e axis) as (t & H1 & [->|[ax ->]]).
  - eapply unshadowed_sub; eauto.
  - apply unshadowed_dim. eapply unshadowed_sub; eauto.
Qed.

Lemma accessed_sub s t C e : accessed s t C e -> sub_of t e.
Proof.
  induction 1.
  - eapply sub_step; [|apply sub_refl]. simpl. auto.
  - eapply sub_step; eauto.
Qed.

(** Substitution of closed terms introduces no free symbol. *)
Lemma substitute_go_free (sb : list (sym * phi)) : (forall s u r, In (s, u) sb -> ~ isfree r u) ->
  forall fuel t r, isfree r (substitute_go fuel sb t) -> isfree r t.
Proof.
  intros Hc. induction fuel as [|fuel IH]; intros t r H; auto. cbn [substitute_go] in H.
  destruct (existsb _ _); auto. destruct (symof t) as [s|] eqn:S.
  - destruct (sassoc s sb) as [u|] eqn:Q; [apply sassoc_In in Q; exfalso; eapply Hc; eauto|].
    apply symof_subs in S as S'. destruct S' as (S1 & _). rewrite S1 in H. cbn [map] in H.
    rewrite <- S1, rebuild_subs in H. auto.
  - inversion H as [? H0|? k c sc H0 H1 H2 H3]; subst.
    + rewrite symof_rebuild in H0 by (rewrite map_length; auto). congruence.
    + rewrite subs_rebuild in H0 by (rewrite map_length; auto).
      rewrite scopes_rebuild in H1 by (rewrite map_length; auto).
      rewrite nth_error_map in H0. destruct (nth_error (subs t) k) as [c0|] eqn:N; [|discriminate].
      injection H0 as <-. eapply free_sub; eauto.
Qed.

Lemma with_indices_at_zero_free e r : isfree r (with_indices_at_zero e) -> isfree r e.
Proof.
  apply substitute_go_free. intros s u r' H Hf. apply in_map_iff in H as (s' & H & _). injection H as <- <-.
  apply free_in_isfree in Hf. destruct Hf.
Qed.

End Sizes.
