(** Slices: [a[:, j1, ..., jn]] is a comprehension whose size is inferred
    (ein/frontend/ndarray.py:190-218). *)
From Verif Require Import Base Scalar Tensor Types Sym Phi Den Term PhiTerm DenFree SpecPhi Lining DenWf Sizes SizeSound Layout
  Comprehension ComprehensionSem.

Section Slice.
Context {FO : FloatOps} {EX : Externs}.
Variable dict_attr : nat -> bool.

(** The symbol occurs in the expression. *)
Definition mentions (s : sym) (e : phi) : Prop := exists t, sub_of (PStore s t) e.

Lemma accessed_mentions s t C e : accessed s t C e -> mentions s e.
Proof.
  induction 1 as [ty|C e c Hc _ [ty H]].
  - exists ty. eapply sub_step; [|apply sub_refl]. simpl. auto.
  - exists ty. eapply sub_step; eauto.
Qed.

Lemma isfree_mentions s e : isfree s e -> mentions s e.
Proof.
  intros H. apply isfree_occ in H as (m & Hm & Q). destruct m; try discriminate. simpl in Q. injection Q as ->. exists t. exact Hm.
Qed.

(** Accesses through [SX n] stand under no binder. *)
Definition bare (n : nat) (e : phi) : Prop := forall t C, accessed (SX n) t C e -> C = [].

Lemma bare_node n e : captured e = [] -> Forall (bare n) (subterms e) -> bare n e.
Proof.
  intros HC F t C H. inversion H as [|C' e' c Hc H']; subst; auto. rewrite HC. simpl.
  rewrite Forall_forall in F. exact (F c Hc t C' H').
Qed.

Lemma bare_absent n e : ~ mentions (SX n) e -> bare n e.
Proof. intros H t C A. exfalso. apply H. eapply accessed_mentions; eauto. Qed.

(** [x] stands in [e] under no binder. *)
Inductive bare_in (x : phi) : phi -> Prop :=
| bare_here : bare_in x x
| bare_step e c : captured e = [] -> In c (subterms e) -> bare_in x c -> bare_in x e.

Lemma bare_in_trans x y z : bare_in x y -> bare_in y z -> bare_in x z.
Proof. intros H1 H2. induction H2; auto. eapply bare_step; eauto. Qed.

Lemma bare_accessed s t x e : bare_in x e -> accessed s t [] x -> accessed s t [] e.
Proof.
  induction 1 as [|e c HC Hc _ IH]; intros A; auto. specialize (IH A).
  replace (@nil sym) with (captured e ++ []) by (rewrite HC; reflexivity). econstructor; eauto.
Qed.

Lemma gets_bare n : forall xs e, bare n e -> Forall (bare n) xs -> bare n (gets e xs).
Proof.
  induction xs as [|x xs IH]; intros e He F; simpl; auto. inversion F; subst. apply IH; auto.
  apply bare_node; [reflexivity|]. repeat constructor; auto.
Qed.

Lemma gets_bare_in x : forall xs e, bare_in x e -> bare_in x (gets e xs).
Proof.
  induction xs as [|y xs IH]; intros e He; simpl; auto. apply IH. eapply bare_step; [reflexivity|left; reflexivity|auto].
Qed.

Lemma project_bare n e i k : bare n e -> bare n (project_tuple e i k).
Proof.
  intros H. unfold project_tuple. assert (G : bare n (Nat.iter i PSecond e)).
  { induction i; simpl; auto. apply bare_node; [reflexivity|]. repeat constructor; auto. }
  destruct (i + 1 <? k); auto. apply bare_node; [reflexivity|]. repeat constructor; auto.
Qed.

Lemma project_bare_in x e i k : bare_in x e -> bare_in x (project_tuple e i k).
Proof.
  intros H. unfold project_tuple. assert (G : bare_in x (Nat.iter i PSecond e)).
  { induction i; simpl; auto. eapply bare_step; [reflexivity|left; reflexivity|auto]. }
  destruct (i + 1 <? k); auto. eapply bare_step; [reflexivity|left; reflexivity|auto].
Qed.

(** What holds of the leaves and is kept by pairing holds of the packed structure. *)
Section Pack.
Variable P : phi -> Prop.
Hypothesis PC : forall a b, P a -> P b -> P (PCons a b).

Lemma reduce_all es : forall e, reduce_cons es = Ok e -> Forall P es -> P e.
Proof.
  induction es as [|x es IH]; intros e H F; [discriminate|]. inversion F; subst. destruct es as [|y es].
  - injection H as <-. auto.
  - cbn [reduce_cons] in H. apply bind_ok in H as (r & Hr & H). injection H as <-. auto.
Qed.

Lemma pack_leaves (l : layout) : forall o e, struct_to_expr dict_attr l o = Ok e -> Forall P (obj_leaves o) -> P e.
Proof.
  assert (W : forall o e, (let* w := wrap o in Ok (fst w)) = Ok e -> Forall P (obj_leaves o) -> P e).
  { intros o e H F. destruct o; simpl in H; inv_bind; try discriminate; inversion F; auto. }
  assert (GN : forall n o x, get_name dict_attr n o = Ok x -> Forall P (obj_leaves o) -> Forall P (obj_leaves x)).
  { assert (LK : forall n (l : list (nat * obj)) x, lookup n l = Ok x -> Forall P (flat_map (fun p => obj_leaves (snd p)) l) -> Forall P (obj_leaves x)).
    { intros n l0 x. induction l0 as [|[m y] l0 IHl]; simpl; intros H F; [discriminate|]. apply Forall_app in F as [F1 F2].
      destruct (n =? m); [injection H as <-; auto|auto]. }
    intros n o x H F. destruct o; simpl in H; try discriminate; [destruct (dict_attr n); [discriminate|]|]; eapply LK; eauto. }
  induction l as [|s IH|ls IH|ls t IH] using layout_ind'; intros o e H F.
  - exact (W o e H F).
  - destruct o; simpl in H; try discriminate. injection H as <-. inversion F; auto.
  - cbn [struct_to_expr] in H. fold (s2e_pos dict_attr) in H.
    assert (G : forall ls, Forall (fun l => forall o e, struct_to_expr dict_attr l o = Ok e -> Forall P (obj_leaves o) -> P e) ls ->
      forall os es, Forall P (flat_map obj_leaves os) -> s2e_pos dict_attr ls os = Ok es -> Forall P es).
    { clear. induction 1 as [|l ls Hl _ IHls]; intros [|o os] es F H; cbn [s2e_pos] in H; try discriminate; [injection H as <-; auto|].
      fold (s2e_pos dict_attr) in H. simpl in F. apply Forall_app in F as [F1 F2]. inv_bind. constructor; eauto. }
    destruct o; try discriminate; apply bind_ok in H as (es & H1 & H2); eapply reduce_all; eauto.
  - cbn [struct_to_expr] in H. apply bind_ok in H as (es & H1 & H2). eapply reduce_all; eauto.
    eapply mapM_all; [exact H1|]. intros [n l] x Hin Hx. cbn [fst snd] in Hx. apply bind_ok in Hx as (y & Y1 & Y2).
    rewrite Forall_forall in IH. apply (IH _ Hin y x Y2). eapply GN; eauto.
Qed.
End Pack.

(** What is kept by projections holds of the leaves of an unpacked expression. *)
Lemma unpack_leaves (P : phi -> Prop) (PP : forall e i k, P e -> P (project_tuple e i k)) (l : layout) :
  forall e, P e -> Forall P (obj_leaves (to_array e l)).
Proof.
  induction l as [|s IH|ls IH|ls t IH] using layout_ind'; intros e He; try (simpl; auto; fail).
  - cbn [to_array obj_leaves]. fold (ta_pos e (length ls)). generalize (length ls) at 1. intros N. generalize 0.
    induction IH as [|l ls Hl _ IHls]; intros k; cbn [ta_pos flat_map]; auto. fold (ta_pos e N). apply Forall_app. split; auto.
  - enough (G : Forall P (flat_map (fun p => obj_leaves (snd p)) (ta_lab e (length ls) 0 ls))) by (destruct t; exact G).
    generalize (length ls) at 1. intros N. generalize 0.
    induction IH as [|[m l] ls Hl _ IHls]; intros k; cbn [ta_lab flat_map]; auto. fold (ta_lab e N). apply Forall_app. split; auto.
    cbn [snd] in *. auto.
Qed.

(** Layouts of structures that can be packed. *)
Fixpoint layout_ok (l : layout) : Prop :=
  match l with
  | LAtom | LVec _ => True
  | LPos ls => ls <> [] /\ fold_right and True (map layout_ok ls)
  | LLab ls t => ls <> [] /\ NoDup (map fst ls) /\ (t = None -> Forall (fun n => dict_attr n = false) (map fst ls)) /\
                 fold_right and True (map (fun p => layout_ok (snd p)) ls)
  end.

Lemma to_array_ok (l : layout) : forall e, layout_ok l -> obj_ok dict_attr (to_array e l) /\ build_layout (to_array e l) = Ok l.
Proof.
  induction l as [|s IH|ls IH|ls t IH] using layout_ind'; intros e OK; try (simpl; auto; fail).
  - cbn [layout_ok] in OK. rewrite ands_Forall in OK. destruct OK as [NE OK]. cbn [to_array]. fold (ta_pos e (length ls)).
    assert (G : forall N k, Forall (obj_ok dict_attr) (ta_pos e N k ls) /\ mapM build_layout (ta_pos e N k ls) = Ok ls).
    { clear NE. intros N. induction IH as [|l ls Hl _ IHls]; intros k; cbn [ta_pos mapM]; auto. fold (ta_pos e N). inversion OK; subst.
      destruct (Hl (project_tuple e k N) H1) as [Q1 Q2]. destruct (IHls H2 (S k)) as [R1 R2]. split; [constructor; auto|]. rewrite Q2. cbn [bind]. rewrite R2. reflexivity. }
    destruct (G (length ls) 0) as [G1 G2]. assert (N : ta_pos e (length ls) 0 ls <> []) by (destruct ls; [congruence|discriminate]).
    cbn [obj_ok build_layout]. rewrite ands_Forall. split; auto. destruct (ta_pos e (length ls) 0 ls) eqn:Q; [congruence|].
    cbn [length Nat.eqb negb guard bind]. rewrite G2. reflexivity.
  - cbn [layout_ok] in OK. rewrite ands_Forall in OK. destruct OK as (NE & ND & NA & OK). cbn [to_array]. fold (ta_lab e (length ls)).
    assert (G : forall N k, Forall (fun p => obj_ok dict_attr (snd p)) (ta_lab e N k ls) /\ map fst (ta_lab e N k ls) = map fst ls /\
      mapM (fun p => let* s := build_layout (snd p) in Ok (fst p, s)) (ta_lab e N k ls) = Ok ls).
    { clear NE ND NA. intros N. induction IH as [|[m l] ls Hl _ IHls]; intros k; cbn [ta_lab mapM]; auto. fold (ta_lab e N). inversion OK; subst. cbn [snd] in *.
      destruct (Hl (project_tuple e k N) H1) as [Q1 Q2]. destruct (IHls H2 (S k)) as (R1 & R2 & R3). split; [constructor; auto|].
      cbn [map fst snd]. rewrite Q2, R2. cbn [bind]. rewrite R3. auto. }
    destruct (G (length ls) 0) as (G1 & G2 & G3). assert (N : ta_lab e (length ls) 0 ls <> []) by (destruct ls as [|[]]; [congruence|discriminate]).
    destruct t as [g|]; cbn [obj_ok build_layout]; rewrite ands_Forall.
    + rewrite G2, G3. auto.
    + rewrite G2. split; [auto|]. destruct (ta_lab e (length ls) 0 ls) eqn:Q; [congruence|].
      cbn [length Nat.eqb negb guard bind]. rewrite G3. reflexivity.
Qed.

(** The inferred size of an axis of an expression the comprehension does not bind. *)
Lemma inferred_size body n sz (t : phi) (E E' : env) w z v :
  infer_size body [SX n] (SX n) = Ok sz -> accessed (SX n) t [] body -> bare n body -> ~ mentions (SX n) t -> unshadowed t ->
  den E sz = Ok w -> val_int w = Ok z ->
  (forall r, isfree r (dim_of t 0) -> is_index r = false -> E' r = E r) ->
  den E' (dim_of t 0) = den (zeroed E') (dim_of t 0) ->
  den E' t = Ok v -> (exists d, vdim v 0 = Ok d) -> vdim v 0 = Ok (Z.to_nat z).
Proof.
  intros Hi HC HB HM U De Ve HE Hrect Dt [d Hd].
  destruct (accessed_in _ t [] body HC (psize body) [SX n] (le_n _)) as (C1 & I1 & _).
  destruct (direct_of_complete _ _ _ _ I1) as [C2 I2].
  assert (Ut : unshadowed (dim_of t 0)) by (apply unshadowed_dim_of; auto).
  assert (Cand : In (with_indices_at_zero (dim_of t 0)) (candidates (direct_of (SX n) (accesses (psize body) [SX n] body)))).
  { unfold candidates. apply in_flat_map. exists (t, C2). split; auto. cbn [fst snd].
    destruct (existsb _ _) eqn:Q; [|simpl; auto]. exfalso.
    apply existsb_exists in Q as (r & Hr & Q). apply smem_In in Q.
    apply direct_of_sound, accesses_accessed in I2 as (C3 & A3 & E3). apply E3 in Q.
    rewrite (HB _ _ A3) in Q. destruct Q as [<-|[]]. apply HM.
    pose proof (tfree_isfree (dim_of t 0) _ Hr) as Hf. apply isfree_mentions in Hf as [ty Hf]. exists ty.
    destruct (dim_of_sub t 0) as (u & Hu & [Q|[ax Q]]); rewrite Q in Hf.
    - eapply sub_of_trans; eauto.
    - inversion Hf as [|? ? ? Hin Hs]; subst. destruct Hin as [<-|[]]. eapply sub_of_trans; eauto. }
  destruct (infer_size_value _ _ _ _ _ _ _ Hi De Ve _ Cand) as (w' & Dw & Vw).
  apply with_indices_at_zero_den in Dw; auto.
  destruct (dim_of_den _ _ _ _ _ Dt Hd) as (w2 & z2 & D2 & V2 & Z2).
  rewrite Hrect in D2. rewrite (den_ext _ (zeroed E') (zeroed E)) in D2.
  - rewrite Dw in D2. injection D2 as <-. rewrite Vw in V2. injection V2 as <-. subst d. exact Hd.
  - intros r Hr. unfold zeroed. destruct (is_index r) eqn:Q; auto.
Qed.

(** A size of a part of [b] has the free symbols of [b]. *)
Lemma dim_of_gets b : forall xs ax, dim_of (gets b xs) ax = dim_of b (length xs + ax).
Proof.
  intros xs. revert b. induction xs as [|x xs IH]; intros b ax; simpl; auto. rewrite IH. simpl. reflexivity.
Qed.

Lemma dim_of_free s e : forall a, free_in s (dim_of e a) -> free_in s e.
Proof.
  clear dict_attr. induction e using phi_ind'; intros a' H'; cbn [dim_of] in H'; try (exact H').
  - cbn [free_in]. left. eauto.
  - destruct a'; cbn [free_in] in *; tauto.
Qed.

End Slice.
