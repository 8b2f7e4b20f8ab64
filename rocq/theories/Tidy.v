(** Programs that bind every symbol once are [tidy]: of every term of the program
    the translation visits one version only, with the counters of the enclosing
    reductions replaced by indices (phi_to_yarr.py:411-413). *)
From Verif Require Import Base Scalar Tensor Types Sym Phi Den Term PhiTerm DenFree SpecPhi Lining Outline Typing
  Sizes ClipShift NdOps NdFacts Yarr Axial AxialFacts AxialOps Codegen IndexOps CodegenGet CodegenCtx CodegenCases Subst
  CodegenAxes Soa SoaFacts YOps CodegenSafe CodegenRed CodegenLocal SizeSound.

Section Tidy.
Context {FO : FloatOps} {EX : Externs}.

(** ** Replacing counters by indices *)
Definition ren : Type := nat -> option nat.
Definition hide (l : list nat) (g : ren) : ren := fun c => if mem c l then None else g c.
Fixpoint rsub (g : ren) (e : phi) : phi :=
  match e with
  | PConst _ => e
  | PStore (SV c) _ => match g c with Some i => p_at i | None => e end
  | PStore (SX _) _ => e
  | PLet x b body => PLet x (rsub g b) (rsub (hide [x] g) body)
  | PAssertEq t ops => PAssertEq (rsub g t) (map (rsub g) ops)
  | PDim t ax => PDim (rsub g t) ax
  | PGet t i => PGet (rsub g t) (rsub g i)
  | PCons a b => PCons (rsub g a) (rsub g b)
  | PFirst t => PFirst (rsub g t)
  | PSecond t => PSecond (rsub g t)
  | PVec i s b => PVec i (rsub g s) (rsub g b)
  | PFold c s acc init b => PFold c (rsub g s) acc (rsub g init) (rsub (hide [c; acc] g) b)
  | PReduce init x y xy vecs => PReduce (rsub g init) x y (rsub (hide [x; y] g) xy) (map (rsub g) vecs)
  | PUn o a => PUn o (rsub g a)
  | PBin o a b => PBin o (rsub g a) (rsub g b)
  | PWhere c a b => PWhere (rsub g c) (rsub g a) (rsub g b)
  | PConcat a b => PConcat (rsub g a) (rsub g b)
  | PExt t f ops => PExt t f (map (rsub g) ops)
  end.

Lemma hide_in l (g : ren) c : In c l -> hide l g c = None.
Proof. intros H. unfold hide. replace (mem c l) with true; auto. symmetry. apply mem_In. auto. Qed.
Lemma hide_out l (g : ren) c : ~ In c l -> hide l g c = g c.
Proof. intros H. unfold hide. destruct (mem c l) eqn:M; auto. apply mem_In in M. tauto. Qed.

Lemma rsub_ext (e : phi) : forall g1 g2 : ren, (forall c, free_in (SV c) e -> g1 c = g2 c) -> rsub g1 e = rsub g2 e.
Proof.
  assert (L : forall ops, Forall (fun e => forall g1 g2 : ren, (forall c, free_in (SV c) e -> g1 c = g2 c) -> rsub g1 e = rsub g2 e) ops ->
    forall g1 g2 : ren, (forall c, fold_right or False (map (free_in (SV c)) ops) -> g1 c = g2 c) -> map (rsub g1) ops = map (rsub g2) ops).
  { intros ops F g1 g2 H. apply map_ext_in. intros o Ho. rewrite Forall_forall in F. apply F; auto. intros c Hc. apply H.
    apply any_Exists. eauto. }
  assert (HD : forall l (g1 g2 : ren) (q : phi), (forall c, ~ In c l -> free_in (SV c) q -> g1 c = g2 c) ->
    forall c, free_in (SV c) q -> hide l g1 c = hide l g2 c).
  { intros l g1 g2 q H c Hc. unfold hide. destruct (mem c l) eqn:M; auto. apply H; auto. rewrite <- mem_In. congruence. }
  induction e using phi_ind'; intros g1 g2 H0; simpl in *; auto; try (f_equal; auto; fail).
  - destruct s as [c|]; auto. rewrite (H0 c); auto.
  - f_equal; [auto|]. apply IHe2. apply HD. intros c N Hc. apply H0. right. split; auto. intros K. apply N. injection K as ->. simpl. auto.
  - f_equal; auto. apply IHe2. intros c Hc. apply H0. right. split; auto. discriminate.
  - f_equal; auto. apply IHe3. apply HD. intros x N Hx. apply H0. right. right.
    repeat split; auto; intros K; apply N; injection K as ->; simpl; auto.
  - f_equal; auto. apply IHe2. apply HD. intros z N Hz. apply H0. right. right.
    repeat split; auto; intros K; apply N; injection K as ->; simpl; auto.
Qed.

Lemma rsub_weight (e : phi) : forall g, weight (rsub g e) = weight e.
Proof.
  assert (L : forall ops, Forall (fun e => forall g, weight (rsub g e) = weight e) ops -> forall g, map weight (map (rsub g) ops) = map weight ops).
  { intros ops F g. rewrite map_map. apply map_ext_in. rewrite Forall_forall in F. auto. }
  induction e using phi_ind'; intros g; simpl; rewrite ?L by auto; try congruence.
  destruct s as [c|]; auto. destruct (g c); auto.
Qed.
Lemma rsub_bsyms (e : phi) : forall g, bsyms (rsub g e) = bsyms e.
Proof.
  assert (L : forall ops, Forall (fun e => forall g, bsyms (rsub g e) = bsyms e) ops -> forall g, flat_map bsyms (map (rsub g) ops) = flat_map bsyms ops).
  { intros ops F g. induction F as [|x l H F IH]; simpl; auto. rewrite H, IH. auto. }
  induction e using phi_ind'; intros g; simpl; rewrite ?L by auto; try congruence.
  destruct s as [c|]; auto. destruct (g c); auto.
Qed.

Definition plus (g : ren) c i : ren := fun x => if x =? c then Some i else g x.
Lemma rsub_at (e : phi) c i : ~ In (SV c) (bsyms e) -> forall g : ren, g c = None -> psub [(SV c, p_at i)] (rsub g e) = rsub (plus g c i) e.
Proof.
  assert (HD : forall l (g : ren) (q : phi), ~ In c l -> rsub (plus (hide l g) c i) q = rsub (hide l (plus g c i)) q).
  { intros l g q N. apply rsub_ext. intros x _. unfold plus, hide. destruct (Nat.eqb_spec x c) as [->|]; auto.
    destruct (mem c l) eqn:M; auto. apply mem_In in M. tauto. }
  assert (HN : forall l (g : ren), g c = None -> hide l g c = None) by (intros l g H; unfold hide; destruct (mem c l); auto).
  assert (L : forall ops, Forall (fun e => ~ In (SV c) (bsyms e) -> forall g : ren, g c = None -> psub [(SV c, p_at i)] (rsub g e) = rsub (plus g c i) e) ops ->
    ~ In (SV c) (flat_map bsyms ops) -> forall g : ren, g c = None -> map (psub [(SV c, p_at i)]) (map (rsub g) ops) = map (rsub (plus g c i)) ops).
  { intros ops F N g H. rewrite map_map. apply map_ext_in. intros o Ho. rewrite Forall_forall in F. apply F; auto.
    intros K. apply N. apply in_flat_map. eauto. }
  induction e using phi_ind'; simpl; intros N g H0; rewrite ?in_app_iff in N; auto;
    try (rewrite ?IHe, ?IHe1, ?IHe2, ?IHe3, ?L by (auto; tauto); auto; fail).
  - destruct s as [x|j]; [|reflexivity]. unfold plus. destruct (Nat.eqb_spec x c) as [->|Q].
    + rewrite H0. simpl. unfold sassoc. simpl. rewrite Nat.eqb_refl. auto.
    + destruct (g x); simpl; auto. unfold sassoc. simpl. destruct (Nat.eqb_spec x c); [congruence|auto].
  - rewrite IHe1, IHe2 by (auto; tauto). f_equal. apply HD. intros [->|[]]. tauto.
  - rewrite IHe1, IHe2, IHe3 by (auto; tauto). f_equal. apply HD. intros [->|[->|[]]]; tauto.
  - rewrite IHe1, IHe2, L by (auto; tauto). f_equal. apply HD. intros [->|[->|[]]]; tauto.
Qed.

(** Symbols of a renamed term *)
Definition renamed (g : ren) (e : phi) (s : sym) : Prop := exists c i, g c = Some i /\ s = SX i /\ free_in (SV c) e.
Lemma rsub_syms (e : phi) s : forall g, In s (syms (rsub g e)) -> In s (syms e) \/ renamed g e s.
Proof.
  assert (HD : forall l g (q q' : phi), (forall c, ~ In c l -> free_in (SV c) q -> free_in (SV c) q') -> renamed (hide l g) q s -> renamed g q' s).
  { intros l g q q' H (c & i & A & B & C). unfold hide in A. destruct (mem c l) eqn:M; [discriminate|]. exists c, i. split; auto. split; auto.
    apply H; auto. rewrite <- mem_In. congruence. }
  assert (SU : forall g (q q' : phi), (forall c, free_in (SV c) q -> free_in (SV c) q') -> renamed g q s -> renamed g q' s).
  { intros g q q' H (c & i & A & B & C). exists c, i. auto. }
  assert (L : forall ops, Forall (fun e => forall g, In s (syms (rsub g e)) -> In s (syms e) \/ renamed g e s) ops ->
    forall g q, (forall c, fold_right or False (map (free_in (SV c)) ops) -> free_in (SV c) q) ->
      In s (flat_map syms (map (rsub g) ops)) -> In s (flat_map syms ops) \/ renamed g q s).
  { intros ops F g q HQ H. apply in_flat_map in H as (o' & Ho & H). apply in_map_iff in Ho as (o & <- & Ho). rewrite Forall_forall in F.
    destruct (F o Ho g H) as [K|K]; [left; apply in_flat_map; eauto|]. right. revert K. apply SU. intros c Hc. apply HQ. apply any_Exists. eauto. }
  induction e using phi_ind'; intros g H0; simpl in H0 |- *; rewrite ?in_app_iff in *; auto.
  - destruct s0 as [c|]; [|left; auto]. destruct (g c) as [i|] eqn:Q; [|left; auto]. right. simpl in H0. destruct H0 as [<-|[]].
    exists c, i. simpl. auto.
  - destruct H0 as [H0|[H0|H0]]; [tauto|apply IHe1 in H0 as [K|K]|apply IHe2 in H0 as [K|K]]; try tauto; right.
    + revert K. apply SU. simpl. auto.
    + revert K. apply HD. simpl. intros c N Hc. right. split; auto. intros Q. injection Q as ->. simpl in N. tauto.
  - destruct H0 as [H0|H0]; [apply IHe in H0 as [K|K]; [tauto|right; revert K; apply SU; simpl; auto]|].
    apply (L ops H g (PAssertEq e ops)) in H0 as [K|K]; simpl; auto.
  - apply IHe in H0 as [K|K]; auto.
  - destruct H0 as [H0|H0]; [apply IHe1 in H0 as [K|K]|apply IHe2 in H0 as [K|K]]; try tauto; right; revert K; apply SU; simpl; auto.
  - destruct H0 as [H0|H0]; [apply IHe1 in H0 as [K|K]|apply IHe2 in H0 as [K|K]]; try tauto; right; revert K; apply SU; simpl; auto.
  - apply IHe in H0 as [K|K]; auto.
  - apply IHe in H0 as [K|K]; auto.
  - destruct H0 as [H0|[H0|H0]]; [tauto|apply IHe1 in H0 as [K|K]|apply IHe2 in H0 as [K|K]]; try tauto; right; revert K; apply SU; simpl; auto.
    intros c Hc. right. split; auto. discriminate.
  - destruct H0 as [H0|[H0|[H0|[H0|H0]]]]; try tauto; [apply IHe1 in H0 as [K|K]|apply IHe2 in H0 as [K|K]|apply IHe3 in H0 as [K|K]]; try tauto; right.
    + revert K. apply SU. simpl. auto.
    + revert K. apply SU. simpl. auto.
    + revert K. apply HD. simpl. intros z N Hz. right. right. repeat split; auto; intros Q; injection Q as ->; simpl in N; tauto.
  - destruct H0 as [H0|[H0|[H0|[H0|H0]]]]; try tauto.
    + apply IHe1 in H0 as [K|K]; [tauto|right; revert K; apply SU; simpl; auto].
    + apply (L vecs H g (PReduce e1 x y e2 vecs)) in H0 as [K|K]; simpl; auto. tauto.
    + apply IHe2 in H0 as [K|K]; [tauto|]. right. revert K. apply HD. simpl. intros z N Hz. right. right. repeat split; auto; intros Q; injection Q as ->; simpl in N; tauto.
  - apply IHe in H0 as [K|K]; auto.
  - destruct H0 as [H0|H0]; [apply IHe1 in H0 as [K|K]|apply IHe2 in H0 as [K|K]]; try tauto; right; revert K; apply SU; simpl; auto.
  - destruct H0 as [H0|[H0|H0]]; [apply IHe1 in H0 as [K|K]|apply IHe2 in H0 as [K|K]|apply IHe3 in H0 as [K|K]]; try tauto; right; revert K; apply SU; simpl; auto.
  - destruct H0 as [H0|H0]; [apply IHe1 in H0 as [K|K]|apply IHe2 in H0 as [K|K]]; try tauto; right; revert K; apply SU; simpl; auto.
Qed.

Lemma weight_sub (e c : phi) : In c (subterms e) -> weight c < weight e.
Proof.
  destruct e; simpl; intros H; try tauto; repeat (destruct H as [<-|H]; [lia|]); try tauto.
  - apply (in_map weight) in H. apply list_sum_In in H. lia.
  - apply in_app_or in H as [H|[<-|[]]]; [|lia]. apply (in_map weight) in H. apply list_sum_In in H. lia.
  - apply (in_map weight) in H. apply list_sum_In in H. lia.
Qed.
Lemma weight_subof (a b : phi) : sub_of a b -> weight a <= weight b.
Proof. induction 1 as [|a c b Hc H IH]; auto. apply weight_sub in Hc. lia. Qed.
Lemma syms_child (e c : phi) s : In c (subterms e) -> In s (syms c) -> In s (syms e).
Proof.
  assert (FM : forall l, In c l -> In s (syms c) -> In s (flat_map syms l)) by (intros; apply in_flat_map; eauto).
  destruct e; simpl; intros H Hs; rewrite ?in_app_iff; repeat (destruct H as [<-|H]; [tauto|]); try tauto; auto.
  apply in_app_or in H as [H|[<-|[]]]; [|tauto]. right. right. right. left. auto.
Qed.
Lemma syms_subof (a b : phi) s : sub_of a b -> In s (syms a) -> In s (syms b).
Proof. induction 1; auto. intros H1. eapply syms_child; eauto. Qed.
Lemma sub_kid (a b c : phi) : sub_of b a -> In c (subterms b) -> sub_of c a.
Proof. intros H K. eapply sub_of_trans; [|exact H]. eapply sub_step; [exact K|constructor]. Qed.

Lemma rsub_none (e : phi) (g : ren) : (forall c, g c = None) -> rsub g e = e.
Proof.
  revert g. assert (L : forall ops, Forall (fun e => forall g : ren, (forall c, g c = None) -> rsub g e = e) ops ->
    forall g : ren, (forall c, g c = None) -> map (rsub g) ops = ops).
  { intros ops F g H. rewrite <- map_id. apply map_ext_in. rewrite Forall_forall in F. auto. }
  assert (HD : forall l (g : ren), (forall c, g c = None) -> forall c, hide l g c = None).
  { intros l g H c. unfold hide. destruct (mem c l); auto. }
  induction e using phi_ind'; intros g H0; simpl; rewrite ?L by auto; auto; try (f_equal; auto; fail).
  destruct s as [c|]; auto. rewrite H0. auto.
Qed.

(** ** The versions of the terms of a program *)
Variable fl : flags.
Variable orc : oracle.
Variable p : phi.
Notation vis := (visits fl orc p).
Notation reds := (reduces fl orc).

(** the index replacing the counter of a visited fold *)
Definition red_index (f : phi) : option nat :=
  match f with
  | PFold c size acc init body =>
      match reds c size acc init body with
      | Some (elem, _) => if smem (SV acc) (fsyms elem) then None else Some (name_of orc f)
      | None => None
      end
  | _ => None
  end.

Inductive ver : phi -> phi -> Prop :=
| ver_intro n g : sub_of n p -> (forall c, free_in (SV c) n -> origin c (g c)) -> ver n (rsub g n)
with origin : nat -> option nat -> Prop :=
| or_none c : (forall size acc init body, ~ sub_of (PFold c size acc init body) p) -> origin c None
| or_fold c size acc init body f : sub_of (PFold c size acc init body) p -> ver (PFold c size acc init body) f -> vis f -> origin c (red_index f).

(** Terms the translation may be called with. *)
Inductive comp : phi -> Prop :=
| C_ver n e : ver n e -> comp e
| C_dim e k : comp e -> comp (PDim e k)
| C_neg a : comp a -> comp (PUn UNeg a)
| C_bin o a b : comp a -> comp b -> comp (PBin o a b)
| C_elems f c size acc init body elem r : let e := PFold c size acc init body in ver f e -> vis e ->
    reds c size acc init body = Some (elem, r) -> smem (SV acc) (fsyms elem) = false -> comp (elems (name_of orc e) c size elem).

Hypothesis DB : distinct_binders p.
(** every call of Index() gives a new one *)
Hypothesis N_inj : forall e e', vis e -> vis e' -> needs_name e = true -> needs_name e' = true -> name_of orc e = name_of orc e' -> e = e'.
Hypothesis N_new : forall e, vis e -> needs_name e = true -> ~ In (SX (name_of orc e)) (syms p).
Hypothesis NE : forall c size acc init body, vis (PFold c size acc init body) -> no_einsum fl (PFold c size acc init body) = true.
Hypothesis AC : forall c size acc init body elem r, vis (PFold c size acc init body) -> reds c size acc init body = Some (elem, r) ->
  strict fl = true \/ ~ In (SV acc) (fsyms elem).

Lemma child_free (n k : phi) s : In k (subterms n) -> free_in s k -> free_in s n \/ In s (captured n).
Proof.
  assert (FM : forall l, In k l -> free_in s k -> fold_right or False (map (free_in s) l)) by (intros; apply any_Exists; eauto).
  destruct n; simpl; intros H F; repeat (destruct H as [<-|H]; [try tauto|]); try tauto; try (left; auto; fail).
  - destruct (sym_eq_dec s (SV x)); auto.
  - destruct (sym_eq_dec s (SX i)); auto.
  - destruct (sym_eq_dec s (SV c)); auto. destruct (sym_eq_dec s (SV acc)); auto. tauto.
  - apply in_app_or in H as [H|[<-|[]]]; [left; right; left; auto|].
    destruct (sym_eq_dec s (SV x)); auto. destruct (sym_eq_dec s (SV y)); auto. tauto.
Qed.

Lemma heavier (a n : phi) s : sub_of n a -> free_in s n -> free_in s a \/ exists f, sub_of f a /\ In s (captured f) /\ weight n < weight f.
Proof.
  induction 1 as [|n c t Hc H IH]; auto. intros F. destruct (IH F) as [K|(f & A & B & D)].
  - destruct (child_free _ _ _ Hc K) as [Q|Q]; auto. right. exists t. split; [constructor|]. split; auto.
    apply weight_subof in H. apply weight_sub in Hc. lia.
  - right. exists f. split; auto. eapply sub_step; eauto.
Qed.

Lemma binder_heavier n f s : sub_of n p -> sub_of f p -> In s (captured f) -> free_in s n -> weight n < weight f.
Proof.
  intros Hn Hf Hs F. destruct (DB f s Hf Hs) as [N U]. destruct (heavier _ _ _ Hn F) as [K|(f' & A & B & D)].
  - exfalso. apply N. apply free_in_isfree. auto.
  - rewrite <- (U f' A B). auto.
Qed.

Lemma uniq_ver : forall k n e1 e2, weight p - weight n < k -> ver n e1 -> ver n e2 -> e1 = e2.
Proof.
  induction k as [|k IH]; intros n e1 e2 W V1 V2; [lia|].
  destruct V1 as [n g1 Hn O1]. remember (rsub g1 n) as e1 eqn:E1. inversion V2 as [n' g2 _ O2]. subst.
  apply rsub_ext. intros c Hc. specialize (O1 c Hc). specialize (O2 c Hc).
  inversion O1 as [c1 N1|c1 s1 a1 i1 b1 f1 S1 R1 I1]; inversion O2 as [c2 N2|c2 s2 a2 i2 b2 f2 S2 R2 I2]; subst; auto.
  - exfalso. eapply N1; eauto.
  - exfalso. eapply N2; eauto.
  - assert (Q : PFold c s2 a2 i2 b2 = PFold c s1 a1 i1 b1).
    { apply (DB (PFold c s1 a1 i1 b1) (SV c)); simpl; auto. }
    injection Q as -> -> -> ->. f_equal. eapply IH; eauto.
    assert (weight n < weight (PFold c s1 a1 i1 b1)) by (eapply binder_heavier; eauto; simpl; auto).
    apply weight_subof in Hn. apply weight_subof in S1. lia.
Qed.
Lemma uniq n e1 e2 : ver n e1 -> ver n e2 -> e1 = e2.
Proof. eapply uniq_ver. constructor. Qed.

Lemma ver_inv n e : ver n e -> exists g, sub_of n p /\ (forall c, free_in (SV c) n -> origin c (g c)) /\ e = rsub g n.
Proof. intros [n' g H O]. eauto. Qed.
Lemma ver_sub n e : ver n e -> sub_of n p.
Proof. intros [? g H _]. auto. Qed.
Lemma ver_weight n e : ver n e -> weight e = weight n.
Proof. intros [? g H _]. apply rsub_weight. Qed.

Lemma ver_kid n g k : sub_of n p -> (forall c, free_in (SV c) n -> origin c (g c)) -> In k (subterms n) ->
  (forall c, free_in (SV c) k -> free_in (SV c) n) -> ver k (rsub g k).
Proof. intros H O K F. constructor; auto. eapply sub_kid; eauto. Qed.

Lemma origin_none n c : sub_of n p -> In (SV c) (captured n) -> (forall c' size acc init body, n <> PFold c' size acc init body) -> origin c None.
Proof.
  intros H Hc N. constructor. intros size acc init body K.
  destruct (DB n (SV c) H Hc) as [_ U]. apply (N c size acc init body). symmetry. apply U; simpl; auto.
Qed.

Lemma ver_under n g k l : sub_of n p -> (forall c, free_in (SV c) n -> origin c (g c)) -> In k (subterms n) ->
  (forall c, In c l -> origin c None) -> (forall c, ~ In c l -> free_in (SV c) k -> free_in (SV c) n) -> ver k (rsub (hide l g) k).
Proof.
  intros H O K L F. constructor; [eapply sub_kid; eauto|]. intros c Hc. destruct (in_dec Nat.eq_dec c l) as [Hl|Hl].
  - rewrite hide_in by auto. auto.
  - rewrite hide_out by auto. auto.
Qed.

Lemma comp_bin o a b : comp (PBin o a b) -> comp a /\ comp b.
Proof.
  intros H. inversion H as [n e V Q| | |o' a' b' A B|]; subst; auto.
  apply ver_inv in V as (g & Hn & O & Q). destruct n as [|[c|]| | | | | | | | | | | | | | |]; try discriminate.
  - simpl in *. destruct (g c); discriminate.
  - simpl in Q. injection Q as -> -> ->. split; eapply C_ver, ver_kid; eauto; simpl; auto.
Qed.

Lemma comp_dim_of e : forall k, comp e -> comp (dim_of e k).
Proof.
  induction e using phi_ind'; intros k C; cbn [dim_of]; try (apply C_dim; auto; fail).
  - apply IHe1. inversion C as [n e V Q| | | |]; subst.
    apply ver_inv in V as (g & Hn & O & Q). destruct n as [|[c|]| | | | | | | | | | | | | | |]; try discriminate.
    + simpl in *. destruct (g c); discriminate.
    + simpl in Q. injection Q as -> ->. eapply C_ver, ver_kid; eauto; simpl; auto.
  - destruct k; [|apply C_dim; auto]. inversion C as [n e V Q| | | |f c size acc init body elem r e V I R NA]; subst.
    + apply ver_inv in V as (g & Hn & O & Q). destruct n as [|[c|]| | | | | | | | | | | | | | |]; try discriminate.
      * simpl in *. destruct (g c); discriminate.
      * simpl in Q. injection Q as -> -> ->. eapply C_ver, ver_kid; eauto; simpl; auto.
    + subst e. apply ver_inv in V as (g & Hn & O & Q).
      destruct f as [|[c0|]| | | | | | | | | | | | | | |]; try discriminate.
      * simpl in *. destruct (g c0); discriminate.
      * simpl in Q. injection Q as _ -> _ _ _. eapply C_ver, ver_kid; eauto; simpl; auto.
Qed.

Definition all_comp (t : option clipped) : Prop :=
  forall d lo hi, t = Some (d, lo, hi) -> forall q, d = Some q \/ lo = Some q \/ hi = Some q -> comp q.
Lemma all_none : all_comp (Some (None, None, None)).
Proof. intros d lo hi H q K. injection H as <- <- <-. destruct K as [K|[K|K]]; discriminate. Qed.
Lemma all_fail : all_comp None.
Proof. intros d lo hi H. discriminate. Qed.
Lemma all_first a b : all_comp a -> all_comp b -> all_comp (first_opt a b).
Proof. intros A B. destruct a; auto. Qed.
Lemma all_add t o : all_comp t -> comp o -> all_comp (clip_shift_add t o).
Proof.
  intros T C d lo hi. unfold clip_shift_add. destruct (negb _); [discriminate|].
  destruct t as [[[d0 [l0|]] [h0|]]|]; try discriminate. intros Q. injection Q as <- <- <-. intros q [K|[K|K]]; try discriminate.
  injection K as <-. destruct d0; auto. apply C_bin; auto. eapply T; eauto.
Qed.
Lemma all_min t o : all_comp t -> comp o -> all_comp (clip_shift_min t o).
Proof.
  intros T C d lo hi. unfold clip_shift_min. destruct (negb _); [discriminate|].
  destruct t as [[[d0 l0] h0]|]; try discriminate. intros Q. injection Q as <- <- <-. intros q [K|[K|K]]; try (eapply T; eauto; fail).
  injection K as <-. destruct h0; auto. apply C_bin; auto. eapply T; eauto.
Qed.
Lemma all_max t o : all_comp t -> comp o -> all_comp (clip_shift_max t o).
Proof.
  intros T C d lo hi. unfold clip_shift_max. destruct (negb _); [discriminate|].
  destruct t as [[[d0 l0] h0]|]; try discriminate. intros Q. injection Q as <- <- <-. intros q [K|[K|K]]; try (eapply T; eauto; fail).
  - injection K as <-. destruct l0; auto. apply C_bin; auto. eapply T; eauto.
  - destruct h0; [|discriminate]. injection K as <-. apply C_bin; auto. eapply T; eauto.
Qed.
Lemma comp_match s e : comp e -> all_comp (match_clipped_shift e s).
Proof.
  induction e using phi_ind'; cbn [match_clipped_shift]; intros C; destruct (is_nil _); try apply all_none; try apply all_fail.
  - destruct (sym_eqb _ _); [apply all_none|apply all_fail].
  - apply comp_bin in C as [C1 C2]. destruct o; try apply all_fail; apply all_first;
      try (apply all_add; auto using C_neg); try (apply all_min; auto); try (apply all_max; auto).
    unfold match_negated. destruct (is_nil _); [apply all_none|apply all_fail].
Qed.
Lemma comp_parts item q : comp item -> In q (shift_parts item) -> comp q.
Proof.
  unfold shift_parts, match_index_clipped_shift. destruct (the_index _) as [i|]; [|intros _ []].
  intros C. pose proof (comp_match (SX i) item C) as H. destruct (match_clipped_shift item (SX i)) as [[[d lo] hi]|]; simpl; [|intros []].
  specialize (H _ _ _ eq_refl). rewrite !in_app_iff. unfold opt_list.
  intros [K|[K|K]]; [destruct d|destruct lo|destruct hi]; try destruct K as [<-|[]]; try destruct K; auto.
Qed.

(** A binder of a symbol does not occur below the node that captures it. *)
Lemma not_below n k s : sub_of n p -> In k (subterms n) -> In s (captured n) -> ~ In s (bsyms k).
Proof.
  intros Hn Hk Hs B. apply bsyms_binder in B as (n' & A & B).
  assert (S' : sub_of n' p) by (eapply sub_of_trans; [exact A|eapply sub_kid; eauto]).
  destruct (DB n s Hn Hs) as [_ U]. rewrite (U n' S' B) in A. apply weight_subof in A. apply weight_sub in Hk. lia.
Qed.

Lemma fold_ver n c size acc init body : ver n (PFold c size acc init body) ->
  exists g size0 init0 body0, n = PFold c size0 acc init0 body0 /\ sub_of n p /\ (forall z, free_in (SV z) n -> origin z (g z)) /\
    size = rsub g size0 /\ init = rsub g init0 /\ body = rsub (hide [c; acc] g) body0.
Proof.
  intros V. remember (PFold c size acc init body) as e eqn:Q. destruct V as [n g Hn O].
  destruct n as [|[c0|]| | | | | | | | | | | | | | |]; try discriminate.
  - simpl in *. destruct (g c0); discriminate.
  - simpl in Q. injection Q as -> <- -> <- <-. exists g, n1, n2, n3. auto 10.
Qed.

Lemma red_bound n c size acc init body elem r : ver n (PFold c size acc init body) -> reds c size acc init body = Some (elem, r) ->
  ~ In (SV c) (bsyms elem) /\ ~ In (SV acc) (bsyms elem).
Proof.
  intros V R. apply fold_ver in V as (g & size0 & init0 & body0 & -> & Hn & O & -> & -> & ->).
  apply reduces_inv in R as (_ & _ & _ & M & _). apply reduction_elem in M as (a & b & Q & E).
  assert (SB : forall s, In s (bsyms elem) -> In s (bsyms body0)).
  { intros s H. rewrite <- (rsub_bsyms body0 (hide [c; acc] g)), Q. simpl. rewrite in_app_iff. destruct E as [[_ ->]|[_ ->]]; auto. }
  split; intros H; apply SB in H; revert H; (eapply not_below; [exact Hn| |]); simpl; auto.
Qed.

(** The elements of a reduction are a version of a term of the program. *)
Lemma red_elem n c size acc init body elem r : let e := PFold c size acc init body in ver n e -> vis e ->
  reds c size acc init body = Some (elem, r) -> smem (SV acc) (fsyms elem) = false ->
  comp (substitute elem [(SV c, p_at (name_of orc e))]).
Proof.
  intros e V I R NA. destruct (red_bound _ _ _ _ _ _ _ _ V R) as [B1 B2].
  rewrite substitute_psub by (intros s [<-|[]]; auto).
  assert (RI : origin c (Some (name_of orc e))).
  { replace (Some (name_of orc e)) with (red_index e) by (unfold e; simpl; rewrite R, NA; auto).
    pose proof V as V'. apply fold_ver in V' as (g & size0 & init0 & body0 & Qn & Hn & _). subst n. eapply or_fold; eauto. }
  set (i := name_of orc e) in *. clearbody i. subst e.
  pose proof V as V'. apply fold_ver in V' as (g & size0 & init0 & body0 & -> & Hn & O & -> & -> & ->).
  apply reduces_inv in R as (_ & _ & _ & M & _). apply reduction_elem in M as (a & b & Q & E).
  destruct body0 as [|[c0|]| | | | | | | | | | | | | | |]; try discriminate.
  { simpl in Q. destruct (hide [c; acc] g c0); discriminate. }
  simpl in Q. injection Q as -> <- <-.
  assert (G : exists elem0, elem = rsub (hide [c; acc] g) elem0 /\ In elem0 [body0_1; body0_2]).
  { destruct E as [[_ ->]|[_ ->]]; eexists; (split; [reflexivity|simpl; auto]). }
  destruct G as (elem0 & -> & HE). rewrite rsub_bsyms in B1, B2. rewrite rsub_at; auto; [|apply hide_in; simpl; auto].
  eapply C_ver. constructor.
  - eapply sub_kid; [eapply sub_kid; [exact Hn|]|]; [simpl; auto|]. exact HE.
  - intros z Hz. unfold plus. destruct (Nat.eqb_spec z c) as [->|N1]; auto.
    destruct (Nat.eq_dec z acc) as [->|N2].
    + rewrite hide_in by (simpl; auto). constructor. intros s' a' i' b' K.
      destruct (DB _ (SV acc) Hn) as [_ U]; [simpl; auto|]. specialize (U _ K ltac:(simpl; auto)). congruence.
    + rewrite hide_out by (simpl; intros [K|[K|[]]]; congruence). apply O. simpl. right. right.
      repeat split; try congruence. destruct HE as [<-|[<-|[]]]; auto.
Qed.

Lemma comp_kid e sc c : vis e -> comp e -> In (sc, c) (kids fl orc e) -> comp c.
Proof.
  intros I C H. destruct C as [n e V|e k C|a C|o a b A B|f c0 size acc init body elem r e V J R NA].
  - assert (LS : forall n g ops, sub_of n p -> (forall c, free_in (SV c) n -> origin c (g c)) -> (forall o, In o ops -> In o (subterms n)) ->
      (forall c, fold_right or False (map (free_in (SV c)) ops) -> free_in (SV c) n) ->
      In (sc, c) (map (pair []) (map (rsub g) ops)) -> comp c).
    { intros n0 g ops Hn O S F K. apply in_map_iff in K as (o & Q & K). injection Q as _ <-. apply in_map_iff in K as (o' & <- & K).
      eapply C_ver, ver_kid; eauto. intros z Hz. apply F. apply any_Exists. eauto. }
    destruct V as [n g Hn O]. destruct n as [|[c0|]| | | | | | | | | | | | | | |].
    all: cbn [rsub kids] in H; try (destruct H; fail).
    all: try (cbn [In] in H; repeat (destruct H as [H|H]; [injection H as _ <-; eapply C_ver, ver_kid; eauto; simpl; auto; fail|]); destruct H; fail).
    + destruct (g c0); destruct H.
    + destruct H as [H|[H|[]]]; injection H as _ <-.
      * eapply C_ver, ver_kid; eauto; simpl; auto.
      * eapply C_ver, ver_under; eauto; simpl; auto.
        -- intros z [<-|[]]. eapply origin_none; eauto; simpl; auto. discriminate.
        -- intros z N Hz. right. split; auto. intros Q. injection Q as ->. tauto.
    + destruct H as [H|[H|[H|H]]]; try (injection H as _ <-).
      * eapply C_ver, ver_kid; eauto; simpl; auto.
      * eapply C_ver, ver_kid; eauto; simpl; auto.
      * apply comp_dim_of. eapply C_ver, ver_kid; eauto; simpl; auto.
      * apply in_map_iff in H as (o & Q & K). injection Q as _ <-. eapply comp_parts; [|exact K]. eapply C_ver, ver_kid; eauto; simpl; auto.
    + destruct H as [H|[H|[]]]; injection H as _ <-; eapply C_ver, ver_kid; eauto; simpl; auto.
      intros z Hz. right. split; auto. discriminate.
    + rename c0 into fc. match type of H with In _ (match ?x with _ => _ end) => destruct x as [[elem r]|] eqn:R end.
      * destruct (smem _ _) eqn:NA; [destruct H|]. destruct H as [H|[H|[]]]; injection H as _ <-.
        -- eapply C_elems; eauto. apply (ver_intro (PFold fc n1 acc n2 n3) g); auto.
        -- eapply C_ver, ver_kid; eauto; simpl; auto.
      * destruct H as [H|[H|[H|[]]]]; injection H as _ <-.
        -- eapply C_ver, ver_kid; eauto; simpl; auto.
        -- eapply C_ver, ver_kid; eauto; simpl; auto.
        -- assert (OC : origin fc None).
           { replace (@None nat) with (red_index (rsub g (PFold fc n1 acc n2 n3))) by (simpl; rewrite R; auto).
             eapply or_fold; eauto. constructor; auto. }
           eapply C_ver, ver_under; eauto; simpl; auto.
           ++ intros z [<-|[<-|[]]]; auto. destruct (Nat.eq_dec acc fc) as [->|N]; auto.
              constructor. intros s' a' i' b' K. destruct (DB _ (SV acc) Hn) as [_ U]; [simpl; auto|].
              specialize (U _ K ltac:(simpl; auto)). congruence.
           ++ intros z N Hz. right. right. repeat split; auto; intros Q; injection Q as ->; tauto.
    + destruct H as [H|[H|H]]; try (injection H as _ <-).
      * eapply C_ver, ver_kid; eauto; simpl; auto.
      * eapply C_ver, ver_under; eauto; simpl.
        -- rewrite in_app_iff. simpl. auto.
        -- intros z [<-|[<-|[]]]; (eapply origin_none; eauto; [simpl; auto|discriminate]).
        -- intros z N Hz. right. right. repeat split; auto; intros Q; injection Q as ->; tauto.
      * eapply (LS _ g vecs Hn O); eauto; simpl; auto. intros o Ho. right. apply in_or_app. auto.
    + eapply (LS _ g ops Hn O); eauto; simpl; auto.
  - destruct H as [H|[]]. injection H as _ <-. auto.
  - destruct H as [H|[]]. injection H as _ <-. auto.
  - destruct H as [H|[H|[]]]; injection H as _ <-; auto.
  - destruct H as [H|[H|[]]]; injection H as _ <-.
    + subst e. apply fold_ver in V as (g & size0 & init0 & body0 & -> & Hn & O & -> & -> & ->). eapply C_ver, ver_kid; eauto; simpl; auto.
    + eapply red_elem; eauto.
Qed.

Lemma vis_comp e : vis e -> comp e.
Proof.
  induction 1 as [|e sc c V IH K].
  - apply (C_ver p). rewrite <- (rsub_none p (fun _ => None)) at 2 by auto. constructor; [constructor|].
    intros c Hc. constructor. intros size acc init body K. destruct (DB _ (SV c) K) as [N _]; [simpl; auto|]. apply N, free_in_isfree. auto.
  - eapply comp_kid; eauto.
Qed.

(** Who binds a symbol. *)
Definition names (f e : phi) : Prop :=
  match f with
  | PFold c size acc init body => exists elem r, reds c size acc init body = Some (elem, r) /\ e = elems (name_of orc f) c size elem
  | PReduce _ _ _ _ _ => e = f
  | _ => False
  end.
Lemma owner e s : vis e -> In s (binds_here fl orc e) ->
  (exists n, ver n e /\ In s (captured n)) \/ exists f, vis f /\ needs_name f = true /\ s = SX (name_of orc f) /\ names f e.
Proof.
  intros I H. destruct (vis_comp e I) as [n e V|e k C|a C|o a b A B|f c0 size acc init body elem r e V J R NA].
  - assert (LS : forall ops, ~ In s (flat_map (@fst (list sym) phi) (map (pair []) ops))).
    { intros ops. induction ops; simpl; auto. }
    unfold binds_here in H. pose proof V as V0. destruct V as [n g Hn O]. destruct n as [|[c0|]| | | | | | | | | | | | | | |].
    all: cbn [rsub kids flat_map fst app In] in H; try tauto.
    + destruct (g c0); destruct H.
    + destruct H as [<-|[]]. left. eexists. split; [exact V0|]. simpl. auto.
    + apply LS in H. tauto.
    + destruct H as [<-|[]]. left. eexists. split; [exact V0|]. simpl. auto.
    + left. eexists. split; [exact V0|]. match type of H with In _ (flat_map _ (match ?x with _ => _ end)) => destruct x as [[elem r]|] eqn:R end.
      * destruct (smem _ _); simpl in H; tauto.
      * simpl in H. simpl. tauto.
    + destruct H as [<-|[<-|[<-|H]]].
      * left. eexists. split; [exact V0|]. simpl. auto.
      * left. eexists. split; [exact V0|]. simpl. auto.
      * right. eexists. split; [exact I|]. simpl. auto.
      * apply LS in H. tauto.
    + apply LS in H. tauto.
  - destruct H.
  - destruct H.
  - destruct H.
  - destruct H as [<-|[]]. right. exists e. split; auto. split; auto. split; auto. unfold e at 1. simpl. eauto.
Qed.

Theorem distinct_tidy : tidy fl orc p.
Proof.
  assert (NS : forall n f, sub_of n p -> vis f -> needs_name f = true -> ~ In (SX (name_of orc f)) (syms n)).
  { intros n f Hn I N K. apply (N_new f I N). eapply syms_subof; eauto. }
  assert (CS : forall n s, sub_of n p -> In s (captured n) -> In s (syms p)).
  { intros n s Hn H. eapply syms_subof; eauto. apply bsyms_syms. apply bound_in_binds. exists n. split; [constructor|auto]. }
  split.
  - exact NE.
  - intros n1 n2 s I1 I2 H1 H2. destruct (owner _ _ I1 H1) as [(m1 & V1 & K1)|(f1 & F1 & T1 & -> & M1)];
      destruct (owner _ _ I2 H2) as [(m2 & V2 & K2)|(f2 & F2 & T2 & Q & M2)].
    + assert (m1 = m2) by (symmetry; eapply DB; [| |eapply ver_sub; eauto|]; eauto using ver_sub). subst. eapply uniq; eauto.
    + subst s. exfalso. apply (N_new f2); auto. eapply CS; [|exact K1]. eapply ver_sub; eauto.
    + exfalso. apply (N_new f1); auto. eapply CS; [|exact K2]. eapply ver_sub; eauto.
    + injection Q as Q. assert (f1 = f2) by (apply N_inj; auto). subst f2. destruct f1; simpl in M1, M2; try tauto; [|congruence].
      destruct M1 as (x1 & r1 & A1 & ->), M2 as (x2 & r2 & A2 & ->). congruence.
  - intros n s I H F. destruct (owner _ _ I H) as [(m & V & K)|(f & Hf & T & -> & M)].
    + destruct (DB m s (ver_sub _ _ V) K) as [N _]. apply N, free_in_isfree. auto.
    + apply (N_new f); auto. apply free_syms. auto.
  - intros e I T H.
    assert (HS : In (SX (name_of orc e)) (syms e)) by (apply in_app_or in H as [H|H]; [apply fsyms_syms|apply bsyms_syms]; auto).
    destruct (vis_comp e I) as [n e V|e k C|a C|o a b A B|f c0 size acc init body elem r e V J R NA]; try discriminate.
    pose proof (ver_weight _ _ V) as WV. destruct V as [n g Hn O].
    apply rsub_syms in HS as [HS|(c & i & G & HS & Hc)].
    + eapply (NS n); eauto.
    + injection HS as HS. subst i. specialize (O c Hc). rewrite G in O. inversion O as [|c' size acc init body f S V If Q1 Q2]. subst c'.
      pose proof (ver_weight _ _ V) as WF. apply ver_inv in V as (g' & _ & _ & Q).
      simpl in Q. subst f. simpl in Q2. destruct (reduces _ _ _ _ _ _ _) as [[elem r]|]; [|discriminate].
      destruct (smem _ _); [discriminate|]. injection Q2 as Q2.
      assert (E : PFold c (rsub g' size) acc (rsub g' init) (rsub (hide [c; acc] g') body) = rsub g n) by (apply N_inj; auto).
      assert (W : weight n < weight (PFold c size acc init body)) by (eapply binder_heavier; eauto; simpl; auto).
      rewrite E in WF. lia.
  - intros c size acc init body elem r I R.
    assert (V : exists n, ver n (PFold c size acc init body)) by (pose proof (vis_comp _ I) as C; inversion C; eauto).
    destruct V as (n & V). destruct (red_bound _ _ _ _ _ _ _ _ V R). split; auto. split; auto. eapply AC; eauto.
Qed.

End Tidy.

(** Naming the new index after a symbol the node binds satisfies [N_inj] and [N_new]. *)
Section Names.
Context {FO : FloatOps} {EX : Externs}.
Definition binder_name (k : nat) (e : phi) : nat :=
  match e with PFold c _ _ _ _ => k + c | PReduce _ x _ _ _ => k + x | _ => 0 end.
Lemma binder_names fl orc p k : distinct_binders p -> (forall e, name_of orc e = binder_name k e) ->
  (forall i, In (SX i) (syms p) -> i < k) ->
  (forall e e', visits fl orc p e -> visits fl orc p e' -> needs_name e = true -> needs_name e' = true -> name_of orc e = name_of orc e' -> e = e') /\
  (forall e, visits fl orc p e -> needs_name e = true -> ~ In (SX (name_of orc e)) (syms p)).
Proof.
  intros DB HN HK. split.
  - assert (B : forall e, visits fl orc p e -> needs_name e = true -> exists n x, ver fl orc p n e /\ In (SV x) (captured n) /\ binder_name k e = k + x).
    { intros e I T. assert (V : exists n, ver fl orc p n e) by (pose proof (vis_comp _ _ _ DB e I) as C; inversion C; subst; try discriminate; eauto).
      destruct V as (n & V). pose proof V as V'. apply ver_inv in V' as (g & _ & _ & ->).
      destruct n as [|[c|]| | | | | | | | | | | | | | |]; simpl in T |- *; try discriminate.
      - destruct (g c); discriminate.
      - eexists. exists c. split; [exact V|]. simpl. auto.
      - eexists. exists x. split; [exact V|]. simpl. auto. }
    intros e e' I I' T T' Q. rewrite !HN in Q. destruct (B e I T) as (n & x & V & C & E), (B e' I' T') as (n' & x' & V' & C' & E').
    assert (x = x') by lia. subst x'. assert (n' = n) by (eapply DB; eauto using ver_sub). subst n'. eapply uniq; eauto.
  - intros e I T H. apply HK in H. rewrite HN in H. destruct e; try discriminate; simpl in H; lia.
Qed.
End Names.
